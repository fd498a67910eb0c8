(* What a step of a worker does to the queue and to the tasks of the other workers. *)
From Coq Require Import List Arith Bool Lia Permutation.
Import ListNotations.
From Verif Require Import Spec Vec Net Graded Bits Util CountProofs OutputSetModel OutputSetProofs PruneProofs PackProofs HuffmanModel HuffmanProofs CanonModel TreeModel StatesModel StatesProofs StatesBounds SearchModel SearchFair SearchFacts SearchInv SearchEdges SearchStep SearchFrames SearchGlobal SearchRun SearchSafe SearchOrder SearchWaits SearchMain SearchClosed SearchSlack SearchGood SearchQuiet SearchReach SearchNext SearchHuff SearchLive SearchReady SearchCost SearchSpend SearchWork SearchPend PipeProofs SearchEnds ExecModel ExecFacts ExecInv ExecStep ExecRun.

(* ---- the queue only gets longer at its end ---- *)
Definition longer (s s' : Sched) : Prop := exists q, sc_queue s' = sc_queue s ++ q.
Lemma longer_refl s : longer s s.
Proof. exists []. now rewrite app_nil_r. Qed.
Lemma longer_trans a b c : longer a b -> longer b c -> longer a c.
Proof. intros (q & E) (q' & E'). exists (q ++ q'). rewrite E', E. now rewrite app_assoc. Qed.
Lemma longer_eq s s' : sc_queue s' = sc_queue s -> longer s s'.
Proof. intros E. exists []. now rewrite app_nil_r. Qed.
Lemma longer_push t s : longer s (push t s).
Proof. exists [t]. reflexivity. Qed.
Lemma longer_notify u s : longer s (fst (notify u s)).
Proof. apply longer_eq. apply notify_flag. Qed.
Lemma longer_cancel c p u : longer (fst p) (fst (cancel c p u)).
Proof.
  unfold cancel. destruct (nth_error (g_tasks c) u) as [y|]; [|apply longer_refl]. destruct (ended y); [apply longer_refl|]. destruct p as (s, a). cbn [fst].
  set (s1 := if tk_sched y then match sc_flag s u with TIdle => push u s | _ => s end else s).
  pose proof (longer_notify u s1) as L. destruct (notify u s1) as (s2, a2). cbn [fst] in *. apply (longer_trans _ s1); auto.
  unfold s1. destruct (tk_sched y); [|apply longer_refl]. destruct (sc_flag s u); try apply longer_refl. apply longer_push.
Qed.
Lemma longer_cancels c ts : forall p, longer (fst p) (fst (fold_left (cancel c) ts p)).
Proof. induction ts as [|u ts IH]; intros p; cbn [fold_left]. apply longer_refl. eapply longer_trans; [|apply IH]. apply longer_cancel. Qed.
Lemma longer_react c t r s : longer s (fst (react c t r s)).
Proof.
  destruct r; cbn [react fst]; try apply longer_refl.
  - now apply longer_eq.
  - destruct (nth_error (g_tasks c) t0) as [y|]; [|apply longer_refl]. destruct (tk_result y); [apply longer_refl|now apply longer_eq].
  - destruct (nth_error (g_tasks c) t0) as [y|]; [|apply longer_refl]. destruct (tk_sched y); [apply longer_refl|apply longer_push].
  - apply (longer_cancels c ts (s, [])).
Qed.
Lemma longer_dropped c f s : longer s (fst (dropped c f s)).
Proof.
  unfold dropped. pose proof (longer_cancels c (all_running (frame_edges f)) (s, [])) as L. destruct (fold_left (cancel c) (all_running (frame_edges f)) (s, [])) as (s1, a1).
  cbn [fst] in L. destruct (held f) as [(s0, id)|]; auto.
Qed.
Lemma longer_wake c t s : longer s (wake c t s).
Proof.
  unfold wake. destruct (nth_error (g_tasks c) t) as [y|]; [|apply longer_refl]. destruct (ended y); [apply longer_refl|].
  destruct (sc_flag s t); [apply longer_push|apply longer_refl|now apply longer_eq].
Qed.

Section Other.
Variables chash mhash : list nat -> nat.
Notation Inv := (Inv chash mhash).
Notation Ready := (Ready chash mhash).
Notation frame_req := (frame_req chash).
Notation access := (access mhash).
Notation task_step := (task_step chash mhash).
Notation drop_frame := (drop_frame mhash).
Notation sys_step := (sys_step chash mhash).
Notation work_step := (work_step chash mhash).
Notation exec_step := (exec_step chash mhash).
Notation poll_step := (poll_step chash mhash).
Notation drop_step := (drop_step mhash).
Notation less := (less mhash).
Notation leq := (leq mhash).

Lemma work_queue x w x' : work_step x w = Some x' ->
  longer (ex_sched x) (ex_sched x') \/
  exists t q, sc_queue (ex_sched x) = t :: q /\ sc_queue (ex_sched x') = q /\ ex_conf x' = ex_conf x /\ nth_error (ex_workers x) w = Some (mkWorker [] JNone) /\
    nth_error (ex_workers x') w = Some (mkWorker [] (if is_cancelled (ex_conf x) t then JDrop t else JPoll t true)).
Proof.
  destruct x as [c s ws]. cbn [ExecModel.work_step ex_conf ex_sched ex_workers]. destruct (nth_error ws w) as [[todo job]|] eqn:N; [|discriminate]. destruct todo as [|[t|u] todo].
  - destruct job as [|t fresh|t|t].
    + destruct (sc_queue s) as [|t q] eqn:Eq; [discriminate|]. intros H. injection H as <-. right. exists t, q. cbn [ex_conf ex_sched ex_workers sc_queue]. repeat split; auto.
      apply nth_error_upd_eq. eapply nth_error_lt; eauto.
    + destruct (poll_step c s t fresh) as [((c', s'), k)|] eqn:Ep; [|discriminate]. intros H. injection H as <-. left. cbn [ex_sched].
      unfold ExecModel.poll_step in Ep. destruct (stack_of c t) as [|f r]. { injection Ep as <- <- <-. now apply longer_eq. }
      destruct (at_pend f && negb fresh). { injection Ep as <- <- <-. apply longer_refl. }
      destruct (task_step c t) as [| |c1]; [|discriminate|]. { injection Ep as <- <- <-. apply longer_eq. unfold wait_on. now destruct (frame_req f). }
      pose proof (longer_react c t (frame_req f) s) as L. destruct (react c t (frame_req f) s) as (s1, a1). cbn [fst] in L. destruct (stack_of c1 t) as [|f1 r1].
      * pose proof (longer_notify t (set_flag t TIdle s1)) as L2. destruct (notify t (set_flag t TIdle s1)) as (s2, a2). cbn [fst] in L2. injection Ep as <- <- <-.
        apply (longer_trans _ s1); auto.
      * injection Ep as <- <- <-. auto.
    + unfold park_step. destruct (is_cancelled c t). { intros H. injection H as <-. left. apply longer_refl. }
      destruct (sc_flag s t) as [| |[|]]; intros H; injection H as <-; left; cbn [ex_sched]; try apply longer_push; now apply longer_eq.
    + destruct (drop_step c s t) as [| |c' s' acts] eqn:D; [|discriminate|]; intros H; injection H as <-; left; cbn [ex_sched]. now apply longer_eq.
      destruct (drop_steps mhash c s t c' s' acts D) as (x & f & rest & _ & _ & _ & -> & _). apply longer_dropped.
  - intros H. injection H as <-. left. apply longer_wake.
  - destruct (is_scheduled c u). { intros H. injection H as <-. left. apply longer_refl. }
    destruct (drop_step c s u) as [| |c' s' acts] eqn:D; [|discriminate|]; intros H; injection H as <-; left; cbn [ex_sched]. apply longer_refl.
    destruct (drop_steps mhash c s u c' s' acts D) as (x & f & rest & _ & _ & _ & -> & _). apply longer_dropped.
Qed.
Lemma exec_queue x x' : exec_step x x' ->
  longer (ex_sched x) (ex_sched x') \/
  exists w t q, sc_queue (ex_sched x) = t :: q /\ sc_queue (ex_sched x') = q /\ ex_conf x' = ex_conf x /\ nth_error (ex_workers x) w = Some (mkWorker [] JNone) /\
    nth_error (ex_workers x') w = Some (mkWorker [] (if is_cancelled (ex_conf x) t then JDrop t else JPoll t true)).
Proof.
  intros [x0 w x0' H|]; [|left; apply longer_push]. destruct (work_queue _ _ _ H) as [L|(t & q & L)]; auto. right. exists w, t, q. auto.
Qed.

(* ---- the tasks of the other workers ---- *)
Definition flag_later (a b : Flag) : Prop := b = a \/ a = TIdle /\ b = TQueued \/ (exists r, a = TRunning r) /\ b = TRunning true.
Definition same_stack (c c' : Config) (v : nat) : Prop := forall y, nth_error (g_tasks c) v = Some y -> exists y', nth_error (g_tasks c') v = Some y' /\ tk_stack y' = tk_stack y.
Lemma same_refl c v : same_stack c c v.
Proof. intros y N. eauto. Qed.
Lemma outer_same c s c' s' acts t v : Ready c -> sys_step c c' -> Outer c s c' s' acts t -> v <> t -> same_stack c c' v /\ flag_later (sc_flag s v) (sc_flag s' v).
Proof.
  intros R H O D. split.
  - intros y N. destruct (step_tasks chash mhash c c' (gd_inv _ _ c (rd_good _ _ c R)) H) as (T & _). destruct (T v y N) as (y' & N' & _). exists y'. split; auto.
    destruct (ou_tasks _ _ _ _ _ _ O v y' D N') as [(y0 & N0 & (_ & _ & E & _))|(N0 & _)]; congruence.
  - destruct (ou_flag _ _ _ _ _ _ O v D) as [E|E]; [left|right; left]; auto.
Qed.
Definition touched (c : Config) (s : Sched) (c' : Config) (s' : Sched) (t : nat) : Prop := forall v, v <> t -> same_stack c c' v /\ flag_later (sc_flag s v) (sc_flag s' v).
Lemma work_touch c s ws w x' : Ready c -> EI (mkExec c s ws) -> work_step (mkExec c s ws) w = Some x' ->
  (exists k, ex_workers x' = upd ws w k) /\ exists t, (busy ws w t \/ ~ running s t) /\ touched c s (ex_conf x') (ex_sched x') t.
Proof.
  intros R X H. pose proof X as [Q F K]. cbn [ex_conf ex_sched ex_workers] in *. cbn [ExecModel.work_step] in H.
  destruct (nth_error ws w) as [[todo job]|] eqn:N; [|discriminate].
  assert (Fr : exists t, ~ running s t /\ nth_error (g_tasks c) t = None).
  { exists (length (g_tasks c)). assert (Z : nth_error (g_tasks c) (length (g_tasks c)) = None) by (apply nth_error_None; auto). split; auto.
    intros (a & Fa). destruct Q as (_ & _ & Q3). rewrite Q3 in Fa. discriminate. unfold is_scheduled. now rewrite Z. }
  destruct Fr as (t0 & Fr & _).
  assert (Loc : forall s' t, (forall v, v <> t -> sc_flag s' v = sc_flag s v) -> touched c s c s' t). { intros s' t E v D. split. apply same_refl. left. auto. }
  assert (Drop : forall t c' s' acts, drop_step c s t = DStep c' s' acts -> touched c s c' s' t).
  { intros t c' s' acts D v Dv. destruct (drop_steps mhash c s t c' s' acts D) as (y & f & rest & Ny & Ey & Hd & -> & ->).
    destruct (drop_outer chash mhash c t c' y f rest s R Q Ny Ey Hd) as (_ & O). eapply outer_same; eauto. eapply SysDrop; eauto. }
  destruct todo as [|[t|u] todo].
  - destruct job as [|t fresh|t|t].
    + destruct (sc_queue s) as [|t q] eqn:Eq; [discriminate|]. injection H as <-. split; [eexists; reflexivity|]. exists t. cbn [ex_conf ex_sched]. split.
      * right. intros (a & Fa). destruct Q as (_ & Q2 & _). destruct (proj1 (Q2 t)) as (Z & _). rewrite Eq. now left. congruence.
      * apply Loc. intros v D. now apply set_at_neq.
    + assert (B : busy ws w t) by (eexists; split; eauto). destruct (poll_step c s t fresh) as [((c', s'), k)|] eqn:Ep; [|discriminate]. injection H as <-.
      split; [eexists; reflexivity|]. exists t. split; auto. cbn [ex_conf ex_sched].
      unfold ExecModel.poll_step in Ep. destruct (stack_of c t) as [|f r] eqn:Es. { injection Ep as <- <- <-. apply Loc. intros v D. now apply set_at_neq. }
      destruct (at_pend f && negb fresh). { injection Ep as <- <- <-. apply Loc. auto. }
      destruct (task_step c t) as [| |c1] eqn:T; [|discriminate|]. { injection Ep as <- <- <-. apply Loc. intros v D. unfold wait_on. now destruct (frame_req f). }
      destruct (nth_error (g_tasks c) t) as [x|] eqn:Nx; [|unfold stack_of in Es; rewrite Nx in Es; discriminate]. rewrite (stack_of_nth c t x Nx) in Es.
      destruct (task_outer chash mhash c t c1 x f r s R Q Nx Es T) as (_ & _ & O). destruct (react c t (frame_req f) s) as (s1, a1). cbn [fst snd] in O.
      assert (Sy : sys_step c c1) by (eapply SysTask; eauto). destruct (stack_of c1 t) as [|f1 r1].
      * destruct (notify t (set_flag t TIdle s1)) as (s2, a2). injection Ep as <- <- <-. cbn [fst snd] in O. destruct O as (O & _). apply F with w; auto. intros v D. eapply outer_same; eauto.
      * injection Ep as <- <- <-. destruct O as (O & _). intros v D. eapply outer_same; eauto.
    + assert (B : busy ws w t) by (eexists; split; eauto). destruct (park_step c s t) as (s', k) eqn:Ep. injection H as <-. split; [eexists; reflexivity|]. exists t. split; auto.
      cbn [ex_conf ex_sched]. apply Loc. intros v D. unfold park_step in Ep. destruct (is_cancelled c t). now injection Ep as <- _.
      destruct (sc_flag s t) as [| |[|]]; injection Ep as <- _; try (now apply set_at_neq); rewrite push_flag; now destruct (Nat.eqb_spec v t).
    + assert (B : busy ws w t) by (eexists; split; eauto). destruct (drop_step c s t) as [| |c' s' acts] eqn:D; [|discriminate|]; injection H as <-; (split; [eexists; reflexivity|]); exists t; (split; [auto|]); cbn [ex_conf ex_sched].
      apply Loc. intros v Dv. now apply set_at_neq. eapply Drop; eauto.
  - injection H as <-. split; [eexists; reflexivity|]. exists t0. split; auto. cbn [ex_conf ex_sched]. intros v D. split. apply same_refl.
    unfold wake. destruct (nth_error (g_tasks c) t) as [y|]; [|now left]. destruct (ended y); [now left|]. destruct (sc_flag s t) as [| |a] eqn:Fl.
    + rewrite push_flag. destruct (Nat.eqb_spec v t) as [->|]; [right; left; auto|now left].
    + now left.
    + cbn [set_flag sc_flag]. destruct (Nat.eq_dec v t) as [->|Dv]. rewrite set_at_eq. right. right. eauto. rewrite set_at_neq; auto. now left.
  - destruct (is_scheduled c u) eqn:Sc. { injection H as <-. split; [eexists; reflexivity|]. exists t0. split; [auto|]. apply Loc. auto. }
    assert (Nu : ~ running s u). { intros (a & Fa). destruct Q as (_ & _ & Q3). rewrite (Q3 u Sc) in Fa. discriminate. }
    destruct (drop_step c s u) as [| |c' s' acts] eqn:D; [|discriminate|]; injection H as <-; (split; [eexists; reflexivity|]); exists u; (split; [auto|]); cbn [ex_conf ex_sched].
    apply Loc. auto. eapply Drop; eauto.
Qed.

(* a step that is not one of worker w *)
Inductive other (w : nat) : Exec -> Exec -> Prop :=
| ot_stay x : other w x x
| ot_work x w' x' : w' <> w -> work_step x w' = Some x' -> other w x x'
| ot_pool c s ws t y : nth_error (g_tasks c) t = Some y -> tk_pend y = true -> tk_sched y = false -> other w (mkExec c s ws) (mkExec (with_task c t set_sched) (push t s) ws).
Lemma stack_same c c' t y : nth_error (g_tasks c) t = Some y -> same_stack c c' t -> stack_of c' t = stack_of c t.
Proof. intros N H. destruct (H y N) as (y' & N' & E). now rewrite (stack_of_nth _ _ _ N), (stack_of_nth _ _ _ N'). Qed.
Lemma running_task c s t : QI (is_scheduled c) s -> running s t -> exists y, nth_error (g_tasks c) t = Some y /\ tk_sched y = true.
Proof.
  intros (_ & _ & Q3) (a & Fa). destruct (is_scheduled c t) eqn:S; [|rewrite (Q3 t S) in Fa; discriminate]. unfold is_scheduled in S. destruct (nth_error (g_tasks c) t) as [y|]; [|discriminate]. eauto.
Qed.
Lemma other_keeps w x x' k t : Ready (ex_conf x) -> EI x -> other w x x' -> nth_error (ex_workers x) w = Some k ->
  nth_error (ex_workers x') w = Some k /\
  (job_task (wk_job k) = Some t -> stack_of (ex_conf x') t = stack_of (ex_conf x) t /\ (sc_flag (ex_sched x) t = TRunning true -> sc_flag (ex_sched x') t = TRunning true)).
Proof.
  intros R X H N. destruct H as [x|x w' x' D H|c s ws t' y Ny _ S]; auto.
  - destruct x as [c s ws]. destruct (work_touch c s ws w' x' R X H) as ((k' & E) & t' & B & T). cbn [ex_conf ex_sched ex_workers] in *.
    pose proof X as [Q (F1 & _ & F3) _]. cbn [ex_conf ex_sched ex_workers] in *. rewrite E. rewrite nth_error_upd_neq by auto. split; auto. intros J.
    assert (Bw : busy ws w t) by (exists k; auto). assert (Dt : t <> t'). { intros ->. destruct B as [B|B]; [|now apply B, (F1 w)]. apply D. now apply (F3 w' w t'). }
    destruct (T t Dt) as (Ss & Fl). destruct (running_task c s t Q (F1 w t Bw)) as (y & Ny & _). split. eapply stack_same; eauto.
    intros Z. rewrite Z in Fl. destruct Fl as [Fl|[(Fl & _)|(_ & Fl)]]; congruence.
  - cbn [ex_conf ex_sched ex_workers] in *. split; auto. intros J. pose proof X as [Q (F1 & _ & F3) _]. cbn [ex_conf ex_sched ex_workers] in *.
    assert (Bw : busy ws w t) by (exists k; auto). destruct (running_task c s t Q (F1 w t Bw)) as (y' & Ny' & Sy').
    assert (Dt : t <> t') by congruence. split. unfold stack_of. rewrite with_task_nth. now destruct (Nat.eqb_spec t t').
    rewrite push_flag. now destruct (Nat.eqb_spec t t').
Qed.

(* cancelled tasks stay cancelled *)
Lemma conf_keeps x x' : Ready (ex_conf x) -> exec_step x x' -> forall t y, nth_error (g_tasks (ex_conf x)) t = Some y -> exists y', nth_error (g_tasks (ex_conf x')) t = Some y' /\ keeps y y'.
Proof.
  intros R H t y N. destruct (exec_conf chash mhash x x' H) as [->|S]. exists y. split; auto using keeps_refl.
  destruct (step_tasks chash mhash _ _ (gd_inv _ _ _ (rd_good _ _ _ R)) S) as (T & _). destruct (T t y N) as (y' & N' & K & _). eauto.
Qed.
Lemma cancelled_keeps x x' t : Ready (ex_conf x) -> exec_step x x' -> is_cancelled (ex_conf x) t = true -> is_cancelled (ex_conf x') t = true.
Proof.
  intros R H. unfold is_cancelled. destruct (nth_error (g_tasks (ex_conf x)) t) as [y|] eqn:N; [|discriminate]. intros C.
  destruct (conf_keeps x x' R H t y N) as (y' & -> & (_ & _ & _ & Kc & _)). auto.
Qed.
Lemma other_step w x x' : other w x x' -> x' = x \/ exec_step x x'.
Proof. intros [x0|x0 w' x0' D H|c s ws t y N P S]; auto. right. eapply ExWork; eauto. right. eapply ExPool; eauto. Qed.
Lemma step_who w x x' : x' = x \/ exec_step x x' -> work_step x w = Some x' \/ other w x x'.
Proof.
  intros [->|H]. right; constructor. destruct H as [x w' x' H|c s ws t y N P S]. destruct (Nat.eq_dec w' w) as [->|D]; auto. right. eapply ot_work; eauto. right. eapply ot_pool; eauto.
Qed.

(* a send is progress *)
Lemma spin_sent c f f' c1 : access c (frame_req f) = ADone c1 (CGo f') -> spin f f' -> g_sent c1 = g_sent c.
Proof.
  intros Ea Sp. assert (NS : forall order e np go done e' np' c1, nspin order e np e' np' -> access c (next_req order e np go done) = ADone c1 (CGo f') -> g_sent c1 = g_sent c).
  { clear. intros order e np go done e' np' c1 Sp Ea. destruct np as [[|id ids] fin nr b| |i [|id ids] b|ids b t]; cbn [next_req] in Ea; cbn [SearchModel.access] in Ea; try (injection Ea as <- _; reflexivity).
    - destruct (nth_error (targets e) id) as [x|]; [|discriminate]. destruct (tg_run x) as [u|]; cbn [SearchModel.access] in Ea; [|injection Ea as <- _; reflexivity].
      destruct (nth_error (g_tasks c) u) as [y|]; [|discriminate]. destruct (tk_result y); [injection Ea as <- _; reflexivity|]. destruct (tk_cancel y); [discriminate|]. injection Ea as <- _; reflexivity.
    - destruct (nth_error (targets e) id) as [x|]; [|discriminate]. destruct (tg_run x) as [u|].
      destruct (i =? 0); cbn [SearchModel.access] in Ea; injection Ea as <- _; reflexivity. destruct (closed (tg_state x)); [discriminate|]. cbn [SearchModel.access] in Ea. injection Ea as <- _; reflexivity. }
  inversion Sp; subst; cbn [SearchModel.frame_req imp_req huff_req] in Ea; try (eapply NS; eauto; fail); cbn [SearchModel.access] in Ea.
  - destruct (sm_get mhash (g_map c) s); [|discriminate]. injection Ea as <- _. reflexivity.
  - destruct (sm_get_lock mhash (g_map c) s (g_next c)) as [[id'|m]|]; [|discriminate|discriminate]. injection Ea as <- _. reflexivity.
  - destruct (existsb (Nat.eqb id) (g_sent c)); [|discriminate]. injection Ea as <-. reflexivity.
Qed.
Lemma sent_less c c' : Ready c -> sys_step c c' -> less c' c \/ g_sent c' = g_sent c.
Proof.
  intros R H. destruct H as [c t c' H|c t x N P|c t c' H]; [|right; reflexivity|left; eapply (drop_less chash mhash); eauto].
  unfold SearchModel.task_step in H. destruct (nth_error (g_tasks c) t) as [x|] eqn:N; [|discriminate]. destruct (tk_sched x) eqn:Sx; [|discriminate]. cbn [negb] in H.
  destruct (tk_stack x) as [|f rest] eqn:E; [discriminate|]. destruct (access c (frame_req f)) as [| |c1 k] eqn:Ea; try discriminate.
  destruct (own_step chash mhash c t x f rest c1 k c' R N Sx E Ea H) as [L|(_ & f' & -> & Sp)]; auto. right.
  destruct (run_ctl_map c1 t rest _ c' H) as (_ & _ & ->). eapply spin_sent; eauto.
Qed.
End Other.
