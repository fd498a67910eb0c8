(* Every step of the executor keeps the invariant of ExecInv, and is a step of the search or none. *)
From Coq Require Import List Arith Bool Lia Permutation.
Import ListNotations.
From Verif Require Import Spec Vec Net Graded Bits Util CountProofs OutputSetModel OutputSetProofs PruneProofs PackProofs HuffmanModel HuffmanProofs CanonModel TreeModel StatesModel StatesProofs StatesBounds SearchModel SearchFair SearchFacts SearchInv SearchEdges SearchStep SearchFrames SearchGlobal SearchRun SearchSafe SearchOrder SearchWaits SearchMain SearchClosed SearchSlack SearchGood SearchQuiet SearchReach SearchNext SearchHuff SearchLive SearchReady SearchCost SearchSpend SearchWork SearchPend PipeProofs SearchEnds ExecModel ExecFacts ExecInv ExecStep.

Section Run.
Variables chash mhash : list nat -> nat.
Notation Inv := (Inv chash mhash).
Notation Ready := (Ready chash mhash).
Notation frame_req := (frame_req chash).
Notation access := (access mhash).
Notation task_step := (task_step chash mhash).
Notation drop_frame := (drop_frame mhash).
Notation sys_step := (sys_step chash mhash).
Notation work_step := (work_step chash mhash).
Notation exec_step := (exec_step chash mhash).
Notation poll_step := (poll_step chash mhash).
Notation drop_step := (drop_step mhash).
Notation exec_run := (exec_run chash mhash).
Notation search_run := (search_run chash mhash).

Lemma job_unique s ws w w' j j' t : FI s ws -> holds ws w j -> holds ws w' j' -> job_task j = Some t -> job_task j' = Some t -> w' = w /\ j' = j.
Proof.
  intros (_ & _ & U) H H' J J'. assert (w' = w) as -> by (apply (U w' w t); eapply holds_busy; eauto). split; auto.
  destruct H as (k & N & <-), H' as (k' & N' & <-). congruence.
Qed.
Lemma KI_busy c s ws w j t y f : FI s ws -> holds ws w j -> job_task j = Some t -> tk_sched y = true ->
  (tk_cancel y = false -> match j with
     | JPoll _ true => parked f
     | JPoll _ false => noted s ws t \/ seen c s t f
     | JPark _ => parked f /\ (noted s ws t \/ watched c s t f)
     | JDrop _ => False
     | JNone => True end) -> KI c s ws t y f.
Proof.
  intros F H J S X. pose proof F as (F1 & _). destruct (F1 w t (holds_busy _ _ _ _ H J)) as (a & Fa).
  assert (U : forall w' j', holds ws w' j' -> job_task j' = Some t -> j = j'). { intros w' j' H' J'. now destruct (job_unique s ws w w' j j' t F H H' J J'). }
  split. { intros C. split; congruence. }
  intros C. specialize (X C). split; [congruence|]. split; [congruence|].
  split; [|split; [|split]]; intros w' H'; pose proof (U w' _ H' eq_refl) as ->; auto.
Qed.
Lemma KI_free c s ws t y f : FI s ws -> ~ running s t ->
  (tk_cancel y = true -> sc_flag s t <> TIdle /\ (tk_sched y = false -> acting ws (ADrop t))) ->
  (tk_cancel y = false -> parked f /\ (sc_flag s t = TIdle -> acting ws (AWake t) \/ watched c s t f)) -> KI c s ws t y f.
Proof.
  intros (F1 & _) R X Y. assert (U : forall w' j', holds ws w' j' -> job_task j' = Some t -> False). { intros w' j' H' J'. apply R. apply (F1 w'). eapply holds_busy; eauto. }
  split; auto. intros C. destruct (Y C) as (P & W). split; auto. split; auto.
  split; [|split; [|split]]; intros w' H'; exfalso; now apply (U w' _ H' eq_refl).
Qed.

Lemma res_with c t g u : (forall y, nth_error (g_tasks c) t = Some y -> tk_result (g y) = tk_result y) -> res_of (with_task c t g) u = res_of c u.
Proof.
  intros H. unfold res_of. rewrite with_task_nth. destruct (Nat.eqb_spec u t) as [->|]; auto. destruct (nth_error (g_tasks c) t) as [y|]; cbn; auto.
Qed.
Lemma is_scheduled_nth c t y : nth_error (g_tasks c) t = Some y -> is_scheduled c t = tk_sched y.
Proof. unfold is_scheduled. now intros ->. Qed.
Lemma stack_of_nth c t y : nth_error (g_tasks c) t = Some y -> stack_of c t = tk_stack y.
Proof. unfold stack_of. now intros ->. Qed.

(* the step of a task, seen from outside *)
Lemma resume_next f v f' : resume f v = Some f' -> frame_next f' = None.
Proof.
  intros E. destruct f as [s l pc|prev s pc|s pc]; try discriminate; destruct pc; try discriminate; cbn [resume] in E; try (destruct (lo st <? lo v)); injection E as <-; reflexivity.
Qed.
Definition tame (k : Ctl) (g : Task -> Task) : Prop :=
  (forall y, tk_sched (g y) = tk_sched y /\ tk_cancel (g y) = tk_cancel y) /\
  (forall y, tk_stack (g y) = [] \/ tk_result (g y) = tk_result y) /\
  (forall P : Frame -> Prop, ctl_all P k -> (forall f, frame_next f = None -> P f) -> forall y f r, tk_stack (g y) = f :: r -> P f).
Lemma step_open c t c' : task_step c t = Stepped c' -> exists x f rest c1 k g, nth_error (g_tasks c) t = Some x /\ tk_sched x = true /\ tk_stack x = f :: rest /\
  access c (frame_req f) = ADone c1 k /\ c' = with_task c1 t g /\ tame k g.
Proof.
  unfold SearchModel.task_step. destruct (nth_error (g_tasks c) t) as [x|]; [|discriminate]. destruct (tk_sched x) eqn:S; [|discriminate]. cbn [negb].
  destruct (tk_stack x) as [|f rest] eqn:E; [discriminate|]. destruct (access c (frame_req f)) as [| |c1 k] eqn:Ea; try discriminate. intros H.
  assert (X : exists g, c' = with_task c1 t g /\ tame k g).
  { destruct k as [f'|f' g|v|]; cbn [run_ctl] in H; try discriminate.
    - injection H as <-. eexists. split; [reflexivity|]. split; [|split]; cbn; auto. intros P Hp _ _ f0 r X. now injection X as <- _.
    - injection H as <-. eexists. split; [reflexivity|]. split; [|split]; cbn; auto. intros P (Hp & Hq) _ _ f0 r X. injection X as <- _. auto.
    - destruct rest as [|f0 r]. injection H as <-. eexists. split; [reflexivity|]. split; [|split]; cbn; auto. discriminate.
      destruct (resume f0 v) as [f1|] eqn:Er; [|discriminate]. injection H as <-. eexists. split; [reflexivity|]. split; [|split]; cbn; auto.
      intros P _ Hn _ f2 r2 X. injection X as <- _. apply Hn. eapply resume_next; eauto. }
  destruct X as (g & -> & G). exists x, f, rest, c1, k, g. auto 10.
Qed.
Lemma access_tasks c f c1 k : access c (frame_req f) = ADone c1 k -> forall u y', nth_error (g_tasks c1) u = Some y' ->
    (exists y, nth_error (g_tasks c) u = Some y /\ evolve y y') \/
    nth_error (g_tasks c) u = None /\ tk_cancel y' = false /\ tk_sched y' = false /\ exists p q, tk_stack y' = [FImp p q ILook].
Proof.
  intros Ea u y' N. destruct (access_new chash mhash c _ c1 k Ea u y' N) as [H|(p & q & pe & k' & _ & -> & ->)]; auto. right. split. now apply nth_error_None. cbn. eauto.
Qed.
Lemma poll_not_kid c t x f rest : Inv c -> nth_error (g_tasks c) t = Some x -> tk_stack x = f :: rest ->
  forall v y g r u, v <> t -> nth_error (g_tasks c) v = Some y -> tk_stack y = g :: r -> In u (kids g) -> ~ polls (frame_req f) u.
Proof.
  intros I N E v y g r u D Ny Ey Ku H. apply D. apply (kid_unique chash mhash c v t y x g f u); auto. rewrite Ey. now left. rewrite E. now left.
  now apply (polls_kid chash).
Qed.

Lemma task_outer c t c' x f rest s : Ready c -> QI (is_scheduled c) s -> nth_error (g_tasks c) t = Some x -> tk_stack x = f :: rest -> task_step c t = Stepped c' ->
  let p := react c t (frame_req f) s in
  flag_grows s (fst p) /\ is_scheduled c' t = true /\
  match stack_of c' t with
  | [] => running s t -> let q := notify t (set_flag t TIdle (fst p)) in Outer c s c' (fst q) (snd p ++ snd q) t /\ sc_flag (fst q) t = TIdle
  | f' :: _ => Outer c s c' (fst p) (snd p) t /\ (parked f \/ seen c s t f -> seen c' (fst p) t f')
  end.
Proof.
  intros R Q N E H. pose proof (gd_inv _ _ c (rd_good _ _ c R)) as I. cbv zeta.
  destruct (step_open c t c' H) as (x' & f0 & rest0 & c1 & k & g & N0 & Sx & E0 & Ea & -> & G & Gr & Gp). rewrite N in N0. injection N0 as <-. rewrite E in E0. injection E0 as <- <-.
  pose proof (access_effect chash mhash c t (frame_req f) s c1 k Ea Q) as Ef. set (p := react c t (frame_req f) s) in *.
  pose proof (access_res chash mhash c _ c1 k Ea) as Rs. pose proof (access_tasks c f c1 k Ea) as Tn. pose proof (poll_not_kid c t x f rest I N E) as Kd.
  destruct (access_old chash mhash c _ c1 k Ea t x N) as (x1 & N1 & Ev).
  assert (Nt : nth_error (g_tasks (with_task c1 t g)) t = Some (g x1)). { rewrite with_task_nth, Nat.eqb_refl, N1. reflexivity. }
  assert (Sg : is_scheduled (with_task c1 t g) t = true). { rewrite (is_scheduled_nth _ _ _ Nt). destruct (G x1) as (-> & _). destruct Ev as (_ & _ & _ & _ & E5 & _). auto. }
  assert (SgE : forall u, is_scheduled (with_task c1 t g) u = is_scheduled c1 u).
  { intros u. unfold is_scheduled. rewrite with_task_nth. destruct (Nat.eqb_spec u t) as [->|]; auto. destruct (nth_error (g_tasks c1) t); cbn; auto. apply G. }
  split. apply (ef_flag _ _ _ _ _ _ _ Ef). split; auto. rewrite (stack_of_nth _ _ _ Nt).
  assert (Tk : forall u, u <> t -> nth_error (g_tasks (with_task c1 t g)) u = nth_error (g_tasks c1) u).
  { intros u D. rewrite with_task_nth. now destruct (Nat.eqb_spec u t). }
  assert (Qp : QI (is_scheduled (with_task c1 t g)) (fst p)). { apply (QI_ext (is_scheduled c1)); auto. now apply (ef_queue _ _ _ _ _ _ _ Ef). }
  destruct (tk_stack (g x1)) as [|f' rest'] eqn:Eg.
  - intros (a & Fa). set (s1 := set_flag t TIdle (fst p)).
    assert (Fp : sc_flag (fst p) t <> TQueued). { destruct (ef_flag _ _ _ _ _ _ _ Ef t) as [->|(F & _)]; congruence. }
    assert (Q1 : QI (is_scheduled (with_task c1 t g)) s1). { apply QI_flag; auto. discriminate. }
    destruct (notify_flag t s1) as (X1 & X2 & X3). split. 2: { rewrite X1. apply set_at_eq. }
    apply (outer_effect chash mhash c s c1 (fst p) (snd p) (polls (frame_req f)) t); auto.
    + intros v D. rewrite X1. now apply set_at_neq.
    + now apply QI_notify.
    + apply (notify_kept t s1).
    + intros u. destruct (Nat.eq_dec u t) as [->|D]. right. intros q Hq. now apply notify_takes.
      left. rewrite <- Rs. unfold res_of. now rewrite Tk.
  - split.
    + rewrite <- (app_nil_r (snd p)). apply (outer_effect chash mhash c s c1 (fst p) (snd p) (polls (frame_req f)) t); auto.
      * intros v. auto.
      * intros u. left. rewrite <- Rs. destruct (Nat.eq_dec u t) as [->|D]; [|unfold res_of; now rewrite Tk].
        unfold res_of. rewrite Nt, N1. destruct (Gr x1) as [Z|Z]; auto. congruence.
    + intros H0. pose proof (own_seen chash mhash c s t f c1 k Ea H0) as Os. fold p in Os.
      assert (Rr : forall u, res_of (with_task c1 t g) u = res_of c u).
      { intros u. rewrite <- Rs. destruct (Nat.eq_dec u t) as [->|D]; [|unfold res_of; now rewrite Tk].
        unfold res_of. rewrite Nt, N1. destruct (Gr x1) as [Z|Z]; auto. congruence. }
      assert (S1 : seen c (fst p) t f'). { apply (Gp (seen c (fst p) t) Os) with (y := x1) (r := rest'); auto. intros f0 E0. unfold seen. now rewrite E0. }
      assert (PP : forall e id, polled c (fst p) t e id -> polled (with_task c1 t g) (fst p) t e id).
      { intros e id P y u Ny Ry. destruct (P y u Ny Ry). split; auto. rewrite Rr. auto. }
      unfold seen in *. destruct (frame_next f') as [(e, [ids fin nr b| | |])|]; auto.
Qed.

(* the drop of a frame, seen from outside *)
Lemma drop_open c t c' : drop_frame c t = Stepped c' -> exists x f rest, nth_error (g_tasks c) t = Some x /\ tk_cancel x = true /\ tk_stack x = f :: rest /\
  g_tasks c' = g_tasks (with_task (cancel_all (all_running (frame_edges f)) c) t (set_stack rest)).
Proof.
  unfold SearchModel.drop_frame. destruct (nth_error (g_tasks c) t) as [x|]; [|discriminate]. destruct (tk_cancel x) eqn:C; [|discriminate]. cbn [negb].
  destruct (tk_stack x) as [|f rest] eqn:E; [discriminate|]. cbv zeta. intros H. exists x, f, rest. repeat split; auto.
  destruct (held f) as [(s, id)|]; [|now injection H as <-]. destruct (sm_unlock mhash _ s); [|discriminate]. now injection H as <-.
Qed.
Lemma drop_task c t c' : drop_frame c t = Stepped c' -> exists x f rest x', nth_error (g_tasks c) t = Some x /\ tk_stack x = f :: rest /\
  nth_error (g_tasks c') t = Some x' /\ tk_cancel x' = true /\ tk_sched x' = tk_sched x /\ tk_stack x' = rest.
Proof.
  intros H. destruct (drop_open c t c' H) as (x & f & rest & N & C & E & T). destruct (cancel_all_evolve chash mhash (all_running (frame_edges f)) c t x N) as (x1 & N1 & (_ & _ & _ & _ & _ & E6) & Es).
  exists x, f, rest, (set_stack rest x1). rewrite T, with_task_nth, Nat.eqb_refl, N1. cbn. repeat split; auto.
Qed.
Lemma drop_outer c t c' x f rest s : Ready c -> QI (is_scheduled c) s -> nth_error (g_tasks c) t = Some x -> tk_stack x = f :: rest -> drop_frame c t = Stepped c' ->
  let p := dropped c f s in flag_grows s (fst p) /\ Outer c s c' (fst p) (snd p) t.
Proof.
  intros R Q N E H. pose proof (gd_inv _ _ c (rd_good _ _ c R)) as I. cbv zeta. destruct (drop_open c t c' H) as (x' & f' & rest' & N' & C & E' & Tk).
  rewrite N in N'. injection N' as <-. rewrite E in E'. injection E' as <- <-. set (ts := all_running (frame_edges f)) in *.
  pose proof (dropped_effect chash mhash c t x f rest c' s N E H) as Ef. split. apply (ef_flag _ _ _ _ _ _ _ Ef).
  rewrite <- (app_nil_r (snd (dropped c f s))). apply (outer_effect chash mhash c s c' (fst (dropped c f s)) (snd (dropped c f s)) (fun _ => False) t); auto.
  - now apply (ef_queue _ _ _ _ _ _ _ Ef).
  - intros v. auto.
  - intros u. left. unfold res_of. rewrite Tk, with_task_nth. destruct (nth_error (g_tasks c) u) as [y|] eqn:Ny.
    + destruct (cancel_all_evolve chash mhash ts c u y Ny) as (y1 & -> & (_ & _ & _ & E4 & _) & _). destruct (u =? t); cbn; auto.
    + replace (nth_error (g_tasks (cancel_all ts c)) u) with (@None Task). now destruct (u =? t). symmetry. apply nth_error_None. rewrite cancel_all_length. now apply nth_error_None.
  - intros u y' D Ny'. left. rewrite Tk, with_task_nth in Ny'. destruct (Nat.eqb_spec u t) as [|_]; [contradiction|].
    assert (Lu : u < length (g_tasks c)). { rewrite <- (cancel_all_length ts c). eapply nth_error_lt; eauto. }
    destruct (nth_error (g_tasks c) u) as [y|] eqn:Ny; [|apply nth_error_None in Ny; lia].
    destruct (cancel_all_evolve chash mhash ts c u y Ny) as (y1 & Ny1 & Ev & _). exists y. split; auto. congruence.
Qed.
Lemma drop_ends c s t x : nth_error (g_tasks c) t = Some x -> drop_step c s t = DEnd -> tk_cancel x = true -> tk_stack x = [].
Proof.
  intros N D C. unfold ExecModel.drop_step in D. rewrite (stack_of_nth c t x N) in D. destruct (tk_stack x) as [|f rest] eqn:E; auto. exfalso.
  destruct (drop_frame c t) as [| |c'] eqn:H; [|discriminate|destruct (dropped c f s); discriminate].
  unfold SearchModel.drop_frame in H. rewrite N, E, C in H. cbn [negb] in H. cbv zeta in H. destruct (held f) as [(s0, id)|]; [|discriminate]. destruct (sm_unlock mhash _ s0); discriminate.
Qed.
Lemma drop_steps c s t c' s' acts : drop_step c s t = DStep c' s' acts -> exists x f rest, nth_error (g_tasks c) t = Some x /\ tk_stack x = f :: rest /\
  drop_frame c t = Stepped c' /\ s' = fst (dropped c f s) /\ acts = snd (dropped c f s).
Proof.
  unfold ExecModel.drop_step, stack_of. destruct (nth_error (g_tasks c) t) as [x|] eqn:N; [|destruct (drop_frame c t); discriminate].
  destruct (tk_stack x) as [|f rest] eqn:E; [destruct (drop_frame c t); discriminate|]. destruct (drop_frame c t) as [| |c0] eqn:H; try discriminate.
  destruct (dropped c f s) as (s0, a0) eqn:Ed. intros X. injection X as <- <- <-. exists x, f, rest. rewrite Ed. auto.
Qed.

(* ---- projection ---- *)
Lemma work_conf x w x' : work_step x w = Some x' -> ex_conf x' = ex_conf x \/ sys_step (ex_conf x) (ex_conf x').
Proof.
  destruct x as [c s ws]. cbn [ExecModel.work_step ex_conf]. destruct (nth_error ws w) as [[todo job]|]; [|discriminate]. destruct todo as [|[t|u] todo].
  - destruct job as [|t fresh|t|t].
    + destruct (sc_queue s); [discriminate|]. intros H. injection H as <-. auto.
    + unfold ExecModel.poll_step. destruct (stack_of c t) as [|f r]. { intros H. injection H as <-. auto. }
      destruct (at_pend f && negb fresh). { intros H. injection H as <-. auto. }
      destruct (task_step c t) as [| |c'] eqn:T; try discriminate. { intros H. injection H as <-. auto. }
      destruct (react c t (frame_req f) s) as (s1, a1). destruct (stack_of c' t). destruct (notify t (set_flag t TIdle s1)) as (s2, a2).
      intros H. injection H as <-. right. now apply (SysTask _ _ c t). intros H. injection H as <-. right. now apply (SysTask _ _ c t).
    + destruct (park_step c s t). intros H. injection H as <-. auto.
    + destruct (drop_step c s t) as [| |c' s' acts] eqn:D; try discriminate; intros H; injection H as <-; auto. right.
      destruct (drop_steps _ _ _ _ _ _ D) as (x & f & rest & _ & _ & Hd & _). now apply (SysDrop _ _ c t).
  - intros H. injection H as <-. auto.
  - destruct (is_scheduled c u). { intros H. injection H as <-. auto. } destruct (drop_step c s u) as [| |c' s' acts] eqn:D; try discriminate; intros H; injection H as <-; auto. right.
    destruct (drop_steps _ _ _ _ _ _ D) as (x & f & rest & _ & _ & Hd & _). now apply (SysDrop _ _ c u).
Qed.
Lemma exec_conf x x' : exec_step x x' -> ex_conf x' = ex_conf x \/ sys_step (ex_conf x) (ex_conf x').
Proof. intros [x0 w x0' H|c s ws t y N P S]. eapply work_conf; eauto. right. cbn [ex_conf]. eapply SysPool; eauto. Qed.
Lemma exec_search workers threads initial limit x : exec_run workers threads initial limit x -> search_run threads initial limit (ex_conf x).
Proof. induction 1 as [c H|x x' H IH S]. now apply run_start. destruct (exec_conf x x' S) as [->|S']; auto. eapply run_step; eauto. Qed.

(* ---- preservation ---- *)
Lemma wake_step c s ws w t todo job : Ready c -> EI (mkExec c s ws) -> nth_error ws w = Some (mkWorker (AWake t :: todo) job) -> EI (mkExec c (wake c t s) (upd ws w (mkWorker todo job))).
Proof.
  intros R X N. pose proof X as [Q F K]. cbn [ex_conf ex_sched ex_workers] in *. pose proof (gd_inv _ _ c (rd_good _ _ c R)) as I.
  assert (S : Outer c s c (wake c t s) [] t /\ (forall v, running (wake c t s) v <-> running s v)).
  { unfold wake. destruct (nth_error (g_tasks c) t) as [y|] eqn:Ny; [|split; [apply outer_local; auto; apply incl_refl|tauto]].
    destruct (ended y); [split; [apply outer_local; auto; apply incl_refl|tauto]|]. destruct (sc_flag s t) as [| |a] eqn:Fl.
    - split.
      + apply outer_local; auto. intros v D. now apply set_at_neq. apply (QI_push (is_scheduled c)); auto; try (left; congruence).
        destruct (is_scheduled c t) eqn:Sc; auto. destruct Q as (_ & _ & Q3). rewrite (Q3 t Sc) in Fl. discriminate. apply incl_refl.
      + intros v. unfold running. rewrite push_flag. destruct (Nat.eqb_spec v t) as [->|]; [|tauto]. rewrite Fl. split; intros (a & H); discriminate.
    - split; [apply outer_local; auto; apply incl_refl|tauto].
    - assert (Sc : is_scheduled c t = true). { destruct (is_scheduled c t) eqn:Sc; auto. destruct Q as (_ & _ & Q3). rewrite (Q3 t Sc) in Fl. discriminate. }
      split.
      + apply outer_local; auto. intros v D. now apply set_at_neq. apply QI_flag; auto; congruence. apply incl_refl.
      + intros v. unfold running, set_flag. cbn [sc_flag]. destruct (Nat.eq_dec v t) as [->|D]. rewrite set_at_eq, Fl. split; intros _; eauto. now rewrite set_at_neq. }
  destruct S as (O & Rn). assert (F' : FI (wake c t s) (upd ws w (mkWorker todo job))) by (eapply FI_keep; eauto).
  pose proof (nth_error_lt _ _ _ N) as L.
  apply (EI_outer chash mhash c s ws c (wake c t s) [] t w (mkWorker (AWake t :: todo) job) (mkWorker todo job)); eauto; try (intros v []; fail).
  - intros a A1 A2 [H|H]; cbn; auto. congruence.
  - intros y f rest Ny Ey. pose proof (K t y f rest Ny Ey) as (K1 & K2). pose proof (no_result chash mhash c t y f rest I Ny Ey) as Ry.
    assert (Hj : forall w' j, holds (upd ws w (mkWorker todo job)) w' j -> holds ws w' j).
    { intros w' j H. apply holds_upd in H; auto. destruct (Nat.eqb_spec w' w) as [->|]; auto. exists (mkWorker (AWake t :: todo) job). auto. }
    unfold wake. rewrite Ny. unfold ended. rewrite Ry, orb_false_r. destruct (tk_cancel y) eqn:Cy.
    + split; [|congruence]. intros _. destruct (K1 eq_refl) as (A & B). split; auto. intros Sy. apply (acting_upd ws w _ _ _ N). cbn. intros [H|H]; auto. discriminate. auto.
    + split; [congruence|]. intros _. destruct (K2 eq_refl) as (I1 & I2 & I3 & I4 & I5 & I6).
      assert (NW : forall a, sc_flag s t = TRunning a -> noted (set_flag t (TRunning true) s) (upd ws w (mkWorker todo job)) t). { intros a _. left. apply set_at_eq. }
      assert (NR : (forall a, sc_flag s t <> TRunning a) -> forall w' j, holds ws w' j -> job_task j = Some t -> False).
      { intros Ha w' j H Hj'. destruct F as (F1 & _). destruct (F1 w' t) as (a & Fa). eapply holds_busy; eauto. now apply (Ha a). }
      destruct (sc_flag s t) as [| |a] eqn:Fl.
      * assert (NR' : forall w' j, holds ws w' j -> job_task j = Some t -> False) by (apply NR; discriminate).
        destruct (I1 eq_refl) as (P & _). rewrite push_flag, Nat.eqb_refl. repeat split; auto; try discriminate; try (intros w' H; exfalso; apply (NR' w' _ (Hj _ _ H) eq_refl)).
        exfalso; apply (NR' w0 _ (Hj _ _ H) eq_refl).
      * assert (NR' : forall w' j, holds ws w' j -> job_task j = Some t -> False) by (apply NR; discriminate). rewrite Fl.
        repeat split; auto; try discriminate; try (intros w' H; exfalso; apply (NR' w' _ (Hj _ _ H) eq_refl)); exfalso; apply (NR' w0 _ (Hj _ _ H) eq_refl).
      * cbn [set_flag sc_flag]. rewrite set_at_eq. split; [discriminate|]. split; [discriminate|]. split; [|split; [|split]].
        -- intros w' H. apply (I3 w'). auto.
        -- intros w' H. left. eapply NW; eauto.
        -- intros w' H. split. apply (I5 w'). auto. left. eapply NW; eauto.
        -- intros w' H. apply (I6 w'). auto.
Qed.
Lemma running_grows s s' : flag_grows s s' -> forall v, running s' v <-> running s v.
Proof. intros H v. unfold running. destruct (H v) as [->|(-> & ->)]; [tauto|]. split; intros (a & E); discriminate. Qed.
Lemma KI_ws c s ws ws' t y f : (forall w j, holds ws' w j -> holds ws w j) -> (acting ws (AWake t) -> acting ws' (AWake t)) ->
  (tk_cancel y = true -> tk_sched y = false -> acting ws' (ADrop t)) -> KI c s ws t y f -> KI c s ws' t y f.
Proof.
  intros Hj Ha Hd (K1 & K2). assert (Hn : noted s ws t -> noted s ws' t) by (unfold noted; tauto). split.
  - intros C. destruct (K1 C) as (A & _). split; auto.
  - intros C. destruct (K2 C) as (I1 & I2 & I3 & I4 & I5 & I6). split; [|split; [|split; [|split; [|split]]]]; auto.
    + intros F. destruct (I1 F) as (P & [A|A]); auto.
    + intros w H. apply (I3 w). auto.
    + intros w H. destruct (I4 w (Hj _ _ H)); auto.
    + intros w H. destruct (I5 w (Hj _ _ H)) as (P & [A|A]); auto.
    + intros w H. apply (I6 w). auto.
Qed.
Lemma holds_same ws w k0 k w' j : nth_error ws w = Some k0 -> wk_job k = wk_job k0 -> holds (upd ws w k) w' j -> holds ws w' j.
Proof.
  intros N E H. apply holds_upd in H; [|eapply nth_error_lt; eauto]. destruct (Nat.eqb_spec w' w) as [->|]; auto. exists k0. split; auto. congruence.
Qed.
Lemma outer_refl c s t : QI (is_scheduled c) s -> Outer c s c s [] t.
Proof. intros Q. apply outer_local; auto. apply incl_refl. Qed.

Lemma skip_step c s ws w u todo job : Ready c -> EI (mkExec c s ws) -> nth_error ws w = Some (mkWorker (ADrop u :: todo) job) ->
  (is_scheduled c u = true \/ drop_step c s u = DEnd) -> EI (mkExec c s (upd ws w (mkWorker todo job))).
Proof.
  intros R X N H. pose proof X as [Q F K]. cbn [ex_conf ex_sched ex_workers] in *.
  apply (EI_outer chash mhash c s ws c s [] u w (mkWorker (ADrop u :: todo) job) (mkWorker todo job)); auto.
  - now apply outer_refl.
  - eapply FI_keep; eauto. tauto.
  - intros a [].
  - intros a A1 A2 [Z|Z]; cbn; auto. congruence.
  - intros y f rest Ny Ey. apply (KI_ws c s ws); eauto.
    + intros w' j. apply (holds_same ws w (mkWorker (ADrop u :: todo) job)); auto.
    + apply (acting_upd ws w _ _ _ N). cbn. intros [Z|Z]; auto. discriminate.
    + intros C S. exfalso. destruct H as [H|H]. rewrite (is_scheduled_nth c u y Ny) in H. congruence.
      rewrite (drop_ends c s u y Ny H C) in Ey. discriminate.
Qed.
Lemma adrop_step c s ws w u todo job c' s' acts : Ready c -> EI (mkExec c s ws) -> nth_error ws w = Some (mkWorker (ADrop u :: todo) job) ->
  is_scheduled c u = false -> drop_step c s u = DStep c' s' acts -> EI (mkExec c' s' (upd ws w (mkWorker (acts ++ ADrop u :: todo) job))).
Proof.
  intros R X N S D. pose proof X as [Q F K]. cbn [ex_conf ex_sched ex_workers] in *.
  destruct (drop_steps c s u c' s' acts D) as (x & f & rest & Nx & Ex & Hd & -> & ->).
  destruct (drop_outer c u c' x f rest s R Q Nx Ex Hd) as (G & O).
  destruct (drop_task c u c' Hd) as (x0 & f0 & rest0 & x' & Nx0 & Ex0 & Nx' & Cx' & Sx' & Ex'). rewrite Nx in Nx0. injection Nx0 as <-.
  rewrite (is_scheduled_nth c u x Nx) in S.
  apply (EI_outer chash mhash c s ws c' _ (snd (dropped c f s)) u w (mkWorker (ADrop u :: todo) job) (mkWorker (snd (dropped c f s) ++ ADrop u :: todo) job)); auto.
  - eapply FI_keep; eauto. now apply running_grows.
  - intros a H. apply in_or_app. auto.
  - intros a A1 A2 [Z|Z]; cbn; apply in_or_app; right; cbn; auto.
  - intros y g r Ny Ey. rewrite Nx' in Ny. injection Ny as <-. split; [|congruence]. intros _. split.
    + apply (grows_idle s); auto. destruct Q as (_ & _ & Q3). rewrite Q3. discriminate. now rewrite (is_scheduled_nth c u x Nx).
    + intros _. apply acting_new. eapply nth_error_lt; eauto. apply in_or_app. right. now left.
Qed.
Lemma take_step c s ws w t q : Ready c -> EI (mkExec c s ws) -> nth_error ws w = Some (mkWorker [] JNone) -> sc_queue s = t :: q ->
  EI (mkExec c (mkSched (set_at (sc_flag s) t (TRunning false)) q (sc_awaiter s) (sc_waits s)) (upd ws w (mkWorker [] (if is_cancelled c t then JDrop t else JPoll t true)))).
Proof.
  intros R X N E. pose proof X as [Q F K]. cbn [ex_conf ex_sched ex_workers] in *.
  pose proof Q as (_ & Q2 & _). destruct (proj1 (Q2 t)) as (Fl & Sc). { rewrite E. now left. }
  set (s' := mkSched (set_at (sc_flag s) t (TRunning false)) q (sc_awaiter s) (sc_waits s)). set (j := if is_cancelled c t then JDrop t else JPoll t true).
  assert (J : job_task j = Some t). { unfold j. now destruct (is_cancelled c t). }
  assert (Q' : QI (is_scheduled c) s'). { apply QI_pop; auto. discriminate. }
  assert (F' : FI s' (upd ws w (mkWorker [] j))).
  { apply (FI_begin s ws s' w (mkWorker [] JNone) (mkWorker [] j) t); auto.
    - intros (a & H). congruence.
    - exists false. apply set_at_eq.
    - intros u D. unfold running, s'. cbn [sc_flag]. now rewrite set_at_neq. }
  apply (EI_outer chash mhash c s ws c s' [] t w (mkWorker [] JNone) (mkWorker [] j)); auto.
  - apply outer_local; auto. intros v D. now apply set_at_neq. apply incl_refl.
  - intros a [].
  - intros v D H. cbn in H. congruence.
  - intros y f rest Ny Ey. apply (KI_busy c s' _ w j); auto.
    + apply holds_upd. eapply nth_error_lt; eauto. now rewrite Nat.eqb_refl.
    + now rewrite (is_scheduled_nth c t y Ny) in Sc.
    + intros C. unfold j, is_cancelled. rewrite Ny, C. destruct (K t y f rest Ny Ey) as (_ & K2). destruct (K2 C) as (_ & I2 & _). auto.
Qed.

Lemma blocked_frame c t x f rest : Ready c -> nth_error (g_tasks c) t = Some x -> tk_sched x = true -> tk_stack x = f :: rest -> tk_cancel x = false -> task_step c t = Blocked ->
  match f with FImp _ _ (IWait id) => ~ In id (g_sent c) | FMain _ _ (MDone _) => True | _ => False end.
Proof.
  intros R N S E C H. pose proof (gd_tasks _ _ c (rd_good _ _ c R) t x N) as (_ & L & _). specialize (L C f rest E).
  unfold SearchModel.task_step in H. rewrite N, S, E in H. cbn [negb] in H.
  assert (B : access c (frame_req f) = ABlocked).
  { destruct (access c (frame_req f)) as [| |c1 k]; auto. discriminate. destruct k as [f'|f' g|v|]; cbn [run_ctl] in H; try discriminate. destruct rest as [|f0 r]; try discriminate. destruct (resume f0 v); discriminate. }
  assert (Fr : free f -> False). { intros Fr. apply (req_free_go mhash c (frame_req f)); auto. now apply free_req. }
  destruct f as [s l pc|prev s pc|s pc]; destruct pc; cbn [live free] in *; try tauto.
  - cbn [SearchModel.frame_req imp_req SearchModel.access] in B. intros Hi. replace (existsb (Nat.eqb id) (g_sent c)) with true in B. discriminate.
    symmetry. apply existsb_exists. exists id. split; auto. apply Nat.eqb_refl.
  - destruct np; try tauto. discriminate.
  - destruct np; try tauto. discriminate.
Qed.
Lemma poll_keep c s ws w t fresh c' s' k : Ready c -> EI (mkExec c s ws) -> nth_error ws w = Some (mkWorker [] (JPoll t fresh)) ->
  poll_step c s t fresh = Some (c', s', k) -> EI (mkExec c' s' (upd ws w k)).
Proof.
  intros R X N H. pose proof X as [Q F K]. cbn [ex_conf ex_sched ex_workers] in *.
  assert (Hw : holds ws w (JPoll t fresh)) by (eexists; split; eauto). assert (Bw : busy ws w t) by (eapply holds_busy; eauto).
  pose proof F as (F1 & _). destruct (F1 w t Bw) as (a & Fl). pose proof (nth_error_lt _ _ _ N) as L.
  assert (Sc : is_scheduled c t = true). { destruct (is_scheduled c t) eqn:Sc; auto. destruct Q as (_ & _ & Q3). rewrite (Q3 t Sc) in Fl. discriminate. }
  assert (Nw : forall k', holds (upd ws w k') w (wk_job k')). { intros k'. apply holds_upd; auto. now rewrite Nat.eqb_refl. }
  assert (Nt : forall s1 k', noted s ws t -> (sc_flag s1 t = sc_flag s t) -> noted s1 (upd ws w k') t).
  { intros s1 k' [Z|Z] E1; [left; congruence|right]. revert Z. apply (acting_upd ws w _ _ _ N). intros []. }
  unfold ExecModel.poll_step in H. destruct (nth_error (g_tasks c) t) as [x|] eqn:Nx; [|unfold is_scheduled in Sc; now rewrite Nx in Sc].
  rewrite (stack_of_nth c t x Nx) in H. rewrite (is_scheduled_nth c t x Nx) in Sc. destruct (tk_stack x) as [|f rest] eqn:Ex.
  - injection H as <- <- <-. assert (Q' : QI (is_scheduled c) (set_flag t TIdle s)). { apply QI_flag; auto; try congruence. now rewrite (is_scheduled_nth c t x Nx). }
    apply (EI_outer chash mhash c s ws c _ [] t w (mkWorker [] (JPoll t fresh)) (mkWorker [] JNone)); auto; try discriminate.
    + apply outer_local; auto. intros v D. now apply set_at_neq. apply incl_refl.
    + apply (FI_end s ws _ w (mkWorker [] (JPoll t fresh)) (mkWorker [] JNone) t); auto.
      * unfold running. cbn [set_flag sc_flag]. rewrite set_at_eq. intros (b & Z). discriminate.
      * intros u D. unfold running. cbn [set_flag sc_flag]. now rewrite set_at_neq.
    + intros b [].
    + intros y g r Ny Ey. congruence.
  - pose proof (K t x f rest Nx Ex) as (_ & K2). destruct (at_pend f && negb fresh) eqn:Ap.
    + injection H as <- <- <-. apply andb_true_iff in Ap. destruct Ap as (Ap & Fr). destruct fresh; [discriminate|].
      assert (F' : FI s (upd ws w (mkWorker [] (JPark t)))). { eapply FI_keep; eauto. tauto. }
      apply (EI_outer chash mhash c s ws c s [] t w (mkWorker [] (JPoll t false)) (mkWorker [] (JPark t))); auto.
      * now apply outer_refl.
      * intros b [].
      * intros v D Z. cbn in Z. congruence.
      * intros y g r Ny Ey. rewrite Nx in Ny. injection Ny as <-. rewrite Ex in Ey. injection Ey as <- <-.
        apply (KI_busy c s _ w (JPark t)); auto. apply (Nw (mkWorker [] (JPark t))). intros C. destruct (K2 C) as (_ & _ & _ & I4 & _).
        split. { unfold parked. unfold at_pend in Ap. destruct f as [s0 l pc|prev s0 pc|s0 pc]; cbn [frame_next]; auto; destruct pc; auto; destruct np; auto; discriminate. }
        destruct (I4 w Hw) as [Z|Z]; [left; now apply Nt|right]. apply watched_next. unfold seen in Z.
        unfold at_pend in Ap. destruct f as [s0 l pc|prev s0 pc|s0 pc]; try discriminate; destruct pc; try discriminate; destruct np; try discriminate; exact Z.
    + destruct (task_step c t) as [| |c1] eqn:T; [| discriminate |].
      * injection H as <- <- <-. assert (Fw : forall v, sc_flag (wait_on t (frame_req f) s) v = sc_flag s v). { intros v. unfold wait_on. now destruct (frame_req f). }
        assert (Ww : incl (sc_waits s) (sc_waits (wait_on t (frame_req f) s))). { unfold wait_on. destruct (frame_req f); try apply incl_refl. intros z Hz. apply in_or_app. now left. }
        assert (Q' : QI (is_scheduled c) (wait_on t (frame_req f) s)). { unfold wait_on. destruct (frame_req f); auto. }
        assert (F' : FI (wait_on t (frame_req f) s) (upd ws w (mkWorker [] (JPark t)))). { eapply FI_keep; eauto. intros v. unfold running. now rewrite Fw. }
        apply (EI_outer chash mhash c s ws c (wait_on t (frame_req f) s) [] t w (mkWorker [] (JPoll t fresh)) (mkWorker [] (JPark t))); auto.
        -- apply outer_local; auto. intros v. unfold wait_on. now destruct (frame_req f).
        -- intros b [].
        -- intros v D Z. cbn in Z. congruence.
        -- intros y g r Ny Ey. rewrite Nx in Ny. injection Ny as <-. rewrite Ex in Ey. injection Ey as <- <-.
           apply (KI_busy c _ _ w (JPark t)); auto. apply (Nw (mkWorker [] (JPark t))). intros C.
           pose proof (blocked_frame c t x f rest R Nx Sc Ex C T) as B. destruct f as [s0 l pc|prev s0 pc|s0 pc]; try contradiction; destruct pc; try contradiction.
           ++ split. exact Logic.I. right. exact Logic.I.
           ++ split. exact Logic.I. right. split; auto. cbn. apply in_or_app. right. now left.
      * destruct (task_outer c t c1 x f rest s R Q Nx Ex T) as (G & Sc1 & O). destruct (react c t (frame_req f) s) as (s1, a1) eqn:Er. cbn [fst snd] in *.
        destruct (stack_of c1 t) as [|f1 r1] eqn:E1.
        -- destruct (notify t (set_flag t TIdle s1)) as (s2, a2) eqn:En. injection H as <- <- <-. cbn [fst snd] in O. destruct O as (O & F2). { now exists a. }
           apply (EI_outer chash mhash c s ws c1 s2 (a1 ++ a2) t w (mkWorker [] (JPoll t fresh)) (mkWorker (a1 ++ a2) JNone)); auto; try discriminate.
           ++ apply (FI_end s ws _ w (mkWorker [] (JPoll t fresh)) (mkWorker (a1 ++ a2) JNone) t); auto. intros (b & Z). congruence.
              apply (running_outer s s2 t). apply (ou_flag _ _ _ _ _ _ O).
           ++ apply incl_refl.
           ++ intros b _ _ [].
           ++ intros y g r Ny Ey. rewrite (stack_of_nth c1 t y Ny) in E1. congruence.
        -- injection H as <- <- <-. destruct O as (O & Sn).
           assert (F' : FI s1 (upd ws w (mkWorker a1 (JPoll t false)))). { eapply FI_keep; eauto. now apply running_grows. }
           apply (EI_outer chash mhash c s ws c1 s1 a1 t w (mkWorker [] (JPoll t fresh)) (mkWorker a1 (JPoll t false))); auto.
           ++ apply incl_refl.
           ++ intros v D Z. cbn in Z. congruence.
           ++ intros b _ _ [].
           ++ intros y g r Ny Ey. rewrite (stack_of_nth c1 t y Ny), Ey in E1. injection E1 as <- <-. rewrite (is_scheduled_nth c1 t y Ny) in Sc1.
              apply (KI_busy c1 s1 _ w (JPoll t false)); auto. apply (Nw (mkWorker a1 (JPoll t false))). intros C.
              assert (C0 : tk_cancel x = false).
              { destruct (step_open c t c1 T) as (x0 & f0 & rest0 & c2 & k & g0 & N0 & _ & _ & Ea & -> & G1 & _). rewrite Nx in N0. injection N0 as <-.
                destruct (access_old chash mhash c _ c2 k Ea t x Nx) as (x1 & N1 & (_ & _ & _ & _ & _ & Ev)). rewrite with_task_nth, Nat.eqb_refl, N1 in Ny. cbn in Ny. injection Ny as <-.
                destruct (G1 x1) as (_ & Cg). rewrite Cg in C. destruct (tk_cancel x); auto. rewrite Ev in C; auto. }
              destruct (K2 C0) as (_ & _ & I3 & I4 & _). destruct fresh.
              ** right. apply Sn. left. apply (I3 w Hw).
              ** destruct (I4 w Hw) as [Z|Z]; [left; apply Nt; auto|right; now apply Sn; right]. destruct (G t) as [G1|(G1 & _)]; congruence.
Qed.
Lemma park_keep c s ws w t s' k : Ready c -> EI (mkExec c s ws) -> nth_error ws w = Some (mkWorker [] (JPark t)) ->
  park_step c s t = (s', k) -> EI (mkExec c s' (upd ws w k)).
Proof.
  intros R X N H. pose proof X as [Q F K]. cbn [ex_conf ex_sched ex_workers] in *.
  assert (Hw : holds ws w (JPark t)) by (eexists; split; eauto). assert (Bw : busy ws w t) by (eapply holds_busy; eauto).
  pose proof F as (F1 & _). destruct (F1 w t Bw) as (a & Fl). pose proof (nth_error_lt _ _ _ N) as L.
  assert (Sc : is_scheduled c t = true). { destruct (is_scheduled c t) eqn:Sc; auto. destruct Q as (_ & _ & Q3). rewrite (Q3 t Sc) in Fl. discriminate. }
  unfold park_step in H. destruct (is_cancelled c t) eqn:Ca.
  - injection H as <- <-. assert (F' : FI s (upd ws w (mkWorker [] (JDrop t)))). { eapply FI_keep; eauto. tauto. }
    apply (EI_outer chash mhash c s ws c s [] t w (mkWorker [] (JPark t)) (mkWorker [] (JDrop t))); auto.
    + now apply outer_refl.
    + intros b [].
    + intros v D Z. cbn in Z. congruence.
    + intros y f rest Ny Ey. apply (KI_busy c s _ w (JDrop t)); auto.
      * apply holds_upd; auto. now rewrite Nat.eqb_refl.
      * now rewrite (is_scheduled_nth c t y Ny) in Sc.
      * intros C. unfold is_cancelled in Ca. rewrite Ny in Ca. congruence.
  - assert (Hk : k = mkWorker [] JNone) by (destruct (sc_flag s t) as [| |[|]]; injection H as _ <-; reflexivity). subst k.
    assert (Hs : s' = (if a then push t s else set_flag t TIdle s)). { rewrite Fl in H. destruct a; now injection H as <-. } clear H. subst s'.
    set (s' := if a then push t s else set_flag t TIdle s).
    assert (Ft : sc_flag s' t = if a then TQueued else TIdle). { unfold s'. destruct a. now rewrite push_flag, Nat.eqb_refl. apply set_at_eq. }
    assert (Fv : forall v, v <> t -> sc_flag s' v = sc_flag s v). { intros v D. unfold s'. destruct a. rewrite push_flag. now destruct (Nat.eqb_spec v t). now apply set_at_neq. }
    assert (Q' : QI (is_scheduled c) s'). { unfold s'. destruct a. apply (QI_push (is_scheduled c)); auto. left. congruence. apply QI_flag; auto; congruence. }
    assert (F' : FI s' (upd ws w (mkWorker [] JNone))).
    { apply (FI_end s ws _ w (mkWorker [] (JPark t)) (mkWorker [] JNone) t); auto. intros (b & Z). rewrite Ft in Z. destruct a; discriminate. intros u D. unfold running. now rewrite Fv. }
    apply (EI_outer chash mhash c s ws c s' [] t w (mkWorker [] (JPark t)) (mkWorker [] JNone)); auto; try discriminate.
    + apply outer_local; auto. unfold s'. destruct a; reflexivity. unfold s'. destruct a; apply incl_refl.
    + intros b [].
    + intros y f rest Ny Ey. apply KI_free; auto.
      * intros (b & Z). rewrite Ft in Z. destruct a; discriminate.
      * intros C. unfold is_cancelled in Ca. rewrite Ny in Ca. congruence.
      * intros C. destruct (K t y f rest Ny Ey) as (_ & K2). destruct (K2 C) as (_ & _ & _ & _ & I5 & _). destruct (I5 w Hw) as (P & W). split; auto.
        intros Z. rewrite Ft in Z. destruct a; [discriminate|]. destruct W as [[W|W]|W]; [congruence|left|right; exact W]. revert W. apply (acting_upd ws w _ _ _ N). intros [].
Qed.
Lemma drop_keep c s ws w t : Ready c -> EI (mkExec c s ws) -> nth_error ws w = Some (mkWorker [] (JDrop t)) ->
  match drop_step c s t with
  | DEnd => EI (mkExec c (set_flag t TIdle s) (upd ws w (mkWorker [] JNone)))
  | DPanic => True
  | DStep c' s' acts => EI (mkExec c' s' (upd ws w (mkWorker acts (JDrop t))))
  end.
Proof.
  intros R X N. pose proof X as [Q F K]. cbn [ex_conf ex_sched ex_workers] in *.
  assert (Hw : holds ws w (JDrop t)) by (eexists; split; eauto). assert (Bw : busy ws w t) by (eapply holds_busy; eauto).
  pose proof F as (F1 & _). destruct (F1 w t Bw) as (a & Fl). pose proof (nth_error_lt _ _ _ N) as L.
  assert (Sc : is_scheduled c t = true). { destruct (is_scheduled c t) eqn:Sc; auto. destruct Q as (_ & _ & Q3). rewrite (Q3 t Sc) in Fl. discriminate. }
  destruct (drop_step c s t) as [| |c' s' acts] eqn:D; auto.
  - assert (Q' : QI (is_scheduled c) (set_flag t TIdle s)) by (apply QI_flag; auto; congruence).
    apply (EI_outer chash mhash c s ws c _ [] t w (mkWorker [] (JDrop t)) (mkWorker [] JNone)); auto; try discriminate.
    + apply outer_local; auto. intros v Dv. now apply set_at_neq. apply incl_refl.
    + apply (FI_end s ws _ w (mkWorker [] (JDrop t)) (mkWorker [] JNone) t); auto.
      * unfold running. cbn [set_flag sc_flag]. rewrite set_at_eq. intros (b & Z). discriminate.
      * intros u Du. unfold running. cbn [set_flag sc_flag]. now rewrite set_at_neq.
    + intros b [].
    + intros y f rest Ny Ey. exfalso. destruct (K t y f rest Ny Ey) as (_ & K2). destruct (tk_cancel y) eqn:C.
      * rewrite (drop_ends c s t y Ny D C) in Ey. discriminate.
      * destruct (K2 eq_refl) as (_ & _ & _ & _ & _ & I6). now apply (I6 w).
  - destruct (drop_steps c s t c' s' acts D) as (x & f & rest & Nx & Ex & Hd & -> & ->).
    destruct (drop_outer c t c' x f rest s R Q Nx Ex Hd) as (G & O).
    destruct (drop_task c t c' Hd) as (x0 & f0 & rest0 & x' & Nx0 & Ex0 & Nx' & Cx' & Sx' & Ex'). rewrite Nx in Nx0. injection Nx0 as <-.
    rewrite (is_scheduled_nth c t x Nx) in Sc.
    assert (F' : FI (fst (dropped c f s)) (upd ws w (mkWorker (snd (dropped c f s)) (JDrop t)))). { eapply FI_keep; eauto. now apply running_grows. }
    apply (EI_outer chash mhash c s ws c' _ (snd (dropped c f s)) t w (mkWorker [] (JDrop t)) (mkWorker (snd (dropped c f s)) (JDrop t))); auto.
    + apply incl_refl.
    + intros b _ _ [].
    + intros y g r Ny Ey. rewrite Nx' in Ny. injection Ny as <-. apply (KI_busy c' _ _ w (JDrop t)); auto; try congruence. apply holds_upd; auto. now rewrite Nat.eqb_refl.
Qed.
Lemma pool_keep c s ws t y : Ready c -> EI (mkExec c s ws) -> nth_error (g_tasks c) t = Some y -> tk_sched y = false ->
  EI (mkExec (with_task c t set_sched) (push t s) ws).
Proof.
  intros R X N S. pose proof X as [Q F K]. cbn [ex_conf ex_sched ex_workers] in *. set (c' := with_task c t set_sched).
  assert (Nt : nth_error (g_tasks c') t = Some (set_sched y)). { unfold c'. now rewrite with_task_nth, Nat.eqb_refl, N. }
  assert (Nv : forall v, v <> t -> nth_error (g_tasks c') v = nth_error (g_tasks c) v). { intros v D. unfold c'. rewrite with_task_nth. now destruct (Nat.eqb_spec v t). }
  assert (Fq : sc_flag s t = TQueued). { destruct Q as (_ & _ & Q3). apply Q3. now rewrite (is_scheduled_nth c t y N). }
  assert (Ff : forall v, sc_flag (push t s) v = sc_flag s v). { intros v. rewrite push_flag. destruct (Nat.eqb_spec v t) as [->|]; auto. }
  assert (Q' : QI (is_scheduled c') (push t s)).
  { apply (QI_push (is_scheduled c)); auto. now rewrite (is_scheduled_nth _ _ _ Nt). intros v D. unfold is_scheduled. now rewrite Nv. right. now rewrite (is_scheduled_nth c t y N). }
  assert (Fr : forall v, running (push t s) v <-> running s v). { intros v. unfold running. now rewrite Ff. }
  assert (F' : FI (push t s) ws). { destruct F as (F1 & F2 & F3). split; [|split]; auto. intros w v B. apply Fr. now apply (F1 w). intros v B. apply F2. now apply Fr. }
  assert (Rs : forall u, res_of c' u = res_of c u). { intros u. apply res_with. auto. }
  constructor; auto. cbn [ex_conf ex_sched ex_workers]. intros v y' f rest Ny Ey. destruct (Nat.eq_dec v t) as [->|D].
  - rewrite Nt in Ny. injection Ny as <-. cbn [set_sched tk_stack] in Ey. apply KI_free; auto.
    + intros (b & Z). rewrite Ff in Z. congruence.
    + intros _. rewrite Ff. split; [congruence|]. cbn. discriminate.
    + intros C. cbn in C. destruct (K t y f rest N Ey) as (_ & K2). destruct (K2 C) as (_ & I2 & _). split; auto. rewrite Ff. congruence.
  - rewrite Nv in Ny by auto. specialize (K v y' f rest Ny Ey).
    assert (P : forall e id, polled c s v e id -> polled c' (push t s) v e id). { intros e id P z u Nz Rz. rewrite Rs. apply (P z u Nz Rz). }
    assert (W : watched c s v f -> watched c' (push t s) v f). { rewrite !watched_next. destruct (frame_next f) as [(e, np)|]; auto. destruct np; auto. }
    assert (Sn : seen c s v f -> seen c' (push t s) v f). { unfold seen. destruct (frame_next f) as [(e, np)|]; auto. destruct np; auto. }
    destruct K as (K1 & K2). split.
    + intros C. rewrite Ff. auto.
    + intros C. destruct (K2 C) as (I1 & I2 & I3 & I4 & I5 & I6). unfold noted. rewrite Ff. split; [|split; [|split; [|split; [|split]]]]; auto.
      * intros Z. destruct (I1 Z) as (Z1 & [Z2|Z2]); auto.
      * intros w Z. destruct (I4 w Z) as [Z1|Z1]; auto.
      * intros w Z. destruct (I5 w Z) as (Z1 & [Z2|Z2]); auto.
Qed.

Theorem exec_keep x x' : Ready (ex_conf x) -> EI x -> exec_step x x' -> EI x'.
Proof.
  intros R X H. destruct H as [x w x' H|c s ws t y N P S]; [|eapply pool_keep; eauto]. destruct x as [c s ws]. cbn [ex_conf] in R. cbn [ExecModel.work_step] in H.
  destruct (nth_error ws w) as [[todo job]|] eqn:N; [|discriminate]. destruct todo as [|[t|u] todo].
  - destruct job as [|t fresh|t|t].
    + destruct (sc_queue s) as [|t q] eqn:Eq; [discriminate|]. injection H as <-. eapply take_step; eauto.
    + destruct (poll_step c s t fresh) as [((c', s'), k)|] eqn:Ep; [|discriminate]. injection H as <-. eapply poll_keep; eauto.
    + destruct (park_step c s t) as (s', k) eqn:Ep. injection H as <-. eapply park_keep; eauto.
    + pose proof (drop_keep c s ws w t R X N) as Z. destruct (drop_step c s t) as [| |c' s' acts]; [|discriminate|]; now injection H as <-.
  - injection H as <-. now apply wake_step.
  - destruct (is_scheduled c u) eqn:S. { injection H as <-. eapply skip_step; eauto. }
    destruct (drop_step c s u) as [| |c' s' acts] eqn:D; [|discriminate|]; injection H as <-. eapply skip_step; eauto. eapply adrop_step; eauto.
Qed.
Lemma start_keep workers threads initial limit c : search_start chash threads initial limit = Some c -> EI (exec_start workers c).
Proof.
  intros H. assert (T : exists x f, g_tasks c = [x] /\ tk_stack x = [f] /\ tk_sched x = true /\ tk_cancel x = false /\ parked f).
  { unfold search_start in H. destruct (canon chash initial) as [s|]; [|discriminate]. cbn in H. injection H as <-. do 2 eexists. repeat split. }
  destruct T as (x & f & T & E & S & C & P). unfold exec_start.
  assert (B : forall w t, ~ busy (repeat (mkWorker [] JNone) workers) w t). { intros w t (k & N & J). apply nth_error_In, repeat_spec in N. subst k. discriminate. }
  constructor; cbn [ex_conf ex_sched ex_workers].
  - split; [|split]; cbn [sc_queue sc_flag]. { constructor; auto. constructor. }
    + intros t. unfold is_scheduled. rewrite T. destruct t as [|[|t]]; cbn. split; auto. split; [intros [|[]]; discriminate|intros (_ & Z); discriminate]. split; [intros [|[]]; discriminate|intros (_ & Z); discriminate].
    + auto.
  - split; [|split]. intros w t Z. now apply B in Z. intros t (a & Z). discriminate. intros w w' t Z. now apply B in Z.
  - intros t y g rest N Eg. rewrite T in N. destruct t as [|t]; [|destruct t; discriminate]. injection N as <-. rewrite E in Eg. injection Eg as <- <-.
    apply KI_free. split; [|split]. intros w t Z. now apply B in Z. intros t (a & Z). discriminate. intros w w' t Z. now apply B in Z.
    intros (a & Z). discriminate. congruence. intros _. split; auto. discriminate.
Qed.
Theorem exec_EI workers threads initial limit x : okset initial -> exec_run workers threads initial limit x -> EI x /\ Ready (ex_conf x).
Proof.
  intros K H. split; [|eapply (run_ready chash mhash); eauto; eapply exec_search; eauto].
  induction H as [c H|x x' H IH S]. eapply start_keep; eauto. apply (exec_keep x x'); auto. eapply (run_ready chash mhash); eauto. eapply exec_search; eauto.
Qed.

(* a task that can go on is in the queue, on a worker, or about to be woken or dropped by a worker *)
Definition cared (x : Exec) (t : nat) : Prop :=
  In t (sc_queue (ex_sched x)) \/ exists w k, nth_error (ex_workers x) w = Some k /\ (job_task (wk_job k) = Some t \/ In (AWake t) (wk_todo k) \/ In (ADrop t) (wk_todo k)).
Lemma watched_not_awake c s t x f rest : nth_error (g_tasks c) t = Some x -> tk_stack x = f :: rest -> watched c s t f -> awake c f -> forall c', task_step c t <> Stepped c'.
Proof.
  intros N E W A c' H. unfold SearchModel.task_step in H. rewrite N, E in H. destruct (tk_sched x); [|discriminate]. cbn [negb] in H.
  assert (X : forall e, (forall id, In id (active e) -> polled c s t e id) ->
    (exists id x u y, In id (active e) /\ nth_error (targets e) id = Some x /\ tg_run x = Some u /\ nth_error (g_tasks c) u = Some y /\ tk_result y <> None) -> False).
  { intros e P (id & z & u & y & Hi & Nz & Rz & Ny & Hy). destruct (P id Hi z u Nz Rz) as (_ & Ru). unfold res_of in Ru. rewrite Ny in Ru. contradiction. }
  destruct f as [s0 l pc|prev s0 pc|s0 pc]; try contradiction; destruct pc; try contradiction.
  - discriminate.
  - destruct W as (W & _). cbn [SearchModel.frame_req imp_req SearchModel.access] in H. destruct (existsb (Nat.eqb id) (g_sent c)) eqn:Ex; [|discriminate].
    apply existsb_exists in Ex. destruct Ex as (z & Hz & Ez). apply Nat.eqb_eq in Ez. subst z. contradiction.
  - destruct np; try contradiction. now apply (X e).
  - destruct np; try contradiction. now apply (X e).
Qed.
Theorem enabled_cared x t : EI x -> enabled chash mhash (ex_conf x) t -> cared x t.
Proof.
  destruct x as [c s ws]. intros [Q F K] H. cbn [ex_conf ex_sched ex_workers] in *. unfold cared. cbn [ex_conf ex_sched ex_workers].
  assert (X : exists y f rest, nth_error (g_tasks c) t = Some y /\ tk_stack y = f :: rest /\
    (tk_cancel y = true \/ tk_sched y = true /\ awake c f /\ exists c', task_step c t = Stepped c')).
  { destruct H as [(y & f & rest & c' & Ny & Ey & A & T)|(c' & D)].
    - exists y, f, rest. split; auto. split; auto. right. destruct (step_open c t c' T) as (y' & _ & _ & _ & _ & _ & Ny' & Sy & _). split; [congruence|]. eauto.
    - destruct (drop_open c t c' D) as (y & f & rest & Ny & C & Ey & _). exists y, f, rest. auto. }
  destruct X as (y & f & rest & Ny & Ey & X). destruct (K t y f rest Ny Ey) as (K1 & K2).
  destruct (sc_flag s t) as [| |a] eqn:Fl.
  - right. destruct (tk_cancel y) eqn:C. { destruct (K1 eq_refl). contradiction. }
    destruct (K2 eq_refl) as (I1 & _). destruct X as [X|(Sy & A & c' & T)]; [discriminate|]. destruct (I1 eq_refl) as (_ & [(w & k & Nk & Hk)|W]). exists w, k. auto.
    exfalso. now apply (watched_not_awake c s t y f rest Ny Ey W A c').
  - destruct (tk_sched y) eqn:Sy.
    + left. apply Q. split; auto. now rewrite (is_scheduled_nth c t y Ny).
    + right. destruct X as [C|(Z & _)]; [|discriminate]. destruct (K1 C) as (_ & D). destruct (D eq_refl) as (w & k & Nk & Hk). exists w, k. auto.
  - right. destruct F as (_ & F2 & _). destruct (F2 t) as (w & k & Nk & Hk). { now exists a. } exists w, k. auto.
Qed.

(* the workers never panic *)
Lemma work_none x w k : Ready (ex_conf x) -> nth_error (ex_workers x) w = Some k -> work_step x w = None -> k = mkWorker [] JNone /\ sc_queue (ex_sched x) = [].
Proof.
  destruct x as [c s ws]. cbn [ex_conf ex_sched ex_workers]. intros R N. pose proof (gd_inv _ _ c (rd_good _ _ c R)) as I. cbn [ExecModel.work_step]. rewrite N.
  assert (Pd : forall u, drop_step c s u <> DPanic).
  { intros u. unfold ExecModel.drop_step. pose proof (drop_inv chash mhash c u I) as D. destruct (stack_of c u) as [|f r]; destruct (drop_frame c u); try discriminate; try destruct D. destruct (dropped c f s). discriminate. }
  destruct k as [[|[t|u] todo] job].
  - destruct job as [|t fresh|t|t].
    + destruct (sc_queue s); [auto|discriminate].
    + unfold ExecModel.poll_step. destruct (stack_of c t) as [|f r]; [discriminate|]. destruct (at_pend f && negb fresh); [discriminate|].
      pose proof (task_step_inv chash mhash c t I) as D. destruct (task_step c t) as [| |c']; [discriminate|destruct D|].
      destruct (react c t (frame_req f) s) as (s1, a1). destruct (stack_of c' t); [destruct (notify t (set_flag t TIdle s1)); discriminate|discriminate].
    + destruct (park_step c s t). discriminate.
    + specialize (Pd t). destruct (drop_step c s t); [discriminate|congruence|discriminate].
  - discriminate.
  - destruct (is_scheduled c u); [discriminate|]. specialize (Pd u). destruct (drop_step c s u); [discriminate|congruence|discriminate].
Qed.
Theorem idle_disabled x : EI x -> Ready (ex_conf x) -> ex_workers x <> [] -> (forall w, work_step x w = None) -> forall t, ~ enabled chash mhash (ex_conf x) t.
Proof.
  intros X R W H t En. assert (Wk : forall w k, nth_error (ex_workers x) w = Some k -> k = mkWorker [] JNone). { intros w k N. now apply (work_none x w k). }
  assert (Qe : sc_queue (ex_sched x) = []). { destruct (ex_workers x) as [|k ks] eqn:E; [congruence|]. apply (work_none x 0 k R). now rewrite E. apply H. }
  destruct (enabled_cared x t X En) as [Z|(w & k & N & Z)]. rewrite Qe in Z. destruct Z. apply Wk in N. subst k. destruct Z as [Z|[Z|Z]]; [discriminate|destruct Z|destruct Z].
Qed.
Lemma work_length x w x' : work_step x w = Some x' -> length (ex_workers x') = length (ex_workers x).
Proof.
  destruct x as [c s ws]. cbn [ExecModel.work_step ex_workers]. destruct (nth_error ws w) as [[todo job]|]; [|discriminate]. intros H.
  assert (X : exists c' s' k, x' = mkExec c' s' (upd ws w k)).
  { destruct todo as [|[t|u] todo].
    - destruct job as [|t fresh|t|t].
      + destruct (sc_queue s) as [|t q] eqn:Eq; [discriminate|]. injection H as <-. eauto.
      + destruct (poll_step c s t fresh) as [((c', s'), k)|] eqn:Ep; [|discriminate]. injection H as <-. eauto.
      + destruct (park_step c s t) as (s', k) eqn:Ep. injection H as <-. eauto.
      + destruct (drop_step c s t) as [| |c' s' acts]; [|discriminate|]; injection H as <-; eauto.
    - injection H as <-. eauto.
    - destruct (is_scheduled c u) eqn:S. { injection H as <-. eauto. }
      destruct (drop_step c s u) as [| |c' s' acts] eqn:D; [|discriminate|]; injection H as <-; eauto. }
  destruct X as (c' & s' & k & ->). cbn [ex_workers]. apply upd_length.
Qed.
Lemma exec_length x x' : exec_step x x' -> length (ex_workers x') = length (ex_workers x).
Proof. intros [x0 w x0' H|]; [eapply work_length; eauto|reflexivity]. Qed.
Lemma run_length workers threads initial limit x : exec_run workers threads initial limit x -> length (ex_workers x) = workers.
Proof. induction 1 as [c H|x x' H IH S]. apply repeat_length. rewrite (exec_length x x' S). auto. Qed.
End Run.
