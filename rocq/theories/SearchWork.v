(* The amount of work of all tasks: no step increases it unless it changes the map. *)
From Coq Require Import List Arith Bool Lia Permutation.
Import ListNotations.
From Verif Require Import Spec Vec Net Graded Bits Util CountProofs OutputSetModel OutputSetProofs PruneProofs PackProofs HuffmanModel HuffmanProofs CanonModel TreeModel StatesModel StatesProofs StatesBounds SearchModel SearchFacts SearchInv SearchEdges SearchStep SearchFrames SearchGlobal SearchRun SearchSafe SearchOrder SearchWaits SearchMain SearchClosed SearchSlack SearchGood SearchQuiet SearchReach SearchNext SearchHuff SearchLive SearchReady SearchCost SearchSpend IndexProofs.

Definition res_of (c : Config) (u : nat) : option State :=
  match nth_error (g_tasks c) u with Some y => tk_result y | None => None end.

(* ---- the work under a later result ---- *)
Section Mono.
Variables cu cu' : OutputSet -> State.
Variables res res' : nat -> option State.
Hypothesis Hcu : forall s, cu' s = cu s.

Definition later (e : Edges) : Prop := forall x u, In x (targets e) -> tg_run x = Some u ->
  res' u = res u \/ res u = None /\ exists v, res' u = Some v /\ v = cu (tg_set x) /\ v <> tg_state x.

Lemma fresh_mono v p : fresh cu' v p = fresh cu v p.
Proof. unfold fresh. now rewrite Hcu. Qed.
Lemma idle_mono b v p : idle_cost cu' b v p = idle_cost cu b v p.
Proof. unfold idle_cost. now rewrite fresh_mono. Qed.
Lemma target_mono b e x : later e -> In x (targets e) -> target_cost cu' res' b x <= target_cost cu res b x.
Proof.
  intros L Hx. unfold target_cost. destruct (tg_run x) as [u|] eqn:R. 2: { rewrite idle_mono. lia. }
  unfold busy_cost. destruct (L x u Hx R) as [E|(E & v & Ev & Cv & N)].
  - rewrite E. destruct (res u); rewrite ?idle_mono, ?fresh_mono; lia.
  - rewrite E, Ev. replace (fresh cu (tg_state x) (tg_set x)) with false.
    2: { symmetry. unfold fresh. destruct (state_eqb _ _) eqn:Q; auto. apply state_eqb_eq in Q. congruence. }
    rewrite idle_mono. unfold idle_cost, fresh. rewrite <- Cv, (proj2 (state_eqb_eq v v) eq_refl). destruct (closed v); lia.
Qed.
Lemma edges_mono b e : later e -> (forall i, In i (active e) -> i < length (targets e)) -> edges_cost cu' res' b e <= edges_cost cu res b e.
Proof.
  intros L A. unfold edges_cost. apply sumf_le. intros id Hi. apply (target_mono b e); auto. unfold target_at. apply nth_In. auto.
Qed.
Lemma next_mono b e np : later e -> (forall i, In i (active e) -> i < length (targets e)) -> next_cost cu' res' b e np <= next_cost cu res b e np.
Proof. intros L A. unfold next_cost. pose proof (edges_mono b e L A). lia. Qed.

Definition frame_later (f : Frame) : Prop := later (frame_edges f) /\ forall i, In i (active (frame_edges f)) -> i < length (targets (frame_edges f)).
Lemma frame_mono f : frame_later f -> frame_cost cu' res' f <= frame_cost cu res f.
Proof.
  intros (L & A). destruct f as [s l pc|prev s pc|s pc]; cbn [frame_cost].
  - destruct pc; rewrite ?fresh_mono; lia.
  - destruct pc; rewrite ?fresh_mono; cbn [frame_edges] in *; try lia; try (pose proof (edges_mono (room s) e L A); lia). now apply next_mono.
  - destruct pc; cbn [frame_edges] in *; try lia; try (pose proof (edges_mono (room s) e L A); lia). now apply next_mono.
Qed.
Lemma wait_mono q f : frame_later f -> wait_cost cu' res' q f <= wait_cost cu res q f.
Proof.
  intros L. destruct f as [s l []|prev s []|s pc]; cbn [wait_cost]; try (now apply frame_mono); destruct q; rewrite ?fresh_mono; try lia; now apply frame_mono.
Qed.
Lemma below_mono l : (forall f, In f l -> frame_later f) -> forall q, below_cost cu' res' q l <= below_cost cu res q l.
Proof.
  induction l as [|f l IH]; intros H q; cbn [below_cost]. lia. pose proof (wait_mono q f (H f (or_introl eq_refl))).
  pose proof (IH (fun g Hg => H g (or_intror Hg)) (prev_of f)). lia.
Qed.
Lemma stack_mono l : (forall f, In f l -> frame_later f) -> stack_cost cu' res' l <= stack_cost cu res l.
Proof.
  destruct l as [|f l]; intros H; cbn [stack_cost]. lia. pose proof (frame_mono f (H f (or_introl eq_refl))).
  pose proof (below_mono l (fun g Hg => H g (or_intror Hg)) (prev_of f)). lia.
Qed.
End Mono.

(* ---- sums over the tasks ---- *)
Lemma sum_nth {A} (g g' : A -> nat) : forall l l' t x x', nth_error l t = Some x -> nth_error l' t = Some x' ->
  (forall u y, u <> t -> nth_error l u = Some y -> exists y', nth_error l' u = Some y' /\ g' y' <= g y) ->
  sumf g' l' + g x <= sumf g l + g' x' + sumf g' (skipn (length l) l').
Proof.
  induction l as [|a l IH]; intros l' t x x' N N' H. destruct t; discriminate. destruct l' as [|a' l']. destruct t; discriminate.
  cbn [length skipn]. rewrite !sumf_cons. destruct t as [|t]; cbn [nth_error] in N, N'.
  - injection N as ->. injection N' as ->.
    assert (B : forall l l', (forall u y, nth_error l u = Some y -> exists y', nth_error l' u = Some y' /\ g' y' <= g y) -> sumf g' l' <= sumf g l + sumf g' (skipn (length l) l')).
    { clear. induction l as [|a l IH]; intros l' H. change (sumf g []) with 0. cbn [length skipn]. lia. destruct (H 0 a eq_refl) as (a' & Na & La). destruct l' as [|b l']; [discriminate|]. injection Na as ->.
      cbn [length skipn]. rewrite !sumf_cons. specialize (IH l' (fun u y => H (S u) y)). lia. }
    specialize (B l l' (fun u y => H (S u) y (Nat.neq_succ_0 u))). lia.
  - destruct (H 0 a (Nat.neq_0_succ t) eq_refl) as (b & Nb & Lb). injection Nb as ->.
    specialize (IH l' t x x' N N'). assert (forall u y, u <> t -> nth_error l u = Some y -> exists y', nth_error l' u = Some y' /\ g' y' <= g y) as H'.
    { intros u y D. apply (H (S u)). lia. } specialize (IH H'). lia.
Qed.

Section Work.
Variables chash mhash : list nat -> nat.
Notation cur := (cur mhash).
Notation map_inv := (map_inv chash mhash).
Notation Inv := (Inv chash mhash).
Notation Good := (Good chash mhash).
Notation Ready := (Ready chash mhash).
Notation frame_req := (frame_req chash).
Notation frame_ok := (frame_ok chash mhash).
Notation edges_ok := (edges_ok mhash).
Notation access := (access mhash).
Notation task_step := (task_step chash mhash).
Notation drop_frame := (drop_frame mhash).
Notation sys_step := (sys_step chash mhash).
Notation potential := (potential mhash).

Definition work (c : Config) : nat := sumf (task_cost (cur (g_map c)) (res_of c)) (g_tasks c).
(* c' is less than c in the lexicographic order of potential and work *)
Definition less (c' c : Config) : Prop := potential (g_map c') < potential (g_map c) \/ potential (g_map c') = potential (g_map c) /\ work c' < work c.
Definition leq (c' c : Config) : Prop := potential (g_map c') < potential (g_map c) \/ potential (g_map c') = potential (g_map c) /\ work c' <= work c.

Lemma frame_edges_ok m goal f : frame_ok m goal f -> edges_ok m goal (frame_edges f).
Proof.
  assert (E0 : edges_ok m goal no_edges). { split; [intros x []|split; [constructor|intros id []]]. }
  destruct f as [s l pc|prev s pc|s pc]; intros F; cbn [frame_edges]; auto.
  - destruct F as (_ & F). destruct pc; cbn [frame_edges]; auto; unfold succ_edges in F; tauto.
  - destruct F as (_ & _ & F). destruct pc; cbn [frame_edges]; auto; unfold huff_edges in F; tauto.
Qed.

Lemma access_length c r c1 k : access c r = ADone c1 k ->
  (exists prev s pend k', r = RSpawn prev s pend k' /\ k = k' (length (g_tasks c)) /\ g_tasks c1 = g_tasks c ++ [mkTask prev s [FImp prev s ILook] false pend false None]) \/
  length (g_tasks c1) = length (g_tasks c) /\ forall prev s pend k', r <> RSpawn prev s pend k'.
Proof.
  intros Ea. destruct r; cbn [SearchModel.access] in Ea; try discriminate.
  - right. split; [|discriminate]. destruct (sm_get mhash (g_map c) s); [|discriminate]. now injection Ea as <- _.
  - right. split; [|discriminate]. destruct (sm_set mhash (g_map c) s st); [|discriminate]. now injection Ea as <- _.
  - right. split; [|discriminate]. destruct (sm_get_lock mhash (g_map c) s (g_next c)) as [[id|m]|]; try discriminate; now injection Ea as <- _.
  - right. split; [|discriminate]. destruct (sm_unlock mhash (g_map c) s); [|discriminate]. now injection Ea as <- _.
  - right. split; [|discriminate]. destruct (existsb (Nat.eqb id) (g_sent c)); [|discriminate]. now injection Ea as <- _.
  - right. split; [|discriminate]. destruct (nth_error (g_tasks c) t) as [y|]; [|discriminate]. destruct (tk_result y). now injection Ea as <- _.
    destruct (tk_cancel y); [discriminate|]. now injection Ea as <- _.
  - left. injection Ea as <- <-. eauto 8.
  - right. split; [|discriminate]. injection Ea as <- _. apply with_task_length.
  - right. split; [|discriminate]. injection Ea as <- _. apply cancel_all_length.
  - right. split; [|discriminate]. now injection Ea as <- _.
Qed.
Lemma access_res c r c1 k : access c r = ADone c1 k -> forall u, res_of c1 u = res_of c u.
Proof.
  intros Ea u. unfold res_of. destruct (nth_error (g_tasks c) u) as [y|] eqn:N.
  - destruct (access_old chash mhash c r c1 k Ea u y N) as (y1 & N1 & (_ & _ & _ & E & _)). now rewrite N1.
  - destruct (nth_error (g_tasks c1) u) as [y1|] eqn:N1; auto. destruct (access_new chash mhash c r c1 k Ea u y1 N1) as [(y & N0 & _)|(p & s & pe & k' & _ & _ & ->)]; auto. congruence.
Qed.

(* what the local lemma says about the step that was made *)
Lemma access_spends c t x f rest c1 k : Ready c -> nth_error (g_tasks c) t = Some x -> tk_stack x = f :: rest ->
  access c (frame_req f) = ADone c1 k -> (forall s st k', frame_req f <> RSet s st k') ->
  exists more, ctl_spends (cur (g_map c)) (res_of c) more f k /\
    sumf (task_cost (cur (g_map c)) (res_of c)) (skipn (length (g_tasks c)) (g_tasks c1)) = more.
Proof.
  intros R N E Ea NS. pose proof (rd_good _ _ c R) as G. pose proof (gd_inv _ _ c G) as I.
  assert (Hf : In f (frames (cores c))). { apply (frames_nth c t x); auto. rewrite E. now left. }
  destruct (stack_split chash mhash c t x f rest I N E) as (Fo & Fi & Sk).
  pose proof (frame_spends chash mhash (g_map c) (goal_in (cores c)) (res_of c) (inv_map _ _ c I) (gd_hb _ _ c G) f Fo (rd_frames _ _ c R f Hf) (gd_small _ _ c G f Hf)) as Sp.
  pose proof (frame_req_ret chash mhash _ _ _ _ _ (inv_map _ _ c I) Fo Fi Sk) as Rr.
  assert (S0 : forall c2, length (g_tasks c2) = length (g_tasks c) -> sumf (task_cost (cur (g_map c)) (res_of c)) (skipn (length (g_tasks c)) (g_tasks c2)) = 0).
  { intros c2 L. rewrite skipn_all2; auto. lia. }
  destruct (access_length c _ c1 k Ea) as [(prev & s & pend & k' & Er & -> & Et)|(L & Nsp)].
  - rewrite Er in *. cbn [SearchSpend.req_spends] in Sp. exists (full s + 1). split.
    + apply Sp. unfold res_of. replace (nth_error (g_tasks c) (length (g_tasks c))) with (@None Task); auto. symmetry. apply nth_error_None. lia.
    + rewrite Et, skipn_app, skipn_all, Nat.sub_diag. cbn [skipn app]. rewrite sumf_cons. cbn. lia.
  - exists 0. split; [|auto]. destruct (frame_req f); cbn [SearchModel.access SearchSpend.req_spends req_ret] in *; try discriminate.
    + destruct Rr as (K & _). rewrite (sm_get_cur mhash _ _ (mi_ok _ _ _ (inv_map _ _ c I)) (proj1 K)) in Ea. now injection Ea as _ <-.
    + exfalso. eapply NS; eauto.
    + destruct Sp as (S1 & S2). destruct (sm_get_lock mhash (g_map c) s (g_next c)) as [[id|m]|]; try discriminate; now injection Ea as _ <-.
    + destruct (sm_unlock mhash (g_map c) s); [|discriminate]. now injection Ea as _ <-.
    + destruct (existsb (Nat.eqb id) (g_sent c)); [|discriminate]. now injection Ea as _ <-.
    + specialize (Sp). unfold res_of in Sp at 2. destruct (nth_error (g_tasks c) t0) as [z|]; [|discriminate]. destruct (tk_result z) as [r|].
      now injection Ea as _ <-. destruct (tk_cancel z); [discriminate|]. now injection Ea as _ <-.
    + exfalso. eapply Nsp; eauto.
    + now injection Ea as _ <-.
    + now injection Ea as _ <-.
    + now injection Ea as _ <-.
Qed.
Lemma resume_prev g v f' : resume g v = Some f' -> prev_of f' = prev_of g.
Proof. destruct g as [s l []|prev s []|s pc]; cbn [resume]; try discriminate; try (destruct (lo st <? lo v)); intros H; injection H as <-; auto. Qed.
Lemma resume_cost m goal root g f v f' res : frame_ok m goal g -> fits mhash m root (Some g) f -> resume g v = Some f' ->
  v = cur m (fset f) -> (forall q, prev_of f = Some q -> v <> q) -> frame_cost (cur m) res f' <= wait_cost (cur m) res (prev_of f) g.
Proof.
  intros Fg Fi Er Ev Nq.
  assert (NF : forall q s, prev_of f = Some q -> fset f = s -> fresh (cur m) q s = false).
  { intros q s Hq <-. unfold fresh. destruct (state_eqb _ _) eqn:Q; auto. apply state_eqb_eq in Q. exfalso. apply (Nq q Hq). congruence. }
  destruct g as [s l []|prev s []|s pc]; cbn [resume] in Er; try discriminate.
  - injection Er as <-. destruct f as [|q s' pc|]; cbn in Fi; try (now destruct Fi). subst s'. cbn [prev_of wait_cost frame_cost] in *. rewrite (NF q s eq_refl eq_refl).
    cbn [fset] in Ev. subst v. unfold fresh. rewrite (proj2 (state_eqb_eq _ _) eq_refl). lia.
  - injection Er as <-. destruct f as [|q s' pc|]; cbn in Fi; try (now destruct Fi). subst s'. cbn [prev_of wait_cost frame_cost] in *. rewrite (NF q p eq_refl eq_refl).
    cbn [fset] in Ev. subst v. unfold fresh. rewrite (proj2 (state_eqb_eq _ _) eq_refl). lia.
  - destruct (lo st <? lo v); injection Er as <-; cbn [wait_cost frame_cost]. lia.
    unfold edges_cost. cbn [active no_edges sumf fold_right]. destruct Fg as (K & _). pose proof (pairs_length (channels s) (proj1 (proj2 K))). nia.
Qed.
Lemma ready_later c c' f : Ready c -> In f (frames (cores c)) -> (forall u, res_of c' u = res_of c u) ->
  frame_later (cur (g_map c)) (res_of c) (res_of c') f.
Proof.
  intros R Hf E. pose proof (frame_edges_ok _ _ _ (inv_frame_ok chash mhash c f (gd_inv _ _ c (rd_good _ _ c R)) Hf)) as (_ & _ & A).
  split; auto. intros x u _ _. auto.
Qed.
(* the work of the tasks other than t *)
Lemma others_work c c' t x x' y0 : Ready c -> (forall s, cur (g_map c') s = cur (g_map c) s) ->
  nth_error (g_tasks c) t = Some x -> nth_error (g_tasks c') t = Some x' ->
  (forall u y, u <> t -> nth_error (g_tasks c) u = Some y -> exists y', nth_error (g_tasks c') u = Some y' /\ tk_stack y' = tk_stack y /\ (tk_sched y = true -> tk_sched y' = true)) ->
  (forall f, In f (frames (cores c)) -> frame_later (cur (g_map c)) (res_of c) (res_of c') f) ->
  y0 = task_cost (cur (g_map c')) (res_of c') x' + sumf (task_cost (cur (g_map c')) (res_of c')) (skipn (length (g_tasks c)) (g_tasks c')) ->
  work c' + task_cost (cur (g_map c)) (res_of c) x <= work c + y0.
Proof.
  intros R Hc N N' H L ->. unfold work.
  pose proof (sum_nth (task_cost (cur (g_map c)) (res_of c)) (task_cost (cur (g_map c')) (res_of c')) (g_tasks c) (g_tasks c') t x x' N N') as Q.
  rewrite Nat.add_assoc. apply Q. intros u y D Ny. destruct (H u y D Ny) as (y' & Ny' & Es & Ed). exists y'. split; auto. unfold task_cost. rewrite Es.
  pose proof (stack_mono (cur (g_map c)) (cur (g_map c')) (res_of c) (res_of c') Hc (tk_stack y)) as M.
  assert (M' : stack_cost (cur (g_map c')) (res_of c') (tk_stack y) <= stack_cost (cur (g_map c)) (res_of c) (tk_stack y)).
  { apply M. intros f Hf. apply L. now apply (frames_nth c u y). }
  destruct (tk_sched y); [rewrite Ed by auto; lia|]. destruct (tk_sched y'); lia.
Qed.
Lemma new_work c c' l : Ready c' -> (forall s, cur (g_map c') s = cur (g_map c) s) -> (forall u, res_of c' u = res_of c u) ->
  (forall f, In f l -> In f (frames (cores c'))) -> stack_cost (cur (g_map c')) (res_of c') l <= stack_cost (cur (g_map c)) (res_of c) l.
Proof.
  intros R Hc Hr Hl. apply stack_mono; auto. intros f Hf.
  pose proof (frame_edges_ok _ _ _ (inv_frame_ok chash mhash c' f (gd_inv _ _ c' (rd_good _ _ c' R)) (Hl f Hf))) as (_ & _ & A). split; auto. intros x u _ _. auto.
Qed.

Lemma own_step c t x f rest c1 k c' : Ready c -> nth_error (g_tasks c) t = Some x -> tk_sched x = true -> tk_stack x = f :: rest ->
  access c (frame_req f) = ADone c1 k -> run_ctl c1 t rest k = Stepped c' ->
  less c' c \/ leq c' c /\ exists f', k = CGo f' /\ spin f f'.
Proof.
  intros R N Sx E Ea Er. pose proof (rd_good _ _ c R) as G. pose proof (gd_inv _ _ c G) as I.
  destruct (run_ctl_map c1 t rest k c' Er) as (M1 & _ & M2).
  assert (D : (exists s st k', frame_req f = RSet s st k') \/ forall s st k', frame_req f <> RSet s st k').
  { destruct (frame_req f); try (right; discriminate). left; eauto. }
  destruct D as [(s & st & k' & Rq)|D].
  { left. left. destruct (write_lower chash mhash c t x f rest s st k' I (gd_hb _ _ c G) N E Rq) as (m' & Ew & L & _).
    rewrite Rq, Ew in Ea. injection Ea as <- _. rewrite M1. auto. }
  pose proof (access_shards mhash c _ c1 k Ea D) as Sh. rewrite <- M1 in Sh. pose proof (potential_same mhash _ _ Sh) as Po.
  assert (Hc : forall s, cur (g_map c') s = cur (g_map c) s) by (intros s; now apply same_cur).
  assert (St : sys_step c c'). { apply (SysTask chash mhash c t). unfold SearchModel.task_step. rewrite N, Sx, E. cbn [negb]. now rewrite Ea. }
  pose proof (ready_step chash mhash c c' R St) as R'.
  destruct (access_spends c t x f rest c1 k R N E Ea D) as (more & Sp & Mo).
  destruct (access_old chash mhash c _ c1 k Ea t x N) as (x1 & N1 & (V1 & V2 & V3 & V4 & V5 & V6)).
  assert (Sx1 : tk_sched x1 = true) by auto.
  destruct (stack_split chash mhash c t x f rest I N E) as (Fo & Fi & Sk).
  assert (Rn : tk_result x = None).
  { destruct (tk_result x) as [v|] eqn:Ev; auto. destruct (inv_core _ _ c I _ (nth_error_In _ _ (nth_cores c t x N))) as (_ & _ & H).
    destruct (H v Ev) as (_ & H'). cbn in H'. congruence. }
  assert (Oth : forall g u y, c' = with_task c1 t g -> u <> t -> nth_error (g_tasks c) u = Some y ->
    exists y', nth_error (g_tasks c') u = Some y' /\ tk_stack y' = tk_stack y /\ (tk_sched y = true -> tk_sched y' = true)).
  { intros g u y -> Du Ny. destruct (access_old chash mhash c _ c1 k Ea u y Ny) as (y1 & Ny1 & (_ & _ & W3 & _ & W5 & _)).
    exists y1. rewrite with_task_nth. destruct (Nat.eqb_spec u t); [contradiction|]. auto. }
  assert (Me : forall g, c' = with_task c1 t g -> nth_error (g_tasks c') t = Some (g x1)).
  { intros g ->. rewrite with_task_nth, Nat.eqb_refl, N1. reflexivity. }
  assert (Rs : forall g, c' = with_task c1 t g -> (forall z, tk_result (g z) = tk_result z) -> forall u, res_of c' u = res_of c u).
  { intros g -> Hg u. rewrite <- (access_res c _ c1 k Ea u). unfold res_of. rewrite with_task_nth. destruct (u =? t); auto.
    destruct (nth_error (g_tasks c1) u); cbn; auto. }
  (* the tasks that were added *)
  assert (New : forall g, c' = with_task c1 t g -> (forall s, cur (g_map c') s = cur (g_map c) s) ->
    sumf (task_cost (cur (g_map c')) (res_of c')) (skipn (length (g_tasks c)) (g_tasks c')) = more).
  { intros g Hg Hcu. rewrite <- Mo.
    destruct (access_length c _ c1 k Ea) as [(prev & s & pend & k' & Eq & -> & Et)|(L & _)].
    - assert (X : g_tasks c' = upd (g_tasks c) t (g x1) ++ [mkTask prev s [FImp prev s ILook] false pend false None]).
      { rewrite Hg. unfold with_task. cbn [g_tasks]. rewrite N1, Et. pose proof (nth_error_lt _ _ _ N) as Lt. clear -Lt. revert t Lt. 
        induction (g_tasks c) as [|a l IH]; intros t Lt; cbn [length] in Lt. lia. destruct t as [|t]; cbn; auto. f_equal. apply IH. lia. }
      rewrite X, Et, !skipn_app, upd_length, Nat.sub_diag, skipn_all, skipn_all2 by (rewrite ?upd_length; auto). cbn [skipn app]. rewrite !sumf_cons. reflexivity.
    - rewrite !skipn_all2; auto. lia. rewrite Hg. rewrite with_task_length. lia. }
  (* a step that does not finish the task *)
  assert (GO : forall ns, c' = with_task c1 t (set_stack ns) ->
     work c' + stack_cost (cur (g_map c)) (res_of c) (f :: rest) <= work c + stack_cost (cur (g_map c)) (res_of c) ns + more).
  { intros ns Hg. pose proof (Rs _ Hg (fun z => eq_refl)) as Hr.
    pose proof (others_work c c' t x _ _ R Hc N (Me _ Hg) (fun u y => Oth _ u y Hg) (fun f0 Hf => ready_later c c' f0 R Hf Hr) eq_refl) as Q.
    rewrite (New _ Hg Hc) in Q. unfold task_cost at 1 2 in Q. cbn [set_stack tk_stack tk_sched] in Q. rewrite Sx, Sx1, E in Q.
    pose proof (new_work c c' ns R' Hc Hr) as Q2.
    assert (Q3 : stack_cost (cur (g_map c')) (res_of c') ns <= stack_cost (cur (g_map c)) (res_of c) ns).
    { apply Q2. intros f0 Hf. apply (frames_nth c' t (set_stack ns x1)); auto. }
    lia. }
  destruct k as [f'|g h|v|]; cbn [run_ctl] in Er; try discriminate.
  - injection Er as <-. specialize (GO _ eq_refl). destruct Sp as (P & Sp). cbn [stack_cost] in GO. rewrite P in GO. destruct Sp as [Sp|(-> & Sp & Sn)].
    + left. right. split; auto. lia.
    + right. split. right. split; auto. lia. eauto.
  - injection Er as <-. specialize (GO _ eq_refl). destruct Sp as (P & Sp). cbn [stack_cost below_cost] in GO. rewrite P in GO. left. right. split; auto. lia.
  - pose proof (return_cur chash mhash c t x f rest c1 v I N E Ea) as Ev. cbn [SearchSpend.ctl_spends] in Sp.
    destruct Sp as (M0 & Sp).
    left. right. split; auto. destruct rest as [|g r].
    + injection Er as <-. set (c' := with_task c1 t (set_result v)) in *.
      assert (Rt : forall u, u <> t -> res_of c' u = res_of c u).
      { intros u Du. rewrite <- (access_res c _ c1 _ Ea u). unfold res_of, c'. rewrite with_task_nth. destruct (Nat.eqb_spec u t); auto. contradiction. }
      assert (Rt' : res_of c' t = Some v). { unfold res_of. rewrite (Me _ eq_refl). reflexivity. }
      assert (L : forall f0, In f0 (frames (cores c)) -> frame_later (cur (g_map c)) (res_of c) (res_of c') f0).
      { intros f0 Hf. pose proof (frame_edges_ok _ _ _ (inv_frame_ok chash mhash c f0 I Hf)) as EO. split; [|apply EO].
        intros z u Hz Hu. destruct (Nat.eq_dec u t) as [->|Du]; [right|left; now apply Rt]. split. unfold res_of. now rewrite N.
        exists v. split; auto. destruct (kid_task mhash c _ _ z t eq_refl EO Hz Hu) as (y & Ny & Py & Sy & _). rewrite N in Ny. injection Ny as <-.
        destruct f as [s lim pc|prev s pc|s pc]; cbn in Fi.
        - exfalso. cbn [SearchModel.frame_req] in Ea. destruct pc; cbn [main_req SearchModel.access] in Ea; try discriminate.
          destruct (sm_get _ _ _); discriminate. destruct (closed st || _); discriminate.
        - injection Fi as F1 F2. cbn [fset] in Ev. rewrite <- Sy, F2. split; auto. rewrite <- Py, F1. now apply Sp.
        - destruct Fi. }
      pose proof (others_work c c' t x _ _ R Hc N (Me _ eq_refl) (fun u y => Oth _ u y eq_refl) L eq_refl) as Q.
      rewrite (New _ eq_refl Hc) in Q. unfold task_cost at 1 2 in Q. cbn [set_result tk_stack tk_sched stack_cost] in Q. rewrite Sx, Sx1, E in Q. cbn [stack_cost] in Q.
      pose proof (frame_cost_pos (cur (g_map c)) (res_of c) f). lia.
    + destruct (resume g v) as [f'|] eqn:Ef; [|discriminate]. injection Er as <-. specialize (GO _ eq_refl). cbn [stack_cost below_cost] in GO.
      rewrite (resume_prev _ _ _ Ef) in GO. cbn [hd_error] in Fi.
      pose proof (resume_cost (g_map c) (goal_in (cores c)) (tk_prev x, tk_set x) g f v f' (res_of c) (proj1 Sk) Fi Ef Ev Sp) as Q.
      pose proof (frame_cost_pos (cur (g_map c)) (res_of c) f). lia.
Qed.
Lemma cancel_all_res ts c u : res_of (cancel_all ts c) u = res_of c u.
Proof.
  unfold res_of. destruct (nth_error (g_tasks c) u) as [y|] eqn:N.
  - destruct (cancel_all_evolve chash mhash ts c u y N) as (y1 & N1 & (_ & _ & _ & E & _) & _). now rewrite N1.
  - replace (nth_error (g_tasks (cancel_all ts c)) u) with (@None Task); auto. symmetry. apply nth_error_None. rewrite cancel_all_length. now apply nth_error_None.
Qed.
Lemma drop_less c t c' : Ready c -> drop_frame c t = Stepped c' -> less c' c.
Proof.
  intros R H. pose proof (ready_step chash mhash c c' R (SysDrop chash mhash c t c' H)) as R'.
  assert (Sh : state_shards (g_map c') = state_shards (g_map c) /\ exists x f rest ts, nth_error (g_tasks c) t = Some x /\ tk_stack x = f :: rest /\
     g_tasks c' = g_tasks (with_task (cancel_all ts c) t (set_stack rest))).
  { unfold SearchModel.drop_frame in H. destruct (nth_error (g_tasks c) t) as [x|] eqn:N; [|discriminate]. destruct (negb (tk_cancel x)); [discriminate|].
    destruct (tk_stack x) as [|f rest] eqn:E; [discriminate|]. destruct (held f) as [(s, id)|].
    - match type of H with context [sm_unlock ?h ?m ?x] => destruct (sm_unlock h m x) eqn:El; [|discriminate] end. injection H as <-.
      cbn [g_map g_tasks]. apply unlock_shards in El. rewrite El, with_task_map, cancel_all_map. split; [reflexivity|]. exists x, f, rest, (all_running (frame_edges f)). auto.
    - injection H as <-. rewrite with_task_map, cancel_all_map. split; [reflexivity|]. exists x, f, rest, (all_running (frame_edges f)). auto. }
  destruct Sh as (Sh & x & f & rest & ts & N & E & Et). pose proof (potential_same mhash _ _ Sh) as Po.
  assert (Hc : forall s, cur (g_map c') s = cur (g_map c) s) by (intros s; now apply same_cur).
  assert (Nc : forall u, nth_error (g_tasks c') u = if u =? t then option_map (set_stack rest) (nth_error (g_tasks (cancel_all ts c)) u) else nth_error (g_tasks (cancel_all ts c)) u).
  { intros u. rewrite Et. apply with_task_nth. }
  assert (Hr : forall u, res_of c' u = res_of c u).
  { intros u. rewrite <- (cancel_all_res ts c u). unfold res_of. rewrite Nc. destruct (u =? t); auto. destruct (nth_error (g_tasks (cancel_all ts c)) u); auto. }
  destruct (cancel_all_evolve chash mhash ts c t x N) as (x1 & N1 & (_ & _ & V3 & _) & V5).
  assert (Nt : nth_error (g_tasks c') t = Some (set_stack rest x1)). { rewrite Nc, Nat.eqb_refl, N1. reflexivity. }
  right. split; auto.
  assert (Q' : work c' + task_cost (cur (g_map c)) (res_of c) x <= work c + (task_cost (cur (g_map c')) (res_of c') (set_stack rest x1) +
     sumf (task_cost (cur (g_map c')) (res_of c')) (skipn (length (g_tasks c)) (g_tasks c')))).
  { apply (others_work c c' t x (set_stack rest x1)); auto.
    - intros u y D Ny. destruct (cancel_all_evolve chash mhash ts c u y Ny) as (y1 & Ny1 & (_ & _ & W3 & _ & W5 & _) & _). exists y1. rewrite Nc.
      destruct (Nat.eqb_spec u t); [contradiction|]. auto.
    - intros f0 Hf. now apply ready_later. }
  rewrite skipn_all2 in Q'. 2: { rewrite Et, with_task_length, cancel_all_length. auto. } change (sumf _ []) with 0 in Q'.
  unfold task_cost at 1 2 in Q'. cbn [set_stack tk_stack tk_sched] in Q'. rewrite V5, E in Q'.
  assert (Q3 : stack_cost (cur (g_map c')) (res_of c') rest <= stack_cost (cur (g_map c)) (res_of c) rest).
  { apply new_work; auto. intros f0 Hf. apply (frames_nth c' t (set_stack rest x1)); auto. }
  pose proof (drop_cost (cur (g_map c)) (res_of c) f rest). lia.
Qed.
Lemma pool_leq c t x : Ready c -> nth_error (g_tasks c) t = Some x -> leq (with_task c t set_sched) c.
Proof.
  intros R N. right. split; auto. set (c' := with_task c t set_sched).
  assert (Nt : nth_error (g_tasks c') t = Some (set_sched x)). { unfold c'. rewrite with_task_nth, Nat.eqb_refl, N. reflexivity. }
  assert (Hr : forall u, res_of c' u = res_of c u).
  { intros u. unfold res_of, c'. rewrite with_task_nth. destruct (u =? t); auto. destruct (nth_error (g_tasks c) u); auto. }
  assert (Q : work c' + task_cost (cur (g_map c)) (res_of c) x <= work c + task_cost (cur (g_map c')) (res_of c') (set_sched x)).
  { apply (others_work c c' t x (set_sched x)); auto.
    - intros u y D Ny. exists y. unfold c'. rewrite with_task_nth. destruct (Nat.eqb_spec u t); [contradiction|]. auto.
    - intros f0 Hf. now apply ready_later.
    - rewrite skipn_all2. change (sumf _ []) with 0. lia. unfold c'. rewrite with_task_length. auto. }
  assert (Q3 : stack_cost (cur (g_map c')) (res_of c') (tk_stack x) <= stack_cost (cur (g_map c)) (res_of c) (tk_stack x)).
  { apply stack_mono; auto. intros f0 Hf. apply ready_later; auto. now apply (frames_nth c t x). }
  unfold task_cost in Q. cbn [set_sched tk_stack tk_sched] in Q. destruct (tk_sched x); lia.
Qed.
Lemma less_leq a b : less a b -> leq a b.
Proof. intros [H|(H & L)]; [left|right]; auto. split; auto. lia. Qed.
Lemma sys_leq c c' : Ready c -> sys_step c c' -> leq c' c.
Proof.
  intros R H. destruct H as [c t c' H|c t x N P|c t c' H].
  - unfold SearchModel.task_step in H. destruct (nth_error (g_tasks c) t) as [x|] eqn:N; [|discriminate]. destruct (tk_sched x) eqn:Sx; [|discriminate]. cbn [negb] in H.
    destruct (tk_stack x) as [|f rest] eqn:E; [discriminate|].
    destruct (access c (frame_req f)) as [| |c1 k] eqn:Ea; try discriminate.
    destruct (own_step c t x f rest c1 k c' R N Sx E Ea H) as [L|(L & _)]; auto. now apply less_leq.
  - now apply (pool_leq c t x).
  - apply less_leq. now apply (drop_less c t).
Qed.
Lemma less_trans a b c : leq a b -> less b c -> less a c.
Proof. unfold less, leq. lia. Qed.
Lemma less_trans' a b c : less a b -> leq b c -> less a c.
Proof. unfold less, leq. lia. Qed.
Lemma leq_trans a b c : leq a b -> leq b c -> leq a c.
Proof. unfold leq. lia. Qed.
Lemma leq_refl a : leq a a.
Proof. unfold leq. lia. Qed.
Lemma less_wf : well_founded less.
Proof.
  intros a. remember (potential (g_map a)) as p eqn:Ep. revert a Ep. induction p as [p IHp] using lt_wf_ind. intros a Ep.
  remember (work a) as w eqn:Ew. revert a Ep Ew. induction w as [w IHw] using lt_wf_ind. intros a Ep Ew. constructor. intros b [H|(H & L)].
  - apply (IHp (potential (g_map b))); auto. lia.
  - apply (IHw (work b)); auto; lia.
Qed.
End Work.
