(* The invariant of the executor of ExecModel: no wake-up is lost. *)
From Coq Require Import List Arith Bool Lia Permutation.
Import ListNotations.
From Verif Require Import Spec Vec Net Graded Bits Util CountProofs OutputSetModel OutputSetProofs PruneProofs PackProofs HuffmanModel HuffmanProofs CanonModel TreeModel StatesModel StatesProofs StatesBounds SearchModel SearchFair SearchFacts SearchInv SearchEdges SearchStep SearchFrames SearchGlobal SearchRun SearchSafe SearchOrder SearchWaits SearchMain SearchClosed SearchSlack SearchGood SearchQuiet SearchReach SearchNext SearchHuff SearchLive SearchReady SearchCost SearchSpend SearchWork SearchPend PipeProofs ExecModel ExecFacts.

(* improve_next inside a frame *)
Definition frame_next (f : Frame) : option (Edges * NextPc) :=
  match f with
  | FImp _ _ (INext _ _ e np) | FHuff _ (HNext _ _ _ _ _ e np) => Some (e, np)
  | _ => None
  end.
(* t left its waker with the task of edge id, which is not finished *)
Definition polled (c : Config) (s : Sched) (t : nat) (e : Edges) (id : nat) : Prop :=
  forall x u, nth_error (targets e) id = Some x -> tg_run x = Some u -> sc_awaiter s u = Some t /\ res_of c u = None.
Definition seen (c : Config) (s : Sched) (t : nat) (f : Frame) : Prop :=
  match frame_next f with
  | Some (e, NPoll ids _ _ _) => forall id, In id (active e) -> ~ In id ids -> polled c s t e id
  | Some (e, NPend) => forall id, In id (active e) -> polled c s t e id
  | _ => True
  end.
(* what wakes a task that does not run *)
Definition watched (c : Config) (s : Sched) (t : nat) (f : Frame) : Prop :=
  match f with
  | FImp _ _ (INext _ _ e NPend) | FHuff _ (HNext _ _ _ _ _ e NPend) => forall id, In id (active e) -> polled c s t e id
  | FImp _ _ (IWait id) => ~ In id (g_sent c) /\ In (id, t) (sc_waits s)
  | FMain _ _ (MDone _) => True
  | _ => False
  end.
Definition parked (f : Frame) : Prop := match frame_next f with Some (_, NPoll _ _ _ _) => False | _ => True end.

Definition job_task (j : Job) : option nat :=
  match j with JNone => None | JPoll t _ | JPark t | JDrop t => Some t end.
Definition holds (ws : list Worker) (w : nat) (j : Job) : Prop := exists k, nth_error ws w = Some k /\ wk_job k = j.
Definition busy (ws : list Worker) (w t : nat) : Prop := exists k, nth_error ws w = Some k /\ job_task (wk_job k) = Some t.
Definition acting (ws : list Worker) (a : Act) : Prop := exists w k, nth_error ws w = Some k /\ In a (wk_todo k).
Definition running (s : Sched) (t : nat) : Prop := exists a, sc_flag s t = TRunning a.

(* a task runs on exactly one worker *)
Definition FI (s : Sched) (ws : list Worker) : Prop :=
  (forall w t, busy ws w t -> running s t) /\ (forall t, running s t -> exists w, busy ws w t) /\
  (forall w w' t, busy ws w t -> busy ws w' t -> w = w').

Definition noted (s : Sched) (ws : list Worker) (t : nat) : Prop := sc_flag s t = TRunning true \/ acting ws (AWake t).

(* a task y = t with innermost frame f *)
Definition KI (c : Config) (s : Sched) (ws : list Worker) (t : nat) (y : Task) (f : Frame) : Prop :=
  (tk_cancel y = true -> sc_flag s t <> TIdle /\ (tk_sched y = false -> acting ws (ADrop t))) /\
  (tk_cancel y = false ->
     (sc_flag s t = TIdle -> parked f /\ (acting ws (AWake t) \/ watched c s t f)) /\
     (sc_flag s t = TQueued -> parked f) /\
     (forall w, holds ws w (JPoll t true) -> parked f) /\
     (forall w, holds ws w (JPoll t false) -> noted s ws t \/ seen c s t f) /\
     (forall w, holds ws w (JPark t) -> parked f /\ (noted s ws t \/ watched c s t f)) /\
     (forall w, ~ holds ws w (JDrop t))).

Record EI (x : Exec) : Prop := {
  ei_queue : QI (is_scheduled (ex_conf x)) (ex_sched x);
  ei_jobs : FI (ex_sched x) (ex_workers x);
  ei_tasks : forall t y f rest, nth_error (g_tasks (ex_conf x)) t = Some y -> tk_stack y = f :: rest ->
    KI (ex_conf x) (ex_sched x) (ex_workers x) t y f }.

Lemma busy_upd ws w k w' t : w < length ws -> busy (upd ws w k) w' t <-> if w' =? w then job_task (wk_job k) = Some t else busy ws w' t.
Proof.
  intros L. unfold busy. destruct (Nat.eqb_spec w' w) as [->|D].
  - rewrite nth_error_upd_eq by auto. split. intros (k' & H & J). now injection H as <-. eauto.
  - now rewrite nth_error_upd_neq.
Qed.
Lemma holds_upd ws w k w' j : w < length ws -> holds (upd ws w k) w' j <-> if w' =? w then wk_job k = j else holds ws w' j.
Proof.
  intros L. unfold holds. destruct (Nat.eqb_spec w' w) as [->|D].
  - rewrite nth_error_upd_eq by auto. split. intros (k' & H & J). now injection H as <-. eauto.
  - now rewrite nth_error_upd_neq.
Qed.
Lemma holds_busy ws w j t : holds ws w j -> job_task j = Some t -> busy ws w t.
Proof. intros (k & N & <-) E. exists k. auto. Qed.
Lemma acting_upd ws w k0 k a : nth_error ws w = Some k0 -> (In a (wk_todo k0) -> In a (wk_todo k)) -> acting ws a -> acting (upd ws w k) a.
Proof.
  intros N I (w' & k' & N' & H). destruct (Nat.eq_dec w' w) as [->|D].
  - exists w, k. split. apply nth_error_upd_eq. eapply nth_error_lt; eauto. apply I. congruence.
  - exists w', k'. split; auto. now rewrite nth_error_upd_neq.
Qed.
Lemma acting_new ws w k a : w < length ws -> In a (wk_todo k) -> acting (upd ws w k) a.
Proof. intros L H. exists w, k. split; auto. now apply nth_error_upd_eq. Qed.

(* ---- tasks run on one worker ---- *)
Lemma FI_keep s ws s' w k0 k : FI s ws -> nth_error ws w = Some k0 -> job_task (wk_job k) = job_task (wk_job k0) -> (forall t, running s' t <-> running s t) -> FI s' (upd ws w k).
Proof.
  intros (A & B & C) N J R. pose proof (nth_error_lt _ _ _ N) as L.
  assert (X : forall w' t, busy (upd ws w k) w' t <-> busy ws w' t).
  { intros w' t. rewrite busy_upd by auto. destruct (Nat.eqb_spec w' w) as [->|]; [|tauto]. rewrite J. unfold busy. split. eauto. intros (k' & N' & H). congruence. }
  split; [|split].
  - intros w' t H. apply R. apply X in H. eauto.
  - intros t H. apply R in H. destruct (B t H) as (w' & Hw). exists w'. now apply X.
  - intros w1 w2 t H1 H2. apply X in H1. apply X in H2. eauto.
Qed.
Lemma FI_begin s ws s' w k0 k t : FI s ws -> nth_error ws w = Some k0 -> job_task (wk_job k0) = None -> job_task (wk_job k) = Some t ->
  ~ running s t -> running s' t -> (forall u, u <> t -> running s' u <-> running s u) -> FI s' (upd ws w k).
Proof.
  intros (A & B & C) N J0 J R0 R1 R. pose proof (nth_error_lt _ _ _ N) as L.
  assert (X : forall w' u, busy (upd ws w k) w' u <-> w' = w /\ u = t \/ busy ws w' u).
  { intros w' u. rewrite busy_upd by auto. destruct (Nat.eqb_spec w' w) as [->|D]; [|tauto]. rewrite J. split. intros H. injection H as ->. auto.
    intros [(_ & ->)|(k' & N' & H)]; auto. congruence. }
  assert (NT : forall w', ~ busy ws w' t). { intros w' H. apply R0. eauto. }
  split; [|split].
  - intros w' u H. apply X in H. destruct H as [(-> & ->)|H]; auto. apply R. intros ->. now apply (NT w'). eauto.
  - intros u H. destruct (Nat.eq_dec u t) as [->|D]. exists w. apply X. auto. apply R in H; auto. destruct (B u H) as (w' & Hw). exists w'. apply X. auto.
  - intros w1 w2 u H1 H2. apply X in H1. apply X in H2. destruct H1 as [(-> & ->)|H1], H2 as [(-> & E)|H2]; auto; subst; try (exfalso; eapply NT; eauto; fail). eauto.
Qed.
Lemma FI_end s ws s' w k0 k t : FI s ws -> nth_error ws w = Some k0 -> job_task (wk_job k0) = Some t -> job_task (wk_job k) = None ->
  ~ running s' t -> (forall u, u <> t -> running s' u <-> running s u) -> FI s' (upd ws w k).
Proof.
  intros (A & B & C) N J0 J R1 R. pose proof (nth_error_lt _ _ _ N) as L.
  assert (Bt : busy ws w t) by (exists k0; auto).
  assert (X : forall w' u, busy (upd ws w k) w' u <-> busy ws w' u /\ u <> t).
  { intros w' u. rewrite busy_upd by auto. destruct (Nat.eqb_spec w' w) as [->|D].
    - rewrite J. split. discriminate. intros ((k' & N' & H) & Hu). congruence.
    - split; [|tauto]. intros H. split; auto. intros ->. apply D. eauto. }
  split; [|split].
  - intros w' u H. apply X in H. destruct H as (H & D). apply R; eauto.
  - intros u H. destruct (Nat.eq_dec u t) as [->|D]. contradiction. apply R in H; auto. destruct (B u H) as (w' & Hw). exists w'. apply X. auto.
  - intros w1 w2 u H1 H2. apply X in H1. apply X in H2. destruct H1, H2. eauto.
Qed.

(* ---- the tasks other than t ---- *)
Record Outer (c : Config) (s : Sched) (c' : Config) (s' : Sched) (acts : list Act) (t : nat) : Prop := {
  ou_flag : forall v, v <> t -> sc_flag s' v = sc_flag s v \/ sc_flag s v = TIdle /\ sc_flag s' v = TQueued;
  ou_queue : QI (is_scheduled c') s';
  ou_watch : forall v y f rest, v <> t -> nth_error (g_tasks c) v = Some y -> tk_stack y = f :: rest ->
    (watched c s v f -> watched c' s' v f \/ In (AWake v) acts) /\ (seen c s v f -> seen c' s' v f \/ In (AWake v) acts);
  ou_cancel : forall u y y', u <> t -> nth_error (g_tasks c) u = Some y -> nth_error (g_tasks c') u = Some y' -> ended y = false -> tk_cancel y' = true ->
    if tk_sched y then sc_flag s' u <> TIdle else In (ADrop u) acts;
  ou_tasks : forall u y', u <> t -> nth_error (g_tasks c') u = Some y' ->
    (exists y, nth_error (g_tasks c) u = Some y /\ evolve y y') \/
    nth_error (g_tasks c) u = None /\ tk_cancel y' = false /\ tk_sched y' = false /\ exists p q, tk_stack y' = [FImp p q ILook] }.

Lemma running_outer s s' t : (forall v, v <> t -> sc_flag s' v = sc_flag s v \/ sc_flag s v = TIdle /\ sc_flag s' v = TQueued) ->
  forall u, u <> t -> running s' u <-> running s u.
Proof. intros H u D. unfold running. destruct (H u D) as [->|(-> & ->)]; [tauto|]. split; intros (a & E); discriminate. Qed.

Section Inv.
Variables chash mhash : list nat -> nat.
Notation Inv := (Inv chash mhash).
Notation Ready := (Ready chash mhash).
Notation frame_req := (frame_req chash).
Notation access := (access mhash).
Notation task_step := (task_step chash mhash).
Notation drop_frame := (drop_frame mhash).
Notation sys_step := (sys_step chash mhash).
Notation work_step := (work_step chash mhash).
Notation exec_step := (exec_step chash mhash).

Lemma KI_outer c s ws c' s' ws' acts t v y y' f rest : Ready c -> QI (is_scheduled c) s -> Outer c s c' s' acts t -> v <> t ->
  (forall w j, job_task j = Some v -> holds ws' w j -> holds ws w j) ->
  (forall a, (a = AWake v \/ a = ADrop v) -> acting ws a -> acting ws' a) -> (forall a, In a acts -> acting ws' a) ->
  nth_error (g_tasks c) v = Some y -> tk_stack y = f :: rest -> nth_error (g_tasks c') v = Some y' -> evolve y y' ->
  KI c s ws v y f -> KI c' s' ws' v y' f.
Proof.
  intros R Q0 O D Hj Ha Hn N E N' (_ & _ & E3 & E4 & E5 & E6) (K1 & K2). pose proof (ou_flag _ _ _ _ _ _ O v D) as Fl.
  destruct (ou_watch _ _ _ _ _ _ O v y f rest D N E) as (Wa & Se).
  assert (Re : ended y = tk_cancel y). { unfold ended. rewrite (no_result chash mhash c v y f rest); auto. now rewrite orb_false_r. apply (gd_inv _ _ c (rd_good _ _ c R)). }
  split.
  - intros Cy'. destruct (tk_cancel y) eqn:Cy.
    + destruct (K1 eq_refl) as (A & B). split. { destruct Fl as [->|(F & _)]; congruence. } intros Sy'. apply Ha; auto. apply B. destruct (tk_sched y); auto. now rewrite E5 in Sy'.
    + pose proof (ou_cancel _ _ _ _ _ _ O v y y' D N N' Re Cy') as X. destruct (tk_sched y) eqn:Sy. { split; auto. intros Sy'. now rewrite E5 in Sy'. }
      split. 2: { intros _. now apply Hn. } assert (F : sc_flag s v = TQueued). { apply Q0. unfold is_scheduled. now rewrite N. }
      destruct Fl as [->|(F' & _)]; congruence.
  - intros Cy'. assert (Cy : tk_cancel y = false). { destruct (tk_cancel y); auto. now rewrite E6 in Cy'. }
    destruct (K2 Cy) as (I1 & I2 & I3 & I4 & I5 & I6).
    assert (No : noted s ws v -> noted s' ws' v). { intros [H|H]. left. destruct Fl as [->|(F' & _)]; congruence. right. apply Ha; auto. }
    split; [|split; [|split; [|split; [|split]]]].
    + intros F'. assert (F : sc_flag s v = TIdle) by (destruct Fl as [F0|(F0 & _)]; congruence). destruct (I1 F) as (P & W). split; auto.
      destruct W as [W|W]. left. apply Ha; auto. destruct (Wa W); auto.
    + intros F'. destruct Fl as [F|(F & _)]. apply I2. congruence. now apply I1.
    + intros w H. apply (I3 w). now apply Hj.
    + intros w H. destruct (I4 w) as [W|W]. now apply Hj. left. auto. destruct (Se W); auto. left. right. auto.
    + intros w H. destruct (I5 w) as (P & W). now apply Hj. split; auto. destruct W as [W|W]; auto. destruct (Wa W); auto. left. right. auto.
    + intros w H. apply (I6 w). now apply Hj.
Qed.

(* the invariant after a step of worker w that concerns task t *)
Lemma EI_outer c s ws c' s' acts t w k0 k : Ready c -> EI (mkExec c s ws) -> Outer c s c' s' acts t ->
  nth_error ws w = Some k0 -> FI s' (upd ws w k) -> incl acts (wk_todo k) ->
  (forall v, v <> t -> job_task (wk_job k) = Some v -> wk_job k0 = wk_job k) ->
  (forall a, a <> AWake t -> a <> ADrop t -> In a (wk_todo k0) -> In a (wk_todo k)) ->
  (forall y' f rest, nth_error (g_tasks c') t = Some y' -> tk_stack y' = f :: rest -> KI c' s' (upd ws w k) t y' f) ->
  EI (mkExec c' s' (upd ws w k)).
Proof.
  intros R [Q F K] O N F' Ia Ij It Kt. cbn [ex_conf ex_sched ex_workers] in *. pose proof (nth_error_lt _ _ _ N) as L.
  constructor; cbn [ex_conf ex_sched ex_workers]; auto. apply (ou_queue _ _ _ _ _ _ O).
  intros v y' f rest N' E'. destruct (Nat.eq_dec v t) as [->|D]. { eapply Kt; eauto. }
  assert (Hj : forall w0 j, job_task j = Some v -> holds (upd ws w k) w0 j -> holds ws w0 j).
  { intros w0 j Hj H. apply holds_upd in H; auto. destruct (Nat.eqb_spec w0 w) as [->|]; auto. exists k0. split; auto. subst j. now apply (Ij v). }
  destruct (ou_tasks _ _ _ _ _ _ O v y' D N') as [(y & Ny & Ev)|(Ny & Cy & Sy & p & q & Ey)].
  - assert (E : tk_stack y = f :: rest). { destruct Ev as (_ & _ & E3 & _). congruence. }
    apply (KI_outer c s ws c' s' (upd ws w k) acts t v y y' f rest); auto.
    + intros a Ha H. apply (acting_upd ws w k0); auto. apply It; destruct Ha; congruence.
    + intros a Ha. apply acting_new; auto.
    + eapply K; eauto.
  - rewrite Ey in E'. injection E' as <- <-. split. congruence. intros _.
    assert (Fv : sc_flag s' v = TQueued). { apply (ou_queue _ _ _ _ _ _ O). unfold is_scheduled. now rewrite N'. }
    assert (Nb : forall w0 j, job_task j = Some v -> ~ holds (upd ws w k) w0 j).
    { intros w0 j Ej H. destruct F' as (F1 & _). destruct (F1 w0 v) as (a & Fa). eapply holds_busy; eauto. congruence. }
    split; [|split; [|split; [|split; [|split]]]].
    + congruence.
    + intros _. exact Logic.I.
    + intros w0 H. exfalso. now apply (Nb w0 (JPoll v true)).
    + intros w0 H. exfalso. now apply (Nb w0 (JPoll v false)).
    + intros w0 H. exfalso. now apply (Nb w0 (JPark v)).
    + intros w0 H. now apply (Nb w0 (JDrop v)).
Qed.

(* steps that only change the header of t *)
Lemma outer_local c s s' t : (forall v, v <> t -> sc_flag s' v = sc_flag s v) -> QI (is_scheduled c) s' -> (forall v, sc_awaiter s' v = sc_awaiter s v) ->
  incl (sc_waits s) (sc_waits s') -> Outer c s c s' [] t.
Proof.
  intros F Q A W. constructor; auto.
  - intros v y f rest D N E. assert (P : forall e id, polled c s v e id -> polled c s' v e id). { intros e id H x u Nx Rx. rewrite A. now apply (H x u). }
    split; intros H; left.
    + destruct f as [s0 l pc|prev s0 pc|s0 pc]; auto; destruct pc; auto; cbn [watched] in *; try (destruct np; auto). destruct H. split; auto.
    + unfold seen in *. destruct (frame_next f) as [(e, [ids fin nr b| | |])|]; auto.
  - intros u y y' D N N' En C. rewrite N in N'. injection N' as <-. unfold ended in En. rewrite C in En. discriminate.
  - intros u y' D N. left. exists y'. split; auto. apply evolve_refl.
Qed.
End Inv.
