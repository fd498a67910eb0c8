(* The workers of the scope end only when no task is left, and then nothing starts again. *)
From Coq Require Import List Arith Bool Lia Permutation.
Import ListNotations.
From Verif Require Import Spec Vec Net Graded Bits Util OutputSetModel OutputSetProofs PruneProofs PackProofs HuffmanModel HuffmanProofs CanonModel TreeModel StatesModel StatesProofs StatesBounds.
From Verif Require Import MachineModel MachineProofs CanonMachModel StatesMachModel StatesMachProofs PoolModel PoolProofs.
From Verif Require Import SearchModel SearchFair SearchFacts SearchInv SearchEdges SearchStep SearchFrames SearchGlobal SearchRun SearchSafe SearchWaits SearchGood SearchReady SearchPend SearchOwned SearchEnds SearchRest SearchMachModel SearchMachReq SearchMachProofs SearchMachRun.
From Verif Require Import ExecModel ExecFacts ExecInv ExecStep ExecRun ExecOther ExecLive ExecRest ProgModel ProgProofs ProgLive ScopeModel.

Record Dead (x : Prog) : Prop := {
  dd_queue : sc_queue (pr_sched x) = [];
  dd_workers : forall w k, nth_error (pr_workers x) w = Some k -> in_hand k = false;
  dd_hand : cell_in_hand (m_pool (pr_mach x)) = false;
  dd_cells : forall u, alive (m_pool (pr_mach x)) u = true -> PoolModel.is_waiting (m_pool (pr_mach x)) u = true -> False;
  dd_kids : forall t y f, nth_error (m_tasks (pr_mach x)) t = Some y -> In f (tk_stack y) -> kids f = [];
  dd_stacks : forall t y, 0 < t -> nth_error (m_tasks (pr_mach x)) t = Some y -> tk_stack y = [] }.

Lemma existsb_none {A} (f : A -> bool) l : existsb f l = false <-> forall i a, nth_error l i = Some a -> f a = false.
Proof.
  induction l as [|x l IH]; cbn [existsb]; split.
  - intros _ [|i]; discriminate.
  - auto.
  - intros H i a N. apply orb_false_elim in H. destruct H as (H1 & H2). destruct i as [|i]; [now injection N as <-|]. now apply (proj1 IH H2 i).
  - intros H. rewrite (H 0 x eq_refl). apply IH. intros i a N. exact (H (S i) a N).
Qed.
Lemma dead_spec x : some_task x = false <-> Dead x.
Proof.
  unfold some_task. rewrite !orb_false_iff, !existsb_none. split.
  - intros (((((H1 & H2) & H3) & H4) & H5) & H6). constructor; auto.
    + destruct (sc_queue (pr_sched x)); [auto|discriminate].
    + intros u A B. unfold alive, PoolModel.is_waiting in *. destruct (nth_error (cells (m_pool (pr_mach x))) u) as [c|] eqn:N; [|discriminate]. specialize (H4 u c N). rewrite A, B in H4. discriminate.
    + intros t y f N Hf. specialize (H5 t y N). rewrite existsb_none in H5. destruct (In_nth_error _ _ Hf) as (i & Ni). specialize (H5 i f Ni). unfold kids. destruct (all_running (frame_edges f)); [auto|discriminate].
    + intros t y T N. destruct t as [|t]; [lia|]. specialize (H6 t y). destruct (m_tasks (pr_mach x)) as [|z ts]; [discriminate|]. cbn [tl nth_error] in *. specialize (H6 N). destruct (tk_stack y); [auto|discriminate].
  - intros [D1 D2 D3 D4 D5 D6]. split; [split; [split; [split; [split|]|]|]|]; auto.
    + now rewrite D1.
    + intros i c N. destruct (waiting c && (0 <? owners c)) eqn:E; auto. apply andb_prop in E. destruct E as (E1 & E2). exfalso. apply (D4 i); unfold alive, PoolModel.is_waiting; now rewrite N.
    + intros t y N. apply existsb_none. intros i f Ni. pose proof (D5 t y f N (nth_error_In _ _ Ni)) as Z. unfold kids in Z. now rewrite Z.
    + intros t y N. rewrite (D6 (S t) y); auto. lia. destruct (m_tasks (pr_mach x)); [now destruct t|auto].
Qed.

(* the pool for the worker with the lock when no task is left *)
Lemma dead_lock p : cell_in_hand p = false -> (forall u, alive p u = true -> PoolModel.is_waiting p u = true -> False) ->
  let '(ev, p') := lock_step p in (forall e, ev <> EvTaken e) /\ cells p' = cells p /\ cell_in_hand p' = false.
Proof.
  intros H C. unfold lock_step.
  assert (Z : forall p' u, cells p' = cells p -> alive p u = true -> PoolModel.is_waiting p' u = false).
  { intros p' u E A. unfold PoolModel.is_waiting. rewrite E. fold (PoolModel.is_waiting p u). destruct (PoolModel.is_waiting p u) eqn:W; auto. exfalso. eapply C; eauto. }
  destruct (worker p) as [|l n|k [|e r] m l n|k e r m l n| |e] eqn:W.
  - split; [discriminate|]. split; reflexivity.
  - destruct (chan p) as [|e r]. { split; [discriminate|]. split; reflexivity. }
    destruct (length (queue p) <? next_gc p); (split; [discriminate|]); (split; [reflexivity|]); unfold do_insert, cell_in_hand; cbn [set_worker worker]; try destruct (l <=? S n); reflexivity.
  - split; [discriminate|]. split; [reflexivity|]. unfold do_insert, cell_in_hand. cbn [set_worker worker]. now destruct (l <=? S n).
  - split; [discriminate|]. split; [reflexivity|]. unfold cell_in_hand. cbn [set_worker worker]. destruct (alive p (snd e)) eqn:A; [apply Z; auto|reflexivity].
  - split; [discriminate|]. split; reflexivity.
  - destruct (queue p) as [|e r]. { split; [discriminate|]. split; reflexivity. }
    split; [discriminate|]. split; [reflexivity|]. unfold cell_in_hand. cbn [set_worker worker]. destruct (alive p (snd e)) eqn:A; [apply Z; auto|reflexivity].
  - unfold cell_in_hand in H. rewrite W in H. rewrite H. split; [discriminate|]. split; reflexivity.
Qed.

Section Scope.
Variables chash mhash : list nat -> nat.
Notation prog_step := (ProgModel.prog_step chash mhash).

Lemma dead_pool c s ws p' ws' : Dead (mkProg c s ws) -> cells p' = cells (m_pool c) -> cell_in_hand p' = false ->
  (forall w k, nth_error ws' w = Some k -> in_hand k = false) -> Dead (mkProg (with_pool c p') s ws').
Proof.
  intros [D1 D2 D3 D4 D5 D6] E H W. constructor; cbn [pr_sched pr_workers pr_mach m_pool m_tasks with_pool] in *; auto.
  intros u. unfold alive, PoolModel.is_waiting. rewrite E. apply D4.
Qed.
Lemma dead_workers ws w k : (forall w k, nth_error ws w = Some k -> in_hand k = false) -> in_hand k = false -> forall v k', nth_error (upd ws w k) v = Some k' -> in_hand k' = false.
Proof.
  intros H K v k' N. destruct (Nat.eq_dec v w) as [->|D]; [|rewrite nth_error_upd_neq in N by auto; eauto].
  destruct (Nat.lt_ge_cases w (length ws)) as [L|L]. rewrite nth_error_upd_eq in N by auto. now injection N as <-.
  pose proof (nth_error_lt _ _ _ N) as L'. rewrite upd_length in L'. lia.
Qed.
Lemma dead_step x w x' evs : Dead x -> prog_step x w = PDone x' evs -> Dead x' /\ pr_sched x' = pr_sched x /\ m_tasks (pr_mach x') = m_tasks (pr_mach x) /\
  exists k k', nth_error (pr_workers x) w = Some k /\ pr_workers x' = upd (pr_workers x) w k' /\
    (pw_send k <> None /\ k' = mkPWorker None [] (pw_place k) /\ lock_kept x x' \/
     pw_send k = None /\ pw_place k = PlTop /\ k' = mkPWorker None [] PlLock /\ pr_mach x' = pr_mach x \/
     pw_send k = None /\ pw_place k = PlRecv /\ k' = mkPWorker None [] PlTop /\ pr_mach x' = pr_mach x \/
     pw_send k = None /\ pw_place k = PlLock /\ k' = mkPWorker None [] PlHold \/
     pw_send k = None /\ pw_place k = PlHold /\ m_pool (pr_mach x') = snd (lock_step (m_pool (pr_mach x))) /\ k' = mkPWorker None [] (match worker (m_pool (pr_mach x')) with WFree => PlRecv | _ => PlHold end)).
Proof.
  intros D. destruct x as [c s ws]. pose proof D as [D1 D2 D3 D4 D5 D6]. cbn [pr_sched pr_workers pr_mach] in *. unfold ProgModel.prog_step.
  destruct (nth_error ws w) as [[sd todo pl]|] eqn:N; [|discriminate]. pose proof (D2 w _ N) as H. unfold in_hand in H. cbn [pw_todo pw_place] in H.
  destruct todo as [|a todo]; [|discriminate]. destruct sd as [e|].
  - destruct (unsend e (sending (m_pool c))) as [l|]; [|discriminate]. intros Z. injection Z as <- <-. split; [|split; [reflexivity|split; [reflexivity|]]].
    + apply (dead_pool c s ws); auto. apply dead_workers; auto.
    + exists (mkPWorker (Some e) [] pl), (mkPWorker None [] pl). split; [auto|]. split; [reflexivity|]. left. split; [discriminate|]. split; [reflexivity|]. split; reflexivity.
  - destruct pl; try discriminate.
    + rewrite D1. intros Z. injection Z as <- <-. split; [|split; [reflexivity|split; [reflexivity|]]].
      * constructor; cbn [pr_sched pr_workers pr_mach]; auto. now apply dead_workers.
      * eexists _, _. split; [eauto|]. split; [reflexivity|]. right. left. auto.
    + destruct (worker (m_pool c)) eqn:W; try discriminate. unfold lock_step. rewrite W. intros Z. injection Z as <- <-. split; [|split; [reflexivity|split; [reflexivity|]]].
      * apply (dead_pool c s ws); auto. now apply dead_workers.
      * eexists _, _. split; [eauto|]. split; [reflexivity|]. right. right. right. left. auto.
    + pose proof (dead_lock (m_pool c) D3 D4) as L. destruct (lock_step (m_pool c)) as (ev, p') eqn:Lk. destruct L as (L1 & L2 & L3). intros Z. injection Z as <- <-.
      assert (T : taken ev (with_pool c p') = with_pool c p') by (destruct ev; auto; exfalso; eapply L1; eauto).
      assert (S : match ev with EvTaken e => push (snd e) s | _ => s end = s) by (destruct ev; auto; exfalso; eapply L1; eauto).
      rewrite T, S. cbn [pr_sched pr_mach pr_workers m_pool m_tasks with_pool].
      assert (A : after_lock ev p' = match worker p' with WFree => PlRecv | _ => PlHold end) by (unfold after_lock; destruct (worker p'); auto; destruct ev; auto; exfalso; eapply L1; eauto).
      split; [|split; [reflexivity|split; [reflexivity|]]].
      * apply (dead_pool c s ws); auto. apply dead_workers; auto. rewrite A. now destruct (worker p').
      * eexists _, _. split; [eauto|]. split; [reflexivity|]. right. right. right. right. split; [reflexivity|]. split; [reflexivity|]. split; [reflexivity|]. now rewrite A.
    + rewrite D1. intros Z. injection Z as <- <-. split; [|split; [reflexivity|split; [reflexivity|]]].
      * constructor; cbn [pr_sched pr_workers pr_mach]; auto. now apply dead_workers.
      * eexists _, _. split; [eauto|]. split; [reflexivity|]. right. right. left. auto.
Qed.
End Scope.
