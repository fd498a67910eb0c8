(* In an execution of the program in which every worker thread goes on, all tasks are dropped in the end. *)
From Coq Require Import List Arith Bool Lia Permutation.
Import ListNotations.
From Verif Require Import Spec Vec Net Graded Bits Util OutputSetModel OutputSetProofs PruneProofs PackProofs HuffmanModel HuffmanProofs CanonModel TreeModel StatesModel StatesProofs StatesBounds.
From Verif Require Import MachineModel MachineProofs CanonMachModel StatesMachModel StatesMachProofs PoolModel PoolProofs.
From Verif Require Import SearchModel SearchFair SearchFacts SearchInv SearchEdges SearchStep SearchFrames SearchGlobal SearchRun SearchSafe SearchWaits SearchGood SearchReady SearchPend SearchOwned SearchEnds SearchRest SearchMachModel SearchMachReq SearchMachProofs SearchMachRun.
From Verif Require Import ExecModel ExecFacts ExecInv ExecStep ExecRun ExecOther ExecLive ExecRest ProgModel ProgProofs ProgLive ScopeModel ScopeProofs.

Lemma rest_kids c : Rest c -> flat_map kids (frames (cores c)) = [].
Proof.
  intros ((x & s & l & k & N & E & C) & H). destruct (flat_map kids (frames (cores c))) as [|u K] eqn:F; auto. exfalso.
  assert (Hu : In u (flat_map kids (frames (cores c)))) by (rewrite F; now left). apply in_flat_map in Hu. destruct Hu as (g & Hg & Kg).
  destruct (in_frames c g Hg) as (v & y & Nv & Gv). destruct v as [|v].
  - rewrite N in Nv. injection Nv as <-. rewrite E in Gv. destruct Gv as [<-|[]]. destruct Kg.
  - rewrite (H (S v) y) in Gv by (auto; lia). destruct Gv.
Qed.
Definition hold (p : Pool) : nat := match worker p with WGcHold _ _ _ _ _ _ | WTakeHold _ => 1 | _ => 0 end.
Lemma hold_lock p : (forall u, alive p u = false) -> hold (snd (lock_step p)) = 0.
Proof.
  intros A. unfold lock_step. destruct (worker p) as [|l n|k [|e r] m l n|k e r m l n| |e] eqn:W; cbn [snd]; auto.
  - destruct (chan p) as [|e r]; auto. destruct (length (queue p) <? next_gc p); cbn [snd]; auto. unfold do_insert, hold. cbn [set_worker worker]. now destruct (l <=? S n).
  - unfold do_insert, hold. cbn [set_worker worker]. now destruct (l <=? S n).
  - rewrite A. reflexivity.
  - destruct (queue p) as [|e r]; auto. cbn [snd]. rewrite A. reflexivity.
  - now destruct (PoolModel.is_waiting p (snd e)).
Qed.

Lemma Place_eq k : pw_place k = PlHold \/ pw_place k = PlLock \/ pw_place k <> PlHold /\ pw_place k <> PlLock.
Proof. destruct (pw_place k); auto; right; right; split; discriminate. Qed.

Section Rest.
Variables chash mhash : list nat -> nat.
Notation Inv := (SearchGlobal.Inv chash mhash).
Notation PI := (ProgProofs.PI mhash).
Notation prog_step := (ProgModel.prog_step chash mhash).
Notation prog_run := (ProgModel.prog_run chash mhash).
Notation conf x := (conf_of (pr_mach x)).

Definition V (x : Prog) : nat := to_do (exec_of x) + hold (m_pool (pr_mach x)).
Record Fine (x : Prog) : Prop := { fi_inv : Inv (conf x); fi_pi : PI x; fi_queue : QI (is_scheduled (conf x)) (pr_sched x) }.

Lemma rest_alive x u : Fine x -> Rest (conf x) -> alive (m_pool (pr_mach x)) u = false.
Proof.
  intros F R. destruct (rel_own _ _ _ (pi_rel _ _ (fi_pi x F))) as (_ & O). rewrite (rest_kids _ R) in O. unfold alive. destruct (nth_error (cells (m_pool (pr_mach x))) u) as [c|] eqn:N; auto. rewrite (O u c N). reflexivity.
Qed.
Lemma V_step x w x' evs : Fine x -> Rest (conf x) -> prog_step x w = PDone x' evs ->
  to_do (exec_of x') <= to_do (exec_of x) /\ (exec_of x' = exec_of x \/ to_do (exec_of x') < to_do (exec_of x)) /\ hold (m_pool (pr_mach x')) <= hold (m_pool (pr_mach x)) /\
  forall k, nth_error (pr_workers x) w = Some k -> (pw_place k = PlHold -> hold (m_pool (pr_mach x')) = 0) /\
     (pw_send k = None -> in_hand k = true -> to_do (exec_of x') < to_do (exec_of x)).
Proof.
  intros F R E. destruct (nth_error (pr_workers x) w) as [k|] eqn:N. 2: { destruct x as [c s ws]. cbn [ProgModel.prog_step pr_workers] in *. rewrite N in E. discriminate. }
  pose proof (prog_sim chash mhash x w k (fi_inv x F) (fi_pi x F) N) as S. rewrite E in S. destruct S as (P' & Sn & _ & _ & LK).
  assert (A : exec_of x' = exec_of x \/ to_do (exec_of x') < to_do (exec_of x)).
  { destruct (seen_exec chash mhash x w k x' Sn) as [Z|Z]; auto. right. apply (exec_less chash mhash (exec_of x) (exec_of x') R (fi_queue x F) Z). }
  assert (B : pw_place k = PlHold -> hold (m_pool (pr_mach x')) = 0).
  { intros H. destruct (pi_place _ _ (fi_pi x F) w k N) as (Z1 & Z2). { rewrite H. exact Logic.I. } destruct k as [sd td pl]. cbn in H, Z1, Z2. subst.
    pose proof (hold_lock (m_pool (pr_mach x)) (fun u => rest_alive x u F R)) as Hl. clear - E N Hl. destruct x as [c s ws]. cbn [ProgModel.prog_step pr_workers pr_mach] in *. rewrite N in E. destruct (lock_step (m_pool c)) as (ev, p). injection E as <- _.
    cbn [pr_mach]. assert (Z : m_pool (taken ev (with_pool c p)) = p) by (destruct ev; reflexivity). now rewrite Z. }
  split. { destruct A as [-> |A]; lia. } split; auto. split.
  - destruct (Place_eq k) as [H|[H|(H1 & H2)]].
    + rewrite (B H). lia.
    + destruct (pi_place _ _ (fi_pi x F) w k N) as (Z1 & Z2). { rewrite H. exact Logic.I. } destruct k as [sd td pl]. cbn in H, Z1, Z2. subst. clear - E N. destruct x as [c s ws]. cbn [ProgModel.prog_step pr_workers pr_mach] in *. rewrite N in E.
      unfold lock_step in E. destruct (worker (m_pool c)); try discriminate. injection E as <- _. cbn. lia.
    + destruct (LK H2 H1) as (Z & _). unfold hold. rewrite Z. lia.
  - intros k0 N0. injection N0 as <-. split; auto. intros Sd Hd. destruct k as [sd td pl]. cbn in Sd. subst sd.
    assert (W : work_step chash mhash (exec_of x) w = Some (exec_of x')). { unfold in_hand in Hd. cbn in Hd. destruct td as [|a td]; destruct pl; try discriminate; exact Sn. }
    apply (work_less chash mhash (exec_of x) w (exec_of x') R (fi_queue x F) W).
Qed.

Lemma run_fine workers threads initial limit tr x : okset initial -> prog_run workers threads initial limit tr x ->
  Fine x /\ Ready chash mhash (conf x) /\ Pend (conf x) /\ Owned (conf x).
Proof.
  intros K R. destruct (run_all chash mhash workers threads initial limit tr x K R) as (P & M & _ & Ex). destruct (exec_EI chash mhash workers threads initial limit (exec_of x) K Ex) as (EI & Rd).
  destruct (run_sim chash mhash threads initial limit tr (pr_mach x) K M) as (c & Sr & Rl & _). apply rel_conf in Rl. subst c. split; [constructor|split; [|split]].
  - exact (gd_inv _ _ _ (rd_good _ _ _ Rd)).
  - exact P.
  - exact (ei_queue _ EI).
  - exact Rd.
  - eapply run_pend; eauto.
  - eapply run_owned; eauto.
Qed.

Section Live.
Variable X : nat -> Prog.
Hypothesis HT : prog_trace chash mhash X.
Hypothesis HG : threads_go chash mhash X.
Hypothesis HF : forall i, Fine (X i).
Hypothesis HW : forall i, 0 < length (pr_workers (X i)).
Notation Y := (ProgLive.Y X).

Lemma HI i : Inv (conf (X i)) /\ PI (X i).
Proof. destruct (HF i). auto. Qed.
Lemma V_later i j : i <= j -> (forall n, i <= n -> Rest (conf (X n))) ->
  to_do (Y j) <= to_do (Y i) /\ (Y j = Y i \/ to_do (Y j) < to_do (Y i)) /\ hold (m_pool (pr_mach (X j))) <= hold (m_pool (pr_mach (X i))).
Proof.
  intros L R. induction L as [|j L IH]; auto. destruct IH as (A & B & C). destruct (HT j) as [E|(w & evs & E)]. { unfold Y in *. rewrite E. auto. }
  destruct (V_step (X j) w (X (S j)) evs (HF j) (R j L) E) as (A' & B' & C' & _). fold (Y j) (Y (S j)) in A', B'. split; [lia|]. split; [|lia].
  destruct B' as [-> |B']; auto. right. lia.
Qed.
Lemma hand_less w k i : (forall n, i <= n -> Rest (conf (X n))) -> nth_error (pr_workers (X i)) w = Some k -> in_hand k = true -> exists j, i <= j /\ V (X j) < V (X i).
Proof.
  intros R.
  assert (A : forall i todo pl, (forall n, i <= n -> Rest (conf (X n))) -> nth_error (pr_workers (X i)) w = Some (mkPWorker None todo pl) -> in_hand (mkPWorker None todo pl) = true -> exists j, i <= j /\ V (X j) < V (X i)).
  { clear R i k. intros i todo pl R N H. destruct (until_turn chash mhash X HT HG HI w _ i N) as (j & L & Nj & T). destruct (turn_done chash mhash X HI w _ j Nj) with (2 := T) as (evs & E & _). { intros Z. injection Z as -> ->. discriminate. }
    destruct (V_step (X j) w (X (S j)) evs (HF j) (R j L) E) as (_ & _ & C' & K). destruct (K _ Nj) as (_ & K'). specialize (K' eq_refl H). destruct (V_later i j L R) as (A' & _ & C). exists (S j). split; [lia|]. unfold V. fold (Y i) (Y j) (Y (S j)) in *. lia. }
  intros N H. destruct k as [[e|] todo pl]; [|eapply A; eauto]. destruct (until_turn chash mhash X HT HG HI w _ i N) as (j & L & Nj & T). destruct (turn_done chash mhash X HI w _ j Nj) with (2 := T) as (evs & E & _). discriminate.
  pose proof (sent_next chash mhash X w e todo pl j evs Nj E) as N1. destruct (A (S j) todo pl) as (j' & L' & B); auto. { intros n Ln. apply R. lia. }
  exists j'. split; [lia|]. destruct (V_later i (S j)) as (A' & _ & C); auto. unfold V in *. fold (Y i) (Y j') (Y (S j)) in *. lia.
Qed.
Theorem all_dropped i : (forall n, i <= n -> Rest (conf (X n))) -> exists j, i <= j /\ Dead (X j).
Proof.
  remember (V (X i)) as v eqn:Ev. revert i Ev. induction v as [v IH] using lt_wf_ind. intros i -> R.
  assert (Go : (exists j, i <= j /\ V (X j) < V (X i)) -> exists j, i <= j /\ Dead (X j)).
  { intros (j & L & Vj). destruct (IH _ Vj j eq_refl) as (j' & L' & D). { intros n Ln. apply R. lia. } exists j'. split; auto. lia. }
  destruct (existsb in_hand (pr_workers (X i))) eqn:Eh.
  { apply existsb_exists in Eh. destruct Eh as (k & Hk & H). destruct (In_nth_error _ _ Hk) as (w & N). apply Go. eapply hand_less; eauto. }
  rewrite existsb_none in Eh. destruct (sc_queue (pr_sched (X i))) as [|t q] eqn:Q.
  2: { apply Go. destruct (nth_error (pr_workers (X i)) 0) as [k|] eqn:N0. 2: { apply nth_error_None in N0. pose proof (HW i). lia. }
    destruct (serves chash mhash X HT HG HI 0 i) as (j & L & Sv).
    { unfold Y, exec_of. cbn [ex_workers]. rewrite nth_error_map, N0. cbn [option_map]. f_equal. pose proof (Eh 0 k N0) as H. unfold in_hand in H. unfold proj. destruct (pw_todo k); [|discriminate]. destruct (pw_place k); try discriminate; reflexivity. }
    destruct (V_later i j L R) as (A & B & C). destruct Sv as [Sv|(w & _ & Sv)].
    - exists j. split; auto. destruct B as [B|B]. { exfalso. rewrite B in Sv. unfold Y, exec_of in Sv. cbn [ex_sched] in Sv. congruence. } unfold V. fold (Y i) (Y j). lia.
    - destruct (work_less chash mhash (Y j) w (Y (S j)) (R j L) (fi_queue _ (HF j)) Sv) as (_ & Ls). destruct (V_later j (S j)) as (_ & _ & C'); auto. { intros n Ln. apply R. lia. }
      exists (S j). split; [lia|]. unfold V. fold (Y i) (Y (S j)). lia. }
  destruct (hold (m_pool (pr_mach (X i)))) as [|h] eqn:Hh.
  - exists i. split; auto. pose proof (R i (le_n i)) as Ri. constructor.
    + exact Q.
    + exact Eh.
    + unfold hold in Hh. unfold cell_in_hand. destruct (worker (m_pool (pr_mach (X i)))); auto; discriminate.
    + intros u A. rewrite (rest_alive (X i) u (HF i) Ri) in A. discriminate.
    + intros t y f N Hf. destruct Ri as ((x & s & l & k & N0 & E & _) & H). destruct t as [|t].
      * change (nth_error (g_tasks (conf (X i))) 0 = Some y) in N. rewrite N0 in N. injection N as <-. rewrite E in Hf. destruct Hf as [<-|[]]. reflexivity.
      * rewrite (H (S t) y) in Hf by (auto; lia). destruct Hf.
    + intros t y T N. apply Ri with (t := t); auto.
  - apply Go. assert (L : exists w, nth_error (pr_workers (X i)) w = Some (mkPWorker None [] PlHold)).
    { destruct (HI i) as (_ & P). pose proof (pi_lock _ _ P) as LK. unfold lock_ok in LK. unfold hold in Hh.
      assert (H : exists h, h < length (pr_workers (X i)) /\ forall v k, nth_error (pr_workers (X i)) v = Some k -> (pw_place k = PlHold <-> v = h)). { destruct (worker (m_pool (pr_mach (X i)))); auto; discriminate. }
      destruct H as (w & Lw & H). exists w. destruct (nth_error (pr_workers (X i)) w) as [k|] eqn:N. 2: { apply nth_error_None in N. lia. }
      assert (Hp : pw_place k = PlHold) by now apply (H w k N). destruct (pi_place _ _ P w k N) as (Z1 & Z2). { rewrite Hp. exact Logic.I. } destruct k as [sd td pl]. cbn in Hp, Z1, Z2. now subst. }
    destruct L as (w & N). destruct (until_turn chash mhash X HT HG HI w _ i N) as (j & L & Nj & T). destruct (turn_done chash mhash X HI w _ j Nj) with (2 := T) as (evs & E & _). discriminate.
    destruct (V_step (X j) w (X (S j)) evs (HF j) (R j L) E) as (A' & _ & _ & K). destruct (K _ Nj) as (K' & _). specialize (K' eq_refl). destruct (V_later i j L R) as (A & _ & C).
    exists (S j). split; [lia|]. unfold V. fold (Y i) (Y (S j)) (Y j) in *. lia.
Qed.
End Live.

Theorem all_tasks_dropped workers threads initial limit X : okset initial -> 0 < workers -> (exists tr, prog_run workers threads initial limit tr (X 0)) ->
  prog_trace chash mhash X -> threads_go chash mhash X -> exists i, Dead (X i) /\ Rest (conf (X i)).
Proof.
  intros K W R0 T G. destruct (prog_fair chash mhash workers threads initial limit X K W R0 T G) as (E & F).
  assert (R : forall i, exists tr, prog_run workers threads initial limit tr (X i)).
  { induction i as [|i (tr & IH)]; auto. destruct (T i) as [->|(w & evs & S)]; [eauto|]. exists (tr ++ evs). eapply prog_run_step; eauto. }
  assert (A : forall i, Fine (X i) /\ Ready chash mhash (conf (X i)) /\ Pend (conf (X i)) /\ Owned (conf (X i))). { intros i. destruct (R i) as (tr & Ri). eapply run_fine; eauto. }
  destruct (comes_to_rest chash mhash (fun i => conf (X i))) with (i := 0) as (i & _ & H); auto; try (intros i; apply A).
  destruct (all_dropped X T G) with (i := i) as (j & L & D); auto. { intros n; apply A. }
  { intros n. destruct (R n) as (tr & Rn). destruct (run_all chash mhash workers threads initial limit tr (X n) K Rn) as (_ & _ & -> & _). auto. }
  exists j. auto.
Qed.
End Rest.
