(* The runs of the program of ProgModel; if every worker thread goes on then the run queue is served. *)
From Coq Require Import List Arith Bool Lia Permutation.
Import ListNotations.
From Verif Require Import Spec Vec Net Graded Bits Util OutputSetModel OutputSetProofs PruneProofs PackProofs HuffmanModel HuffmanProofs CanonModel TreeModel StatesModel StatesProofs StatesBounds.
From Verif Require Import MachineModel MachineProofs CanonMachModel StatesMachModel StatesMachProofs PoolModel PoolProofs.
From Verif Require Import SearchModel SearchFair SearchFacts SearchInv SearchEdges SearchStep SearchFrames SearchGlobal SearchRun SearchSafe SearchWaits SearchGood SearchReady SearchMachModel SearchMachReq SearchMachProofs SearchMachRun.
From Verif Require Import ExecModel ExecFacts ExecInv ExecStep ExecRun ExecOther ExecLive ProgModel ProgProofs.

(* what is left to do for the worker with the lock (src/thread_pool.rs:154-190) *)
Definition rounds (p : Pool) : nat :=
  match worker p with
  | WDrain l n => 2 * (l - n) + 2
  | WGc _ _ _ l n | WGcHold _ _ _ _ l n => 2 * (l - n) + 1
  | _ => 0
  end.
Definition left_over (p : Pool) : nat :=
  match worker p with
  | WGc _ todo _ _ _ => 2 * length todo + 1
  | WGcHold _ _ r _ _ _ => 2 * length r + 2
  | WTake => 2 * length (queue p) + 1
  | WTakeHold _ => 2 * length (queue p) + 2
  | _ => 0
  end.
Lemma insert_rounds p q gc m l n : let p' := do_insert p q gc m l n in rounds p' < 2 * (l - n) + 1.
Proof.
  cbv zeta. unfold do_insert, rounds. cbn [set_worker worker]. destruct (Nat.leb_spec l (S n)); [lia|]. lia.
Qed.
Lemma lock_less p : worker p <> WFree -> let p' := snd (lock_step p) in
  worker p' = WFree \/ rounds p' < rounds p \/ rounds p' = rounds p /\ left_over p' < left_over p.
Proof.
  intros H. cbv zeta. unfold lock_step. destruct (worker p) as [|l n|k [|e r] m l n|k e r m l n| |e] eqn:W; [congruence|..]; cbn [snd].
  - destruct (chan p) as [|e r]; cbn [snd].
    + right. left. unfold rounds at 2. rewrite W. unfold rounds. cbn [set_worker worker]. lia.
    + destruct (length (queue p) <? next_gc p); cbn [snd]; right; left; unfold rounds at 2; rewrite W.
      * eapply Nat.lt_trans; [apply insert_rounds|]. lia.
      * unfold rounds. cbn [set_worker worker]. lia.
  - right. left. unfold rounds at 2. rewrite W. apply insert_rounds.
  - right. right. unfold rounds, left_over. rewrite W. cbn [set_worker worker]. destruct (alive p (snd e)); cbn [length]; lia.
  - right. right. unfold rounds, left_over. rewrite W. cbn [set_worker worker]. lia.
  - destruct (queue p) as [|e r] eqn:Q; cbn [snd]; [now left|]. right. right. unfold rounds, left_over. rewrite W, Q. cbn [set_worker worker queue].
    destruct (alive p (snd e)); cbn [length]; lia.
  - destruct (PoolModel.is_waiting p (snd e)); cbn [snd]; [now left|]. right. right. unfold rounds, left_over. rewrite W. cbn [set_worker worker queue]. lia.
Qed.

Section Run.
Variables chash mhash : list nat -> nat.
Notation Inv := (SearchGlobal.Inv chash mhash).
Notation Ready := (SearchReady.Ready chash mhash).
Notation PI := (ProgProofs.PI mhash).
Notation prog_step := (ProgModel.prog_step chash mhash).
Notation prog_run := (ProgModel.prog_run chash mhash).
Notation mach_run := (SearchMachModel.mach_run chash mhash).
Notation work_step := (ExecModel.work_step chash mhash).
Notation exec_step := (ExecModel.exec_step chash mhash).
Notation exec_run := (ExecModel.exec_run chash mhash).
Notation seen_as := (ProgProofs.seen_as chash mhash).

Lemma seen_exec x w k x' : seen_as x w k x' -> exec_of x' = exec_of x \/ exec_step (exec_of x) (exec_of x').
Proof.
  assert (W : work_step (exec_of x) w = Some (exec_of x') -> exec_of x' = exec_of x \/ exec_step (exec_of x) (exec_of x')) by (intros H; right; eapply ExWork; eauto).
  destruct k as [[e|] [|a todo] [| | | |t fresh|t|t]]; cbn [ProgProofs.seen_as]; auto; destruct (sc_queue (pr_sched x)); auto.
Qed.

Lemma start_all workers threads initial limit x evs : okset initial -> prog_start chash workers threads initial limit = Some (x, evs) ->
  PI x /\ mach_start chash threads initial limit = Some (pr_mach x, evs) /\ length (pr_workers x) = workers /\
  exists c, search_start chash threads initial limit = Some c /\ exec_of x = exec_start workers c.
Proof.
  intros K. unfold prog_start. destruct (mach_start chash threads initial limit) as [(c, ev)|] eqn:E; [|discriminate]. intros H. injection H as <- <-. cbn [pr_mach pr_workers].
  destruct (start_sim chash mhash threads initial limit c ev K E) as (c0 & Ec & R & _ & _). pose proof (rel_conf mhash c c0 R) as Z. subst c0.
  assert (NT : forall w k, nth_error (repeat (mkPWorker None [] PlTop) workers) w = Some k -> k = mkPWorker None [] PlTop).
  { intros w k H. apply nth_error_In, repeat_spec in H. auto. }
  assert (Po : sending (m_pool c) = [] /\ worker (m_pool c) = WFree).
  { unfold mach_start in E. repeat match type of E with context[match ?a with _ => _ end] => destruct a; try discriminate end. injection E as <- _. split; reflexivity. }
  destruct Po as (P1 & P2). split; [|split; [reflexivity|split; [apply repeat_length|]]].
  - constructor; cbn [pr_mach pr_workers]; auto.
    + rewrite P1. clear. induction workers as [|n IH]; cbn; auto.
    + unfold lock_ok. rewrite P2. intros w k H. rewrite (NT w k H). discriminate.
    + intros w k H. rewrite (NT w k H). intros [].
  - exists (conf_of c). split; auto. unfold exec_of, exec_start. cbn [pr_mach pr_sched pr_workers]. f_equal. clear. induction workers as [|n IH]; cbn; auto. f_equal. apply IH.
Qed.

Theorem run_all workers threads initial limit tr x : okset initial -> prog_run workers threads initial limit tr x ->
  PI x /\ mach_run threads initial limit tr (pr_mach x) /\ length (pr_workers x) = workers /\ exec_run workers threads initial limit (exec_of x).
Proof.
  intros K R. induction R as [x evs E|tr x w x' evs R IH E].
  - destruct (start_all workers threads initial limit x evs K E) as (P & M & L & c & Ec & Ex). split; auto. split; [now apply mach_run_start|]. split; auto. rewrite Ex. now apply ex_start.
  - destruct IH as (P & M & L & Ex). destruct (exec_EI chash mhash workers threads initial limit (exec_of x) K Ex) as (_ & Rd). pose proof (gd_inv _ _ _ (rd_good _ _ _ Rd)) as I.
    destruct (nth_error (pr_workers x) w) as [k|] eqn:N. 2: { destruct x as [c s ws]. cbn [ProgModel.prog_step pr_workers] in *. rewrite N in E. discriminate. }
    pose proof (prog_sim chash mhash x w k I P N) as S. rewrite E in S. destruct S as (P' & Sn & (k' & Ew) & Mc & _). split; auto. split; [|split].
    + destruct Mc as [(-> & ->)|Mc]. now rewrite app_nil_r. eapply mach_run_step; eauto.
    + now rewrite Ew, upd_length.
    + destruct (seen_exec x w k x' Sn) as [-> |St]; auto. eapply ex_next; eauto.
Qed.
Lemma run_inv' workers threads initial limit tr x : okset initial -> prog_run workers threads initial limit tr x -> Inv (conf_of (pr_mach x)) /\ PI x.
Proof.
  intros K R. destruct (run_all workers threads initial limit tr x K R) as (P & _ & _ & Ex). destruct (exec_EI chash mhash workers threads initial limit (exec_of x) K Ex) as (_ & Rd).
  split; auto. exact (gd_inv _ _ _ (rd_good _ _ _ Rd)).
Qed.

(* ---- executions ---- *)
Section Live.
Variable X : nat -> Prog.
Hypothesis HT : prog_trace chash mhash X.
Hypothesis HG : threads_go chash mhash X.
Hypothesis HI : forall i, Inv (conf_of (pr_mach (X i))) /\ PI (X i).

Definition Y (i : nat) : Exec := exec_of (X i).
Lemma step_at i : X (S i) = X i \/ exists w k evs, nth_error (pr_workers (X i)) w = Some k /\ prog_step (X i) w = PDone (X (S i)) evs /\
  PI (X (S i)) /\ seen_as (X i) w k (X (S i)) /\ (exists k', pr_workers (X (S i)) = upd (pr_workers (X i)) w k') /\
  (pw_place k <> PlLock -> pw_place k <> PlHold -> lock_kept (X i) (X (S i))).
Proof.
  destruct (HT i) as [E|(w & evs & E)]; auto. right. destruct (nth_error (pr_workers (X i)) w) as [k|] eqn:N.
  2: { destruct (X i) as [c s ws]. cbn [ProgModel.prog_step pr_workers] in *. rewrite N in E. discriminate. }
  destruct (HI i) as (I & P). pose proof (prog_sim chash mhash (X i) w k I P N) as S. rewrite E in S. destruct S as (P' & Sn & Ew & _ & L). exists w, k, evs. split; [exact N|]. split; [exact E|]. split; [exact P'|]. split; [exact Sn|]. split; [exact Ew|exact L].
Qed.
Lemma Y_trace : exec_trace chash mhash Y.
Proof.
  intros i. unfold Y. destruct (step_at i) as [->|(w & k & evs & _ & _ & _ & Sn & _)]; auto. eapply seen_exec; eauto.
Qed.

Definition turn (w j : nat) : Prop := (exists evs, prog_step (X j) w = PDone (X (S j)) evs) \/ prog_step (X j) w = PWait.
Lemma until w (P : Prog -> Prop) : (forall x, P x -> exists k, nth_error (pr_workers x) w = Some k) ->
  (forall j w' k' evs, w' <> w -> P (X j) -> nth_error (pr_workers (X j)) w' = Some k' -> prog_step (X j) w' = PDone (X (S j)) evs -> P (X (S j))) ->
  forall i, P (X i) -> exists j, i <= j /\ P (X j) /\ turn w j.
Proof.
  intros HP KP i Pi. destruct (HP _ Pi) as (k0 & N0). destruct (HG w i) as (J & LJ & T). { eapply nth_error_lt; eauto. } clear k0 N0.
  remember (J - i) as n eqn:En. revert i Pi LJ En. induction n as [|n IH]; intros i Pi LJ En.
  - assert (J = i) as -> by lia. exists i. auto.
  - destruct (HT i) as [E|(w' & evs & E)].
    + destruct (IH (S i)) as (j & Lj & H); try lia. { now rewrite E. } exists j. split; auto. lia.
    + destruct (Nat.eq_dec w' w) as [->|D]. { exists i. split; auto. split; auto. left. eauto. }
      destruct (nth_error (pr_workers (X i)) w') as [k'|] eqn:N. 2: { destruct (X i) as [c s ws]. cbn [ProgModel.prog_step pr_workers] in *. rewrite N in E. discriminate. }
      destruct (IH (S i)) as (j & Lj & H); try lia. { eapply KP; eauto. } exists j. split; auto. lia.
Qed.
(* a worker keeps its record until it makes a step *)
Lemma until_turn w k i : nth_error (pr_workers (X i)) w = Some k -> exists j, i <= j /\ nth_error (pr_workers (X j)) w = Some k /\ turn w j.
Proof.
  intros N. apply (until w (fun x => nth_error (pr_workers x) w = Some k)); eauto.
  intros j w' k' evs D Nj N' E. destruct (HI j) as (I & P). pose proof (prog_sim chash mhash (X j) w' k' I P N') as S. rewrite E in S. destruct S as (_ & _ & (k1 & Ew) & _). rewrite Ew. rewrite nth_error_upd_neq by auto. exact Nj.
Qed.
Lemma turn_done w k j : nth_error (pr_workers (X j)) w = Some k -> k <> mkPWorker None [] PlLock -> turn w j -> exists evs, prog_step (X j) w = PDone (X (S j)) evs /\ seen_as (X j) w k (X (S j)).
Proof.
  intros N D T. destruct (HI j) as (I & P). pose proof (prog_sim chash mhash (X j) w k I P N) as S. destruct T as [(evs & E)|E]; rewrite E in S.
  - exists evs. split; auto. apply S.
  - destruct S as (S & _). congruence.
Qed.
Lemma sent_next w e todo pl j evs : nth_error (pr_workers (X j)) w = Some (mkPWorker (Some e) todo pl) -> prog_step (X j) w = PDone (X (S j)) evs ->
  nth_error (pr_workers (X (S j))) w = Some (mkPWorker None todo pl).
Proof.
  intros N E. pose proof (nth_error_lt _ _ _ N) as L. destruct (X j) as [c s ws]. cbn [ProgModel.prog_step pr_workers] in *. rewrite N in E.
  destruct (unsend e (sending (m_pool c))); [|discriminate]. injection E as <- _. cbn [pr_workers]. now apply nth_error_upd_eq.
Qed.

(* a busy worker makes a step *)
Lemma busy w i k : nth_error (ex_workers (Y i)) w = Some k -> k <> mkWorker [] JNone ->
  exists j, i <= j /\ (work_step (Y j) w = Some (Y (S j)) \/ work_step (Y j) w = None).
Proof.
  assert (A : forall todo pl i, nth_error (pr_workers (X i)) w = Some (mkPWorker None todo pl) -> mkWorker todo (job_of pl) <> mkWorker [] JNone ->
    exists j, i <= j /\ work_step (Y j) w = Some (Y (S j))).
  { clear i. intros todo pl i N D. destruct (until_turn w _ i N) as (j & L & Nj & T).
    destruct (turn_done w _ j Nj) with (2 := T) as (evs & E & Sn). { intros Z. injection Z as -> ->. now apply D. }
    exists j. split; auto. unfold Y. destruct todo as [|a todo]; destruct pl; cbn [ProgProofs.seen_as] in Sn; auto; exfalso; now apply D. }
  intros N D. unfold Y, exec_of in N. cbn [ex_workers] in N. rewrite nth_error_map in N. destruct (nth_error (pr_workers (X i)) w) as [[[e|] todo pl]|] eqn:Nx; [| |discriminate]; injection N as <-.
  - destruct (until_turn w _ i Nx) as (j & L & Nj & T). destruct (turn_done w _ j Nj) with (2 := T) as (evs & E & _). discriminate.
    pose proof (sent_next w e todo pl j evs Nj E) as N1. destruct (A todo pl (S j) N1 D) as (j' & L' & H). exists j'. split; auto. lia.
  - destruct (A todo pl i Nx D) as (j & L & H). eauto.
Qed.

(* the queue is served or empty *)
Definition served (i : nat) : Prop := exists j, i <= j /\ (sc_queue (ex_sched (Y j)) = [] \/
  exists w, nth_error (ex_workers (Y j)) w = Some (mkWorker [] JNone) /\ work_step (Y j) w = Some (Y (S j))).
Lemma served_later i j : i <= j -> served j -> served i.
Proof. intros L (j' & L' & H). exists j'. split; auto. lia. Qed.
Lemma serve_at w i pl : pl = PlTop \/ pl = PlRecv -> nth_error (pr_workers (X i)) w = Some (mkPWorker None [] pl) -> served i.
Proof.
  intros H N. destruct (until_turn w _ i N) as (j & L & Nj & T). apply (served_later i j L).
  destruct (turn_done w _ j Nj) with (2 := T) as (evs & E & Sn). { destruct H as [-> | ->]; discriminate. }
  assert (F : nth_error (ex_workers (Y j)) w = Some (mkWorker [] JNone)). { unfold Y, exec_of. cbn [ex_workers]. rewrite nth_error_map, Nj. cbn. destruct H as [-> | ->]; reflexivity. }
  exists j. split; auto. change (sc_queue (ex_sched (Y j))) with (sc_queue (pr_sched (X j))). destruct H as [-> | ->]; cbn [ProgProofs.seen_as] in Sn; (destruct (sc_queue (pr_sched (X j))); [now left|right; exists w; auto]).
Qed.
Lemma serve_hold w : forall r n i, rounds (m_pool (pr_mach (X i))) <= r -> left_over (m_pool (pr_mach (X i))) <= n ->
  nth_error (pr_workers (X i)) w = Some (mkPWorker None [] PlHold) -> served i.
Proof.
  induction r as [r IHr] using lt_wf_ind. induction n as [n IHn] using lt_wf_ind. intros i Lr Ln N.
  destruct (until w (fun x => nth_error (pr_workers x) w = Some (mkPWorker None [] PlHold) /\ worker (m_pool (pr_mach x)) = worker (m_pool (pr_mach (X i))) /\
    queue (m_pool (pr_mach x)) = queue (m_pool (pr_mach (X i))))) with (i := i) as (j & L & (Nj & Wj & Qj) & T); auto.
  { intros x (H & _). eauto. }
  { intros j w' k' evs D (Nj & Wj & Qj) N' E. destruct (HI j) as (I & P). pose proof (prog_sim chash mhash (X j) w' k' I P N') as S.
    destruct (lock_holder _ _ w _ (pi_lock _ _ P) Nj eq_refl) as (Wf & Un).
    assert (K1 : pw_place k' <> PlHold). { intros Z. apply D. eapply Un; eauto. }
    assert (K2 : pw_place k' <> PlLock).
    { intros Z. destruct (pi_place _ _ P w' k' N') as (Z1 & Z2). { rewrite Z. exact Logic.I. } destruct k' as [sd td pl]. cbn in Z, Z1, Z2. subst sd td pl. clear S.
      destruct (X j) as [c s ws]. cbn [ProgModel.prog_step pr_workers pr_mach] in *. rewrite N' in E. destruct (worker (m_pool c)); try discriminate. now apply Wf. }
    rewrite E in S. destruct S as (_ & _ & (k1 & Ew) & _ & LK). destruct (LK K2 K1) as (A & B). rewrite Ew, nth_error_upd_neq by auto. rewrite A, B. auto. }
  destruct (turn_done w _ j Nj) with (2 := T) as (evs & E & _). discriminate. destruct (HI j) as (I & P). destruct (lock_holder _ _ w _ (pi_lock _ _ P) Nj eq_refl) as (Wf & _).
  pose proof (lock_less (m_pool (pr_mach (X j))) Wf) as Ls.
  assert (R1 : rounds (m_pool (pr_mach (X j))) = rounds (m_pool (pr_mach (X i)))) by (unfold rounds; now rewrite Wj).
  assert (R2 : left_over (m_pool (pr_mach (X j))) = left_over (m_pool (pr_mach (X i)))) by (unfold left_over; now rewrite Wj, Qj).
  assert (Nx : exists ev, nth_error (pr_workers (X (S j))) w = Some (mkPWorker None [] (after_lock ev (m_pool (pr_mach (X (S j)))))) /\ m_pool (pr_mach (X (S j))) = snd (lock_step (m_pool (pr_mach (X j))))).
  { clear - E Nj. pose proof (nth_error_lt _ _ _ Nj) as Lw. destruct (X j) as [c s ws]. cbn [ProgModel.prog_step pr_workers pr_mach] in *. rewrite Nj in E. destruct (lock_step (m_pool c)) as (ev, p). injection E as <- _. exists ev.
    cbn [pr_workers pr_mach snd]. assert (Z : m_pool (taken ev (with_pool c p)) = p) by (destruct ev; reflexivity). rewrite Z. split; auto. now apply nth_error_upd_eq. }
  destruct Nx as (ev & Nx & Ep). rewrite <- Ep in Ls. apply (served_later i (S j)). lia. unfold after_lock in Nx. destruct (worker (m_pool (pr_mach (X (S j))))) eqn:W'.
  1: { destruct ev; (eapply (serve_at w (S j)); [|exact Nx]; auto). }
  all: destruct Ls as [Ls|[Ls|(Ls1 & Ls2)]]; [congruence| |].
  all: try (apply (IHr (rounds (m_pool (pr_mach (X (S j))))) ltac:(lia) (left_over (m_pool (pr_mach (X (S j))))) (S j)); auto).
  all: apply (IHn (left_over (m_pool (pr_mach (X (S j))))) ltac:(lia) (S j)); auto; lia.
Qed.
Lemma serve_lock w i : nth_error (pr_workers (X i)) w = Some (mkPWorker None [] PlLock) -> served i.
Proof.
  intros N. destruct (until_turn w _ i N) as (j & L & Nj & T). apply (served_later i j L). destruct T as [(evs & E)|E].
  - apply (served_later j (S j)). lia. eapply (serve_hold w); [reflexivity|reflexivity|].
    pose proof (nth_error_lt _ _ _ Nj) as Lw. destruct (X j) as [c s ws]. cbn [ProgModel.prog_step pr_workers pr_mach] in *. rewrite Nj in E. destruct (worker (m_pool c)); try discriminate.
    destruct (lock_step (m_pool c)) as (ev, p). injection E as <- _. cbn [pr_workers]. now apply nth_error_upd_eq.
  - destruct (HI j) as (I & P). pose proof (prog_sim chash mhash (X j) w _ I P Nj) as S. rewrite E in S. destruct S as (_ & Wf). pose proof (pi_lock _ _ P) as LK. unfold lock_ok in LK.
    assert (H : exists h, h < length (pr_workers (X j)) /\ forall v k, nth_error (pr_workers (X j)) v = Some k -> (pw_place k = PlHold <-> v = h)). { destruct (worker (m_pool (pr_mach (X j)))); auto. congruence. }
    destruct H as (h & Lh & H). destruct (nth_error (pr_workers (X j)) h) as [k|] eqn:Nh. 2: { apply nth_error_None in Nh. lia. }
    assert (Hp : pw_place k = PlHold) by now apply (H h k Nh). destruct (pi_place _ _ P h k Nh) as (Z1 & Z2). { rewrite Hp. exact Logic.I. } destruct k as [sd td pl]. cbn in Hp, Z1, Z2. subst sd td pl.
    eapply (serve_hold h); [reflexivity|reflexivity|exact Nh].
Qed.
Lemma serves w i : nth_error (ex_workers (Y i)) w = Some (mkWorker [] JNone) -> served i.
Proof.
  intros N. unfold Y, exec_of in N. cbn [ex_workers] in N. rewrite nth_error_map in N. destruct (nth_error (pr_workers (X i)) w) as [[sd td pl]|] eqn:Nx; [|discriminate]. injection N as E1 E2. cbn in E1, E2. subst td.
  destruct (HI i) as (I & P). destruct sd as [e|].
  - destruct pl; try discriminate; try (destruct (pi_place _ _ P w _ Nx) as (Z & _); [exact Logic.I|discriminate]).
    destruct (until_turn w _ i Nx) as (j & L & Nj & T). destruct (turn_done w _ j Nj) with (2 := T) as (evs & E & _). discriminate.
    apply (served_later i (S j)). lia. apply (serve_at w (S j) PlTop); auto. eapply sent_next; eauto.
  - destruct pl; try discriminate.
    + apply (serve_at w i PlTop); auto.
    + now apply (serve_lock w).
    + eapply (serve_hold w); [reflexivity|reflexivity|exact Nx].
    + apply (serve_at w i PlRecv); auto.
Qed.
End Live.

Theorem prog_fair workers threads initial limit X : okset initial -> 0 < workers -> (exists tr, prog_run workers threads initial limit tr (X 0)) ->
  prog_trace chash mhash X -> threads_go chash mhash X ->
  execution chash mhash (fun i => conf_of (pr_mach (X i))) /\ fair chash mhash (fun i => conf_of (pr_mach (X i))).
Proof.
  intros K W R0 T G.
  assert (R : forall i, exists tr, prog_run workers threads initial limit tr (X i)).
  { induction i as [|i (tr & IH)]; auto. destruct (T i) as [->|(w & evs & E)]; [eauto|]. exists (tr ++ evs). eapply prog_run_step; eauto. }
  assert (HI : forall i, Inv (conf_of (pr_mach (X i))) /\ PI (X i)). { intros i. destruct (R i) as (tr & Ri). eapply run_inv'; eauto. }
  assert (HX : forall i, exec_run workers threads initial limit (exec_of (X i))). { intros i. destruct (R i) as (tr & Ri). now destruct (run_all workers threads initial limit tr (X i) K Ri) as (_ & _ & _ & Z). }
  assert (HTY : exec_trace chash mhash (Y X)) by now apply Y_trace.
  split.
  - intros i. pose proof (HTY i) as Z. unfold Y in Z. destruct Z as [E|S].
    + left. change (ex_conf (exec_of (X (S i))) = ex_conf (exec_of (X i))). now rewrite E.
    + exact (exec_conf chash mhash _ _ S).
  - apply (conf_fair chash mhash (Y X)); auto.
    + intros w i k. now apply busy.
    + intros w i. now apply serves.
    + intros i. now destruct (exec_EI chash mhash workers threads initial limit _ K (HX i)).
    + intros i. now destruct (exec_EI chash mhash workers threads initial limit _ K (HX i)).
    + intros i E. pose proof (run_length chash mhash workers threads initial limit _ (HX i)) as L. unfold Y in E. rewrite E in L. cbn in L. lia.
Qed.
End Run.
