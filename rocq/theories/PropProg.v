(* C54: the whole search as a program of worker threads with checks: it never fails, never comes to a halt, and as long
   as the threads go on it ends with the right answer. *)
From Coq Require Import List Arith Bool Lia Permutation.
Import ListNotations.
From Verif Require Import Spec Vec Net Graded Bits Util OutputSetModel OutputSetProofs PruneProofs PackProofs CountProofs HuffmanModel HuffmanProofs CanonModel TreeModel StatesModel StatesProofs StatesBounds.
From Verif Require Import MachineModel StatesMachModel StatesMachProofs PoolModel PoolProofs.
From Verif Require Import SearchModel SearchFair SearchFacts SearchInv SearchEdges SearchGlobal SearchRun SearchSafe SearchGood SearchReady SearchPend SearchEnds SearchMachModel SearchMachReq SearchMachProofs SearchMachRun.
From Verif Require Import ExecModel ExecFacts ExecInv ExecRun ExecOther ExecLive ProgModel ProgProofs ProgLive.
From Verif Require Import PropOutputSet PropSearch PropLive PropFair PropExec PropSearchMach.

(* ---- C54 ---- *)
(* The program starts, and whatever the workers have done so far, the next step of no worker fails a check. *)
Theorem C54_no_check_fails : forall chash mhash workers threads initial limit, start_ok initial ->
  (exists x evs, prog_start chash workers threads initial limit = Some (x, evs)) /\
  forall tr x w, prog_run chash mhash workers threads initial limit tr x -> prog_step chash mhash x w <> PPanic.
Proof.
  intros chash mhash workers threads initial limit K. apply start_okset in K. split.
  - unfold prog_start. destruct (mach_start_some chash threads initial limit K) as (c & evs & ->). eauto.
  - intros tr x w R E. destruct (run_inv' chash mhash _ _ _ _ _ _ K R) as (I & P). destruct (nth_error (pr_workers x) w) as [k|] eqn:N.
    + pose proof (prog_sim chash mhash x w k I P N) as S. now rewrite E in S.
    + destruct x as [c s ws]. cbn [prog_step pr_workers] in *. rewrite N in E. discriminate.
Qed.
Print Assumptions C54_no_check_fails.

(* The program is a refinement of the checked search of C51 and of the executor of C43. *)
Theorem C54_same_search : forall chash mhash workers threads initial limit tr x, start_ok initial ->
  prog_run chash mhash workers threads initial limit tr x ->
  mach_run chash mhash threads initial limit tr (pr_mach x) /\ length (pr_workers x) = workers /\
  exists y, ExecModel.exec_run chash mhash workers threads initial limit y /\ ex_sched y = pr_sched x /\ g_tasks (ex_conf y) = m_tasks (pr_mach x).
Proof.
  intros chash mhash workers threads initial limit tr x K R. apply start_okset in K. destruct (run_all chash mhash _ _ _ _ _ _ K R) as (_ & M & L & E).
  split; [exact M|]. split; [exact L|]. exists (exec_of x). split; [exact E|]. split; reflexivity.
Qed.
Print Assumptions C54_same_search.

(* The lock of Pending: at most one worker has it, a worker waits for nothing else, and only while another one has it. *)
Theorem C54_lock : forall chash mhash workers threads initial limit tr x, start_ok initial ->
  prog_run chash mhash workers threads initial limit tr x ->
  (forall v w k l, nth_error (pr_workers x) v = Some k -> nth_error (pr_workers x) w = Some l -> pw_place k = PlHold -> pw_place l = PlHold -> v = w) /\
  (forall w k, nth_error (pr_workers x) w = Some k -> prog_step chash mhash x w = PWait ->
    k = mkPWorker None [] PlLock /\ exists v l, v <> w /\ nth_error (pr_workers x) v = Some l /\ pw_place l = PlHold).
Proof.
  intros chash mhash workers threads initial limit tr x K R. apply start_okset in K. destruct (run_inv' chash mhash _ _ _ _ _ _ K R) as (I & P). split.
  - intros v w k l Nv Nw Hv Hw. destruct (lock_holder _ _ w l (pi_lock _ _ P) Nw Hw) as (_ & U). exact (U v k Nv Hv).
  - intros w k N E. pose proof (prog_sim chash mhash x w k I P N) as S. rewrite E in S. destruct S as (-> & W). split; auto. pose proof (pi_lock _ _ P) as LK. unfold lock_ok in LK.
    assert (H : exists h, h < length (pr_workers x) /\ forall v k, nth_error (pr_workers x) v = Some k -> (pw_place k = PlHold <-> v = h)). { destruct (worker (m_pool (pr_mach x))); auto. congruence. }
    destruct H as (h & Lh & H). destruct (nth_error (pr_workers x) h) as [l|] eqn:Nh. 2: { apply nth_error_None in Nh. lia. }
    assert (Hl : pw_place l = PlHold) by now apply (H h l Nh). exists h, l. split; auto. intros ->. rewrite N in Nh. injection Nh as <-. discriminate.
Qed.
Print Assumptions C54_lock.

(* Some worker can always make a step. *)
Theorem C54_never_stuck : forall chash mhash workers threads initial limit tr x, start_ok initial -> 0 < workers ->
  prog_run chash mhash workers threads initial limit tr x ->
  exists w x' evs, w < workers /\ prog_step chash mhash x w = PDone x' evs.
Proof.
  intros chash mhash workers threads initial limit tr x K W R. destruct (C54_same_search _ _ _ _ _ _ _ _ K R) as (_ & L & _). destruct (C54_lock _ _ _ _ _ _ _ _ K R) as (_ & LK).
  destruct (C54_no_check_fails chash mhash workers threads initial limit K) as (_ & NP).
  destruct (prog_step chash mhash x 0) as [| |x' evs] eqn:E. 2: exact (False_ind _ (NP tr x 0 R E)). 2: { now exists 0, x', evs. }
  destruct (nth_error (pr_workers x) 0) as [k|] eqn:N. 2: { apply nth_error_None in N. lia. }
  destruct (LK 0 k N E) as (_ & v & l & _ & Nv & Hl). pose proof (nth_error_lt _ _ _ Nv) as Lv. rewrite L in Lv.
  destruct (prog_step chash mhash x v) as [| |x' evs] eqn:E'. 2: exact (False_ind _ (NP tr x v R E')). 2: now exists v, x', evs.
  destruct (LK v l Nv E') as (-> & _). discriminate.
Qed.
Print Assumptions C54_never_stuck.

(* The search ends, whatever the order in which the threads go on, and the answer stays. *)
Theorem C54_search_ends : forall chash mhash workers threads initial limit evs X,
  start_ok initial -> 0 < workers -> prog_start chash workers threads initial limit = Some (X 0, evs) ->
  prog_trace chash mhash X -> threads_go chash mhash X ->
  exists i k, forall j, i <= j -> prog_result (X j) k.
Proof.
  intros chash mhash workers threads initial limit evs X K W St T G. assert (R0 : exists tr, prog_run chash mhash workers threads initial limit tr (X 0)) by (exists evs; now apply prog_run_start).
  destruct (prog_fair chash mhash workers threads initial limit X (start_okset _ K) W R0 T G) as (E & F).
  destruct (start_all chash mhash workers threads initial limit _ _ (start_okset _ K) St) as (_ & _ & _ & c & Ec & Ex).
  assert (S0 : search_run chash mhash threads initial limit (conf_of (pr_mach (X 0)))).
  { replace (conf_of (pr_mach (X 0))) with c. now apply run_start. change (c = ex_conf (exec_of (X 0))). now rewrite Ex. }
  destruct (C41_fair_search_ends chash mhash threads initial limit _ K S0 E F) as (i & k & H). exists i, k. intros j L.
  exact (result_stays chash mhash threads initial limit _ K S0 E i j k L H).
Qed.
Print Assumptions C54_search_ends.

(* Without a limit the answer is the number of comparators an optimal network for the start needs. *)
Theorem C54_search_finds_optimum : forall chash mhash workers threads initial evs X,
  start_ok initial -> 0 < workers -> prog_start chash workers threads initial None = Some (X 0, evs) ->
  prog_trace chash mhash X -> threads_go chash mhash X ->
  exists i k, optimum (channels initial) (vs initial) k /\ forall j, i <= j -> prog_result (X j) k.
Proof.
  intros chash mhash workers threads initial evs X K W St T G. destruct (C54_search_ends chash mhash workers threads initial None evs X K W St T G) as (i & k & H). exists i, k. split; auto.
  assert (R : forall j, exists tr, prog_run chash mhash workers threads initial None tr (X j)).
  { induction j as [|j (tr & IH)]. exists evs; now apply prog_run_start. destruct (T j) as [->|(w & ev & E)]; [eauto|]. exists (tr ++ ev). eapply prog_run_step; eauto. }
  destruct (R i) as (tr & Ri). destruct (C54_same_search _ _ _ _ _ _ _ _ K Ri) as (M & _).
  exact (C51_search_returns_optimum chash mhash threads initial tr _ k K M (H i (le_n i))).
Qed.
Print Assumptions C54_search_finds_optimum.

(* The program started for n channels, on any number of workers and shards, ends with the size of the smallest sorting
   network with n channels. *)
Theorem C54_search_finds_minimal_size : forall chash mhash workers threads n evs X, n <= 11 -> 0 < workers ->
  prog_start chash workers threads (all_values n) None = Some (X 0, evs) ->
  prog_trace chash mhash X -> threads_go chash mhash X ->
  exists i k, minimal_size n k /\ forall j, i <= j -> prog_result (X j) k.
Proof.
  intros chash mhash workers threads n evs X Hn W St T G. pose proof (all_values_start n Hn) as K.
  destruct (C54_search_ends chash mhash workers threads _ None evs X K W St T G) as (i & k & H). exists i, k. split; auto.
  assert (R : forall j, exists tr, prog_run chash mhash workers threads (all_values n) None tr (X j)).
  { induction j as [|j (tr & IH)]. exists evs; now apply prog_run_start. destruct (T j) as [->|(w & ev & E)]; [eauto|]. exists (tr ++ ev). eapply prog_run_step; eauto. }
  destruct (R i) as (tr & Ri). destruct (C54_same_search _ _ _ _ _ _ _ _ K Ri) as (M & _).
  exact (C51_search_returns_minimal_size chash mhash threads n tr _ k Hn M (H i (le_n i))).
Qed.
Print Assumptions C54_search_finds_minimal_size.

(* The threads may simply take turns: from every state of every run there is an execution in which all of them go on. *)
Definition turn_step chash mhash (W : nat) (x : Prog) (i : nat) : Prog := match prog_step chash mhash x (i mod W) with PDone y _ => y | _ => x end.
Fixpoint turns chash mhash (W : nat) (x : Prog) (i : nat) : Prog :=
  match i with 0 => x | S i => turn_step chash mhash W (turns chash mhash W x i) i end.
Theorem C54_turns_go_on : forall chash mhash workers threads initial limit tr x, start_ok initial ->
  prog_run chash mhash workers threads initial limit tr x ->
  prog_trace chash mhash (turns chash mhash workers x) /\ threads_go chash mhash (turns chash mhash workers x) /\ turns chash mhash workers x 0 = x.
Proof.
  intros chash mhash W threads initial limit tr x K R.
  assert (T : prog_trace chash mhash (turns chash mhash W x)).
  { intros i. cbn [turns]. unfold turn_step. destruct (prog_step chash mhash (turns chash mhash W x i) (i mod W)) as [| |y evs] eqn:E; auto. right. exists (i mod W), evs. exact E. }
  split; auto. split; auto.
  assert (Ri : forall i, exists tr, prog_run chash mhash W threads initial limit tr (turns chash mhash W x i)).
  { induction i as [|i (tr' & IH)]. exists tr; exact R. destruct (T i) as [->|(w & ev & E)]; [eauto|]. exists (tr' ++ ev). eapply prog_run_step; eauto. }
  intros w i Lw. destruct (Ri i) as (tr' & Rn). destruct (C54_same_search _ _ _ _ _ _ _ _ K Rn) as (_ & Li & _). rewrite Li in Lw. clear tr' Rn Li.
  exists (i * W + w). split. nia. cbn [turns]. unfold turn_step.
  replace ((i * W + w) mod W) with w by (rewrite Nat.add_comm, Nat.mod_add, Nat.mod_small; lia).
  destruct (prog_step chash mhash (turns chash mhash W x (i * W + w)) w) as [| |y evs] eqn:E; auto. 2: { left. exists evs. reflexivity. }
  destruct (Ri (i * W + w)) as (tr' & Rn). destruct (C54_no_check_fails chash mhash W threads initial limit K) as (_ & NP). exact (False_ind _ (NP _ _ w Rn E)).
Qed.
Print Assumptions C54_turns_go_on.

(* Two workers that take turns. *)
Definition prog_example (s : OutputSet) (i : nat) : Prog :=
  match prog_start h0 2 1 s None with
  | Some (x, _) => turns h0 h0 2 x i
  | None => mkProg (mkMach (states_default 1) [] [] (mkPool [] 0 [] [] [] 0 [] WFree)) (mkSched (fun _ => TIdle) [] (fun _ => None) []) []
  end.
Lemma prog_example_meets s : start_ok s -> exists evs, prog_start h0 2 1 s None = Some (prog_example s 0, evs) /\
  prog_trace h0 h0 (prog_example s) /\ threads_go h0 h0 (prog_example s).
Proof.
  intros K. unfold prog_example. destruct (C54_no_check_fails h0 h0 2 1 s None K) as ((x & evs & E) & _). rewrite E. exists evs. split; [reflexivity|].
  destruct (C54_turns_go_on h0 h0 2 1 s None evs x K) as (T & G & _). now apply prog_run_start. split; assumption.
Qed.
(* On three channels the search has ended after 37 steps, with 3; a few steps later worker 0 waits for the lock. *)
Example C54_case : exists evs, prog_start h0 2 1 (all_values 3) None = Some (prog_example (all_values 3) 0, evs) /\
  prog_trace h0 h0 (prog_example (all_values 3)) /\ threads_go h0 h0 (prog_example (all_values 3)).
Proof. apply prog_example_meets, all_values_start. lia. Qed.
Example C54_case_answer : ended (pr_mach (prog_example (all_values 3) 37)) = Some 3.
Proof. vm_compute. reflexivity. Qed.
Example C54_case_waits : let x := prog_example (all_values 3) 44 in
  prog_step h0 h0 x 0 = PWait /\ map pw_place (pr_workers x) = [PlLock; PlHold].
Proof. vm_compute. auto. Qed.
(* From the set after two comparators: worker 1 has the lock and a reference to the pending task 5 (184), worker 0 polls
   task 4; two steps later task 5 is in the run queue, and then worker 1 polls it. *)
Definition prog_view (x : Prog) := (sc_queue (pr_sched x), map pw_place (pr_workers x), worker (m_pool (pr_mach x)), map tk_sched (m_tasks (pr_mach x))).
Example C54_case_pending : (let x := prog_example ex4 341 in (prog_view x, prog_view (turns h0 h0 2 x 2), prog_view (turns h0 h0 2 x 4))) =
  (([], [PlPoll 4 false; PlHold], WTakeHold ((1, 8, 1), 0, 5), [true; true; true; true; true; false]),
   ([5], [PlPoll 4 false; PlTop], WFree, [true; true; true; true; true; true]),
   ([], [PlPoll 4 false; PlPoll 5 true], WFree, [true; true; true; true; true; true])).
Proof. vm_compute. reflexivity. Qed.
