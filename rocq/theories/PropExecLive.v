(* C44: as long as the worker threads go on, the search on the workers of src/thread_pool.rs ends with the right answer. *)
From Coq Require Import List Arith Bool Lia.
Import ListNotations.
From Verif Require Import Spec Vec Net Graded Bits Util OutputSetModel OutputSetProofs PruneProofs PackProofs CountProofs HuffmanModel HuffmanProofs CanonModel TreeModel StatesModel StatesProofs StatesBounds SearchModel SearchFair SearchFacts SearchInv SearchGood SearchReady SearchPend SearchEnds ExecModel ExecFacts ExecInv ExecRun ExecOther ExecLive PropSearch PropLive PropFair PropExec.

(* ---- C44 ---- *)
Lemma trace_run chash mhash workers threads initial limit X : exec_trace chash mhash X -> ExecModel.exec_run chash mhash workers threads initial limit (X 0) ->
  forall i, ExecModel.exec_run chash mhash workers threads initial limit (X i).
Proof. intros T R. induction i as [|i IH]; auto. destruct (T i) as [->|S]; auto. eapply ex_next; eauto. Qed.
Lemma trace_execution chash mhash X : exec_trace chash mhash X -> execution chash mhash (fun i => ex_conf (X i)).
Proof. intros T i. destruct (T i) as [->|S]. now left. now apply exec_conf. Qed.

(* The pool is fair to the tasks if every worker thread goes on: a queue and wake-ups suffice, no task that can go on is
   left out for ever. *)
Theorem C44_pool_is_fair : forall chash mhash workers threads initial limit X,
  start_ok initial -> 0 < workers -> ExecModel.exec_run chash mhash workers threads initial limit (X 0) ->
  exec_trace chash mhash X -> workers_go chash mhash X -> fair chash mhash (fun i => ex_conf (X i)).
Proof.
  intros chash mhash workers threads initial limit X K W R T G. pose proof (trace_run _ _ _ _ _ _ X T R) as Ri.
  assert (EIi : forall i, EI (X i)) by (intros i; now destruct (exec_EI chash mhash workers threads initial limit (X i) (start_okset _ K) (Ri i))).
  assert (RDi : forall i, Ready chash mhash (ex_conf (X i))) by (intros i; now destruct (exec_EI chash mhash workers threads initial limit (X i) (start_okset _ K) (Ri i))).
  apply (conf_fair chash mhash X T); auto.
  - now apply go_busy.
  - now apply go_queue.
  - intros i E. pose proof (run_length chash mhash workers threads initial limit (X i) (Ri i)) as L. rewrite E in L. cbn in L. lia.
Qed.
Print Assumptions C44_pool_is_fair.

(* The search ends, whatever the order in which the workers make their steps, and the answer stays. *)
Theorem C44_search_ends : forall chash mhash workers threads initial limit X,
  start_ok initial -> 0 < workers -> ExecModel.exec_run chash mhash workers threads initial limit (X 0) ->
  exec_trace chash mhash X -> workers_go chash mhash X ->
  exists i k, forall j, i <= j -> search_result (ex_conf (X j)) k.
Proof.
  intros chash mhash workers threads initial limit X K W R T G. pose proof (trace_execution chash mhash X T) as E.
  pose proof (C44_pool_is_fair chash mhash workers threads initial limit X K W R T G) as F.
  assert (S0 : search_run chash mhash threads initial limit (ex_conf (X 0))) by now apply (exec_search chash mhash workers).
  destruct (C41_fair_search_ends chash mhash threads initial limit (fun i => ex_conf (X i)) K S0 E F) as (i & k & H). exists i, k. intros j L.
  exact (result_stays chash mhash threads initial limit (fun i => ex_conf (X i)) K S0 E i j k L H).
Qed.
Print Assumptions C44_search_ends.

(* Without a limit the answer is the number of comparators an optimal network for the start needs. *)
Theorem C44_search_finds_optimum : forall chash mhash workers threads initial X,
  start_ok initial -> 0 < workers -> ExecModel.exec_run chash mhash workers threads initial None (X 0) ->
  exec_trace chash mhash X -> workers_go chash mhash X ->
  exists i k, optimum (channels initial) (vs initial) k /\ forall j, i <= j -> search_result (ex_conf (X j)) k.
Proof.
  intros chash mhash workers threads initial X K W R T G.
  apply (C41_fair_search_finds_optimum chash mhash threads initial (fun i => ex_conf (X i)) K).
  - now apply (exec_search chash mhash workers).
  - now apply trace_execution.
  - now apply (C44_pool_is_fair chash mhash workers threads initial None).
Qed.
Print Assumptions C44_search_finds_optimum.

(* The program started for n channels, on any number of workers and shards, ends with the size of the smallest sorting
   network with n channels. *)
Theorem C44_search_finds_minimal_size : forall chash mhash workers threads n c X, n <= 11 -> 0 < workers ->
  search_start chash threads (all_values n) None = Some c -> X 0 = exec_start workers c ->
  exec_trace chash mhash X -> workers_go chash mhash X ->
  exists i k, minimal_size n k /\ forall j, i <= j -> search_result (ex_conf (X j)) k.
Proof.
  intros chash mhash workers threads n c X Hn W St X0 T G.
  apply (C41_fair_search_finds_minimal_size chash mhash threads n (fun i => ex_conf (X i)) Hn).
  - now rewrite X0.
  - now apply trace_execution.
  - apply (C44_pool_is_fair chash mhash workers threads (all_values n) None); auto. now apply all_values_start. rewrite X0. now apply ex_start.
Qed.
Print Assumptions C44_search_finds_minimal_size.

(* The workers may simply take turns: from every state there is an execution in which all of them go on. *)
Theorem C44_turns_go_on : forall chash mhash W x, length (ex_workers x) = W ->
  exec_trace chash mhash (robin chash mhash W x) /\ workers_go chash mhash (robin chash mhash W x) /\ robin chash mhash W x 0 = x.
Proof.
  intros chash mhash W x L.
  assert (T : exec_trace chash mhash (robin chash mhash W x)).
  { intros i. cbn [robin]. unfold robin_step. destruct (work_step chash mhash (robin chash mhash W x i) (i mod W)) as [y|] eqn:E; auto. right. eapply ExWork; eauto. }
  split; auto. split; auto. intros w i Lw.
  assert (Li : length (ex_workers (robin chash mhash W x i)) = W).
  { clear w Lw. induction i as [|i IH]; auto. destruct (T i) as [->|S]; auto. now rewrite (exec_length chash mhash _ _ S). }
  rewrite Li in Lw. exists (i * W + w). split. nia. cbn [robin]. unfold robin_step.
  replace ((i * W + w) mod W) with w by (rewrite Nat.add_comm, Nat.mod_add, Nat.mod_small; lia).
  destruct (work_step chash mhash (robin chash mhash W x (i * W + w)) w) as [y|] eqn:E; auto.
Qed.
Print Assumptions C44_turns_go_on.

(* Two workers that take turns on four channels meet the hypotheses; the search has ended after 190 steps, with 5. *)
Example C44_case : start_ok (all_values 4) /\ ExecModel.exec_run h0 h0 2 1 (all_values 4) None (exec_example 4 0) /\
  exec_trace h0 h0 (exec_example 4) /\ workers_go h0 h0 (exec_example 4).
Proof.
  split. apply all_values_start; lia. split. apply exec_example_run; lia. pose proof (canon_canon_of h0 _ (start_okset _ (all_values_start 4 ltac:(lia)))) as E.
  assert (Z : exists c, forall i, exec_example 4 i = robin h0 h0 2 (exec_start 2 c) i).
  { unfold exec_example. destruct (search_start h0 1 (all_values 4) None) as [c|] eqn:S. exists c. reflexivity. exfalso. unfold search_start in S. rewrite E in S. discriminate. }
  destruct Z as (c & Z). destruct (C44_turns_go_on h0 h0 2 (exec_start 2 c) eq_refl) as (T & G & _). split.
  - intros i. rewrite !Z. apply T.
  - intros w i L. rewrite Z in L. destruct (G w i L) as (j & Lj & H). exists j. split; auto. now rewrite !Z.
Qed.
Example C44_case_answer : match nth_error (g_tasks (ex_conf (exec_example 4 190))) 0 with Some y => match tk_stack y with [FMain _ _ (MDone k)] => Some k | _ => None end | None => None end = Some 5.
Proof. vm_compute. reflexivity. Qed.
(* An execution in which a worker stops for ever while it has something to do need not end. *)
Example C44_case_stopped : exec_trace h0 h0 (fun _ => exec_example 4 0) /\ ~ (exists k, search_result (ex_conf (exec_example 4 0)) k) /\ ~ workers_go h0 h0 (fun _ => exec_example 4 0).
Proof.
  split. intros i. now left.
  assert (A : ~ (exists k, search_result (ex_conf (exec_example 4 0)) k)).
  { intros (k & H). assert (Z : match nth_error (g_tasks (ex_conf (exec_example 4 0))) 0 with Some y => match tk_stack y with [FMain _ _ (MDone _)] => true | _ => false end | None => false end = false) by (vm_compute; reflexivity).
    destruct H as (x & s & limit & N & E). rewrite N, E in Z. discriminate. }
  split; auto. intros G. apply A.
  destruct (C44_search_ends h0 h0 2 1 (all_values 4) None (fun _ => exec_example 4 0)) as (i & k & H); auto.
  - apply all_values_start; lia.
  - apply exec_example_run; lia.
  - intros i. now left.
  - exists k. apply (H i). lia.
Qed.
