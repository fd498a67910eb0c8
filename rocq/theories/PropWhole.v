(* Property C47: from the worker threads of the search to the number that the checkers print. *)
From Coq Require Import String List Arith Bool Lia ZArith.
Import ListNotations.
From Verif Require Import Spec Vec Net Graded Bits Util OutputSetModel OutputSetProofs StatesModel StatesProofs
  SearchModel SearchFair SearchFacts SearchInv SearchOrder SearchTop FileModel LogModel DumpProofs CrashProofs
  ProofGenModel VerifiedCheckerModel RefCheckerModel DecodeModel ExecModel ExecInv ExecOther ExecLive
  PropSearch PropLive PropFair PropExec PropExecLive PropPipe PropDecode.

(* For any number of worker threads in any interleaving in which they go on, there is one number k, the minimal size, such that
   from some moment on the search has the answer k, and whenever it is dumped then, after any number of interrupted
   runs of prune-all, pruning and generation succeed and both checkers print n and k. *)
Theorem C47_workers_to_checkers : forall chash mhash workers threads n c X, 3 <= n -> n <= 11 -> 0 < workers ->
  search_start chash threads (all_values n) None = Some c -> X 0 = exec_start workers c ->
  exec_trace chash mhash X -> workers_go chash mhash X ->
  exists i k, minimal_size n k /\ forall j, i <= j ->
    search_result (ex_conf (X j)) k /\
    forall fs0 fs',
      (Z.of_nat (List.length (flat_map drain_packed (into_shards (g_map (ex_conf (X j)))))) < 2 ^ 32)%Z ->
      (forall g, fs0 (with_extension (group_name g) (str "pbin")) = None) ->
      crashes (dump_states (g_map (ex_conf (X j))) fs0) fs' ->
      exists fs1 file fuel0, prune_all fs' = Some fs1 /\ (forall fuel, fuel0 <= fuel -> gen_proof fuel fs1 = Some file) /\
        snocheck_v file = Some (Z.of_nat n, Z.of_nat k) /\ snocheck_r file = Some (n, k).
Proof.
  intros chash mhash workers threads n c X H3 Hn W S X0 T G.
  destruct (C44_search_finds_minimal_size chash mhash workers threads n c X Hn W S X0 T G) as (i & k & M & A).
  exists i, k. split; auto. intros j L. split. now apply A. intros fs0 fs' Few N0 Cr.
  assert (R : ExecModel.exec_run chash mhash workers threads (all_values n) None (X j)).
  { apply trace_run; auto. rewrite X0. now apply ex_start. }
  destruct (C33_pipeline chash mhash threads n (ex_conf (X j)) k fs0 fs' H3 Hn (C43_workers_run_search _ _ _ _ _ _ _ R) (A j L) Few N0 Cr)
    as (fs1 & file & fuel0 & E1 & E2 & E3 & E4 & _).
  exists fs1, file, fuel0. auto.
Qed.
Print Assumptions C47_workers_to_checkers.

(* two workers that take turns, four channels *)
Example C47_case : exists c, search_start h0 1 (all_values 4) None = Some c /\
  (forall i, exec_example 4 i = robin h0 h0 2 (exec_start 2 c) i) /\
  exec_trace h0 h0 (robin h0 h0 2 (exec_start 2 c)) /\ workers_go h0 h0 (robin h0 h0 2 (exec_start 2 c)).
Proof.
  unfold exec_example. destruct (search_start h0 1 (all_values 4) None) as [c|] eqn:S.
  - exists c. destruct (C44_turns_go_on h0 h0 2 (exec_start 2 c) eq_refl) as (T & G & _). auto.
  - exfalso. vm_compute in S. discriminate.
Qed.

(* the dump after 190 steps (C44_case_answer: the answer is 5) fits, and is what the checkers accept *)
Example C47_case_accepted : exists i k, minimal_size 4 k /\ forall j, i <= j ->
  (Z.of_nat (List.length (flat_map drain_packed (into_shards (g_map (ex_conf (exec_example 4 j)))))) < 2 ^ 32)%Z ->
  exists fs1 file, prune_all (dump_states (g_map (ex_conf (exec_example 4 j))) (fun _ => None)) = Some fs1 /\
    snocheck_v file = Some (4%Z, Z.of_nat k) /\ snocheck_r file = Some (4, k) /\ exists fuel, gen_proof fuel fs1 = Some file.
Proof.
  destruct C47_case as (c & S & E & T & G).
  destruct (C47_workers_to_checkers h0 h0 2 1 4 c (robin h0 h0 2 (exec_start 2 c)) ltac:(lia) ltac:(lia) ltac:(lia) S eq_refl T G) as (i & k & M & A).
  exists i, k. split; auto. intros j L Few. rewrite E in Few. destruct (A j L) as (_ & B).
  destruct (B (fun _ => None) (dump_states (g_map (ex_conf (robin h0 h0 2 (exec_start 2 c) j))) (fun _ => None)) Few) as (fs1 & file & fuel0 & E1 & E2 & E3 & E4).
  reflexivity. constructor.
  exists fs1, file. rewrite E. split; [exact E1|split; [exact E3|split; [exact E4|exists fuel0; now apply E2]]].
Qed.
Example C47_case_stored : List.length (flat_map drain_packed (into_shards (g_map (ex_conf (exec_example 4 190))))) = 2.
Proof. vm_compute. reflexivity. Qed.
