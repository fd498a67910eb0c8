(* Property C55: from the worker threads to the number that the checkers print, on checked parts only. *)
From Coq Require Import String List Arith Bool Lia ZArith.
Import ListNotations.
From Verif Require Import Spec Util OutputSetModel StatesModel SearchModel FileModel LogModel ProofGenModel DecodeModel VerifiedCheckerModel RefCheckerModel PropSearch PropLog.
From Verif Require Import MachineModel StatesMachModel StatesMachProofs PoolModel SearchMachModel PropSearchMach BackMachModel BackMachProofs PropBackMach ProgModel PropProg PropDecode.

(* Start the program for n channels on any number of workers and let the threads go on in any order.  It ends, and from
   then on whenever the states are dumped, pruned (with interruptions) and turned into a certificate, no check fails and
   both checkers accept the certificate and print n and the size of a smallest sorting network. *)
Theorem C55_threads_to_checkers : forall chash mhash workers threads n evs X, 3 <= n -> n <= 11 -> 0 < workers ->
  prog_start chash workers threads (all_values n) None = Some (X 0, evs) ->
  prog_trace chash mhash X -> threads_go chash mhash X ->
  exists i k, minimal_size n k /\ forall j, i <= j ->
    prog_result (X j) k /\
    forall fs0 fs',
      (Z.of_nat (List.length (drained (m_states (pr_mach (X j))))) < 2 ^ 32)%Z ->
      (forall g, fs0 (with_extension (group_name g) (str "pbin")) = None) ->
      crashes_m (dump_states_m (m_states (pr_mach (X j))) fs0) fs' ->
      exists fs1 file fuel0, prune_all_m fs' = Some fs1 /\ (forall fuel, fuel0 <= fuel -> gen_proof_m fuel fs1 = Some file) /\
        snocheck_v file = Some (Z.of_nat n, Z.of_nat k) /\ snocheck_r file = Some (n, k).
Proof.
  intros chash mhash workers threads n evs X N3 Hn W St T G.
  destruct (C54_search_finds_minimal_size chash mhash workers threads n evs X Hn W St T G) as (i & k & Mk & H). exists i, k. split; [exact Mk|]. intros j L. split; [now apply H|].
  intros fs0 fs' Sm Np Cr.
  assert (R : exists tr, prog_run chash mhash workers threads (all_values n) None tr (X j)).
  { clear - St T. induction j as [|j (tr & IH)]. exists evs; now apply prog_run_start. destruct (T j) as [->|(w & ev & E)]; [eauto|]. exists (tr ++ ev). eapply prog_run_step; eauto. }
  destruct R as (tr & R). destruct (C54_same_search _ _ _ _ _ _ _ _ (all_values_start n Hn) R) as (M & _).
  destruct (C53_pipeline chash mhash threads n tr _ k fs0 fs' N3 Hn M (H j L) Sm Np Cr) as (fs1 & file & fuel0 & A & B & C & D & _).
  exists fs1, file, fuel0. auto.
Qed.
Print Assumptions C55_threads_to_checkers.

Lemma stopped_later_m ops fs fs1 : crashes_m fs fs1 -> crashes_m fs (stopped_m ops fs1).
Proof. intros H. unfold stopped_m. destruct (prune_all_ops_m fs1) as [l|] eqn:E; auto. eapply crash_run_m; eauto. Qed.

(* Two workers that take turns on three channels, and pruning that stops twice. *)
Example C55_case : exists evs, prog_start h0 2 1 (all_values 3) None = Some (prog_example (all_values 3) 0, evs) /\
  prog_trace h0 h0 (prog_example (all_values 3)) /\ threads_go h0 h0 (prog_example (all_values 3)).
Proof. apply prog_example_meets, all_values_start. lia. Qed.
Example C55_case_accepted : exists i k, minimal_size 3 k /\ forall j, i <= j ->
  (Z.of_nat (List.length (drained (m_states (pr_mach (prog_example (all_values 3) j))))) < 2 ^ 32)%Z ->
  exists fs1 file fuel0, prune_all_m (stopped_m 3 (stopped_m 2 (dump_states_m (m_states (pr_mach (prog_example (all_values 3) j))) (fun _ => None)))) = Some fs1 /\
    (forall fuel, fuel0 <= fuel -> gen_proof_m fuel fs1 = Some file) /\ snocheck_v file = Some (3%Z, Z.of_nat k) /\ snocheck_r file = Some (3, k).
Proof.
  destruct C55_case as (evs & S & T & G).
  destruct (C55_threads_to_checkers h0 h0 2 1 3 evs (prog_example (all_values 3)) ltac:(lia) ltac:(lia) ltac:(lia) S T G) as (i & k & Mk & H).
  exists i, k. split; [exact Mk|]. intros j L Sm. destruct (H j L) as (_ & A). apply (A (fun _ => None)); auto.
  apply stopped_later_m, stopped_crashes_m.
Qed.
Example C55_case_stored : List.length (drained (m_states (pr_mach (prog_example (all_values 3) 37)))) = 1.
Proof. vm_compute. reflexivity. Qed.
