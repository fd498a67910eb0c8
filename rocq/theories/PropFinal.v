(* Property C59: from the call of Search::search with its thread pool to the number that the checkers print, on checked parts. *)
From Coq Require Import String List Arith Bool Lia ZArith.
Import ListNotations.
From Verif Require Import Spec Util OutputSetModel StatesModel StatesProofs StatesBounds SearchModel SearchInv SearchTop SearchLeft FileModel LogModel DumpProofs CrashProofs ProofGenModel PipeProofs DecodeModel VerifiedCheckerModel RefCheckerModel PropSearch PropLog PropPipe PropCert.
From Verif Require Import MachineModel StatesMachModel StatesMachProofs PoolModel SearchMachModel CliModel PropCli PropSearchMach BackMachModel BackMachProofs PropBackMach ProgModel PropProg ScopeModel ScopeLive PropScope PropAll PropDecode.

(* Call search for all inputs of n channels, with any number of workers.  As long as every thread goes on, the call of scope returns a
   number k.  From then on no worker does anything; if the states are then dumped, pruned (with interruptions) and turned into a
   certificate, no check fails and both checkers print n and k, the size of a smallest sorting network. *)
Theorem C59_scope_to_checkers : forall chash mhash workers threads n X, 3 <= n -> n <= 11 -> 0 < workers ->
  scope_start chash workers threads (all_values n) None = Some (X 0) -> scope_trace chash mhash X -> scope_goes chash mhash X ->
  exists i k, minimal_size n k /\ forall j, i <= j -> sp_main (X j) = MBack k /\
    (forall w, worker_step chash mhash (X j) w = SWait) /\
    forall fs0 fs',
      (Z.of_nat (List.length (drained (m_states (pr_mach (sp_prog (X j)))))) < 2 ^ 32)%Z ->
      (forall g, fs0 (with_extension (group_name g) (str "pbin")) = None) ->
      crashes_m (dump_states_m (m_states (pr_mach (sp_prog (X j)))) fs0) fs' ->
      exists fs1 file fuel0, prune_all_m fs' = Some fs1 /\ (forall fuel, fuel0 <= fuel -> gen_proof_m fuel fs1 = Some file) /\
        snocheck_v file = Some (Z.of_nat n, Z.of_nat k) /\ snocheck_r file = Some (n, k).
Proof.
  intros chash mhash workers threads n X N3 Hn W S T G. pose proof (all_values_start n Hn) as K.
  destruct (C56_scope_returns_minimal_size chash mhash workers threads n X Hn W S T G) as (i & k & Mk & H). exists i, k. split; [exact Mk|]. intros j L.
  assert (R : scope_run chash mhash workers threads (all_values n) None (X j)) by (apply (X_run chash mhash workers threads (all_values n) None X); auto; now apply scope_run_start).
  destruct (C56_returned _ _ _ _ _ _ _ _ K R (H j L)) as (Gone & Res). split; [auto|]. destruct (C56_same_program _ _ _ _ _ _ _ K R) as (Lw & tr & Rp). split.
  - intros w. destruct (Nat.lt_ge_cases w workers) as [Hw|Hw]; [now apply Gone|]. unfold worker_step. destruct (X j) as [p g m]. cbn [sp_gone] in Lw. rewrite nth_overflow by lia. reflexivity.
  - intros fs0 fs' Few N0 Cr. destruct (C54_same_search _ _ _ _ _ _ _ _ K Rp) as (M & _).
    destruct (C53_pipeline chash mhash threads n tr _ k fs0 fs' N3 Hn M Res Few N0 Cr) as (fs1 & file & fuel0 & A & B & C & D & _).
    exists fs1, file, fuel0. auto.
Qed.
Print Assumptions C59_scope_to_checkers.

(* The search command with a prefix and a limit: as long as every thread goes on the scope returns a number k.  Every network that
   completes the prefix has at least k comparators, and there is one with k of them unless k reached the limit. *)
Theorem C59_scope_with_prefix : forall chash mhash debug workers threads n pairs limit initial X, n <= MAX_CHANNELS -> 0 < workers ->
  (forall ab, In ab pairs -> fst ab < n /\ snd ab < n /\ fst ab <> snd ab) ->
  cmd_initial debug n (prefix_arg pairs) = Some initial ->
  scope_start chash workers threads initial limit = Some (X 0) -> scope_trace chash mhash X -> scope_goes chash mhash X ->
  exists i k, (forall j, i <= j -> sp_main (X j) = MBack k) /\
    (forall net, completes n (prefix_net pairs) net -> k <= List.length net) /\
    (least_completion n (prefix_net pairs) k \/ exists l, limit = Some l /\ l <= k).
Proof.
  intros chash mhash debug workers threads n pairs limit initial X Hn W Hp Ei S T G.
  assert (Hv : forall ab, In ab pairs -> pair_valid n ab = true).
  { intros ab I. destruct (Hp ab I) as (A & B & C). unfold pair_valid. rewrite !andb_true_iff, negb_true_iff, Nat.eqb_neq, !Nat.ltb_lt. auto. }
  destruct (cmd_initial_ok debug n pairs Hn Hv) as (s & Es & K & _ & _). rewrite Ei in Es. injection Es as <-.
  destruct (C56_scope_returns chash mhash workers threads initial limit X K W S T G) as (i & k & H). exists i, k. split; [exact H|].
  assert (R : scope_run chash mhash workers threads initial limit (X i)) by (apply (X_run chash mhash workers threads initial limit X); auto; now apply scope_run_start).
  destruct (C56_returned _ _ _ _ _ _ _ _ K R (H i (le_n i))) as (_ & Res). destruct (C56_same_program _ _ _ _ _ _ _ K R) as (_ & tr & Rp).
  destruct (C54_same_search _ _ _ _ _ _ _ _ K Rp) as (M & _). destruct (C51_same_search _ _ _ _ _ _ _ K M) as (c0 & SR & Tk & _).
  apply (C38_prefix_with_limit chash mhash debug threads n pairs limit k Hn Hp). unfold cmd_search. exists initial. rewrite Ei.
  repeat first [split; [reflexivity|] | exists c0]. split; [exact SR|]. unfold search_result. rewrite Tk. exact Res.
Qed.
Print Assumptions C59_scope_with_prefix.

(* With a limit the rest of the pipeline may give a certificate, on checked parts too: when the call of scope has returned k, the set
   of all values is in the log with a bound of at least k, no check fails in pruning, and if no other set with n channels has
   that bound then no check fails in the generator either and both checkers print n and the bound. *)
Theorem C59_limit_to_checkers : forall chash mhash workers threads n limit x k fs0 fs', 3 <= n -> n <= 11 ->
  scope_run chash mhash workers threads (all_values n) limit x -> sp_main x = MBack k -> 2 <= k ->
  (Z.of_nat (List.length (drained (m_states (pr_mach (sp_prog x))))) < 2 ^ 32)%Z ->
  (forall g, fs0 (with_extension (group_name g) (str "pbin")) = None) ->
  crashes_m (dump_states_m (m_states (pr_mach (sp_prog x))) fs0) fs' ->
  let logged_with b s := in_log (erase_states (m_states (pr_mach (sp_prog x)))) n b s in
  exists b fs1, logged_with b (all_values n) /\ k <= b /\ prune_all_m fs' = Some fs1 /\
    ((forall s, logged_with b s -> s = all_values n) ->
      exists file fuel0, (forall fuel, fuel0 <= fuel -> gen_proof_m fuel fs1 = Some file) /\
        snocheck_v file = Some (Z.of_nat n, Z.of_nat b) /\ snocheck_r file = Some (n, b)).
Proof.
  intros chash mhash workers threads n limit x k fs0 fs' N3 Hn R E K2 Few N0 Cr lw. pose proof (all_values_start n Hn) as K.
  destruct (C56_returned _ _ _ _ _ _ _ _ K R E) as (_ & Res). destruct (C56_same_program _ _ _ _ _ _ _ K R) as (_ & tr & Rp).
  destruct (C54_same_search _ _ _ _ _ _ _ _ K Rp) as (M & _). destruct (C51_same_search _ _ _ _ _ _ _ K M) as (c0 & SR & Tk & Mp & _).
  assert (Sr : search_result c0 k) by (unfold search_result; rewrite Tk; exact Res).
  rewrite drained_same, <- Mp in Few. unfold dump_states_m in Cr. rewrite drained_same, <- Mp in Cr. fold (dump_states (g_map c0) fs0) in Cr.
  pose proof (run_search_left chash mhash threads _ limit c0 (start_okset _ K) SR) as SL.
  destruct (left_same_m chash mhash n (g_map c0) fs0 fs' Hn SL N0 Cr) as (Cp & Sm).
  destruct (C58_with_limit chash mhash threads n limit c0 k fs0 fs' N3 Hn SR Sr K2 Few N0 Cp) as (b & fs1 & L & Kb & P & Yes & _).
  destruct (Sm fs1 P) as (Pm & Gm). unfold lw. rewrite <- Mp. exists b, fs1. split; [exact L|]. split; [exact Kb|]. split; [exact Pm|].
  intros O. destruct (Yes O) as (file & F & A & B & C). exists file, F. split; auto.
Qed.
Print Assumptions C59_limit_to_checkers.

(* Two workers and the main thread that take turns, on three channels; pruning stops twice. *)
Example C59_case : exists i k, minimal_size 3 k /\ forall j, i <= j ->
  let x := scope_turns h0 h0 2 (scope_at 2 (all_values 3)) j in
  sp_main x = MBack k /\
  ((Z.of_nat (List.length (drained (m_states (pr_mach (sp_prog x))))) < 2 ^ 32)%Z ->
   exists fs1 file fuel0, prune_all_m (stopped_m 3 (stopped_m 2 (dump_states_m (m_states (pr_mach (sp_prog x))) (fun _ => None)))) = Some fs1 /\
    (forall fuel, fuel0 <= fuel -> gen_proof_m fuel fs1 = Some file) /\ snocheck_v file = Some (3%Z, Z.of_nat k) /\ snocheck_r file = Some (3, k)).
Proof.
  destruct C56_case as (_ & S & T & G).
  destruct (C59_scope_to_checkers h0 h0 2 1 3 (scope_turns h0 h0 2 (scope_at 2 (all_values 3))) ltac:(lia) ltac:(lia) ltac:(lia) S T G) as (i & k & Mk & H).
  exists i, k. split; [exact Mk|]. intros j L x. destruct (H j L) as (A & _ & B). split; [exact A|]. intros Few. apply (B (fun _ => None)); auto.
  apply stopped_later_m, stopped_crashes_m.
Qed.
Example C59_case_stored : List.length (drained (m_states (pr_mach (sp_prog (scope_turns h0 h0 2 (scope_at 2 (all_values 3)) 84))))) = 1.
Proof. vm_compute. reflexivity. Qed.

(* The same with a limit. *)
Definition scope_for (s : OutputSet) (limit : option nat) : Scope := match scope_start h0 2 1 s limit with Some x => x | None => no_scope end.
Lemma scope_for_start s limit : start_ok s -> scope_start h0 2 1 s limit = Some (scope_for s limit).
Proof. intros K. unfold scope_for. destruct (C56_no_check_fails h0 h0 2 1 s limit K) as ((x & ->) & _). reflexivity. Qed.
Lemma turns_run s limit j : start_ok s -> scope_run h0 h0 2 1 s limit (scope_turns h0 h0 2 (scope_for s limit) j).
Proof.
  intros K. assert (R : scope_run h0 h0 2 1 s limit (scope_for s limit)) by now apply scope_run_start, scope_for_start.
  destruct (C56_turns_go_on h0 h0 2 1 s limit _ K R) as (T & _ & E). apply (X_run h0 h0 2 1 s limit _); auto.
Qed.
(* prefix 1-0 on three channels with limit 1: meets the hypotheses of C59_scope_with_prefix, and returns 1, which reached the limit and is not the least number *)
Definition one_pair : OutputSet := fst (apply_comparator (all_values 3) 1 0).
Lemma one_pair_start : start_ok one_pair.
Proof. apply (pairs_set_start [(1, 0)] (all_values 3)). apply all_values_start; lia. intros ab [<-|[]]. cbn. lia. Qed.
Example C59_case_prefix : cmd_initial true 3 (prefix_arg [(1, 0)]) = Some one_pair /\
  scope_start h0 2 1 one_pair (Some 1) = Some (scope_for one_pair (Some 1)) /\
  let X := scope_turns h0 h0 2 (scope_for one_pair (Some 1)) in scope_trace h0 h0 X /\ scope_goes h0 h0 X.
Proof.
  split; [vm_compute; reflexivity|]. split; [apply scope_for_start, one_pair_start|].
  destruct (C56_turns_go_on h0 h0 2 1 one_pair (Some 1) (scope_for one_pair (Some 1)) one_pair_start) as (A & B & _); [apply scope_run_start, scope_for_start, one_pair_start|]. split; assumption.
Qed.
Example C59_case_prefix_returns : sp_main (scope_turns h0 h0 2 (scope_for one_pair (Some 1)) 60) = MBack 1.
Proof. vm_compute. reflexivity. Qed.
(* all inputs of four channels with limit 2: the scope returns 3, the set of all values is the only one of four channels with that
   bound, and both checkers print 4 and 3 *)
Definition scope4 : Scope := scope_turns h0 h0 2 (scope_for (all_values 4) (Some 2)) 100.
Lemma scope4_run : scope_run h0 h0 2 1 (all_values 4) (Some 2) scope4.
Proof. apply turns_run, all_values_start. lia. Qed.
Lemma scope4_facts : sp_main scope4 = MBack 3 /\ drained (m_states (pr_mach (sp_prog scope4))) = [(4, [255; 255], mkState 3 5 3 5)].
Proof. vm_compute. auto. Qed.
Example C59_case_limit : exists fs1 file fuel0, prune_all_m (stopped_m 1 (dump_states_m (m_states (pr_mach (sp_prog scope4))) (fun _ => None))) = Some fs1 /\
  (forall fuel, fuel0 <= fuel -> gen_proof_m fuel fs1 = Some file) /\ snocheck_v file = Some (4%Z, 3%Z) /\ snocheck_r file = Some (4, 3).
Proof.
  destruct scope4_facts as (E & D). pose proof D as D'. rewrite drained_same in D'.
  assert (Few : (Z.of_nat (List.length (drained (m_states (pr_mach (sp_prog scope4))))) < 2 ^ 32)%Z) by (rewrite D; reflexivity).
  destruct (C59_limit_to_checkers h0 h0 2 1 4 (Some 2) scope4 3 (fun _ => None) _ ltac:(lia) ltac:(lia) scope4_run E ltac:(lia) Few (fun _ => eq_refl) (stopped_crashes_m 1 _)) as (b & fs1 & L & _ & P & Yes).
  assert (B : b = 3). { destruct L as (_ & _ & bytes & st & _ & I & <-). rewrite D' in I. destruct I as [I|[]]. injection I as _ <-. reflexivity. }
  subst b. destruct Yes as (file & F & A). { apply (log_only _ 4 3 _ D'). repeat constructor. }
  exists fs1, file, F. split; [exact P|exact A].
Qed.
