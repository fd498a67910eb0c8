(* Property C53: from the checked search to the certificate, on checked parts only. *)
From Coq Require Import String List Arith Bool Lia Permutation ZArith.
Import ListNotations.
From Verif Require Import Spec Vec Net Graded Bits Util OutputSetModel OutputSetProofs PackProofs TreeModel IndexModel IndexSpec StatesModel StatesProofs FlatModel FlatProofs
  SearchModel SearchFacts SearchInv SearchOrder SearchTop SearchLeft FileModel FileProofs LogModel DumpProofs PruneLogProofs CrashProofs ProofGenModel GenLoad GenSteps GenMain PipeProofs
  DecodeModel VerifiedCheckerModel RefCheckerModel PropSearch PropLog PropGen PropPipe.
From Verif Require Import MachineModel StatesMachModel StatesMachProofs PoolModel SearchMachModel SearchMachRun PropSearchMach BackMachModel BackMachProofs PropDecode.

(* Pruning a file of packed sets fails no check.  It keeps a part of the sets; each of the others is subsumed by a smaller kept one,
   up to a permutation and inversion; and no kept set is subsumed by a smaller kept one. *)
Theorem C53_prune_keeps_representatives : forall n sets bytes, 1 < n -> n <= MAX_CHANNELS ->
  (forall s, In s sets -> wf s /\ channels s = n) -> map_opt packed sets = Some bytes ->
  exists kept dropped out, prune_data_m n (concat bytes) = Some out /\ map_opt packed kept = Some out /\
    Permutation sets (kept ++ dropped) /\
    (forall s, In s dropped -> exists k z p, In k kept /\ os_len k < os_len s /\ is_perm n p /\ subsumes_by z p (vs k) (vs s)) /\
    (forall k1 k2 z p, In k1 kept -> In k2 kept -> os_len k1 < os_len k2 -> is_perm n p -> ~ subsumes_by z p (vs k1) (vs k2)).
Proof.
  intros n sets bytes N1 N2 H E. destruct (C25_prune_keeps_representatives n sets bytes N1 N2 H E) as (kept & dropped & out & P & R).
  exists kept, dropped, out. split; auto. eapply orel_eq_some; [|exact P]. now apply prune_data_same.
Qed.
Print Assumptions C53_prune_keeps_representatives.

(* Whatever files there are: if index.txt names groups of 2 to 11 channels, then pruning and generation with all checks do
   whatever those without the checks do. *)
Theorem C53_same_answers : forall fs groups,
  fs index_name = Some (flat_map (fun g => group_name g ++ [10]) groups) ->
  (forall g, In g groups -> 1 < fst g /\ fst g <= MAX_CHANNELS) ->
  (forall fs1, prune_all fs = Some fs1 -> prune_all_m fs = Some fs1) /\
  (forall fuel file, gen_proof fuel fs = Some file -> gen_proof_m fuel fs = Some file).
Proof.
  intros fs groups E H. assert (F : lines_fine (lines (index_text groups))).
  { rewrite lines_index. intros line n I En. apply in_map_iff in I. destruct I as (g & <- & Ig). rewrite group_channels in En. injection En as <-. auto. }
  split.
  - intros fs1 P. eapply orel_eq_some; [|exact P]. eapply prune_all_same; eauto.
  - intros fuel file P. eapply orel_eq_some; [|exact P]. eapply gen_proof_same; eauto.
Qed.
Print Assumptions C53_same_answers.

Lemma drained_same m : drained m = flat_map drain_packed (into_shards (erase_states m)).
Proof.
  unfold drained, states_into_shards, into_shards, erase_states. cbn [state_shards]. induction (st_shards m) as [|x l IH]; auto. cbn [flat_map map].
  rewrite IH, smap_drain_erase. reflexivity.
Qed.

(* What interrupted prune runs, pruning and generation with all checks do with the log of a map. *)
Lemma left_same_m chash mhash n (m : StateMap) fs0 fs' : n <= 11 -> search_left chash mhash n m ->
  (forall g, fs0 (with_extension (group_name g) (str "pbin")) = None) -> crashes_m (dump_states m fs0) fs' ->
  crashes (dump_states m fs0) fs' /\ forall fs1, prune_all fs' = Some fs1 ->
    prune_all_m fs' = Some fs1 /\ forall fuel file, gen_proof fuel fs1 = Some file -> gen_proof_m fuel fs1 = Some file.
Proof.
  intros Hn SL N0 Cr. set (fd := dump_states m fs0) in *.
  destruct (pipe_pruned chash mhash n m Hn SL fs0 fd N0 (crash_none _)) as (fsa & groups & kept & Ea & _ & _ & _ & PL).
  assert (Rg : forall g, In g groups -> 1 < fst g /\ fst g <= MAX_CHANNELS).
  { intros g Ig. destruct (pl_files _ _ _ PL g Ig) as (_ & _ & A & B & _). auto. }
  assert (Ix : fd index_name = Some (index_text groups)).
  { destruct (dump_correct mhash m fs0 (mi_ok _ _ _ (sl_inv _ _ _ _ SL))) as (gs & Ng & Hg & Ix & Fl & _).
    assert (M : mid fd gs fd) by apply mid_refl. pose proof Ea as Ea'. unfold prune_all, prune_all_ops in Ea'. unfold fd in Ea'. rewrite Ix in Ea'. fold fd in Ea'. cbv beta iota in Ea'.
    rewrite lines_index in Ea'. destruct (prune_lines (map group_name gs) fd) as [ops|] eqn:Eo; [|discriminate]. injection Ea' as Ea'.
    destruct (lines_run fd gs gs fd M) as (ops' & Eo' & P & _). { intros g Ig. split; auto. eapply okg_of_success; eauto. }
    rewrite Eo in Eo'. injection Eo' as <-. specialize (P (List.length ops)). rewrite firstn_all, Ea' in P. rewrite <- (mid_index _ _ _ P). apply (pl_index _ _ _ PL). }
  assert (OG : forall g, In g groups -> okg fd g).
  { intros g Ig. unfold prune_all, prune_all_ops in Ea. rewrite Ix, lines_index in Ea. destruct (prune_lines (map group_name groups) fd) as [ops|] eqn:Eo; [|discriminate].
    eapply (okg_of_success fd groups groups fd); eauto using mid_refl. }
  assert (LF : lines_fine (lines (index_text groups))).
  { rewrite lines_index. intros line j I En. apply in_map_iff in I. destruct I as (g & <- & Ig). rewrite group_channels in En. injection En as <-. auto. }
  assert (Cp : crashes fd fs').
  { clear - Cr Ix OG LF. induction Cr as [fs|fs fs1 ops j C IH E]. constructor. specialize (IH Ix OG). pose proof (crashes_ok fs groups fs1 Ix OG IH) as M.
    econstructor; eauto. destruct (lines_run fs groups groups fs1 M) as (ops' & Eo & _). { auto. }
    assert (E1 : prune_all_ops fs1 = Some ops'). { unfold prune_all_ops. rewrite (mid_index _ _ _ M), Ix. now rewrite lines_index. }
    pose proof (prune_all_ops_same fs1 (index_text groups)) as K. rewrite (mid_index _ _ _ M) in K. specialize (K Ix LF).
    pose proof (orel_eq_some _ _ _ K E1) as E2. rewrite E in E2. injection E2 as ->. exact E1. }
  split; [exact Cp|]. intros fs1 P. pose proof (crashes_ok fd groups fs' Ix OG Cp) as M.
  destruct (pipe_pruned chash mhash n m Hn SL fs0 fs' N0 Cp) as (fs2 & groups2 & kept2 & P2 & _ & _ & _ & PL2).
  rewrite P in P2. injection P2 as <-.
  split. { apply (C53_same_answers fs' groups); auto. now rewrite (mid_index _ _ _ M). }
  apply (C53_same_answers fs1 groups2). apply (pl_index _ _ _ PL2).
  intros g Ig. destruct (pl_files _ _ _ PL2 g Ig) as (_ & _ & A & B & _). auto.
Qed.

(* Take any execution of the checked search on all inputs of n channels that ended with k.  Dump its map, let any number of prune
   runs be interrupted anywhere, then prune and generate.  No check fails, and both checkers accept the file and print n and k,
   the smallest size of a sorting network. *)
Theorem C53_pipeline : forall chash mhash threads n tr c k fs0 fs',
  3 <= n -> n <= 11 -> mach_run chash mhash threads (all_values n) None tr c -> mach_result c k ->
  (Z.of_nat (List.length (drained (m_states c))) < 2 ^ 32)%Z ->
  (forall g, fs0 (with_extension (group_name g) (str "pbin")) = None) ->
  crashes_m (dump_states_m (m_states c) fs0) fs' ->
  exists fs1 file fuel0, prune_all_m fs' = Some fs1 /\ (forall fuel, fuel0 <= fuel -> gen_proof_m fuel fs1 = Some file) /\
    snocheck_v file = Some (Z.of_nat n, Z.of_nat k) /\ snocheck_r file = Some (n, k) /\ minimal_size n k.
Proof.
  intros chash mhash threads n tr c k fs0 fs' H3 Hn R MR Few N0 Cr.
  destruct (C51_same_search chash mhash threads (all_values n) None tr c (all_values_start n Hn) R) as (c0 & SR & Tk & Mp & _).
  assert (Res : search_result c0 k) by (unfold search_result; unfold mach_result in MR; rewrite Tk; exact MR).
  rewrite drained_same, <- Mp in Few. unfold dump_states_m in Cr. rewrite drained_same, <- Mp in Cr. fold (dump_states (g_map c0) fs0) in Cr.
  pose proof (run_search_end chash mhash threads n c0 k H3 Hn SR Res) as SE.
  destruct (left_same_m chash mhash n (g_map c0) fs0 fs' Hn (search_end_left _ _ _ _ _ SE) N0 Cr) as (Cp & Sm).
  destruct (C33_pipeline chash mhash threads n c0 k fs0 fs' H3 Hn SR Res Few N0 Cp) as (fs1 & file & fuel0 & P & G & V & Rf & Ms).
  destruct (Sm fs1 P) as (Pm & Gm). exists fs1, file, fuel0. split; auto.
Qed.
Print Assumptions C53_pipeline.

(* three sets with 3 channels: all values, those after one comparator, and those after another; the first is dropped, and the
   other two, which are of the same size, are kept *)
Definition ex_three : list OutputSet := [all_values 3; fst (apply_comparator (all_values 3) 1 0); fst (apply_comparator (all_values 3) 2 1)].
Example C53_case_prune : 1 < 3 /\ 3 <= MAX_CHANNELS /\ (forall s, In s ex_three -> wf s /\ channels s = 3) /\
  map_opt packed ex_three = Some [[255]; [221]; [243]] /\ prune_data_m 3 (concat [[255]; [221]; [243]]) = Some [[221]; [243]].
Proof.
  split; [lia|split; [unfold MAX_CHANNELS; lia|split]]. intros s [<-|[<-|[<-|[]]]]; split; reflexivity. split; vm_compute; reflexivity.
Qed.

(* the log of PropGen *)
Example C53_case_same : PropGen.ex_fs index_name = Some (flat_map (fun g => group_name g ++ [10]) PropGen.ex_groups) /\
  (forall g, In g PropGen.ex_groups -> 1 < fst g /\ fst g <= MAX_CHANNELS) /\ gen_proof_m 2 PropGen.ex_fs = Some ex_file.
Proof.
  assert (A : PropGen.ex_fs index_name = Some (flat_map (fun g => group_name g ++ [10]) PropGen.ex_groups)) by reflexivity.
  assert (B : forall g, In g PropGen.ex_groups -> 1 < fst g /\ fst g <= MAX_CHANNELS).
  { intros g [<-|[<-|[]]]; cbn [fst]; unfold MAX_CHANNELS; lia. }
  split; [exact A|split; [exact B|]]. apply (C53_same_answers _ _ A B). apply C27_case.
Qed.

(* the search on three channels that ends with 3 (C51_case_three), and a prune run that stops after 4 file operations *)
Definition ex_end : Mach := snd (machine (all_values 3) (cycles 1 40)).
Definition stopped_m (ops : nat) (fs : Fs) : Fs := match prune_all_ops_m fs with Some l => fs_run (firstn ops l) fs | None => fs end.
Lemma stopped_crashes_m ops fs : crashes_m fs (stopped_m ops fs).
Proof. unfold stopped_m. destruct (prune_all_ops_m fs) as [l|] eqn:E. eapply crash_run_m; eauto using crash_none_m. apply crash_none_m. Qed.
Example C53_case : exists fs1 file fuel0, prune_all_m (stopped_m 4 (dump_states_m (m_states ex_end) (fun _ => None))) = Some fs1 /\
  (forall fuel, fuel0 <= fuel -> gen_proof_m fuel fs1 = Some file) /\ snocheck_v file = Some (3%Z, 3%Z) /\ snocheck_r file = Some (3, 3).
Proof.
  destruct (C53_pipeline h0 h0 2 3 (fst (machine (all_values 3) (cycles 1 40))) ex_end 3 (fun _ => None) (stopped_m 4 (dump_states_m (m_states ex_end) (fun _ => None))))
    as (fs1 & file & F & A & B & C & D & _).
  - lia.
  - lia.
  - apply machine_run. apply all_values_start. lia.
  - apply ended_result. exact C51_case_three.
  - assert (E : List.length (drained (m_states ex_end)) = 1) by (vm_compute; reflexivity). rewrite E. cbn. lia.
  - auto.
  - apply stopped_crashes_m.
  - exists fs1, file, F. auto.
Qed.
(* and this is what happens *)
Example C53_case_file : match prune_all_m (stopped_m 4 (dump_states_m (m_states ex_end) (fun _ => None))) with
  | Some fs => match gen_proof_m 3 fs with Some file => Some (List.length file, snocheck_v file, snocheck_r file) | None => None end
  | None => None end = Some (23, Some (3%Z, 3%Z), Some (3, 3)).
Proof. vm_compute. reflexivity. Qed.
