(* The whole pipeline: search, dump, prune, generate, check. *)
From Coq Require Import String List Arith Bool Lia Permutation Sorted ZArith.
Import ListNotations.
From Verif Require Import Spec Vec Net Graded Bits Util OutputSetModel OutputSetProofs PruneProofs PackProofs CountProofs HuffmanModel HuffmanProofs TreeModel IndexModel IndexSpec
  CanonModel StatesModel StatesProofs StatesBounds SearchModel SearchFacts SearchInv SearchSafe SearchOrder SearchTop SearchLeft FileModel FileProofs LogModel DumpProofs PruneLogProofs CrashProofs
  ProofGenModel GenLoad GenSteps GenMain GenComplete PipeProofs DecodeModel VerifiedCheckerModel RefCheckerModel PropSearch PropGen PropDecode.

Lemma covers_self s : wf s -> IndexSpec.covers LowerInvert s s.
Proof.
  intros W. exists (false, seq 0 (channels s)). split. cbn. apply is_perm_id. cbn. intros x Hx. replace (channels s) with (List.length x) by apply Hx.
  rewrite permute_id. exact Hx.
Qed.

(* The log of a map in which the set of all values is the only one of its group: the certificate is accepted. *)
Lemma pipeline_left chash mhash n k m fs0 fs' : n <= 11 -> search_left chash mhash n m -> 2 <= k ->
  logged mhash m (n, k) (all_values n) -> (forall s, logged mhash m (n, k) s -> s = all_values n) ->
  (Z.of_nat (List.length (flat_map drain_packed (into_shards m))) < 2 ^ 32)%Z ->
  (forall g, fs0 (with_extension (group_name g) (str "pbin")) = None) ->
  crashes (dump_states m fs0) fs' ->
  exists fs1 file fuel0, prune_all fs' = Some fs1 /\ (forall fuel, fuel0 <= fuel -> gen_proof fuel fs1 = Some file) /\
    snocheck_v file = Some (Z.of_nat n, Z.of_nat k) /\ snocheck_r file = Some (n, k).
Proof.
  intros Hn SL K2 TopL Only Few N0 Cr.
  destruct (pipe_pruned chash mhash n m Hn SL fs0 fs' N0 Cr) as (fs1 & groups & kept & Ep & Ng & Hg & Hk & PL).
  pose proof (sl_inv _ _ _ _ SL) as IM.
  assert (Top : In (n, k) groups) by (apply Hg; eauto).
  pose proof (top_kept mhash n m k (kept (n, k)) Only TopL (Hk _ Top)) as TK.
  assert (LK : forall g s, In g groups -> In s (kept g) -> logged mhash m g s). { intros g s Hi Hs. apply (Hk g Hi). exact Hs. }
  pose proof (fun g s Hi Hs => logged_facts chash mhash n m SL g s (LK g s Hi Hs)) as LF.
  assert (Mx : forall g, In g groups -> fst g <= n).
  { intros g Hi. destruct (proj1 (Hg g) Hi) as (s & L). apply (logged_facts chash mhash n m SL g s L). }
  exists fs1. destruct (gen_main_full fs1 groups kept PL) as (n' & In' & Mx' & D). { intros E. rewrite E in Top. easy. }
  assert (n' = n). { apply in_map_iff in In'. destruct In' as (g & <- & Hi). specialize (Mx g Hi). specialize (Mx' _ Top). cbn in Mx'. lia. } subst n'.
  destruct D as [(_ & g0 & G & D)|(g0 & g & es & b & F & _ & _ & _ & _ & Run & _)].
  - exfalso. destruct D as [D|D]. 2:{ apply (D k). apply all_entries_In. exists (n, k). auto. }
    destruct (prove_all_total chash g0 (all_entries groups kept) (fun s => lo (cur mhash m s)) G) as (g' & Eg); [| | |congruence].
    + intros s b I. apply all_entries_In in I. destruct I as (g & Hi & Hs & ->). destruct (LF g s Hi Hs) as (K & (U & _) & _ & B1 & B2 & _ & Lo). auto.
    + intros t Kt. unfold cur. destruct (stored mhash m t) as [st|] eqn:Et.
      * right. assert (L : logged mhash m (channels t, lo st) t). { split. apply Kt. split; auto. exists st. auto. }
        assert (Hi : In (channels t, lo st) groups) by (apply Hg; eauto). destruct (Hk _ Hi) as (_ & _ & _ & Cov & _).
        destruct (Cov t L) as [Hs|(c' & Hs & _ & Hc)].
        -- exists t, (lo st). split. apply all_entries_In. eauto. split; auto. split; auto. apply covers_self. apply Kt.
        -- exists c', (lo st). split. apply all_entries_In. eauto. split; auto. destruct (LK _ _ Hi Hs) as (_ & C & _). exact C.
      * left. unfold default_state. destruct (is_sorted t); auto. destruct (channels t <=? 2); auto.
    + intros s Ks. apply (mi_justL _ _ _ IM s Ks).
  - exists (write_proof (step_data g)), F. split; auto. split; auto.
    destruct (C32_accepted fs1 groups kept F (write_proof (step_data g)) (n, k) PL) as (V & Rf & _); auto.
    + eapply Z.le_lt_trans; [|exact Few]. apply inj_le. apply (entries_len chash mhash n m SL); auto. apply PL.
    + intros g1 s Hi Hs _ O. destruct (LF g1 s Hi Hs) as (K & (U & _) & _). apply is_sorted_spec in O; [congruence|apply K].
Qed.

Lemma end_only chash mhash n k m : search_end chash mhash n k m ->
  logged mhash m (n, k) (all_values n) /\ forall s, logged mhash m (n, k) s -> s = all_values n.
Proof.
  intros SE. split.
  - destruct (se_top _ _ _ _ _ SE) as (st & St & Lo). split. apply all_values_wf. split. reflexivity. exists st. auto.
  - intros s (W & C & st & St & Lo). cbn in C, Lo. destruct (se_stored _ _ _ _ _ SE s st W St) as (_ & _ & _ & _ & _ & Lt). specialize (Lt C).
    assert (D : {s = all_values n} + {s <> all_values n}).
    { destruct s as [a b]. cbn in C. subst a. destruct (list_eq_dec bool_dec b (bitmap (all_values n))) as [->|Nb]; [left; reflexivity|right]. intros E. now injection E. }
    destruct D as [|Ne]; auto. specialize (Lt Ne). lia.
Qed.

(* C33.  For every schedule of a completed search without limit: after any number of interrupted runs of prune-all, pruning and
   certificate generation succeed, and both checkers accept the certificate and report the number that the search printed. *)
Theorem C33_pipeline : forall chash mhash threads n c k fs0 fs',
  3 <= n -> n <= 11 -> search_run chash mhash threads (all_values n) None c -> search_result c k ->
  (Z.of_nat (List.length (flat_map drain_packed (into_shards (g_map c)))) < 2 ^ 32)%Z ->
  (forall g, fs0 (with_extension (group_name g) (str "pbin")) = None) ->
  crashes (dump_states (g_map c) fs0) fs' ->
  exists fs1 file fuel0, prune_all fs' = Some fs1 /\ (forall fuel, fuel0 <= fuel -> gen_proof fuel fs1 = Some file) /\
    snocheck_v file = Some (Z.of_nat n, Z.of_nat k) /\ snocheck_r file = Some (n, k) /\ minimal_size n k.
Proof.
  intros chash mhash threads n c k fs0 fs' H3 Hn R SR Few N0 Cr.
  pose proof (run_search_end chash mhash threads n c k H3 Hn R SR) as SE. destruct (end_only _ _ _ _ _ SE) as (T & O).
  destruct (pipeline_left chash mhash n k (g_map c) fs0 fs' Hn (search_end_left _ _ _ _ _ SE) (se_two _ _ _ _ _ SE) T O Few N0 Cr) as (fs1 & file & F & A & B & C & D).
  exists fs1, file, F. split; auto. split; auto. split; auto. split; auto. apply SE.
Qed.
Print Assumptions C33_pipeline.

(* a prune run that stops after some file operations *)
Definition stopped (ops : nat) (fs : Fs) : Fs := match prune_all_ops fs with Some l => fs_run (firstn ops l) fs | None => fs end.
Lemma stopped_crashes ops fs : crashes fs (stopped ops fs).
Proof. unfold stopped. destruct (prune_all_ops fs) as [l|] eqn:E. eapply crash_run; eauto using crash_none. apply crash_none. Qed.

(* the theorem applies to the search of PropSearch on 4 channels and a prune run that stops after 4 file operations *)
Example C33_case : exists fs1 file fuel0, prune_all (stopped 4 (dump_states (g_map (example_run 4 None 100)) (fun _ => None))) = Some fs1 /\
  (forall fuel, fuel0 <= fuel -> gen_proof fuel fs1 = Some file) /\ snocheck_v file = Some (4%Z, 5%Z) /\ snocheck_r file = Some (4, 5).
Proof.
  destruct (C33_pipeline h0 h0 2 4 (example_run 4 None 100) 5 (fun _ => None) (stopped 4 (dump_states (g_map (example_run 4 None 100)) (fun _ => None))))
    as (fs1 & file & F & A & B & C & D & _).
  - lia.
  - lia.
  - apply example_is_run. lia.
  - apply C19_case4.
  - assert (E : List.length (flat_map drain_packed (into_shards (g_map (example_run 4 None 100)))) = 2) by (vm_compute; reflexivity). rewrite E. cbn. lia.
  - auto.
  - apply stopped_crashes.
  - exists fs1, file, F. auto.
Qed.

(* and this is what happens *)
Example C33_case_file : match prune_all (stopped 4 (dump_states (g_map (example_run 4 None 100)) (fun _ => None))) with
  | Some fs => match gen_proof 3 fs with Some file => Some (List.length file, snocheck_v file, snocheck_r file) | None => None end
  | None => None end = Some (72, Some (4%Z, 5%Z), Some (4, 5)).
Proof. vm_compute. reflexivity. Qed.
