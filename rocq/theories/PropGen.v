(* C27 and C32: the certificates written by gen_proof. *)
From Coq Require Import String List Arith Bool Lia ZArith Permutation Sorted.
Import ListNotations.
From Verif Require Import Spec Vec Net Graded Bits Util OutputSetModel OutputSetProofs PackProofs
  VerifiedCheckerModel RefCheckerModel DecodeModel DecodeProofs StatesModel StatesProofs FileModel FileProofs LogModel DumpProofs PruneLogProofs CrashProofs
  ProofGenModel GenLoad GenSteps GenEncode GenMain GenAccept PropDecode.

(* ---------- C27 ---------- *)

(* pruned_log (GenMain.v): the index file lists the groups (channels, bound), the pruned file of each group
   contains the packed sets of the group, no set occurs twice, and every set is graded (as the sets that
   come from networks are).

   encode_proof never runs forever: from some recursion depth on the result does not depend on the depth. *)
Theorem C27_ends : forall fs groups sets, pruned_log fs groups sets ->
  exists F r, forall fuel, F <= fuel -> gen_proof fuel fs = r.
Proof.
  intros fs groups sets P. destruct groups as [|gr groups].
  - exists 0, None. intros fuel _. unfold gen_proof, load_indexes. rewrite (pl_index _ _ _ P). reflexivity.
  - destruct (gen_main fs (gr :: groups) sets P ltac:(discriminate)) as (n & _ & _ & [H|(g0 & g & es & b & F & _ & _ & _ & _ & H & _)]).
    exists 0, None. auto. exists F, (Some (write_proof (step_data g))). auto.
Qed.
Print Assumptions C27_ends.

(* The certificate: step i is the encoding of entry i; no set has two steps; every step has the bound of its
   group; every witness refers to a step with a smaller number; the last step is the requested set, all
   values on the greatest number of channels n. *)
Theorem C27_references_backwards : forall fs groups sets fuel file, pruned_log fs groups sets -> gen_proof fuel fs = Some file ->
  exists n es data, file = write_proof data /\ Forall2 encodes es data /\
    In n (map fst groups) /\ (forall g, In g groups -> fst g <= n) /\
    NoDup (map eset es) /\
    (forall i e, nth_error es i = Some e ->
       (exists g, In g groups /\ In (eset e) (sets g) /\ channels (eset e) = fst g /\ ebound e = snd g) /\
       forall w, In (Some w) (list_of (ewits e)) ->
         (0 <= stepId w < Z.of_nat i)%Z /\ is_perm (length (wperm w)) (wperm w) /\
         exists e', nth_error es (Z.to_nat (stepId w)) = Some e' /\ channels (eset e') = length (wperm w)) /\
    (es <> [] -> exists e, nth_error es (length es - 1) = Some e /\ eset e = all_values n) /\
    (es = [] -> exists g, In g groups /\ In (all_values n) (sets g) /\ snd g <= 1).
Proof.
  intros fs groups sets fuel file P H.
  assert (Ng : groups <> []).
  { intros ->. unfold gen_proof, load_indexes in H. rewrite (pl_index _ _ _ P) in H. discriminate. }
  destruct (gen_main fs groups sets P Ng) as (n & Hn & Mx & [No|(g0 & g & es & b & F & T & St & Em & Ib & Run & Last)]). { rewrite No in H. discriminate. }
  assert (Ef : file = write_proof (step_data g)) by (eapply gen_proof_run; eauto).
  exists n, es, (step_data g). split; auto. split. apply Em. split; auto. split; auto. split. apply Em.
  assert (Hf : forall i e, nth_error es i = Some e -> entry_from g0 (firstn i es) e) by (eapply emitted_from; eauto).
  split; [|split].
  - intros i e Hi. split.
    + destruct (entry_facts g0 _ es T Hf i e Hi) as (_ & _ & I & _). apply all_entries_In in I. destruct I as (gr & Hg & Hs & Eb). exists gr. split; auto. split; auto. split; auto.
      apply (pl_files _ _ _ P gr Hg). auto.
    + intros w Hw. destruct (entry_wits g0 _ es T Hf i e w Hi Hw) as (Pw & j & e' & Ej & Lj & Hj & Cj). split. lia.
      assert (Lw : length (wperm w) = match ewits e with Huffman _ _ => channels (eset e) - 1 | Successors _ => channels (eset e) end).
      { apply Permutation_length in Pw. now rewrite seq_length in Pw. }
      rewrite Lw. split; auto. exists e'. rewrite Ej, Nat2Z.id. auto.
  - intros Ne. destruct Last as [(-> & _)|(_ & L)]; [congruence|auto].
  - intros ->. destruct Last as [(_ & st & So & Tr)|(Ne & _)]; [|congruence]. apply all_entries_In in Ib. destruct Ib as (gr & Hg & Hs & ->). exists gr. split; auto. split; auto.
    destruct Tr as [-> | ->]; cbn in So; lia.
Qed.
Print Assumptions C27_references_backwards.

(* ---------- C32 ---------- *)

(* Both checkers accept the certificate and report the number of channels and the bound of the requested set.
   Hypotheses besides pruned_log: fewer than 2^32 sets (the step numbers have 32 bits) and no sorted set has a
   bound above 0.  A bound of 1 for all values gives the empty certificate. *)
Theorem C32_accepted : forall fs groups sets fuel file g, pruned_log fs groups sets ->
  (Z.of_nat (length (all_entries groups sets)) < 2 ^ 32)%Z ->
  (forall g s, In g groups -> In s (sets g) -> snd g <> 0 -> ~ one_per_weight (vs s)) ->
  gen_proof fuel fs = Some file ->
  In g groups -> (forall g', In g' groups -> fst g' <= fst g) -> In (all_values (fst g)) (sets g) -> 2 <= snd g ->
  snocheck_v file = Some (Z.of_nat (fst g), Z.of_nat (snd g)) /\ snocheck_r file = Some (fst g, snd g) /\
  forall net, sorting_network (fst g) net -> snd g <= length net.
Proof.
  intros fs groups sets fuel file gr P Few Un H Hg Mx Hs B2.
  assert (Ng : groups <> []) by (intros ->; easy).
  destruct (gen_main fs groups sets P Ng) as (n & Hn & Mn & [No|(g0 & g & es & b & F & T & St & Em & Ib & Run & Last)]). { rewrite No in H. discriminate. }
  assert (En : n = fst gr). { apply in_map_iff in Hn. destruct Hn as (g1 & <- & Hg1). specialize (Mx _ Hg1). specialize (Mn _ Hg). lia. } subst n.
  assert (Ibg : In (all_values (fst gr), snd gr) (all_entries groups sets)) by (apply all_entries_In; eauto).
  assert (Eb : b = snd gr).
  { pose proof (proj1 (go_get g0 _ _ _ (tb_gen _ _ T)) Ib). pose proof (proj1 (go_get g0 _ _ _ (tb_gen _ _ T)) Ibg). congruence. } subst b.
  assert (Ef : file = write_proof (step_data g)) by (eapply gen_proof_run; eauto).
  destruct Last as [(_ & st & So & Tr)|(Ne & e & He & Se)]. { destruct Tr as [-> | ->]; cbn in So; lia. }
  assert (Hf : forall i e, nth_error es i = Some e -> entry_from g0 (firstn i es) e) by (eapply emitted_from; eauto).
  assert (Us : forall s b, In (s, b) (all_entries groups sets) -> b <> 0 -> is_sorted s = false).
  { intros s b I Nb. destruct (pl_okset _ _ _ s b P I) as ((W & _) & _). apply all_entries_In in I. destruct I as (g1 & Hg1 & Hs1 & ->).
    destruct (is_sorted s) eqn:Eo; auto. apply is_sorted_spec in Eo; auto. now elim (Un g1 s Hg1 Hs1 Nb). }
  destruct (file_accepted g0 _ es T Hf Us (em_nodup _ _ Em) Few (step_data g) e Ne (em_enc _ _ Em) He) as (V & R). rewrite <- Ef in *.
  assert (Ebd : ebound e = snd gr).
  { destruct (entry_facts g0 _ es T Hf _ e He) as (_ & _ & I & _). rewrite Se in I. pose proof (proj1 (go_get g0 _ _ _ (tb_gen _ _ T)) I). pose proof (proj1 (go_get g0 _ _ _ (tb_gen _ _ T)) Ibg). congruence. }
  rewrite Se, Ebd in *. change (channels (all_values (fst gr))) with (fst gr) in *. split; auto. split; auto.
  intros net Hnet. rewrite <- (Nat2Z.id (fst gr)) in Hnet. apply (C30_snocheck_v_sound file _ _ V net) in Hnet. lia.
Qed.
Print Assumptions C32_accepted.

(* a log with the sets of all values on 3 and 4 channels *)
Definition ex_groups : list (nat * nat) := [(4, 5); (3, 3)].
Definition ex_sets (g : nat * nat) : list OutputSet := [all_values (fst g)].
Definition ex_fs : Fs := fun name =>
  if list_eqb Nat.eqb name index_name then Some (index_text ex_groups)
  else if list_eqb Nat.eqb name (str "group_4_5.pbin") then Some [255; 255]
  else if list_eqb Nat.eqb name (str "group_3_3.pbin") then Some [255]
  else None.

Lemma all_values_graded n : graded n (vs (all_values n)).
Proof. apply derived_graded. apply derived_all. apply all_values_vs. Qed.

Example ex_pruned_log : pruned_log ex_fs ex_groups ex_sets.
Proof.
  split.
  - reflexivity.
  - intros g [<-|[<-|[]]]; (split; [reflexivity|]; split; [discriminate|]; cbn [fst snd]; unfold MAX_CHANNELS; repeat (split; [lia|]));
      intros s [<-|[]]; (split; [apply all_values_wf|reflexivity]).
  - cbn. constructor; [|constructor; [easy|constructor]]. intros [Eq|[]]. discriminate.
  - intros g s [<-|[<-|[]]] [<-|[]]; apply all_values_graded.
Qed.

Definition ex_file : list nat := match gen_proof 2 ex_fs with Some f => f | None => [] end.

Example C27_case : gen_proof 1 ex_fs = None /\ gen_proof 2 ex_fs = Some ex_file /\
  ex_file = write_proof [[3; 3; 255; 0; 2; 2; 2];
    [4; 5; 255; 255; 0; 0; 0; 1; 2; 0; 0; 0; 0; 0; 0; 1; 2; 0; 0; 0; 0; 0; 0; 1; 2; 0; 0; 0; 0; 0; 0; 1; 2; 0; 0; 0; 0]].
Proof. vm_compute. auto. Qed.

Example C32_case : snocheck_v ex_file = Some (4%Z, 5%Z) /\ snocheck_r ex_file = Some (4, 5).
Proof.
  assert (H : gen_proof 2 ex_fs = Some ex_file) by (vm_compute; reflexivity).
  destruct (C32_accepted ex_fs ex_groups ex_sets 2 ex_file (4, 5) ex_pruned_log) as (V & R & _); auto.
  - cbn. lia.
  - intros g s [<-|[<-|[]]] [<-|[]] _ O; apply is_sorted_spec in O; try apply all_values_wf; discriminate.
  - now left.
  - intros g' [<-|[<-|[]]]; cbn; lia.
  - now left.
  - cbn. lia.
Qed.
