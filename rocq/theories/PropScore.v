(* Property C65: the complement in the score of a candidate (output_set/canon.rs:40). *)
From Coq Require Import List Arith Bool ZArith Lia Permutation.
Import ListNotations.
From Verif Require Import Spec Vec Net Bits Util OutputSetModel OutputSetProofs SubsumeModel CanonModel PropCanon
  ScoreModel ScoreProofs.

(* every score compared in a run is of a part of at most MAX_CHANNELS channels, so with the complement of a
   64 bit word the run is the one of CanonModel.v: the same result or the same panic, for every set, also
   those with too many channels or of the wrong length *)
Theorem C65_complement : forall hash s inversion, canonicalize64 hash s inversion = canonicalize hash s inversion.
Proof. exact canonicalize_same. Qed.
Print Assumptions C65_complement.

(* ... so the code as it stands computes a canonical form: no panic, a relabelling of the set, and the same
   result for two sets exactly if one is a relabelling of the other *)
Theorem C65_canonical_form : forall hash s t inversion, wf s -> wf t -> channels t = channels s -> channels s <= MAX_CHANNELS ->
  exists rs rt, canonicalize64 hash s inversion = Some rs /\ canonicalize64 hash t inversion = Some rt /\
    is_perm (channels s) (snd (snd rs)) /\ isomorphic_by (fst (snd rs)) (snd (snd rs)) (vs s) (vs (fst rs)) /\
    (fst rs = fst rt <-> exists z p, is_perm (channels s) p /\ isomorphic_by z p (vs s) (vs t) /\ (z = true -> inversion = true)).
Proof.
  intros hash s t inversion Ws Wt E M.
  destruct (C06_canonicalize_isomorphic hash s inversion Ws M) as (a & i & p & Ca & _ & _ & Pa & Ia & _).
  destruct (C06_canonicalize_isomorphic hash t inversion Wt ltac:(lia)) as (b & j & q & Cb & _).
  exists (a, (i, p)), (b, (j, q)). rewrite !C65_complement. cbn [fst snd]. do 4 (split; [assumption|]). split.
  - intros Q. exact (C07_canonicalize_separates hash s t inversion _ _ Ws Wt E M Ca Cb Q).
  - intros (z & r & Pr & Ir & Z). exact (C07_canonicalize_canonical hash s t inversion z r _ _ Ws Wt E M Pr Ir Z Ca Cb).
Qed.
Print Assumptions C65_canonical_form.

(* the candidate with the smaller largest part has the greater score and is the one kept; it comes second *)
Example C65_case_order :
  let c1 := mkCand can_a (seq 0 5) false [9; 9] [] (1, 3) in
  let c2 := mkCand can_a (seq 0 5) true [2; 2] [] (1, 2) in
  score64 c1 = (1, 18446744073709551612%Z, [9; 9]) /\ tuple_cmp (score64 c2) (score64 c1) = Gt /\
  option_map (fun z => map c_invert (z_layer z)) (prune_using_fingerprints64 (mkCanonicalize 5 0 [c1; c2])) = Some [true].
Proof. vm_compute. auto. Qed.

(* two sets that are relabellings of each other *)
Example C65_case : wf can_a /\ wf can_b /\ channels can_b = channels can_a /\ channels can_a <= MAX_CHANNELS /\
  option_map fst (canonicalize64 hash_mix can_a true) = option_map fst (canonicalize64 hash_mix can_b true) /\
  option_map snd (canonicalize64 hash_mix can_b true) = Some (true, [2; 0; 4; 3; 1]).
Proof.
  split. exact can_a_wf. split. exact can_b_wf. split. reflexivity. split. unfold MAX_CHANNELS; vm_compute; repeat constructor.
  split; vm_compute; reflexivity.
Qed.
