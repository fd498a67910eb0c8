(* Property C42: the arena of output_set/canon.rs. *)
From Coq Require Import List Arith Bool Lia Permutation.
Import ListNotations.
From Verif Require Import Spec Vec Net Bits Util OutputSetModel OutputSetProofs CountProofs PropOutputSet
  SubsumeModel CanonModel CanonArenaModel CanonArenaProofs PropCanon.

(* with candidates in reused slots of one vector the run gives what it gives with candidates as values *)
Theorem C42_arena_same_result : forall hash s inversion, wf s ->
  arena_canonicalize hash s inversion = canonicalize hash s inversion.
Proof. exact arena_refines. Qed.
Print Assumptions C42_arena_same_result.

(* hence it does not panic, relabels the set, and isomorphic sets get the same set *)
Theorem C42_arena_isomorphic : forall hash s inversion, wf s -> channels s <= MAX_CHANNELS ->
  exists t invert p, arena_canonicalize hash s inversion = Some (t, (invert, p)) /\
    wf t /\ channels t = channels s /\ is_perm (channels s) p /\ isomorphic_by invert p (vs s) (vs t) /\
    (invert = true -> inversion = true).
Proof. intros hash s inversion W M. rewrite arena_refines by auto. apply C06_canonicalize_isomorphic; auto. Qed.
Print Assumptions C42_arena_isomorphic.

Theorem C42_arena_canonical : forall hash s t inversion z p, wf s -> wf t -> channels t = channels s ->
  channels s <= MAX_CHANNELS -> is_perm (channels s) p -> isomorphic_by z p (vs s) (vs t) -> (z = true -> inversion = true) ->
  exists u rs rt, arena_canonicalize hash s inversion = Some (u, rs) /\ arena_canonicalize hash t inversion = Some (u, rt).
Proof.
  intros hash s t inversion z p Ws Wt Ec M P I Z. destruct (C42_arena_isomorphic hash s inversion Ws M) as (u & i & q & E & _).
  destruct (C42_arena_isomorphic hash t inversion Wt ltac:(lia)) as (u' & i' & q' & E' & _).
  assert (X : fst (u, (i, q)) = fst (u', (i', q'))).
  { apply (C07_canonicalize_canonical hash s t inversion z p); auto; rewrite <- arena_refines; auto. }
  cbn in X. subst u'. eauto 10.
Qed.
Print Assumptions C42_arena_canonical.

(* when the loop is left every slot of the arena is either in the layer or free, and only once: none is
   lost, none is both used and free, and the bitmaps fill the vector exactly *)
Theorem C42_no_slot_lost : forall hash s inversion r0 r, wf s -> arena_new s inversion = Some r0 -> arena_final hash r0 = Some r ->
  length (r_bitmaps r) = length (r_data r) * 2 ^ channels s /\ r_next r = [] /\
  NoDup (r_layer r ++ r_free r) /\ forall i, In i (r_layer r ++ r_free r) <-> i < length (r_data r).
Proof.
  intros hash s inversion r0 r W E0 E. destruct (final_slots hash s inversion r0 r W E0 E) as (A & B & P).
  split; auto. split; auto. split. apply (Permutation_NoDup (Permutation_sym P)). apply seq_NoDup.
  intros i. split; intros H. apply (Permutation_in _ P) in H. apply in_seq in H. lia. apply (Permutation_in _ (Permutation_sym P)). apply in_seq. lia.
Qed.
Print Assumptions C42_no_slot_lost.

(* can_a: three slots are made, two of them are free at the end.  arena_c, with a hash function that
   distinguishes nothing: five slots are made *)
Definition arena_c : OutputSet := fst (apply_comparator (fst (apply_comparator (all_values 4) 0 1)) 2 3).
Example C42_case : wf can_a /\ channels can_a <= MAX_CHANNELS /\ wf arena_c /\
  option_map (fun r => (length (r_data r), r_layer r, r_free r)) (match arena_new can_a true with Some r => arena_final hash_mix r | None => None end) = Some (3, [1], [2; 0]) /\
  option_map (fun r => (length (r_data r), r_layer r, r_free r)) (match arena_new arena_c true with Some r => arena_final hash_const r | None => None end) = Some (5, [4], [0; 3; 1; 2]) /\
  option_map fst (arena_canonicalize hash_mix can_a true) = option_map fst (arena_canonicalize hash_mix can_b true).
Proof.
  split. exact can_a_wf. split. unfold MAX_CHANNELS. vm_compute. repeat constructor. split. reflexivity. split. vm_compute. reflexivity. split. vm_compute. reflexivity.
  rewrite !arena_refines. apply C07_case. exact can_b_wf. exact can_a_wf.
Qed.
