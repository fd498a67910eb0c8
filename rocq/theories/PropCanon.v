(* Properties C06, C07: canonicalization of output sets (output_set/canon.rs). *)
From Coq Require Import List Arith Bool Lia Permutation.
Import ListNotations.
From Verif Require Import Spec Vec Net Bits Util OutputSetModel OutputSetProofs CountProofs PropOutputSet
  SubsumeModel CanonModel CanonSteps CanonNew.

(* ---------- C06 ---------- *)

(* for every set and every hash function the run ends without panic, and returns the set relabelled by
   the returned permutation *)
Theorem C06_canonicalize_isomorphic : forall hash s inversion, wf s -> channels s <= MAX_CHANNELS ->
  exists t invert p, canonicalize hash s inversion = Some (t, (invert, p)) /\
    wf t /\ channels t = channels s /\ is_perm (channels s) p /\ isomorphic_by invert p (vs s) (vs t) /\
    (invert = true -> inversion = true).
Proof.
  intros hash s inversion W M. unfold canonicalize. destruct (Nat.eqb_spec (channels s) 0) as [E|N].
  - exists s, false, (seq 0 0). split; auto. split; auto. split; auto. rewrite E. split. apply Permutation_refl. split; [|discriminate].
    apply (iso_refl 0); auto.
  - destruct (canon_both (channels s) hash s s inversion false (seq 0 (channels s)) W W eq_refl eq_refl M ltac:(lia) (Permutation_refl _) (iso_refl _ s W eq_refl) ltac:(discriminate)) as (c & _ & E & _ & (A & B & C & D & F) & _).
    rewrite E. exists (c_set c), (c_invert c), (c_perm c). split; [reflexivity|]. auto 10.
Qed.
Print Assumptions C06_canonicalize_isomorphic.

(* a set with five channels: all inputs after [(3,1)(4,0)(2,4)] *)
Definition can_a : OutputSet :=
  fst (apply_comparator (fst (apply_comparator (fst (apply_comparator (all_values 5) 3 1)) 4 0)) 2 4).
(* a hash function with many collisions, and one without structure *)
Definition hash_const (l : list nat) : nat := 0.
Definition hash_mix (l : list nat) : nat := fold_left (fun h x => (h * 5 + x) mod 1021) l 7.

(* can_a with its channels renamed and all members complemented *)
Definition can_b : OutputSet := invert (swap_channels (swap_channels can_a 0 3) 1 4).

Lemma can_a_wf : wf can_a. Proof. reflexivity. Qed.
Lemma can_b_wf : wf can_b. Proof. reflexivity. Qed.

Example C06_case : wf can_b /\ channels can_b <= MAX_CHANNELS /\
  option_map snd (canonicalize hash_mix can_b true) = Some (true, [2; 0; 4; 3; 1]) /\
  option_map snd (canonicalize hash_mix can_b false) = Some (false, [4; 0; 2; 3; 1]).
Proof. split. exact can_b_wf. split. unfold MAX_CHANNELS. vm_compute. repeat constructor. split; vm_compute; reflexivity. Qed.

(* ---------- C07 ---------- *)

(* isomorphic sets have the same canonical set, whatever the hash function *)
Theorem C07_canonicalize_canonical : forall hash s t inversion z p rs rt, wf s -> wf t -> channels t = channels s ->
  channels s <= MAX_CHANNELS -> is_perm (channels s) p -> isomorphic_by z p (vs s) (vs t) -> (z = true -> inversion = true) ->
  canonicalize hash s inversion = Some rs -> canonicalize hash t inversion = Some rt -> fst rs = fst rt.
Proof.
  intros hash s t inversion z p rs rt Ws Wt C M P Iso Hz. unfold canonicalize. rewrite C. destruct (Nat.eqb_spec (channels s) 0) as [E|N].
  - intros E1 E2. injection E1 as <-. injection E2 as <-. simpl. apply os_ext; auto. intros y. rewrite (Iso y).
    assert (X : forall x : vec, length x = 0 -> x = []) by (intros []; simpl; [auto|discriminate]).
    assert (Hp : p = []). { apply is_perm_length in P. rewrite E in P. now destruct p. }
    split.
    + intros Hy. assert (y = []) by (apply X; destruct Hy; lia). subst. exists []. split; auto.
    + intros (x & Hx & ->). assert (x = []) by (apply X; destruct Hx; lia). subst. destruct z; exact Hx.
  - destruct (canon_both (channels s) hash s t inversion z p Ws Wt eq_refl C M ltac:(lia) P Iso Hz) as (c1 & c2 & E1 & E2 & _ & _ & Es).
    rewrite E1, E2. simpl. intros X1 X2. injection X1 as <-. injection X2 as <-. exact Es.
Qed.
Print Assumptions C07_canonicalize_canonical.

(* and only isomorphic sets have *)
Theorem C07_canonicalize_separates : forall hash s t inversion rs rt, wf s -> wf t -> channels t = channels s ->
  channels s <= MAX_CHANNELS -> canonicalize hash s inversion = Some rs -> canonicalize hash t inversion = Some rt ->
  fst rs = fst rt -> exists z p, is_perm (channels s) p /\ isomorphic_by z p (vs s) (vs t) /\ (z = true -> inversion = true).
Proof.
  intros hash s t inversion rs rt Ws Wt C M E1 E2 E.
  destruct (C06_canonicalize_isomorphic hash s inversion Ws M) as (a & z1 & p1 & F1 & Wa & Ca & P1 & I1 & H1).
  destruct (C06_canonicalize_isomorphic hash t inversion Wt ltac:(lia)) as (b & z2 & p2 & F2 & Wb & Cb & P2 & I2 & H2).
  rewrite E1 in F1. injection F1 as ->. rewrite E2 in F2. injection F2 as ->. simpl in E. subst b. rewrite C in *.
  set (n := channels s) in *.
  exists (xorb z1 z2), (comp_perm p1 (inv_perm n p2)).
  pose proof (inv_perm_is_perm n p2 P2) as P2'. split. now apply comp_perm_is_perm.
  split; [|destruct z1, z2; simpl; auto].
  assert (Key : forall x, length x = n -> permute (comp_perm p1 (inv_perm n p2)) (complement_if (xorb z1 z2) x) =
     complement_if z2 (permute (inv_perm n p2) (permute p1 (complement_if z1 x)))).
  { intros x L. rewrite (permute_comp n) by auto. rewrite !(permute_complement_if n) by (auto; now apply comp_perm_is_perm).
    destruct z1, z2; simpl; rewrite ?complement_involutive; auto. }
  intros y. split.
  - intros Hy. assert (Ly : length y = n) by (destruct Hy; lia).
    assert (Hw : vs a (permute p2 (complement_if z2 y))) by (apply I2; now exists y).
    apply I1 in Hw. destruct Hw as (x & Hx & Ex). exists x. split; auto. assert (Lx : length x = n) by (destruct Hx; auto).
    rewrite Key by auto. rewrite <- Ex, permute_inv by (auto; now rewrite complement_if_length). now rewrite complement_if_invol.
  - intros (x & Hx & ->). assert (Lx : length x = n) by (destruct Hx; auto). rewrite Key by auto.
    assert (Hw : vs a (permute p1 (complement_if z1 x))) by (apply I1; now exists x).
    apply I2 in Hw. destruct Hw as (w & Hw & Ew). assert (Lw : length w = n) by (destruct Hw; lia).
    rewrite Ew, permute_inv by (auto; now rewrite complement_if_length). now rewrite complement_if_invol.
Qed.
Print Assumptions C07_canonicalize_separates.

(* canonicalizing twice changes nothing *)
Theorem C07_canonicalize_idempotent : forall hash s inversion t r, wf s -> channels s <= MAX_CHANNELS ->
  canonicalize hash s inversion = Some (t, r) -> option_map fst (canonicalize hash t inversion) = Some t.
Proof.
  intros hash s inversion t r W M E.
  destruct (C06_canonicalize_isomorphic hash s inversion W M) as (t' & z & p & E' & Wt & Ct & P & Iso & Hz).
  rewrite E in E'. injection E' as <- ->.
  destruct (C06_canonicalize_isomorphic hash t inversion Wt ltac:(lia)) as (t2 & z2 & p2 & E2 & _).
  rewrite E2. simpl. f_equal. symmetry.
  now apply (C07_canonicalize_canonical hash s t inversion z p _ _ W Wt Ct M P Iso Hz E E2).
Qed.
Print Assumptions C07_canonicalize_idempotent.

(* can_b is isomorphic to can_a, but different; both have the same canonical set, with two hash functions *)
Example C07_case : is_perm 5 [3; 4; 2; 0; 1] /\ channels can_a = 5 /\ channels can_b = 5 /\
  os_eqb can_b (invert (swap_channels (swap_channels can_a 0 3) 1 4)) = true /\ os_eqb can_a can_b = false /\
  option_map fst (canonicalize hash_mix can_a true) = option_map fst (canonicalize hash_mix can_b true) /\
  option_map fst (canonicalize hash_const can_a true) = option_map fst (canonicalize hash_const can_b true) /\
  option_map (fun r => os_eqb (fst r) can_a) (canonicalize hash_mix can_a true) = Some false.
Proof.
  split. { unfold is_perm. apply NoDup_Permutation. repeat constructor; simpl; intuition discriminate. apply seq_NoDup. intros x. simpl. intuition. }
  repeat split; vm_compute; reflexivity.
Qed.

(* without inversion the two are told apart *)
Example C07_case_separates :
  match canonicalize hash_mix can_a false, canonicalize hash_mix can_b false with
  | Some a, Some b => os_eqb (fst a) (fst b) = false
  | _, _ => False
  end.
Proof. vm_compute. reflexivity. Qed.
