(* Properties C08, C09, C10: the subsumption test and the abstraction (subsume.rs, output_set.rs). *)
From Coq Require Import List Arith Bool Lia Permutation.
Import ListNotations.
From Verif Require Import Spec Vec Net Bits Util OutputSetModel OutputSetProofs CountProofs PropOutputSet
  AbsProofs AbsFull SubsumeModel SubsumeProofs SubsumeSearch.

(* ---------- C08 ---------- *)

Theorem C08_subsumes_permuted_sound : forall a b p, wf a -> wf b -> channels a = channels b -> channels a <= MAX_CHANNELS ->
  subsumes_permuted a b = Some (Some p) ->
  is_perm (channels a) p /\ subsumes_by false p (vs a) (vs b).
Proof.
  intros a b p Wa Wb C M E. destruct (subsumes_permuted_spec (channels a) a b Wa Wb eq_refl (eq_sym C) M) as (res & E' & R).
  rewrite E in E'. injection E' as <-. destruct R as (P & R). split; auto.
Qed.
Print Assumptions C08_subsumes_permuted_sound.

(* the sets reachable after [(1,0)(3,2)], and after [(1,0)] with the channels renamed *)
Definition sub_a : OutputSet := ex4.
Definition sub_b : OutputSet := swap_channels (fst (apply_comparator (all_values 4) 1 0)) 1 2.

Example C08_case : wf sub_a /\ wf sub_b /\ channels sub_a = channels sub_b /\ channels sub_a <= MAX_CHANNELS /\
  subsumes_permuted sub_a sub_b <> Some None /\ subsumes_permuted sub_b sub_a = Some None /\
  subsumes_unpermuted sub_a sub_b = false /\ os_len sub_a < os_len sub_b.
Proof. unfold wf, MAX_CHANNELS. vm_compute. repeat split; try discriminate; repeat constructor. Qed.

(* ---------- C09 ---------- *)

(* the search ends and does not panic on any pair of sets, and it finds a permutation whenever there
   is one *)
Theorem C09_subsumes_permuted_complete : forall a b, wf a -> wf b -> channels a = channels b -> channels a <= MAX_CHANNELS ->
  exists res, subsumes_permuted a b = Some res /\
    forall p, is_perm (channels a) p -> subsumes_by false p (vs a) (vs b) -> res <> None.
Proof.
  intros a b Wa Wb C M. destruct (subsumes_permuted_spec (channels a) a b Wa Wb eq_refl (eq_sym C) M) as (res & E & R).
  exists res. split; auto. intros p P S ->. apply (R p). split; auto.
Qed.
Print Assumptions C09_subsumes_permuted_complete.

Example C09_case : is_perm 4 [0; 2; 1; 3] /\ channels sub_a = 4 /\ subsumes_permuted sub_a sub_b = Some (Some [0; 2; 1; 3]).
Proof. split; [|split; vm_compute; reflexivity]. unfold is_perm. simpl. apply perm_skip, perm_swap. Qed.

(* ---------- C10 ---------- *)

Theorem C10_abstraction_monotone : forall inv p a b, wf a -> wf b -> channels a = channels b -> 0 < channels a ->
  is_perm (channels a) p -> subsumes_by inv p (vs a) (vs b) ->
  length (abstraction a) = length (abstraction b) /\
  forall i, i < length (abstraction a) ->
    (if inv then Nat.lxor i 3 else i) < length (abstraction b) /\
    nth i (abstraction a) 0 <= nth (if inv then Nat.lxor i 3 else i) (abstraction b) 0.
Proof.
  intros inv p a b Wa Wb C H P S. apply (abstraction_mono inv p a b); auto. unfold subsumed. auto.
Qed.
Print Assumptions C10_abstraction_monotone.

(* so the abstraction is the same for isomorphic sets *)
Theorem C10_abstraction_invariant : forall p a b, wf a -> wf b -> channels a = channels b -> 0 < channels a ->
  is_perm (channels a) p -> isomorphic_by false p (vs a) (vs b) -> abstraction a = abstraction b.
Proof.
  intros p a b Wa Wb C H P I.
  assert (S1 : subsumes_by false p (vs a) (vs b)). { intros x Hx. apply I. exists x. auto. }
  assert (S2 : subsumes_by false (inv_perm (channels a) p) (vs b) (vs a)).
  { intros y Hy. apply I in Hy. destruct Hy as (x & Hx & ->). cbn [complement_if]. rewrite permute_inv; auto. apply Hx. }
  destruct (C10_abstraction_monotone false p a b Wa Wb C H P S1) as (L & M1).
  destruct (C10_abstraction_monotone false (inv_perm (channels a) p) b a Wb Wa (eq_sym C) ltac:(lia)) as (_ & M2); [rewrite <- C; now apply inv_perm_is_perm|auto|].
  apply nth_ext_lt with (d := 0); auto. intros i Hi. destruct (M1 i Hi) as (_ & Q1). destruct (M2 i) as (_ & Q2). lia. lia.
Qed.
Print Assumptions C10_abstraction_invariant.

Lemma abstraction_le : forall s i, wf s -> 0 < channels s -> nth i (abstraction s) 0 <= 2 ^ channels s.
Proof.
  intros s i W H. destruct (abstraction_layout s H) as (L & N). destruct (le_lt_dec (length (abstraction s)) i) as [Hi|Hi].
  { rewrite nth_overflow by auto. lia. }
  rewrite L in Hi. set (n := channels s) in *.
  set (k := i / (n * 4)). set (r := i mod (n * 4)). assert (Ep : i = k * (n * 4) + r) by (unfold k, r; rewrite (Nat.mul_comm (i / (n * 4))); apply Nat.div_mod; lia).
  assert (Hr : r < n * 4) by (apply Nat.mod_upper_bound; lia). assert (Hk : k < n - 1) by (apply Nat.div_lt_upper_bound; lia).
  set (j := r / 4). set (g := r mod 4). assert (Er : r = 4 * j + g) by (apply Nat.div_mod; lia).
  assert (Hg : g < 4) by (apply Nat.mod_upper_bound; lia). assert (Hj : j < n) by (apply Nat.div_lt_upper_bound; lia).
  replace i with (k * (n * 4) + (g + 4 * j)) by lia. rewrite N by auto.
  assert (In (nth j (column s g k) 0) (column s g k)) as Q by (apply nth_In; rewrite column_length; auto).
  revert Q. generalize (nth j (column s g k) 0) as v. intros v Q. unfold column in Q. apply isort_In in Q. apply in_map_iff in Q. destruct Q as (c & <- & Hc). apply in_seq in Hc. fold n in Hc.
  assert (In (nth k (nth g (channel_groups s c) []) 0) (nth g (channel_groups s c) [])) as Q by (apply nth_In; rewrite group_length; fold n; lia).
  revert Q. generalize (nth k (nth g (channel_groups s c) []) 0) as v. intros v Q. rewrite groups_nth in Q by auto. apply isort_In in Q. apply in_map_iff in Q. destruct Q as (o & <- & _).
  unfold pair_value. change (2 ^ n) with (2 ^ channels s). rewrite <- W. apply (Nat.le_trans _ (length (strided (length (bitmap s)) (Nat.lor (2 ^ c) (2 ^ o))))).
  - induction (strided (length (bitmap s)) (Nat.lor (2 ^ c) (2 ^ o))) as [|x l IH]; simpl; auto.
    destruct (bget (bitmap s) (Nat.lxor x (gmask c o g))); simpl; lia.
  - rewrite <- (seq_length (length (bitmap s)) 0) at 2. apply NoDup_incl_length. apply strided_NoDup.
    intros x Hx. apply strided_In in Hx. apply in_seq. lia.
Qed.

(* the entries fit the u16 they are stored in *)
Theorem C10_abstraction_fits_u16 : forall s i, wf s -> 0 < channels s -> channels s <= MAX_CHANNELS -> nth i (abstraction s) 0 < 2 ^ 16.
Proof.
  intros s i W H M. apply (Nat.le_lt_trans _ (2 ^ channels s)); [apply abstraction_le; auto|].
  apply Nat.pow_lt_mono_r; unfold MAX_CHANNELS in M; lia.
Qed.
Print Assumptions C10_abstraction_fits_u16.

(* the hypotheses hold with and without complement *)
Example C10_case : exists p q, is_perm 4 p /\ is_perm 4 q /\ subsumes_by false p (vs sub_a) (vs sub_b) /\
  subsumes_by true q (vs (invert sub_a)) (vs sub_b) /\
  firstn 8 (abstraction sub_a) = [3; 2; 2; 3; 3; 2; 2; 3] /\ firstn 8 (abstraction sub_b) = [4; 2; 2; 4; 4; 4; 4; 4].
Proof.
  destruct C09_case as (P & _ & E). exists [0; 2; 1; 3], [0; 2; 1; 3]. destruct C08_case as (W1 & W2 & C & M & _).
  destruct (C08_subsumes_permuted_sound sub_a sub_b _ W1 W2 C M E) as (_ & S).
  split; [exact P|split; [exact P|split; [exact S|split; [|split]]]].
  - clear -S W1. revert S W1. generalize sub_a, sub_b. intros a b S W1 x Hx. apply (invert_vs a W1) in Hx.
    destruct Hx as (y & Hy & ->). cbn [complement_if]. rewrite complement_involutive. exact (S y Hy).
  - vm_compute. reflexivity.
  - vm_compute. reflexivity.
Qed.

(* the index really has to be read at i xor 3 when complemented *)
Definition sub_c : OutputSet := fst (apply_comparator (fst (apply_comparator (all_values 4) 1 0)) 2 0).
Example C10_case_inverted : firstn 8 (abstraction sub_c) = [2; 2; 1; 4; 3; 2; 4; 4] /\
  firstn 8 (abstraction (invert sub_c)) = [4; 1; 2; 2; 4; 4; 2; 3].
Proof. split; vm_compute; reflexivity. Qed.
