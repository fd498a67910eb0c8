(* Bit-level lemmas: vectors as bitmap indices, the strided loops, population count.
   [idx], [vec_of] are proof-side definitions (vectors <-> indices of the Rust bitmaps). *)
From Coq Require Import List Arith Bool Lia Permutation.
Import ListNotations.
From Verif Require Import Spec Vec.

(* ---------- index of a vector ---------- *)

Fixpoint idx (x : vec) : nat :=
  match x with
  | [] => 0
  | b :: r => Nat.b2n b + 2 * idx r
  end.

Definition vec_of (n v : nat) : vec := map (Nat.testbit v) (seq 0 n).

Lemma testbit_b2n_S b a i : Nat.testbit (Nat.b2n b + 2 * a) (S i) = Nat.testbit a i.
Proof.
  change (Nat.testbit (Nat.div2 (Nat.b2n b + 2 * a)) i = Nat.testbit a i).
  f_equal. rewrite Nat.add_comm. rewrite Nat.div2_div, Nat.mul_comm.
  destruct b; simpl Nat.b2n.
  - rewrite Nat.div_add_l by lia. simpl. lia.
  - rewrite Nat.add_0_r, Nat.div_mul; lia.
Qed.

Lemma testbit_b2n_0 b a : Nat.testbit (Nat.b2n b + 2 * a) 0 = b.
Proof. apply Nat.add_b2n_double_bit0. Qed.

Lemma testbit_idx x i : Nat.testbit (idx x) i = bit x i.
Proof.
  revert i; induction x as [|b x IH]; intros [|i]; cbn [idx].
  - apply Nat.bits_0.
  - apply Nat.bits_0.
  - rewrite testbit_b2n_0. reflexivity.
  - rewrite testbit_b2n_S, IH. reflexivity.
Qed.

Lemma idx_lt x : idx x < 2 ^ length x.
Proof. induction x as [|b x IH]; simpl; [lia|]. destruct b; simpl; lia. Qed.

Lemma vec_of_length n v : length (vec_of n v) = n.
Proof. unfold vec_of. now rewrite map_length, seq_length. Qed.

Lemma bit_vec_of n v i : bit (vec_of n v) i = if i <? n then Nat.testbit v i else false.
Proof.
  destruct (i <? n) eqn:E.
  - apply Nat.ltb_lt in E. unfold vec_of, bit. now rewrite nth_map_seq.
  - apply Nat.ltb_ge in E. apply bit_out. now rewrite vec_of_length.
Qed.

Lemma testbit_high v n i : v < 2 ^ n -> n <= i -> Nat.testbit v i = false.
Proof.
  intros H Hi. destruct v as [|v]; [apply Nat.bits_0|]. apply Nat.bits_above_log2.
  apply Nat.log2_lt_pow2 in H; lia.
Qed.

Lemma nat_ext_bits a b : (forall i, Nat.testbit a i = Nat.testbit b i) -> a = b.
Proof. intros H. apply Nat.bits_inj. intros i. apply H. Qed.

Lemma nat_ext_lt n a b : a < 2 ^ n -> b < 2 ^ n ->
  (forall i, i < n -> Nat.testbit a i = Nat.testbit b i) -> a = b.
Proof.
  intros Ha Hb H. apply nat_ext_bits. intros i. destruct (lt_dec i n); auto.
  rewrite !(testbit_high _ n) by (auto; lia). auto.
Qed.

Lemma idx_vec_of n v : v < 2 ^ n -> idx (vec_of n v) = v.
Proof.
  intros H. apply (nat_ext_lt n); auto.
  - pose proof (idx_lt (vec_of n v)) as L. now rewrite vec_of_length in L.
  - intros i Hi. rewrite testbit_idx, bit_vec_of. apply Nat.ltb_lt in Hi. now rewrite Hi.
Qed.

Lemma vec_of_idx x : vec_of (length x) (idx x) = x.
Proof.
  apply vec_ext; rewrite vec_of_length; auto. intros i Hi. rewrite bit_vec_of.
  apply Nat.ltb_lt in Hi. rewrite Hi. apply testbit_idx.
Qed.

Lemma idx_inj x y : length x = length y -> idx x = idx y -> x = y.
Proof. intros L E. rewrite <- (vec_of_idx x), <- (vec_of_idx y). now rewrite L, E. Qed.

Lemma pow2_testbit c i : Nat.testbit (2 ^ c) i = (c =? i).
Proof. apply Nat.pow2_bits_eqb. Qed.

Lemma pow2_lt_pow2 c n : c < n -> 2 ^ c < 2 ^ n.
Proof. intros. apply Nat.pow_lt_mono_r; lia. Qed.

Lemma bits_lt n v : (forall i, n <= i -> Nat.testbit v i = false) -> v < 2 ^ n.
Proof.
  intros H. destruct v as [|v]. apply Nat.neq_0_lt_0, Nat.pow_nonzero; lia.
  apply Nat.log2_lt_pow2; [lia|]. apply Nat.nle_gt. intros L.
  assert (Nat.testbit (S v) (Nat.log2 (S v)) = true) by (apply Nat.bit_log2; lia).
  rewrite H in H0; auto. discriminate.
Qed.

Lemma lxor_lt n a b : a < 2 ^ n -> b < 2 ^ n -> Nat.lxor a b < 2 ^ n.
Proof.
  intros Ha Hb. apply bits_lt. intros i Hi. rewrite Nat.lxor_spec, !(testbit_high _ n) by auto. auto.
Qed.

Lemma lor_lt n a b : a < 2 ^ n -> b < 2 ^ n -> Nat.lor a b < 2 ^ n.
Proof.
  intros Ha Hb. apply bits_lt. intros i Hi. rewrite Nat.lor_spec, !(testbit_high _ n) by auto. auto.
Qed.

Lemma land_lt n a b : a < 2 ^ n -> Nat.land a b < 2 ^ n.
Proof.
  intros Ha. apply bits_lt. intros i Hi. rewrite Nat.land_spec, (testbit_high a n) by auto. auto.
Qed.

Lemma idx_upd x i v : i < length x ->
  idx (upd x i v) = if eqb v (bit x i) then idx x else Nat.lxor (idx x) (2 ^ i).
Proof.
  intros Hi. apply nat_ext_bits. intros j. rewrite testbit_idx, bit_upd.
  apply Nat.ltb_lt in Hi. rewrite Hi, andb_true_r.
  destruct (eqb v (bit x i)) eqn:E.
  - apply eqb_prop in E. subst v. rewrite testbit_idx. destruct (j =? i) eqn:F; auto.
    apply Nat.eqb_eq in F. now subst.
  - rewrite Nat.lxor_spec, testbit_idx, pow2_testbit. rewrite (Nat.eqb_sym i j).
    destruct (j =? i) eqn:F; [|now rewrite xorb_false_r]. apply Nat.eqb_eq in F. subst.
    destruct v, (bit x i); auto; discriminate.
Qed.

(* ---------- the strided loop ---------- *)

Definition has_mask (mask v : nat) : bool := Nat.land v mask =? mask.

Lemma has_mask_spec mask v :
  has_mask mask v = true <-> (forall i, Nat.testbit mask i = true -> Nat.testbit v i = true).
Proof.
  unfold has_mask. rewrite Nat.eqb_eq. split.
  - intros H i Hi. rewrite <- H in Hi. rewrite Nat.land_spec in Hi. now apply andb_true_iff in Hi.
  - intros H. apply nat_ext_bits. intros i. rewrite Nat.land_spec.
    destruct (Nat.testbit mask i) eqn:E; [|apply andb_false_r]. rewrite (H i E). auto.
Qed.

Lemma nat_split v : exists a v', v = Nat.b2n a + 2 * v'.
Proof. exists (Nat.odd v), (Nat.div2 v). rewrite Nat.add_comm. apply Nat.div2_odd. Qed.

Lemma lor_split a v b w :
  Nat.lor (Nat.b2n a + 2 * v) (Nat.b2n b + 2 * w) = Nat.b2n (a || b) + 2 * Nat.lor v w.
Proof.
  apply nat_ext_bits. intros [|i].
  - now rewrite Nat.lor_spec, !testbit_b2n_0.
  - now rewrite Nat.lor_spec, !testbit_b2n_S, Nat.lor_spec.
Qed.

Lemma lor_absorb mask v : (forall i, Nat.testbit mask i = true -> Nat.testbit v i = true) -> Nat.lor v mask = v.
Proof.
  intros H. apply nat_ext_bits. intros i. rewrite Nat.lor_spec.
  destruct (Nat.testbit mask i) eqn:E; [rewrite (H i E)|]; auto using orb_false_r.
Qed.

(* nothing containing the mask lies strictly between index and the next index of the loop *)
Lemma stride_next : forall w mask v, v < w ->
  (forall i, Nat.testbit mask i = true -> Nat.testbit v i = true) ->
  (forall i, Nat.testbit mask i = true -> Nat.testbit w i = true) ->
  Nat.lor (v + 1) mask <= w.
Proof.
  induction w as [w IH] using lt_wf_ind. intros mask v Hlt Hv Hw.
  destruct (nat_split w) as (c & w' & Ew), (nat_split v) as (a & v' & Ev), (nat_split mask) as (b & m' & Em).
  assert (Hv' : forall i, Nat.testbit m' i = true -> Nat.testbit v' i = true).
  { intros i Hi. specialize (Hv (S i)). rewrite Ev, Em, !testbit_b2n_S in Hv. auto. }
  assert (Hw' : forall i, Nat.testbit m' i = true -> Nat.testbit w' i = true).
  { intros i Hi. specialize (Hw (S i)). rewrite Ew, Em, !testbit_b2n_S in Hw. auto. }
  assert (Ba : b = true -> a = true).
  { intros Hb. specialize (Hv 0). rewrite Ev, Em, !testbit_b2n_0 in Hv. auto. }
  assert (Bc : b = true -> c = true).
  { intros Hb. specialize (Hw 0). rewrite Ew, Em, !testbit_b2n_0 in Hw. auto. }
  destruct a.
  - (* v odd *)
    replace (v + 1) with (Nat.b2n false + 2 * (v' + 1)) by (simpl Nat.b2n in *; lia).
    rewrite Em, lor_split, orb_false_l.
    assert (v' < w') by (destruct c; simpl Nat.b2n in *; lia).
    specialize (IH w' ltac:(lia) m' v' ltac:(lia) Hv' Hw').
    destruct b; simpl Nat.b2n in *; [rewrite Bc in Ew by auto; simpl Nat.b2n in Ew|]; lia.
  - replace (v + 1) with (Nat.b2n true + 2 * v') by (simpl Nat.b2n in *; lia).
    rewrite Em, lor_split. rewrite lor_absorb by auto. simpl Nat.b2n. rewrite Ev in Hlt. simpl Nat.b2n in Hlt.
    lia.
Qed.

Lemma filter_none {A} (f : A -> bool) l : (forall x, In x l -> f x = false) -> filter f l = [].
Proof.
  induction l as [|a l IH]; simpl; intros H; auto. rewrite H by auto. apply IH. auto.
Qed.

Lemma filter_seq_skip (f : nat -> bool) a b len : a <= b -> b <= a + len ->
  (forall k, a <= k < b -> f k = false) -> filter f (seq a len) = filter f (seq b (a + len - b)).
Proof.
  intros H1 H2 H. replace len with ((b - a) + (a + len - b)) at 1 by lia.
  rewrite seq_app, filter_app. rewrite filter_none.
  - replace (a + (b - a)) with b by lia. auto.
  - intros k Hk. apply in_seq in Hk. apply H. lia.
Qed.

