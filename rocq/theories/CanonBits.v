(* Masks as sets of channels (for output_set/canon.rs). *)
From Coq Require Import List Arith Bool Lia Permutation.
Import ListNotations.
From Verif Require Import Spec Vec Net Bits Util OutputSetModel OutputSetProofs CountProofs SubsumeModel SubsumeProofs SubsumeSearch.

Lemma clear_lowest_f : forall fuel m i, m <> 0 -> m <= fuel ->
  Nat.testbit (Nat.land m (m - 1)) i = Nat.testbit m i && negb (i =? ctz_f fuel m).
Proof.
  induction fuel as [|f IH]; intros m i H L; [lia|]. cbn [ctz_f].
  destruct (nat_split m) as (a & v & E). destruct a.
  - assert (O : Nat.odd m = true). { rewrite E. rewrite <- Nat.bit0_odd. apply testbit_b2n_0. }
    rewrite O. replace (m - 1) with (Nat.b2n false + 2 * v) by (simpl in *; lia). rewrite E at 1 2. rewrite land_split, Nat.land_diag.
    destruct i as [|i]. now rewrite !testbit_b2n_0. rewrite !testbit_b2n_S. now rewrite andb_true_r.
  - assert (O : Nat.odd m = false). { rewrite E. rewrite <- Nat.bit0_odd. apply testbit_b2n_0. }
    assert (D : Nat.div2 m = v). { rewrite E. simpl Nat.b2n. rewrite Nat.add_0_l. apply Nat.div2_double. }
    rewrite O, D. assert (v <> 0) by (simpl in E; lia). replace (m - 1) with (Nat.b2n true + 2 * (v - 1)) by (simpl in *; lia).
    rewrite E at 1 2. rewrite land_split. destruct i as [|i]. now rewrite !testbit_b2n_0.
    rewrite !testbit_b2n_S. rewrite IH by (simpl in E; lia). reflexivity.
Qed.

Lemma clear_lowest m i : m <> 0 -> Nat.testbit (Nat.land m (m - 1)) i = Nat.testbit m i && negb (i =? ctz m).
Proof. intros H. now apply clear_lowest_f. Qed.

Lemma land_le a : forall b, Nat.land a b <= a.
Proof.
  induction a as [a IH] using lt_wf_ind. intros b. destruct (Nat.eq_dec a 0) as [->|NZ]. now rewrite Nat.land_0_l.
  destruct (nat_split a) as (x & v & E), (nat_split b) as (y & w & E'). rewrite E at 1. rewrite E', land_split.
  assert (v < a) by (destruct x; simpl in E; lia). specialize (IH v H w). rewrite E. destruct x, y; simpl; lia.
Qed.

Lemma clear_lowest_lt m : m <> 0 -> Nat.land m (m - 1) < m.
Proof. intros H. apply (Nat.le_lt_trans _ (m - 1)). rewrite Nat.land_comm. apply land_le. lia. Qed.

Lemma mask_bits_spec : forall fuel m, m <= fuel -> NoDup (mask_bits fuel m) /\ forall d, In d (mask_bits fuel m) <-> Nat.testbit m d = true.
Proof.
  induction fuel as [|f IH]; intros m L.
  { assert (m = 0) by lia. subst. simpl. split. constructor. intros d. rewrite Nat.bits_0. split; [tauto|discriminate]. }
  cbn [mask_bits]. destruct (Nat.eqb_spec m 0) as [->|NZ].
  { split. constructor. intros d. rewrite Nat.bits_0. simpl. split; [tauto|discriminate]. }
  destruct (IH (Nat.land m (m - 1))) as (N & I). { pose proof (clear_lowest_lt m NZ). lia. } split.
  - constructor; auto. rewrite I, clear_lowest, Nat.eqb_refl, andb_false_r by auto. discriminate.
  - intros d. simpl. rewrite I, clear_lowest by auto. split.
    + intros [<-|H]. now apply ctz_bit. apply andb_true_iff in H. tauto.
    + intros H. destruct (Nat.eqb_spec d (ctz m)) as [->|N']; auto. right. now rewrite H.
Qed.

Section Bits.
Variable n : nat.

Definition bits (m : nat) : list nat := filter (Nat.testbit m) (seq 0 n).

Lemma bits_NoDup m : NoDup (bits m).
Proof. apply NoDup_filter, seq_NoDup. Qed.

Lemma bits_In m c : In c (bits m) <-> c < n /\ Nat.testbit m c = true.
Proof. unfold bits. rewrite filter_In, in_seq. intuition lia. Qed.

Lemma testbit_big m i : m < 2 ^ n -> n <= i -> Nat.testbit m i = false.
Proof. intros. now apply (testbit_high m n). Qed.

Lemma mask_bits_perm m : m < 2 ^ n -> Permutation (mask_bits m m) (bits m).
Proof.
  intros H. destruct (mask_bits_spec m m (le_n _)) as (N & I). apply NoDup_Permutation; auto using bits_NoDup.
  intros d. rewrite I, bits_In. split; [|tauto]. intros T. split; auto. destruct (lt_dec d n) as [|G]; auto.
  rewrite testbit_big in T by (auto; lia). discriminate.
Qed.

Lemma weight_map_seq (f : nat -> bool) k : forall a, weight (map f (seq a k)) = length (filter f (seq a k)).
Proof. induction k as [|k IH]; intros a; simpl; auto. rewrite IH. destruct (f a); simpl; auto. Qed.

Lemma count_ones_bits m : m < 2 ^ n -> count_ones m = length (bits m).
Proof. intros H. rewrite (count_ones_vec n) by auto. unfold vec_of, bits. apply weight_map_seq. Qed.

Lemma bits_nonempty m : m < 2 ^ n -> (m <> 0 <-> bits m <> []).
Proof.
  intros H. rewrite nz_bit. split.
  - intros (i & Hi) E. assert (In i (bits m)); [|now rewrite E in *]. apply bits_In. split; auto.
    destruct (lt_dec i n) as [|G]; auto. rewrite testbit_big in Hi by (auto; lia). discriminate.
  - intros E. destruct (bits m) as [|i l] eqn:B; [congruence|]. exists i. assert (In i (bits m)) by (rewrite B; simpl; auto). now apply bits_In in H0.
Qed.

Lemma bits_single m d : m < 2 ^ n -> (bits m = [d] <-> m = 2 ^ d /\ d < n).
Proof.
  intros H. split.
  - intros E. assert (Hd : d < n /\ Nat.testbit m d = true) by (apply bits_In; rewrite E; simpl; auto). split; [|tauto].
    apply only_bits. intros e. destruct (Nat.eqb_spec e d) as [->|N]; [tauto|].
    destruct (Nat.testbit m e) eqn:T; auto. exfalso. assert (In e (bits m)).
    { apply bits_In. split; auto. destruct (lt_dec e n) as [|G]; auto. rewrite testbit_big in T by (auto; lia). discriminate. }
    rewrite E in H0. simpl in H0. intuition.
  - intros (-> & Hd). assert (P : Permutation (bits (2 ^ d)) [d]).
    { apply NoDup_Permutation. apply bits_NoDup. repeat constructor; auto.
      intros x. rewrite bits_In, pow2_testbit, Nat.eqb_eq. simpl. intuition. subst; auto. }
    symmetry in P. now apply Permutation_length_1_inv in P.
Qed.

Lemma is_single_bits m : m < 2 ^ n -> m <> 0 -> is_single m = Some (length (bits m) =? 1).
Proof.
  intros H NZ. destruct (single_cases m NZ) as [(-> & E)|(-> & E)]; f_equal; symmetry.
  - apply Nat.eqb_eq. assert (B : bits m = [ctz m]).
    { apply bits_single; auto. split; auto. destruct (lt_dec (ctz m) n) as [|G]; auto.
      pose proof (ctz_bit m NZ) as T. rewrite testbit_big in T by (auto; lia). discriminate. }
    now rewrite B.
  - apply Nat.eqb_neq. intros L. destruct (bits m) as [|d [|]] eqn:B; try discriminate. apply bits_single in B; auto. destruct B as (B & _). now apply E in B.
Qed.

Lemma single_ctz m : m < 2 ^ n -> m <> 0 -> is_single m = Some true -> bits m = [ctz m].
Proof.
  intros H NZ S. rewrite is_single_bits in S by auto. injection S as S. apply Nat.eqb_eq in S.
  destruct (bits m) as [|d [|]] eqn:B; try discriminate. apply bits_single in B; auto. destruct B as (-> & _). now rewrite ctz_pow2.
Qed.

Lemma bits_lor m c : m < 2 ^ n -> c < n -> Nat.testbit m c = false -> Permutation (bits (Nat.lor m (2 ^ c))) (c :: bits m).
Proof.
  intros H Hc T. apply NoDup_Permutation. apply bits_NoDup. constructor. rewrite bits_In, T. intros (_ & X); discriminate. apply bits_NoDup.
  intros x. simpl. rewrite !bits_In, Nat.lor_spec, pow2_testbit, orb_true_iff, Nat.eqb_eq. intuition; subst; auto.
Qed.

Lemma bits_ldiff m c : m < 2 ^ n -> Nat.testbit m c = true -> Permutation (bits m) (c :: bits (Nat.ldiff m (2 ^ c))).
Proof.
  intros H T. apply NoDup_Permutation. apply bits_NoDup.
  constructor. rewrite bits_In, Nat.ldiff_spec, pow2_testbit, Nat.eqb_refl, andb_false_r. intros (_ & X); discriminate. apply bits_NoDup.
  intros x. simpl. rewrite !bits_In, Nat.ldiff_spec, pow2_testbit, andb_true_iff, negb_true_iff, Nat.eqb_neq.
  destruct (Nat.eq_dec c x) as [->|N]; intuition; subst; auto.
  destruct (lt_dec x n) as [|G]; auto. rewrite testbit_big in T by (auto; lia). discriminate.
Qed.

Lemma ldiff_lt m k : m < 2 ^ n -> Nat.ldiff m k < 2 ^ n.
Proof.
  intros H. apply bits_lt. intros i Hi. now rewrite Nat.ldiff_spec, testbit_big.
Qed.

(* masks related by a renaming *)
Definition pm (sg : list nat) (m1 m2 : nat) : Prop := forall c, c < n -> Nat.testbit m2 c = Nat.testbit m1 (nth c sg 0).

Lemma pm_bits sg m1 m2 : is_perm n sg -> pm sg m1 m2 -> Permutation (map (fun c => nth c sg 0) (bits m2)) (bits m1).
Proof.
  intros P H. apply NoDup_Permutation.
  - apply NoDup_map_on. apply bits_NoDup. intros x y Hx Hy. apply bits_In in Hx, Hy. apply (is_perm_inj n sg); tauto.
  - apply bits_NoDup.
  - intros x. rewrite in_map_iff, bits_In. split.
    + intros (c & <- & Hc). apply bits_In in Hc. destruct Hc as (Hc & T). rewrite H in T by auto. split; auto. now apply is_perm_nth.
    + intros (Hx & T). destruct (is_perm_surj n sg x P Hx) as (c & Hc & <-). exists c. split; auto. apply bits_In. split; auto. now rewrite H.
Qed.

Lemma pm_length sg m1 m2 : is_perm n sg -> pm sg m1 m2 -> length (bits m1) = length (bits m2).
Proof. intros P H. rewrite <- (Permutation_length (pm_bits sg m1 m2 P H)). apply map_length. Qed.

End Bits.
