(* Proofs about OutputSetModel.v: the bitmap functions compute the intended operations on sets of
   vectors. *)
From Coq Require Import List Arith Bool Lia Permutation.
Import ListNotations.
From Verif Require Import Spec Vec Net Graded Bits Util OutputSetModel.

(* The set of vectors a bitmap stands for. *)
Definition vs (s : OutputSet) : vset :=
  fun x => length x = channels s /\ bget (bitmap s) (idx x) = true.

Definition wf (s : OutputSet) : Prop := length (bitmap s) = 2 ^ channels s.

Lemma vs_width s : width (channels s) (vs s).
Proof. intros x Hx; apply Hx. Qed.

Lemma vs_vec_of s v : v < 2 ^ channels s -> (vs s (vec_of (channels s) v) <-> bget (bitmap s) v = true).
Proof.
  intros H. unfold vs. rewrite vec_of_length, idx_vec_of by auto. tauto.
Qed.

Lemma os_ext s t : wf s -> wf t -> channels s = channels t -> same_set (vs s) (vs t) -> s = t.
Proof.
  destruct s as [n bm], t as [m bm']. unfold wf; simpl. intros Ws Wt -> E. f_equal.
  apply nth_ext_lt with (d := false). congruence.
  rewrite Ws. intros v Hv.
  pose proof (vs_vec_of (mkOutputSet m bm) v Hv) as A. pose proof (vs_vec_of (mkOutputSet m bm') v Hv) as B.
  simpl in *. rewrite <- (E (vec_of m v)) in B. unfold bget in *.
  destruct (nth v bm false), (nth v bm' false); auto; intuition congruence.
Qed.

Lemma vs_dec s x : {vs s x} + {~ vs s x}.
Proof.
  unfold vs. destruct (Nat.eq_dec (length x) (channels s)); [|right; tauto].
  destruct (bool_dec (bget (bitmap s) (idx x)) true); [left|right]; tauto.
Qed.

Lemma wf_pos s : wf s -> 0 < length (bitmap s).
Proof. intros ->. apply Nat.neq_0_lt_0, Nat.pow_nonzero. lia. Qed.

(* ---------- strided ---------- *)

Lemma bits_le : forall b a, (forall i, Nat.testbit a i = true -> Nat.testbit b i = true) -> a <= b.
Proof.
  intros b. induction b as [b IH] using lt_wf_ind. intros a H.
  destruct (nat_split a) as (p & a' & ->). destruct (nat_split b) as (q & b' & ->).
  destruct (Nat.eq_dec a' 0) as [->|Ha].
  - destruct p; [|simpl; lia]. specialize (H 0). rewrite !testbit_b2n_0 in H. specialize (H eq_refl). subst q. simpl. lia.
  - assert (a' <= b').
    { destruct (Nat.eq_dec b' 0) as [->|Hb].
      - exfalso. apply Ha. apply nat_ext_bits. intros i. rewrite Nat.bits_0.
        specialize (H (S i)). rewrite !testbit_b2n_S, Nat.bits_0 in H.
        destruct (Nat.testbit a' i); auto. symmetry; auto.
      - apply IH. destruct q; simpl; lia. intros i Hi. specialize (H (S i)).
        rewrite !testbit_b2n_S in H. auto. }
    specialize (H 0). rewrite !testbit_b2n_0 in H.
    destruct p, q; simpl; try lia.
Qed.

Lemma lor_ge a b : a <= Nat.lor a b.
Proof. apply bits_le. intros i H. now rewrite Nat.lor_spec, H. Qed.

Lemma strided_from_spec size mask : forall fuel index,
  has_mask mask index = true -> size <= fuel + index ->
  strided_from fuel size mask index = filter (has_mask mask) (seq index (size - index)).
Proof.
  induction fuel as [|f IH]; intros index Hm Hf; simpl.
  - replace (size - index) with 0 by lia. auto.
  - destruct (index <? size) eqn:E.
    + apply Nat.ltb_lt in E. replace (size - index) with (S (size - index - 1)) by lia.
      cbn [seq filter]. rewrite Hm. f_equal.
      set (next := Nat.lor (index + 1) mask).
      assert (Hn : has_mask mask next = true).
      { apply has_mask_spec. intros i Hi. unfold next. rewrite Nat.lor_spec, Hi. apply orb_true_r. }
      assert (Hge : index + 1 <= next).
      { unfold next. apply lor_ge. }
      rewrite IH by (auto; lia).
      assert (Hno : forall k, index + 1 <= k < next -> has_mask mask k = false).
      { intros k Hk. destruct (has_mask mask k) eqn:F; auto. exfalso.
        pose proof (proj1 (has_mask_spec mask index) Hm) as Hm2. pose proof (proj1 (has_mask_spec mask k) F) as F2.
        assert (next <= k); [|lia]. apply stride_next; auto. lia. }
      replace (S index) with (index + 1) by lia.
      destruct (le_lt_dec next size).
      * symmetry. rewrite filter_seq_skip with (b := next); try lia; auto. f_equal. f_equal. lia.
      * replace (size - next) with 0 by lia. symmetry. apply filter_none.
        intros k Hk. apply in_seq in Hk. apply Hno. lia.
    + apply Nat.ltb_ge in E. replace (size - index) with 0 by lia. auto.
Qed.

Lemma has_mask_ge mask v : has_mask mask v = true -> mask <= v.
Proof.
  intros H. apply bits_le. now apply has_mask_spec.
Qed.

Lemma strided_spec size mask : strided size mask = filter (has_mask mask) (seq 0 size).
Proof.
  unfold strided. rewrite strided_from_spec by (try lia; unfold has_mask; rewrite Nat.land_diag; apply Nat.eqb_refl).
  symmetry. destruct (le_lt_dec mask size).
  - rewrite filter_seq_skip with (b := mask); try lia. f_equal.
    intros k Hk. destruct (has_mask mask k) eqn:F; auto. apply has_mask_ge in F. lia.
  - replace (size - mask) with 0 by lia. apply filter_none. intros k Hk. apply in_seq in Hk.
    destruct (has_mask mask k) eqn:F; auto. apply has_mask_ge in F. lia.
Qed.

Lemma strided_In size mask i : In i (strided size mask) <-> i < size /\ has_mask mask i = true.
Proof. rewrite strided_spec, filter_In, in_seq. intuition lia. Qed.

Lemma strided_NoDup size mask : NoDup (strided size mask).
Proof. rewrite strided_spec. apply NoDup_filter, seq_NoDup. Qed.

Lemma has_mask_pow2 c v : has_mask (2 ^ c) v = Nat.testbit v c.
Proof.
  apply eq_true_iff_eq. rewrite has_mask_spec. split.
  - intros H. apply H. apply Nat.pow2_bits_true.
  - intros H i Hi. rewrite pow2_testbit in Hi. apply Nat.eqb_eq in Hi. now subst.
Qed.

Lemma has_mask_pow2_2 a b v : has_mask (Nat.lor (2 ^ a) (2 ^ b)) v = Nat.testbit v a && Nat.testbit v b.
Proof.
  apply eq_true_iff_eq. rewrite has_mask_spec, andb_true_iff. split.
  - intros H. split; apply H; rewrite Nat.lor_spec, Nat.pow2_bits_true; auto using orb_true_r.
  - intros [H1 H2] i Hi. rewrite Nat.lor_spec, !pow2_testbit in Hi. apply orb_true_iff in Hi.
    destruct Hi as [Hi|Hi]; apply Nat.eqb_eq in Hi; now subst.
Qed.

(* ---------- bit tricks ---------- *)

Lemma lxor_pow2_testbit v c i : Nat.testbit (Nat.lxor v (2 ^ c)) i = xorb (Nat.testbit v i) (c =? i).
Proof. now rewrite Nat.lxor_spec, pow2_testbit. Qed.

Lemma bget_upd bm i v k : bget (upd bm i v) k = if (k =? i) && (i <? length bm) then v else bget bm k.
Proof. apply upd_nth. Qed.

Lemma lxor_inj_r a b m : Nat.lxor a m = Nat.lxor b m -> a = b.
Proof.
  intros H. apply (f_equal (fun v => Nat.lxor v m)) in H.
  now rewrite !Nat.lxor_assoc, !Nat.lxor_nilpotent, !Nat.lxor_0_r in H.
Qed.

Lemma lxor_lxor v m : Nat.lxor (Nat.lxor v m) m = v.
Proof. now rewrite Nat.lxor_assoc, Nat.lxor_nilpotent, Nat.lxor_0_r. Qed.

Lemma lor_pow2_lxor a b : a <> b -> Nat.lor (2 ^ a) (2 ^ b) = Nat.lxor (2 ^ a) (2 ^ b).
Proof.
  intros H. apply nat_ext_bits. intros i. rewrite Nat.lor_spec, Nat.lxor_spec, !pow2_testbit.
  destruct (a =? i) eqn:E1, (b =? i) eqn:E2; auto. rewrite Nat.eqb_eq in *. congruence.
Qed.

(* ---------- the pairwise update loop, shared by apply_comparator and swap_channels ---------- *)

Section PairLoop.
Variables (c0 c1 n : nat) (f0 f1 : bool -> bool -> bool).
Hypothesis Hne : c0 <> c1.
Hypothesis H0 : c0 < n.
Hypothesis H1 : c1 < n.

(* positions index^m0 (bit c0 clear, c1 set) and index^m1 (bit c0 set, c1 clear) *)
Let m0 := 2 ^ c0.
Let m1 := 2 ^ c1.
Let m := Nat.lor m0 m1.

Definition pair_body (bm : list bool) (index : nat) : list bool :=
  let u := bget bm (Nat.lxor index m0) in
  let v := bget bm (Nat.lxor index m1) in
  upd (upd bm (Nat.lxor index m0) (f0 u v)) (Nat.lxor index m1) (f1 u v).

Definition pair_result (bm : list bool) (k : nat) : bool :=
  if negb (Nat.testbit k c0) && Nat.testbit k c1 then f0 (bget bm k) (bget bm (Nat.lxor k m))
  else if Nat.testbit k c0 && negb (Nat.testbit k c1) then f1 (bget bm (Nat.lxor k m)) (bget bm k)
  else bget bm k.

Lemma m_lxor : m = Nat.lxor m0 m1.
Proof. unfold m, m0, m1. now apply lor_pow2_lxor. Qed.

Lemma m0_lt : m0 < 2 ^ n. Proof. unfold m0. now apply pow2_lt_pow2. Qed.
Lemma m1_lt : m1 < 2 ^ n. Proof. unfold m1. now apply pow2_lt_pow2. Qed.

Lemma pos_neq i j : Nat.testbit i c0 = true -> Nat.testbit i c1 = true ->
  Nat.testbit j c0 = true -> Nat.testbit j c1 = true -> Nat.lxor i m0 <> Nat.lxor j m1.
Proof.
  intros Hi0 Hi1 Hj0 Hj1 E. apply (f_equal (fun v => Nat.testbit v c0)) in E.
  unfold m0, m1 in E. rewrite !lxor_pow2_testbit, Hi0, Hj0, Nat.eqb_refl in E.
  destruct (c1 =? c0) eqn:F. apply Nat.eqb_eq in F; congruence. discriminate.
Qed.

Lemma pair_body_length bm i : length (pair_body bm i) = length bm.
Proof. unfold pair_body. now rewrite !upd_length. Qed.

Lemma pair_loop_length l bm : length (fold_left pair_body l bm) = length bm.
Proof. revert bm; induction l; intros; simpl; auto. now rewrite IHl, pair_body_length. Qed.

Lemma pair_loop l : forall bm, length bm = 2 ^ n -> NoDup l ->
  (forall i, In i l -> i < 2 ^ n /\ Nat.testbit i c0 = true /\ Nat.testbit i c1 = true) ->
  forall k, k < 2 ^ n ->
  bget (fold_left pair_body l bm) k =
  if existsb (Nat.eqb (Nat.lor k m)) l then pair_result bm k else bget bm k.
Proof.
  induction l as [|i l IH]; intros bm Hl Hd Hin k Hk; auto.
  apply NoDup_cons_iff in Hd. destruct Hd as [Hni Hd].
  cbn [fold_left]. rewrite IH; auto.
  2: now rewrite pair_body_length. 2: intros; apply Hin; now right.
  destruct (Hin i (or_introl eq_refl)) as (Hi & Hi0 & Hi1).
  assert (P0 : Nat.lxor i m0 < 2 ^ n) by (apply lxor_lt; auto using m0_lt).
  assert (P1 : Nat.lxor i m1 < 2 ^ n) by (apply lxor_lt; auto using m1_lt).
  assert (B : forall q, bget (pair_body bm i) q =
    if q =? Nat.lxor i m1 then f1 (bget bm (Nat.lxor i m0)) (bget bm (Nat.lxor i m1))
    else if q =? Nat.lxor i m0 then f0 (bget bm (Nat.lxor i m0)) (bget bm (Nat.lxor i m1))
    else bget bm q).
  { intros q. unfold pair_body. rewrite !bget_upd, upd_length, Hl.
    apply Nat.ltb_lt in P0, P1. now rewrite P0, P1, !andb_true_r. }
  assert (T0 : Nat.testbit m0 c0 = true) by apply Nat.pow2_bits_true.
  assert (T1 : Nat.testbit m1 c1 = true) by apply Nat.pow2_bits_true.
  assert (T01 : Nat.testbit m0 c1 = false) by (apply Nat.pow2_bits_false; auto).
  assert (T10 : Nat.testbit m1 c0 = false) by (apply Nat.pow2_bits_false; auto).
  (* k at one of the two positions of i, or its key differs from i *)
  destruct (Nat.eq_dec (Nat.lor k m) i) as [Ek|Ek].
  - (* key k = i *)
    assert (X0 : existsb (Nat.eqb (Nat.lor k m)) l = false).
    { destruct (existsb (Nat.eqb (Nat.lor k m)) l) eqn:E; auto. exfalso.
      apply existsb_exists in E. destruct E as (j & Hj & E). apply Nat.eqb_eq in E. apply Hni. congruence. }
    cbn [existsb]. rewrite X0. rewrite Ek at 1. rewrite Nat.eqb_refl. cbn [orb].
    rewrite B.
    assert (Q1 : (k =? Nat.lxor i m1) = Nat.testbit k c0 && negb (Nat.testbit k c1)).
    { apply eq_true_iff_eq. rewrite Nat.eqb_eq, andb_true_iff, negb_true_iff. split.
      - intros E. rewrite E. unfold m1. rewrite !lxor_pow2_testbit, Hi0, Hi1, Nat.eqb_refl.
        destruct (c1 =? c0) eqn:F; auto. apply Nat.eqb_eq in F; congruence.
      - intros [E1 E2]. rewrite <- Ek. apply nat_ext_bits. intros q.
        rewrite Nat.lxor_spec. unfold m. rewrite !Nat.lor_spec. unfold m0, m1.
        rewrite !pow2_testbit. destruct (c0 =? q) eqn:F0, (c1 =? q) eqn:F1; rewrite ?Nat.eqb_eq in *; subst;
        try congruence; try rewrite E1; try rewrite E2; auto; destruct (Nat.testbit k q); auto. }
    assert (Q0 : (k =? Nat.lxor i m0) = negb (Nat.testbit k c0) && Nat.testbit k c1).
    { apply eq_true_iff_eq. rewrite Nat.eqb_eq, andb_true_iff, negb_true_iff. split.
      - intros E. rewrite E. unfold m0. rewrite !lxor_pow2_testbit, Hi0, Hi1, Nat.eqb_refl.
        destruct (c0 =? c1) eqn:F; auto. apply Nat.eqb_eq in F; congruence.
      - intros [E1 E2]. rewrite <- Ek. apply nat_ext_bits. intros q.
        rewrite Nat.lxor_spec. unfold m. rewrite !Nat.lor_spec. unfold m0, m1.
        rewrite !pow2_testbit. destruct (c0 =? q) eqn:F0, (c1 =? q) eqn:F1; rewrite ?Nat.eqb_eq in *; subst;
        try congruence; try rewrite E1; try rewrite E2; auto; destruct (Nat.testbit k q); auto. }
    unfold pair_result. rewrite <- Q0, <- Q1.
    destruct (k =? Nat.lxor i m1) eqn:R1, (k =? Nat.lxor i m0) eqn:R0; auto.
    + apply Nat.eqb_eq in R1, R0. exfalso. apply (pos_neq i i); congruence.
    + apply Nat.eqb_eq in R1. subst k. f_equal; f_equal; auto.
      rewrite Nat.lxor_assoc. rewrite m_lxor. rewrite (Nat.lxor_comm m0 m1), <- (Nat.lxor_assoc m1 m1 m0).
      now rewrite Nat.lxor_nilpotent, Nat.lxor_0_l.
    + apply Nat.eqb_eq in R0. subst k. f_equal; f_equal; auto.
      rewrite Nat.lxor_assoc. rewrite m_lxor, <- (Nat.lxor_assoc m0 m0 m1).
      now rewrite Nat.lxor_nilpotent, Nat.lxor_0_l.
  - cbn [existsb]. assert (E : (Nat.lor k m =? i) = false) by now apply Nat.eqb_neq. rewrite E. cbn [orb].
    (* k and k^m are not touched by i *)
    assert (U : forall q, Nat.lor q m <> i -> bget (pair_body bm i) q = bget bm q).
    { intros q Hq. rewrite B.
      assert (K1 : (q =? Nat.lxor i m1) = false).
      { apply Nat.eqb_neq. intros ->. apply Hq. apply nat_ext_bits. intros z.
        rewrite Nat.lor_spec, Nat.lxor_spec. unfold m. rewrite Nat.lor_spec. unfold m0, m1. rewrite !pow2_testbit.
        destruct (c0 =? z) eqn:F0, (c1 =? z) eqn:F1; rewrite ?Nat.eqb_eq in *; subst; try congruence;
        rewrite ?Hi0, ?Hi1; auto; destruct (Nat.testbit i z); auto. }
      assert (K0 : (q =? Nat.lxor i m0) = false).
      { apply Nat.eqb_neq. intros ->. apply Hq. apply nat_ext_bits. intros z.
        rewrite Nat.lor_spec, Nat.lxor_spec. unfold m. rewrite Nat.lor_spec. unfold m0, m1. rewrite !pow2_testbit.
        destruct (c0 =? z) eqn:F0, (c1 =? z) eqn:F1; rewrite ?Nat.eqb_eq in *; subst; try congruence;
        rewrite ?Hi0, ?Hi1; auto; destruct (Nat.testbit i z); auto. }
      now rewrite K1, K0. }
    assert (U2 : bget (pair_body bm i) (Nat.lxor k m) = bget bm (Nat.lxor k m)).
    { apply U. intros F. apply Ek. rewrite <- F. apply nat_ext_bits. intros z.
      rewrite !Nat.lor_spec, Nat.lxor_spec. destruct (Nat.testbit k z), (Nat.testbit m z); auto. }
    unfold pair_result. rewrite U2, U by auto. auto.
Qed.

Lemma pair_loop_strided bm k : length bm = 2 ^ n -> k < 2 ^ n ->
  bget (fold_left pair_body (strided (length bm) m) bm) k = pair_result bm k.
Proof.
  intros Hl Hk. rewrite pair_loop; auto.
  - destruct (existsb (Nat.eqb (Nat.lor k m)) (strided (length bm) m)) eqn:E; auto.
    exfalso. assert (existsb (Nat.eqb (Nat.lor k m)) (strided (length bm) m) = true); [|congruence].
    apply existsb_exists. exists (Nat.lor k m). rewrite Nat.eqb_refl. split; auto.
    apply strided_In. rewrite Hl. split.
    + apply lor_lt; auto. unfold m. apply lor_lt; auto using m0_lt, m1_lt.
    + unfold m, m0, m1. rewrite has_mask_pow2_2, !Nat.lor_spec, !Nat.pow2_bits_true.
      now rewrite !orb_true_l, !orb_true_r.
  - apply strided_NoDup.
  - intros i Hi. apply strided_In in Hi. rewrite Hl in Hi. unfold m, m0, m1 in Hi.
    rewrite has_mask_pow2_2 in Hi. destruct Hi as [? Hi]. apply andb_true_iff in Hi. intuition.
Qed.
End PairLoop.

(* ---------- apply_comparator ---------- *)

Lemma apply_comparator_fold m0 m1 l : forall bm a b,
  (forall i, In i l -> Nat.lxor i m0 <> Nat.lxor i m1) ->
  fst (fst (fold_left (apply_comparator_body m0 m1) l (bm, a, b))) =
  fold_left (fun bm index =>
    let u := bget bm (Nat.lxor index m0) in
    let v := bget bm (Nat.lxor index m1) in
    upd (upd bm (Nat.lxor index m0) false) (Nat.lxor index m1) (v || u)) l bm.
Proof.
  induction l as [|i l IH]; intros bm a b Hne; auto. cbn [fold_left]. unfold apply_comparator_body at 2.
  rewrite IH by (intros; apply Hne; now right). f_equal. f_equal. f_equal.
  unfold bget. apply upd_nth_neq. intros E. apply (Hne i); auto. now left.
Qed.

Definition flag0 (m0 : nat) (bm : list bool) (l : list nat) : bool :=
  existsb (fun i => bget bm (Nat.lxor i m0)) l.

Lemma apply_comparator_flags c0 c1 n l : c0 <> c1 -> c0 < n -> c1 < n -> forall bm a b,
  length bm = 2 ^ n -> NoDup l ->
  (forall i, In i l -> i < 2 ^ n /\ Nat.testbit i c0 = true /\ Nat.testbit i c1 = true) ->
  let st := fold_left (apply_comparator_body (2 ^ c0) (2 ^ c1)) l (bm, a, b) in
  snd (fst st) = a || existsb (fun i => bget bm (Nat.lxor i (2 ^ c0))) l /\
  snd st = b || existsb (fun i => bget bm (Nat.lxor i (2 ^ c1))) l.
Proof.
  intros Hne H0 H1. induction l as [|i l IH]; intros bm a b Hl Hd Hin; cbn [fold_left existsb].
  - now rewrite !orb_false_r.
  - apply NoDup_cons_iff in Hd. destruct Hd as [Hni Hd].
    destruct (Hin i (or_introl eq_refl)) as (Hi & Hi0 & Hi1).
    unfold apply_comparator_body at 2 4.
    set (bm2 := upd (upd bm (Nat.lxor i (2 ^ c0)) false) (Nat.lxor i (2 ^ c1)) _).
    assert (PN : forall j k, In j (i :: l) -> In k (i :: l) -> Nat.lxor j (2 ^ c0) <> Nat.lxor k (2 ^ c1)).
    { intros j k Hj Hk. destruct (Hin j Hj) as (_ & ? & ?), (Hin k Hk) as (_ & ? & ?).
      apply (pos_neq c0 c1); auto. }
    assert (E0 : forall j, In j l -> bget bm2 (Nat.lxor j (2 ^ c0)) = bget bm (Nat.lxor j (2 ^ c0))).
    { intros j Hj. unfold bm2, bget. rewrite upd_nth_neq.
      - apply upd_nth_neq. intros E. apply lxor_inj_r in E. now subst.
      - apply PN; simpl; auto. }
    assert (E1 : forall j, In j l -> bget bm2 (Nat.lxor j (2 ^ c1)) = bget bm (Nat.lxor j (2 ^ c1))).
    { intros j Hj. unfold bm2, bget. rewrite upd_nth_neq.
      - apply upd_nth_neq. intros E. symmetry in E. revert E. apply PN; simpl; auto.
      - intros E. apply lxor_inj_r in E. now subst. }
    destruct (IH bm2 (a || bget bm (Nat.lxor i (2 ^ c0)))
                 (b || bget (upd bm (Nat.lxor i (2 ^ c0)) false) (Nat.lxor i (2 ^ c1)))) as [F0 F1]; auto.
    { unfold bm2. now rewrite !upd_length. }
    { intros; apply Hin; now right. }
    rewrite F0, F1. rewrite <- !orb_assoc. split; f_equal; f_equal.
    + clear - E0. induction l as [|j l IHl]; auto. cbn [existsb]. rewrite E0 by now left.
      f_equal. apply IHl. intros; apply E0; now right.
    + unfold bget. apply upd_nth_neq. intros E. symmetry in E. revert E. apply PN; now left.
    + clear - E1. induction l as [|j l IHl]; auto. cbn [existsb]. rewrite E1 by now left.
      f_equal. apply IHl. intros; apply E1; now right.
Qed.

Lemma strided_pair_in c0 c1 n (bm : list bool) i : length bm = 2 ^ n ->
  In i (strided (length bm) (Nat.lor (2 ^ c0) (2 ^ c1))) <->
  i < 2 ^ n /\ Nat.testbit i c0 = true /\ Nat.testbit i c1 = true.
Proof.
  intros Hl. rewrite strided_In, has_mask_pow2_2, Hl, andb_true_iff. tauto.
Qed.

Definition ac_bitmap (s : OutputSet) (c0 c1 : nat) : list bool := bitmap (fst (apply_comparator s c0 c1)).

Lemma apply_comparator_bitmap s c0 c1 : c0 <> c1 -> c0 < channels s -> c1 < channels s -> wf s ->
  length (ac_bitmap s c0 c1) = 2 ^ channels s /\
  forall k, k < 2 ^ channels s ->
    bget (ac_bitmap s c0 c1) k =
    pair_result c0 c1 (fun _ _ => false) (fun u v => v || u) (bitmap s) k.
Proof.
  intros Hne H0 H1 W. unfold ac_bitmap, apply_comparator.
  pose proof (apply_comparator_fold (2 ^ c0) (2 ^ c1)
      (strided (length (bitmap s)) (Nat.lor (2 ^ c0) (2 ^ c1))) (bitmap s) false false) as F.
  destruct (fold_left (apply_comparator_body _ _) _ _) as [[bm ooo] ino]. simpl in *.
  rewrite F.
  2:{ intros i Hi. apply (strided_pair_in _ _ (channels s)) in Hi; auto. apply (pos_neq c0 c1); intuition. }
  split.
  - rewrite <- W. exact (pair_loop_length c0 c1 (fun _ _ => false) (fun u v => v || u) _ _).
  - intros k Hk.
    exact (pair_loop_strided c0 c1 (channels s) (fun _ _ => false) (fun u v => v || u) Hne H0 H1 (bitmap s) k W Hk).
Qed.

Lemma apply_comparator_channels s c0 c1 : channels (fst (apply_comparator s c0 c1)) = channels s.
Proof. unfold apply_comparator. destruct (fold_left _ _ _) as [[? ?] ?]. auto. Qed.

Lemma apply_comparator_wf s c0 c1 : c0 <> c1 -> c0 < channels s -> c1 < channels s -> wf s ->
  wf (fst (apply_comparator s c0 c1)).
Proof.
  intros Hne H0 H1 W. unfold wf. rewrite apply_comparator_channels.
  now apply (apply_comparator_bitmap s c0 c1).
Qed.

Lemma idx_swapv x a b : a < length x -> b < length x -> bit x a <> bit x b ->
  idx (swapv a b x) = Nat.lxor (idx x) (Nat.lor (2 ^ a) (2 ^ b)).
Proof.
  intros Ha Hb Hd. assert (a <> b) by congruence.
  apply nat_ext_bits. intros i. rewrite testbit_idx, bit_swapv by auto.
  rewrite Nat.lxor_spec, Nat.lor_spec, testbit_idx, !pow2_testbit. unfold transp.
  rewrite (Nat.eqb_sym i a), (Nat.eqb_sym i b).
  destruct (Nat.eqb_spec a i) as [<-|Na]; [|destruct (Nat.eqb_spec b i) as [<-|Nb]].
  - cbn [orb]. destruct (bit x a), (bit x b); auto; congruence.
  - cbn [orb]. destruct (bit x a), (bit x b); auto; congruence.
  - cbn [orb]. now rewrite xorb_false_r.
Qed.

(* the image under the comparator with minimum on c1 and maximum on c0 *)
Lemma apply_comparator_vs s c0 c1 : c0 <> c1 -> c0 < channels s -> c1 < channels s -> wf s ->
  same_set (vs (fst (apply_comparator s c0 c1))) (image (exch (c1, c0)) (vs s)).
Proof.
  intros Hne H0 H1 W. destruct (apply_comparator_bitmap s c0 c1 Hne H0 H1 W) as [L B].
  intros y. unfold vs at 1. rewrite apply_comparator_channels. fold (ac_bitmap s c0 c1).
  assert (OK : forall x : vec, length x = channels s -> cmp_ok (length x) (c1, c0)).
  { intros x ->. repeat split; simpl; auto. }
  split.
  - intros [Ly Hy]. pose proof (idx_lt y) as Hlt. rewrite Ly in Hlt.
    rewrite B in Hy by auto. unfold pair_result in Hy. rewrite !testbit_idx in Hy.
    destruct (bit y c0) eqn:B0, (bit y c1) eqn:B1; cbn [negb andb] in Hy.
    + exists y. split. split; auto. symmetry. apply exch_in_order; simpl; auto.
    + apply orb_true_iff in Hy. destruct Hy as [Hy|Hy].
      * exists y. split. split; auto. symmetry. apply exch_in_order; simpl; auto.
      * exists (swapv c1 c0 y). split.
        -- split. now rewrite swapv_length. rewrite idx_swapv by (try lia; congruence).
           now rewrite Nat.lor_comm.
        -- rewrite exch_out_of_order; simpl.
           ++ symmetry. apply (swapv_invol (channels s)); auto.
           ++ apply OK. now rewrite swapv_length.
           ++ intros _. rewrite bit_swapv by lia. unfold transp. now rewrite Nat.eqb_refl.
    + discriminate.
    + exists y. split. split; auto. symmetry. apply exch_in_order; simpl; auto. congruence.
  - intros (x & [Lx Hx] & ->). split. now rewrite exch_length.
    pose proof (idx_lt (exch (c1, c0) x)) as Hlt. rewrite exch_length, Lx in Hlt.
    rewrite B by auto. unfold pair_result. rewrite !testbit_idx.
    rewrite !bit_exch by auto. simpl. rewrite !Nat.eqb_refl.
    assert (E10 : (c1 =? c0) = false) by (apply Nat.eqb_neq; auto). rewrite E10.
    destruct (bit x c1) eqn:B1, (bit x c0) eqn:B0; cbn [negb andb orb].
    + rewrite exch_in_order; simpl; auto.
    + rewrite exch_out_of_order by (simpl; auto; congruence). simpl.
      rewrite idx_swapv by (try lia; congruence). rewrite (Nat.lor_comm (2 ^ c1)).
      rewrite lxor_lxor, Hx. apply orb_true_r.
    + rewrite exch_in_order; simpl; auto. now rewrite Hx.
    + rewrite exch_in_order; simpl; auto. congruence.
Qed.

Lemma apply_comparator_flag s c0 c1 : c0 <> c1 -> c0 < channels s -> c1 < channels s -> wf s ->
  (snd (apply_comparator s c0 c1) = true <-> nonredundant (c1, c0) (vs s)).
Proof.
  intros Hne H0 H1 W. unfold apply_comparator.
  pose proof (apply_comparator_flags c0 c1 (channels s)
    (strided (length (bitmap s)) (Nat.lor (2 ^ c0) (2 ^ c1))) Hne H0 H1 (bitmap s) false false W
    (strided_NoDup _ _)) as F.
  assert (Hin : forall i, In i (strided (length (bitmap s)) (Nat.lor (2 ^ c0) (2 ^ c1))) ->
                i < 2 ^ channels s /\ Nat.testbit i c0 = true /\ Nat.testbit i c1 = true).
  { intros i. apply strided_pair_in; auto. }
  specialize (F Hin). cbv zeta in F.
  destruct (fold_left (apply_comparator_body _ _) _ _) as [[bm ooo] ino]. simpl in *.
  destruct F as [-> ->]. rewrite andb_true_iff, !existsb_exists.
  assert (T : forall a b, a <> b -> a < channels s -> b < channels s ->
    ((exists i, In i (strided (length (bitmap s)) (Nat.lor (2 ^ c0) (2 ^ c1))) /\
               Nat.testbit i a = true /\ Nat.testbit i b = true /\
               bget (bitmap s) (Nat.lxor i (2 ^ a)) = true) ->
    exists x, vs s x /\ bit x b = true /\ bit x a = false)).
  { intros a b Hab Ha Hb (i & Hi & Ta & Tb & Hg). apply Hin in Hi. destruct Hi as (Hi & _).
    assert (Q : Nat.lxor i (2 ^ a) < 2 ^ channels s) by (apply lxor_lt; auto; now apply pow2_lt_pow2).
    exists (vec_of (channels s) (Nat.lxor i (2 ^ a))). split. now apply vs_vec_of.
    rewrite !bit_vec_of. apply Nat.ltb_lt in Ha, Hb. rewrite Ha, Hb. rewrite !lxor_pow2_testbit.
    rewrite Ta, Tb, Nat.eqb_refl. split; auto. destruct (a =? b) eqn:E; auto. apply Nat.eqb_eq in E; congruence. }
  assert (T' : forall a b x, a <> b -> a < channels s -> b < channels s -> (a = c0 /\ b = c1 \/ a = c1 /\ b = c0) ->
    vs s x -> bit x b = true -> bit x a = false ->
    exists i, In i (strided (length (bitmap s)) (Nat.lor (2 ^ c0) (2 ^ c1))) /\
              bget (bitmap s) (Nat.lxor i (2 ^ a)) = true).
  { intros a b x Hab Ha Hb Hcase [Lx Hx] Xb Xa. exists (Nat.lxor (idx x) (2 ^ a)). rewrite lxor_lxor.
    split; auto. apply (strided_pair_in c0 c1 (channels s)); auto. split.
    - apply lxor_lt. rewrite <- Lx. apply idx_lt. now apply pow2_lt_pow2.
    - rewrite !lxor_pow2_testbit, !testbit_idx.
      destruct Hcase as [[-> ->]|[-> ->]]; rewrite Xa, Xb, Nat.eqb_refl;
        [destruct (c0 =? c1) eqn:E|destruct (c1 =? c0) eqn:E]; auto; apply Nat.eqb_eq in E; congruence. }
  split.
  - intros [(i & Hi & Gi) (j & Hj & Gj)]. split.
    + destruct (T c0 c1) as (x & ? & ? & ?); auto.
      { exists i. apply Hin in Hi as Hi'. intuition. }
      exists x; auto.
    + destruct (T c1 c0) as (x & ? & ? & ?); auto.
      { exists j. apply Hin in Hj as Hj'. intuition. }
      exists x; auto.
  - intros [(x & Hx & X1 & X2) (y & Hy & Y1 & Y2)]; simpl in *. split.
    + apply (T' c0 c1 x); auto.
    + apply (T' c1 c0 y); auto.
Qed.

(* ---------- swap_channels ---------- *)

Lemma swap_channels_channels s a b : channels (swap_channels s a b) = channels s.
Proof. unfold swap_channels. destruct (a =? b); auto. Qed.

Lemma swap_channels_bitmap s a b : a <> b -> a < channels s -> b < channels s -> wf s ->
  length (bitmap (swap_channels s a b)) = 2 ^ channels s /\
  forall k, k < 2 ^ channels s ->
    bget (bitmap (swap_channels s a b)) k = pair_result a b (fun u v => v) (fun u v => u) (bitmap s) k.
Proof.
  intros Hne H0 H1 W. unfold swap_channels. assert (E : (a =? b) = false) by now apply Nat.eqb_neq.
  rewrite E. cbn [bitmap]. split.
  - rewrite <- W. exact (pair_loop_length a b (fun u v => v) (fun u v => u) _ _).
  - intros k Hk.
    exact (pair_loop_strided a b (channels s) (fun u v => v) (fun u v => u) Hne H0 H1 (bitmap s) k W Hk).
Qed.

Lemma swap_channels_wf s a b : a < channels s -> b < channels s -> wf s -> wf (swap_channels s a b).
Proof.
  intros H0 H1 W. unfold wf. rewrite swap_channels_channels.
  destruct (Nat.eq_dec a b) as [->|Hne].
  - unfold swap_channels. now rewrite Nat.eqb_refl.
  - now apply swap_channels_bitmap.
Qed.

Lemma swap_channels_mem s a b x : a < channels s -> b < channels s -> wf s -> length x = channels s ->
  (vs (swap_channels s a b) (swapv a b x) <-> vs s x).
Proof.
  intros H0 H1 W L. unfold vs. rewrite swap_channels_channels, swapv_length.
  destruct (Nat.eq_dec a b) as [->|Hne].
  - unfold swap_channels. rewrite Nat.eqb_refl, swapv_same. tauto.
  - destruct (swap_channels_bitmap s a b Hne H0 H1 W) as [_ B].
    pose proof (idx_lt (swapv a b x)) as Hlt. rewrite swapv_length, L in Hlt.
    rewrite B by auto. unfold pair_result. rewrite !testbit_idx, !bit_swapv by lia. unfold transp.
    rewrite !Nat.eqb_refl. assert (E : (b =? a) = false) by (apply Nat.eqb_neq; auto). rewrite E.
    assert (Same : bit x a = bit x b -> swapv a b x = x).
    { intros Eab. apply vec_ext; rewrite swapv_length; auto. intros i Hi. rewrite bit_swapv by lia.
      unfold transp. destruct (i =? a) eqn:F1. apply Nat.eqb_eq in F1; subst; auto.
      destruct (i =? b) eqn:F2; auto. apply Nat.eqb_eq in F2; subst; auto. }
    destruct (bit x b) eqn:B1, (bit x a) eqn:B0; cbn [negb andb].
    + rewrite Same by congruence. tauto.
    + rewrite idx_swapv by (try lia; congruence). rewrite lxor_lxor. tauto.
    + rewrite idx_swapv by (try lia; congruence). rewrite lxor_lxor. tauto.
    + rewrite Same by congruence. tauto.
Qed.

Lemma swap_channels_vs s a b : a < channels s -> b < channels s -> wf s ->
  same_set (vs (swap_channels s a b)) (image (swapv a b) (vs s)).
Proof.
  intros H0 H1 W y. split.
  - intros Hy. assert (L : length y = channels s) by (rewrite <- (swap_channels_channels s a b); apply Hy).
    exists (swapv a b y). rewrite (swapv_invol (channels s)) by auto. split; auto.
    apply (swap_channels_mem s a b); auto. now rewrite swapv_length.
    now rewrite (swapv_invol (channels s)).
  - intros (x & Hx & ->). apply swap_channels_mem; auto. apply Hx.
Qed.

Lemma swap_channels_involutive s a b : a < channels s -> b < channels s -> wf s ->
  swap_channels (swap_channels s a b) a b = s.
Proof.
  intros H0 H1 W. apply os_ext; auto.
  - apply swap_channels_wf; rewrite ?swap_channels_channels; auto. now apply swap_channels_wf.
  - now rewrite !swap_channels_channels.
  - intros x. split.
    + intros Hx. assert (L : length x = channels s) by (rewrite <- (swap_channels_channels s a b), <- (swap_channels_channels _ a b); apply Hx).
      apply swap_channels_vs in Hx; rewrite ?swap_channels_channels; auto using swap_channels_wf.
      destruct Hx as (y & Hy & ->). rewrite swapv_length in L.
      apply (swap_channels_mem s a b); auto. now rewrite swapv_length.
      now rewrite (swapv_invol (channels s)).
    + intros Hx. rewrite <- (swapv_invol (channels s) a b x) by (auto; apply Hx).
      apply swap_channels_mem; rewrite ?swap_channels_channels, ?swapv_length; auto using swap_channels_wf.
      apply Hx. apply swap_channels_mem; auto. apply Hx.
Qed.

(* ---------- invert ---------- *)

Lemma idx_complement x : idx (complement x) = 2 ^ length x - 1 - idx x.
Proof.
  induction x as [|b x IH]; auto. cbn [complement map idx length].
  change (map negb x) with (complement x). rewrite IH. pose proof (idx_lt x).
  rewrite Nat.pow_succ_r'. destruct b; simpl Nat.b2n; lia.
Qed.

Lemma invert_wf s : wf s -> wf (invert s).
Proof. unfold wf, invert; simpl. now rewrite rev_length. Qed.

Lemma invert_mem s x : wf s -> length x = channels s -> (vs (invert s) (complement x) <-> vs s x).
Proof.
  intros W L. unfold vs, invert; simpl. rewrite complement_length. unfold bget.
  pose proof (idx_lt x) as H. rewrite L in H.
  rewrite idx_complement, L, rev_nth by (rewrite W; lia).
  rewrite W. replace (2 ^ channels s - S (2 ^ channels s - 1 - idx x)) with (idx x) by lia. tauto.
Qed.

Lemma invert_vs s : wf s -> same_set (vs (invert s)) (image complement (vs s)).
Proof.
  intros W y. split.
  - intros Hy. assert (L : length y = channels s) by apply Hy.
    exists (complement y). rewrite complement_involutive. split; auto.
    apply invert_mem; auto. now rewrite complement_length. now rewrite complement_involutive.
  - intros (x & Hx & ->). apply invert_mem; auto. apply Hx.
Qed.

Lemma invert_involutive s : invert (invert s) = s.
Proof. destruct s. unfold invert; simpl. now rewrite rev_involutive. Qed.

(* ---------- all_values ---------- *)

Lemma all_values_wf n : wf (all_values n).
Proof. unfold wf, all_values; simpl. apply repeat_length. Qed.

Lemma nth_repeat_lt {A} (a d : A) n i : i < n -> nth i (repeat a n) d = a.
Proof. revert i; induction n; intros [|i] H; simpl; auto; try lia. apply IHn; lia. Qed.

Lemma all_values_vs n : same_set (vs (all_values n)) (all_inputs n).
Proof.
  intros x. unfold vs, all_inputs, all_values, bget; simpl. split; [tauto|]. intros L. split; auto.
  apply nth_repeat_lt. rewrite <- L. apply idx_lt.
Qed.

(* ---------- population count ---------- *)

Lemma count_ones_f_spec : forall x fuel, idx x <= fuel -> count_ones_f fuel (idx x) = weight x.
Proof.
  induction x as [|b x IH]; intros fuel H.
  - destruct fuel; auto.
  - cbn [idx] in *. destruct fuel as [|f]; cbn [count_ones_f].
    + assert (b = false) by (destruct b; auto; simpl in H; lia). subst b. simpl in H.
      assert (E : idx x = 0) by lia. specialize (IH 0 ltac:(lia)). cbn [weight]. rewrite <- IH. auto.
    + destruct (Nat.b2n b + 2 * idx x =? 0) eqn:E.
      * apply Nat.eqb_eq in E. assert (b = false) by (destruct b; auto; simpl in E; lia). subst b. simpl in E.
        assert (E' : idx x = 0) by lia. specialize (IH 0 ltac:(lia)). cbn [weight]. rewrite <- IH. auto.
      * apply Nat.eqb_neq in E.
        assert (O : Nat.odd (Nat.b2n b + 2 * idx x) = b) by (apply (testbit_b2n_0 b)).
        assert (D : Nat.div2 (Nat.b2n b + 2 * idx x) = idx x).
        { pose proof (Nat.div2_odd (Nat.b2n b + 2 * idx x)) as P. rewrite O in P. lia. }
        rewrite O, D, IH. destruct b; auto. destruct b; simpl in H, E; lia.
Qed.

Lemma count_ones_idx x : count_ones (idx x) = weight x.
Proof. apply count_ones_f_spec. auto. Qed.

Lemma count_ones_vec n v : v < 2 ^ n -> count_ones v = weight (vec_of n v).
Proof. intros H. rewrite <- (idx_vec_of n v H) at 1. apply count_ones_idx. Qed.

(* ---------- is_sorted ---------- *)

Lemma enumerate_In {A} (l : list A) i a d : In (i, a) (enumerate l) <-> i < length l /\ nth i l d = a.
Proof.
  unfold enumerate.
  assert (G : forall k (l : list A) i a, In (i, a) (combine (seq k (length l)) l) <->
             k <= i /\ i - k < length l /\ nth (i - k) l d = a).
  { clear. intros k l. revert k. induction l as [|b l IH]; intros k i a; simpl.
    - split; [tauto|intros (_ & H & _); lia].
    - split.
      + intros [E|H].
        * injection E as -> ->. rewrite Nat.sub_diag. repeat split; auto; lia.
        * apply IH in H. destruct H as (H1 & H2 & H3). replace (i - k) with (S (i - S k)) by lia.
          repeat split; auto; lia.
      + intros (H1 & H2 & H3). destruct (Nat.eq_dec i k) as [->|Hne].
        * rewrite Nat.sub_diag in H3. left. congruence.
        * right. apply IH. replace (i - k) with (S (i - S k)) in * by lia. repeat split; auto; lia. }
  rewrite G. rewrite Nat.sub_0_r. intuition lia.
Qed.

Lemma enumerate_cons_shift {A} k (l : list A) :
  combine (seq k (length l)) l = map (fun e => (fst e + k, snd e)) (enumerate l).
Proof.
  unfold enumerate. assert (G : forall j (l : list A), combine (seq (k + j) (length l)) l =
     map (fun e => (fst e + k, snd e)) (combine (seq j (length l)) l)).
  { clear. intros j l. revert j. induction l as [|a l IH]; intros j; simpl; auto. f_equal.
    f_equal; lia. replace (S (k + j)) with (k + S j) by lia. apply IH. }
  specialize (G 0 l). rewrite Nat.add_0_r in G. auto.
Qed.

(* the loop returns false iff two present indices have equal weight or one of them was seen before *)
Lemma is_sorted_loop_spec n : forall l seen, length seen = n + 1 ->
  (forall i p, In (i, p) l -> count_ones i <= n) ->
  (is_sorted_loop l seen = true <->
   (forall i, In (i, true) l -> nth (count_ones i) seen false = false) /\
   ForallOrdPairs (fun e f => snd e = true -> snd f = true -> count_ones (fst e) <> count_ones (fst f)) l).
Proof.
  induction l as [|(i, p) l IH]; intros seen Hl Hw; cbn [is_sorted_loop].
  - split; auto. intros _. split. intros i []. constructor.
  - assert (Hi : count_ones i < length seen) by (specialize (Hw i p (or_introl eq_refl)); lia).
    destruct (nth (count_ones i) seen false && p) eqn:E.
    + split; [discriminate|]. intros [H _]. apply andb_true_iff in E. destruct E as [E ->].
      rewrite (H i) in E by now left. discriminate.
    + rewrite IH. 2: now rewrite upd_length. 2: intros; eapply Hw; right; eauto.
      split.
      * intros [H1 H2]. split.
        -- intros j [Ej|Hj]. injection Ej as -> ->. now rewrite andb_true_r in E.
           specialize (H1 j Hj). rewrite upd_nth in H1. apply Nat.ltb_lt in Hi. rewrite Hi, andb_true_r in H1.
           destruct (count_ones j =? count_ones i) eqn:F; auto. apply Nat.eqb_eq in F. rewrite F.
           apply orb_false_iff in H1. tauto.
        -- constructor; auto. rewrite Forall_forall. intros (j, q) Hj Hp Hq; simpl in *. subst p q.
           specialize (H1 j Hj). rewrite upd_nth in H1. apply Nat.ltb_lt in Hi. rewrite Hi, andb_true_r in H1.
           destruct (count_ones j =? count_ones i) eqn:F. rewrite orb_true_r in H1; discriminate.
           apply Nat.eqb_neq in F. auto.
      * intros [H1 H2]. inversion H2 as [|? ? H3 H4]; subst. split; auto.
        intros j Hj. rewrite upd_nth. apply Nat.ltb_lt in Hi. rewrite Hi, andb_true_r.
        destruct (count_ones j =? count_ones i) eqn:F.
        -- apply Nat.eqb_eq in F. rewrite <- F. rewrite (H1 j) by now right. simpl.
           destruct p; auto. rewrite Forall_forall in H3. specialize (H3 _ Hj eq_refl eq_refl). simpl in H3. congruence.
        -- apply H1. now right.
Qed.

Lemma ForallOrdPairs_NoDup {A} (R : A -> A -> Prop) l :
  NoDup l -> (forall a b, R a b -> R b a) ->
  (ForallOrdPairs R l <-> forall a b, In a l -> In b l -> a <> b -> R a b).
Proof.
  intros N Sy. split.
  - intros H a b Ha Hb Hne. destruct (ForallOrdPairs_In H a b Ha Hb) as [E|[E|E]]; auto. congruence.
  - induction N as [|a l Ha N IH]; intros H; constructor.
    + apply Forall_forall. intros b Hb. apply H; simpl; auto. intros ->; auto.
    + apply IH. intros; apply H; simpl; auto.
Qed.

Lemma NoDup_enumerate {A} (l : list A) : NoDup (enumerate l).
Proof.
  assert (M : map fst (enumerate l) = seq 0 (length l)).
  { unfold enumerate. generalize 0. induction l; intros k; simpl; auto. now rewrite IHl. }
  apply (NoDup_map_inv fst). rewrite M. apply seq_NoDup.
Qed.

Lemma one_per_weight_small n V : n < 2 -> width n V -> one_per_weight V.
Proof.
  intros Hn W x y Hx Hy E. apply W in Hx, Hy. destruct n as [|[|n]]; [| |lia].
  - destruct x, y; auto; discriminate.
  - destruct x as [|a x], y as [|b y]; try discriminate. destruct x, y; try discriminate. destruct a, b; auto; discriminate.
Qed.

Lemma is_sorted_spec s : wf s -> (is_sorted s = true <-> one_per_weight (vs s)).
Proof.
  intros W. unfold is_sorted. destruct (channels s <? 2) eqn:E.
  - apply Nat.ltb_lt in E. split; auto. intros _. apply (one_per_weight_small (channels s)); auto. apply vs_width.
  - rewrite (is_sorted_loop_spec (channels s)).
    + rewrite ForallOrdPairs_NoDup. 2: apply NoDup_enumerate. 2:{ intros a b H Ha Hb. specialize (H Hb Ha). auto. }
      split.
      * intros [_ H] x y [Lx Hx] [Ly Hy] Ew. apply idx_inj. congruence.
        destruct (Nat.eq_dec (idx x) (idx y)) as [|Hne]; auto. exfalso.
        apply (H (idx x, true) (idx y, true)); simpl; auto.
        -- apply (enumerate_In _ _ _ false). split; auto. rewrite W, <- Lx. apply idx_lt.
        -- apply (enumerate_In _ _ _ false). split; auto. rewrite W, <- Ly. apply idx_lt.
        -- congruence.
        -- now rewrite !count_ones_idx.
      * intros H. split.
        -- intros i _. apply nth_repeat.
        -- intros (i, p) (j, q) Hi Hj Hne Hp Hq Ew; simpl in *. subst p q.
           apply (enumerate_In _ _ _ false) in Hi, Hj. destruct Hi as [Hi Gi], Hj as [Hj Gj]. rewrite W in *.
           apply Hne. f_equal. rewrite <- (idx_vec_of (channels s) i), <- (idx_vec_of (channels s) j) by auto.
           f_equal. apply H; try (apply vs_vec_of; auto). now rewrite <- !count_ones_vec.
    + apply repeat_length.
    + intros i p Hi. apply (enumerate_In _ _ _ false) in Hi. destruct Hi as [Hi _]. rewrite W in Hi.
      rewrite (count_ones_vec (channels s)) by auto.
      pose proof (weight_le (vec_of (channels s) i)). now rewrite vec_of_length in H.
Qed.

(* ---------- channel_is_extremal ---------- *)

Lemma idx_unit_vec n c : c < n -> idx (unit_vec n c) = 2 ^ c.
Proof.
  intros H. apply nat_ext_bits. intros i. rewrite testbit_idx, bit_unit_vec, pow2_testbit by auto.
  apply Nat.eqb_sym.
Qed.

Lemma ones_testbit n i : Nat.testbit (2 ^ n - 1) i = (i <? n).
Proof.
  rewrite Nat.sub_1_r, <- Nat.ones_equiv. destruct (i <? n) eqn:E.
  - apply Nat.ltb_lt in E. now apply Nat.ones_spec_low.
  - apply Nat.ltb_ge in E. now apply Nat.ones_spec_high.
Qed.

Lemma lxor_all_mask n x : length x = n -> Nat.lxor (idx x) (2 ^ n - 1) = idx (complement x).
Proof.
  intros L. apply nat_ext_bits. intros i. rewrite Nat.lxor_spec, !testbit_idx, ones_testbit.
  destruct (i <? n) eqn:E.
  - apply Nat.ltb_lt in E. rewrite bit_complement by lia. apply xorb_true_r.
  - apply Nat.ltb_ge in E. rewrite !bit_out by (rewrite ?complement_length; lia). auto.
Qed.

(* the extremal vector of a channel: a single one (polarity false) or a single zero (true) *)
Definition extremal_vec (n : nat) (pol : bool) (c : nat) : vec := complement_if pol (unit_vec n c).

Lemma extremal_idx n pol c : c < n -> Nat.lxor (2 ^ c) ((2 ^ n - 1) * Nat.b2n pol) = idx (extremal_vec n pol c).
Proof.
  intros H. unfold extremal_vec. rewrite <- (idx_unit_vec n c) by auto. destruct pol; simpl Nat.b2n; simpl complement_if.
  - rewrite Nat.mul_1_r. apply lxor_all_mask, unit_vec_length.
  - now rewrite Nat.mul_0_r, Nat.lxor_0_r.
Qed.

Lemma channel_is_extremal_spec s pol c : wf s -> c < channels s ->
  (channel_is_extremal s pol c = true <-> vs s (extremal_vec (channels s) pol c)).
Proof.
  intros W H. unfold channel_is_extremal, vs. rewrite W, extremal_idx by auto.
  unfold extremal_vec. rewrite complement_if_length, unit_vec_length. tauto.
Qed.

(* ---------- subsumes_unpermuted ---------- *)

Lemma subsumes_unpermuted_spec s t : wf s -> wf t -> channels s = channels t ->
  (subsumes_unpermuted s t = true <-> subset (vs s) (vs t)).
Proof.
  intros Ws Wt E. unfold subsumes_unpermuted. rewrite forallb_forall.
  assert (L : length (bitmap s) = length (bitmap t)) by congruence.
  split.
  - intros H x [Lx Hx]. split; [congruence|].
    pose proof (idx_lt x) as Hlt. rewrite Lx, <- Ws in Hlt.
    specialize (H (bget (bitmap s) (idx x), bget (bitmap t) (idx x))). simpl in H.
    rewrite Hx in H. simpl in H. apply H.
    unfold bget in *. rewrite <- Hx at 1. rewrite <- combine_nth by auto. apply nth_In.
    rewrite combine_length, <- L, Nat.min_id. auto.
  - intros H (a, b) Hin. simpl. apply (In_nth _ _ (false, false)) in Hin. destruct Hin as (i & Hi & Ei).
    rewrite combine_length, <- L, Nat.min_id in Hi.
    rewrite combine_nth in Ei by auto. injection Ei as Ea Eb. destruct a; auto. simpl.
    rewrite <- Eb. rewrite Ws in Hi.
    specialize (H (vec_of (channels s) i)). rewrite vs_vec_of in H by auto. specialize (H Ea).
    rewrite E in H, Hi. now rewrite vs_vec_of in H by auto.
Qed.

(* ---------- is_channel_unconstrained ---------- *)

Lemma is_channel_unconstrained_spec s c : wf s -> c < channels s ->
  (is_channel_unconstrained s c = true <->
   forall x v, vs s x -> vs s (upd x c v)).
Proof.
  intros W Hc. unfold is_channel_unconstrained. rewrite forallb_forall. split.
  - intros H x v [Lx Hx]. split. now rewrite upd_length. rewrite idx_upd by lia.
    destruct (eqb v (bit x c)) eqn:E; auto.
    pose proof (idx_lt x) as Hlt. rewrite Lx in Hlt.
    assert (Q : Nat.lxor (idx x) (2 ^ c) < 2 ^ channels s) by (apply lxor_lt; auto; now apply pow2_lt_pow2).
    destruct (bit x c) eqn:B.
    + assert (I : In (idx x) (strided (length (bitmap s)) (2 ^ c))).
      { apply strided_In. rewrite W, has_mask_pow2, testbit_idx. auto. }
      specialize (H _ I). apply eqb_prop in H. congruence.
    + assert (I : In (Nat.lxor (idx x) (2 ^ c)) (strided (length (bitmap s)) (2 ^ c))).
      { apply strided_In. rewrite W, has_mask_pow2, lxor_pow2_testbit, testbit_idx, B, Nat.eqb_refl. auto. }
      specialize (H _ I). apply eqb_prop in H. rewrite lxor_lxor in H. congruence.
  - intros H i Hi. apply strided_In in Hi. rewrite W, has_mask_pow2 in Hi. destruct Hi as [Hi Hb].
    assert (Q : Nat.lxor i (2 ^ c) < 2 ^ channels s) by (apply lxor_lt; auto; now apply pow2_lt_pow2).
    assert (A : forall j, j < 2 ^ channels s -> bget (bitmap s) j = true ->
                bget (bitmap s) (Nat.lxor j (2 ^ c)) = true).
    { intros j Hj Gj. apply vs_vec_of in Gj; auto.
      specialize (H _ (negb (bit (vec_of (channels s) j) c)) Gj). destruct H as [_ H].
      rewrite idx_upd, idx_vec_of in H by (rewrite ?vec_of_length; auto).
      destruct (bit (vec_of (channels s) j) c); simpl in H; auto. }
    destruct (bget (bitmap s) i) eqn:G1.
    + now rewrite A.
    + destruct (bget (bitmap s) (Nat.lxor i (2 ^ c))) eqn:G2; auto.
      apply A in G2; auto. rewrite lxor_lxor in G2. congruence.
Qed.
