(* The counts of one channel and of two channels of output_set.rs (C37).  channel_abstraction is public
   but not called anywhere in the repository; channel_pair_abstraction is called by abstraction(). *)
From Coq Require Import List Arith Bool Lia Permutation.
Import ListNotations.
From Verif Require Import Spec Vec Bits Util OutputSetModel OutputSetProofs CountProofs AbsProofs AbsFull
  PropOutputSet.

Lemma fold_triple (pos v0 v1 v2 : nat -> nat) l : forall a0 a1 a2,
  fold_left (fun (a : list nat * list nat * list nat) i =>
    let '(a0, a1, a2) := a in (add_at a0 (pos i) (v0 i), add_at a1 (pos i) (v1 i), add_at a2 (pos i) (v2 i))) l (a0, a1, a2) =
  (fold_left (fun b i => add_at b (pos i) (v0 i)) l a0, fold_left (fun b i => add_at b (pos i) (v1 i)) l a1,
   fold_left (fun b i => add_at b (pos i) (v2 i)) l a2).
Proof. induction l as [|i l IH]; intros; simpl; auto. Qed.

Lemma ldiff_channel c x : Nat.ldiff (idx x) (2 ^ c) = idx (upd x c false).
Proof.
  apply nat_ext_bits. intros i. rewrite Nat.ldiff_spec, pow2_testbit, !testbit_idx, bit_upd, (Nat.eqb_sym i c).
  destruct (Nat.eqb_spec c i) as [->|]; simpl; [|apply andb_true_r].
  rewrite andb_false_r. destruct (i <? length x) eqn:E; auto.
  symmetry. apply Nat.ltb_ge in E. unfold bit. now apply nth_overflow.
Qed.

Lemma count_channel c x : c < length x ->
  count_ones (Nat.ldiff (idx x) (2 ^ c)) + Nat.b2n (bit x c) = weight x.
Proof. intros H. rewrite ldiff_channel, count_ones_idx. pose proof (weight_upd x c false H). simpl in *. lia. Qed.

Lemma count_channel_lxor c i : count_ones (Nat.ldiff (Nat.lxor i (2 ^ c)) (2 ^ c)) = count_ones (Nat.ldiff i (2 ^ c)).
Proof.
  f_equal. apply nat_ext_bits. intros j. rewrite !Nat.ldiff_spec, lxor_pow2_testbit, pow2_testbit.
  destruct (c =? j), (Nat.testbit i j); auto.
Qed.

(* the members with the channel 0 and a selected partner with the channel 1 *)
Lemma lo_card s c (Q : vec -> Prop) (sel : nat -> bool) : wf s -> c < channels s ->
  (forall x, vs s x -> bit x c = false -> (Q x <-> sel (Nat.lxor (idx x) (2 ^ c)) = true)) ->
  card (fun x => vs s x /\ (bit x c = false /\ Q x))
    (sumf (fun i => if sel i then Nat.b2n (bget (bitmap s) (Nat.lxor i (2 ^ c))) else 0) (strided (length (bitmap s)) (2 ^ c))).
Proof.
  intros W Hc HQ. apply (sum_card s _ sel (fun i => Nat.lxor i (2 ^ c))); auto using strided_NoDup.
  - intros i Hi. apply strided_In in Hi. rewrite W in Hi. apply lxor_lt. tauto. now apply pow2_lt_pow2.
  - intros i j _ _ E. now apply lxor_inj_r in E.
  - intros x HV. pose proof HV as [L _]. split.
    + intros [Eb Hq]. exists (Nat.lxor (idx x) (2 ^ c)). rewrite lxor_lxor. repeat split; auto.
      * apply strided_In. rewrite W, has_mask_pow2, lxor_pow2_testbit, testbit_idx, Eb, Nat.eqb_refl. split; auto.
        apply lxor_lt. rewrite <- L. apply idx_lt. now apply pow2_lt_pow2.
      * now apply HQ.
    + intros (i & Hi & E & Ei). apply strided_In in Hi. rewrite has_mask_pow2 in Hi.
      assert (Eb : bit x c = false).
      { rewrite <- testbit_idx, <- Ei, lxor_pow2_testbit, Nat.eqb_refl. destruct Hi as [_ ->]. auto. }
      split; auto. apply HQ; auto. now rewrite <- Ei, lxor_lxor.
Qed.

Theorem C37_channel_abstraction : forall s c w lo hi both, wf s -> c < channels s -> w < channels s ->
  channel_abstraction s c = (lo, hi, both) ->
  length lo = channels s /\ length hi = channels s /\ length both = channels s /\
  card (fun x => vs s x /\ bit x c = false /\ weight x = w) (nth w lo 0) /\
  card (fun x => vs s x /\ bit x c = true /\ weight x = S w) (nth w hi 0) /\
  card (fun x => vs s x /\ bit x c = false /\ weight x = w /\ vs s (upd x c true)) (nth w both 0).
Proof.
  intros s c w lo hi both W Hc Hw E. unfold channel_abstraction in E. cbv zeta in E.
  rewrite (fold_triple (fun i => count_ones (Nat.ldiff i (2 ^ c))) (fun i => Nat.b2n (bget (bitmap s) (Nat.lxor i (2 ^ c))))
    (fun i => Nat.b2n (bget (bitmap s) i)) (fun i => Nat.b2n (bget (bitmap s) (Nat.lxor i (2 ^ c)) && bget (bitmap s) i))) in E.
  injection E as E0 E1 E2. subst lo hi both.
  rewrite !(fold_add_at_length (fun i => count_ones (Nat.ldiff i (2 ^ c)))), !repeat_length.
  do 3 (split; auto).
  rewrite !(fold_add_at (fun i => count_ones (Nat.ldiff i (2 ^ c)))) by now rewrite repeat_length.
  rewrite !nth_repeat. simpl plus.
  assert (CW : forall x, vs s x -> count_ones (Nat.ldiff (idx x) (2 ^ c)) + Nat.b2n (bit x c) = weight x).
  { intros x [L _]. apply count_channel. now rewrite L. }
  split; [|split].
  - apply (lo_card s c (fun x => weight x = w) (fun i => count_ones (Nat.ldiff i (2 ^ c)) =? w)); auto.
    intros x HV Eb. rewrite count_channel_lxor, Nat.eqb_eq. specialize (CW x HV). rewrite Eb in CW. simpl in CW. lia.
  - apply (sum_card s _ (fun i => count_ones (Nat.ldiff i (2 ^ c)) =? w) (fun i => i)); auto using strided_NoDup.
    + intros i Hi. apply strided_In in Hi. rewrite W in Hi. tauto.
    + intros x HV. pose proof HV as [L _]. specialize (CW x HV). split.
      * intros [Eb Ew]. rewrite Eb in CW. simpl in CW. exists (idx x). rewrite Nat.eqb_eq. repeat split; auto; [|lia].
        apply strided_In. rewrite W, has_mask_pow2, testbit_idx, <- L. split; auto. apply idx_lt.
      * intros (i & Hi & Ei & ->). apply strided_In in Hi. rewrite has_mask_pow2, testbit_idx in Hi.
        apply Nat.eqb_eq in Ei. destruct Hi as [_ Hb]. rewrite Hb in *. simpl in CW. split; auto. lia.
  - rewrite (sumf_ext _ (fun i => if (count_ones (Nat.ldiff i (2 ^ c)) =? w) && bget (bitmap s) i
        then Nat.b2n (bget (bitmap s) (Nat.lxor i (2 ^ c))) else 0)).
    2:{ intros i _. destruct (count_ones (Nat.ldiff i (2 ^ c)) =? w), (bget (bitmap s) i), (bget (bitmap s) (Nat.lxor i (2 ^ c))); auto. }
    apply (lo_card s c (fun x => weight x = w /\ vs s (upd x c true))
      (fun i => (count_ones (Nat.ldiff i (2 ^ c)) =? w) && bget (bitmap s) i)); auto.
    intros x HV Eb. pose proof HV as [L _]. specialize (CW x HV). rewrite Eb in CW. simpl in CW.
    rewrite count_channel_lxor, andb_true_iff, Nat.eqb_eq. unfold vs at 1. rewrite upd_length, idx_upd, Eb by lia. simpl.
    intuition lia.
Qed.
Print Assumptions C37_channel_abstraction.

Example C37_channel_abstraction_case : channel_abstraction ex4 1 = ([1; 1; 1; 0], [1; 2; 2; 1], [1; 1; 1; 0]) /\
  channel_abstraction ex4 0 = ([1; 2; 2; 1], [0; 1; 1; 1], [0; 1; 1; 1]).
Proof. vm_compute. auto. Qed.

(* the four groups are the values of the two channels, group 0 both 1, group 3 both 0 *)
Theorem C37_channel_pair_abstraction : forall s c0 c1, wf s -> c0 < channels s -> c1 < channels s -> c0 <> c1 ->
  exists k11 k01 k10 k00, channel_pair_abstraction s c0 c1 = [k11; k01; k10; k00] /\
  card (fun x => vs s x /\ bit x c0 = true /\ bit x c1 = true) k11 /\
  card (fun x => vs s x /\ bit x c0 = false /\ bit x c1 = true) k01 /\
  card (fun x => vs s x /\ bit x c0 = true /\ bit x c1 = false) k10 /\
  card (fun x => vs s x /\ bit x c0 = false /\ bit x c1 = false) k00.
Proof.
  intros s c0 c1 W H0 H1 N.
  exists (pair_value s c0 c1 0), (pair_value s c0 c1 1), (pair_value s c0 c1 2), (pair_value s c0 c1 3).
  split.
  { assert (L : length (channel_pair_abstraction s c0 c1) = 4).
    { unfold channel_pair_abstraction. cbv zeta.
      rewrite (fold_sum4 (fun i => Nat.b2n (bget (bitmap s) i)) (fun i => Nat.b2n (bget (bitmap s) (Nat.lxor i (2 ^ c0))))
        (fun i => Nat.b2n (bget (bitmap s) (Nat.lxor i (2 ^ c1)))) (fun i => Nat.b2n (bget (bitmap s) (Nat.lxor i (Nat.lor (2 ^ c0) (2 ^ c1)))))). auto. }
    apply (nth_ext _ _ 0 0); rewrite L; auto. intros g Hg. rewrite pair_abs_nth by auto.
    destruct g as [|[|[|[|g]]]]; auto. lia. }
  assert (B : Nat.lor (2 ^ c0) (2 ^ c1) < 2 ^ channels s).
  { rewrite lor_pow2_lxor by auto. apply lxor_lt; now apply pow2_lt_pow2. }
  assert (G : forall g, g < 4 -> gmask c0 c1 g < 2 ^ channels s).
  { intros g Hg. destruct g as [|[|[|g]]]; simpl; auto; try now apply pow2_lt_pow2. apply Nat.neq_0_lt_0, Nat.pow_nonzero. lia. }
  assert (M : forall g, g < 4 -> card (fun x => vs s x /\ (bit x c0 = negb (Nat.testbit (gmask c0 c1 g) c0) /\ bit x c1 = negb (Nat.testbit (gmask c0 c1 g) c1)))
    (pair_value s c0 c1 g)).
  { intros g Hg. unfold pair_value.
    apply (sum_card s _ (fun _ => true) (fun i => Nat.lxor i (gmask c0 c1 g))); auto using strided_NoDup.
    - intros i Hi. apply (strided_pair_in _ _ (channels s)) in Hi; auto. apply lxor_lt. tauto. auto.
    - intros i j _ _ E. now apply lxor_inj_r in E.
    - intros x HV. pose proof HV as [L _]. split.
      + intros [Ea Eb]. exists (Nat.lxor (idx x) (gmask c0 c1 g)). rewrite lxor_lxor. repeat split; auto.
        apply (strided_pair_in _ _ (channels s)); auto. rewrite !Nat.lxor_spec, !testbit_idx, Ea, Eb. repeat split.
        * apply lxor_lt; auto. rewrite <- L. apply idx_lt.
        * now destruct (Nat.testbit (gmask c0 c1 g) c0).
        * now destruct (Nat.testbit (gmask c0 c1 g) c1).
      + intros (i & Hi & _ & Ei). apply (strided_pair_in _ _ (channels s)) in Hi; auto. destruct Hi as (_ & Ta & Tb).
        rewrite <- !testbit_idx, <- Ei, !Nat.lxor_spec, Ta, Tb. auto. }
  assert (N' : c1 <> c0) by auto. apply Nat.eqb_neq in N, N'.
  repeat split; [specialize (M 0)|specialize (M 1)|specialize (M 2)|specialize (M 3)];
    rewrite !gmask_bits in M by lia; rewrite ?Nat.eqb_refl, ?N, ?N', ?orb_true_r in M; apply M; lia.
Qed.
Print Assumptions C37_channel_pair_abstraction.

Example C37_channel_pair_abstraction_case : channel_pair_abstraction ex4 0 1 = [3; 3; 0; 3] /\
  channel_pair_abstraction ex4 1 0 = [3; 0; 3; 3] /\ channel_pair_abstraction ex4 0 2 <> channel_pair_abstraction ex4 1 3.
Proof. vm_compute. repeat split; auto; discriminate. Qed.
