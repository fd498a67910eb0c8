(* Huffman combination with cost max+1: the greedy result is the least B with sum 2^v <= 2^B. *)
From Coq Require Import List Arith Bool Lia Permutation.
Import ListNotations.
From Verif Require Import Spec Net Util HuffmanModel.

Global Opaque U8_MAX.

Lemma pow2_pos k : 0 < 2 ^ k.
Proof. apply Nat.neq_0_lt_0, Nat.pow_nonzero. lia. Qed.

Lemma kraft_multiple b r : (forall v, In v r -> b <= v) -> exists q, kraft r = q * 2 ^ b.
Proof.
  induction r as [|v r IH]; intros H; simpl. exists 0; auto.
  destruct IH as (q & E). intros; apply H; now right.
  exists (2 ^ (v - b) + q). rewrite E. replace v with (v - b + b) at 1 by (specialize (H v (or_introl eq_refl)); lia).
  rewrite Nat.pow_add_r. lia.
Qed.

(* merging the two smallest values does not change which powers of two bound the sum *)
Lemma kraft_merge a b r K : a <= b -> (forall v, In v r -> b <= v) ->
  (kraft (a :: b :: r) <= 2 ^ K <-> kraft (Nat.max a b + 1 :: r) <= 2 ^ K).
Proof.
  intros Hab Hr. rewrite Nat.max_r by auto. simpl kraft. rewrite (Nat.add_comm b 1). simpl (2 ^ (1 + b)).
  destruct (kraft_multiple b r Hr) as (q & E). rewrite E. pose proof (pow2_pos a). split; intros H1.
  - assert (b < K). { destruct (le_lt_dec K b); auto. pose proof (Nat.pow_le_mono_r 2 K b ltac:(lia) l). lia. }
    replace K with (K - b + b) in * by lia. rewrite Nat.pow_add_r in *.
    set (P := 2 ^ b) in *. set (M := 2 ^ (K - b)) in *. assert (0 < P) by apply pow2_pos.
    assert (1 + q < M) by nia. nia.
  - pose proof (Nat.pow_le_mono_r 2 a b ltac:(lia) Hab). lia.
Qed.

Lemma Srt_nat_In a l : Srt Nat.leb (a :: l) -> forall v, In v l -> a <= v.
Proof. intros H v Hv. inversion H as [|? ? Ha Hs]; subst. apply Nat.leb_le. auto. Qed.

Lemma nat_leb_total a b : Nat.leb a b = true \/ Nat.leb b a = true.
Proof. rewrite !Nat.leb_le. lia. Qed.
Lemma nat_leb_trans a b c : Nat.leb a b = true -> Nat.leb b c = true -> Nat.leb a c = true.
Proof. rewrite !Nat.leb_le. lia. Qed.
Lemma nat_leb_antisym a b : Nat.leb a b = true -> Nat.leb b a = true -> a = b.
Proof. rewrite !Nat.leb_le. lia. Qed.

Lemma isort_nat_Srt l : Srt Nat.leb (isort Nat.leb l).
Proof. apply isort_Srt. exact nat_leb_total. exact nat_leb_trans. Qed.

Lemma insert_nat_Srt a l : Srt Nat.leb l -> Srt Nat.leb (insert_sorted Nat.leb a l).
Proof. apply insert_sorted_Srt. exact nat_leb_total. exact nat_leb_trans. Qed.

Lemma Srt_tail {A} (leb : A -> A -> bool) a l : Srt leb (a :: l) -> Srt leb l.
Proof. intros H. now inversion H. Qed.

Lemma huffman_loop_spec fuel : forall heap, length heap < fuel -> heap <> [] -> Srt Nat.leb heap ->
  (kraft heap <= 2 ^ U8_MAX -> exists r, huffman_loop fuel heap = Some r) /\
  (forall r, huffman_loop fuel heap = Some r -> forall K, kraft heap <= 2 ^ K <-> r <= K).
Proof.
  induction fuel as [|f IH]; intros heap L Hne S; [lia|]. destruct heap as [|a [|b r]]; [congruence| |].
  - cbn [huffman_loop]. split; [eauto|]. intros r E K. injection E as <-. simpl.
    rewrite Nat.add_0_r. symmetry. apply Nat.pow_le_mono_r_iff. lia.
  - cbn [huffman_loop]. cbv zeta. pose proof (Srt_nat_In _ _ S b (or_introl eq_refl)) as Hab.
    assert (Hr : forall v, In v r -> b <= v) by (apply Srt_nat_In; now apply Srt_tail in S).
    assert (M := fun K => kraft_merge a b r K Hab Hr).
    set (v := Nat.max a b + 1) in *.
    assert (P : forall K, kraft (insert_sorted Nat.leb v r) <= 2 ^ K <-> kraft (a :: b :: r) <= 2 ^ K).
    { intros K. rewrite M. now rewrite (kraft_perm _ _ (insert_sorted_perm Nat.leb v r)). }
    destruct (IH (insert_sorted Nat.leb v r)) as [I1 I2].
    { rewrite (Permutation_length (insert_sorted_perm Nat.leb v r)). simpl in *. lia. }
    { intros E. pose proof (Permutation_length (insert_sorted_perm Nat.leb v r)) as Q. rewrite E in Q. discriminate. }
    { apply insert_nat_Srt. apply Srt_tail in S. now apply Srt_tail in S. }
    split.
    + intros H. assert (V : v <= U8_MAX).
      { apply M in H. simpl kraft in H. apply (Nat.pow_le_mono_r_iff 2). lia. lia. }
      assert (E : (U8_MAX <? v) = false) by (apply Nat.ltb_ge; auto). rewrite E. apply I1. now apply P.
    + intros res E K. destruct (U8_MAX <? v); [discriminate|]. rewrite <- P. now apply I2.
Qed.

Theorem huffman_kraft values r : values <> [] -> max_plus_1_huffman values = Some r ->
  forall K, kraft values <= 2 ^ K <-> r <= K.
Proof.
  intros Hne E K. rewrite <- (kraft_perm _ _ (isort_perm Nat.leb values)).
  apply (huffman_loop_spec (S (length values)) (isort Nat.leb values)); auto.
  - rewrite isort_length. lia.
  - intros Q. apply Hne. apply (f_equal (@length nat)) in Q. rewrite isort_length in Q. now destruct values.
  - apply isort_nat_Srt.
Qed.

Theorem huffman_defined values : kraft values <= 2 ^ U8_MAX -> exists r, max_plus_1_huffman values = Some r.
Proof.
  intros H. destruct values as [|v values]. exists 0; reflexivity.
  apply (huffman_loop_spec (S (length (v :: values))) (isort Nat.leb (v :: values))).
  - rewrite isort_length. lia.
  - intros Q. apply (f_equal (@length nat)) in Q. rewrite isort_length in Q. discriminate.
  - apply isort_nat_Srt.
  - now rewrite (kraft_perm _ _ (isort_perm Nat.leb (v :: values))).
Qed.

Lemma kraft_bound m l : (forall v, In v l -> v <= m) -> kraft l <= length l * 2 ^ m.
Proof.
  induction l as [|v l IH]; intros H; simpl; auto.
  pose proof (Nat.pow_le_mono_r 2 v m ltac:(lia) (H v (or_introl eq_refl))).
  specialize (IH (fun w Hw => H w (or_intror Hw))). lia.
Qed.

Lemma huffman_no_overflow values :
  (forall v, In v values -> v + Nat.log2_up (length values) <= U8_MAX) ->
  exists r, max_plus_1_huffman values = Some r.
Proof.
  intros H. apply huffman_defined. destruct values as [|v0 values]. simpl. pose proof (pow2_pos U8_MAX). lia.
  set (L := length (v0 :: values)) in *.
  pose proof (kraft_bound (U8_MAX - Nat.log2_up L) (v0 :: values)) as B. fold L in B.
  assert (Q : L <= 2 ^ Nat.log2_up L). { destruct (Nat.eq_dec L 1) as [->|]. simpl. lia. apply Nat.log2_up_spec. unfold L in *. simpl in *. lia. }
  pose proof (H v0 (or_introl eq_refl)).
  etransitivity. apply B. intros v Hv. specialize (H v Hv). lia.
  replace U8_MAX with (Nat.log2_up L + (U8_MAX - Nat.log2_up L)) at 2 by lia. rewrite Nat.pow_add_r.
  now apply Nat.mul_le_mono_r.
Qed.

(* ---------- trees ---------- *)

Lemma tree_kraft t : kraft (leaves t) <= 2 ^ cost t.
Proof.
  induction t as [v|l IHl r IHr]. simpl. lia.
  cbn [leaves cost]. rewrite kraft_app, Nat.pow_succ_r'.
  pose proof (Nat.pow_le_mono_r 2 _ _ ltac:(lia) (Nat.le_max_l (cost l) (cost r))).
  pose proof (Nat.pow_le_mono_r 2 _ _ ltac:(lia) (Nat.le_max_r (cost l) (cost r))). lia.
Qed.

Definition forest_leaves (ts : list tree) : list nat := flat_map leaves ts.

Lemma forest_perm ts ts' : Permutation ts ts' -> Permutation (forest_leaves ts) (forest_leaves ts').
Proof.
  intros P. induction P; simpl; auto.
  - now apply Permutation_app_head.
  - rewrite !app_assoc. apply Permutation_app_tail, Permutation_app_comm.
  - now rewrite IHP1.
Qed.

Lemma forest_join : forall n ts, length ts = n -> ts <> [] -> forall K,
  kraft (map cost ts) <= 2 ^ K ->
  exists t, Permutation (leaves t) (forest_leaves ts) /\ cost t <= K.
Proof.
  induction n as [|n IH]; intros ts L Hne K HK. destruct ts; [congruence|discriminate].
  destruct ts as [|t0 [|t1 ts]]; [congruence| |].
  - exists t0. simpl. rewrite app_nil_r. split; auto. simpl in HK. rewrite Nat.add_0_r in HK.
    apply (Nat.pow_le_mono_r_iff 2); auto; lia.
  - pose proof (isort_nat_Srt (map cost (t0 :: t1 :: ts))) as So.
    pose proof (isort_perm Nat.leb (map cost (t0 :: t1 :: ts))) as P.
    destruct (Permutation_map_inv cost _ P) as (us & E & Q).
    rewrite E in So. assert (Lu : length us = S n) by (rewrite <- (Permutation_length Q); auto).
    destruct us as [|a [|b us]]; [discriminate| simpl in *; lia|].
    simpl map in So. pose proof (Srt_nat_In _ _ So _ (or_introl eq_refl)) as Hab.
    apply Srt_tail in So. pose proof (Srt_nat_In _ _ So) as Hr.
    destruct (IH (Node a b :: us)) with (K := K) as (t & Pt & Ct).
    { simpl in *. lia. } { discriminate. }
    { simpl map. replace (S (Nat.max (cost a) (cost b))) with (Nat.max (cost a) (cost b) + 1) by lia.
      apply kraft_merge; auto. change (cost a :: cost b :: map cost us) with (map cost (a :: b :: us)).
      now rewrite <- (kraft_perm _ _ (Permutation_map cost Q)). }
    exists t. split; auto. rewrite Pt. rewrite (forest_perm _ _ Q). simpl. now rewrite app_assoc.
Qed.

Lemma forest_leaf values : forest_leaves (map Leaf values) = values.
Proof. induction values; simpl; auto. unfold forest_leaves in *. simpl. now rewrite IHvalues. Qed.

Theorem kraft_tree values K : values <> [] ->
  (kraft values <= 2 ^ K <-> exists t, Permutation (leaves t) values /\ cost t <= K).
Proof.
  intros Hne. split.
  - intros H. destruct (forest_join _ (map Leaf values) eq_refl) with (K := K) as (t & P & C).
    { destruct values; [congruence|discriminate]. } { rewrite map_map. simpl. now rewrite map_id. }
    exists t. now rewrite forest_leaf in P.
  - intros (t & P & C). rewrite <- (kraft_perm _ _ P). rewrite (tree_kraft t). apply Nat.pow_le_mono_r; lia.
Qed.

Lemma huffman_perm a b : Permutation a b -> max_plus_1_huffman a = max_plus_1_huffman b.
Proof.
  intros P. unfold max_plus_1_huffman. rewrite (Permutation_length P).
  f_equal. apply isort_perm_eq; auto. exact nat_leb_total. exact nat_leb_trans. exact nat_leb_antisym.
Qed.

Lemma huffman_loop_byte fuel : forall heap r, (forall v, In v heap -> v <= U8_MAX) ->
  huffman_loop fuel heap = Some r -> r <= U8_MAX.
Proof.
  induction fuel as [|f IH]; intros heap r H E; [discriminate|]. cbn [huffman_loop] in E.
  destruct heap as [|a [|b l]].
  - injection E as <-. lia.
  - injection E as <-. apply H. now left.
  - cbv zeta in E. destruct (U8_MAX <? Nat.max a b + 1) eqn:Q; [discriminate|]. apply Nat.ltb_ge in Q.
    apply (IH _ _) in E; auto. intros v Hv.
    apply (Permutation_in _ (insert_sorted_perm Nat.leb _ l)) in Hv. destruct Hv as [<-|Hv]; auto.
    apply H. right. now right.
Qed.

Lemma huffman_byte values r : (forall v, In v values -> v <= U8_MAX) ->
  max_plus_1_huffman values = Some r -> r <= U8_MAX.
Proof.
  intros H E. apply huffman_loop_byte in E; auto. intros v Hv. apply H.
  now apply (Permutation_in _ (isort_perm Nat.leb values)).
Qed.
