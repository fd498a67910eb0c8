(* Counting: len, weight_histogram, the fingerprints and the pair counts are cardinalities of sets of
   vectors, hence invariant under relabelling. *)
From Coq Require Import List Arith Bool Lia Permutation.
Import ListNotations.
From Verif Require Import Spec Vec Net Graded Bits Util OutputSetModel OutputSetProofs.

(* ---------- cardinalities ---------- *)

Lemma card_inj_le (f : vec -> vec) (V W : vset) k m : card V k -> card W m ->
  (forall x, V x -> W (f x)) -> (forall x y, V x -> V y -> f x = f y -> x = y) -> k <= m.
Proof.
  intros (l & Nl & Il & <-) (r & Nr & Ir & <-) Hf Hi.
  rewrite <- (map_length f l). apply NoDup_incl_length.
  - clear Nr Ir r Hf. assert (Q : forall x, In x l -> V x) by (intros; now apply Il). clear Il.
    induction l as [|a l IH]; simpl; constructor.
    + rewrite in_map_iff. intros (y & E & Hy). apply NoDup_cons_iff in Nl. destruct Nl as [Na Nl].
      apply Na. apply Hi in E; auto. now subst. apply Q; now right. apply Q; now left.
    + apply IH. now apply NoDup_cons_iff in Nl. intros; apply Q; now right.
  - intros y Hy. apply in_map_iff in Hy. destruct Hy as (x & <- & Hx). apply Ir, Hf, Il, Hx.
Qed.

Lemma card_subset_le V W k m : card V k -> card W m -> subset V W -> k <= m.
Proof. intros HV HW S. apply (card_inj_le (fun x => x) V W); auto. Qed.

Lemma card_unique V W k m : card V k -> card W m -> same_set V W -> k = m.
Proof.
  intros HV HW S. apply Nat.le_antisymm.
  - apply (card_subset_le V W); auto. intros x. apply S.
  - apply (card_subset_le W V); auto. intros x. apply S.
Qed.

Lemma card_same V W k : same_set V W -> card V k -> card W k.
Proof. intros S (l & N & I & L). exists l. split; auto. split; auto. intros x. rewrite I. apply S. Qed.

Lemma NoDup_map_on {A B} (f : A -> B) l : NoDup l -> (forall x y, In x l -> In y l -> f x = f y -> x = y) -> NoDup (map f l).
Proof.
  induction 1 as [|a l Ha N IH]; intros Hi; simpl; constructor.
  - rewrite in_map_iff. intros (y & E & Hy). apply Ha. rewrite (Hi a y); simpl; auto.
  - apply IH. intros; apply Hi; simpl; auto.
Qed.

Lemma card_image f V k : card V k -> (forall x y, V x -> V y -> f x = f y -> x = y) -> card (image f V) k.
Proof.
  intros (l & N & I & L) Hi. exists (map f l). split. apply NoDup_map_on; auto.
  intros x y Hx Hy. apply Hi; now apply I. split. 2: now rewrite map_length.
  intros y. rewrite in_map_iff. unfold image. split; intros (x & H1 & H2); exists x; split; auto; try now apply I.
Qed.

(* ---------- sums ---------- *)

Definition sumf {A} (f : A -> nat) (l : list A) : nat := fold_right (fun a s => f a + s) 0 l.

Lemma sumf_ext {A} (f g : A -> nat) l : (forall a, In a l -> f a = g a) -> sumf f l = sumf g l.
Proof. intros H. induction l as [|a l IH]; simpl; auto. rewrite H, IH; simpl; auto. intros; apply H; now right. Qed.

Lemma sumf_perm {A} (f : A -> nat) l l' : Permutation l l' -> sumf f l = sumf f l'.
Proof. induction 1; simpl; lia. Qed.

Lemma sumf_filter {A} (p : A -> bool) l : sumf (fun a => Nat.b2n (p a)) l = length (filter p l).
Proof. induction l as [|a l IH]; simpl; auto. destruct (p a); simpl; lia. Qed.

Lemma fold_add {A} (f : A -> nat) l a0 : fold_left (fun a x => a + f x) l a0 = a0 + sumf f l.
Proof. revert a0. induction l as [|x l IH]; intros; simpl; [lia|]. rewrite IH. lia. Qed.

Lemma fold_add_at {A} (pos val : A -> nat) l : forall buf p, p < length buf ->
  nth p (fold_left (fun b i => add_at b (pos i) (val i)) l buf) 0 =
  nth p buf 0 + sumf (fun i => if pos i =? p then val i else 0) l.
Proof.
  induction l as [|i l IH]; intros buf p H; simpl; [lia|].
  rewrite IH by (unfold add_at; now rewrite upd_length). unfold add_at. rewrite upd_nth.
  rewrite (Nat.eqb_sym (pos i) p). destruct (p =? pos i) eqn:E.
  - apply Nat.eqb_eq in E. subst p. apply Nat.ltb_lt in H. rewrite H. simpl. lia.
  - simpl. lia.
Qed.

Lemma fold_add_at_length {A} (pos val : A -> nat) l : forall buf,
  length (fold_left (fun b i => add_at b (pos i) (val i)) l buf) = length buf.
Proof. induction l; intros; simpl; auto. rewrite IHl. unfold add_at. now rewrite upd_length. Qed.

(* a sum over bitmap positions counts the members selected *)
Lemma sum_card s (l : list nat) (sel : nat -> bool) (g : nat -> nat) (Q : vec -> Prop) : wf s -> NoDup l ->
  (forall i, In i l -> g i < 2 ^ channels s) ->
  (forall i j, In i l -> In j l -> g i = g j -> i = j) ->
  (forall x, vs s x -> (Q x <-> exists i, In i l /\ sel i = true /\ g i = idx x)) ->
  card (fun x => vs s x /\ Q x) (sumf (fun i => if sel i then Nat.b2n (bget (bitmap s) (g i)) else 0) l).
Proof.
  intros W N Hg Hi HQ.
  exists (map (fun i => vec_of (channels s) (g i)) (filter (fun i => sel i && bget (bitmap s) (g i)) l)).
  split.
  - apply NoDup_map_on. now apply NoDup_filter. intros i j Ei Ej E. apply filter_In in Ei, Ej.
    apply Hi; try tauto. rewrite <- (idx_vec_of (channels s) (g i)), <- (idx_vec_of (channels s) (g j)); try (apply Hg; tauto).
    now rewrite E.
  - split.
    + intros x. rewrite in_map_iff. split.
      * intros (i & <- & Hf). apply filter_In in Hf. destruct Hf as [Hl Hf]. apply andb_true_iff in Hf.
        assert (HV : vs s (vec_of (channels s) (g i))) by (apply vs_vec_of; auto; tauto). split; auto.
        apply HQ; auto. exists i. rewrite idx_vec_of by auto. tauto.
      * intros [HV Hq]. apply HQ in Hq; auto. destruct Hq as (i & Hl & Hs & E). exists i. split.
        -- rewrite E. destruct HV as [L _]. rewrite <- L. apply vec_of_idx.
        -- apply filter_In. split; auto. rewrite Hs, E. apply HV.
    + rewrite map_length, <- sumf_filter. apply sumf_ext. intros i _. destruct (sel i); auto.
Qed.

Lemma enumerate_map {A} (d : A) (l : list A) : enumerate l = map (fun i => (i, nth i l d)) (seq 0 (length l)).
Proof.
  unfold enumerate. rewrite <- (map_id (seq 0 (length l))) at 1.
  assert (G : forall k (l : list A), combine (map (fun x => x) (seq k (length l))) l =
     map (fun i => (i, nth (i - k) l d)) (seq k (length l))).
  { clear. intros k l. revert k. induction l as [|a l IH]; intros k; simpl; auto. rewrite Nat.sub_diag. f_equal.
    rewrite IH. apply map_ext_in. intros i Hi. apply in_seq in Hi. replace (i - k) with (S (i - S k)) by lia. auto. }
  rewrite G. apply map_ext. intros i. now rewrite Nat.sub_0_r.
Qed.

Lemma fold_enumerate {B} (f : B -> nat * bool -> B) bm b :
  fold_left f (enumerate bm) b = fold_left (fun b i => f b (i, bget bm i)) (seq 0 (length bm)) b.
Proof.
  rewrite (enumerate_map false). generalize (seq 0 (length bm)) at 1 2. intros l. revert b.
  induction l; intros; simpl; auto.
Qed.

(* ---------- len ---------- *)

Lemma os_len_seq s : os_len s = sumf (fun i => Nat.b2n (bget (bitmap s) i)) (seq 0 (length (bitmap s))).
Proof.
  unfold os_len. rewrite fold_add. simpl. generalize (bitmap s). intros l.
  assert (G : forall k, sumf Nat.b2n l = sumf (fun i => Nat.b2n (nth (i - k) l false)) (seq k (length l))).
  { induction l as [|a l IH]; intros k; simpl; auto. rewrite Nat.sub_diag. f_equal. rewrite (IH (S k)).
    apply sumf_ext. intros i Hi. apply in_seq in Hi. replace (i - k) with (S (i - S k)) by lia. auto. }
  rewrite (G 0). apply sumf_ext. intros i _. now rewrite Nat.sub_0_r.
Qed.

Lemma os_len_card s : wf s -> card (vs s) (os_len s).
Proof.
  intros W. rewrite os_len_seq.
  pose proof (sum_card s (seq 0 (length (bitmap s))) (fun _ => true) (fun i => i) (fun _ => True) W (seq_NoDup _ _)) as C.
  apply (card_same (fun x => vs s x /\ True)).
  - intros x. tauto.
  - apply C; auto.
    + intros i Hi. apply in_seq in Hi. rewrite W in Hi. lia.
    + intros x [L _]. split; auto. intros _. exists (idx x). split; auto. apply in_seq. rewrite W, <- L.
      pose proof (idx_lt x). lia.
Qed.

Lemma vs_finite s : wf s -> exists k, card (vs s) k.
Proof. intros W. exists (os_len s). now apply os_len_card. Qed.

(* ---------- weight_histogram ---------- *)

Lemma histogram_card s w : wf s -> w <= channels s ->
  card (fun x => vs s x /\ weight x = w) (nth w (weight_histogram s) 0).
Proof.
  intros W Hw. unfold weight_histogram. rewrite fold_enumerate. cbn [fst snd].
  cbv zeta.
  rewrite fold_add_at with (pos := count_ones) (val := fun i => Nat.b2n (bget (bitmap s) i)) by (rewrite repeat_length; lia).
  rewrite nth_repeat. simpl plus.
  apply (sum_card s _ (fun i => count_ones i =? w) (fun i => i)); auto using seq_NoDup.
  - intros i Hi. apply in_seq in Hi. rewrite W in Hi. lia.
  - intros x [L _]. split.
    + intros E. exists (idx x). rewrite count_ones_idx, E, Nat.eqb_refl. repeat split; auto.
      apply in_seq. rewrite W, <- L. pose proof (idx_lt x). lia.
    + intros (i & _ & E & ->). rewrite count_ones_idx in E. now apply Nat.eqb_eq.
Qed.

Lemma histogram_length s : length (weight_histogram s) = channels s + 1.
Proof.
  unfold weight_histogram. rewrite fold_enumerate. cbn [fst snd].
  cbv zeta.
  rewrite fold_add_at_length with (pos := count_ones) (val := fun i => Nat.b2n (bget (bitmap s) i)). apply repeat_length.
Qed.

(* ---------- channel_fingerprint ---------- *)

Definition ones_on (s : OutputSet) (c : nat) : nat :=
  sumf (fun i => Nat.b2n (bget (bitmap s) i)) (strided (length (bitmap s)) (2 ^ c)).

Lemma ones_on_card s c : wf s -> card (fun x => vs s x /\ bit x c = true) (ones_on s c).
Proof.
  intros W. unfold ones_on.
  apply (sum_card s _ (fun _ => true) (fun i => i)); auto using strided_NoDup.
  - intros i Hi. apply strided_In in Hi. rewrite W in Hi. tauto.
  - intros x [L _]. split.
    + intros E. exists (idx x). split; auto. apply strided_In. rewrite W, has_mask_pow2, testbit_idx, <- L. split; auto. apply idx_lt.
    + intros (i & Hi & _ & ->). apply strided_In in Hi. rewrite has_mask_pow2, testbit_idx in Hi. tauto.
Qed.

Lemma channel_fingerprint_eq s c : wf s -> c < channels s ->
  channel_fingerprint s c =
    Nat.b2n (bget (bitmap s) (idx (extremal_vec (channels s) false c))) +
    2 * Nat.b2n (bget (bitmap s) (idx (extremal_vec (channels s) true c))) + 4 * ones_on s c.
Proof.
  intros W Hc. unfold channel_fingerprint. cbv zeta.
  rewrite fold_add with (f := fun index => Nat.b2n (bget (bitmap s) index) * 4).
  assert (E : sumf (fun index => Nat.b2n (bget (bitmap s) index) * 4) (strided (length (bitmap s)) (2 ^ c)) = 4 * ones_on s c).
  { unfold ones_on. generalize (strided (length (bitmap s)) (2 ^ c)). induction l as [|a l IH]; simpl in *; [lia|]. rewrite IH. lia. }
  rewrite E. rewrite <- !extremal_idx by auto. simpl Nat.b2n. rewrite Nat.mul_0_r, Nat.mul_1_r, Nat.lxor_0_r, W. lia.
Qed.

Lemma unit_vec_permute n p c : is_perm n p -> c < n -> permute p (unit_vec n (nth c p 0)) = unit_vec n c.
Proof.
  intros P Hc. apply vec_ext. rewrite permute_length, unit_vec_length. now apply is_perm_length.
  rewrite permute_length, (is_perm_length _ _ P). intros i Hi.
  rewrite bit_permute by (rewrite (is_perm_length _ _ P); auto).
  rewrite !bit_unit_vec by (auto; now apply is_perm_nth).
  destruct (Nat.eqb_spec i c) as [->|Ne]. apply Nat.eqb_refl.
  apply Nat.eqb_neq. intros E. apply Ne. apply (is_perm_inj n p); auto.
Qed.

Lemma permute_inj n p x y : is_perm n p -> length x = n -> length y = n -> permute p x = permute p y -> x = y.
Proof. intros P Lx Ly E. rewrite <- (permute_inv n p x), <- (permute_inv n p y) by auto. now rewrite E. Qed.

(* t is s relabelled by p *)
Definition relabelled (p : list nat) (s t : OutputSet) : Prop :=
  wf s /\ wf t /\ channels t = channels s /\ is_perm (channels s) p /\ same_set (vs t) (image (permute p) (vs s)).

Lemma relabelled_mem p s t x : relabelled p s t -> length x = channels s -> (vs t (permute p x) <-> vs s x).
Proof.
  intros (Ws & Wt & C & P & S) L. split.
  - intros H. apply S in H. destruct H as (y & Hy & E). apply (permute_inj (channels s)) in E; auto. now subst. apply Hy.
  - intros H. apply S. exists x; auto.
Qed.

Lemma relabelled_card p s t (Q : vec -> Prop) (R : vec -> Prop) k m : relabelled p s t ->
  (forall x, vs s x -> (Q x <-> R (permute p x))) ->
  card (fun x => vs s x /\ Q x) k -> card (fun y => vs t y /\ R y) m -> k = m.
Proof.
  intros Rel H C1 C2. apply (card_unique (image (permute p) (fun x => vs s x /\ Q x)) (fun y => vs t y /\ R y)); auto.
  - apply card_image; auto. intros x y [Hx _] [Hy _]. apply (permute_inj (channels s)); auto. apply Rel. apply Hx. apply Hy.
  - intros y. split.
    + intros (x & [Hx Hq] & ->). split. apply (relabelled_mem p s t); auto. apply Hx. now apply H.
    + intros [Hy Hr]. destruct Rel as (Ws & Wt & C & P & S). apply S in Hy. destruct Hy as (x & Hx & ->).
      exists x. split; auto. split; auto. now apply H.
Qed.

Lemma relabelled_bget p s t x : relabelled p s t -> length x = channels s ->
  bget (bitmap t) (idx (permute p x)) = bget (bitmap s) (idx x).
Proof.
  intros R L. pose proof (relabelled_mem p s t x R L) as H. destruct R as (Ws & Wt & C & P & S).
  unfold vs in H. rewrite permute_length, (is_perm_length _ _ P), C in H.
  destruct (bget (bitmap t) (idx (permute p x))), (bget (bitmap s) (idx x)); auto; intuition congruence.
Qed.

Lemma channel_fingerprint_relabel p s t c : relabelled p s t -> c < channels s ->
  channel_fingerprint t c = channel_fingerprint s (nth c p 0).
Proof.
  intros R Hc. pose proof R as (Ws & Wt & C & P & S).
  assert (Hp : nth c p 0 < channels s) by now apply is_perm_nth.
  rewrite !channel_fingerprint_eq by (auto; congruence).
  assert (E : forall pol, extremal_vec (channels t) pol c = permute p (extremal_vec (channels s) pol (nth c p 0))).
  { intros pol. unfold extremal_vec. rewrite C, (permute_complement_if (channels s)) by (auto using unit_vec_length).
    now rewrite unit_vec_permute. }
  rewrite !E, !(relabelled_bget p s t) by (auto; unfold extremal_vec; rewrite complement_if_length; apply unit_vec_length).
  do 2 f_equal. symmetry.
  apply (relabelled_card p s t (fun x => bit x (nth c p 0) = true) (fun y => bit y c = true)); auto using ones_on_card.
  intros x _. rewrite bit_permute by (rewrite (is_perm_length _ _ P); auto). tauto.
Qed.

(* ---------- low-channel fingerprints ---------- *)

Lemma land_low k x : Nat.land (idx x) (2 ^ k - 1) = idx (firstn k x).
Proof.
  apply nat_ext_bits. intros i. rewrite Nat.land_spec, ones_testbit, !testbit_idx. unfold bit.
  destruct (i <? k) eqn:E.
  - apply Nat.ltb_lt in E. rewrite andb_true_r. revert k i E. induction x as [|a x IH]; intros [|k] [|i] E; simpl; auto; try lia.
    apply IH. lia.
  - apply Nat.ltb_ge in E. rewrite andb_false_r. symmetry. apply nth_overflow. rewrite firstn_length. lia.
Qed.

Definition clear_low (k : nat) (x : vec) : vec := repeat false (Nat.min k (length x)) ++ skipn k x.

Lemma clear_low_length k x : length (clear_low k x) = length x.
Proof. unfold clear_low. rewrite app_length, repeat_length, skipn_length. lia. Qed.

Lemma bit_clear_low k x i : bit (clear_low k x) i = if i <? k then false else bit x i.
Proof.
  unfold bit, clear_low. destruct (i <? k) eqn:E.
  - apply Nat.ltb_lt in E. destruct (le_lt_dec (length x) i).
    + apply nth_overflow. fold (clear_low k x). rewrite clear_low_length. auto.
    + rewrite app_nth1 by (rewrite repeat_length; lia). apply nth_repeat.
  - apply Nat.ltb_ge in E. destruct (le_lt_dec (length x) i).
    + rewrite !nth_overflow; auto. fold (clear_low k x). now rewrite clear_low_length.
    + rewrite app_nth2 by (rewrite repeat_length; lia). rewrite repeat_length.
      replace (Nat.min k (length x)) with k by lia. clear l. revert k i E. induction x as [|a x IH]; intros [|k] [|i] E; simpl; auto; try lia.
      destruct (i - k); auto. apply IH. lia.
Qed.

Lemma weight_clear_low k x : weight (clear_low k x) + weight (firstn k x) = weight x.
Proof.
  rewrite <- (firstn_skipn k x) at 3. unfold clear_low. rewrite !weight_app, zero_vec_weight. lia.
Qed.

Lemma ldiff_low k x : Nat.ldiff (idx x) (2 ^ k - 1) = idx (clear_low k x).
Proof.
  apply nat_ext_bits. intros i. rewrite Nat.ldiff_spec, ones_testbit, !testbit_idx, bit_clear_low.
  destruct (i <? k); auto using andb_true_r, andb_false_r.
Qed.

Definition high_weight (k : nat) (x : vec) : nat := weight x - weight (firstn k x).

Lemma count_high k x : count_ones (Nat.ldiff (idx x) (2 ^ k - 1)) = high_weight k x.
Proof. rewrite ldiff_low, count_ones_idx. unfold high_weight. pose proof (weight_clear_low k x). lia. Qed.

Definition bucket (weights k : nat) (x : vec) : nat := high_weight k x + weights * idx (firstn k x).

Lemma low_fp_card s k q : wf s -> q < (channels s + 1 - k) * 2 ^ k ->
  card (fun x => vs s x /\ bucket (channels s + 1 - k) k x = q) (nth q (low_channels_fingerprint_buffer s k) 0).
Proof.
  intros W Hq. unfold low_channels_fingerprint_buffer. rewrite fold_enumerate. cbn [fst snd]. cbv zeta.
  rewrite fold_add_at with
    (pos := fun i => count_ones (Nat.ldiff i (2 ^ k - 1)) + (channels s + 1 - k) * Nat.land i (2 ^ k - 1))
    (val := fun i => Nat.b2n (bget (bitmap s) i)) by (rewrite repeat_length; lia).
  rewrite nth_repeat. simpl plus.
  apply (sum_card s _ (fun i => count_ones (Nat.ldiff i (2 ^ k - 1)) + (channels s + 1 - k) * Nat.land i (2 ^ k - 1) =? q) (fun i => i));
    auto using seq_NoDup.
  - intros i Hi. apply in_seq in Hi. rewrite W in Hi. lia.
  - intros x [L _]. split.
    + intros E. exists (idx x). rewrite count_high, land_low. fold (bucket (channels s + 1 - k) k x). rewrite E, Nat.eqb_refl.
      repeat split; auto. apply in_seq. rewrite W, <- L. pose proof (idx_lt x). lia.
    + intros (i & _ & E & ->). rewrite count_high, land_low in E. now apply Nat.eqb_eq.
Qed.

Lemma low_fp_length s k : length (low_channels_fingerprint_buffer s k) = (channels s + 1 - k) * 2 ^ k.
Proof.
  unfold low_channels_fingerprint_buffer. rewrite fold_enumerate. cbn [fst snd]. cbv zeta.
  rewrite fold_add_at_length with
    (pos := fun i => count_ones (Nat.ldiff i (2 ^ k - 1)) + (channels s + 1 - k) * Nat.land i (2 ^ k - 1))
    (val := fun i => Nat.b2n (bget (bitmap s) i)).
  apply repeat_length.
Qed.

(* p keeps the channels below k in place *)
Definition fixes_low (k : nat) (p : list nat) : Prop := forall i, i < k -> nth i p 0 = i.

Lemma firstn_permute n p k x : is_perm n p -> fixes_low k p -> k <= n -> length x = n ->
  firstn k (permute p x) = firstn k x.
Proof.
  intros P F Hk L. pose proof (is_perm_length _ _ P) as Lp.
  apply nth_ext_lt with (d := false). rewrite !firstn_length, permute_length; lia.
  rewrite firstn_length, permute_length. intros i Hi.
  assert (G : forall (y : vec), nth i (firstn k y) false = bit y i).
  { intros y. unfold bit. assert (Hik : i < k) by lia. clear - Hik. revert k i Hik. induction y as [|a y IH]; intros [|k] [|i] H; simpl; auto; try lia.
    apply IH. lia. }
  rewrite !G, bit_permute, F by lia. auto.
Qed.

Lemma bucket_permute n p k ws x : is_perm n p -> fixes_low k p -> k <= n -> length x = n ->
  bucket ws k (permute p x) = bucket ws k x.
Proof.
  intros P F Hk L. unfold bucket, high_weight. rewrite (firstn_permute n p k x), (permute_weight n p x) by auto. auto.
Qed.

Lemma low_fp_relabel p s t k : relabelled p s t -> k <= channels s -> fixes_low k p ->
  low_channels_fingerprint_buffer t k = low_channels_fingerprint_buffer s k.
Proof.
  intros R Hk F. pose proof R as (Ws & Wt & C & P & S).
  apply nth_ext_lt with (d := 0). now rewrite !low_fp_length, C.
  rewrite low_fp_length, C. intros q Hq. symmetry.
  apply (relabelled_card p s t (fun x => bucket (channels s + 1 - k) k x = q) (fun x => bucket (channels s + 1 - k) k x = q)); auto.
  - intros x [L _]. rewrite (bucket_permute (channels s)); auto. tauto.
  - now apply low_fp_card.
  - rewrite <- C. apply low_fp_card; auto. now rewrite C.
Qed.

Lemma ldiff_low_channel k c x : Nat.ldiff (idx x) (Nat.lor (2 ^ k - 1) (2 ^ c)) = idx (upd (clear_low k x) c false).
Proof.
  apply nat_ext_bits. intros i. rewrite Nat.ldiff_spec, Nat.lor_spec, ones_testbit, pow2_testbit, !testbit_idx, bit_upd, bit_clear_low, clear_low_length.
  rewrite (Nat.eqb_sym i c). destruct (i <? k) eqn:E1; simpl.
  - rewrite andb_false_r. destruct ((c =? i) && (c <? length x)); auto.
  - destruct (Nat.eqb_spec c i) as [->|Ne]; simpl; rewrite ?andb_true_r, ?andb_false_r; auto.
    destruct (i <? length x) eqn:F; auto. apply Nat.ltb_ge in F. symmetry. now apply bit_out.
Qed.

Definition high_weight_c (k c : nat) (x : vec) : nat := weight x - weight (firstn k x) - Nat.b2n (bit x c).

Lemma count_high_c k c x : k <= c -> c < length x ->
  count_ones (Nat.ldiff (idx x) (Nat.lor (2 ^ k - 1) (2 ^ c))) = high_weight_c k c x.
Proof.
  intros Hk Hc. rewrite ldiff_low_channel, count_ones_idx.
  pose proof (weight_upd (clear_low k x) c false) as W. rewrite clear_low_length in W. specialize (W Hc).
  rewrite bit_clear_low in W. assert (E : (c <? k) = false) by (apply Nat.ltb_ge; auto). rewrite E in W.
  pose proof (weight_clear_low k x). unfold high_weight_c. simpl in W. lia.
Qed.

Definition bucket_c (weights k c : nat) (x : vec) : nat := high_weight_c k c x + weights * idx (firstn k x).

Lemma low_ch_fp_card s k c q : wf s -> k <= c -> c < channels s -> q < (channels s - k) * 2 ^ k ->
  card (fun x => vs s x /\ (bit x c = true /\ bucket_c (channels s - k) k c x = q))
       (nth q (low_channels_channel_fingerprint_buffer s k c) 0).
Proof.
  intros W Hk Hc Hq. unfold low_channels_channel_fingerprint_buffer. cbv zeta.
  rewrite fold_add_at with
    (pos := fun i => count_ones (Nat.ldiff i (Nat.lor (2 ^ k - 1) (2 ^ c))) + (channels s - k) * Nat.land i (2 ^ k - 1))
    (val := fun i => Nat.b2n (bget (bitmap s) i)) by (rewrite repeat_length; lia).
  rewrite nth_repeat. simpl plus.
  apply (sum_card s _ (fun i => count_ones (Nat.ldiff i (Nat.lor (2 ^ k - 1) (2 ^ c))) + (channels s - k) * Nat.land i (2 ^ k - 1) =? q) (fun i => i));
    auto using strided_NoDup.
  - intros i Hi. apply strided_In in Hi. rewrite W in Hi. tauto.
  - intros x [L _]. split.
    + intros [Eb E]. exists (idx x). rewrite count_high_c, land_low by lia. fold (bucket_c (channels s - k) k c x). rewrite E, Nat.eqb_refl.
      repeat split; auto. apply strided_In. rewrite W, has_mask_pow2, testbit_idx, <- L. split; auto. apply idx_lt.
    + intros (i & Hi & E & ->). rewrite count_high_c, land_low in E by lia. apply strided_In in Hi.
      rewrite has_mask_pow2, testbit_idx in Hi. split. tauto. now apply Nat.eqb_eq.
Qed.

Lemma low_ch_fp_length s k c : length (low_channels_channel_fingerprint_buffer s k c) = (channels s - k) * 2 ^ k.
Proof.
  unfold low_channels_channel_fingerprint_buffer. cbv zeta.
  rewrite fold_add_at_length with
    (pos := fun i => count_ones (Nat.ldiff i (Nat.lor (2 ^ k - 1) (2 ^ c))) + (channels s - k) * Nat.land i (2 ^ k - 1))
    (val := fun i => Nat.b2n (bget (bitmap s) i)).
  apply repeat_length.
Qed.

Lemma fixes_low_ge n k p c : is_perm n p -> fixes_low k p -> k <= c -> c < n -> k <= nth c p 0.
Proof.
  intros P F H1 H2. destruct (le_lt_dec k (nth c p 0)) as [|Hlt]; auto. exfalso.
  assert (nth c p 0 = c); [|lia]. apply (is_perm_inj n p); auto. lia.
Qed.

Lemma low_ch_fp_relabel p s t k c : relabelled p s t -> fixes_low k p -> k <= c -> c < channels s ->
  low_channels_channel_fingerprint_buffer t k c = low_channels_channel_fingerprint_buffer s k (nth c p 0).
Proof.
  intros R F Hk Hc. pose proof R as (Ws & Wt & C & P & S).
  assert (Hp : nth c p 0 < channels s) by now apply is_perm_nth.
  assert (Hkp : k <= nth c p 0) by now apply (fixes_low_ge (channels s)).
  apply nth_ext_lt with (d := 0). now rewrite !low_ch_fp_length, C.
  rewrite low_ch_fp_length, C. intros q Hq. symmetry.
  apply (relabelled_card p s t (fun x => bit x (nth c p 0) = true /\ bucket_c (channels s - k) k (nth c p 0) x = q)
           (fun x => bit x c = true /\ bucket_c (channels s - k) k c x = q)); auto.
  - intros x [L _]. unfold bucket_c, high_weight_c.
    rewrite (firstn_permute (channels s) p k x), (permute_weight (channels s) p x) by (auto; lia).
    rewrite bit_permute by (rewrite (is_perm_length _ _ P); auto). tauto.
  - now apply low_ch_fp_card.
  - rewrite <- C. apply low_ch_fp_card; rewrite ?C; auto.
Qed.
