(* The functions with machine checks agree with the total functions of OutputSetModel.v. *)
From Coq Require Import List Arith Bool Lia.
Import ListNotations.
From Verif Require Import Spec Util Vec Bits OutputSetModel OutputSetProofs CanonBits CountProofs AbsProofs AbsFull
  PruneProofs SubsumeProofs MachineModel.

(* ---------- the primitives ---------- *)

Lemma rd_lt {A} (l : list A) i d : i < length l -> rd l i = Some (nth i l d).
Proof. intros H. unfold rd. now apply nth_error_nth'. Qed.

Lemma rd_bget bm i : i < length bm -> rd bm i = Some (bget bm i).
Proof. apply rd_lt. Qed.

Lemma wr_lt {A} (l : list A) i v : i < length l -> wr l i v = Some (upd l i v).
Proof. intros H. unfold wr. apply Nat.ltb_lt in H. now rewrite H. Qed.

Lemma bump_lt l i v : i < length l -> bump l i v = Some (add_at l i v).
Proof. intros H. unfold bump. rewrite (rd_lt l i 0) by auto. now rewrite wr_lt. Qed.

Lemma add_at_length l i v : length (add_at l i v) = length l.
Proof. apply upd_length. Qed.

Lemma sub_u_le a b : b <= a -> sub_u a b = Some (a - b).
Proof. intros H. unfold sub_u. apply Nat.leb_le in H. now rewrite H. Qed.

Lemma collect_le {A} cap (l : list A) : length l <= cap -> collect cap l = Some l.
Proof. intros H. unfold collect. apply Nat.leb_le in H. now rewrite H. Qed.

Lemma push_lt {A} cap (l : list A) v : length l < cap -> push cap l v = Some (l ++ [v]).
Proof. intros H. unfold push. apply Nat.ltb_lt in H. now rewrite H. Qed.

Lemma as_u16_small v : v < 2 ^ 16 -> as_u16 v = v.
Proof. apply Nat.mod_small. Qed.

Lemma pow_small n : n <= MAX_CHANNELS -> 2 ^ n <= MAX_BITMAP_SIZE.
Proof. intros H. unfold MAX_BITMAP_SIZE. apply Nat.pow_le_mono_r; lia. Qed.

Lemma bitmap_u16 v : v <= MAX_BITMAP_SIZE -> v < 2 ^ 16.
Proof. intros H. eapply Nat.le_lt_trans; [exact H|]. unfold MAX_BITMAP_SIZE. apply Nat.pow_lt_mono_r; [lia|]. unfold MAX_CHANNELS. lia. Qed.

(* ---------- loops ---------- *)

Lemma fold_opt_left {A B} (f : A -> B -> option A) (g : A -> B -> A) (P : A -> Prop) l : forall a,
  P a -> (forall a b, In b l -> P a -> f a b = Some (g a b) /\ P (g a b)) ->
  fold_opt f l a = Some (fold_left g l a).
Proof.
  induction l as [|b l IH]; intros a Pa H; simpl; auto.
  destruct (H a b (or_introl eq_refl) Pa) as (E & Pb). rewrite E. apply IH; auto. intros; apply H; auto. now right.
Qed.

Lemma fold_left_inv {A B} (g : A -> B -> A) (P : A -> Prop) l : forall a,
  P a -> (forall a b, In b l -> P a -> P (g a b)) -> P (fold_left g l a).
Proof.
  induction l as [|b l IH]; intros a Pa H; simpl; auto. apply IH; auto. apply H; auto. now left.
  intros; apply H; auto. now right.
Qed.

Lemma stride_fold {St} size mask (body : St -> nat -> option St) : forall fuel index st,
  size - index < fuel ->
  stride_loop fuel size mask body index st = fold_opt body (strided_from (pred fuel) size mask index) st.
Proof.
  induction fuel as [|f IH]; intros index st H; [lia|]. simpl pred. cbn [stride_loop].
  destruct (index <? size) eqn:E.
  - apply Nat.ltb_lt in E. destruct f as [|f]; [lia|].
    assert (L : index <? size = true) by now apply Nat.ltb_lt. cbn [strided_from]. rewrite L. cbn [fold_opt].
    destruct (body st index) as [st'|]; auto. apply IH. pose proof (lor_ge (index + 1) mask). lia.
  - destruct f; auto. cbn [strided_from]. rewrite E. reflexivity.
Qed.

Lemma strided_c_fold {St} size mask (body : St -> nat -> option St) st :
  strided_c size mask body st = fold_opt body (strided size mask) st.
Proof. unfold strided_c. rewrite stride_fold by lia. reflexivity. Qed.

Lemma strided_c_left {St} size mask (body : St -> nat -> option St) (g : St -> nat -> St) (P : St -> Prop) st :
  P st -> (forall st i, i < size -> has_mask mask i = true -> P st -> body st i = Some (g st i) /\ P (g st i)) ->
  strided_c size mask body st = Some (fold_left g (strided size mask) st).
Proof.
  intros Ps H. rewrite strided_c_fold. apply fold_opt_left with (P := P); auto.
  intros a i I. apply strided_In in I. destruct I. auto.
Qed.

(* ---------- counting bits ---------- *)

Lemma count_le n i : i < 2 ^ n -> count_ones i <= n.
Proof.
  intros H. rewrite (count_ones_bits n) by auto. unfold bits. rewrite <- (seq_length n 0) at 2.
  generalize (seq 0 n). intros l. induction l as [|a l IH]; simpl; auto. destruct (Nat.testbit i a); simpl; lia.
Qed.

Lemma ldiff_lt n a b : a < 2 ^ n -> Nat.ldiff a b < 2 ^ n.
Proof.
  intros H. apply bits_lt. intros i Hi. rewrite Nat.ldiff_spec, (testbit_high a n) by auto. reflexivity.
Qed.

Lemma count_incl n i l : i < 2 ^ n -> (forall b, b < n -> Nat.testbit i b = true -> In b l) ->
  count_ones i <= length l.
Proof.
  intros H I. rewrite (count_ones_bits n) by auto. apply NoDup_incl_length. apply bits_NoDup.
  intros b Hb. apply bits_In in Hb. destruct Hb. auto.
Qed.

Lemma low_bits_testbit k b : Nat.testbit (2 ^ k - 1) b = (b <? k).
Proof. apply ones_testbit. Qed.

Lemma count_high_le n k i : i < 2 ^ n -> count_ones (Nat.ldiff i (2 ^ k - 1)) <= n - k.
Proof.
  intros H. rewrite <- (seq_length (n - k) k). apply (count_incl n). now apply ldiff_lt.
  intros b Hb T. rewrite Nat.ldiff_spec, low_bits_testbit in T. apply andb_true_iff in T. destruct T as (_ & T).
  apply negb_true_iff, Nat.ltb_ge in T. apply in_seq. lia.
Qed.

Lemma count_high_lt n k c i : i < 2 ^ n -> k <= c -> c < n ->
  count_ones (Nat.ldiff i (Nat.lor (2 ^ k - 1) (2 ^ c))) < n - k.
Proof.
  intros H Hk Hc.
  assert (L : count_ones (Nat.ldiff i (Nat.lor (2 ^ k - 1) (2 ^ c))) <= length (seq k (c - k) ++ seq (S c) (n - S c))).
  { apply (count_incl n). now apply ldiff_lt.
    intros b Hb T. rewrite Nat.ldiff_spec, Nat.lor_spec, low_bits_testbit, pow2_testbit in T.
    apply andb_true_iff in T. destruct T as (_ & T). apply negb_true_iff, orb_false_iff in T. destruct T as (T1 & T2).
    apply Nat.ltb_ge in T1. apply Nat.eqb_neq in T2. apply in_or_app. rewrite !in_seq. lia. }
  rewrite app_length, !seq_length in L. lia.
Qed.

Lemma count_drop_lt n c i : i < 2 ^ n -> c < n -> count_ones (Nat.ldiff i (2 ^ c)) < n.
Proof.
  intros H Hc. pose proof (count_high_lt n 0 c i H (Nat.le_0_l _) Hc) as L. simpl Nat.sub in L.
  rewrite Nat.lor_0_l in L. lia.
Qed.

Lemma land_low_lt i k : Nat.land i (2 ^ k - 1) < 2 ^ k.
Proof.
  apply bits_lt. intros b Hb. rewrite Nat.land_spec, low_bits_testbit. apply Nat.ltb_ge in Hb. rewrite Hb. apply andb_false_r.
Qed.

Lemma pow_pos k : 0 < 2 ^ k.
Proof. apply Nat.neq_0_lt_0, Nat.pow_nonzero. lia. Qed.

Lemma slot_lt w h k i : h < w -> h + w * Nat.land i (2 ^ k - 1) < w * 2 ^ k.
Proof. intros H. pose proof (land_low_lt i k). nia. Qed.

(* ---------- the functions ---------- *)

Lemma enum_in s i v : In (i, v) (enumerate (bitmap s)) -> wf s -> i < 2 ^ channels s.
Proof. intros I W. apply (enumerate_In (bitmap s) i v false) in I. unfold wf in W. lia. Qed.

Lemma weight_histogram_ok s : wf s -> channels s <= MAX_CHANNELS -> weight_histogram_c s = Some (weight_histogram s).
Proof.
  intros W B. unfold weight_histogram_c, weight_histogram. rewrite collect_le by (rewrite repeat_length; unfold WVEC; lia).
  apply fold_opt_left with (P := fun h => length h = channels s + 1). apply repeat_length.
  intros h (i, v) I L. simpl fst; simpl snd. apply enum_in in I; auto. apply count_le in I.
  rewrite bump_lt by lia. unfold add_at. split; auto. now rewrite upd_length.
Qed.

Lemma is_sorted_loop_ok n l : forall seen, length seen = n + 1 -> (forall i v, In (i, v) l -> i < 2 ^ n) ->
  is_sorted_loop_c l seen = Some (is_sorted_loop l seen).
Proof.
  induction l as [|(i, v) l IH]; intros seen L H; cbn [is_sorted_loop_c is_sorted_loop]; auto.
  pose proof (count_le n i (H i v (or_introl eq_refl))) as C.
  rewrite (rd_lt seen _ false) by lia. cbv zeta. destruct (nth (count_ones i) seen false && v); auto.
  rewrite wr_lt by lia. apply IH. now rewrite upd_length. intros; eapply H. right; eauto.
Qed.

Lemma is_sorted_ok s : wf s -> channels s <= MAX_CHANNELS -> is_sorted_c s = Some (is_sorted s).
Proof.
  intros W B. unfold is_sorted_c, is_sorted. destruct (channels s <? 2); auto.
  rewrite collect_le by (rewrite repeat_length; unfold WVEC; lia).
  apply (is_sorted_loop_ok (channels s)). apply repeat_length. intros i v I. eapply enum_in; eauto.
Qed.

Lemma unconstrained_loop_ok bm mask n : length bm = 2 ^ n -> mask < 2 ^ n -> forall fuel index,
  length bm - index < fuel ->
  unconstrained_loop_c fuel bm mask index =
  Some (forallb (fun index => Bool.eqb (bget bm index) (bget bm (Nat.lxor index mask)))
                (strided_from (pred fuel) (length bm) mask index)).
Proof.
  intros L M. induction fuel as [|f IH]; intros index H; [lia|]. cbn [unconstrained_loop_c]. simpl pred.
  destruct (index <? length bm) eqn:E.
  - pose proof E as E'. apply Nat.ltb_lt in E. destruct f as [|f]; [lia|]. cbn [strided_from]. rewrite E'.
    rewrite !rd_bget by (rewrite ?L; try apply lxor_lt; lia). cbn [forallb].
    destruct (Bool.eqb (bget bm index) (bget bm (Nat.lxor index mask))); simpl negb; cbv iota; auto.
    apply IH. pose proof (lor_ge (index + 1) mask). lia.
  - destruct f; auto. cbn [strided_from]. rewrite E. reflexivity.
Qed.

Lemma unconstrained_ok s c : wf s -> c < channels s -> is_channel_unconstrained_c s c = Some (is_channel_unconstrained s c).
Proof.
  intros W C. unfold is_channel_unconstrained_c, is_channel_unconstrained.
  rewrite (unconstrained_loop_ok _ _ (channels s)) by (auto using pow2_lt_pow2; lia). reflexivity.
Qed.

Lemma lxor_pow_lt s i c : wf s -> i < length (bitmap s) -> c < channels s -> Nat.lxor i (2 ^ c) < length (bitmap s).
Proof. intros W I C. unfold wf in W. rewrite W in *. apply lxor_lt; auto using pow2_lt_pow2. Qed.

Lemma channel_fingerprint_ok s c : wf s -> c < channels s -> channel_fingerprint_c s c = Some (channel_fingerprint s c).
Proof.
  intros W C. unfold channel_fingerprint_c, channel_fingerprint. pose proof (wf_pos s W) as P. rewrite sub_u_le by lia.
  assert (M : 2 ^ c < length (bitmap s)) by (unfold wf in W; rewrite W; now apply pow2_lt_pow2).
  rewrite rd_bget by auto. rewrite rd_bget. 2: { unfold wf in W. rewrite W in *. apply lxor_lt; lia. }
  apply strided_c_left with (P := fun _ => True); auto. intros f i Hi _ _. rewrite rd_bget by auto. auto.
Qed.

Lemma low_fingerprint_ok s k : wf s -> k <= channels s ->
  low_channels_fingerprint_buffer_c s k = Some (low_channels_fingerprint_buffer s k).
Proof.
  intros W K. unfold low_channels_fingerprint_buffer_c, low_channels_fingerprint_buffer.
  rewrite sub_u_le by lia. rewrite sub_u_le by apply pow_pos.
  apply fold_opt_left with (P := fun h => length h = (channels s + 1 - k) * 2 ^ k). apply repeat_length.
  intros h (i, v) I L. simpl fst; simpl snd. apply enum_in in I; auto.
  rewrite bump_lt. 2: { rewrite L. apply slot_lt. pose proof (count_high_le _ k i I). lia. }
  split; auto. now rewrite upd_length.
Qed.

Lemma low_channel_fingerprint_ok s k c : wf s -> k <= c -> c < channels s ->
  low_channels_channel_fingerprint_buffer_c s k c = Some (low_channels_channel_fingerprint_buffer s k c).
Proof.
  intros W K C. unfold low_channels_channel_fingerprint_buffer_c, low_channels_channel_fingerprint_buffer.
  assert (E : k <=? c = true) by now apply Nat.leb_le. rewrite E. simpl negb. cbv iota.
  rewrite sub_u_le by lia. rewrite sub_u_le by apply pow_pos.
  apply strided_c_left with (P := fun h => length h = (channels s - k) * 2 ^ k). apply repeat_length.
  intros h i Hi _ L. rewrite rd_bget by auto. unfold wf in W. rewrite W in Hi.
  rewrite bump_lt. 2: { rewrite L. apply slot_lt. now apply count_high_lt. }
  split; auto. now rewrite upd_length.
Qed.

Lemma low_channel_abstraction_ok s k c buffer : wf s -> k <= c -> c < channels s ->
  length buffer = low_channels_channel_abstraction_len s k ->
  low_channels_channel_abstraction_c s k c buffer = Some (low_channels_channel_abstraction s k c).
Proof.
  intros W K C B. unfold low_channels_channel_abstraction_c, low_channels_channel_abstraction.
  assert (E : k <=? c = true) by now apply Nat.leb_le. rewrite E. simpl negb. cbv iota.
  rewrite sub_u_le by lia. rewrite sub_u_le by apply pow_pos.
  replace (map (fun _ : nat => 0) buffer) with (repeat 0 (low_channels_channel_abstraction_len s k)).
  2: { rewrite <- B. clear. induction buffer; simpl; f_equal; auto. }
  apply strided_c_left with (P := fun h => length h = (channels s - k) * 2 ^ k * 3).
  { rewrite repeat_length. reflexivity. }
  intros h i Hi _ L. rewrite rd_bget by auto. rewrite rd_bget by now apply lxor_pow_lt. unfold wf in W. rewrite W in Hi.
  pose proof (slot_lt _ _ k i (count_high_lt _ k c i Hi K C)) as P.
  remember (count_ones (Nat.ldiff i (Nat.lor (2 ^ k - 1) (2 ^ c))) + (channels s - k) * Nat.land i (2 ^ k - 1)) as pos.
  rewrite bump_lt by lia. rewrite bump_lt by (rewrite add_at_length; lia). rewrite bump_lt by (rewrite !add_at_length; lia).
  split; auto. now rewrite !add_at_length.
Qed.

Lemma channel_abstraction_ok s c : wf s -> channels s <= MAX_CHANNELS -> c < channels s ->
  channel_abstraction_c s c = Some (channel_abstraction s c).
Proof.
  intros W B C. unfold channel_abstraction_c, channel_abstraction. rewrite collect_le by (rewrite repeat_length; unfold CVEC; lia).
  apply strided_c_left with (P := fun a : list nat * list nat * list nat =>
    length (fst (fst a)) = channels s /\ length (snd (fst a)) = channels s /\ length (snd a) = channels s).
  { simpl. rewrite repeat_length. auto. }
  intros ((a0, a1), a2) i Hi _ (L0 & L1 & L2). simpl in L0, L1, L2.
  rewrite rd_bget by auto. rewrite rd_bget by now apply lxor_pow_lt. unfold wf in W. rewrite W in Hi.
  pose proof (count_drop_lt _ c i Hi C). rewrite !bump_lt by lia. simpl. rewrite !add_at_length. auto.
Qed.

Lemma pair_abstraction_ok s a b : wf s -> a < channels s -> b < channels s ->
  channel_pair_abstraction_c s a b = Some (channel_pair_abstraction s a b).
Proof.
  intros W A B. unfold channel_pair_abstraction_c, channel_pair_abstraction.
  apply strided_c_left with (P := fun l => length l = 4). reflexivity.
  intros l i Hi _ L. assert (X : Nat.lxor i (Nat.lor (2 ^ a) (2 ^ b)) < length (bitmap s)).
  { unfold wf in W. rewrite W in *. apply lxor_lt; auto. apply lor_lt; now apply pow2_lt_pow2. }
  rewrite rd_bget by auto. rewrite !rd_bget by (auto using lxor_pow_lt). clear X.
  destruct l as [|x0 [|x1 [|x2 [|x3 [|]]]]]; try discriminate. split; reflexivity.
Qed.

Lemma packed_pvec_ok s : wf s -> channels s <= MAX_CHANNELS -> packed_pvec_c s = packed s.
Proof.
  intros W B. unfold packed_pvec_c, packed. rewrite collect_le; auto. rewrite repeat_length. unfold packed_len, wf in *.
  rewrite W. pose proof (pow_small _ B) as P. apply Nat.lt_succ_r, Nat.div_lt_upper_bound; [lia|].
  assert (E : MAX_BITMAP_SIZE + 7 < 8 * S PVEC).
  { unfold MAX_BITMAP_SIZE, PVEC, MAX_PACKED_SIZE, MAX_CHANNELS. apply Nat.ltb_lt. vm_compute. reflexivity. }
  lia.
Qed.

Lemma bvec_ok s : wf s -> channels s <= MAX_CHANNELS -> to_owned_bvec_c s = Some s.
Proof.
  intros W B. unfold to_owned_bvec_c. rewrite collect_le. now destruct s. unfold wf in W. rewrite W. now apply pow_small.
Qed.

Lemma all_values_bvec_ok n : n <= MAX_CHANNELS ->
  all_values_c n = Some (all_values n) /\ all_values_bvec_c n = Some (all_values n).
Proof.
  intros B. unfold all_values_c, all_values_bvec_c. assert (E : n <=? MAX_CHANNELS = true) by now apply Nat.leb_le.
  rewrite E, collect_le by (rewrite repeat_length; now apply pow_small). auto.
Qed.

(* ---------- the abstraction ---------- *)

Lemma map_opt_all {A B} (f : A -> option B) (g : A -> B) l : (forall a, In a l -> f a = Some (g a)) ->
  map_opt f l = Some (map g l).
Proof.
  induction l as [|a l IH]; intros H; simpl; auto. rewrite (H a) by now left. rewrite IH; auto. intros; apply H; now right.
Qed.

Definition raw_groups (s : OutputSet) (channel : nat) (os : list nat) : list (list nat) :=
  map (fun g => map (fun o => nth g (channel_pair_abstraction s channel o) 0) os) (seq 0 4).

Lemma pair_abs_len s a b : length (channel_pair_abstraction s a b) = 4.
Proof. unfold channel_pair_abstraction. apply (fold_left_inv _ (fun l => length l = 4)); auto. Qed.

Lemma channel_groups_fold s c (os done : list nat) : wf s -> c < channels s ->
  (forall o, In o os -> o < channels s) -> length done + length (filter (fun o => negb (o =? c)) os) <= CVEC ->
  fold_opt (fun groups other_channel =>
              if other_channel =? c then Some groups
              else match channel_pair_abstraction_c s c other_channel with
                   | Some values => map_opt (fun e : nat * list nat => push CVEC (snd e) (fst e)) (combine values groups)
                   | None => None
                   end) os (raw_groups s c done) =
  Some (raw_groups s c (done ++ filter (fun o => negb (o =? c)) os)).
Proof.
  intros W C. revert done. induction os as [|o os IH]; intros done H L; cbn [fold_opt filter].
  - now rewrite app_nil_r.
  - cbn [filter] in L. destruct (o =? c) eqn:E; simpl negb in *; cbv iota in *.
    + apply IH; auto. intros; apply H; now right.
    + cbn [length] in L. rewrite pair_abstraction_ok by (auto; apply H; now left).
      pose proof (pair_abs_len s c o) as P. unfold raw_groups at 1.
      destruct (channel_pair_abstraction s c o) as [|x0 [|x1 [|x2 [|x3 [|]]]]] eqn:Q; try discriminate.
      cbn [seq map combine map_opt fst snd]. rewrite !push_lt by (rewrite map_length; lia).
      replace (done ++ o :: filter (fun o => negb (o =? c)) os) with ((done ++ [o]) ++ filter (fun o => negb (o =? c)) os)
        by (rewrite <- app_assoc; reflexivity).
      rewrite <- IH; [|intros; apply H; now right|rewrite app_length; simpl; lia].
      f_equal. unfold raw_groups. cbn [seq map]. rewrite !map_app. cbn [map]. rewrite Q. reflexivity.
Qed.

Lemma channel_groups_ok s c : wf s -> channels s <= MAX_CHANNELS -> c < channels s ->
  exists gs, channel_groups_c s c = Some gs /\ map (isort (fun a b => b <=? a)) gs = channel_groups s c.
Proof.
  intros W B C. exists (raw_groups s c (filter (fun o => negb (o =? c)) (seq 0 (channels s)))). split.
  - unfold channel_groups_c. change (repeat [] PAIR_ABSTRACTION_GROUPS) with (raw_groups s c []).
    rewrite channel_groups_fold; auto. intros o I. apply in_seq in I. lia.
    fold (others (channels s) c). rewrite others_length by auto. unfold CVEC. simpl length. lia.
  - unfold raw_groups, channel_groups, PAIR_ABSTRACTION_GROUPS. rewrite map_map. apply map_ext. intros g. now rewrite map_map.
Qed.

Lemma group_values s c g v : wf s -> channels s <= MAX_CHANNELS -> In g (channel_groups s c) -> In v g -> v <= MAX_BITMAP_SIZE.
Proof.
  intros W B G V. unfold channel_groups in G. apply in_map_iff in G. destruct G as (k & <- & K). apply in_seq in K.
  unfold PAIR_ABSTRACTION_GROUPS in K. apply isort_In in V. rewrite map_map in V. apply in_map_iff in V.
  destruct V as (o & <- & _). rewrite pair_abs_nth by lia. unfold pair_value.
  apply Nat.le_trans with (length (bitmap s)); [|unfold wf in W; rewrite W; now apply pow_small].
  rewrite sumf_filter. eapply Nat.le_trans; [apply SubsumeProofs.filter_length_le|]. rewrite strided_spec.
  eapply Nat.le_trans; [apply SubsumeProofs.filter_length_le|]. rewrite seq_length. auto.
Qed.

Lemma slot2_lt n c g i : c < n -> g < 4 -> i < n - 1 -> c + n * (g + 4 * i) < n * ((n - 1) * 4).
Proof. intros. nia. Qed.

Lemma write_groups_length n c gs a : length (write_groups n c gs a) = length a.
Proof.
  unfold write_groups. apply (fold_left_inv _ (fun l => length l = length a)); auto. intros l ge _ H. rewrite <- H.
  apply (fold_left_inv _ (fun m => length m = length l)); auto. intros m ie _ K. now rewrite upd_length.
Qed.

Lemma write_groups_ok s c a : wf s -> channels s <= MAX_CHANNELS -> c < channels s ->
  length a = channels s * ((channels s - 1) * 4) ->
  write_groups_c (channels s) c (channel_groups s c) a = Some (write_groups (channels s) c (channel_groups s c) a).
Proof.
  intros W B C L. unfold write_groups_c, write_groups.
  apply fold_opt_left with (P := fun l => length l = channels s * ((channels s - 1) * 4)); auto.
  intros l (g, vals) I Ll. simpl fst; simpl snd. apply (enumerate_In _ g vals []) in I. destruct I as (G & E).
  rewrite groups_length in G.
  assert (R : length vals = channels s - 1) by (subst vals; now apply group_length).
  assert (M : In vals (channel_groups s c)) by (subst vals; apply nth_In; now rewrite groups_length).
  assert (K : fold_opt (fun a (ie : nat * nat) =>
     wr a (c + channels s * (g + PAIR_ABSTRACTION_GROUPS * fst ie)) (as_u16 (snd ie))) (enumerate vals) l =
     Some (fold_left (fun a (ie : nat * nat) => upd a (c + channels s * (g + PAIR_ABSTRACTION_GROUPS * fst ie)) (snd ie)) (enumerate vals) l)).
  { apply fold_opt_left with (P := fun l => length l = channels s * ((channels s - 1) * 4)); auto.
    intros m (i, v) J Lm. simpl fst; simpl snd. apply (enumerate_In _ i v 0) in J. destruct J as (J & V).
    rewrite wr_lt. 2: { rewrite Lm. apply slot2_lt; auto. lia. }
    rewrite as_u16_small. split; auto. now rewrite upd_length.
    apply bitmap_u16. apply (group_values s c vals); auto. subst v. now apply nth_In. }
  rewrite K. split; auto. apply (fold_left_inv _ (fun m => length m = channels s * ((channels s - 1) * 4))); auto.
  intros m ie _ Q. now rewrite upd_length.
Qed.

Lemma transpose_ok n chunk : n <= MAX_CHANNELS -> length chunk = n * 4 -> transpose_chunk_c n chunk = Some (transpose_chunk n chunk).
Proof.
  intros B L. unfold transpose_chunk_c, transpose_chunk. rewrite collect_le by (rewrite L; unfold MAX_CHANNELS in B; lia).
  apply fold_opt_left with (P := fun l => length l = n * 4); auto.
  intros l i I Ll. apply in_seq in I.
  assert (K : fold_opt (fun ch j => match rd chunk (j + i * n) with Some v => wr ch (i + j * 4) v | None => None end) (seq 0 n) l =
    Some (fold_left (fun ch j => upd ch (i + j * 4) (nth (j + i * n) chunk 0)) (seq 0 n) l)).
  { apply fold_opt_left with (P := fun l => length l = n * 4); auto.
    intros m j J Lm. apply in_seq in J. rewrite (rd_lt chunk _ 0) by nia. rewrite wr_lt by nia. split; auto. now rewrite upd_length. }
  rewrite K. split; auto. apply (fold_left_inv _ (fun m => length m = n * 4)); auto. intros m j _ Q. now rewrite upd_length.
Qed.

Lemma abstraction_len_ok n : 0 < n -> abstraction_len_c n = Some (abstraction_len_for_channels n).
Proof. intros H. unfold abstraction_len_c. rewrite sub_u_le by lia. reflexivity. Qed.

(* every old content of the slice is overwritten *)
Lemma write_all s a0 : length a0 = channels s * ((channels s - 1) * 4) ->
  fold_left (fun a channel => write_groups (channels s) channel (channel_groups s channel) a) (seq 0 (channels s)) a0 = abs1 s.
Proof.
  intros L.
  assert (E : fold_left (fun a channel => write_groups (channels s) channel (channel_groups s channel) a) (seq 0 (channels s)) a0 =
    fold_left (fun a e => upd a (epos (channels s) e) (eval s e)) (entries (channels s)) a0).
  { unfold entries. rewrite fold_flat_map. apply fold_ext_in. intros a c Hc. apply in_seq in Hc.
    unfold write_groups. rewrite (enumerate_map []), groups_length, fold_map. rewrite fold_flat_map. apply fold_ext_in.
    intros a' g Hg. apply in_seq in Hg. cbn [fst snd]. rewrite (enumerate_map 0), group_length, !fold_map by lia.
    apply fold_ext_in. intros a'' i Hi. reflexivity. }
  rewrite E. apply (nth_ext _ _ 0 0).
  - now rewrite fold_upd_length, abs1_length.
  - intros p. rewrite fold_upd_length, L. intros Hp. assert (N : channels s <> 0) by lia.
    set (q := p / channels s). set (c := p mod channels s).
    assert (P : p = channels s * q + c) by (apply Nat.div_mod; auto).
    assert (C : c < channels s) by (apply Nat.mod_upper_bound; auto).
    assert (Q : q < (channels s - 1) * 4) by (apply Nat.div_lt_upper_bound; auto).
    set (i := q / 4). set (g := q mod 4).
    assert (QE : q = 4 * i + g) by (apply Nat.div_mod; auto).
    assert (G : g < 4) by (apply Nat.mod_upper_bound; auto).
    assert (I : i < channels s - 1) by lia.
    replace p with (epos (channels s) (c, g, i)) by (unfold epos; simpl; rewrite P, QE; lia).
    assert (EI : In (c, g, i) (entries (channels s))) by (apply entries_In; auto).
    rewrite fold_upd; auto.
    + unfold epos. cbn [fst snd]. rewrite abs1_nth by auto. reflexivity.
    + apply NoDup_map_on. apply entries_NoDup. intros e e' H1 H2. now apply epos_inj.
    + rewrite L. unfold epos. cbn [fst snd]. now apply slot2_lt.
Qed.

Lemma write_abstraction_ok s target : wf s -> 0 < channels s -> channels s <= MAX_CHANNELS ->
  length target = abstraction_len_for_channels (channels s) ->
  write_abstraction_into_c s target = Some (abstraction s).
Proof.
  intros W N B L. unfold write_abstraction_into_c. rewrite abstraction_len_ok by auto.
  rewrite L, Nat.eqb_refl. simpl negb. cbv iota.
  assert (L2 : length target = channels s * ((channels s - 1) * 4)).
  { rewrite L. unfold abstraction_len_for_channels, PAIR_ABSTRACTION_GROUPS. lia. }
  rewrite (fold_opt_left _ (fun a channel => write_groups (channels s) channel (channel_groups s channel) a)
    (fun l => length l = channels s * ((channels s - 1) * 4))); auto.
  2: { intros a c I La. apply in_seq in I. destruct (channel_groups_ok s c W B) as (gs & E1 & E2); [lia|].
       rewrite E1, E2. rewrite write_groups_ok by (auto; lia). split; auto. now rewrite write_groups_length. }
  rewrite write_all by auto. unfold chunks_c. assert (Z : channels s =? 0 = false) by (apply Nat.eqb_neq; lia). rewrite Z.
  assert (Z4 : channels s * 4 =? 0 = false) by (apply Nat.eqb_neq; lia). rewrite Z4. fold (abs2 s).
  destruct (abs2_spec s N) as (LA & _).
  destruct (chunks_concat (channels s * 4) (channels s - 1) (abs2 s)) as (_ & F & _); [lia|rewrite LA; lia|].
  rewrite (map_opt_all _ (transpose_chunk (channels s))).
  2: { intros ch I. rewrite Forall_forall in F. apply transpose_ok; auto. }
  reflexivity.
Qed.

Lemma abstraction_ok s : wf s -> 0 < channels s -> channels s <= MAX_CHANNELS -> abstraction_c s = Some (abstraction s).
Proof.
  intros W N B. unfold abstraction_c. rewrite abstraction_len_ok by auto. rewrite collect_le.
  - apply write_abstraction_ok; auto. apply repeat_length.
  - rewrite repeat_length. unfold abstraction_len_for_channels, PAIR_ABSTRACTION_GROUPS, AVEC, MAX_CHANNELS in *. nia.
Qed.

(* ---------- pruning, comparators, swaps ---------- *)

Lemma all_mask_lt s pol : wf s -> (length (bitmap s) - 1) * Nat.b2n pol < 2 ^ channels s.
Proof. intros W. unfold wf in W. rewrite W. pose proof (pow_pos (channels s)). destruct pol; simpl Nat.b2n; lia. Qed.

Lemma extremal_ok s pol c : wf s -> c < channels s -> channel_is_extremal_c s pol c = Some (channel_is_extremal s pol c).
Proof.
  intros W C. unfold channel_is_extremal_c, channel_is_extremal. pose proof (wf_pos s W). rewrite sub_u_le by lia.
  rewrite rd_bget; auto. pose proof (all_mask_lt s pol W). unfold wf in W. rewrite W in *.
  apply lxor_lt; auto using pow2_lt_pow2.
Qed.

Lemma comparator_ok s a b : wf s -> a < channels s -> b < channels s -> a <> b ->
  apply_comparator_c s a b = Some (apply_comparator s a b).
Proof.
  intros W A B N. unfold apply_comparator_c, apply_comparator.
  assert (EA : a <? channels s = true) by now apply Nat.ltb_lt. assert (EB : b <? channels s = true) by now apply Nat.ltb_lt.
  assert (EN : a =? b = false) by now apply Nat.eqb_neq. rewrite EA, EB, EN. simpl negb. cbv iota zeta.
  rewrite (strided_c_left _ _ _ (apply_comparator_body (2 ^ a) (2 ^ b)) (fun st => length (fst (fst st)) = length (bitmap s))).
  - destruct (fold_left _ _ _) as ((bm, x), y). reflexivity.
  - reflexivity.
  - intros ((bm, x), y) i Hi _ L. simpl in L. unfold apply_comparator_body.
    pose proof (lxor_pow_lt s i a W Hi A). pose proof (lxor_pow_lt s i b W Hi B).
    rewrite rd_bget by lia. rewrite wr_lt by lia. rewrite rd_bget by (rewrite upd_length; lia).
    rewrite wr_lt by (rewrite upd_length; lia). split; auto. simpl. now rewrite !upd_length.
Qed.

Lemma swap_ok s a b : wf s -> a < channels s -> b < channels s -> swap_channels_c s a b = Some (swap_channels s a b).
Proof.
  intros W A B. unfold swap_channels_c, swap_channels.
  assert (EA : a <? channels s = true) by now apply Nat.ltb_lt. assert (EB : b <? channels s = true) by now apply Nat.ltb_lt.
  rewrite EA, EB. simpl negb. cbv iota zeta. destruct (a =? b); auto.
  rewrite (strided_c_left _ _ _ (fun bm index => swap_at bm (Nat.lxor index (2 ^ a)) (Nat.lxor index (2 ^ b)))
    (fun bm => length bm = length (bitmap s))); auto.
  intros bm i Hi _ L. pose proof (lxor_pow_lt s i a W Hi A). pose proof (lxor_pow_lt s i b W Hi B).
  rewrite !rd_bget by lia. rewrite wr_lt by lia. rewrite wr_lt by (rewrite upd_length; lia).
  unfold swap_at. split; auto. now rewrite !upd_length.
Qed.

Definition small (n : nat) (q : list nat) : Prop := Forall (fun i => i < 2 ^ n) q.

Lemma target_lt n c v w : c < n -> v < 2 ^ n -> w < 2 ^ (n - 1) ->
  Nat.lxor (Nat.lor (Nat.land v (2 ^ c - 1)) (Nat.land (Nat.shiftr v 1) (Nat.lxor (2 ^ (n - 1) - 1) (2 ^ c - 1)))) w < 2 ^ (n - 1).
Proof.
  intros C V W. apply lxor_lt; auto. rewrite <- (idx_vec_of n v) by auto. rewrite (idx_del n c) by (auto using vec_of_length).
  assert (D : length (del c (vec_of n v)) = n - 1).
  { rewrite del_length; rewrite vec_of_length; lia. }
  rewrite <- D. apply idx_lt.
Qed.

Section PruneC.
Variables (s : OutputSet) (c flip new_flip : nat).
Hypothesis W : wf s.
Hypothesis B : channels s <= MAX_CHANNELS.
Hypothesis C : c < channels s.
Hypothesis F : flip < 2 ^ channels s.
Hypothesis NF : new_flip < 2 ^ (channels s - 1).
Let n := channels s.
Let ml := 2 ^ c - 1.
Let mh := Nat.lxor (2 ^ (n - 1) - 1) ml.

Lemma prune_inner_ok index l : index < 2 ^ n -> (forall b, In b l -> b < n) -> forall t q,
  length t = 2 ^ (n - 1) -> small n q ->
  match fold_opt (fun (st : list bool * list nat) b =>
              let '(target, queue) := st in
              let next := Nat.lor index (2 ^ b) in
              let next_target :=
                Nat.lxor (Nat.lor (Nat.land next ml) (Nat.land (Nat.shiftr next 1) mh)) new_flip in
              if bget (bitmap s) (Nat.lxor next flip) && negb (bget target next_target)
              then if MAX_BITMAP_SIZE <=? length queue then None
                   else Some (upd target next_target true, next :: queue)
              else Some st) l (t, q) with
  | Some (t', q') =>
      fold_opt (fun (st : list bool * list nat) b =>
              let '(target, queue) := st in
              let next := Nat.lor index (2 ^ b) in
              let next_target :=
                Nat.lxor (Nat.lor (Nat.land next ml) (Nat.land (Nat.shiftr next 1) mh)) new_flip in
              match rd (bitmap s) (Nat.lxor next flip) with
              | Some present => match rd target next_target with
                | Some seen =>
                    if present && negb seen
                    then match wr target next_target true with
                         | Some target' => match push BVEC queue (as_u16 next) with
                             | Some queue' => Some (target', queue') | None => None end
                         | None => None end
                    else Some st
                | None => None end
              | None => None end) l (t, rev q) = Some (t', rev q') /\ length t' = 2 ^ (n - 1) /\ small n q'
  | None =>
      fold_opt (fun (st : list bool * list nat) b =>
              let '(target, queue) := st in
              let next := Nat.lor index (2 ^ b) in
              let next_target :=
                Nat.lxor (Nat.lor (Nat.land next ml) (Nat.land (Nat.shiftr next 1) mh)) new_flip in
              match rd (bitmap s) (Nat.lxor next flip) with
              | Some present => match rd target next_target with
                | Some seen =>
                    if present && negb seen
                    then match wr target next_target true with
                         | Some target' => match push BVEC queue (as_u16 next) with
                             | Some queue' => Some (target', queue') | None => None end
                         | None => None end
                    else Some st
                | None => None end
              | None => None end) l (t, rev q) = None
  end.
Proof.
  intros I. induction l as [|b l IH]; intros Hl t q L Q; cbn [fold_opt].
  - auto.
  - assert (Hb : b < n) by (apply Hl; now left). assert (Hl' : forall b, In b l -> b < n) by (intros; apply Hl; now right).
    specialize (IH Hl'). cbv zeta.
    assert (N : Nat.lor index (2 ^ b) < 2 ^ n) by (apply lor_lt; auto using pow2_lt_pow2).
    pose proof (target_lt n c _ _ C N NF) as T. fold ml in T. fold mh in T.
    rewrite (rd_bget (bitmap s)). 2: { unfold wf in W. rewrite W. now apply lxor_lt. }
    rewrite (rd_bget t) by lia. rewrite wr_lt by lia.
    destruct (bget (bitmap s) (Nat.lxor (Nat.lor index (2 ^ b)) flip) && negb (bget t _)) eqn:E.
    + unfold push, BVEC. rewrite rev_length. rewrite Nat.ltb_antisym. destruct (MAX_BITMAP_SIZE <=? length q); simpl negb; cbv iota; auto.
      rewrite as_u16_small. 2: { apply bitmap_u16. pose proof (pow_small _ B). fold n in H. lia. }
      change (rev q ++ [Nat.lor index (2 ^ b)]) with (rev (Nat.lor index (2 ^ b) :: q)).
      apply IH. now rewrite upd_length. constructor; auto.
    + apply IH; auto.
Qed.

Lemma prune_loop_ok : forall fuel t q, length t = 2 ^ (n - 1) -> small n q ->
  prune_loop_c fuel (bitmap s) n ml mh flip new_flip (t, rev q) = prune_loop fuel (bitmap s) n ml mh flip new_flip (t, q).
Proof.
  induction fuel as [|f IH]; intros t q L Q; auto. cbn [prune_loop_c prune_loop fst snd]. rewrite rev_involutive.
  destruct q as [|index q]; auto. inversion_clear Q as [|x y I Q'].
  assert (Sq : forall b, In b (seq 0 n) -> b < n) by (intros b K; apply in_seq in K; lia).
  pose proof (prune_inner_ok index (seq 0 n) I Sq t q L Q') as P.
  change (match prune_inner (bitmap s) n ml mh flip new_flip index (t, q) with
          | Some (t', q') => prune_inner_c (bitmap s) n ml mh flip new_flip index (t, rev q) = Some (t', rev q') /\
                             length t' = 2 ^ (n - 1) /\ small n q'
          | None => prune_inner_c (bitmap s) n ml mh flip new_flip index (t, rev q) = None
          end) in P.
  destruct (prune_inner (bitmap s) n ml mh flip new_flip index (t, q)) as [(t', q')|].
  - destruct P as (P & L' & Q2). rewrite P. now apply IH.
  - now rewrite P.
Qed.
End PruneC.

Lemma prune_ok s pol c target : wf s -> channels s <= MAX_CHANNELS -> c < channels s -> wf target ->
  prune_extremal_channel_into_c s pol c target = prune_extremal_channel_into s pol c (channels target).
Proof.
  intros W B C WT. unfold prune_extremal_channel_into_c, prune_extremal_channel_into.
  destruct (channels target + 1 =? channels s) eqn:E; simpl negb; cbv iota; auto. apply Nat.eqb_eq in E.
  pose proof (wf_pos s W) as P. rewrite sub_u_le by lia. cbv zeta.
  pose proof (all_mask_lt s pol W) as M. pose proof (pow2_lt_pow2 c (channels s) C) as MC.
  rewrite rd_bget. 2: { unfold wf in W. rewrite W in *. now apply lxor_lt. }
  destruct (bget (bitmap s) _); simpl negb; cbv iota; auto.
  rewrite sub_u_le by apply pow_pos. rewrite push_lt by (simpl length; unfold BVEC, MAX_BITMAP_SIZE; apply pow_pos).
  rewrite as_u16_small. 2: { apply bitmap_u16. pose proof (pow_small _ B). lia. }
  pose proof (pow_pos (channels s - 1)) as PN.
  assert (SH : Nat.shiftr (length (bitmap s) - 1) 1 = 2 ^ (channels s - 1) - 1).
  { unfold wf in W. rewrite W. apply shiftr_all. lia. }
  assert (ET : channels target = channels s - 1) by lia.
  assert (Z : map (fun _ : bool => false) (bitmap target) = repeat false (2 ^ channels target)).
  { unfold wf in WT. rewrite <- WT. clear. induction (bitmap target); simpl; f_equal; auto. }
  rewrite Z, SH, ET. clear Z.
  assert (NF : (2 ^ (channels s - 1) - 1) * Nat.b2n pol < 2 ^ (channels s - 1)) by (destruct pol; simpl Nat.b2n; lia).
  rewrite wr_lt by (now rewrite repeat_length). pose proof W as W'. unfold wf in W'. rewrite W' in *.
  change ([] ++ [2 ^ c]) with (rev [2 ^ c]).
  rewrite prune_loop_ok; auto. now rewrite upd_length, repeat_length. constructor; auto.
Qed.
