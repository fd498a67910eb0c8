(* write_abstraction_into: layout, and monotonicity under subsumption (output_set.rs 337-368, 438-489). *)
From Coq Require Import List Arith Bool Lia Permutation.
Import ListNotations.
From Verif Require Import Spec Vec Net Bits Util OutputSetModel OutputSetProofs CountProofs AbsProofs.

(* ---------- sorting is monotone ---------- *)

Definition ple : list nat -> list nat -> Prop := Forall2 le.

Lemma ple_length l l' : ple l l' -> length l = length l'.
Proof. induction 1; simpl; auto. Qed.

Lemma ple_nth l l' i : ple l l' -> nth i l 0 <= nth i l' 0.
Proof. intros H. revert i. induction H; intros [|i]; simpl; auto. Qed.

Lemma ple_intro l l' : length l = length l' -> (forall i, i < length l -> nth i l 0 <= nth i l' 0) -> ple l l'.
Proof.
  revert l'; induction l as [|a l IH]; intros [|b l'] L H; simpl in *; try discriminate; constructor.
  apply (H 0); lia. apply IH. lia. intros i Hi. apply (H (S i)). lia.
Qed.

Section Mono.
Variable leb : nat -> nat -> bool.
(* ascending or descending *)
Hypothesis ord : (leb = Nat.leb) \/ (leb = fun a b => b <=? a).

Lemma leb_refl a : leb a a = true.
Proof. destruct ord as [->| ->]; apply Nat.leb_refl. Qed.
Lemma leb_total a b : leb a b = false -> leb b a = true.
Proof. destruct ord as [->| ->]; intros H; apply Nat.leb_gt in H; apply Nat.leb_le; lia. Qed.
Lemma leb_trans a b c : leb a b = true -> leb b c = true -> leb a c = true.
Proof. destruct ord as [->| ->]; intros H1 H2; apply Nat.leb_le in H1, H2; apply Nat.leb_le; lia. Qed.

Fixpoint srt (l : list nat) : Prop :=
  match l with [] => True | a :: r => (forall b, In b r -> leb a b = true) /\ srt r end.

Lemma insert_srt a l : srt l -> srt (insert_sorted leb a l).
Proof.
  induction l as [|b l IH]; simpl; intros H; [auto|]. destruct H as (H & Hs). destruct (leb a b) eqn:E; simpl.
  - split; auto. intros c [<-|Hc]; auto. apply (leb_trans a b); auto.
  - split; auto. intros c Hc. apply (Permutation_in _ (insert_sorted_perm leb a l)) in Hc. destruct Hc as [<-|Hc]; auto using leb_total.
Qed.

Lemma insert_head a l : (forall b, In b l -> leb a b = true) -> insert_sorted leb a l = a :: l.
Proof. destruct l as [|b l]; simpl; intros H; auto. now rewrite H by auto. Qed.

Lemma insert_mono : forall l l' a b, a <= b -> ple l l' -> srt l -> srt l' -> ple (insert_sorted leb a l) (insert_sorted leb b l').
Proof.
  intros l l' a b Hab H. revert a b Hab. induction H as [|x y l l' Hxy H IH]; intros a b Hab SS1 SS2.
  { simpl. constructor; [exact Hab|constructor]. }
  destruct SS1 as (S1 & S2), SS2 as (S3 & S4). cbn [insert_sorted].
  destruct (leb a x) eqn:E1; destruct (leb b y) eqn:E2.
  { constructor; [exact Hab|]. constructor; assumption. }
  { assert (a <= y /\ x <= b) as (Q1 & Q2).
    { destruct ord as [Q|Q]; rewrite Q in E1, E2; apply Nat.leb_le in E1; apply Nat.leb_gt in E2; lia. }
    constructor; [exact Q1|]. rewrite <- (insert_head x l) by auto. apply IH; auto. }
  { assert (a <= y /\ x <= b) as (Q1 & Q2).
    { destruct ord as [Q|Q]; rewrite Q in E1, E2; apply Nat.leb_le in E2; apply Nat.leb_gt in E1; lia. }
    constructor; [exact Q2|]. rewrite <- (insert_head y l') by auto. apply IH; auto. }
  { constructor; [exact Hxy|]. apply IH; auto. }
Qed.

Lemma isort_srt l : srt (isort leb l).
Proof. induction l; simpl; auto. now apply insert_srt. Qed.

Lemma isort_mono l l' : ple l l' -> ple (isort leb l) (isort leb l').
Proof. induction 1; simpl. constructor. apply insert_mono; auto using isort_srt. Qed.

Lemma isort_permut l l' : Permutation l l' -> isort leb l = isort leb l'.
Proof.
  intros P. apply isort_perm_eq; auto.
  - intros a b. destruct (leb a b) eqn:E; auto. right. now apply leb_total.
  - apply leb_trans.
  - destruct ord as [->| ->]; intros a b H1 H2; apply Nat.leb_le in H1, H2; lia.
Qed.
End Mono.

(* ---------- pair abstraction ---------- *)

Lemma fold_sum4 (v0 v1 v2 v3 : nat -> nat) l : forall a0 a1 a2 a3,
  fold_left (fun a i => [nth 0 a 0 + v0 i; nth 1 a 0 + v1 i; nth 2 a 0 + v2 i; nth 3 a 0 + v3 i]) l [a0; a1; a2; a3] =
  [a0 + sumf v0 l; a1 + sumf v1 l; a2 + sumf v2 l; a3 + sumf v3 l].
Proof.
  induction l as [|i l IH]; intros; simpl. now rewrite !Nat.add_0_r. rewrite IH. now rewrite !Nat.add_assoc.
Qed.

(* the mask xored to reach group g *)
Definition gmask (c0 c1 g : nat) : nat :=
  match g with 0 => 0 | 1 => 2 ^ c0 | 2 => 2 ^ c1 | _ => Nat.lor (2 ^ c0) (2 ^ c1) end.

Definition pair_value (s : OutputSet) (c0 c1 g : nat) : nat :=
  sumf (fun i => Nat.b2n (bget (bitmap s) (Nat.lxor i (gmask c0 c1 g)))) (strided (length (bitmap s)) (Nat.lor (2 ^ c0) (2 ^ c1))).

Lemma pair_abs_nth s c0 c1 g : g < 4 -> nth g (channel_pair_abstraction s c0 c1) 0 = pair_value s c0 c1 g.
Proof.
  intros Hg. unfold channel_pair_abstraction. cbv zeta.
  rewrite (fold_sum4 (fun i => Nat.b2n (bget (bitmap s) i)) (fun i => Nat.b2n (bget (bitmap s) (Nat.lxor i (2 ^ c0))))
    (fun i => Nat.b2n (bget (bitmap s) (Nat.lxor i (2 ^ c1)))) (fun i => Nat.b2n (bget (bitmap s) (Nat.lxor i (Nat.lor (2 ^ c0) (2 ^ c1)))))).
  unfold pair_value. destruct g as [|[|[|[|g]]]]; cbn [nth gmask plus]; auto; try lia.
  apply sumf_ext. intros i _. now rewrite Nat.lxor_0_r.
Qed.

(* group g of a complemented set is group 3-g of the set *)
Definition ginv (inv : bool) (g : nat) : nat := if inv then 3 - g else g.

Lemma lor_pow2_bits a b i : Nat.testbit (Nat.lor (2 ^ a) (2 ^ b)) i = (a =? i) || (b =? i).
Proof. now rewrite Nat.lor_spec, !pow2_testbit. Qed.

Lemma gmask_bits c0 c1 g i : g < 4 -> Nat.testbit (gmask c0 c1 g) i =
  match g with 0 => false | 1 => c0 =? i | 2 => c1 =? i | _ => (c0 =? i) || (c1 =? i) end.
Proof. intros H. destruct g as [|[|[|[|g]]]]; cbn [gmask]; rewrite ?Nat.bits_0, ?pow2_testbit, ?lor_pow2_bits; auto; lia. Qed.

Lemma gmask_lt n c0 c1 g : c0 < n -> c1 < n -> gmask c0 c1 g < 2 ^ n.
Proof.
  intros H0 H1. destruct g as [|[|[|g]]]; cbn [gmask]; try (now apply pow2_lt_pow2).
  apply Nat.neq_0_lt_0, Nat.pow_nonzero; lia. apply lor_lt; now apply pow2_lt_pow2.
Qed.

Lemma pair_mono inv q s t c0 c1 g : subsumed inv q s t -> c0 < channels s -> c1 < channels s -> c0 <> c1 -> g < 4 ->
  pair_value s (nth c0 q 0) (nth c1 q 0) g <= pair_value t c0 c1 (ginv inv g).
Proof.
  intros S H0 H1 Ne Hg. pose proof S as (Ws & Wt & C & P & Sub). unfold pair_value. rewrite Ws, Wt, C.
  set (n := channels s) in *. set (m := Nat.lor (2 ^ c0) (2 ^ c1)).
  assert (Hq0 : nth c0 q 0 < n) by now apply is_perm_nth. assert (Hq1 : nth c1 q 0 < n) by now apply is_perm_nth.
  assert (Hm : m < 2 ^ n) by (apply lor_lt; now apply pow2_lt_pow2).
  assert (Eq : forall a b, a < n -> b < n -> (nth a q 0 =? nth b q 0) = (a =? b)).
  { intros a b Ha Hb. destruct (Nat.eqb_spec a b) as [->|N]. apply Nat.eqb_refl. apply Nat.eqb_neq. intros E. apply N. now apply (is_perm_inj n q). }
  set (f := fun i => Nat.lxor (imap n inv q i) (if inv then m else 0)).
  assert (Fb : forall i j, j < n -> Nat.testbit (f i) j = xorb (xorb inv (Nat.testbit i (nth j q 0))) (inv && ((c0 =? j) || (c1 =? j)))).
  { intros i j Hj. unfold f. rewrite Nat.lxor_spec, imap_testbit by auto. destruct inv; cbn [andb].
    unfold m. now rewrite lor_pow2_bits. now rewrite Nat.bits_0. }
  apply (sum_inj_le f).
  - apply strided_NoDup.
  - intros i j Hi Hj E. apply strided_In in Hi, Hj. unfold f in E. apply lxor_inj_r in E. apply imap_inj in E; tauto.
  - intros i Hi. apply strided_In in Hi. destruct Hi as (Hi & Hb). rewrite has_mask_pow2_2 in Hb. apply andb_true_iff in Hb.
    apply strided_In. split. { unfold f. apply lxor_lt. now apply imap_lt. destruct inv; auto. apply Nat.neq_0_lt_0, Nat.pow_nonzero; lia. }
    unfold m. rewrite has_mask_pow2_2, !Fb by auto. destruct Hb as (-> & ->). rewrite !Nat.eqb_refl, orb_true_r. now destruct inv.
  - intros i Hi. apply strided_In in Hi. destruct Hi as (Hi & _).
    assert (Hx : Nat.lxor i (gmask (nth c0 q 0) (nth c1 q 0) g) < 2 ^ n) by (apply lxor_lt; auto; now apply gmask_lt).
    replace (Nat.lxor (f i) (gmask c0 c1 (ginv inv g))) with (imap n inv q (Nat.lxor i (gmask (nth c0 q 0) (nth c1 q 0) g))).
    now apply imap_b2n.
    apply (nat_ext_lt n). now apply imap_lt.
    { apply lxor_lt; [|now apply gmask_lt]. unfold f. apply lxor_lt. now apply imap_lt. destruct inv; auto. apply Nat.neq_0_lt_0, Nat.pow_nonzero; lia. }
    intros j Hj. rewrite imap_testbit, !Nat.lxor_spec, Fb by auto. rewrite (gmask_bits (nth c0 q 0)), (gmask_bits c0) by (unfold ginv; destruct inv; lia).
    destruct inv; cbn [ginv andb].
    + destruct g as [|[|[|[|g]]]]; try lia; cbn [Nat.sub]; rewrite ?Eq by auto;
        destruct (Nat.testbit i (nth j q 0)), (Nat.eqb_spec c0 j), (Nat.eqb_spec c1 j); subst; auto; congruence.
    + destruct g as [|[|[|[|g]]]]; try lia; rewrite ?Eq by auto;
        destruct (Nat.testbit i (nth j q 0)), (Nat.eqb_spec c0 j), (Nat.eqb_spec c1 j); subst; auto; congruence.
Qed.

(* ---------- groups of one channel ---------- *)

Definition others (n c : nat) : list nat := filter (fun o => negb (o =? c)) (seq 0 n).

Lemma groups_nth s c g : g < 4 -> nth g (channel_groups s c) [] =
  isort (fun a b => b <=? a) (map (fun o => pair_value s c o g) (others (channels s) c)).
Proof.
  intros Hg. unfold channel_groups. cbv zeta.
  set (f := fun group => isort (fun a b => b <=? a) (map (fun a => nth group a 0) (map (fun o => channel_pair_abstraction s c o) (filter (fun o => negb (o =? c)) (seq 0 (channels s)))))).
  rewrite (nth_map_seq f) by auto. unfold f. rewrite map_map. f_equal. apply map_ext. intros o. now apply pair_abs_nth.
Qed.

Lemma groups_length s c : length (channel_groups s c) = 4.
Proof. unfold channel_groups. now rewrite map_length, seq_length. Qed.

Lemma others_In n c o : In o (others n c) <-> o < n /\ o <> c.
Proof.
  unfold others. rewrite filter_In, in_seq, negb_true_iff, Nat.eqb_neq. lia.
Qed.

Lemma others_length n c : c < n -> length (others n c) = n - 1.
Proof.
  intros H. assert (E : length (others n c) + length (filter (fun o => o =? c) (seq 0 n)) = n).
  { unfold others. rewrite <- (seq_length n 0) at 3. induction (seq 0 n) as [|a l IH]; simpl; auto. destruct (a =? c); simpl; lia. }
  assert (F : length (filter (fun o => o =? c) (seq 0 n)) = 1).
  { assert (Pf : Permutation (filter (fun o => o =? c) (seq 0 n)) [c]).
    { apply NoDup_Permutation. apply NoDup_filter, seq_NoDup. repeat constructor; auto.
      intros x. rewrite filter_In, in_seq, Nat.eqb_eq. simpl. lia. }
    now rewrite (Permutation_length Pf). }
  lia.
Qed.

Lemma others_perm n q c : is_perm n q -> c < n -> Permutation (map (fun o => nth o q 0) (others n c)) (others n (nth c q 0)).
Proof.
  intros P Hc. apply NoDup_Permutation.
  - apply NoDup_map_on. apply NoDup_filter, seq_NoDup. intros x y Hx Hy. apply others_In in Hx, Hy. apply (is_perm_inj n q); tauto.
  - apply NoDup_filter, seq_NoDup.
  - intros x. rewrite in_map_iff, others_In. split.
    + intros (o & <- & Ho). apply others_In in Ho. split. apply is_perm_nth; tauto. intros E. apply (is_perm_inj n q) in E; tauto.
    + intros (Hx & Nx). destruct (is_perm_surj n q x P Hx) as (o & Ho & <-). exists o. split; auto. apply others_In. split; auto. congruence.
Qed.

Lemma group_mono inv q s t c g : subsumed inv q s t -> c < channels s -> g < 4 ->
  ple (nth g (channel_groups s (nth c q 0)) []) (nth (ginv inv g) (channel_groups t c) []).
Proof.
  intros S Hc Hg. pose proof S as (Ws & Wt & C & P & Sub).
  rewrite !groups_nth by (unfold ginv; destruct inv; lia). rewrite C.
  rewrite (isort_permut (fun a b => b <=? a) (or_intror eq_refl) (map (fun o => pair_value s (nth c q 0) o g) (others (channels s) (nth c q 0)))
    (map (fun o => pair_value s (nth c q 0) (nth o q 0) g) (others (channels s) c))).
  2: { rewrite <- (map_map (fun o => nth o q 0) (fun o => pair_value s (nth c q 0) o g)). apply Permutation_map. symmetry. now apply others_perm. }
  apply isort_mono; [right; reflexivity|].
  assert (Hin : forall o, In o (others (channels s) c) -> o < channels s /\ o <> c) by (intros o Ho; now apply others_In).
  revert Hin. generalize (others (channels s) c). induction l as [|o l IH]; intros Hin; simpl; constructor.
  - destruct (Hin o); simpl; auto. apply pair_mono; auto.
  - apply IH. intros o' Ho'. apply Hin. simpl; auto.
Qed.

(* ---------- the layout ---------- *)

Lemma fold_flat_map {A B C} (f : A -> C -> A) (g : B -> list C) l : forall a,
  fold_left f (flat_map g l) a = fold_left (fun a x => fold_left f (g x) a) l a.
Proof. induction l as [|b l IH]; intros a; simpl; auto. now rewrite fold_left_app, IH. Qed.

Lemma fold_map {A B C} (f : A -> C -> A) (g : B -> C) l : forall a,
  fold_left f (map g l) a = fold_left (fun a x => f a (g x)) l a.
Proof. induction l as [|b l IH]; intros a; simpl; auto. Qed.

Lemma fold_upd_length {B} (pos val : B -> nat) l : forall a, length (fold_left (fun a e => upd a (pos e) (val e)) l a) = length a.
Proof. induction l; intros; simpl; auto. rewrite IHl. apply upd_length. Qed.

(* writes to distinct positions *)
Lemma fold_upd {B} (pos val : B -> nat) l : forall a, NoDup (map pos l) -> forall e, In e l -> pos e < length a ->
  nth (pos e) (fold_left (fun a e => upd a (pos e) (val e)) l a) 0 = val e.
Proof.
  induction l as [|b l IH]; intros a N e He Hp; simpl in *; [tauto|]. apply NoDup_cons_iff in N. destruct N as (Nb & N).
  destruct He as [->|He].
  - assert (K : forall p a', (forall x, In x l -> pos x <> p) -> nth p (fold_left (fun a e => upd a (pos e) (val e)) l a') 0 = nth p a' 0).
    { clear. induction l as [|b l IH]; intros p a' H; simpl; auto. rewrite IH by (intros; apply H; simpl; auto).
      apply upd_nth_neq. apply not_eq_sym, H. simpl; auto. }
    rewrite K. now apply upd_nth_eq. intros x Hx E. apply Nb. rewrite <- E. now apply in_map.
  - apply IH; auto. now rewrite upd_length.
Qed.

Lemma fold_ext_in {A B} (f g : A -> B -> A) l : (forall a b, In b l -> f a b = g a b) -> forall a, fold_left f l a = fold_left g l a.
Proof. induction l as [|b l IH]; intros H a; simpl; auto. rewrite H by (simpl; auto). apply IH. intros; apply H; simpl; auto. Qed.

Definition entries (n : nat) : list (nat * nat * nat) :=
  flat_map (fun c => flat_map (fun g => map (fun i => (c, g, i)) (seq 0 (n - 1))) (seq 0 4)) (seq 0 n).

Definition epos (n : nat) (e : nat * nat * nat) : nat := fst (fst e) + n * (snd (fst e) + 4 * snd e).
Definition eval (s : OutputSet) (e : nat * nat * nat) : nat := nth (snd e) (nth (snd (fst e)) (channel_groups s (fst (fst e))) []) 0.

Definition abs1 (s : OutputSet) : list nat :=
  fold_left (fun a channel => write_groups (channels s) channel (channel_groups s channel) a) (seq 0 (channels s))
            (repeat 0 (abstraction_len_for_channels (channels s))).

Lemma group_length s c g : c < channels s -> g < 4 -> length (nth g (channel_groups s c) []) = channels s - 1.
Proof. intros Hc Hg. rewrite groups_nth by auto. now rewrite isort_length, map_length, others_length. Qed.

Lemma abs1_eq s : abs1 s = fold_left (fun a e => upd a (epos (channels s) e) (eval s e)) (entries (channels s)) (repeat 0 (abstraction_len_for_channels (channels s))).
Proof.
  unfold abs1, entries. rewrite fold_flat_map. apply fold_ext_in. intros a c Hc. apply in_seq in Hc.
  unfold write_groups. rewrite (enumerate_map []), groups_length, fold_map. rewrite fold_flat_map. apply fold_ext_in.
  intros a' g Hg. apply in_seq in Hg. cbn [fst snd]. rewrite (enumerate_map 0), group_length, !fold_map by lia.
  apply fold_ext_in. intros a'' i Hi. reflexivity.
Qed.

Lemma abs1_length s : length (abs1 s) = channels s * ((channels s - 1) * 4).
Proof. rewrite abs1_eq, fold_upd_length, repeat_length. unfold abstraction_len_for_channels, PAIR_ABSTRACTION_GROUPS. lia. Qed.

Lemma entries_In n c g i : In (c, g, i) (entries n) <-> c < n /\ g < 4 /\ i < n - 1.
Proof.
  unfold entries. rewrite in_flat_map. split.
  - intros (c' & Hc & H). apply in_flat_map in H. destruct H as (g' & Hg & H). apply in_map_iff in H. destruct H as (i' & E & Hi).
    injection E as -> -> ->. apply in_seq in Hc, Hg, Hi. lia.
  - intros (Hc & Hg & Hi). exists c. split. apply in_seq; lia. apply in_flat_map. exists g. split. apply in_seq; lia.
    apply in_map_iff. exists i. split; auto. apply in_seq; lia.
Qed.

Lemma NoDup_flat_map {A B} (f : A -> list B) l : NoDup l -> (forall a, In a l -> NoDup (f a)) ->
  (forall a b x, In a l -> In b l -> In x (f a) -> In x (f b) -> a = b) -> NoDup (flat_map f l).
Proof.
  induction 1 as [|a l Ha Hl IH]; intros H1 H2; simpl; [constructor|].
  assert (D : forall x, In x (f a) -> ~ In x (flat_map f l)).
  { intros x Hx Hin. apply in_flat_map in Hin. destruct Hin as (b & Hb & Hxb). apply Ha. rewrite (H2 a b x); simpl; auto. }
  assert (N1 : NoDup (f a)) by (apply H1; simpl; auto). assert (N2 : NoDup (flat_map f l)).
  { apply IH. intros; apply H1; simpl; auto. intros b c x Hb Hc. apply H2; simpl; auto. }
  clear -D N1 N2. induction (f a) as [|x r IHr]; simpl; auto. apply NoDup_cons_iff in N1. destruct N1 as (Nx & N1). constructor.
  - rewrite in_app_iff. intros [|]; auto. apply (D x); simpl; auto.
  - apply IHr; auto. intros y Hy. apply D. simpl; auto.
Qed.

Lemma entries_NoDup n : NoDup (entries n).
Proof.
  unfold entries. apply NoDup_flat_map. apply seq_NoDup.
  - intros c _. apply NoDup_flat_map. apply seq_NoDup.
    + intros g _. apply FinFun.Injective_map_NoDup. intros i j E. now injection E. apply seq_NoDup.
    + intros g g' x _ _ H H'. apply in_map_iff in H, H'. destruct H as (i & <- & _), H' as (i' & E & _). now injection E.
  - intros c c' x _ _ H H'. apply in_flat_map in H, H'. destruct H as (g & _ & H), H' as (g' & _ & H').
    apply in_map_iff in H, H'. destruct H as (i & <- & _), H' as (i' & E & _). now injection E.
Qed.

Lemma epos_inj n e e' : In e (entries n) -> In e' (entries n) -> epos n e = epos n e' -> e = e'.
Proof.
  destruct e as ((c & g) & i), e' as ((c' & g') & i'). rewrite !entries_In. unfold epos. cbn [fst snd]. intros (H1 & H2 & H3) (H4 & H5 & H6) E.
  assert (c = c' /\ g + 4 * i = g' + 4 * i') as (-> & E2).
  { assert (M1 := Nat.div_mod (c + n * (g + 4 * i)) n ltac:(lia)). 
    assert (c = c'). { apply (f_equal (fun x => x mod n)) in E. rewrite !(Nat.mul_comm n), !Nat.mod_add, !Nat.mod_small in E by lia. auto. }
    subst. split; auto. nia. }
  assert (i = i') by lia. subst. assert (g = g') by lia. now subst.
Qed.

Lemma abs1_nth s c g i : c < channels s -> g < 4 -> i < channels s - 1 ->
  nth (c + channels s * (g + 4 * i)) (abs1 s) 0 = nth i (nth g (channel_groups s c) []) 0.
Proof.
  intros Hc Hg Hi. rewrite abs1_eq.
  apply (fold_upd (epos (channels s)) (eval s) (entries (channels s)) _) with (e := (c, g, i)).
  - apply NoDup_map_on. apply entries_NoDup. intros; eapply epos_inj; eauto.
  - apply entries_In. auto.
  - rewrite repeat_length. unfold epos, abstraction_len_for_channels, PAIR_ABSTRACTION_GROUPS. cbn [fst snd]. nia.
Qed.

(* chunks of equal size *)
Lemma chunks_f_concat {A} k m : 0 < k -> forall fuel (l : list A), length l = m * k -> m * k <= fuel ->
  exists cs, chunks_f fuel k l = cs /\ length cs = m /\ Forall (fun c => length c = k) cs /\ concat cs = l.
Proof.
  intros Hk. induction m as [|m IH]; intros fuel l L F.
  - destruct l; [|simpl in L; lia]. exists []. destruct fuel; simpl; auto.
  - destruct fuel as [|f]; [simpl in F; lia|]. destruct l as [|a l]; [simpl in L; lia|].
    destruct (IH f (skipn k (a :: l))) as (cs & E & H1 & H2 & H3). { rewrite skipn_length, L. simpl. lia. } { simpl in F. lia. }
    exists (firstn k (a :: l) :: cs). cbn [chunks_f]. rewrite E. split; auto. split. simpl; lia. split.
    + constructor; auto. rewrite firstn_length, L. simpl. lia.
    + simpl concat. rewrite H3. apply firstn_skipn.
Qed.

Lemma chunks_concat {A} k m (l : list A) : 0 < k -> length l = m * k ->
  length (chunks k l) = m /\ Forall (fun c => length c = k) (chunks k l) /\ concat (chunks k l) = l.
Proof. intros Hk L. destruct (chunks_f_concat k m Hk (length l) l L ltac:(lia)) as (cs & E & H). unfold chunks. now rewrite E. Qed.

Lemma concat_nth {A} (d : A) k (cs : list (list A)) : Forall (fun c => length c = k) cs -> forall i j, j < k -> i < length cs ->
  nth (i * k + j) (concat cs) d = nth j (nth i cs []) d.
Proof.
  induction 1 as [|c cs Hc H IH]; intros i j Hj Hi; simpl in *; [lia|]. destruct i as [|i]; simpl.
  - now rewrite app_nth1 by lia.
  - rewrite app_nth2 by lia. rewrite <- IH by lia. f_equal. lia.
Qed.

Lemma concat_length {A} k (cs : list (list A)) : Forall (fun c => length c = k) cs -> length (concat cs) = length cs * k.
Proof. induction 1; simpl; auto. rewrite app_length. lia. Qed.

Lemma Forall_map_len {A B} (f : list A -> list B) k cs : (forall c, length c = k -> length (f c) = k) ->
  Forall (fun c => length c = k) cs -> Forall (fun c => length c = k) (map f cs).
Proof. intros H F. apply Forall_map. eapply Forall_impl; [|exact F]. auto. Qed.

Lemma mapped_chunks (f : list nat -> list nat) k m l : 0 < k -> length l = m * k -> (forall c, length c = k -> length (f c) = k) ->
  length (concat (map f (chunks k l))) = m * k /\
  forall i j, i < m -> j < k -> nth (i * k + j) (concat (map f (chunks k l))) 0 = nth j (f (map (fun x => nth (i * k + x) l 0) (seq 0 k))) 0.
Proof.
  intros Hk L Hf. destruct (chunks_concat k m l Hk L) as (H1 & H2 & H3). split.
  - rewrite (concat_length k). now rewrite map_length, H1. now apply Forall_map_len.
  - intros i j Hi Hj. rewrite (concat_nth 0 k) by (auto using Forall_map_len; rewrite map_length; lia).
    rewrite (nth_map_lt f _ i []) by lia. f_equal. f_equal.
    assert (Lc : length (nth i (chunks k l) []) = k). { rewrite Forall_forall in H2. apply H2. apply nth_In. lia. }
    apply nth_ext_lt with (d := 0). now rewrite map_length, seq_length.
    rewrite Lc. intros x Hx. rewrite (nth_map_seq (fun x => nth (i * k + x) l 0)) by auto. rewrite <- (concat_nth 0 k) by (auto; lia). now rewrite H3.
Qed.

Lemma transpose_chunk_length n tmp : length (transpose_chunk n tmp) = length tmp.
Proof.
  unfold transpose_chunk.
  assert (E : forall (l : list nat) l' t a, length (fold_left (fun ch i => fold_left (fun ch j => upd ch (i + j * 4) (nth (j + i * n) t 0)) l' ch) l a) = length a).
  { induction l as [|i l IH]; intros l' t a; simpl; auto. rewrite IH. apply (fold_upd_length (fun j => i + j * 4) (fun j => nth (j + i * n) t 0)). }
  apply E.
Qed.

Lemma transpose_chunk_nth n tmp g j : length tmp = n * 4 -> g < 4 -> j < n -> nth (g + 4 * j) (transpose_chunk n tmp) 0 = nth (j + g * n) tmp 0.
Proof.
  intros L Hg Hj. unfold transpose_chunk.
  set (ents := flat_map (fun i => map (fun j => (i, j)) (seq 0 n)) (seq 0 4)).
  assert (E : fold_left (fun ch i => fold_left (fun ch j => upd ch (i + j * 4) (nth (j + i * n) tmp 0)) (seq 0 n) ch) (seq 0 4) tmp =
              fold_left (fun a (e : nat * nat) => upd a (fst e + snd e * 4) (nth (snd e + fst e * n) tmp 0)) ents tmp).
  { unfold ents. rewrite fold_flat_map. apply fold_ext_in. intros a i _. now rewrite fold_map. }
  rewrite E. rewrite (Nat.mul_comm 4 j).
  assert (In_e : forall e, In e ents <-> fst e < 4 /\ snd e < n).
  { intros (a & b). unfold ents. rewrite in_flat_map. cbn [fst snd]. split.
    - intros (i & Hi & H). apply in_map_iff in H. destruct H as (j' & E' & Hj'). injection E' as -> ->. apply in_seq in Hi, Hj'. lia.
    - intros (Ha & Hb). exists a. split. apply in_seq; lia. apply in_map_iff. exists b. split; auto. apply in_seq; lia. }
  apply (fold_upd (fun e : nat * nat => fst e + snd e * 4) (fun e => nth (snd e + fst e * n) tmp 0) ents tmp) with (e := (g, j)).
  - apply NoDup_map_on.
    + unfold ents. apply NoDup_flat_map. apply seq_NoDup. intros a _. apply FinFun.Injective_map_NoDup. intros x y E'. now injection E'. apply seq_NoDup.
      intros a b x _ _ H H'. apply in_map_iff in H, H'. destruct H as (i & <- & _), H' as (i' & E' & _). now injection E'.
    + intros (a & b) (a' & b') H H' E'. apply In_e in H, H'. cbn [fst snd] in *. assert (b = b') by lia. subst. f_equal. lia.
  - apply In_e. auto.
  - cbn [fst snd]. lia.
Qed.

Definition abs2 (s : OutputSet) : list nat := concat (map (isort Nat.leb) (chunks (channels s) (abs1 s))).

Lemma abs2_spec s : 0 < channels s -> length (abs2 s) = (channels s - 1) * 4 * channels s /\
  forall k j, k < (channels s - 1) * 4 -> j < channels s ->
  nth (k * channels s + j) (abs2 s) 0 = nth j (isort Nat.leb (map (fun x => nth (k * channels s + x) (abs1 s) 0) (seq 0 (channels s)))) 0.
Proof.
  intros Hn. apply mapped_chunks; auto. rewrite abs1_length. lia. intros c Hc. now rewrite isort_length.
Qed.

(* the values of group g, rank i, over all channels, ascending *)
Definition column (s : OutputSet) (g i : nat) : list nat :=
  isort Nat.leb (map (fun c => nth i (nth g (channel_groups s c) []) 0) (seq 0 (channels s))).

Lemma abstraction_layout s : 0 < channels s ->
  length (abstraction s) = (channels s - 1) * (channels s * 4) /\
  forall i g j, i < channels s - 1 -> g < 4 -> j < channels s ->
  nth (i * (channels s * 4) + (g + 4 * j)) (abstraction s) 0 = nth j (column s g i) 0.
Proof.
  intros Hn. change (abstraction s) with (concat (map (transpose_chunk (channels s)) (chunks (channels s * 4) (abs2 s)))).
  destruct (abs2_spec s Hn) as (L2 & N2).
  destruct (mapped_chunks (transpose_chunk (channels s)) (channels s * 4) (channels s - 1) (abs2 s)) as (L3 & N3).
  lia. rewrite L2. lia. intros c Hc. now rewrite transpose_chunk_length.
  split; auto. intros i g j Hi Hg Hj. rewrite N3 by lia.
  rewrite transpose_chunk_nth; auto. 2: now rewrite map_length, seq_length.
  rewrite (nth_map_seq (fun x => nth (i * (channels s * 4) + x) (abs2 s) 0)) by nia.
  replace (i * (channels s * 4) + (j + g * channels s)) with ((i * 4 + g) * channels s + j) by lia.
  rewrite N2 by nia. unfold column. f_equal. f_equal. apply map_ext_in. intros c Hc. apply in_seq in Hc.
  rewrite <- abs1_nth by lia. f_equal. lia.
Qed.

Lemma column_length s g i : length (column s g i) = channels s.
Proof. unfold column. now rewrite isort_length, map_length, seq_length. Qed.

Lemma column_mono inv q s t g i : subsumed inv q s t -> g < 4 -> ple (column s g i) (column t (ginv inv g) i).
Proof.
  intros S Hg. pose proof S as (Ws & Wt & C & P & Sub). unfold column. rewrite C.
  rewrite (isort_permut Nat.leb (or_introl eq_refl) (map (fun c => nth i (nth g (channel_groups s c) []) 0) (seq 0 (channels s)))
             (map (fun c => nth i (nth g (channel_groups s (nth c q 0)) []) 0) (seq 0 (channels s)))).
  - apply isort_mono; [now left|]. apply ple_intro. now rewrite !map_length. rewrite map_length, seq_length. intros c Hc.
    rewrite (nth_map_seq (fun c => nth i (nth g (channel_groups s (nth c q 0)) []) 0)) by auto.
    rewrite (nth_map_seq (fun c => nth i (nth (ginv inv g) (channel_groups t c) []) 0)) by auto.
    apply ple_nth. now apply group_mono.
  - rewrite <- (map_map (fun c => nth c q 0) (fun c => nth i (nth g (channel_groups s c) []) 0)). apply Permutation_map. symmetry.
    replace (map (fun c => nth c q 0) (seq 0 (channels s))) with q. exact P.
    apply nth_ext_lt with (d := 0). rewrite map_length, seq_length. now apply is_perm_length.
    intros c Hc. rewrite (is_perm_length _ _ P) in Hc. now rewrite (nth_map_seq (fun c => nth c q 0)).
Qed.

(* position read on the other side: i, or i xor 3 when complemented *)
Definition apos (inv : bool) (p : nat) : nat := if inv then Nat.lxor p 3 else p.

Lemma lxor3 k g : g < 4 -> Nat.lxor (4 * k + g) 3 = 4 * k + (3 - g).
Proof.
  intros H. assert (E : forall a b, Nat.lxor (Nat.b2n a + 2 * b) 1 = Nat.b2n (negb a) + 2 * b).
  { intros a b. apply nat_ext_bits. intros [|i]. rewrite Nat.lxor_spec, !testbit_b2n_0. now destruct a.
    rewrite Nat.lxor_spec, !testbit_b2n_S. change 1 with (Nat.b2n true + 2 * 0). rewrite testbit_b2n_S, Nat.bits_0. apply xorb_false_r. }
  assert (E3 : forall a b, Nat.lxor (Nat.b2n a + 2 * b) 3 = Nat.b2n (negb a) + 2 * Nat.lxor b 1).
  { intros a b. apply nat_ext_bits. intros [|i]. rewrite Nat.lxor_spec, !testbit_b2n_0. now destruct a.
    rewrite Nat.lxor_spec, !testbit_b2n_S, Nat.lxor_spec. reflexivity. }
  destruct g as [|[|[|[|g]]]]; try lia.
  - replace (4 * k + 0) with (Nat.b2n false + 2 * (Nat.b2n false + 2 * k)) by (simpl; lia). rewrite E3, E. simpl; lia.
  - replace (4 * k + 1) with (Nat.b2n true + 2 * (Nat.b2n false + 2 * k)) by (simpl; lia). rewrite E3, E. simpl; lia.
  - replace (4 * k + 2) with (Nat.b2n false + 2 * (Nat.b2n true + 2 * k)) by (simpl; lia). rewrite E3, E. simpl; lia.
  - replace (4 * k + 3) with (Nat.b2n true + 2 * (Nat.b2n true + 2 * k)) by (simpl; lia). rewrite E3, E. simpl; lia.
Qed.

Theorem abstraction_mono inv q s t : subsumed inv q s t -> 0 < channels s ->
  length (abstraction s) = length (abstraction t) /\
  forall p, p < length (abstraction s) -> apos inv p < length (abstraction t) /\
            nth p (abstraction s) 0 <= nth (apos inv p) (abstraction t) 0.
Proof.
  intros S Hn. pose proof S as (Ws & Wt & C & P & Sub). set (n := channels s) in *.
  destruct (abstraction_layout s Hn) as (Ls & Ns). destruct (abstraction_layout t ltac:(lia)) as (Lt & Nt). rewrite C in *.
  fold n in Ls, Ns, Lt, Nt. split. congruence. intros p Hp. rewrite Ls in Hp.
  set (i := p / (n * 4)). set (r := p mod (n * 4)). assert (Ep : p = i * (n * 4) + r) by (unfold i, r; rewrite (Nat.mul_comm (p / (n * 4))); apply Nat.div_mod; lia).
  assert (Hr : r < n * 4) by (apply Nat.mod_upper_bound; lia). assert (Hi : i < n - 1) by (apply Nat.div_lt_upper_bound; lia).
  set (j := r / 4). set (g := r mod 4). assert (Er : r = 4 * j + g) by (apply Nat.div_mod; lia).
  assert (Hg : g < 4) by (apply Nat.mod_upper_bound; lia). assert (Hj : j < n) by (apply Nat.div_lt_upper_bound; lia).
  assert (Ea : apos inv p = i * (n * 4) + (ginv inv g + 4 * j)).
  { unfold apos, ginv. destruct inv. 2: lia. replace p with (4 * (i * n + j) + g) by lia. rewrite lxor3 by auto. lia. }
  assert (Hgi : ginv inv g < 4) by (unfold ginv; destruct inv; lia).
  split. { rewrite Ea, Lt. nia. }
  rewrite Ea. rewrite Nt by auto. replace p with (i * (n * 4) + (g + 4 * j)) by lia. rewrite Ns by auto.
  apply ple_nth. now apply (column_mono inv q).
Qed.
