(* Abstractions are monotone under subsumption (output_set.rs 268-368, 438-489). *)
From Coq Require Import List Arith Bool Lia Permutation.
Import ListNotations.
From Verif Require Import Spec Vec Net Bits Util OutputSetModel OutputSetProofs CountProofs.

(* s, read through q, is contained in t *)
Definition subsumed (inv : bool) (q : list nat) (s t : OutputSet) : Prop :=
  wf s /\ wf t /\ channels t = channels s /\ is_perm (channels s) q /\
  forall x, vs s x -> vs t (permute q (complement_if inv x)).

Lemma sumf_incl {A} (f : A -> nat) l : NoDup l -> forall l', incl l l' -> sumf f l <= sumf f l'.
Proof.
  induction 1 as [|a l Ha Hl IH]; intros l' I; simpl; [lia|].
  destruct (in_split a l') as (l1 & l2 & ->). apply I; simpl; auto.
  assert (I' : incl l (l1 ++ l2)).
  { intros b Hb. assert (Hin : In b (l1 ++ a :: l2)) by (apply I; simpl; auto). apply in_app_or in Hin.
    apply in_or_app. destruct Hin as [|[<-|]]; auto. contradiction. }
  specialize (IH _ I'). rewrite (sumf_perm f (l1 ++ a :: l2) (a :: l1 ++ l2)). simpl; lia.
  symmetry. apply Permutation_middle.
Qed.

Lemma sumf_map {A B} (f : B -> nat) (g : A -> B) l : sumf f (map g l) = sumf (fun a => f (g a)) l.
Proof. induction l; simpl; auto. Qed.

Lemma sumf_le {A} (f g : A -> nat) l : (forall a, In a l -> f a <= g a) -> sumf f l <= sumf g l.
Proof. induction l as [|a l IH]; intros H; simpl; auto. apply Nat.add_le_mono. apply H; simpl; auto. apply IH. intros; apply H; simpl; auto. Qed.

Lemma sum_inj_le (f : nat -> nat) (v v' : nat -> nat) l l' : NoDup l ->
  (forall i j, In i l -> In j l -> f i = f j -> i = j) -> (forall i, In i l -> In (f i) l') ->
  (forall i, In i l -> v i <= v' (f i)) -> sumf v l <= sumf v' l'.
Proof.
  intros N J M L. apply (Nat.le_trans _ (sumf v' (map f l))).
  - rewrite sumf_map. now apply sumf_le.
  - apply sumf_incl. now apply NoDup_map_on. intros b Hb. apply in_map_iff in Hb. destruct Hb as (i & <- & Hi). auto.
Qed.

(* the index map of a subsumption *)
Definition imap (n : nat) (inv : bool) (q : list nat) (i : nat) : nat :=
  idx (permute q (complement_if inv (vec_of n i))).

Lemma imap_lt n inv q i : is_perm n q -> imap n inv q i < 2 ^ n.
Proof. intros P. unfold imap. pose proof (idx_lt (permute q (complement_if inv (vec_of n i)))) as H. now rewrite permute_length, (is_perm_length _ _ P) in H. Qed.

Lemma imap_inj n inv q i j : is_perm n q -> i < 2 ^ n -> j < 2 ^ n -> imap n inv q i = imap n inv q j -> i = j.
Proof.
  intros P Hi Hj E. apply idx_inj in E. 2: now rewrite !permute_length.
  apply (permute_inj n) in E; auto; try (now rewrite complement_if_length, vec_of_length).
  rewrite <- (idx_vec_of n i), <- (idx_vec_of n j) by auto. f_equal.
  rewrite <- (complement_if_involutive inv (vec_of n i)), E. apply complement_if_involutive.
Qed.

Lemma bit_complement_if b x i : i < length x -> bit (complement_if b x) i = xorb b (bit x i).
Proof. intros H. destruct b; simpl; rewrite ?bit_complement by auto; now destruct (bit x i). Qed.

Lemma imap_testbit n inv q i c : is_perm n q -> c < n -> Nat.testbit (imap n inv q i) c = xorb inv (Nat.testbit i (nth c q 0)).
Proof.
  intros P Hc. unfold imap. rewrite testbit_idx, bit_permute by now rewrite (is_perm_length _ _ P).
  pose proof (is_perm_nth _ _ _ P Hc) as H. rewrite bit_complement_if by now rewrite vec_of_length.
  rewrite bit_vec_of. apply Nat.ltb_lt in H. now rewrite H.
Qed.

Lemma imap_lxor n inv q i c : is_perm n q -> i < 2 ^ n -> c < n ->
  imap n inv q (Nat.lxor i (2 ^ nth c q 0)) = Nat.lxor (imap n inv q i) (2 ^ c).
Proof.
  intros P Hi Hc. pose proof (is_perm_nth _ _ _ P Hc) as Hq.
  apply (nat_ext_lt n). now apply imap_lt. apply lxor_lt. now apply imap_lt. now apply pow2_lt_pow2.
  intros j Hj. rewrite lxor_pow2_testbit, !imap_testbit, lxor_pow2_testbit by auto.
  assert (E : (nth c q 0 =? nth j q 0) = (c =? j)).
  { destruct (Nat.eqb_spec c j) as [->|N]. apply Nat.eqb_refl. apply Nat.eqb_neq. intros E. apply N. now apply (is_perm_inj n q). }
  rewrite E. now rewrite xorb_assoc.
Qed.

Lemma imap_bget inv q s t i : subsumed inv q s t -> i < 2 ^ channels s ->
  bget (bitmap s) i = true -> bget (bitmap t) (imap (channels s) inv q i) = true.
Proof.
  intros (Ws & Wt & C & P & S) Hi H. apply (vs_vec_of s i Hi) in H. apply S in H. apply H.
Qed.

Lemma imap_b2n inv q s t i : subsumed inv q s t -> i < 2 ^ channels s ->
  Nat.b2n (bget (bitmap s) i) <= Nat.b2n (bget (bitmap t) (imap (channels s) inv q i)).
Proof.
  intros S Hi. destruct (bget (bitmap s) i) eqn:E; [|simpl; lia]. now rewrite (imap_bget _ _ _ _ _ S Hi E).
Qed.

(* ---------- low_channels_channel_abstraction ---------- *)

Lemma fold_add_at3 {A} (p0 p1 p2 v0 v1 v2 : A -> nat) l : forall buf p, p < length buf ->
  nth p (fold_left (fun b i => add_at (add_at (add_at b (p0 i) (v0 i)) (p1 i) (v1 i)) (p2 i) (v2 i)) l buf) 0 =
  nth p buf 0 + sumf (fun i => (if p0 i =? p then v0 i else 0) + (if p1 i =? p then v1 i else 0) + (if p2 i =? p then v2 i else 0)) l.
Proof.
  assert (A1 : forall b q v p, p < length b -> nth p (add_at b q v) 0 = nth p b 0 + if q =? p then v else 0).
  { intros b q v p H. unfold add_at. rewrite upd_nth, (Nat.eqb_sym q p). destruct (Nat.eqb_spec p q) as [->|]; simpl; auto.
    apply Nat.ltb_lt in H. now rewrite H. }
  assert (A2 : forall b q v, length (add_at b q v) = length b) by (intros; unfold add_at; now rewrite upd_length).
  induction l as [|i l IH]; intros buf p H; simpl; [lia|].
  rewrite IH by now rewrite !A2. rewrite !A1 by (rewrite ?A2; auto). lia.
Qed.

Lemma fold_add_at3_length {A} (p0 p1 p2 v0 v1 v2 : A -> nat) l : forall buf,
  length (fold_left (fun b i => add_at (add_at (add_at b (p0 i) (v0 i)) (p1 i) (v1 i)) (p2 i) (v2 i)) l buf) = length buf.
Proof. induction l; intros; simpl; auto. rewrite IHl. unfold add_at. now rewrite !upd_length. Qed.

Definition low_pos (n k c i : nat) : nat :=
  3 * (count_ones (Nat.ldiff i (Nat.lor (2 ^ k - 1) (2 ^ c))) + (n - k) * Nat.land i (2 ^ k - 1)).

Lemma low_abs_nth s k c p : p < (channels s - k) * 2 ^ k * 3 ->
  nth p (low_channels_channel_abstraction s k c) 0 =
  sumf (fun i => (if 0 + low_pos (channels s) k c i =? p then Nat.b2n (bget (bitmap s) (Nat.lxor i (2 ^ c))) else 0) +
                 (if 1 + low_pos (channels s) k c i =? p then Nat.b2n (bget (bitmap s) i) else 0) +
                 (if 2 + low_pos (channels s) k c i =? p then Nat.b2n (bget (bitmap s) (Nat.lxor i (2 ^ c)) && bget (bitmap s) i) else 0))
       (strided (length (bitmap s)) (2 ^ c)).
Proof.
  intros H. unfold low_channels_channel_abstraction. cbv zeta.
  match goal with |- nth p (fold_left ?f ?l ?b) 0 = _ =>
    rewrite (fold_add_at3 (fun i => 0 + low_pos (channels s) k c i) (fun i => 1 + low_pos (channels s) k c i) (fun i => 2 + low_pos (channels s) k c i)
    (fun i => Nat.b2n (bget (bitmap s) (Nat.lxor i (2 ^ c)))) (fun i => Nat.b2n (bget (bitmap s) i))
    (fun i => Nat.b2n (bget (bitmap s) (Nat.lxor i (2 ^ c)) && bget (bitmap s) i)) l b) end.
  - now rewrite nth_repeat.
  - now rewrite repeat_length.
Qed.

Lemma low_abs_length s k c : length (low_channels_channel_abstraction s k c) = (channels s - k) * 2 ^ k * 3.
Proof.
  unfold low_channels_channel_abstraction. cbv zeta.
  match goal with |- length (fold_left ?f ?l ?b) = _ =>
    etransitivity; [exact (fold_add_at3_length (fun i => 0 + low_pos (channels s) k c i) (fun i => 1 + low_pos (channels s) k c i) (fun i => 2 + low_pos (channels s) k c i)
    (fun i => Nat.b2n (bget (bitmap s) (Nat.lxor i (2 ^ c)))) (fun i => Nat.b2n (bget (bitmap s) i))
    (fun i => Nat.b2n (bget (bitmap s) (Nat.lxor i (2 ^ c)) && bget (bitmap s) i)) l b)|] end.
  apply repeat_length.
Qed.

Lemma low_pos_imap n q k c i : is_perm n q -> fixes_low k q -> k <= c -> c < n -> i < 2 ^ n ->
  low_pos n k c (imap n false q i) = low_pos n k (nth c q 0) i.
Proof.
  intros P F Hk Hc Hi. pose proof (is_perm_nth _ _ _ P Hc) as Hq. pose proof (fixes_low_ge n k q c P F Hk Hc) as Hkq.
  unfold low_pos, imap. simpl complement_if. rewrite <- (idx_vec_of n i Hi) at 3 4. rewrite !land_low.
  rewrite !count_high_c by (rewrite ?permute_length, ?(is_perm_length _ _ P), ?vec_of_length; auto).
  unfold high_weight_c. rewrite (firstn_permute n q k) by (auto; try apply vec_of_length; lia).
  rewrite (permute_weight n q) by (auto; apply vec_of_length). rewrite bit_permute by now rewrite (is_perm_length _ _ P). auto.
Qed.

Lemma low_abs_mono q s t k c p : subsumed false q s t -> fixes_low k q -> k <= c -> c < channels s ->
  nth p (low_channels_channel_abstraction s k (nth c q 0)) 0 <= nth p (low_channels_channel_abstraction t k c) 0.
Proof.
  intros S F Hk Hc. pose proof S as (Ws & Wt & C & P & Sub).
  destruct (lt_dec p ((channels s - k) * 2 ^ k * 3)) as [Hp|Hp].
  2: { rewrite (nth_overflow (low_channels_channel_abstraction s k _)) by (rewrite low_abs_length; lia). lia. }
  rewrite !low_abs_nth by (rewrite ?C; auto). rewrite Ws, Wt, C.
  apply (sum_inj_le (imap (channels s) false q)).
  - apply strided_NoDup.
  - intros i j Hi Hj. apply imap_inj; auto; [apply strided_In in Hi|apply strided_In in Hj]; tauto.
  - intros i Hi. apply strided_In in Hi. destruct Hi as [Hi Hb]. rewrite has_mask_pow2 in Hb.
    apply strided_In. split. now apply imap_lt. rewrite has_mask_pow2, imap_testbit, Hb by auto. auto.
  - intros i Hi. apply strided_In in Hi. destruct Hi as [Hi _].
    rewrite (low_pos_imap (channels s) q k c i) by auto. rewrite <- (imap_lxor _ false q i c) by auto.
    pose proof (is_perm_nth _ _ _ P Hc) as Hq.
    assert (Hx : Nat.lxor i (2 ^ nth c q 0) < 2 ^ channels s) by (apply lxor_lt; auto; now apply pow2_lt_pow2).
    pose proof (imap_bget _ _ _ _ _ S Hi) as B1. pose proof (imap_bget _ _ _ _ _ S Hx) as B2.
    pose proof (imap_b2n _ _ _ _ _ S Hi). pose proof (imap_b2n _ _ _ _ _ S Hx).
    repeat apply Nat.add_le_mono.
    + destruct (_ =? p); auto.
    + destruct (_ =? p); auto.
    + destruct (_ =? p); auto. destruct (bget (bitmap s) (Nat.lxor i (2 ^ nth c q 0))); [|simpl; lia]. rewrite B2 by auto.
      simpl. auto.
Qed.
