(* A well-founded order on sets: the sets that improve works on for the sake of s are below s. *)
From Coq Require Import List Arith Bool Lia Permutation Wellfounded.
Import ListNotations.
From Verif Require Import Spec Vec Net Graded Bits Util OutputSetModel OutputSetProofs CountProofs.

(* number of pairs (member with 1 on c, member with 0 on c), summed over the channels *)
Definition mixed (s : OutputSet) : nat :=
  sumf (fun c => ones_on s c * (os_len s - ones_on s c)) (seq 0 (channels s)).

Definition smaller (t s : OutputSet) : Prop :=
  channels t < channels s \/
  channels t = channels s /\ (os_len t < os_len s \/ os_len t = os_len s /\ mixed t < mixed s).

Lemma smaller_wf : well_founded smaller.
Proof.
  intros s. remember (channels s) as n eqn:En. revert s En. induction n as [n IHn] using (well_founded_induction lt_wf). intros s En.
  remember (os_len s) as k eqn:Ek. revert s En Ek. induction k as [k IHk] using (well_founded_induction lt_wf). intros s En Ek.
  remember (mixed s) as m eqn:Em. revert s En Ek Em. induction m as [m IHm] using (well_founded_induction lt_wf). intros s En Ek Em.
  constructor. intros t [H|(E & [H|(E' & H)])].
  - apply (IHn (channels t)); auto. lia.
  - apply (IHk (os_len t)); auto; lia.
  - apply (IHm (mixed t)); auto; lia.
Qed.

Lemma smaller_trans a b c : smaller a b -> smaller b c -> smaller a c.
Proof. unfold smaller. lia. Qed.
Lemma smaller_irrefl a : ~ smaller a a.
Proof. unfold smaller. lia. Qed.

(* ---- the measures on lists of members ---- *)
Definition cnt (c : nat) (L : list vec) : nat := length (filter (fun x => bit x c) L).
Definition mixedL (n : nat) (L : list vec) : nat := sumf (fun c => cnt c L * (length L - cnt c L)) (seq 0 n).
Definition members (s : OutputSet) (L : list vec) : Prop := NoDup L /\ forall x, In x L <-> vs s x.

Lemma card_list V k L : card V k -> NoDup L -> (forall x, In x L <-> V x) -> k = length L.
Proof. intros C N H. apply (card_unique V V k (length L)). exact C. exists L. auto. intros x. tauto. Qed.

Lemma members_len s L : wf s -> members s L -> os_len s = length L.
Proof. intros W (N & H). apply (card_list (vs s)); auto. now apply os_len_card. Qed.
Lemma members_ones s L c : wf s -> members s L -> ones_on s c = cnt c L.
Proof.
  intros W (N & H). apply (card_list (fun x => vs s x /\ bit x c = true)). now apply ones_on_card. now apply NoDup_filter.
  intros x. rewrite filter_In, H. tauto.
Qed.
Lemma members_mixed s L : wf s -> members s L -> mixed s = mixedL (channels s) L.
Proof.
  intros W M. unfold mixed, mixedL. apply sumf_ext. intros c _. now rewrite (members_ones s L), (members_len s L).
Qed.
Lemma members_ex s : wf s -> exists L, members s L.
Proof. intros W. destruct (os_len_card s W) as (L & N & H & _). exists L. split; auto. Qed.

Lemma cnt_le c L : cnt c L <= length L.
Proof. unfold cnt. induction L as [|x L IH]; simpl; auto. destruct (bit x c); simpl; lia. Qed.

(* ---- a comparator makes the channels less mixed ---- *)
Definition cnt2 (a b : bool) (i j : nat) (L : list vec) : nat :=
  length (filter (fun x => Bool.eqb (bit x i) a && Bool.eqb (bit x j) b) L).

Lemma cnt2_spec i j L :
  cnt i L = cnt2 true true i j L + cnt2 true false i j L /\
  cnt j L = cnt2 true true i j L + cnt2 false true i j L /\
  length L = cnt2 true true i j L + cnt2 true false i j L + cnt2 false true i j L + cnt2 false false i j L.
Proof.
  unfold cnt, cnt2. induction L as [|x L IH]; simpl; auto. destruct (bit x i), (bit x j); simpl; lia.
Qed.

Lemma cnt_exch n i j L : (forall x, In x L -> length x = n) -> cmp_ok n (i, j) ->
  cnt i (map (exch (i, j)) L) = cnt2 true true i j L /\
  cnt j (map (exch (i, j)) L) = cnt2 true true i j L + cnt2 true false i j L + cnt2 false true i j L /\
  forall c, c <> i -> c <> j -> cnt c (map (exch (i, j)) L) = cnt c L.
Proof.
  intros Wd (H1 & H2 & H3). simpl in *. unfold cnt, cnt2. induction L as [|x L IH]; simpl. { auto. }
  destruct IH as (A & B & C). { intros y Hy. apply Wd. simpl. auto. }
  assert (Lx : length x = n) by (apply Wd; simpl; auto).
  assert (Ok : cmp_ok (length x) (i, j)) by (unfold cmp_ok; simpl; lia).
  split; [|split].
  - rewrite bit_exch by auto. simpl. rewrite Nat.eqb_refl. destruct (Nat.eqb_spec i j); [lia|].
    destruct (bit x i), (bit x j); simpl; lia.
  - rewrite bit_exch by auto. simpl. rewrite Nat.eqb_refl. destruct (Nat.eqb_spec j i); try lia;
    destruct (bit x i), (bit x j); simpl; lia.
  - intros c N1 N2. rewrite bit_exch by auto. simpl. destruct (Nat.eqb_spec c i); [lia|]. destruct (Nat.eqb_spec c j); [lia|].
    destruct (bit x c); simpl; rewrite C; auto.
Qed.

Lemma cnt2_pos a b i j L x : In x L -> bit x i = a -> bit x j = b -> 0 < cnt2 a b i j L.
Proof.
  intros H <- <-. unfold cnt2. apply in_split in H. destruct H as (l1 & l2 & ->). rewrite filter_app, app_length. simpl.
  rewrite !Bool.eqb_reflx. simpl. lia.
Qed.

Lemma sumf_two (f g : nat -> nat) n i j : i < n -> j < n -> i <> j -> g i + g j < f i + f j ->
  (forall c, c <> i -> c <> j -> g c = f c) -> sumf g (seq 0 n) < sumf f (seq 0 n).
Proof.
  intros Hi Hj N H E.
  assert (P : exists r, Permutation (seq 0 n) (i :: j :: r)).
  { assert (Ii : In i (seq 0 n)) by (apply in_seq; lia). destruct (in_split _ _ Ii) as (l1 & l2 & E1).
    assert (P1 : Permutation (seq 0 n) (i :: l1 ++ l2)) by (rewrite E1; symmetry; apply Permutation_middle).
    assert (Ij : In j (l1 ++ l2)). { assert (X : In j (i :: l1 ++ l2)) by (apply (Permutation_in _ P1); apply in_seq; lia). destruct X; congruence. }
    destruct (in_split _ _ Ij) as (k1 & k2 & E2). exists (k1 ++ k2). rewrite P1, E2. constructor. symmetry. apply Permutation_middle. }
  destruct P as (r & P). rewrite !(sumf_perm _ _ _ P). simpl.
  assert (Nd : NoDup (i :: j :: r)) by (apply (Permutation_NoDup P), seq_NoDup).
  rewrite (sumf_ext g f r). lia. intros c Hc. apply NoDup_cons_iff in Nd. destruct Nd as (A & B). apply NoDup_cons_iff in B. destruct B as (B & _).
  apply E; intros ->; simpl in A; tauto.
Qed.

Lemma mixedL_exch n c L : (forall x, In x L -> length x = n) -> cmp_ok n c ->
  nonredundant c (fun x => In x L) -> mixedL n (map (exch c) L) < mixedL n L.
Proof.
  destruct c as (i, j). intros Wd Ok ((x & Hx & X1 & X2) & (y & Hy & Y1 & Y2)). simpl in *.
  destruct (cnt_exch n i j L Wd Ok) as (A & B & C). destruct (cnt2_spec i j L) as (Ei & Ej & El).
  pose proof (cnt2_pos true false i j L x Hx X1 X2). pose proof (cnt2_pos false true i j L y Hy Y1 Y2).
  unfold mixedL. rewrite map_length. destruct Ok as (H1 & H2 & H3). simpl in *.
  apply (sumf_two _ _ n i j); auto; try lia.
  - rewrite A, B, Ei, Ej, El. set (p := cnt2 true true i j L) in *. set (a := cnt2 true false i j L) in *.
    set (b := cnt2 false true i j L) in *. set (q := cnt2 false false i j L) in *.
    replace (p + a + b + q - p) with (a + b + q) by lia. replace (p + a + b + q - (p + a + b)) with q by lia.
    replace (p + a + b + q - (p + a)) with (b + q) by lia. replace (p + a + b + q - (p + b)) with (a + q) by lia. nia.
Qed.

(* ---- relabelling and complement do not change it ---- *)
Lemma cnt_sym n inv p c L : is_perm n p -> c < n -> (forall x, In x L -> length x = n) ->
  cnt c (map (fun x => permute p (complement_if inv x)) L) =
  if inv then length L - cnt (nth c p 0) L else cnt (nth c p 0) L.
Proof.
  intros P Hc Wd. unfold cnt. pose proof (is_perm_length n p P) as Lp. pose proof (is_perm_nth n p c P Hc) as Hp.
  induction L as [|x L IH]; cbn [map filter length]. destruct inv; auto.
  assert (Lx : length x = n) by (apply Wd; left; auto). specialize (IH (fun y Hy => Wd y (or_intror Hy))).
  pose proof (cnt_le (nth c p 0) L) as Q. unfold cnt in Q.
  rewrite bit_permute by lia. destruct inv; cbn [complement_if] in *.
  - rewrite bit_complement by lia. destruct (bit x (nth c p 0)); cbn [negb length] in *; unfold vec in *; lia.
  - destruct (bit x (nth c p 0)); cbn [length]; unfold vec in *; lia.
Qed.

Lemma sumf_map {A B} (g : A -> B) (f : B -> nat) l : sumf f (map g l) = sumf (fun a => f (g a)) l.
Proof. induction l as [|a l IH]; simpl; auto. Qed.

Lemma mixedL_sym n inv p L : is_perm n p -> (forall x, In x L -> length x = n) ->
  mixedL n (map (fun x => permute p (complement_if inv x)) L) = mixedL n L.
Proof.
  intros P Wd. unfold mixedL. rewrite map_length.
  rewrite (sumf_ext _ (fun c => cnt (nth c p 0) L * (length L - cnt (nth c p 0) L))).
  - rewrite <- (sumf_map (fun c => nth c p 0) (fun c => cnt c L * (length L - cnt c L))).
    apply sumf_perm. replace (map (fun c => nth c p 0) (seq 0 n)) with p. exact P.
    apply (nth_ext _ _ 0 0). now rewrite map_length, seq_length, (is_perm_length n p P).
    intros i Hi. rewrite (is_perm_length n p P) in Hi. rewrite (nth_indep (map _ _) 0 (nth 0 p 0)) by (rewrite map_length, seq_length; auto).
    rewrite (map_nth (fun c => nth c p 0)), seq_nth; auto.
  - intros c Hc. apply in_seq in Hc. rewrite (cnt_sym n inv p c L) by (auto; lia). destruct inv; auto.
    pose proof (cnt_le (nth c p 0) L). unfold vec in *. replace (length L - (length L - cnt (nth c p 0) L)) with (cnt (nth c p 0) L) by lia. apply Nat.mul_comm.
Qed.

(* ---- a successor is smaller ---- *)
Lemma successor_smaller s t c inv p : wf s -> wf t -> channels t = channels s -> cmp_ok (channels s) c ->
  nonredundant c (vs s) -> is_perm (channels s) p -> isomorphic_by inv p (image (exch c) (vs s)) (vs t) -> smaller t s.
Proof.
  intros Ws Wt Ct Hc (O & I) P Iso. right. split; auto.
  destruct (members_ex s Ws) as (L & N & HL). set (f := fun x => permute p (complement_if inv (exch c x))).
  assert (Wd : forall x, In x L -> length x = channels s). { intros x Hx. apply HL in Hx. apply Hx. }
  assert (It : forall x, In x (map f L) <-> vs t x).
  { intros x. rewrite (Iso x), in_map_iff. unfold image. split.
    - intros (y & <- & Hy). exists (exch c y). split; auto. exists y. split; auto. now apply HL.
    - intros (y & (z & Hz & ->) & ->). exists z. split; auto. now apply HL. }
  destruct (members_ex t Wt) as (M & NM & HM).
  assert (Lm : length M <= length (map f L)). { apply NoDup_incl_length; auto. intros x Hx. apply It, HM, Hx. }
  rewrite map_length in Lm. rewrite (members_len s L), (members_len t M) by (auto; split; auto).
  destruct (Nat.eq_dec (length M) (length L)) as [E|E]; [right|left; lia]. split; auto.
  assert (PM : Permutation M (map f L)).
  { apply NoDup_Permutation_bis; auto. rewrite map_length. lia. intros x Hx. apply It, HM, Hx. }
  rewrite (members_mixed t (map f L)); auto.
  2:{ split; auto. apply (Permutation_NoDup PM NM). }
  rewrite (members_mixed s L) by (auto; split; auto). rewrite Ct. unfold f.
  rewrite <- (map_map (exch c) (fun x => permute p (complement_if inv x))).
  rewrite (mixedL_sym (channels s)); auto.
  - apply mixedL_exch; auto. destruct O as (x & Hx & O). destruct I as (y & Hy & I). split; [exists x|exists y]; split; auto; now apply HL.
  - intros x Hx. apply in_map_iff in Hx. destruct Hx as (y & <- & Hy). rewrite exch_length. auto.
Qed.
