(* Lemmas about lists, vectors and sets of vectors used everywhere. *)
From Coq Require Import List Arith Bool Lia Permutation.
Import ListNotations.
From Verif Require Import Spec.

(* ---------- upd ---------- *)

Lemma upd_length {A} (l : list A) i v : length (upd l i v) = length l.
Proof. revert i; induction l; intros [|i]; simpl; auto. Qed.

Lemma upd_nth {A} (l : list A) i v j d :
  nth j (upd l i v) d = if (j =? i) && (i <? length l) then v else nth j l d.
Proof.
  revert i j; induction l as [|a l IH]; intros [|i] [|j]; simpl; auto.
  - rewrite andb_false_r; auto.
  - rewrite IH. change (S j =? S i) with (j =? i).
    change (S i <? S (length l)) with (i <? length l). auto.
Qed.

Lemma upd_nth_eq {A} (l : list A) i v d : i < length l -> nth i (upd l i v) d = v.
Proof.
  intros H. rewrite upd_nth, Nat.eqb_refl. apply Nat.ltb_lt in H. rewrite H. auto.
Qed.

Lemma upd_nth_neq {A} (l : list A) i j v d : j <> i -> nth j (upd l i v) d = nth j l d.
Proof.
  intros H. rewrite upd_nth. apply Nat.eqb_neq in H. rewrite H. auto.
Qed.

Lemma upd_out {A} (l : list A) i v : length l <= i -> upd l i v = l.
Proof.
  revert i; induction l; intros [|i] H; simpl in *; auto; try lia. f_equal; apply IHl; lia.
Qed.

Lemma upd_same {A} (l : list A) i d : upd l i (nth i l d) = l.
Proof. revert i; induction l; intros [|i]; simpl; auto. f_equal; auto. Qed.

Lemma nth_ext_lt {A} (l l' : list A) d :
  length l = length l' -> (forall i, i < length l -> nth i l d = nth i l' d) -> l = l'.
Proof. intros H1 H2. apply nth_ext with (d := d) (d' := d); auto. Qed.

Lemma vec_ext (x y : vec) :
  length x = length y -> (forall i, i < length x -> bit x i = bit y i) -> x = y.
Proof. apply nth_ext_lt. Qed.

Lemma vec_ext_all (x y : vec) :
  length x = length y -> (forall i, bit x i = bit y i) -> x = y.
Proof. intros; apply vec_ext; auto. Qed.

Lemma bit_out x i : length x <= i -> bit x i = false.
Proof. intros. apply nth_overflow; auto. Qed.

Lemma bit_upd x i v j :
  bit (upd x i v) j = if (j =? i) && (i <? length x) then v else bit x j.
Proof. apply upd_nth. Qed.

Lemma bit_upd_eq x i v : i < length x -> bit (upd x i v) i = v.
Proof. apply upd_nth_eq. Qed.

Lemma bit_upd_neq x i j v : j <> i -> bit (upd x i v) j = bit x j.
Proof. apply upd_nth_neq. Qed.

Lemma nth_map_seq {A} (f : nat -> A) n i d : i < n -> nth i (map f (seq 0 n)) d = f i.
Proof.
  intros H. rewrite nth_indep with (d' := f 0) by (rewrite map_length, seq_length; auto).
  rewrite map_nth, seq_nth; auto.
Qed.

Lemma nth_map_lt {A B} (f : A -> B) l i d d' : i < length l -> nth i (map f l) d' = f (nth i l d).
Proof.
  intros H. rewrite nth_indep with (d' := f d) by (rewrite map_length; auto). apply map_nth.
Qed.

Lemma vec_as_map (x : vec) : x = map (bit x) (seq 0 (length x)).
Proof.
  apply vec_ext. now rewrite map_length, seq_length.
  intros. unfold bit at 2. rewrite nth_map_seq; auto.
Qed.

(* ---------- weight ---------- *)

Lemma weight_le x : weight x <= length x.
Proof. induction x as [|[] x]; simpl; lia. Qed.

Lemma weight_app x y : weight (x ++ y) = weight x + weight y.
Proof. induction x as [|[] x]; simpl; lia. Qed.

Lemma weight_perm x y : Permutation x y -> weight x = weight y.
Proof. induction 1; simpl; lia. Qed.

Lemma weight_upd x i v : i < length x ->
  weight (upd x i v) + Nat.b2n (bit x i) = weight x + Nat.b2n v.
Proof.
  revert i; induction x as [|a x IH]; intros i H; simpl in *; [lia|].
  destruct i as [|i]; cbn [upd weight].
  - unfold bit; simpl. destruct a, v; simpl; lia.
  - unfold bit in *; simpl. specialize (IH i). destruct a; simpl; lia.
Qed.

Lemma weight_zero x : weight x = 0 <-> (forall i, bit x i = false).
Proof.
  split.
  - induction x as [|[] x IH]; simpl; intros H i; try discriminate; destruct i; auto.
    apply IH; auto.
  - induction x as [|a x IH]; simpl; auto. intros H. pose proof (H 0) as H0. cbv in H0. subst a.
    simpl. apply IH. intros i. apply (H (S i)).
Qed.

Lemma weight_full x : weight x = length x <-> (forall i, i < length x -> bit x i = true).
Proof.
  induction x as [|a x IH]; simpl.
  - split; auto; intros; lia.
  - split.
    + intros H i Hi. pose proof (weight_le x). destruct a; simpl in H; [|lia].
      destruct i; auto. apply IH; lia.
    + intros H. pose proof (H 0 ltac:(lia)) as H0. cbv in H0. subst a. simpl. f_equal.
      apply IH. intros i Hi. apply (H (S i)); lia.
Qed.

Lemma weight_complement x : weight (complement x) + weight x = length x.
Proof. unfold complement. induction x as [|[] x]; simpl; lia. Qed.

Lemma weight_pos_bit x : 0 < weight x -> exists i, i < length x /\ bit x i = true.
Proof.
  induction x as [|[] x IH]; simpl; intros; try lia.
  - exists 0; split; auto; lia.
  - destruct IH as [i [? ?]]; try lia. exists (S i); split; auto; lia.
Qed.

Lemma weight_lt_bit x : weight x < length x -> exists i, i < length x /\ bit x i = false.
Proof.
  induction x as [|[] x IH]; simpl; intros; try lia.
  - destruct IH as [i [? ?]]; try lia. exists (S i); split; auto; lia.
  - exists 0; split; auto; lia.
Qed.

(* componentwise order *)
Definition vle (x y : vec) : Prop := length x = length y /\ forall i, bit x i = true -> bit y i = true.

Lemma vle_weight x y : vle x y -> weight x <= weight y.
Proof.
  unfold vle. revert y; induction x as [|a x IH]; intros [|b y] [Hl H]; simpl in *; auto; try discriminate.
  assert (weight x <= weight y).
  { apply IH. split; [lia|]. intros i Hi. apply (H (S i)); auto. }
  destruct a; simpl; [|lia]. specialize (H 0 eq_refl). cbv in H. subst b. lia.
Qed.

Lemma vle_weight_eq x y : vle x y -> weight x = weight y -> x = y.
Proof.
  unfold vle. revert y; induction x as [|a x IH]; intros [|b y] [Hl H] W; simpl in *; auto; try discriminate.
  assert (L : vle x y).
  { split; [lia|]. intros i Hi. apply (H (S i)); auto. }
  pose proof (vle_weight _ _ L).
  assert (a = b).
  { destruct a; simpl in *. specialize (H 0 eq_refl). cbv in H. auto. destruct b; simpl in *; auto; lia. }
  subst b. f_equal. apply IH; auto. destruct a; lia.
Qed.

(* covers *)
Definition covers (x y : vec) : Prop := exists i, i < length x /\ bit x i = false /\ y = upd x i true.

Lemma covers_vle x y : covers x y -> vle x y /\ weight y = S (weight x).
Proof.
  intros (i & Hi & Hb & ->). split.
  - split. now rewrite upd_length. intros j Hj. rewrite bit_upd.
    destruct (_ && _); auto.
  - pose proof (weight_upd x i true Hi). rewrite Hb in H. simpl in H. lia.
Qed.

Lemma vle_covers x y : vle x y -> weight y = S (weight x) -> covers x y.
Proof.
  unfold vle. revert y; induction x as [|a x IH]; intros [|b y] [Hl H] W; simpl in *; try discriminate.
  assert (L : vle x y).
  { split; [lia|]. intros i Hi. apply (H (S i)); auto. }
  destruct a; simpl in *.
  - specialize (H 0 eq_refl). cbv in H. subst b. simpl in W.
    destruct (IH y L ltac:(lia)) as (i & ? & ? & ->). exists (S i). split; [simpl; lia|]. split; auto.
  - destruct b; simpl in W.
    + assert (x = y) by (apply vle_weight_eq; auto; lia). subst y.
      exists 0. split; [simpl; lia|]. auto.
    + destruct (IH y L ltac:(lia)) as (i & ? & ? & ->). exists (S i). split; [simpl; lia|]. split; auto.
Qed.

Lemma covers_iff x y : covers x y <-> vle x y /\ weight y = S (weight x).
Proof. split. apply covers_vle. intros []; apply vle_covers; auto. Qed.

(* ---------- comparators ---------- *)

Lemma exch_length c x : length (exch c x) = length x.
Proof. unfold exch. now rewrite !upd_length. Qed.

Lemma run_length net x : length (run net x) = length x.
Proof.
  revert x; induction net as [|c net IH]; intros; simpl; auto.
  unfold run in *. rewrite IH. apply exch_length.
Qed.

Lemma run_cons c net x : run (c :: net) x = run net (exch c x).
Proof. reflexivity. Qed.

Lemma run_app n1 n2 x : run (n1 ++ n2) x = run n2 (run n1 x).
Proof. unfold run. apply fold_left_app. Qed.

Lemma bit_exch c x i : cmp_ok (length x) c ->
  bit (exch c x) i =
    if i =? snd c then bit x (fst c) || bit x (snd c)
    else if i =? fst c then bit x (fst c) && bit x (snd c)
    else bit x i.
Proof.
  intros (H1 & H2 & H3). unfold exch.
  rewrite bit_upd, upd_length. apply Nat.ltb_lt in H2. rewrite H2, andb_true_r.
  destruct (i =? snd c) eqn:E; auto.
  rewrite bit_upd. apply Nat.ltb_lt in H1. rewrite H1, andb_true_r. auto.
Qed.

Lemma exch_weight c x : cmp_ok (length x) c -> weight (exch c x) = weight x.
Proof.
  intros (H1 & H2 & H3). unfold exch.
  pose proof (weight_upd (upd x (fst c) (bit x (fst c) && bit x (snd c))) (snd c)
                (bit x (fst c) || bit x (snd c))) as E1.
  rewrite upd_length in E1. specialize (E1 H2).
  rewrite bit_upd_neq in E1 by auto.
  pose proof (weight_upd x (fst c) (bit x (fst c) && bit x (snd c)) H1) as E2.
  destruct (bit x (fst c)), (bit x (snd c)); simpl in *; lia.
Qed.

Lemma run_weight n net x : net_ok n net -> length x = n -> weight (run net x) = weight x.
Proof.
  intros H; revert x; induction H as [|c net Hc _ IH]; intros x Hx; auto.
  rewrite run_cons, IH. apply exch_weight; now rewrite Hx. now rewrite exch_length.
Qed.

Lemma exch_vle c x y : cmp_ok (length x) c -> vle x y -> vle (exch c x) (exch c y).
Proof.
  intros Hc (L & H). split. now rewrite !exch_length.
  intros i. rewrite !bit_exch by (rewrite <- ?L; auto).
  pose proof (H (fst c)); pose proof (H (snd c)); pose proof (H i).
  destruct (i =? snd c), (i =? fst c); auto;
  destruct (bit x (fst c)), (bit x (snd c)), (bit y (fst c)), (bit y (snd c)); simpl in *; auto.
Qed.

Lemma exch_covers c x y : cmp_ok (length x) c -> covers x y -> covers (exch c x) (exch c y).
Proof.
  intros Hc H. apply covers_iff in H. destruct H as [H W]. apply covers_iff. split.
  - apply exch_vle; auto.
  - destruct H as [L ?]. rewrite !exch_weight; auto. now rewrite <- L.
Qed.

(* ---------- permutations of channels ---------- *)

Lemma permute_length p x : length (permute p x) = length p.
Proof. unfold permute. apply map_length. Qed.

Lemma bit_permute p x i : i < length p -> bit (permute p x) i = bit x (nth i p 0).
Proof. intros. unfold permute, bit at 1. erewrite nth_map_lt; eauto. Qed.

Lemma is_perm_length n p : is_perm n p -> length p = n.
Proof. intros H. apply Permutation_length in H. now rewrite seq_length in H. Qed.

Lemma is_perm_NoDup n p : is_perm n p -> NoDup p.
Proof. intros H. apply (Permutation_NoDup (l := seq 0 n)). now symmetry. apply seq_NoDup. Qed.

Lemma is_perm_In n p i : is_perm n p -> (In i p <-> i < n).
Proof.
  intros H. split; intros.
  - apply (Permutation_in _ H) in H0. apply in_seq in H0. lia.
  - apply (Permutation_in (l := seq 0 n)). now symmetry. apply in_seq. lia.
Qed.

Lemma is_perm_nth n p i : is_perm n p -> i < n -> nth i p 0 < n.
Proof.
  intros H Hi. rewrite <- (is_perm_In n p (nth i p 0)) by auto. apply nth_In.
  now rewrite (is_perm_length _ _ H).
Qed.

Lemma is_perm_inj n p i j : is_perm n p -> i < n -> j < n -> nth i p 0 = nth j p 0 -> i = j.
Proof.
  intros H Hi Hj E. pose proof (is_perm_NoDup _ _ H) as N. pose proof (is_perm_length _ _ H).
  eapply NoDup_nth; eauto; lia.
Qed.

Lemma is_perm_surj n p j : is_perm n p -> j < n -> exists i, i < n /\ nth i p 0 = j.
Proof.
  intros H Hj. apply (is_perm_In n p j H) in Hj. apply (In_nth _ _ 0) in Hj.
  destruct Hj as (i & Hi & E). exists i. now rewrite <- (is_perm_length _ _ H).
Qed.

Lemma is_perm_intro n p : length p = n -> NoDup p -> (forall i, In i p -> i < n) -> is_perm n p.
Proof.
  intros L N B. unfold is_perm. apply NoDup_Permutation_bis; auto.
  - rewrite seq_length; lia.
  - intros i Hi. apply in_seq. specialize (B _ Hi). lia.
Qed.

Lemma is_perm_id n : is_perm n (seq 0 n).
Proof. apply Permutation_refl. Qed.

Lemma permute_id x : permute (seq 0 (length x)) x = x.
Proof. unfold permute. symmetry. apply vec_as_map. Qed.

Lemma permute_weight n p x : is_perm n p -> length x = n -> weight (permute p x) = weight x.
Proof.
  intros H L. transitivity (weight (permute (seq 0 n) x)).
  - apply weight_perm. unfold permute. now apply Permutation_map.
  - rewrite <- L, permute_id. auto.
Qed.

(* position of a value *)
Fixpoint index_of (l : list nat) (v : nat) : nat :=
  match l with
  | [] => 0
  | a :: r => if a =? v then 0 else S (index_of r v)
  end.

Lemma index_of_In l v : In v l -> index_of l v < length l /\ nth (index_of l v) l 0 = v.
Proof.
  induction l as [|a l IH]; simpl; intros H; [contradiction|].
  destruct (a =? v) eqn:E.
  - apply Nat.eqb_eq in E. split; auto; lia.
  - apply Nat.eqb_neq in E. destruct H as [H|H]; [lia|]. destruct (IH H). split; auto; lia.
Qed.

Definition inv_perm (n : nat) (p : list nat) : list nat := map (index_of p) (seq 0 n).

Lemma inv_perm_length n p : length (inv_perm n p) = n.
Proof. unfold inv_perm. now rewrite map_length, seq_length. Qed.

Lemma inv_perm_nth n p i : is_perm n p -> i < n ->
  nth i (inv_perm n p) 0 < n /\ nth (nth i (inv_perm n p) 0) p 0 = i.
Proof.
  intros H Hi. unfold inv_perm. rewrite nth_map_seq by auto.
  apply (is_perm_In n p i H) in Hi. apply index_of_In in Hi.
  now rewrite (is_perm_length _ _ H) in Hi.
Qed.

Lemma inv_perm_nth' n p i : is_perm n p -> i < n -> nth (nth i p 0) (inv_perm n p) 0 = i.
Proof.
  intros H Hi. pose proof (is_perm_nth _ _ _ H Hi) as Hj.
  destruct (inv_perm_nth _ _ _ H Hj) as [A B].
  eapply is_perm_inj; eauto.
Qed.

Lemma inv_perm_is_perm n p : is_perm n p -> is_perm n (inv_perm n p).
Proof.
  intros H. apply is_perm_intro. apply inv_perm_length.
  - apply NoDup_nth with (d := 0). rewrite inv_perm_length. intros i j Hi Hj E.
    destruct (inv_perm_nth _ _ i H Hi) as [_ A]. destruct (inv_perm_nth _ _ j H Hj) as [_ B].
    rewrite E in A. congruence.
  - intros i Hi. apply (In_nth _ _ 0) in Hi. destruct Hi as (j & Hj & <-).
    rewrite inv_perm_length in Hj. now apply inv_perm_nth.
Qed.

Lemma permute_inv n p x : is_perm n p -> length x = n -> permute (inv_perm n p) (permute p x) = x.
Proof.
  intros H L. apply vec_ext; rewrite permute_length, inv_perm_length; auto.
  intros i Hi. rewrite bit_permute by now rewrite inv_perm_length.
  destruct (inv_perm_nth _ _ _ H Hi). rewrite bit_permute by now rewrite (is_perm_length _ _ H).
  now rewrite H1.
Qed.

Lemma permute_inv' n p x : is_perm n p -> length x = n -> permute p (permute (inv_perm n p) x) = x.
Proof.
  intros H L. apply vec_ext; rewrite permute_length. now rewrite (is_perm_length _ _ H).
  rewrite (is_perm_length _ _ H). intros i Hi. rewrite bit_permute by now rewrite (is_perm_length _ _ H).
  rewrite bit_permute by (rewrite inv_perm_length; now apply is_perm_nth).
  now rewrite inv_perm_nth'.
Qed.

(* composition: first p, then q *)
Definition comp_perm (p q : list nat) : list nat := map (fun i => nth i p 0) q.

Lemma comp_perm_length p q : length (comp_perm p q) = length q.
Proof. apply map_length. Qed.

Lemma comp_perm_nth p q i : i < length q -> nth i (comp_perm p q) 0 = nth (nth i q 0) p 0.
Proof. intros. unfold comp_perm. erewrite nth_map_lt; eauto. Qed.

Lemma comp_perm_is_perm n p q : is_perm n p -> is_perm n q -> is_perm n (comp_perm p q).
Proof.
  intros Hp Hq. pose proof (is_perm_length _ _ Hp). pose proof (is_perm_length _ _ Hq).
  apply is_perm_intro. now rewrite comp_perm_length.
  - apply NoDup_nth with (d := 0). rewrite comp_perm_length. intros i j Hi Hj E.
    rewrite !comp_perm_nth in E by auto. apply (is_perm_inj n p) in E; auto.
    apply (is_perm_inj n q) in E; auto; lia. apply is_perm_nth; auto; lia. apply is_perm_nth; auto; lia.
  - intros i Hi. apply (In_nth _ _ 0) in Hi. destruct Hi as (j & Hj & <-).
    rewrite comp_perm_length in Hj. rewrite comp_perm_nth by auto.
    apply is_perm_nth; auto. apply is_perm_nth; auto; lia.
Qed.

Lemma permute_comp n p q x : is_perm n p -> is_perm n q ->
  permute q (permute p x) = permute (comp_perm p q) x.
Proof.
  intros Hp Hq. apply vec_ext; rewrite !permute_length. now rewrite comp_perm_length.
  intros i Hi. rewrite !bit_permute; try rewrite comp_perm_length; auto.
  now rewrite comp_perm_nth.
  rewrite (is_perm_length _ _ Hp). apply is_perm_nth; auto. now rewrite <- (is_perm_length _ _ Hq).
Qed.

Lemma complement_length x : length (complement x) = length x.
Proof. apply map_length. Qed.

Lemma bit_complement x i : i < length x -> bit (complement x) i = negb (bit x i).
Proof. intros. unfold complement, bit. erewrite nth_map_lt; eauto. Qed.

Lemma complement_involutive x : complement (complement x) = x.
Proof. unfold complement. rewrite map_map. rewrite <- (map_id x) at 2. apply map_ext, negb_involutive. Qed.

Lemma complement_if_length b x : length (complement_if b x) = length x.
Proof. destruct b; auto. apply complement_length. Qed.

Lemma complement_if_involutive b x : complement_if b (complement_if b x) = x.
Proof. destruct b; auto. apply complement_involutive. Qed.

Lemma permute_complement n p x : is_perm n p -> length x = n ->
  permute p (complement x) = complement (permute p x).
Proof.
  intros H L. apply vec_ext; rewrite complement_length || idtac; rewrite ?permute_length; auto.
  intros i Hi. rewrite bit_complement by now rewrite permute_length.
  rewrite !bit_permute by auto. apply bit_complement. rewrite L. apply is_perm_nth; auto.
  now rewrite <- (is_perm_length _ _ H).
Qed.

Lemma permute_complement_if n b p x : is_perm n p -> length x = n ->
  permute p (complement_if b x) = complement_if b (permute p x).
Proof. destruct b; simpl; auto. apply permute_complement. Qed.

(* ---------- relabelling a network ---------- *)

Definition relabel (f : nat -> nat) (net : network) : network :=
  map (fun c => (f (fst c), f (snd c))) net.

Lemma relabel_length f net : length (relabel f net) = length net.
Proof. apply map_length. Qed.

(* run on relabelled channels: position i of [permute p x] is channel p[i] of x *)
Lemma exch_permute n p c x : is_perm n p -> length x = n -> cmp_ok n c ->
  permute p (exch (nth (fst c) p 0, nth (snd c) p 0) x) = exch c (permute p x).
Proof.
  intros H L (H1 & H2 & H3). pose proof (is_perm_length _ _ H) as Lp.
  apply vec_ext; rewrite permute_length. now rewrite exch_length, permute_length.
  intros i Hi. rewrite bit_permute by auto.
  assert (Hi' : i < n) by lia.
  rewrite bit_exch. 2:{ unfold cmp_ok; rewrite L; simpl; repeat split; auto using is_perm_nth.
    intros E. apply (is_perm_inj n p) in E; auto. }
  rewrite bit_exch. 2:{ rewrite permute_length, Lp. repeat split; auto. }
  rewrite !bit_permute by lia. simpl.
  replace (nth i p 0 =? nth (snd c) p 0) with (i =? snd c).
  replace (nth i p 0 =? nth (fst c) p 0) with (i =? fst c).
  auto.
  - destruct (i =? fst c) eqn:E.
    + apply Nat.eqb_eq in E. subst. now rewrite Nat.eqb_refl.
    + symmetry. apply Nat.eqb_neq. apply Nat.eqb_neq in E. intros F. apply (is_perm_inj n p) in F; auto.
  - destruct (i =? snd c) eqn:E.
    + apply Nat.eqb_eq in E. subst. now rewrite Nat.eqb_refl.
    + symmetry. apply Nat.eqb_neq. apply Nat.eqb_neq in E. intros F. apply (is_perm_inj n p) in F; auto.
Qed.

Lemma run_permute n p net x : is_perm n p -> length x = n -> net_ok n net ->
  permute p (run (relabel (fun i => nth i p 0) net) x) = run net (permute p x).
Proof.
  intros H L N. revert x L; induction N as [|c net Hc N IH]; intros x L; auto.
  simpl relabel. rewrite !run_cons. rewrite IH by now rewrite exch_length.
  f_equal. now apply (exch_permute n).
Qed.

Lemma relabel_ok n p net : is_perm n p -> net_ok n net -> net_ok n (relabel (fun i => nth i p 0) net).
Proof.
  intros H N. unfold net_ok, relabel. apply Forall_map. eapply Forall_impl; eauto.
  intros c (H1 & H2 & H3). repeat split; simpl; auto using is_perm_nth.
  intros E. apply (is_perm_inj n p) in E; auto.
Qed.

(* complement: a comparator becomes its reverse *)
Definition reverse_net (net : network) : network := map (fun c => (snd c, fst c)) net.

Lemma exch_complement c x : cmp_ok (length x) c ->
  exch (snd c, fst c) (complement x) = complement (exch c x).
Proof.
  intros (H1 & H2 & H3). apply vec_ext; rewrite exch_length, ?complement_length, ?exch_length; auto.
  intros i Hi.
  rewrite bit_complement by now rewrite exch_length.
  rewrite !bit_exch by (try rewrite complement_length; repeat split; simpl; auto). simpl.
  rewrite !bit_complement by auto.
  destruct (i =? fst c) eqn:E1, (i =? snd c) eqn:E2; auto.
  - apply Nat.eqb_eq in E1, E2. congruence.
  - now rewrite negb_andb, orb_comm.
  - now rewrite negb_orb, andb_comm.
Qed.

Lemma run_complement n net x : net_ok n net -> length x = n ->
  run (reverse_net net) (complement x) = complement (run net x).
Proof.
  intros N; revert x; induction N as [|c net Hc N IH]; intros x L; auto.
  simpl reverse_net. rewrite !run_cons, exch_complement by now rewrite L.
  apply IH. now rewrite exch_length.
Qed.

Lemma reverse_net_ok n net : net_ok n net -> net_ok n (reverse_net net).
Proof.
  intros N. unfold net_ok, reverse_net. apply Forall_map. eapply Forall_impl; eauto.
  intros c (H1 & H2 & H3). repeat split; simpl; auto.
Qed.

(* ---------- del ---------- *)

Lemma del_length {A} i (x : list A) : i < length x -> length (del i x) = length x - 1.
Proof.
  revert i; induction x as [|a x IH]; intros [|i] H; simpl in *; try lia.
  rewrite IH by lia. lia.
Qed.

Definition skip (c k : nat) : nat := if k <? c then k else S k.
Definition unskip (c k : nat) : nat := if k <? c then k else k - 1.

Lemma del_nth {A} i k (x : list A) d : nth k (del i x) d = nth (skip i k) x d.
Proof.
  revert i k; induction x as [|a x IH]; intros [|i] [|k]; simpl; auto.
  - unfold skip. destruct (_ <? _); auto.
  - rewrite IH. unfold skip. change (S k <? S i) with (k <? i). destruct (k <? i); auto.
Qed.

Lemma bit_del i k x : bit (del i x) k = bit x (skip i k).
Proof. apply del_nth. Qed.

Lemma skip_neq c k : skip c k <> c.
Proof. unfold skip. destruct (k <? c) eqn:E; [apply Nat.ltb_lt in E|apply Nat.ltb_ge in E]; lia. Qed.

Lemma unskip_skip c k : unskip c (skip c k) = k.
Proof.
  unfold skip, unskip. destruct (k <? c) eqn:E. now rewrite E.
  apply Nat.ltb_ge in E. destruct (S k <? c) eqn:F. apply Nat.ltb_lt in F; lia. lia.
Qed.

Lemma skip_unskip c k : k <> c -> skip c (unskip c k) = k.
Proof.
  intros H. unfold skip, unskip. destruct (k <? c) eqn:E. now rewrite E.
  apply Nat.ltb_ge in E. destruct (k - 1 <? c) eqn:F. apply Nat.ltb_lt in F; lia. lia.
Qed.

Lemma skip_lt c k n : c < n -> k < n - 1 -> skip c k < n.
Proof. unfold skip; intros. destruct (k <? c); lia. Qed.

Lemma unskip_lt c k n : c < n -> k < n -> k <> c -> unskip c k < n - 1.
Proof.
  unfold unskip; intros. destruct (k <? c) eqn:E; [apply Nat.ltb_lt in E|apply Nat.ltb_ge in E]; lia.
Qed.

Lemma weight_del c x : c < length x -> weight (del c x) + Nat.b2n (bit x c) = weight x.
Proof.
  revert c; induction x as [|a x IH]; intros [|c] H; simpl in *; try lia.
  - unfold bit; simpl. destruct a; simpl; lia.
  - specialize (IH c ltac:(lia)). unfold bit in *; simpl. destruct a; simpl; lia.
Qed.

(* insert a channel *)
Fixpoint ins {A} (i : nat) (v : A) (x : list A) : list A :=
  match i, x with
  | 0, _ => v :: x
  | S k, a :: r => a :: ins k v r
  | S k, [] => [v]
  end.

Lemma ins_length {A} i (v : A) x : length (ins i v x) = S (length x).
Proof. revert x; induction i; intros [|a x]; simpl; auto. Qed.

Lemma del_ins {A} i (v : A) x : i <= length x -> del i (ins i v x) = x.
Proof. revert x; induction i; intros [|a x] H; simpl in *; auto; try lia. f_equal. apply IHi; lia. Qed.

Lemma ins_del i x : i < length x -> ins i (bit x i) (del i x) = x.
Proof.
  revert i; induction x as [|a x IH]; intros [|i] H; simpl in *; auto; try lia.
  unfold bit in *; simpl. f_equal. apply IH. lia.
Qed.

Lemma bit_ins_eq i v x : i <= length x -> bit (ins i v x) i = v.
Proof. revert x; induction i; intros [|a x] H; simpl in *; auto; try lia. unfold bit in *; simpl. apply IHi; lia. Qed.

Lemma bit_ins_skip i v x k : i <= length x -> bit (ins i v x) (skip i k) = bit x k.
Proof. intros H. rewrite <- bit_del, del_ins; auto. Qed.

(* swapping two channels *)
Definition swapv (a b : nat) (x : vec) : vec := upd (upd x a (bit x b)) b (bit x a).

Definition transp (a b i : nat) : nat := if i =? a then b else if i =? b then a else i.

Lemma swapv_length a b x : length (swapv a b x) = length x.
Proof. unfold swapv. now rewrite !upd_length. Qed.

Lemma bit_swapv a b x i : a < length x -> b < length x -> bit (swapv a b x) i = bit x (transp a b i).
Proof.
  intros Ha Hb. unfold swapv, transp. rewrite !bit_upd, upd_length.
  apply Nat.ltb_lt in Ha, Hb. rewrite Ha, Hb, !andb_true_r.
  destruct (i =? b) eqn:E1, (i =? a) eqn:E2; auto.
  apply Nat.eqb_eq in E1, E2. now subst.
Qed.

Definition transp_perm (n a b : nat) : list nat := map (transp a b) (seq 0 n).

Lemma transp_invol a b i : transp a b (transp a b i) = i.
Proof.
  unfold transp. destruct (i =? a) eqn:E1.
  - apply Nat.eqb_eq in E1. subst. destruct (b =? a) eqn:E. now apply Nat.eqb_eq in E. now rewrite Nat.eqb_refl.
  - destruct (i =? b) eqn:E2. rewrite Nat.eqb_refl. now apply Nat.eqb_eq in E2. now rewrite E1, E2.
Qed.

Lemma transp_lt n a b i : a < n -> b < n -> i < n -> transp a b i < n.
Proof. unfold transp; intros. destruct (i =? a), (i =? b); auto. Qed.

Lemma transp_perm_is_perm n a b : a < n -> b < n -> is_perm n (transp_perm n a b).
Proof.
  intros Ha Hb. apply is_perm_intro. unfold transp_perm. now rewrite map_length, seq_length.
  - unfold transp_perm. apply FinFun.Injective_map_NoDup. 2: apply seq_NoDup.
    intros i j E. rewrite <- (transp_invol a b i), E. apply transp_invol.
  - intros i Hi. unfold transp_perm in Hi. apply in_map_iff in Hi. destruct Hi as (j & <- & Hj).
    apply in_seq in Hj. apply transp_lt; lia.
Qed.

Lemma transp_perm_nth n a b i : i < n -> nth i (transp_perm n a b) 0 = transp a b i.
Proof. apply nth_map_seq. Qed.

Lemma swapv_permute n a b x : a < n -> b < n -> length x = n -> swapv a b x = permute (transp_perm n a b) x.
Proof.
  intros Ha Hb L. apply vec_ext; rewrite swapv_length.
  - rewrite permute_length. unfold transp_perm. now rewrite map_length, seq_length.
  - intros i Hi. rewrite bit_swapv by lia. rewrite bit_permute.
    rewrite transp_perm_nth by lia. auto. unfold transp_perm. rewrite map_length, seq_length; lia.
Qed.

Lemma swapv_invol n a b x : a < n -> b < n -> length x = n -> swapv a b (swapv a b x) = x.
Proof.
  intros Ha Hb L. apply vec_ext; rewrite !swapv_length; auto. intros i Hi.
  rewrite !bit_swapv by (rewrite ?swapv_length; lia). now rewrite transp_invol.
Qed.

Lemma swapv_same a x : swapv a a x = x.
Proof. unfold swapv. rewrite upd_same with (d := false). apply upd_same. Qed.

(* the comparator acts as the identity or as a swap on a vector *)
Lemma exch_in_order c x : cmp_ok (length x) c ->
  (bit x (fst c) = true -> bit x (snd c) = true) -> exch c x = x.
Proof.
  intros Hc H. apply vec_ext; rewrite exch_length; auto. intros i Hi.
  rewrite bit_exch by auto. destruct (i =? snd c) eqn:E.
  - apply Nat.eqb_eq in E. subst. destruct (bit x (fst c)); simpl; auto. symmetry; auto.
  - destruct (i =? fst c) eqn:F; auto. apply Nat.eqb_eq in F. subst.
    destruct (bit x (fst c)); simpl; auto.
Qed.

Lemma exch_out_of_order c x : cmp_ok (length x) c ->
  (bit x (snd c) = true -> bit x (fst c) = true) -> exch c x = swapv (fst c) (snd c) x.
Proof.
  intros Hc H. apply vec_ext; rewrite exch_length, ?swapv_length; auto. intros i Hi.
  destruct Hc as (H1 & H2 & H3).
  rewrite bit_exch by (repeat split; auto). rewrite bit_swapv by auto. unfold transp.
  destruct (i =? snd c) eqn:E.
  - apply Nat.eqb_eq in E. subst. destruct (snd c =? fst c) eqn:F. apply Nat.eqb_eq in F; congruence.
    rewrite ?Nat.eqb_refl; revert H. destruct (bit x (fst c)), (bit x (snd c)); simpl; intuition congruence.
  - destruct (i =? fst c) eqn:F; auto.
    revert H. destruct (bit x (fst c)), (bit x (snd c)); simpl; intuition congruence.
Qed.
