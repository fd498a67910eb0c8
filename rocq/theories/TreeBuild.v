(* Tree::new of TreeModel.v: the tree built stores exactly the given entries. *)
From Coq Require Import List Arith Bool Lia Permutation.
Import ListNotations.
From Verif Require Import Spec Vec Util TreeModel TreeProofs TreeTraverse TreeMut.

(* ---------- augmentations ---------- *)

Definition aug_is (es : list Entry) (g : Aug) : Prop :=
  a_size g = length es /\ (forall e, In e es -> a_min g <= e_value e <= a_max g)
  /\ (exists e, In e es /\ e_value e = a_min g) /\ (exists e, In e es /\ e_value e = a_max g).

Lemma aug_is_unique es g g' : aug_is es g -> aug_is es g' -> g = g'.
Proof.
  intros (A1 & A2 & (x & A3 & A4) & (y & A5 & A6)) (B1 & B2 & (z & B3 & B4) & (w & B5 & B6)).
  destruct g as [s m M], g' as [s' m' M']. cbn in *.
  pose proof (A2 z B3). pose proof (B2 x A3). pose proof (A2 w B5). pose proof (B2 y A5). f_equal; lia.
Qed.

Lemma aug_of_is es g : aug_of es = Some g -> aug_is es g.
Proof.
  intros H. destruct (aug_of_spec es g H) as (H1 & H2). split; auto. split; auto.
  destruct es as [|e r]; [discriminate|]. cbn in H. injection H as <-. cbn [a_min a_max].
  assert (Mn : forall (r : list Entry) e0, exists e1, In e1 (e0 :: r) /\ e_value e1 = fold_left (fun m x => Nat.min m (e_value x)) r (e_value e0)).
  { clear. induction r as [|a r IH]; intros e0; cbn. eauto.
    destruct (Nat.le_ge_cases (e_value e0) (e_value a)).
    - rewrite Nat.min_l by auto. destruct (IH e0) as (e1 & [<-|P] & Q); [exists e0|exists e1]; cbn; auto.
    - rewrite Nat.min_r by auto. destruct (IH a) as (e1 & P & Q). exists e1. cbn in P. tauto. }
  assert (Mx : forall (r : list Entry) e0, exists e1, In e1 (e0 :: r) /\ e_value e1 = fold_left (fun m x => Nat.max m (e_value x)) r (e_value e0)).
  { clear. induction r as [|a r IH]; intros e0; cbn. eauto.
    destruct (Nat.le_ge_cases (e_value e0) (e_value a)).
    - rewrite Nat.max_r by auto. destruct (IH a) as (e1 & P & Q). exists e1. cbn in P. tauto.
    - rewrite Nat.max_l by auto. destruct (IH e0) as (e1 & [<-|P] & Q); [exists e0|exists e1]; cbn; auto. }
  auto.
Qed.

Lemma aug_is_of es g : aug_is es g -> aug_of es = Some g.
Proof.
  intros H. destruct (aug_of_some es) as (g' & Hg). { intros ->. destruct H as (_ & _ & (e & [] & _) & _). }
  rewrite Hg. f_equal. apply (aug_is_unique es); auto. now apply aug_of_is.
Qed.

Lemma aug_of_perm es es' g : Permutation es es' -> aug_of es = Some g -> aug_of es' = Some g.
Proof.
  intros P H. apply aug_is_of. apply aug_of_is in H. destruct H as (A & B & (x & C1 & C2) & (y & D1 & D2)).
  split. now rewrite <- (Permutation_length P). split.
  - intros e He. apply B. eapply Permutation_in; [symmetry; exact P|auto].
  - split; [exists x|exists y]; split; auto; eapply Permutation_in; eauto.
Qed.

Lemma aug_of_comb es1 es2 g1 g2 : aug_of es1 = Some g1 -> aug_of es2 = Some g2 -> aug_of (es1 ++ es2) = Some (aug_comb g1 g2).
Proof.
  intros H1 H2. apply aug_is_of. apply aug_of_is in H1. apply aug_of_is in H2.
  destruct H1 as (A & B & (x & C1 & C2) & (y & D1 & D2)). destruct H2 as (A' & B' & (x' & C1' & C2') & (y' & D1' & D2')).
  unfold aug_is, aug_comb. cbn. split; [rewrite app_length; lia|]. split; [|split].
  - intros e He. apply in_app_iff in He. destruct He as [He|He]; [specialize (B e He)|specialize (B' e He)]; lia.
  - destruct (Nat.le_ge_cases (a_min g1) (a_min g2)).
    + exists x. rewrite in_app_iff. split; auto. lia.
    + exists x'. rewrite in_app_iff. split; auto. lia.
  - destruct (Nat.le_ge_cases (a_max g1) (a_max g2)).
    + exists y'. rewrite in_app_iff. split; auto. lia.
    + exists y. rewrite in_app_iff. split; auto. lia.
Qed.

(* ---------- ranges ---------- *)

Lemma widen_ok rg p : length rg = length p -> in_rng (widen rg p) p /\ length (widen rg p) = length p
  /\ forall q, in_rng rg q -> in_rng (widen rg p) q.
Proof.
  unfold widen, in_rng. revert p. induction rg as [|[lo hi] rg IH]; intros [|c p]; cbn; try discriminate.
  - intros _. repeat split; auto.
  - intros [= H]. destruct (IH p H) as (A & B & D). repeat split; auto.
    + constructor; auto. cbn. lia.
    + intros q Hq. inversion Hq; subst. constructor; auto. cbn in *. lia.
Qed.

Lemma compute_ranges_ok dim es : 0 < dim -> es <> [] -> (forall e, In e es -> length (e_point e) = dim) ->
  exists rg, compute_ranges dim es = Some rg /\ in_rg rg es /\ length rg = dim.
Proof.
  intros Hd Hn Hl. unfold compute_ranges. destruct (Nat.eqb_spec dim 0); [lia|].
  destruct es as [|e r]; [easy|]. eexists. split; [reflexivity|].
  assert (K : forall (r : list Entry) rg, length rg = dim -> (forall e, In e r -> length (e_point e) = dim) ->
     let rg' := fold_left (fun rg x => widen rg (e_point x)) r rg in
     length rg' = dim /\ in_rg rg' r /\ forall q, in_rng rg q -> in_rng rg' q).
  { clear. induction r as [|a r IH]; intros rg L H; cbn.
    - repeat split; auto. intros x [].
    - assert (La : length (e_point a) = dim) by (apply H; cbn; auto).
      destruct (widen_ok rg (e_point a)) as (W1 & W2 & W3); [congruence|].
      destruct (IH (widen rg (e_point a))) as (A & B & D); [congruence|intros; apply H; cbn; auto|].
      repeat split; auto. intros x [<-|Hx]; auto. }
  destruct (K r (map (fun c => (c, c)) (e_point e))) as (A & B & D).
  { rewrite map_length. apply Hl. cbn. auto. } { intros. apply Hl. cbn. auto. }
  split; auto. intros x [<-|Hx]; auto. apply D. unfold in_rng. clear. induction (e_point e); cbn; constructor; auto.
Qed.

Lemma widest_ok rg : rg <> [] -> exists d w lo, widest 0 rg None = Some (d, (w, lo)) /\ d < length rg.
Proof.
  assert (K : forall (r : list (nat * nat)) i best, (match best with Some (j, _) => j < i | None => r <> [] end) ->
     exists d w lo, widest i r best = Some (d, (w, lo)) /\ d < i + length r).
  { induction r as [|[lo hi] r IH]; intros i best H; cbn.
    - destruct best as [[j [w l]]|]; [|easy]. exists j, w, l. split; auto. lia.
    - set (b' := match best with None => _ | Some _ => _ end).
      destruct (IH (S i) b') as (d & w & l & E1 & E2).
      { unfold b'. destruct best as [[j [bw bl]]|]; [|lia]. destruct (bw <=? hi - lo); lia. }
      exists d, w, l. split; auto. lia. }
  intros H. destruct (K rg 0 None H) as (d & w & lo & E). exists d, w, lo. auto.
Qed.

(* ---------- partition ---------- *)

Lemma swap_perm (ents : list Entry) l r x y : nth_error ents l = Some x -> nth_error ents r = Some y -> l <> r ->
  Permutation (upd (upd ents l y) r x) ents.
Proof.
  intros Hx Hy Hn. apply Permutation_sym. apply Permutation_nth_error. split. now rewrite !upd_length.
  exists (transp l r). split.
  - intros a b E. rewrite <- (transp_invol l r a), E. apply transp_invol.
  - intros n. pose proof (nth_error_lt _ _ _ Hx). pose proof (nth_error_lt _ _ _ Hy).
    rewrite !nth_error_upd, upd_length. apply Nat.ltb_lt in H, H0. rewrite H, H0, !andb_true_r. unfold transp.
    destruct (Nat.eqb_spec n r) as [->|].
    + destruct (Nat.eqb_spec r l); congruence.
    + destruct (Nat.eqb_spec n l) as [->|]; auto.
Qed.

Section Partition.
Variables (d at_ start stop : nat).

Definition cd (ents : list Entry) (p : nat) : option nat := e <- nth_error ents p ;; nth_error (e_point e) d.
Definition below ents p := exists c, cd ents p = Some c /\ c < at_.
Definition above ents p := exists c, cd ents p = Some c /\ at_ <= c.
Definition dfd ents := forall p, start <= p < stop -> exists c, cd ents p = Some c.

Lemma scan_left_ok fuel ents left : dfd ents -> start <= left <= stop -> stop - left < fuel ->
  exists l', scan_left fuel ents d at_ stop left = Some l' /\ left <= l' <= stop
    /\ (forall p, left <= p < l' -> below ents p) /\ (l' = stop \/ above ents l').
Proof.
  intros D. revert left. induction fuel as [|fuel IH]; intros left H L; [lia|]. cbn [scan_left].
  destruct (left <? stop) eqn:E.
  - apply Nat.ltb_lt in E. destruct (D left) as (c & Hc); [lia|]. unfold cd in Hc.
    destruct (nth_error ents left) as [e|] eqn:Ee; [|discriminate]. rewrite Hc.
    destruct (c <? at_) eqn:Ec.
    + apply Nat.ltb_lt in Ec. destruct (IH (S left)) as (l' & A & B & C1 & C2); [lia|lia|].
      exists l'. split; [auto|]. split; [lia|]. split; [|auto]. intros p Hp. destruct (Nat.eq_dec p left) as [->|].
      * exists c. split; auto. unfold cd. now rewrite Ee.
      * apply C1. lia.
    + apply Nat.ltb_ge in Ec. exists left. split; [auto|]. split; [lia|]. split; [intros; lia|]. right. exists c. split; auto. unfold cd. now rewrite Ee.
  - apply Nat.ltb_ge in E. exists left. split; [auto|]. split; [lia|]. split; [intros; lia|]. left. lia.
Qed.

Lemma scan_right_ok fuel ents right : dfd ents -> start <= right < stop -> right - start < fuel ->
  exists r', scan_right fuel ents d at_ start right = Some r' /\ start <= r' <= right
    /\ (forall p, r' < p <= right -> above ents p) /\ (r' = start \/ below ents r').
Proof.
  intros D. revert right. induction fuel as [|fuel IH]; intros right H L; [lia|]. cbn [scan_right].
  destruct (start <? right) eqn:E.
  - apply Nat.ltb_lt in E. destruct (D right) as (c & Hc); [lia|]. unfold cd in Hc.
    destruct (nth_error ents right) as [e|] eqn:Ee; [|discriminate]. rewrite Hc.
    destruct (at_ <=? c) eqn:Ec.
    + apply Nat.leb_le in Ec. destruct (IH (right - 1)) as (r' & A & B & C1 & C2); [lia|lia|].
      exists r'. split; [auto|]. split; [lia|]. split; [|auto]. intros p Hp. destruct (Nat.eq_dec p right) as [->|].
      * exists c. split; auto. unfold cd. now rewrite Ee.
      * apply C1. lia.
    + apply Nat.leb_gt in Ec. exists right. split; [auto|]. split; [lia|]. split; [intros; lia|]. right. exists c. split; auto. unfold cd. now rewrite Ee.
  - apply Nat.ltb_ge in E. exists right. split; [auto|]. split; [lia|]. split; [intros; lia|]. left. lia.
Qed.

Lemma below_above ents p : below ents p -> above ents p -> False.
Proof. intros (c & A & B) (c' & A' & B'). rewrite A in A'. injection A' as <-. lia. Qed.

Lemma part_loop_ok fuel ents left right lb :
  stop <= length ents -> dfd ents -> start <= left -> left <= lb <= stop -> start <= right < stop ->
  (forall p, start <= p < lb -> below ents p) -> (forall p, right < p < stop -> above ents p) ->
  stop - lb < fuel ->
  exists ents' mid, part_loop fuel ents d at_ start stop left right = Some (ents', mid)
    /\ Permutation ents' ents /\ (forall p, ~ (start <= p < stop) -> nth_error ents' p = nth_error ents p)
    /\ start <= mid <= stop
    /\ (forall p, start <= p < mid -> below ents' p) /\ (forall p, mid <= p < stop -> above ents' p).
Proof.
  revert ents left right lb. induction fuel as [|fuel IH]; intros ents left right lb Le D H1 H2 H3 B A F; [lia|].
  cbn [part_loop].
  destruct (scan_left_ok (S (stop - left)) ents left D) as (l' & El & Bl & Cl & Dl); [lia|lia|].
  destruct (scan_right_ok (S (right - start)) ents right D) as (r' & Er & Br & Cr & Dr); [lia|lia|].
  rewrite El, Er.
  assert (Lb : lb <= l').
  { destruct Dl as [->|Dl]; [lia|]. destruct (Nat.le_gt_cases lb l'); auto. exfalso. apply (below_above ents l'); auto. apply B. lia. }
  assert (B' : forall p, start <= p < l' -> below ents p).
  { intros p Hp. destruct (Nat.lt_ge_cases p left); [apply B; lia|apply Cl; lia]. }
  assert (A' : forall p, r' < p < stop -> above ents p).
  { intros p Hp. destruct (Nat.le_gt_cases p right); [apply Cr; lia|apply A; lia]. }
  destruct (r' <=? l') eqn:E.
  - apply Nat.leb_le in E. exists ents, l'. split; [auto|]. split; [auto|]. split; [auto|]. split; [lia|]. split; [auto|].
    intros p Hp. destruct (Nat.eq_dec p l') as [->|]; [|apply A'; lia]. destruct Dl as [->|Dl]; [lia|auto].
  - apply Nat.leb_gt in E.
    assert (Al : above ents l') by (destruct Dl as [->|]; [lia|auto]).
    assert (Bel : below ents r') by (destruct Dr as [->|]; [lia|auto]).
    unfold swap_entries. destruct (Nat.eqb_spec l' r'); [lia|].
    destruct (nth_error ents l') as [x|] eqn:Ex; [|apply nth_error_None in Ex; lia].
    destruct (nth_error ents r') as [y|] eqn:Ey; [|apply nth_error_None in Ey; lia].
    set (ents1 := upd (upd ents l' y) r' x).
    assert (P1 : Permutation ents1 ents) by (apply swap_perm; auto).
    assert (N1 : forall p, p <> l' -> p <> r' -> nth_error ents1 p = nth_error ents p).
    { intros p Hp1 Hp2. unfold ents1. rewrite !nth_error_upd_neq; auto. }
    assert (Nl : nth_error ents1 l' = Some y).
    { unfold ents1. rewrite nth_error_upd_neq by lia. apply nth_error_upd_eq. lia. }
    assert (Nr : nth_error ents1 r' = Some x).
    { unfold ents1. apply nth_error_upd_eq. rewrite upd_length. lia. }
    assert (Cdn : forall p, p <> l' -> p <> r' -> cd ents1 p = cd ents p) by (intros; unfold cd; now rewrite N1).
    assert (Cdl : cd ents1 l' = cd ents r') by (unfold cd; now rewrite Nl, Ey).
    assert (Cdr : cd ents1 r' = cd ents l') by (unfold cd; now rewrite Nr, Ex).
    destruct (IH ents1 l' r' (S l')) as (ents' & mid & Q1 & Q2 & Q3 & Q4 & Q5 & Q6).
    + now rewrite (Permutation_length P1).
    + intros p Hp. destruct (Nat.eq_dec p l') as [->|]; [rewrite Cdl; apply D; lia|].
      destruct (Nat.eq_dec p r') as [->|]; [rewrite Cdr; apply D; lia|]. rewrite Cdn by auto. auto.
    + lia.
    + lia.
    + lia.
    + intros p Hp. unfold below. destruct (Nat.eq_dec p l') as [->|]; [rewrite Cdl; exact Bel|].
      rewrite Cdn by lia. apply B'. lia.
    + intros p Hp. unfold above. rewrite Cdn by lia. apply A'. lia.
    + lia.
    + exists ents', mid. rewrite Q1. split; [auto|]. split; [now rewrite Q2|]. split; [|auto].
      intros p Hp. rewrite Q3 by auto. apply N1; lia.
Qed.

Lemma partition_ok ents : start < stop -> stop <= length ents -> dfd ents ->
  exists ents' mid, partition ents d at_ start stop = Some (ents', mid)
    /\ Permutation ents' ents /\ (forall p, ~ (start <= p < stop) -> nth_error ents' p = nth_error ents p)
    /\ start <= mid <= stop
    /\ (forall p, start <= p < mid -> below ents' p) /\ (forall p, mid <= p < stop -> above ents' p).
Proof.
  intros H1 H2 D. unfold partition. destruct (Nat.eqb_spec (stop - start) 0); [lia|].
  apply (part_loop_ok _ _ _ _ start); auto; try lia; intros; lia.
Qed.
End Partition.

Lemma slice_perm (ents ents' : list Entry) a b : a <= b -> b <= length ents -> Permutation ents' ents ->
  (forall p, ~ (a <= p < b) -> nth_error ents' p = nth_error ents p) -> Permutation (slice ents' a b) (slice ents a b).
Proof.
  intros H1 H2 P H. pose proof (Permutation_length P) as L.
  assert (K : forall l : list Entry, b <= length l -> l = firstn a l ++ slice l a b ++ skipn b l).
  { intros l Hl. unfold slice. rewrite <- (firstn_skipn a l) at 1. f_equal.
    rewrite <- (firstn_skipn (b - a) (skipn a l)) at 1. f_equal. 
    apply nth_error_ext. intros i. rewrite !nth_error_skipn'. f_equal. lia. }
  assert (E1 : firstn a ents' = firstn a ents).
  { apply nth_error_ext. intros i. rewrite !nth_error_firstn'. destruct (i <? a) eqn:E; auto. apply Nat.ltb_lt in E. apply H. lia. }
  assert (E2 : skipn b ents' = skipn b ents).
  { apply nth_error_ext. intros i. rewrite !nth_error_skipn'. apply H. lia. }
  rewrite (K ents), (K ents') in P by lia. rewrite E1, E2 in P.
  apply Permutation_app_inv_l in P. now apply Permutation_app_inv_r in P.
Qed.

(* ---------- build_tree ---------- *)

Definition is_leaf (t : ft) : Prop := match t with FL _ _ _ _ _ => True | FN _ _ _ _ _ => False end.
Definition open_leaves (C : list frame) : Prop := forall f, In f C -> fr_isr f = false -> is_leaf (fr_sib f).
Definition bpc1 (f : frame) : nat := if fr_isr f then 0 else 2 * length (fe (fr_sib f)) - 1.
Fixpoint bpc (C : list frame) : nat := match C with [] => 0 | f :: C' => bpc1 f + bpc C' end.

Definition BI (dim : nat) (st : Tree) (C : list frame) (t : ft) : Prop :=
  GZ st C t /\ is_leaf t /\ open_leaves C /\ length (t_ranges st) = length (t_nodes st) /\ t_dim st = dim
  /\ (forall e, In e (t_ents st) -> length (e_point e) = dim).

Lemma fskip_leaf C t C' t' : open_leaves C -> fskip true C t = Some (C', t') ->
  is_leaf t' /\ open_leaves C' /\ bpc C = (2 * length (fe t') - 1) + bpc C'.
Proof.
  revert t. induction C as [|f C IH]; intros t O; cbn; [discriminate|].
  unfold bpc1. destruct (fr_isr f) eqn:E; cbn.
  - intros H. destruct (IH _ (fun g Hg => O g (or_intror Hg)) H) as (A & B & D). repeat split; auto.
  - intros [= <- <-]. split; [apply O; cbn; auto|]. split.
    + intros g [<-|Hg]; cbn; [rewrite E; discriminate|]. apply O. cbn. auto.
    + cbn. unfold bpc1. cbn. rewrite E. cbn. lia.
Qed.

Lemma build_next_ok fuel st C t : ZR st C t -> length C < fuel ->
  build_next fuel st (fid t) = Some (match fskip true C t with None => None | Some (_, t') => Some (fid t') end).
Proof.
  revert C t. induction fuel as [|fuel IH]; intros C t Z L; [lia|].
  pose proof Z as (A & B & _). destruct (rp_node _ _ _ _ A) as (l & (E & _) & _).
  cbn [build_next]. rewrite E. cbn [n_right n_parent].
  destruct C as [|f C]; cbn [cisr cpar fskip].
  - rewrite (ZR_fid0 _ _ Z). reflexivity.
  - pose proof (ZR_fid_ne _ _ _ _ Z) as NE. apply Nat.eqb_neq in NE. rewrite NE.
    destruct (fr_isr f) eqn:Ef; cbn [eqb].
    + apply ZR_up in Z. specialize (IH C (plug1 f t) Z). rewrite plug1_fid in IH. apply IH. cbn in L. lia.
    + cbn in B. rewrite Ef in B. destruct B as ((B & _) & _). rewrite B. reflexivity.
Qed.

Lemma in_rg_len rg es : in_rg rg es -> es <> [] -> forall dim, (forall e, In e es -> length (e_point e) = dim) -> length rg = dim.
Proof.
  intros H N dim D. destruct es as [|e es]; [easy|]. rewrite <- (D e) by (cbn; auto).
  specialize (H e (or_introl eq_refl)). unfold in_rng in H. induction H; cbn; auto.
Qed.

Lemma seg_in {A} (l : list A) a es x : seg l a es -> In x es -> In x l.
Proof.
  intros G H. apply In_nth_error in H. destruct H as (i & H). pose proof (nth_error_lt _ _ _ H).
  rewrite <- G in H by auto. now apply nth_error_In in H.
Qed.

Lemma seg_split {A} (l : list A) a b mid : a <= mid <= b -> b <= length l -> slice l a b = slice l a mid ++ slice l mid b.
Proof.
  intros H1 H2. destruct (slice_seg l a mid) as (S1 & L1); [lia|lia|]. destruct (slice_seg l mid b) as (S2 & L2); [lia|lia|].
  assert (Q : seg l a (slice l a mid ++ slice l mid b)).
  { apply seg_app. split; auto. rewrite L1. now replace (a + (mid - a)) with mid by lia. }
  apply seg_slice in Q. rewrite app_length, L1, L2 in Q. now replace (a + (mid - a + (b - mid))) with b in Q by lia.
Qed.

Lemma build_ok dim : 0 < dim -> forall fuel st C t, BI dim st C t -> (2 * length (fe t) - 1) + bpc C <= fuel ->
  exists st', build_tree fuel st (fid t) = Some st' /\ tree_inv st' (fe t ++ pend true C ++ done true C) /\ t_dim st' = dim.
Proof.
  intros Hdim. induction fuel as [|fuel IH]; intros st C t (Z & Lf & O & Lr & Hd & Hp) F.
  { pose proof (gT_nonempty t (proj1 (proj2 Z))). destruct (fe t); [easy|]. cbn in F. lia. }
  destruct t as [i g rg a es|]; [|destruct Lf]. clear Lf.
  (* going on without a split *)
  assert (Next : forall st1 es1, BI dim st1 C (FL i g rg a es1) -> Permutation es1 es ->
    exists st', (r <- build_next (length (t_nodes st1)) st1 i ;; match r with None => Some st1 | Some id' => build_tree fuel st1 id' end) = Some st'
      /\ tree_inv st' (es ++ pend true C ++ done true C) /\ t_dim st' = dim).
  { intros st1 es1 (Z1 & _ & _ & Lr1 & Hd1 & Hp1) P.
    pose proof (build_next_ok (length (t_nodes st1)) st1 C _ (proj1 Z1) (ZR_depth _ _ _ (proj1 Z1))) as E. cbn [fid] in E. rewrite E.
    pose proof (fskip_spec true st1 C _ Z1) as S1.
    destruct (fskip true C (FL i g rg a es1)) as [[C' t']|] eqn:Ek.
    - destruct S1 as (Z' & E1 & E2 & _). destruct (fskip_leaf _ _ _ _ O Ek) as (K1 & K2 & K3).
      destruct (IH st1 C' t') as (st' & T & I & D). { repeat split; auto; apply Z'. }
      { cbn [fents] in F. destruct Z as (_ & Z & _). apply gT_nonempty in Z. cbn in Z. destruct es; [easy|]. cbn in F. lia. }
      exists st'. split; auto. split; auto. eapply tree_inv_perm; [|exact I]. rewrite E1, <- E2. cbn [fents].
      rewrite P. rewrite <- app_assoc. rewrite !(app_assoc (fe t')). rewrite Permutation_app_comm.
      rewrite <- !app_assoc. apply Permutation_app_head. rewrite Permutation_app_comm. rewrite <- app_assoc. reflexivity.
    - exists st1. split; auto. split; auto. rewrite S1. cbn [app]. eapply tree_inv_perm; [|apply (finish true st1 C _ Z1 S1)].
      cbn [fents]. now rewrite P. }
  pose proof Z as (Z0 & (Ga & Gr) & Gc). pose proof Z0 as (A & B & N & M). cbn in A. destruct A as ((A1 & A2) & Sg).
  cbn [fents fid] in *. cbn [build_tree]. rewrite A1. cbn [n_links].
  assert (Bz : BI dim st C (FL i g rg a es)) by (repeat split; auto; apply Z).
  destruct (SPLIT_THRESHOLD <? a + length es - a) eqn:Et; [|apply (Next st es Bz); auto].
  assert (Hes : es <> []) by (intros ->; discriminate).
  assert (Hpe : forall e, In e es -> length (e_point e) = dim) by (intros e He; apply Hp; eapply seg_in; eauto).
  assert (Lrg : length rg = dim) by (eapply in_rg_len; eauto).
  rewrite A2. destruct (widest_ok rg) as (d & w & lo & Ew & Hdd). { intros ->. cbn in Lrg. lia. } rewrite Ew.
  assert (Lstop : a + length es <= length (t_ents st)).
  { destruct (exists_last Hes) as (q & x & ->). apply seg_at in Sg. apply nth_error_lt in Sg. rewrite app_length. cbn. lia. }
  assert (Lpos : 0 < length es) by (destruct es; [easy|cbn; lia]).
  destruct (partition_ok d (lo + (w + 1) / 2) a (a + length es) (t_ents st)) as (ents' & mid & Ep & P1 & P2 & P3 & _ & _); [lia|auto| |].
  { intros p Hpp. unfold cd. specialize (Sg (p - a)). replace (a + (p - a)) with p in Sg by lia. rewrite Sg by lia.
    destruct (nth_error es (p - a)) as [x|] eqn:Ex; [|apply nth_error_None in Ex; lia].
    apply nth_error_In in Ex. specialize (Hpe x Ex).
    destruct (nth_error (e_point x) d) as [c|] eqn:Ec; eauto. apply nth_error_None in Ec. lia. }
  rewrite Ep.
  pose proof (Permutation_length P1) as PL.
  destruct (slice_seg ents' a (a + length es)) as (S1 & S2); [lia|lia|].
  replace (a + length es - a) with (length es) in S2 by lia.
  set (es' := slice ents' a (a + length es)) in *.
  assert (Pe : Permutation es' es).
  { rewrite <- (seg_slice _ _ _ Sg). apply slice_perm; auto; lia. }
  assert (Z1 : ZR (set_ents st ents') C (FL i g rg a es')).
  { pose proof (ZR_leaf st C i g rg a es es' ents' Z0) as Q. rewrite S2 in Q. rewrite (upd_nth_error_same _ _ _ A1) in Q. apply Q; auto. }
  assert (Bz1 : BI dim (set_ents st ents') C (FL i g rg a es')).
  { split; [|split; [exact I|]]; [|split; [auto|split; [auto|split; [auto|]]]].
    - split; auto. split.
      + split. { eapply aug_of_perm; [symmetry; exact Pe|auto]. } eapply in_rg_pincl; [|exact Gr]. apply incl_pincl. now apply perm_incl.
      + cbn [fag fents]. eapply gC_mono; [|exact Gc]. apply incl_pincl. now apply perm_incl.
    - cbn. intros e He. apply Hp. eapply Permutation_in; eauto. }
  destruct (negb (a =? mid) && negb (mid =? a + length es)) eqn:Es.
  2: { apply (Next _ es' Bz1 Pe). }
  apply andb_true_iff in Es. destruct Es as (Es1 & Es2). apply negb_true_iff, Nat.eqb_neq in Es1, Es2.
  assert (Esp : es' = slice ents' a mid ++ slice ents' mid (a + length es)) by (apply seg_split; lia).
  destruct (slice_seg ents' a mid) as (Sa & La); [lia|lia|]. destruct (slice_seg ents' mid (a + length es)) as (Sb & Lb); [lia|lia|].
  set (ea := slice ents' a mid) in *. set (eb := slice ents' mid (a + length es)) in *.
  assert (Hea : ea <> []) by (intros Q; rewrite Q in La; cbn in La; lia).
  assert (Heb : eb <> []) by (intros Q; rewrite Q in Lb; cbn in Lb; lia).
  assert (Pea : forall e, In e ea -> length (e_point e) = dim).
  { intros e He. apply Hpe. eapply Permutation_in; [exact Pe|]. rewrite Esp. apply in_app_iff. auto. }
  assert (Peb : forall e, In e eb -> length (e_point e) = dim).
  { intros e He. apply Hpe. eapply Permutation_in; [exact Pe|]. rewrite Esp. apply in_app_iff. auto. }
  destruct (aug_of_some ea Hea) as (ga & Hga). destruct (aug_of_some eb Heb) as (gb & Hgb).
  destruct (compute_ranges_ok dim ea Hdim Hea Pea) as (ra & Ra1 & Ra2 & Ra3).
  destruct (compute_ranges_ok dim eb Hdim Heb Peb) as (rb & Rb1 & Rb2 & Rb3).
  unfold new_child at 1. cbn [set_ents t_ents t_dim t_nodes t_ranges]. rewrite (slice_c_in ents' a mid) by lia. fold ea. rewrite Hd, Ra1, Hga. cbn [fst snd].
  unfold new_child. cbn [t_ents t_dim t_nodes t_ranges]. rewrite (slice_c_in ents' mid (a + length es)) by lia. fold eb. rewrite Rb1, Hgb. cbn [fst snd t_nodes t_ents t_dim t_ranges].
  set (n := length (t_nodes st)) in *. pose proof (nth_error_lt _ _ _ A1) as Li. fold n in Li.
  assert (Li1 : i < length ((t_nodes st ++ [mkNode ga i false (Leaf a mid)]) ++ [mkNode gb i true (Leaf mid (a + length es))]))
    by (rewrite !app_length; cbn; fold n; lia).
  rewrite nth_error_app1 by (rewrite app_length; fold n; cbn; lia). rewrite nth_error_app1 by (fold n; lia). rewrite A1. cbn [n_aug n_parent n_right].
  rewrite app_length. cbn [length]. fold n.
  set (st4 := set_node _ _ _).
  set (tl := FL n ga ra a ea). set (tr := FL (n + 1) gb rb mid eb).
  assert (Z4 : ZR st4 C (FN i g rg tl tr)).
  { pose proof Z1 as (_ & B1 & N1 & M1). cbn [ids poss fid] in B1, N1, M1. fold n in N1.
    assert (Bnd : forall x, In x (cids C) -> x < n) by (intros x Hx; apply (rpc_bound _ _ _ B1 x Hx)).
    cbn in N1. apply NoDup_cons_iff in N1. destruct N1 as (N1 & N2).
    unfold ZR. cbn [rp fid tl tr cpar cisr ids poss]. split; [|split; [|split]].
    - split; [|split; split].
      + split; unfold st4, set_node; cbn [t_nodes t_ranges].
        * rewrite nth_error_upd_eq by auto. reflexivity.
        * rewrite nth_error_app1 by (rewrite app_length, Lr; cbn; lia). rewrite nth_error_app1 by (rewrite Lr; exact Li). auto.
      + split; unfold st4, set_node; cbn [t_nodes t_ranges].
        * rewrite nth_error_upd_neq by lia. rewrite nth_error_app1 by (rewrite app_length; fold n; cbn; lia).
          unfold n. rewrite nth_error_app2, Nat.sub_diag by lia. cbn. repeat f_equal. lia.
        * rewrite nth_error_app1 by (rewrite app_length, Lr; cbn; lia). unfold n.
          rewrite nth_error_app2 by lia. rewrite Lr, Nat.sub_diag. reflexivity.
      + exact Sa.
      + split; unfold st4, set_node; cbn [t_nodes t_ranges].
        * rewrite nth_error_upd_neq by lia. rewrite nth_error_app2 by (rewrite app_length; fold n; cbn; lia).
          rewrite app_length. cbn [length]. fold n. rewrite Nat.sub_diag. cbn. replace (mid + length eb) with (a + length es) by lia. reflexivity.
        * rewrite nth_error_app2 by (rewrite app_length, Lr; cbn; lia).
          rewrite app_length, Lr. cbn [length]. fold n. rewrite Nat.sub_diag. reflexivity.
      + exact Sb.
    - eapply rpc_ext; [| |exact B1]; unfold st4, set_node; cbn [t_nodes t_ranges t_ents set_ents]; auto.
      intros j Hj. pose proof (Bnd j Hj). split.
      + rewrite nth_error_upd_neq by (intros ->; contradiction).
        rewrite nth_error_app1 by (rewrite app_length; fold n; cbn; lia). rewrite nth_error_app1 by (fold n; lia). reflexivity.
      + rewrite nth_error_app1 by (rewrite app_length, Lr; cbn; lia). rewrite nth_error_app1 by (rewrite Lr; auto). auto.
    - cbn. apply NoDup_cons_iff. split.
      + intros [Q|[Q|Q]]; [lia|lia|contradiction].
      + apply NoDup_cons_iff. split. { intros [Q|Q]; [lia|]. apply Bnd in Q. lia. }
        apply NoDup_cons_iff. split; auto. intros Q. apply Bnd in Q. lia.
    - rewrite La, Lb. replace (seq a (mid - a) ++ seq mid (a + length es - mid)) with (seq a (length es')); [exact M1|].
      rewrite S2. replace (length es) with ((mid - a) + (a + length es - mid)) at 1 by lia. rewrite seq_app. repeat f_equal. lia. }
  assert (G4 : GZ st4 C (FN i g rg tl tr)).
  { destruct Bz1 as ((_ & (X1 & X2) & X3) & _). split; auto. split.
    - cbn [gT fag tl tr fents]. repeat split; auto.
      + rewrite Esp in X1. rewrite (aug_of_comb _ _ _ _ Hga Hgb) in X1. congruence.
      + now rewrite <- Esp.
    - cbn [fag fents tl tr]. rewrite <- Esp. exact X3. }
  pose proof (GZ_down true _ _ _ _ _ _ _ G4) as G5. cbn [down fst snd] in G5.
  destruct (IH st4 (mkFr i g rg false tr :: C) tl) as (st' & T & I & D).
  - split; [auto|]. split; [exact Logic.I|]. split; [|split; [|split]].
    + intros f [<-|Hf]; cbn; auto.
    + unfold st4. cbn. rewrite upd_length, !app_length. cbn. lia.
    + reflexivity.
    + unfold st4. cbn. intros e He. apply Hp. eapply Permutation_in; eauto.
  - cbn [bpc bpc1 fr_isr fr_sib tl tr fents] in *. rewrite La, Lb. lia.
  - exists st'. split; [exact T|]. split; auto. eapply tree_inv_perm; [|exact I].
    cbn. unfold pend1, done1. cbn. rewrite <- Pe, Esp. rewrite <- !app_assoc. reflexivity.
Qed.

Theorem tree_new_ok dim ents : 0 < dim -> (forall e, In e ents -> length (e_point e) = dim) ->
  exists st, tree_new dim ents = Some st /\ tree_inv st ents /\ t_dim st = dim.
Proof.
  intros Hd Hp. destruct ents as [|e r].
  - eexists. split; [reflexivity|]. split; auto. left. auto.
  - set (ents := e :: r) in *. assert (Hn : ents <> []) by discriminate.
    destruct (aug_of_some ents Hn) as (g & Hg). destruct (compute_ranges_ok dim ents Hd Hn Hp) as (rg & R1 & R2 & R3).
    set (st := mkTree dim ents [mkNode g 0 true (Leaf 0 (length ents))] [rg]).
    destruct (build_ok dim Hd (2 * length ents) st [] (FL 0 g rg 0 ents)) as (st' & T & I & D).
    + split; [|split; [exact I|]]; [|split; [intros f []|split; [auto|split; auto]]].
      split; [|split; [|exact I]].
      * unfold ZR. cbn. split; [|split; [auto|split]].
        -- split. split; reflexivity. intros j Hj. reflexivity.
        -- constructor; auto. constructor.
        -- rewrite app_nil_r. apply (seq_NoDup (length ents) 0).
      * split; auto.
    + cbn [bpc fents]. lia.
    + exists st'. split; [|split; auto].
      * unfold tree_new. unfold ents at 1. fold ents. rewrite Hg, R1. exact T.
      * cbn in I. now rewrite app_nil_r in I.
Qed.
