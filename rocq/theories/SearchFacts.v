(* Facts about the sets the search handles: successors and pruned sets, and the bounds they give. *)
From Coq Require Import List Arith Bool Lia Permutation.
Import ListNotations.
From Verif Require Import Spec Vec Net Graded Bits Util OutputSetModel OutputSetProofs PruneProofs PackProofs HuffmanModel HuffmanProofs CanonModel PropCanon TreeModel StatesModel StatesProofs StatesBounds SearchModel.

Definition okset (s : OutputSet) : Prop := wf s /\ channels s <= 11 /\ graded (channels s) (vs s).

Lemma iso_lower n V W inv p k : width n V -> is_perm n p -> isomorphic_by inv p V W ->
  lower_bound n W k -> lower_bound n V k.
Proof.
  intros Wd P I H. apply (lower_bound_sym n inv p V k P Wd). apply (lower_bound_same n W); auto.
Qed.

Lemma iso_upper n V W inv p k : width n V -> is_perm n p -> isomorphic_by inv p V W ->
  upper_bound n W k -> upper_bound n V k.
Proof.
  intros Wd P I H. apply (upper_bound_sym n inv p V k P Wd). apply (upper_bound_same n _ W); auto. now apply same_set_sym.
Qed.

Section Facts.
Variable chash : list nat -> nat.
Notation canon := (canon chash).
Notation prune_canon := (prune_canon chash).

Lemma canon_spec s : okset s -> exists t inv p, canon s = Some t /\ okset t /\ channels t = channels s /\
  is_perm (channels s) p /\ isomorphic_by inv p (vs s) (vs t).
Proof.
  intros (W & M & G). destruct (C06_canonicalize_isomorphic chash s true W M) as (t & inv & p & E & Wt & C & P & I & _).
  exists t, inv, p. unfold SearchModel.canon. rewrite E. split; auto. split; [|auto]. split; auto. rewrite C. split; auto.
  apply (graded_same _ (image (sym inv p) (vs s))). now apply same_set_sym. now apply graded_sym.
Qed.

Definition canon_of (s : OutputSet) : OutputSet := match canon s with Some t => t | None => s end.

Lemma canon_canon_of s : okset s -> canon s = Some (canon_of s).
Proof. intros H. destruct (canon_spec s H) as (t & inv & p & E & _). unfold canon_of. now rewrite E. Qed.

(* ---- successors ---- *)
Definition succ1 (s : OutputSet) (ij : nat * nat) : list OutputSet :=
  let '(t, changed) := apply_comparator s (fst ij) (snd ij) in if changed then [canon_of t] else [].
Definition succs (s : OutputSet) : list OutputSet := flat_map (succ1 s) (pairs (channels s)).

Lemma pairs_In n i j : In (i, j) (pairs n) <-> i < n /\ j < i.
Proof.
  unfold pairs. rewrite in_flat_map. split.
  - intros (a & Ha & H). apply in_map_iff in H. destruct H as (b & E & Hb). injection E as <- <-.
    apply in_seq in Ha, Hb. lia.
  - intros (H1 & H2). exists i. split. apply in_seq; lia. apply in_map_iff. exists j. split; auto. apply in_seq; lia.
Qed.

Lemma comparator_ok s i j : okset s -> i < channels s -> j < i -> okset (fst (apply_comparator s i j)).
Proof.
  intros (W & M & G) Hi Hj. split. apply apply_comparator_wf; auto; lia. rewrite apply_comparator_channels. split; auto.
  apply (graded_same _ (image (exch (j, i)) (vs s))). apply same_set_sym, apply_comparator_vs; auto; lia.
  apply graded_exch; auto. unfold cmp_ok. simpl. lia.
Qed.

Lemma succ1_spec s i j t : okset s -> i < channels s -> j < i -> In t (succ1 s (i, j)) ->
  okset t /\ channels t = channels s /\ nonredundant (j, i) (vs s) /\
  exists inv p, is_perm (channels s) p /\ isomorphic_by inv p (image (exch (j, i)) (vs s)) (vs t).
Proof.
  intros K Hi Hj. unfold succ1. cbn [fst snd]. pose proof (comparator_ok s i j K Hi Hj) as K'.
  pose proof K as (W & M & G).
  destruct (apply_comparator s i j) as (u, ch) eqn:E. destruct ch; [|intros []]. intros [<-|[]].
  cbn [fst] in K'. destruct (canon_spec u K') as (t & inv & p & Ec & Kt & Ct & P & I).
  unfold canon_of. rewrite Ec.
  assert (Cu : channels u = channels s) by (pose proof (apply_comparator_channels s i j) as X; rewrite E in X; exact X).
  split; auto. split. congruence. split.
  - assert (F : snd (apply_comparator s i j) = true) by now rewrite E.
    apply apply_comparator_flag in F; auto; lia.
  - exists inv, p. rewrite <- Cu. split; auto. eapply same_set_trans; [exact I|]. apply image_same.
    pose proof (apply_comparator_vs s i j) as X. rewrite E in X. apply X; auto; lia.
Qed.

Lemma succ1_nonredundant s i j : okset s -> i < channels s -> j < i -> nonredundant (j, i) (vs s) ->
  exists t, succ1 s (i, j) = [t].
Proof.
  intros (W & M & G) Hi Hj R. unfold succ1. cbn [fst snd].
  assert (F : snd (apply_comparator s i j) = true).
  { apply apply_comparator_flag; auto; lia. }
  destruct (apply_comparator s i j) as (u, ch). simpl in F. subst ch. eauto.
Qed.

Lemma succs_spec s t : okset s -> In t (succs s) ->
  okset t /\ channels t = channels s /\ exists c, cmp_ok (channels s) c /\ nonredundant c (vs s) /\
  exists inv p, is_perm (channels s) p /\ isomorphic_by inv p (image (exch c) (vs s)) (vs t).
Proof.
  intros K H. unfold succs in H. apply in_flat_map in H. destruct H as ((i, j) & Hp & H). apply pairs_In in Hp.
  destruct (succ1_spec s i j t K) as (A & B & C & D); try tauto. split; auto. split; auto. exists (j, i).
  split. unfold cmp_ok. simpl. lia. auto.
Qed.

Lemma vs_dec s : forall x, vs s x \/ ~ vs s x.
Proof.
  intros x. unfold vs. destruct (Nat.eq_dec (length x) (channels s)) as [E|]; [|right; tauto].
  destruct (bget (bitmap s) (idx x)) eqn:B; [left|right]; intuition congruence.
Qed.

Lemma finite_ex (P : vec -> Prop) n : (forall x, P x \/ ~ P x) -> (exists x, length x = n /\ P x) \/ ~ (exists x, length x = n /\ P x).
Proof.
  revert P. induction n as [|n IH]; intros P D.
  - destruct (D []) as [H|H]; [left; exists []; auto|right]. intros (x & L & Px). destruct x; [tauto|discriminate].
  - destruct (IH (fun x => P (false :: x))) as [(x & L & H)|H0]; auto. { left. exists (false :: x). simpl. auto. }
    destruct (IH (fun x => P (true :: x))) as [(x & L & H)|H1]; auto. { left. exists (true :: x). simpl. auto. }
    right. intros ([|b x] & L & Px); [discriminate|]. injection L as L. destruct b; [apply H1|apply H0]; eauto.
Qed.

Lemma out_of_order_dec s c : out_of_order c (vs s) \/ ~ out_of_order c (vs s).
Proof.
  destruct (finite_ex (fun x => vs s x /\ bit x (fst c) = true /\ bit x (snd c) = false) (channels s)) as [(x & L & H)|H].
  - intros x. destruct (vs_dec s x); [|tauto]. destruct (bit x (fst c)), (bit x (snd c)); intuition congruence.
  - left. exists x. tauto.
  - right. intros (x & Hx & A). apply H. exists x. split. now apply vs_width. tauto.
Qed.

Lemma succ_lower s k : okset s -> ~ one_per_weight (vs s) ->
  (forall t, In t (succs s) -> lower_bound (channels s) (vs t) (k - 1)) -> lower_bound (channels s) (vs s) k.
Proof.
  intros K N H net F. destruct (Nat.le_gt_cases k (length net)) as [|Hl]; auto. exfalso.
  apply (lower_bound_successors (channels s) k (length net) (vs s) Hl) with (net := net); auto.
  - apply vs_width.
  - intros c _. apply out_of_order_dec.
  - intros i j Hi Hj R. destruct (succ1_nonredundant s i j K Hi Hj R) as (t & E).
    assert (It : In t (succs s)). { apply in_flat_map. exists (i, j). split. now apply pairs_In. rewrite E. simpl. auto. }
    destruct (succ1_spec s i j t K Hi Hj) as (_ & _ & _ & inv & p & P & I). { rewrite E. simpl. auto. }
    eapply iso_lower; eauto. apply width_exch, vs_width.
Qed.

Lemma succ_upper s t k : okset s -> In t (succs s) -> upper_bound (channels s) (vs t) k -> upper_bound (channels s) (vs s) (S k).
Proof.
  intros K H U. destruct (succs_spec s t K H) as (_ & _ & c & Hc & _ & inv & p & P & I).
  apply (upper_bound_succ _ _ c); auto. eapply iso_upper; eauto. apply width_exch, vs_width.
Qed.

Lemma not_opw_pair s : ~ one_per_weight (vs s) -> exists x y, vs s x /\ vs s y /\ weight x = weight y /\ x <> y.
Proof.
  intros N.
  destruct (finite_ex (fun x => vs s x /\ exists y, length y = channels s /\ vs s y /\ weight x = weight y /\ x <> y) (channels s)) as [(x & L & Hx & y & Ly & Hy)|H].
  - intros x. destruct (vs_dec s x); [|tauto].
    destruct (finite_ex (fun y => vs s y /\ weight x = weight y /\ x <> y) (channels s)) as [A|A]; try tauto.
    intros y. destruct (vs_dec s y); [|tauto]. destruct (Nat.eq_dec (weight x) (weight y)); [|tauto].
    destruct (list_eq_dec Bool.bool_dec x y); tauto.
  - exists x, y. tauto.
  - destruct N. intros x y Hx Hy E. destruct (list_eq_dec Bool.bool_dec x y) as [|Ne]; auto. destruct H.
    exists x. split. now apply vs_width. split; auto. exists y. split; auto. now apply vs_width.
Qed.

Lemma succs_nonempty s : okset s -> is_sorted s = false -> succs s <> [].
Proof.
  intros K E N. assert (NO : ~ one_per_weight (vs s)). { intros O. apply is_sorted_spec in O; [|apply K]. congruence. }
  destruct (not_opw_pair s NO) as (x & y & Hx & Hy & Ew & Ne).
  destruct (unsorted_nonredundant (channels s) (vs s) x y (vs_width s) Hx Hy Ew Ne) as (i & j & Hi & Hj & R).
  destruct (succ1_nonredundant s i j K Hi Hj R) as (t & Et).
  assert (It : In t (succs s)). { apply in_flat_map. exists (i, j). split. now apply pairs_In. rewrite Et. simpl. auto. }
  rewrite N in It. destruct It.
Qed.

(* ---- pruned sets ---- *)
Definition prune_of (s : OutputSet) (pol : bool) (c : nat) : OutputSet :=
  match prune_canon s pol c with Some p => p | None => s end.
Definition prunes (s : OutputSet) (pol : bool) : list OutputSet := map (prune_of s pol) (extremal_channels s pol).

Lemma extremal_In s pol c : wf s -> (In c (extremal_channels s pol) <-> c < channels s /\ vs s (lone (channels s) pol c)).
Proof.
  intros W. unfold extremal_channels. rewrite filter_In, in_seq. split.
  - intros (H & E). split; [lia|]. apply channel_is_extremal_lone in E; auto. lia.
  - intros (H & E). split; [lia|]. now apply channel_is_extremal_lone.
Qed.

Lemma complement_if_image_graded n pol V : graded n V -> graded n (image (complement_if pol) V).
Proof.
  intros G. destruct pol.
  - now apply graded_complement.
  - apply (graded_same n V); auto. apply same_set_sym. apply image_id_ext. auto.
Qed.

Lemma prune_canon_spec s pol c : okset s -> c < channels s -> vs s (lone (channels s) pol c) ->
  exists p, prune_canon s pol c = Some p /\ okset p /\ channels p = channels s - 1 /\
    exists inv q, is_perm (channels s - 1) q /\ isomorphic_by inv q (pruned_pol (channels s) c pol (vs s)) (vs p).
Proof.
  intros (W & M & G) Hc He. destruct (prune_extremal_spec s pol c W Hc M He) as (u & E & Cu & Wu & S).
  assert (S' : same_set (vs u) (pruned_pol (channels s) c pol (vs s))).
  { eapply same_set_trans; [exact S|]. apply same_set_sym. now apply pruned_pol_flip. }
  assert (Gp : graded (channels s - 1) (pruned_pol (channels s) c pol (vs s))).
  { unfold pruned_pol. apply complement_if_image_graded. apply graded_pruned; auto. now apply complement_if_image_graded.
    now apply lone_mem. }
  assert (Ku : okset u). { split; auto. rewrite Cu. split. lia. apply (graded_same _ _ _ (same_set_sym _ _ S')). auto. }
  destruct (canon_spec u Ku) as (t & inv & p & Ec & Kt & Ct & P & I). rewrite Cu in *.
  exists t. unfold SearchModel.prune_canon. rewrite E. split; auto. split; auto. split; auto.
  exists inv, p. split; auto. eapply same_set_trans; [exact I|]. now apply image_same.
Qed.

Lemma prune_of_spec s pol c : okset s -> In c (extremal_channels s pol) ->
  prune_canon s pol c = Some (prune_of s pol c) /\ okset (prune_of s pol c) /\ channels (prune_of s pol c) = channels s - 1 /\
    exists inv q, is_perm (channels s - 1) q /\ isomorphic_by inv q (pruned_pol (channels s) c pol (vs s)) (vs (prune_of s pol c)).
Proof.
  intros K H. apply extremal_In in H; [|apply K]. destruct H as (Hc & He).
  destruct (prune_canon_spec s pol c K Hc He) as (p & E & R). unfold prune_of. rewrite E. auto.
Qed.

Lemma prunes_okset s pol p : okset s -> In p (prunes s pol) -> okset p /\ channels p + 1 = channels s.
Proof.
  intros K H. apply in_map_iff in H. destruct H as (c & <- & H). destruct (prune_of_spec s pol c K H) as (_ & A & B & _).
  split; auto. apply extremal_In in H; [|apply K]. lia.
Qed.

Lemma pruned_pol_width n c pol V : c < n -> width n V -> width (n - 1) (pruned_pol n c pol V).
Proof.
  intros Hc W z (y & (x & Hx & ->) & ->). apply up_reach_in in Hx. destruct Hx as (w & Hw & ->).
  rewrite complement_if_length, del_length; rewrite complement_if_length, (W _ Hw); auto.
Qed.

Lemma lower_complement_if n pol V k : width n V -> lower_bound n (image (complement_if pol) V) k -> lower_bound n V k.
Proof. intros W. apply (proj1 (lower_bound_complement_if n pol V k W)). Qed.
Lemma upper_complement_if n pol V k : width n V -> upper_bound n (image (complement_if pol) V) k -> upper_bound n V k.
Proof. intros W. apply (proj1 (upper_bound_complement_if n pol V k W)). Qed.

Lemma pruned_width n c V : c < n -> width n V -> width (n - 1) (pruned n c V).
Proof.
  intros Hc W z (x & Hx & ->). apply up_reach_in in Hx. rewrite del_length; rewrite (W _ Hx); auto.
Qed.

Lemma seq_NoDup_filter {A} (f : A -> bool) l : NoDup l -> NoDup (filter f l).
Proof. apply NoDup_filter. Qed.

Lemma prune_lower s pol (f : OutputSet -> nat) r : okset s -> extremal_channels s pol <> [] ->
  (forall p, In p (prunes s pol) -> lower_bound (channels s - 1) (vs p) (f p)) ->
  max_plus_1_huffman (map f (prunes s pol)) = Some r -> lower_bound (channels s) (vs s) r.
Proof.
  intros K NE H E. set (n := channels s). set (V := image (complement_if pol) (vs s)).
  assert (WV : width n V). { unfold V. apply width_complement_if. apply vs_width. }
  apply (lower_complement_if n pol); [apply vs_width|]. fold V.
  apply (huffman_lower_bound n V (map (fun c => (c, (pruned n c V, f (prune_of s pol c)))) (extremal_channels s pol)) r); auto.
  - rewrite map_map. simpl. rewrite map_id. apply NoDup_filter, seq_NoDup.
  - intros c P b I. apply in_map_iff in I. destruct I as (c' & Ec & I). injection Ec as <- <- <-.
    destruct (prune_of_spec s pol c' K I) as (_ & Kp & Cp & inv & q & Pq & Iq). pose proof I as I0.
    apply extremal_In in I; [|apply K]. destruct I as (Hc & He). split; auto. split. { now apply lone_mem. } split.
    + intros y (x & Hx & ->). pose proof (up_reach_in _ _ _ Hx) as Vx. rewrite del_length by (rewrite (WV _ Vx); auto).
      split. now rewrite (WV _ Vx). rewrite <- (up_reach_bit n c' V x) by auto. rewrite ins_del; auto. now rewrite (WV _ Vx).
    + assert (L : lower_bound (n - 1) (pruned_pol n c' pol (vs s)) (f (prune_of s pol c'))).
      { eapply iso_lower; eauto. apply pruned_pol_width; auto. apply vs_width. apply H. unfold prunes. apply in_map. auto. }
      unfold pruned_pol in L. apply lower_complement_if in L. exact L. now apply pruned_width.
  - intros k Hk. rewrite map_map in Hk. cbn [snd] in Hk. apply (huffman_kraft (map f (prunes s pol)) r); auto.
    { unfold prunes. destruct (extremal_channels s pol); [congruence|discriminate]. }
    unfold prunes. rewrite map_map. exact Hk.
Qed.

Lemma prune_single_upper s pol c k : okset s -> extremal_channels s pol = [c] ->
  upper_bound (channels s - 1) (vs (prune_of s pol c)) k -> upper_bound (channels s) (vs s) k.
Proof.
  intros K E U. set (n := channels s). set (V := image (complement_if pol) (vs s)).
  assert (I : In c (extremal_channels s pol)) by (rewrite E; simpl; auto).
  destruct (prune_of_spec s pol c K I) as (_ & Kp & Cp & inv & q & Pq & Iq).
  apply extremal_In in I; [|apply K]. destruct I as (Hc & He).
  assert (U' : upper_bound (n - 1) (pruned_pol n c pol (vs s)) k).
  { eapply iso_upper; eauto. apply pruned_pol_width; auto. apply vs_width. }
  assert (WV : width n V). { unfold V. apply width_complement_if. apply vs_width. }
  unfold pruned_pol in U'. fold V in U'. apply upper_complement_if in U'; [|now apply pruned_width].
  apply (upper_complement_if n pol); [apply vs_width|]. fold V.
  apply (single_extremal_upper n c V); auto.
  - apply complement_if_image_graded. apply K.
  - now apply lone_mem.
  - intros c' Hc' H. apply lone_mem in H; auto. assert (In c' (extremal_channels s pol)) by (apply extremal_In; auto; apply K).
    rewrite E in H0. destruct H0 as [|[]]; auto.
Qed.

Lemma extremal_nonempty s pol : okset s -> 1 <= channels s -> extremal_channels s pol <> [].
Proof.
  intros K H N. pose proof K as (W & M & G).
  pose proof (complement_if_image_graded (channels s) pol (vs s) G) as G'.
  destruct (graded_weight _ _ 1 G' H) as (x & Hx & Wx). pose proof (proj1 G' _ Hx) as L.
  destruct (weight_pos_bit x ltac:(lia)) as (i & Hi & Hb).
  assert (x = unit_vec (channels s) i).
  { symmetry. apply vle_weight_eq. 2:{ rewrite unit_vec_weight; lia. }
    split. rewrite unit_vec_length. auto.
    intros j Hj. rewrite bit_unit_vec in Hj by lia. apply Nat.eqb_eq in Hj. now subst. }
  subst x. apply lone_mem in Hx; [|lia]. assert (In i (extremal_channels s pol)). { apply extremal_In; auto. split; auto. lia. }
  rewrite N in H0. destruct H0.
Qed.

Lemma extremal_length s pol : length (extremal_channels s pol) <= channels s.
Proof.
  etransitivity; [|apply Nat.eq_le_incl, (seq_length (channels s) 0)]. apply NoDup_incl_length. apply NoDup_filter, seq_NoDup. apply incl_filter.
Qed.

(* ---- the huffman value ---- *)
Lemma huffman_total_small l : length l <= 11 -> (forall v, In v l -> v <= 35) -> exists r, max_plus_1_huffman l = Some r.
Proof.
  intros L H. apply huffman_no_overflow. intros v Hv. specialize (H v Hv).
  assert (Nat.log2_up (length l) <= 4). { etransitivity. apply Nat.log2_up_le_mono. exact L. reflexivity. }
  assert (U8_MAX = 255) by reflexivity. lia.
Qed.

Lemma kraft_mono {A} (f g : A -> nat) l : (forall x, In x l -> f x <= g x) -> kraft (map f l) <= kraft (map g l).
Proof.
  induction l as [|a l IH]; intros H; auto. cbn [map]. unfold kraft in *. cbn [fold_right].
  pose proof (Nat.pow_le_mono_r 2 (f a) (g a) ltac:(lia) (H a (or_introl eq_refl))).
  specialize (IH (fun x Hx => H x (or_intror Hx))). lia.
Qed.

Lemma huffman_mono {A} (f g : A -> nat) l r r' : (forall x, In x l -> f x <= g x) ->
  max_plus_1_huffman (map f l) = Some r -> max_plus_1_huffman (map g l) = Some r' -> r <= r'.
Proof.
  intros H E E'. destruct l as [|a l]. { cbn [map] in E, E'. rewrite E in E'. injection E' as ->. auto. }
  assert (N : forall h : A -> nat, map h (a :: l) <> []) by (intros h; discriminate).
  apply (huffman_kraft _ _ (N f) E). etransitivity. apply (kraft_mono f g); auto.
  apply (huffman_kraft _ _ (N g) E'). auto.
Qed.

Lemma huffman_single v r : max_plus_1_huffman [v] = Some r -> v = r.
Proof. intros H. injection H as <-. auto. Qed.
End Facts.
