(* Soundness of the verified checker. *)
From Coq Require Import List Arith Bool Lia Permutation ZArith.
Import ListNotations.
From Verif Require Import Spec Vec Net Graded Util OutputSetProofs PruneProofs HuffmanProofs VerifiedCheckerModel.

(* ---------- tries as sets ---------- *)

Definition mem (t : Vect_trie) : vset := fun x => is_member_vt x t = true.

Lemma member_singleton x y : is_member_vt y (vt_singleton x) = true <-> y = x.
Proof.
  revert y; induction x as [|b x IH]; intros y.
  - destruct y as [|[] [|[] y]]; simpl; split; congruence.
  - destruct b, y as [|[] y]; simpl; try rewrite IH; try (split; congruence); destruct y; simpl; split; congruence.
Qed.

Lemma member_empty y : is_member_vt y VtEmpty = false.
Proof. destruct y; auto. Qed.

Lemma member_union a b : forall y, is_member_vt y (vt_union a b) = is_member_vt y a || is_member_vt y b.
Proof.
  revert b; induction a as [|x lo IHlo hi IHhi]; intros b y.
  - now rewrite member_empty.
  - destruct b as [|x' lo' hi']. rewrite member_empty, orb_false_r. reflexivity.
    destruct y as [|[] y]; simpl; auto.
Qed.

Lemma hs_fold_member ls : forall t y,
  is_member_vt y (hs_fold (fun x t => vt_union (vt_singleton x) t) ls t) = true <-> In y ls \/ mem t y.
Proof.
  induction ls as [|x ls IH]; intros t y; simpl. unfold mem; tauto.
  rewrite IH. unfold mem. rewrite member_union, orb_true_iff, member_singleton. intuition congruence.
Qed.

Lemma vt_list_mem ls y : mem (vt_list ls) y <-> In y ls.
Proof. unfold mem at 1, vt_list. rewrite hs_fold_member. unfold mem. rewrite member_empty. intuition congruence. Qed.

Fixpoint elems (t : Vect_trie) : list (list bool) :=
  match t with
  | VtEmpty => []
  | VtNode here lo hi =>
      (if here then [[]] else []) ++ map (cons false) (elems lo) ++ map (cons true) (elems hi)
  end.

Lemma list_vt_extend_elems t : forall p s, list_vt_extend t p s = map p (elems t) ++ s.
Proof.
  induction t as [|[] lo IHlo hi IHhi]; intros p s; simpl; auto; rewrite IHlo, IHhi, !map_app, !map_map;
    now rewrite <- !app_assoc.
Qed.

Lemma list_vt_elems t : list_vt t = elems t.
Proof. unfold list_vt. now rewrite list_vt_extend_elems, map_id, app_nil_r. Qed.

Lemma elems_In t : forall y, In y (elems t) <-> mem t y.
Proof.
  unfold mem. induction t as [|here lo IHlo hi IHhi]; intros y.
  { rewrite member_empty. simpl. split; easy. }
  simpl.
  rewrite !in_app_iff, !in_map_iff. destruct y as [|[] y].
  - split.
    + intros [H|[(?&?&?)|(?&?&?)]]; try discriminate. destruct here; auto.
    + intros H. simpl in H. subst here. left. now left.
  - simpl is_member_vt. rewrite <- IHhi. split.
    + intros [H|[(?&?&?)|(x&E&?)]]; [destruct here; destruct H; easy|easy|congruence].
    + intros H. right. right. eauto.
  - simpl is_member_vt. rewrite <- IHlo. split.
    + intros [H|[(x&E&?)|(x&E&?)]]; [destruct here; destruct H; easy|congruence|easy].
    + intros H. right. left. eauto.
Qed.

Lemma list_vt_In t y : In y (list_vt t) <-> mem t y.
Proof. rewrite list_vt_elems. apply elems_In. Qed.

Lemma NoDup_app_disj {A} (l m : list A) : NoDup l -> NoDup m -> (forall x, In x l -> ~ In x m) -> NoDup (l ++ m).
Proof.
  induction 1 as [|a l Ha N IH]; intros Nm D; simpl; auto. constructor.
  - rewrite in_app_iff. intros [H|H]; auto. apply (D a); simpl; auto.
  - apply IH; auto. intros x Hx. apply D. now right.
Qed.

Lemma elems_NoDup t : NoDup (elems t).
Proof.
  induction t as [|here lo IHlo hi IHhi]; simpl. constructor.
  assert (M : forall (b : bool) l, NoDup l -> NoDup (map (cons b) l)).
  { intros b l N. apply FinFun.Injective_map_NoDup; auto. intros x y E. congruence. }
  apply NoDup_app_disj.
  - destruct here; constructor; auto. constructor.
  - apply NoDup_app_disj; auto. intros x Hx Hy. apply in_map_iff in Hx, Hy.
    destruct Hx as (u & <- & _), Hy as (v & E & _). discriminate.
  - intros x Hx Hy. apply in_app_iff in Hy. rewrite !in_map_iff in Hy.
    destruct here; [|easy]. destruct Hx as [<-|[]]. destruct Hy as [(u & E & _)|(u & E & _)]; discriminate.
Qed.

Lemma length_vt_elems t : length_vt t = length (elems t).
Proof.
  induction t as [|[] lo IHlo hi IHhi]; simpl; auto; rewrite app_length, !map_length; congruence.
Qed.

Lemma is_subset_mem a : forall b, is_subset_vt a b = true <-> subset (mem a) (mem b).
Proof.
  unfold subset, mem. induction a as [|x lo IHlo hi IHhi]; intros b.
  - simpl. split; auto. intros _ y. easy.
  - assert (G : forall b_lo b_hi, is_subset_vt lo b_lo && is_subset_vt hi b_hi = true <->
       (forall y, is_member_vt y lo = true -> is_member_vt y b_lo = true) /\
       (forall y, is_member_vt y hi = true -> is_member_vt y b_hi = true)).
    { intros. now rewrite andb_true_iff, IHlo, IHhi. }
    destruct b as [|x' lo' hi'].
    + destruct x; simpl.
      * split; [discriminate|]. intros H. specialize (H [] eq_refl). discriminate.
      * rewrite G. split.
        -- intros (H1 & H2) [|[] y]; simpl; auto; intros E; [apply H2 in E|apply H1 in E]; simpl in E; discriminate.
        -- intros H. split; intros y Hy; exfalso.
           ++ specialize (H (false :: y) Hy). discriminate.
           ++ specialize (H (true :: y) Hy). discriminate.
    + assert (X : (forall y, is_member_vt y (VtNode x lo hi) = true -> is_member_vt y (VtNode x' lo' hi') = true) <->
        (x = true -> x' = true) /\
        (forall y, is_member_vt y lo = true -> is_member_vt y lo' = true) /\
        (forall y, is_member_vt y hi = true -> is_member_vt y hi' = true)).
      { split.
        - intros H. split; [exact (H [])|]. split; intros y; [exact (H (false :: y))|exact (H (true :: y))].
        - intros (H1 & H2 & H3) [|[] y]; simpl; auto. }
      rewrite X. destruct x, x'; simpl; rewrite ?G; intuition congruence.
Qed.

(* ---------- vectors of one length ---------- *)

Lemma forallb_width n l : forallb (fun xs : list bool => length xs =? n) l = true <-> (forall x, In x l -> length x = n).
Proof. rewrite forallb_forall. split; intros H x Hx; specialize (H x Hx); now apply Nat.eqb_eq. Qed.

Lemma mem_card t : exists k, length_vt t = k /\ card (mem t) k.
Proof.
  exists (length_vt t). split; auto. exists (elems t). split. apply elems_NoDup. split. apply elems_In.
  now rewrite length_vt_elems.
Qed.

Lemma one_per_weight_count n (l : list vec) : NoDup l -> (forall x, In x l -> length x = n) ->
  one_per_weight (fun x => In x l) -> length l <= S n.
Proof.
  intros N W O. rewrite <- (map_length weight l). rewrite <- (seq_length (S n) 0).
  apply NoDup_incl_length.
  - clear W. induction N as [|a l Ha N IH]; simpl; constructor.
    + rewrite in_map_iff. intros (y & E & Hy). apply Ha. rewrite (O a y); simpl; auto.
    + apply IH. intros x y Hx Hy. apply O; now right.
  - intros w Hw. apply in_map_iff in Hw. destruct Hw as (x & <- & Hx). apply in_seq.
    pose proof (weight_le x). rewrite (W x Hx) in H. lia.
Qed.

Lemma is_unsorted_spec n t : width n (mem t) -> is_unsorted_vt n t = true -> ~ one_per_weight (mem t).
Proof.
  unfold is_unsorted_vt. intros W H O. apply Nat.ltb_lt in H. rewrite length_vt_elems in H.
  pose proof (one_per_weight_count n (elems t) (elems_NoDup t)) as Q.
  assert (length (elems t) <= S n); [|lia]. apply Q.
  - intros x Hx. apply W. now apply elems_In.
  - intros x y Hx Hy. apply O; now apply elems_In.
Qed.

(* ---------- symmetry images ---------- *)

Lemma permute_vt_mem ps t : same_set (mem (permute_vt ps t)) (image (permute ps) (mem t)).
Proof.
  intros y. unfold permute_vt. rewrite vt_list_mem, in_map_iff. split.
  - intros (x & <- & Hx). exists x. split; auto. now apply list_vt_In.
  - intros (x & Hx & ->). exists x. split; auto. now apply list_vt_In.
Qed.

Lemma invert_vt_mem z t : same_set (mem (invert_vt z t)) (image (complement_if z) (mem t)).
Proof.
  intros y. unfold invert_vt. destruct z.
  - rewrite vt_list_mem, in_map_iff. split.
    + intros (x & <- & Hx). exists x. split; auto. now apply list_vt_In.
    + intros (x & Hx & ->). exists x. split; auto. now apply list_vt_In.
  - split. intros H; exists y; auto. intros (x & Hx & ->). auto.
Qed.

Lemma hs_member_In l y : hs_member l y = true <-> In y l.
Proof. induction l; simpl; [easy|]. rewrite orb_true_iff, Nat.eqb_eq, IHl. tauto. Qed.

Lemma distinct_NoDup l : distinct l = true <-> NoDup l.
Proof.
  induction l as [|x l IH]; simpl. split; auto. constructor.
  rewrite andb_true_iff, negb_true_iff, IH. split.
  - intros (H & N). constructor; auto. intros Hx. apply hs_member_In in Hx. congruence.
  - intros N. inversion N; subst. split; auto. destruct (hs_member l x) eqn:E; auto. apply hs_member_In in E. easy.
Qed.

Lemma list_update_upd xs i y : list_update xs i y = upd xs i y.
Proof. revert i; induction xs; intros [|i]; simpl; auto. now rewrite IHxs. Qed.

Lemma apply_cmp_exch c xs : apply_cmp_list c xs = exch c xs.
Proof. unfold apply_cmp_list, exch. now rewrite !list_update_upd. Qed.

(* ---------- comparators ---------- *)

Lemma ocmp_list_In n a b : In (a, b) (ocmp_list n) <-> a < b /\ b < n.
Proof.
  unfold ocmp_list, upt. rewrite in_flat_map. split.
  - intros (i & Hi & H). apply in_map_iff in H. destruct H as (j & E & Hj). injection E as <- <-.
    apply in_seq in Hi, Hj. lia.
  - intros (H1 & H2). exists b. split. apply in_seq; lia. apply in_map_iff. exists a. split; auto. apply in_seq; lia.
Qed.

Lemma is_redundant_spec c t : is_redundant_cmp_vt c t = false <-> nonredundant c (mem t).
Proof.
  unfold is_redundant_cmp_vt. rewrite negb_false_iff, andb_true_iff, !negb_true_iff.
  assert (G : forall (f : list bool -> bool) l, forallb f l = false <-> exists x, In x l /\ f x = false).
  { intros f l. split.
    - intros H. induction l as [|a l IH]; simpl in H; [discriminate|]. destruct (f a) eqn:E.
      + destruct IH as (x & Hx & Fx); auto. exists x. simpl. auto.
      + exists a. simpl. auto.
    - intros (x & Hx & Fx). destruct (forallb f l) eqn:E; auto. rewrite forallb_forall in E. rewrite E in Fx; auto. }
  rewrite !G. unfold nonredundant, out_of_order, in_order, hs_nth, bit.
  split; intros (H1 & H2); split.
  - destruct H1 as (x & Hx & E). exists x. apply negb_false_iff, andb_true_iff in E. destruct E as (E1 & E2).
    apply negb_true_iff in E2. repeat split; auto. now apply list_vt_In.
  - destruct H2 as (x & Hx & E). exists x. apply negb_false_iff, andb_true_iff in E. destruct E as (E1 & E2).
    apply negb_true_iff in E1. repeat split; auto. now apply list_vt_In.
  - destruct H1 as (x & Hx & E1 & E2). exists x. rewrite E1, E2. split; auto. now apply list_vt_In.
  - destruct H2 as (x & Hx & E1 & E2). exists x. rewrite E1, E2. split; auto. now apply list_vt_In.
Qed.

(* ---------- huffman ---------- *)

Lemma part_spec p l : let '(lts, (eqs, gts)) := part p l in
  Permutation (lts ++ eqs ++ gts) l /\ (forall x, In x lts -> x < p) /\ (forall x, In x eqs -> x = p) /\
  (forall x, In x gts -> p < x) /\ length lts <= length l /\ length gts <= length l /\
  (In p l -> eqs <> []).
Proof.
  induction l as [|x l IH]; simpl. intuition (auto; try easy).
  destruct (part p l) as (lts, (eqs, gts)). destruct IH as (P & H1 & H2 & H3 & H4 & H5 & H6).
  destruct (x <? p) eqn:E1; [|destruct (p <? x) eqn:E2].
  - apply Nat.ltb_lt in E1. split; [simpl; now constructor|]. split; [intros y [<-|Hy]; auto|].
    split; auto. split; auto. simpl. split; [lia|]. split; [lia|]. intros [->|Hp]; auto. lia.
  - apply Nat.ltb_lt in E2. split. rewrite app_assoc. symmetry. etransitivity.
    apply perm_skip. symmetry. exact P. rewrite app_assoc. apply Permutation_middle.
    split; auto. split; auto. split; [intros y [<-|Hy]; auto|]. simpl. split; [lia|]. split; [lia|].
    intros [->|Hp]; auto. lia.
  - apply Nat.ltb_ge in E1, E2. assert (x = p) by lia. subst x. split.
    { simpl. symmetry. etransitivity. apply perm_skip. symmetry. exact P. apply Permutation_middle. }
    split; auto. split; [intros y [<-|Hy]; auto|]. split; auto. split; [lia|]. split; [lia|]. discriminate.
Qed.

Lemma sort_key_spec fuel : forall l, length l < fuel ->
  Permutation (sort_key fuel l) l /\ Srt Nat.leb (sort_key fuel l).
Proof.
  assert (Sapp : forall a b, Srt Nat.leb a -> Srt Nat.leb b -> (forall x y, In x a -> In y b -> x <= y) ->
     Srt Nat.leb (a ++ b)).
  { induction 1 as [|x l Hx Sl IH]; intros Sb D; simpl; auto. constructor.
    - intros y Hy. apply in_app_iff in Hy. destruct Hy; auto. apply Nat.leb_le. apply D; simpl; auto.
    - apply IH; auto. intros u v Hu Hv. apply D; simpl; auto. }
  induction fuel as [|f IH]; intros l L; [lia|].
  destruct l as [|x [|y [|z r]]]; cbn [sort_key].
  - split; constructor.
  - split; auto. constructor. easy. constructor.
  - destruct (x <=? y) eqn:E; split; auto; try apply perm_swap.
    + repeat constructor; try easy. intros b [<-|[]]; auto.
    + apply Nat.leb_gt in E. repeat constructor; try easy. intros b [<-|[]]. apply Nat.leb_le. lia.
  - set (l := x :: y :: z :: r) in *. set (p := nth (length l / 2) l 0).
    assert (Hp : In p l).
    { apply nth_In. apply Nat.div_lt; simpl; lia. }
    pose proof (part_spec p l) as PS. destruct (part p l) as (lts, (eqs, gts)).
    destruct PS as (P & H1 & H2 & H3 & _ & _ & H6).
    assert (Le : 0 < length eqs) by (specialize (H6 Hp); destruct eqs; [easy|simpl; lia]).
    pose proof (Permutation_length P) as PL. rewrite !app_length in PL.
    destruct (IH lts ltac:(lia)) as (P1 & S1). destruct (IH gts ltac:(lia)) as (P2 & S2).
    split. now rewrite P1, P2. apply Sapp; auto. apply Sapp; auto.
    + clear -H2. induction eqs as [|e eqs IHe]; constructor.
      * intros b Hb. apply Nat.leb_le. rewrite (H2 e), (H2 b); simpl; auto.
      * apply IHe. intros; apply H2; now right.
    + intros u v Hu Hv. apply (Permutation_in _ P2) in Hv. apply H2 in Hu. apply H3 in Hv. lia.
    + intros u v Hu Hv. apply (Permutation_in _ P1) in Hu. apply H1 in Hu. apply in_app_iff in Hv.
      destruct Hv as [Hv|Hv]. apply H2 in Hv. lia. apply (Permutation_in _ P2) in Hv. apply H3 in Hv. lia.
Qed.

Lemma sucmax_huffman_f fuel : forall l, length l < fuel -> l <> [] ->
  exists r, sucmax_value_bound_huffman_f fuel l = Some r /\ forall K, kraft l <= 2 ^ K <-> r <= K.
Proof.
  induction fuel as [|f IH]; intros l L Hne; [lia|]. cbn [sucmax_value_bound_huffman_f].
  destruct l as [|a l]; [congruence|]. cbn [length]. change (S (length l) =? 0) with false. cbv iota.
  replace (S (length l) - 1) with (length l) by lia. destruct l as [|b l].
  - exists a. split; auto. intros K. simpl. rewrite Nat.add_0_r. symmetry. apply Nat.pow_le_mono_r_iff. lia.
  - cbn [length]. change (S (length l) =? 0) with false. cbv iota.
    unfold sorted_list_of_multiset. destruct (sort_key_spec (S (length (a :: b :: l))) (a :: b :: l)) as (P & So); [lia|].
    destruct (sort_key (S (length (a :: b :: l))) (a :: b :: l)) as [|a1 [|a2 r]].
    { apply Permutation_length in P. discriminate. }
    { apply Permutation_length in P. discriminate. }
    cbn [sucmax_huffman_step_sorted_list].
    destruct (IH (sucmax a1 a2 :: r)) as (v & E & H).
    { apply Permutation_length in P. simpl in *. lia. } { discriminate. }
    exists v. split; auto. intros K. rewrite <- H, <- (kraft_perm _ _ P). unfold sucmax.
    replace (S (Nat.max a1 a2)) with (Nat.max a1 a2 + 1) by lia. apply kraft_merge.
    + apply (Srt_nat_In _ _ So). now left.
    + apply Srt_tail in So. now apply Srt_nat_In.
Qed.

Lemma sucmax_huffman l : l <> [] ->
  exists r, sucmax_value_bound_huffman l = Some r /\ forall K, kraft l <= 2 ^ K <-> r <= K.
Proof. intros H. apply sucmax_huffman_f; auto. Qed.

(* the bound by extremal channels for both polarities *)
Lemma huffman_lower_bound_pol n pol V (E : list (nat * (vset * nat))) B :
  width n V -> NoDup (map fst E) ->
  (forall c P b, In (c, (P, b)) E ->
     c < n /\ V (lone n pol c) /\
     (forall y, P y -> length y = n - 1 /\ V (ins c (negb pol) y)) /\ lower_bound (n - 1) P b) ->
  (forall k, kraft (map (fun e => snd (snd e)) E) <= 2 ^ k -> B <= k) ->
  lower_bound n V B.
Proof.
  intros W N H HB. apply (lower_bound_complement_if n pol V B W).
  set (E' := map (fun e : nat * (vset * nat) => (fst e, (image (complement_if pol) (fst (snd e)), snd (snd e)))) E).
  apply (huffman_lower_bound n _ E' B).
  - now apply width_complement_if.
  - unfold E'. now rewrite map_map.
  - intros c P b Hin. apply in_map_iff in Hin. destruct Hin as ((c0, (P0, b0)) & X & Hin). simpl in X.
    injection X as <- <- <-. destruct (H _ _ _ Hin) as (G1 & G2 & G3 & G4). split; auto. split; [|split].
    + now apply lone_mem.
    + intros y (x & Hx & ->). destruct (G3 x Hx) as (Lx & Vx). rewrite complement_if_length. split; auto.
      exists (ins c0 (negb pol) x). split; auto. rewrite <- (del_ins c0 (negb pol) x) at 1 by lia.
      rewrite complement_if_del.
      assert (Bc : bit (complement_if pol (ins c0 (negb pol) x)) c0 = true).
      { rewrite bit_complement_if by (rewrite ins_length; lia). rewrite bit_ins_eq by lia. now destruct pol. }
      rewrite <- Bc. apply ins_del. rewrite complement_if_length, ins_length. lia.
    + apply (lower_bound_complement_if (n - 1) pol); auto. intros y Hy. now apply G3.
  - intros k Hk. apply HB. unfold E' in Hk. now rewrite map_map in Hk.
Qed.

(* ---------- pruning ---------- *)

Lemma prune_vt_mem pol t : forall i y, i <= length y ->
  is_member_vt y (prune_extremal_vt pol i t) = is_member_vt (ins i (negb pol) y) t.
Proof.
  induction t as [|here lo IHlo hi IHhi]; intros i y L.
  - simpl prune_extremal_vt. reflexivity.
  - simpl prune_extremal_vt. destruct i as [|i]. destruct pol; reflexivity. destruct y as [|b y]; simpl in L; [lia|].
    simpl. destruct b; [apply IHhi|apply IHlo]; lia.
Qed.

Lemma prune_vt_short pol t : forall i y, length y < i ->
  is_member_vt y (prune_extremal_vt pol i t) = is_member_vt y t.
Proof.
  induction t as [|here lo IHlo hi IHhi]; intros i y L; simpl; auto.
  destruct i as [|i]; [lia|]. destruct y as [|[] y]; simpl in *; auto; [apply IHhi|apply IHlo]; lia.
Qed.

Lemma prune_vt_width n pol c t : c < n -> width n (mem t) -> width (n - 1) (mem (prune_extremal_vt pol c t)).
Proof.
  intros Hc W y Hy. unfold mem in Hy. destruct (le_lt_dec c (length y)) as [L|L].
  - rewrite prune_vt_mem in Hy by auto. apply W in Hy. rewrite ins_length in Hy. lia.
  - rewrite prune_vt_short in Hy by auto. apply W in Hy. lia.
Qed.

Lemma extremal_pattern n pol i : i < n -> map (fun j => negb (eqb (j =? i) pol)) (upt 0 n) = lone n pol i.
Proof.
  intros H. unfold upt. rewrite Nat.sub_0_r. apply vec_ext.
  { unfold lone. now rewrite map_length, seq_length, upd_length, repeat_length. }
  intros j Hj. rewrite map_length, seq_length in Hj. unfold bit at 1. rewrite nth_map_seq by auto.
  unfold lone. rewrite bit_upd, repeat_length. apply Nat.ltb_lt in H. rewrite H, andb_true_r.
  unfold bit. rewrite OutputSetProofs.nth_repeat_lt by auto. destruct (j =? i), pol; auto.
Qed.

Lemma extremal_channels_In n t pol c : In c (extremal_channels_vt t n pol) <-> c < n /\ mem t (lone n pol c).
Proof.
  assert (U : In c (upt 0 n) <-> c < n) by (unfold upt; rewrite in_seq; lia).
  unfold extremal_channels_vt. rewrite filter_In, U. unfold mem.
  split; intros (H1 & H2); (split; [lia|]); [rewrite extremal_pattern in H2 by lia|rewrite extremal_pattern by lia]; auto.
Qed.

Lemma extremal_channels_NoDup n t pol : NoDup (extremal_channels_vt t n pol).
Proof. apply NoDup_filter, seq_NoDup. Qed.

(* ---------- ranges ---------- *)

Lemma all_interval_spec p : forall fuel i j, j - i <= fuel ->
  (all_interval_nat_f fuel p i j = true <-> forall k, i <= k < j -> p k = true).
Proof.
  induction fuel as [|f IH]; intros i j H; cbn [all_interval_nat_f].
  - rewrite Nat.leb_le. split; intros; lia || auto. 
  - rewrite orb_true_iff, andb_true_iff, Nat.leb_le, IH by lia. split.
    + intros [G|(G1 & G2)] k Hk; [lia|]. destruct (Nat.eq_dec k i) as [->|]; auto. apply G2. lia.
    + intros G. destruct (le_lt_dec j i); auto. right. split. apply G; lia. intros k Hk. apply G. lia.
Qed.

Lemma par_range_spec f : forall fuel lo n, n <= fuel ->
  (par_range_all_f fuel f lo n = true <-> forall k, lo <= k < lo + n -> f k = true).
Proof.
  induction fuel as [|fu IH]; intros lo n H.
  - assert (n = 0) by lia. subst n. cbn [par_range_all_f]. change (0 <? 1000) with true. cbv iota.
    unfold all_interval_nat. now rewrite all_interval_spec.
  - cbn [par_range_all_f]. destruct (n <? 1000) eqn:E.
    + unfold all_interval_nat. now rewrite all_interval_spec.
    + apply Nat.ltb_ge in E. cbv zeta. pose proof (Nat.div_lt n 2 ltac:(lia) ltac:(lia)).
      pose proof (Nat.div_str_pos n 2 ltac:(lia)).
      rewrite andb_true_iff, !IH by lia. split.
      * intros (G1 & G2) k Hk. destruct (lt_dec k (lo + n / 2)). apply G1; lia. apply G2; lia.
      * intros G. split; intros k Hk; apply G; lia.
Qed.

(* ---------- soundness ---------- *)

Section Sound.
Variable steps : Z -> Proof_step.

Definition sw (s : Proof_step) : nat := Z.to_nat (step_width s).
Definition sb (s : Proof_step) : nat := Z.to_nat (step_bound s).
Definition sset (s : Proof_step) : vset := fun x => In x (step_vect_list s).

Definition step_sound (s : Proof_step) : Prop :=
  width (sw s) (sset s) /\ (exists x, sset s x) /\ lower_bound (sw s) (sset s) (sb s).

Lemma vt_list_sset s : same_set (mem (vt_list (step_vect_list s))) (sset s).
Proof. intros x. apply vt_list_mem. Qed.

Lemma get_bound_sound limit w n t b :
  (forall i, (0 <= i < limit)%Z -> step_sound (steps i)) ->
  width n (mem t) -> get_bound steps limit w n t = Some b -> lower_bound n (mem t) b.
Proof.
  intros IH W E. destruct w as [w|]; cbn [get_bound] in E.
  - cbv zeta in E. match type of E with (if ?c then _ else _) = _ => destruct c eqn:C; [discriminate|] end.
    injection E as <-. rewrite !orb_false_iff, !negb_false_iff in C.
    destruct C as (C1 & C2 & C3 & C4 & C5 & C6).
    apply andb_true_iff in C1. destruct C1 as (C1 & C1'). apply Z.leb_le in C1. apply Z.ltb_lt in C1'.
    destruct (IH (witness_step_id w)) as (S1 & (x0 & S2) & S3); [lia|].
    set (st := steps (witness_step_id w)) in *. set (perm := map Z.to_nat (witness_perm w)) in *.
    rewrite forallb_width in C5. apply Nat.eqb_eq in C3. apply distinct_NoDup in C4.
    assert (Ew : sw st = n). { rewrite <- (C5 x0 S2). symmetry. now apply S1. } rewrite Ew in *.
    assert (P : is_perm n perm).
    { apply is_perm_intro; auto. intros i Hi. rewrite forallb_forall in C2. specialize (C2 i Hi).
      apply andb_true_iff in C2. now apply Nat.ltb_lt. }
    apply is_subset_mem in C6.
    apply (lower_bound_mono n (image (sym (witness_invert w) perm) (sset st))).
    + intros y Hy. apply C6. apply permute_vt_mem. apply sym_split in Hy. destruct Hy as (z & (x & Hx & ->) & ->).
      exists (complement_if (witness_invert w) x). split; auto. apply invert_vt_mem. exists x. split; auto.
      now apply vt_list_sset.
    + now apply lower_bound_sym.
  - injection E as <-. destruct (is_unsorted_vt n t) eqn:U.
    + apply lower_bound_1. now apply (is_unsorted_spec n).
    + apply lower_bound_0.
Qed.

Lemma out_of_order_dec_mem c t : out_of_order c (mem t) \/ ~ out_of_order c (mem t).
Proof.
  destruct (existsb (fun x => bit x (fst c) && negb (bit x (snd c))) (elems t)) eqn:E.
  - left. apply existsb_exists in E. destruct E as (x & Hx & E). apply andb_true_iff in E. destruct E as (E1 & E2).
    exists x. apply negb_true_iff in E2. repeat split; auto. now apply elems_In.
  - right. intros (x & Hx & E1 & E2). apply elems_In in Hx.
    assert (X : existsb (fun x => bit x (fst c) && negb (bit x (snd c))) (elems t) = true).
    { apply existsb_exists. exists x. rewrite E1, E2. auto. } congruence.
Qed.

Lemma list_all2_In {A B} (p : A -> B -> bool) xs : forall ys, list_all2 p xs ys = true ->
  forall x, In x xs -> exists y, In y ys /\ p x y = true.
Proof.
  induction xs as [|x xs IH]; intros [|y ys] H z Hz; simpl in *; try easy.
  apply andb_true_iff in H. destruct H as (H1 & H2). destruct Hz as [<-|Hz].
  - exists y; auto.
  - destruct (IH ys H2 z Hz) as (w & Hw & E). exists w; auto.
Qed.

Lemma check_successors_sound limit s :
  (forall i, (0 <= i < limit)%Z -> step_sound (steps i)) ->
  check_successors steps limit s = true -> step_sound s.
Proof.
  intros IH H. unfold check_successors in H. destruct (step_witnesses s) as [|ws]; [discriminate|].
  cbv zeta in H. rewrite !andb_true_iff in H. destruct H as ((((H1 & H2) & H3) & H4) & H5).
  fold (sw s) (sb s) in *. set (t := vt_list (step_vect_list s)) in *.
  rewrite forallb_width in H4. assert (Ws : width (sw s) (sset s)) by exact H4.
  assert (Wt : width (sw s) (mem t)). { intros x Hx. apply Ws. now apply vt_list_sset. }
  assert (Ex : exists x, sset s x).
  { unfold is_unsorted_vt in H2. apply Nat.ltb_lt in H2. rewrite length_vt_elems in H2.
    destruct (elems t) as [|x l] eqn:E; [simpl in H2; lia|]. exists x. apply vt_list_sset, elems_In. fold t. rewrite E. now left. }
  split; auto. split; auto.
  apply (lower_bound_same _ (mem t)). intros x; apply vt_list_sset.
  apply negb_true_iff, Nat.eqb_neq in H1.
  intros net F. destruct (le_lt_dec (sb s) (length net)) as [|Hl]; auto. exfalso.
  apply (lower_bound_successors (sw s) (sb s) (length net) (mem t) Hl) with (net := net); auto.
  - intros c _. apply out_of_order_dec_mem.
  - now apply is_unsorted_spec in H2.
  - intros i j Hi Hj NR. apply is_redundant_spec in NR.
    set (b := vt_list (map (apply_cmp_list (j, i)) (step_vect_list s))).
    assert (Sb : same_set (mem b) (image (exch (j, i)) (mem t))).
    { intros y. unfold b. rewrite vt_list_mem, in_map_iff. split.
      - intros (x & <- & Hx). exists x. split; [now apply vt_list_sset|apply apply_cmp_exch].
      - intros (x & Hx & ->). exists x. split; [apply apply_cmp_exch|now apply vt_list_sset]. }
    destruct (list_all2_In _ _ _ H5 b) as (w & Hw & E).
    { apply in_map_iff. exists (j, i). split; auto. apply filter_In. split. now apply ocmp_list_In. now rewrite NR. }
    destruct (get_bound steps limit w (sw s) b) as [ba|] eqn:G; [|discriminate]. apply Nat.leb_le in E.
    apply get_bound_sound in G; auto.
    + apply (lower_bound_same _ (mem b)); auto. apply (lower_bound_le _ _ ba); auto. lia.
    + intros y Hy. apply Sb in Hy. revert y Hy. now apply width_exch.
Qed.

Lemma check_huffman_sound limit s :
  (forall i, (0 <= i < limit)%Z -> step_sound (steps i)) ->
  check_huffman steps limit s = true -> step_sound s.
Proof.
  intros IH H. unfold check_huffman in H. destruct (step_witnesses s) as [pol ws|]; [|discriminate].
  cbv zeta in H. rewrite !andb_true_iff in H. destruct H as (((((H1 & H2) & H3) & H4) & H5) & H6).
  fold (sw s) (sb s) in *. set (t := vt_list (step_vect_list s)) in *.
  apply negb_true_iff, Nat.eqb_neq in H1. replace (Nat.pred (sw s)) with (sw s - 1) in * by lia.
  rewrite forallb_width in H2. assert (Ws : width (sw s) (sset s)) by exact H2.
  assert (Wt : width (sw s) (mem t)). { intros x Hx. apply Ws. now apply vt_list_sset. }
  apply Nat.eqb_eq in H4. set (ext := extremal_channels_vt t (sw s) pol) in *.
  assert (Hext : forall c, In c ext -> c < sw s /\ mem t (lone (sw s) pol c)) by (intros c; apply extremal_channels_In).
  assert (Hne : ext <> []). { destruct ext; [|easy]. destruct ws; [discriminate|discriminate]. }
  assert (Ex : exists x, sset s x).
  { destruct ext as [|c ext'] eqn:E; [easy|]. exists (lone (sw s) pol c). apply vt_list_sset, Hext. now left. }
  split; auto. split; auto. apply (lower_bound_same _ (mem t)). intros x; apply vt_list_sset.
  (* the entries *)
  set (gb := fun e : Vect_trie * option Proof_witness => get_bound steps limit (snd e) (sw s - 1) (fst e)) in *.
  assert (En : exists E, map fst E = ext /\ map (fun e => snd (snd e)) E = map the (map gb (combine (map (fun c => prune_extremal_vt pol c t) ext) ws)) /\
     forall c P b, In (c, (P, b)) E -> P = mem (prune_extremal_vt pol c t) /\ lower_bound (sw s - 1) P b).
  { clear Hne Ex H3 H6. assert (Nx := fun c Hc => proj1 (Hext c Hc)). clear Hext.
    generalize dependent ws. clearbody ext. induction ext as [|c ext IHe]; intros [|w ws] L G; simpl in L; try discriminate.
    - exists []. simpl. repeat split; auto; easy.
    - simpl in G. apply andb_true_iff in G. destruct G as (G1 & G2).
      destruct (IHe (fun c' Hc' => Nx c' (or_intror Hc')) ws ltac:(lia) G2) as (E & E1 & E2 & E3).
      destruct (gb (prune_extremal_vt pol c t, w)) as [b|] eqn:Gb; [|discriminate].
      exists ((c, (mem (prune_extremal_vt pol c t), b)) :: E). simpl. rewrite E1, E2, Gb. split; auto. split; auto.
      intros c' P' b' [X|X]; [|now apply E3]. injection X as <- <- <-. split; auto.
      apply (get_bound_sound limit w); auto. apply (prune_vt_width (sw s)); auto. apply Nx. now left. }
  destruct En as (E & E1 & E2 & E3).
  destruct (sucmax_huffman (map (fun e => snd (snd e)) E)) as (r & Hr & Hk).
  { rewrite <- E1 in Hne. destruct E; [easy|discriminate]. }
  rewrite E2 in Hr. rewrite Hr in H6. apply Nat.leb_le in H6.
  apply (huffman_lower_bound_pol (sw s) pol (mem t) E); auto.
  - rewrite E1. apply extremal_channels_NoDup.
  - intros c P b Hin. assert (Hc : In c ext) by (rewrite <- E1; apply (in_map fst) in Hin; auto).
    destruct (Hext c Hc) as (Hc1 & Hc2). destruct (E3 _ _ _ Hin) as (-> & LB). split; auto. split; auto. split; auto.
    intros y Hy. pose proof (prune_vt_width (sw s) pol c t Hc1 Wt y Hy) as Ly. split; auto.
    unfold mem in *. rewrite prune_vt_mem in Hy; auto. lia.
  - intros k Hk'. apply Hk in Hk'. lia.
Qed.

Lemma check_step_sound limit s :
  (forall i, (0 <= i < limit)%Z -> step_sound (steps i)) ->
  check_step steps limit s = true -> step_sound s.
Proof.
  intros IH H. unfold check_step in H. destruct (step_witnesses s) eqn:E.
  now apply (check_huffman_sound limit). now apply (check_successors_sound limit).
Qed.

Lemma steps_sound n : (forall k, k < n -> check_step steps (Z.of_nat k) (steps (Z.of_nat k)) = true) ->
  forall k, k < n -> step_sound (steps (Z.of_nat k)).
Proof.
  intros H. intros k. induction k as [k IH] using lt_wf_ind. intros Hk.
  apply (check_step_sound (Z.of_nat k)); [|now apply H]. intros i Hi.
  rewrite <- (Z2Nat.id i) by lia. apply IH; lia.
Qed.
End Sound.

Theorem check_proof_sound cert n b : check_proof_get_bound cert = Some (n, b) ->
  forall i, (0 <= i < cert_length cert)%Z -> step_sound (cert_step cert i).
Proof.
  unfold check_proof_get_bound. destruct (check_proof cert) eqn:C; [|discriminate]. intros _ i Hi.
  unfold check_proof in C. cbv zeta in C. apply andb_true_iff in C. destruct C as (C1 & C2).
  unfold par_range_all in C2. rewrite par_range_spec in C2 by auto.
  rewrite <- (Z2Nat.id i) by lia. apply (steps_sound _ (Z.to_nat (cert_length cert))); [|lia].
  intros k Hk. apply C2. lia.
Qed.

Theorem check_proof_get_bound_sound cert n b : check_proof_get_bound cert = Some (n, b) ->
  lower_bound (Z.to_nat n) (all_inputs (Z.to_nat n)) (Z.to_nat b).
Proof.
  intros H. pose proof (check_proof_sound cert n b H (cert_length cert - 1)) as S.
  unfold check_proof_get_bound in H. destruct (check_proof cert && (0 <? cert_length cert)%Z) eqn:C; [|discriminate].
  apply andb_true_iff in C. destruct C as (_ & C). apply Z.ltb_lt in C.
  injection H as <- <-. destruct S as (W & _ & L); [lia|].
  eapply lower_bound_mono; [|exact L]. intros x Hx. now apply W.
Qed.
