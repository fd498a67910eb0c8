(* Sets in which every member lies on a saturated chain from 00..0 to 11..1.  All sets the program
   handles have this property.  Also: the zero-one principle, and the connection between finishing
   all inputs and sorting networks. *)
From Coq Require Import List Arith Bool Lia Permutation.
Import ListNotations.
From Verif Require Import Spec Vec Net.

Definition graded (n : nat) (V : vset) : Prop :=
  width n V /\ (exists x, V x) /\
  (forall x, V x -> weight x < n -> exists y, V y /\ covers x y) /\
  (forall x, V x -> 0 < weight x -> exists y, V y /\ covers y x).

Lemma covers_length x y : covers x y -> length y = length x.
Proof. intros (i & _ & _ & ->). apply upd_length. Qed.

Lemma covers_weight x y : covers x y -> weight y = S (weight x).
Proof. intros H. now apply covers_vle in H. Qed.

Lemma graded_same n V W : same_set V W -> graded n V -> graded n W.
Proof.
  intros E (H1 & (x & Hx) & H3 & H4). repeat split.
  - intros y Hy. apply H1, E, Hy.
  - exists x; now apply E.
  - intros y Hy Hw. apply E in Hy. destruct (H3 y Hy Hw) as (z & Hz & C). exists z; split; auto. now apply E.
  - intros y Hy Hw. apply E in Hy. destruct (H4 y Hy Hw) as (z & Hz & C). exists z; split; auto. now apply E.
Qed.

Lemma upd_upd {A} (l : list A) i a b : upd (upd l i a) i b = upd l i b.
Proof. revert i; induction l; intros [|i]; simpl; auto. now rewrite IHl. Qed.

Lemma graded_all n : graded n (all_inputs n).
Proof.
  unfold all_inputs. repeat split.
  - intros x Hx; exact Hx.
  - exists (repeat false n). apply repeat_length.
  - intros x Hx Hw. destruct (weight_lt_bit x) as (i & Hi & Hb); [lia|].
    exists (upd x i true). split. now rewrite upd_length. exists i; auto.
  - intros x Hx Hw. destruct (weight_pos_bit x) as (i & Hi & Hb); [lia|].
    exists (upd x i false). split. now rewrite upd_length.
    exists i. rewrite upd_length. split; auto. split. now apply bit_upd_eq.
    rewrite upd_upd. rewrite <- Hb. symmetry; apply upd_same.
Qed.

Lemma graded_exch n V c : cmp_ok n c -> graded n V -> graded n (image (exch c) V).
Proof.
  intros Hc (H1 & (x & Hx) & H3 & H4). repeat split.
  - now apply width_exch.
  - exists (exch c x), x; auto.
  - intros y (z & Hz & ->) Hw. rewrite exch_weight in Hw by (rewrite H1; auto).
    destruct (H3 z Hz Hw) as (u & Hu & C). exists (exch c u). split. exists u; auto.
    apply exch_covers; auto. rewrite H1; auto.
  - intros y (z & Hz & ->) Hw. rewrite exch_weight in Hw by (rewrite H1; auto).
    destruct (H4 z Hz Hw) as (u & Hu & C). exists (exch c u). split. exists u; auto.
    apply exch_covers; auto. rewrite H1; auto.
Qed.

Lemma permute_vle n p x y : is_perm n p -> length x = n -> vle x y -> vle (permute p x) (permute p y).
Proof.
  intros H L (L2 & V). split. now rewrite !permute_length.
  intros i Hi. destruct (lt_dec i (length p)).
  - rewrite bit_permute in * by auto. auto.
  - rewrite bit_out in Hi by (rewrite permute_length; lia). discriminate.
Qed.

Lemma permute_covers n p x y : is_perm n p -> length x = n -> covers x y -> covers (permute p x) (permute p y).
Proof.
  intros H L C. pose proof (covers_length _ _ C). apply covers_iff in C. destruct C as [C W].
  apply covers_iff. split. eapply permute_vle; eauto. rewrite !(permute_weight n); auto; congruence.
Qed.

Lemma complement_covers x y : covers x y -> covers (complement y) (complement x).
Proof.
  intros C. pose proof (covers_length _ _ C) as L. apply covers_iff in C. destruct C as [(L2 & C) W].
  apply covers_iff. split. split. now rewrite !complement_length.
  - intros i Hi. destruct (lt_dec i (length x)).
    + rewrite bit_complement in * by lia. specialize (C i). destruct (bit x i), (bit y i); intuition.
    + rewrite bit_out in Hi by (rewrite complement_length; lia). discriminate.
  - pose proof (weight_complement x). pose proof (weight_complement y). lia.
Qed.

Lemma graded_permute n p V : is_perm n p -> graded n V -> graded n (image (permute p) V).
Proof.
  intros Hp (H1 & (x & Hx) & H3 & H4). repeat split.
  - now apply width_permute.
  - exists (permute p x), x; auto.
  - intros y (z & Hz & ->) Hw. rewrite (permute_weight n) in Hw by auto.
    destruct (H3 z Hz Hw) as (u & Hu & C). exists (permute p u). split. exists u; auto.
    apply (permute_covers n); auto.
  - intros y (z & Hz & ->) Hw. rewrite (permute_weight n) in Hw by auto.
    destruct (H4 z Hz Hw) as (u & Hu & C). exists (permute p u). split. exists u; auto.
    apply (permute_covers n); auto.
Qed.

Lemma graded_complement n V : graded n V -> graded n (image complement V).
Proof.
  intros (H1 & (x & Hx) & H3 & H4). repeat split.
  - now apply width_complement.
  - exists (complement x), x; auto.
  - intros y (z & Hz & ->) Hw. pose proof (weight_complement z). pose proof (H1 _ Hz).
    destruct (H4 z Hz ltac:(lia)) as (u & Hu & C). exists (complement u). split. exists u; auto.
    now apply complement_covers.
  - intros y (z & Hz & ->) Hw. pose proof (weight_complement z). pose proof (H1 _ Hz).
    destruct (H3 z Hz ltac:(lia)) as (u & Hu & C). exists (complement u). split. exists u; auto.
    now apply complement_covers.
Qed.

Lemma graded_sym n inv p V : is_perm n p -> graded n V -> graded n (image (sym inv p) V).
Proof.
  intros H G. eapply graded_same; [apply same_set_sym, sym_split|].
  apply graded_permute; auto. destruct inv.
  - now apply graded_complement.
  - eapply graded_same; [|exact G]. apply same_set_sym. now apply image_id_ext.
Qed.

Lemma weight_zero_eq x : weight x = 0 -> x = repeat false (length x).
Proof.
  intros H. apply vec_ext. now rewrite repeat_length. intros i Hi.
  pose proof (proj1 (weight_zero x) H i). rewrite H0. unfold bit. symmetry. apply nth_repeat.
Qed.

(* every weight occurs *)
Lemma graded_weight n V w : graded n V -> w <= n -> exists x, V x /\ weight x = w.
Proof.
  intros (H1 & (x0 & Hx0) & H3 & H4).
  assert (Z : exists z, V z /\ weight z = 0).
  { remember (weight x0) as k. revert x0 Hx0 Heqk. induction k as [|k IH]; intros x Hx E.
    - exists x; auto.
    - destruct (H4 x Hx ltac:(lia)) as (y & Hy & C). apply covers_weight in C. apply (IH y); auto; lia. }
  induction w as [|w IH]; intros Hw.
  - exact Z.
  - destruct IH as (x & Hx & E); [lia|]. destruct (H3 x Hx ltac:(lia)) as (y & Hy & C).
    exists y; split; auto. apply covers_weight in C. lia.
Qed.

Lemma graded_zero n V : graded n V -> V (repeat false n).
Proof.
  intros G. destruct (graded_weight n V 0 G ltac:(lia)) as (x & Hx & E).
  apply weight_zero_eq in E. destruct G as (H1 & _). rewrite (H1 _ Hx) in E. now subst.
Qed.

(* ---------- the part reachable from an extremal vector ---------- *)

Inductive up_reach (V : vset) (s : vec) : vec -> Prop :=
| up_start : V s -> up_reach V s s
| up_step x y : up_reach V s x -> covers x y -> V y -> up_reach V s y.

Lemma up_reach_in V s x : up_reach V s x -> V x.
Proof. intros H; destruct H; auto. Qed.

Lemma up_reach_vle V s x : up_reach V s x -> vle s x.
Proof.
  induction 1 as [|x y R IH C Hy].
  - split; auto.
  - apply covers_vle in C. destruct C as [[L C] _], IH as [L' IH]. split; [congruence|auto].
Qed.

Lemma up_reach_mono V W s x : subset V W -> up_reach V s x -> up_reach W s x.
Proof. intros H; induction 1. now constructor; apply H. econstructor 2; eauto. Qed.

Definition pruned (n c : nat) (V : vset) : vset := image (del c) (up_reach V (unit_vec n c)).

Lemma up_reach_bit n c V x : c < n -> up_reach V (unit_vec n c) x -> bit x c = true.
Proof.
  intros Hc H. apply up_reach_vle in H. apply H. rewrite bit_unit_vec by auto. apply Nat.eqb_refl.
Qed.

Lemma weight_unskip_cover n c x y : c < n -> length x = n -> bit x c = true -> covers x y ->
  covers (del c x) (del c y).
Proof.
  intros Hc L B C. pose proof (covers_length _ _ C) as L2. apply covers_iff in C. destruct C as [[L3 C] W].
  apply covers_iff. split. split. rewrite !del_length by lia. lia.
  - intros i. rewrite !bit_del. auto.
  - pose proof (weight_del c x ltac:(lia)). pose proof (weight_del c y ltac:(lia)).
    rewrite B in H. rewrite (C _ B) in H0. simpl in *. lia.
Qed.

Lemma graded_pruned n c V : c < n -> graded n V -> V (unit_vec n c) -> graded (n - 1) (pruned n c V).
Proof.
  intros Hc (H1 & _ & H3 & H4) Hu. repeat split.
  - intros y (x & Hx & ->). apply up_reach_in in Hx. rewrite del_length by (rewrite (H1 _ Hx); auto).
    now rewrite (H1 _ Hx).
  - exists (del c (unit_vec n c)). exists (unit_vec n c). split; auto. now constructor.
  - intros y (x & Hx & ->) Hw. pose proof (up_reach_bit _ _ _ _ Hc Hx) as B.
    pose proof (up_reach_in _ _ _ Hx) as Vx. pose proof (H1 _ Vx) as L.
    pose proof (weight_del c x ltac:(lia)). rewrite B in H; simpl in H.
    destruct (H3 x Vx ltac:(lia)) as (z & Hz & C).
    exists (del c z). split. exists z; split; auto. econstructor 2; eauto.
    apply (weight_unskip_cover n); auto.
  - intros y (x & Hx & ->) Hw. pose proof (up_reach_bit _ _ _ _ Hc Hx) as B.
    inversion Hx as [Hs|z x' Hz C Hx']; subst.
    + exfalso. pose proof (weight_del c (unit_vec n c)) as E. rewrite unit_vec_length, B, unit_vec_weight in E by auto.
      simpl in E. specialize (E Hc). lia.
    + exists (del c z). split. exists z; auto.
      apply (weight_unskip_cover n); auto. apply H1. now apply up_reach_in in Hz.
      eapply up_reach_bit; eauto.
Qed.

(* with a single extremal channel everything but 0 is reachable *)
Lemma single_extremal_reach n c V : c < n -> graded n V -> V (unit_vec n c) ->
  (forall c', c' < n -> V (unit_vec n c') -> c' = c) ->
  forall x, V x -> 0 < weight x -> up_reach V (unit_vec n c) x.
Proof.
  intros Hc (H1 & _ & H3 & H4) Hu Ho x Hx Hw.
  remember (weight x - 1) as k. revert x Hx Hw Heqk. induction k as [|k IH]; intros x Hx Hw E.
  - assert (W : weight x = 1) by lia.
    destruct (weight_pos_bit x Hw) as (i & Hi & Hb). rewrite (H1 _ Hx) in Hi.
    assert (x = unit_vec n i).
    { symmetry. apply vle_weight_eq. 2: now rewrite unit_vec_weight.
      split. rewrite unit_vec_length. symmetry; auto.
      intros j Hj. rewrite bit_unit_vec in Hj by auto. apply Nat.eqb_eq in Hj. now subst. }
    subst x. assert (i = c) by auto. subst. now constructor.
  - destruct (H4 x Hx Hw) as (y & Hy & C). pose proof (covers_weight _ _ C).
    econstructor 2; [apply (IH y)| |]; auto; lia.
Qed.

Lemma single_extremal_upper n c V k : c < n -> graded n V -> V (unit_vec n c) ->
  (forall c', c' < n -> V (unit_vec n c') -> c' = c) ->
  upper_bound (n - 1) (pruned n c V) k -> upper_bound n V k.
Proof.
  intros Hc G Hu Ho (net & (N & O) & L).
  exists (relabel (skip c) net). rewrite relabel_length. split; auto.
  pose proof G as (H1 & _).
  assert (OK : net_ok n (relabel (skip c) net)).
  { destruct (run_ins n c net (repeat false (n-1)) true); auto. apply repeat_length. }
  split; auto.
  assert (R : forall x, V x -> 0 < weight x ->
     exists y, pruned n c V y /\ run (relabel (skip c) net) x = ins c true (run net y) /\ length y = n - 1).
  { intros x Hx Hw. pose proof (single_extremal_reach n c V Hc G Hu Ho x Hx Hw) as U.
    pose proof (up_reach_bit _ _ _ _ Hc U) as B. pose proof (H1 _ Hx).
    assert (Ld : length (del c x) = n - 1) by (rewrite del_length; lia).
    exists (del c x). split. exists x; auto. split; auto.
    rewrite <- (proj1 (run_ins n c net (del c x) true Ld Hc N)). f_equal.
    rewrite <- B. symmetry. apply ins_del. lia. }
  intros y y' (x & Hx & ->) (x' & Hx' & ->) E.
  pose proof E as E0. rewrite !(run_weight n) in E by auto.
  destruct (Nat.eq_dec (weight x) 0) as [Z|Z].
  - f_equal. rewrite (weight_zero_eq x), (weight_zero_eq x') by lia. now rewrite (H1 _ Hx), (H1 _ Hx').
  - destruct (R x Hx ltac:(lia)) as (z & Hz & Rz & Lz). destruct (R x' Hx' ltac:(lia)) as (z' & Hz' & Rz' & Lz').
    rewrite Rz, Rz' in *. f_equal. apply O; [exists z; auto|exists z'; auto|].
    pose proof (weight_del c (ins c true (run net z))) as D1.
    pose proof (weight_del c (ins c true (run net z'))) as D2.
    rewrite ins_length, run_length, Lz in D1. rewrite ins_length, run_length, Lz' in D2.
    rewrite del_ins, bit_ins_eq in D1 by (rewrite run_length; lia).
    rewrite del_ins, bit_ins_eq in D2 by (rewrite run_length; lia).
    specialize (D1 ltac:(lia)). specialize (D2 ltac:(lia)). lia.
Qed.

Lemma pruned_lower n c V k : c < n -> width n V -> V (unit_vec n c) ->
  lower_bound (n - 1) (pruned n c V) k -> lower_bound n V k.
Proof.
  intros Hc W Hu L.
  apply (huffman_lower_bound n V [(c, (pruned n c V, k))] k); auto.
  - constructor; auto. constructor.
  - intros c' P b [E|[]]. injection E as <- <- <-. split; auto. split; auto. split; auto.
    intros y (x & Hx & ->). pose proof (up_reach_in _ _ _ Hx) as Vx. rewrite del_length by (rewrite (W _ Vx); auto).
    split. now rewrite (W _ Vx). rewrite <- (up_reach_bit n c V x) by auto. rewrite ins_del; auto.
    now rewrite (W _ Vx).
  - unfold kraft; simpl. intros k' Hk'. apply (Nat.pow_le_mono_r_iff 2); lia.
Qed.

(* ---------- finished graded sets are chains ---------- *)

Lemma chain_channels n V w : graded n V -> one_per_weight V -> w <= n ->
  exists cs, length cs = w /\ NoDup cs /\ (forall c, In c cs -> c < n) /\
    forall x, V x -> weight x <= w -> forall i, bit x i = true <-> In i (firstn (weight x) cs).
Proof.
  intros G O. pose proof G as (H1 & _ & H3 & H4). induction w as [|w IH]; intros Hw.
  - exists []. split; [auto|split; [constructor|split; [intros ? []|]]].
    intros x Hx Hx0 i. assert (E : weight x = 0) by lia. rewrite (proj1 (weight_zero x) E), firstn_nil.
    simpl. split; [discriminate|tauto].
  - destruct IH as (cs & L & N & B & H); [lia|].
    destruct (graded_weight n V w G ltac:(lia)) as (x & Hx & Ex).
    destruct (H3 x Hx ltac:(lia)) as (y & Hy & C). pose proof (covers_weight _ _ C) as Wy.
    destruct C as (c & Hc & Bc & Ey).
    assert (Hn : ~ In c cs).
    { intros X. assert (bit x c = true); [|congruence]. apply H; auto; [lia|].
      rewrite Ex, <- L. now rewrite firstn_all. }
    exists (cs ++ [c]). split; [|split; [|split; [|intros x0 Hx0 Hw0 i; split]]].
    + rewrite app_length; simpl; lia.
    + apply Permutation_NoDup with (l := c :: cs). apply Permutation_cons_append. now constructor.
    + intros d Hd. apply in_app_or in Hd. destruct Hd as [Hd|[<-|[]]]; auto. now rewrite <- (H1 _ Hx).
    + intros Hb. destruct (le_lt_dec (weight x0) w) as [Hl|Hl].
      * rewrite firstn_app. apply in_or_app. left. apply H; auto.
      * assert (weight x0 = S w) by lia. assert (x0 = y) by (apply O; auto; lia). subst x0.
        rewrite firstn_all2 by (rewrite app_length; simpl; lia). apply in_or_app.
        rewrite Ey, bit_upd in Hb. destruct (i =? c) eqn:E. apply Nat.eqb_eq in E. right; left; auto.
        simpl in Hb. left. apply H in Hb; auto; [|lia]. rewrite Ex, <- L, firstn_all in Hb. auto.
    + intros Hi. destruct (le_lt_dec (weight x0) w) as [Hl|Hl].
      * rewrite firstn_app in Hi. replace (weight x0 - length cs) with 0 in Hi by lia. simpl in Hi.
        rewrite app_nil_r in Hi. apply H; auto.
      * assert (weight x0 = S w) by lia. assert (x0 = y) by (apply O; auto; lia). subst x0.
        rewrite firstn_all2 in Hi by (rewrite app_length; simpl; lia). apply in_app_or in Hi.
        rewrite Ey, bit_upd. apply Nat.ltb_lt in Hc. rewrite Hc.
        destruct (i =? c) eqn:E; auto. simpl. destruct Hi as [Hi|[<-|[]]].
        -- apply H; auto; [lia|]. rewrite Ex, <- L, firstn_all. auto.
        -- rewrite Nat.eqb_refl in E. discriminate.
Qed.

Lemma NoDup_In_firstn {A} (l : list A) (N : NoDup l) i k d : i < length l ->
  (In (nth i l d) (firstn k l) <-> i < k).
Proof.
  intros Hi. split.
  - intros H. apply (In_nth _ _ d) in H. destruct H as (j & Hj & E).
    rewrite firstn_length in Hj. assert (nth j (firstn k l) d = nth j l d).
    { rewrite <- (firstn_skipn k l) at 2. rewrite app_nth1; auto. rewrite firstn_length; lia. }
    rewrite H in E. assert (j = i) by (eapply NoDup_nth; eauto; lia). lia.
  - intros H. replace (nth i l d) with (nth i (firstn k l) d).
    apply nth_In. rewrite firstn_length; lia.
    rewrite <- (firstn_skipn k l) at 2. rewrite app_nth1; auto. rewrite firstn_length; lia.
Qed.

Lemma chain_sorted n V : graded n V -> one_per_weight V ->
  exists p, is_perm n p /\ forall x, V x -> sorted (permute p x).
Proof.
  intros G O. destruct (chain_channels n V n G O ltac:(lia)) as (cs & L & N & B & H).
  assert (P : is_perm n (rev cs)).
  { apply is_perm_intro. now rewrite rev_length. now apply NoDup_rev. intros i Hi. apply B. now apply in_rev. }
  exists (rev cs). split; auto. intros x Hx i j Hij Hj Hb.
  rewrite permute_length, rev_length in Hj.
  rewrite bit_permute in * by (rewrite rev_length; lia).
  pose proof G as (H1 & _). pose proof (weight_le x) as Hle. rewrite (H1 _ Hx) in Hle.
  apply H in Hb; auto. apply H; auto.
  rewrite rev_nth in * by lia.
  apply NoDup_In_firstn in Hb; auto; [|lia]. apply NoDup_In_firstn; auto; lia.
Qed.

Lemma sorted_same_weight x y : length x = length y -> sorted x -> sorted y -> weight x = weight y -> x = y.
Proof.
  intros L Sx Sy W.
  assert (G : vle x y \/ vle y x).
  { destruct (existsb (fun i => bit x i && negb (bit y i)) (seq 0 (length x))) eqn:E.
    - right. apply existsb_exists in E. destruct E as (i & Hi & Hb). apply in_seq in Hi.
      apply andb_true_iff in Hb. destruct Hb as [Hb1 Hb2]. apply negb_true_iff in Hb2.
      split; auto. intros j Hj.
      assert (j < length y). { destruct (lt_dec j (length y)); auto. rewrite bit_out in Hj by lia. discriminate. }
      destruct (le_lt_dec i j). apply Sx with (i := i); auto; lia.
      rewrite (Sy j i) in Hb2; auto; try lia.
    - left. split; auto. intros j Hj. destruct (bit y j) eqn:Ey; auto. exfalso.
      assert (existsb (fun i => bit x i && negb (bit y i)) (seq 0 (length x)) = true); [|congruence].
      apply existsb_exists. exists j. rewrite Hj, Ey. split; auto. apply in_seq.
      destruct (lt_dec j (length x)); [lia|]. rewrite bit_out in Hj by lia. discriminate. }
  destruct G as [G|G]; [|symmetry]; apply vle_weight_eq; auto.
Qed.

Lemma sorted_one_per_weight n V p : is_perm n p -> width n V ->
  (forall x, V x -> sorted (permute p x)) -> one_per_weight V.
Proof.
  intros P W H x y Hx Hy E.
  assert (permute p x = permute p y).
  { apply sorted_same_weight; auto. now rewrite !permute_length. rewrite !(permute_weight n); auto. }
  rewrite <- (permute_inv n p x), <- (permute_inv n p y), H0; auto.
Qed.

(* one_per_weight is the same as "some relabelling sorts every member" *)
Lemma one_per_weight_iff n V : graded n V ->
  (one_per_weight V <-> exists p, is_perm n p /\ forall x, V x -> sorted (permute p x)).
Proof.
  intros G. split. now apply chain_sorted. intros (p & P & H). destruct G as (W & _).
  eapply sorted_one_per_weight; eauto.
Qed.

(* ---------- all inputs and sorting networks ---------- *)

Lemma graded_run n V net : net_ok n net -> graded n V -> graded n (image (run net) V).
Proof.
  intros N; revert V; induction N as [|c net Hc N IH]; intros V G.
  - eapply graded_same; [|exact G]. apply same_set_sym. now apply image_id_ext.
  - eapply graded_same; [apply (image_comp (exch c) (run net))|]. apply IH. now apply graded_exch.
Qed.

Lemma all_inputs_permute n p : is_perm n p -> same_set (image (permute p) (all_inputs n)) (all_inputs n).
Proof.
  intros P y; split.
  - intros (x & Hx & ->). unfold all_inputs. rewrite permute_length. now apply is_perm_length.
  - intros Hy. exists (permute (inv_perm n p) y). split. unfold all_inputs. now rewrite permute_length, inv_perm_length.
    symmetry. now apply permute_inv'.
Qed.

Lemma sorts01_finishes n net : sorts01 n net -> finishes n (all_inputs n) net.
Proof.
  intros (N & H). split; auto. intros y y' (x & Hx & ->) (x' & Hx' & ->) E.
  apply sorted_same_weight; auto. rewrite !run_length. congruence.
Qed.

Lemma finishes_sorts01 n net : finishes n (all_inputs n) net ->
  exists net', sorts01 n net' /\ length net' = length net.
Proof.
  intros (N & O).
  assert (G : graded n (image (run net) (all_inputs n))) by (apply graded_run; auto; apply graded_all).
  destruct (chain_sorted _ _ G O) as (p & P & H).
  set (q := inv_perm n p). assert (Q : is_perm n q) by now apply inv_perm_is_perm.
  exists (relabel (fun i => nth i q 0) net). rewrite relabel_length. split; auto.
  split. now apply relabel_ok. intros x Hx.
  (* run (relabel q net) x = permute p (run net (permute q x)) *)
  assert (E : run (relabel (fun i => nth i q 0) net) x = permute p (run net (permute q x))).
  { rewrite <- (run_permute n q net x) by auto. rewrite (permute_inv' n); auto. now rewrite run_length. }
  rewrite E. apply H. exists (permute q x). split; auto. unfold all_inputs. rewrite permute_length.
  now apply is_perm_length.
Qed.

(* zero-one principle *)
Lemma exchN_length c x : length (exchN c x) = length x.
Proof. unfold exchN. now rewrite !upd_length. Qed.

Lemma runN_length net x : length (runN net x) = length x.
Proof. revert x; induction net; intros; simpl; auto. rewrite IHnet. apply exchN_length. Qed.

Lemma map_upd {A B} (f : A -> B) l i v : map f (upd l i v) = upd (map f l) i (f v).
Proof. revert i; induction l; intros [|i]; simpl; auto. f_equal; auto. Qed.

Lemma exchN_mono (f : nat -> bool) c x :
  (forall a b, a <= b -> f a = true -> f b = true) -> cmp_ok (length x) c ->
  map f (exchN c x) = exch c (map f x).
Proof.
  intros M (H1 & H2 & H3). unfold exchN, exch. rewrite !map_upd.
  assert (B : forall i, i < length x -> bit (map f x) i = f (nth i x 0)).
  { intros i Hi. unfold bit. now apply nth_map_lt. }
  rewrite !B by auto.
  set (a := nth (fst c) x 0). set (b := nth (snd c) x 0).
  assert (f (Nat.min a b) = f a && f b /\ f (Nat.max a b) = f a || f b) as [-> ->]; auto.
  destruct (le_lt_dec a b).
  - rewrite Nat.min_l, Nat.max_r by lia. specialize (M a b l). destruct (f a), (f b); auto.
    discriminate M; auto.
  - rewrite Nat.min_r, Nat.max_l by lia. specialize (M b a ltac:(lia)). destruct (f a), (f b); auto.
    discriminate M; auto.
Qed.

Lemma runN_mono (f : nat -> bool) n net x :
  (forall a b, a <= b -> f a = true -> f b = true) -> net_ok n net -> length x = n ->
  map f (runN net x) = run net (map f x).
Proof.
  intros M N; revert x; induction N as [|c net Hc N IH]; intros x L; auto.
  simpl. rewrite IH by now rewrite exchN_length. unfold run. simpl. rewrite exchN_mono; auto. now rewrite L.
Qed.

Lemma zero_one n net : sorting_network n net <-> sorts01 n net.
Proof.
  split; intros (N & H); split; auto.
  - intros x L i j Hij Hj Hb.
    set (f := fun v : nat => 1 <=? v). set (xn := map (fun b : bool => if b then 1 else 0) x).
    assert (Fx : map f xn = x).
    { unfold xn. rewrite map_map. rewrite <- (map_id x) at 2. apply map_ext. intros []; auto. }
    assert (Lx : length xn = n) by (unfold xn; now rewrite map_length).
    rewrite <- Fx in *. rewrite <- (runN_mono f n) in * by
      (auto; unfold f; intros a b Hab Hf; apply Nat.leb_le; apply Nat.leb_le in Hf; lia).
    rewrite map_length in Hj. specialize (H xn Lx i j Hij Hj).
    unfold bit in *. rewrite nth_map_lt with (d := 0) in * by lia. unfold f in *.
    apply Nat.leb_le. apply Nat.leb_le in Hb. lia.
  - intros x L i j Hij Hj. apply Nat.nlt_ge. intros Hlt.
    set (v := runN net x) in *. set (f := fun t : nat => nth i v 0 <=? t).
    assert (M : forall a b, a <= b -> f a = true -> f b = true).
    { unfold f; intros a b Hab Hf; apply Nat.leb_le; apply Nat.leb_le in Hf; lia. }
    pose proof (H (map f x) ltac:(now rewrite map_length) i j Hij) as S1.
    rewrite <- (runN_mono f n) in S1 by auto. fold v in S1. rewrite map_length in S1.
    specialize (S1 Hj). unfold bit in S1. rewrite !nth_map_lt with (d := 0) in S1 by lia.
    unfold f in S1. rewrite Nat.leb_refl in S1. specialize (S1 eq_refl). apply Nat.leb_le in S1. lia.
Qed.

Lemma minimal_size_optimum n k : minimal_size n k <-> optimum n (all_inputs n) k.
Proof.
  split.
  - intros ((net & Hs & L) & H). split.
    + intros net' F. destruct (finishes_sorts01 n net' F) as (net2 & S2 & <-). apply H. now apply zero_one.
    + exists net. split; [|lia]. apply sorts01_finishes. now apply zero_one.
  - intros (Lo & (net & F & Up)).
    assert (H : forall net', sorting_network n net' -> k <= length net').
    { intros net' Hn. apply Lo. apply sorts01_finishes. now apply zero_one. }
    split; auto. destruct (finishes_sorts01 n net F) as (net2 & S2 & E).
    exists net2. split. now apply zero_one. specialize (H net2 ltac:(now apply zero_one)). lia.
Qed.

Lemma lower_size_all n k :
  lower_bound n (all_inputs n) k <-> (forall net, sorting_network n net -> k <= length net).
Proof.
  split.
  - intros L net H. apply L. apply sorts01_finishes. now apply zero_one.
  - intros H net F. destruct (finishes_sorts01 n net F) as (net2 & S2 & <-). apply H. now apply zero_one.
Qed.

Lemma derived_graded n V : derived n V -> graded n V.
Proof.
  induction 1 as [V S|V W c H IH Hc S|V W inv p H IH P S].
  - apply (graded_same n (all_inputs n)). now apply same_set_sym. apply graded_all.
  - apply (graded_same n (image (exch c) V)). now apply same_set_sym. now apply graded_exch.
  - apply (graded_same n (image (sym inv p) V)). now apply same_set_sym. now apply graded_sym.
Qed.
