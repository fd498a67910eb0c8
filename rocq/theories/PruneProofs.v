(* prune_extremal_channel_into: the work list computes exactly the reachable part. *)
From Coq Require Import List Arith Bool Lia Permutation.
Import ListNotations.
From Verif Require Import Spec Vec Net Graded Bits Util OutputSetModel OutputSetProofs.

(* ---------- the target index ---------- *)

Lemma idx_del n c z : length z = n -> c < n ->
  Nat.lor (Nat.land (idx z) (2 ^ c - 1))
          (Nat.land (Nat.shiftr (idx z) 1) (Nat.lxor (2 ^ (n - 1) - 1) (2 ^ c - 1))) = idx (del c z).
Proof.
  intros L Hc. apply nat_ext_bits. intros i.
  rewrite Nat.lor_spec, !Nat.land_spec, Nat.lxor_spec, Nat.shiftr_spec', !ones_testbit, !testbit_idx, bit_del.
  unfold skip. destruct (i <? c) eqn:E.
  - apply Nat.ltb_lt in E. assert (F : (i <? n - 1) = true) by (apply Nat.ltb_lt; lia). rewrite F. simpl.
    now rewrite andb_true_r, andb_false_r, orb_false_r.
  - apply Nat.ltb_ge in E. rewrite andb_false_r, xorb_false_r. simpl. replace (i + 1) with (S i) by lia.
    destruct (i <? n - 1) eqn:F. now rewrite andb_true_r.
    rewrite andb_false_r. apply Nat.ltb_ge in F. symmetry. apply bit_out. lia.
Qed.

Lemma shiftr_all n : 0 < n -> Nat.shiftr (2 ^ n - 1) 1 = 2 ^ (n - 1) - 1.
Proof.
  intros H. apply nat_ext_bits. intros i. rewrite Nat.shiftr_spec', !ones_testbit.
  destruct (i <? n - 1) eqn:E.
  - apply Nat.ltb_lt in E. apply Nat.ltb_lt. lia.
  - apply Nat.ltb_ge in E. apply Nat.ltb_ge. lia.
Qed.

Lemma lxor_flip n pol x : length x = n ->
  Nat.lxor (idx x) ((2 ^ n - 1) * Nat.b2n pol) = idx (complement_if pol x).
Proof.
  intros L. destruct pol; simpl Nat.b2n; simpl complement_if.
  - rewrite Nat.mul_1_r. now apply lxor_all_mask.
  - now rewrite Nat.mul_0_r, Nat.lxor_0_r.
Qed.

Lemma idx_set z b : b < length z -> Nat.lor (idx z) (2 ^ b) = idx (upd z b true).
Proof.
  intros H. apply nat_ext_bits. intros i. rewrite Nat.lor_spec, !testbit_idx, pow2_testbit, bit_upd.
  rewrite (Nat.eqb_sym i b). apply Nat.ltb_lt in H. rewrite H, andb_true_r.
  destruct (b =? i); auto using orb_true_r, orb_false_r.
Qed.

Lemma complement_if_inj p x y : complement_if p x = complement_if p y -> x = y.
Proof. intros H. apply (f_equal (complement_if p)) in H. now rewrite !complement_if_involutive in H. Qed.

Section Prune.
Variables (s : OutputSet) (n c : nat) (pol : bool).
Hypothesis Hn : channels s = n.
Hypothesis Hw : wf s.
Hypothesis Hc : c < n.

Let V' : vset := image (complement_if pol) (vs s).
Let u : vec := unit_vec n c.
Definition tix (z : vec) : nat := idx (complement_if pol (del c z)).

Lemma tix_lt z : length z = n -> tix z < 2 ^ (n - 1).
Proof.
  intros L. unfold tix. replace (n - 1) with (length (complement_if pol (del c z))). apply idx_lt.
  rewrite complement_if_length, del_length; lia.
Qed.

Lemma tix_inj y z : length y = n -> length z = n -> bit y c = true -> bit z c = true -> tix y = tix z -> y = z.
Proof.
  intros Ly Lz By Bz E. unfold tix in E. apply idx_inj in E.
  - apply complement_if_inj in E. apply (del_inj c); congruence || lia.
  - rewrite !complement_if_length, !del_length; lia.
Qed.

Lemma V'_mem z : length z = n -> (V' z <-> bget (bitmap s) (idx (complement_if pol z)) = true).
Proof.
  intros L. unfold V'. split.
  - intros (x & [Lx Hx] & ->). now rewrite complement_if_involutive.
  - intros H. exists (complement_if pol z). rewrite complement_if_involutive. split; auto. split; auto.
    rewrite complement_if_length. congruence.
Qed.

(* the body of the inner loop, on vectors *)
Definition inner_step (y : vec) (st : list bool * list nat) (b : nat) : option (list bool * list nat) :=
  let '(target, queue) := st in
  let z := upd y b true in
  if bget (bitmap s) (idx (complement_if pol z)) && negb (bget target (tix z))
  then if MAX_BITMAP_SIZE <=? length queue then None
       else Some (upd target (tix z) true, idx z :: queue)
  else Some st.

Lemma prune_inner_eq y st : length y = n ->
  prune_inner (bitmap s) n (2 ^ c - 1) (Nat.lxor (2 ^ (n - 1) - 1) (2 ^ c - 1))
    ((2 ^ n - 1) * Nat.b2n pol) ((2 ^ (n - 1) - 1) * Nat.b2n pol) (idx y) st =
  fold_opt (inner_step y) (seq 0 n) st.
Proof.
  intros L. unfold prune_inner. apply fold_opt_ext. intros [t q] b Hb. apply in_seq in Hb.
  unfold inner_step. cbv zeta. rewrite idx_set by lia.
  rewrite (idx_del n c) by (rewrite ?upd_length; auto).
  rewrite (lxor_flip n pol) by (now rewrite upd_length).
  rewrite (lxor_flip (n - 1) pol) by (rewrite del_length; rewrite upd_length; lia).
  reflexivity.
Qed.

Definition room (t : list bool) (q : list nat) : nat := length q + (2 ^ (n - 1) - weight t).

Lemma inner_spec y : length y = n -> bit y c = true -> 2 ^ (n - 1) < MAX_BITMAP_SIZE ->
  forall l t q, (forall b, In b l -> b < n) -> length t = 2 ^ (n - 1) -> room t q <= 2 ^ (n - 1) ->
  exists t' new, fold_opt (inner_step y) l (t, q) = Some (t', new ++ q) /\
    length t' = 2 ^ (n - 1) /\ room t' (new ++ q) = room t q /\
    (forall j, bget t j = true -> bget t' j = true) /\
    (forall b, In b l -> V' (upd y b true) -> bget t' (tix (upd y b true)) = true) /\
    (forall i, In i new -> exists b, In b l /\ i = idx (upd y b true) /\ V' (upd y b true) /\
                                   bget t' (tix (upd y b true)) = true) /\
    (forall j, bget t' j = true -> bget t j = true \/
       exists b, In b l /\ V' (upd y b true) /\ j = tix (upd y b true) /\ In (idx (upd y b true)) new).
Proof.
  intros Ly By Hmax. induction l as [|b l IH]; intros t q Hl Lt Hr.
  - exists t, []. simpl. split; [reflexivity|]. repeat (split; [solve [auto | intros ? []]|]). auto.
  - cbn [fold_opt]. assert (Hb : b < n) by (apply Hl; now left).
    set (z := upd y b true). assert (Lz : length z = n) by (unfold z; now rewrite upd_length).
    pose proof (tix_lt z Lz) as Hz.
    assert (Hbit : bget (bitmap s) (idx (complement_if pol z)) = true <-> V' z) by (rewrite V'_mem; tauto).
    unfold inner_step at 1. fold z.
    destruct (bget (bitmap s) (idx (complement_if pol z)) && negb (bget t (tix z))) eqn:E.
    + apply andb_true_iff in E. destruct E as [E1 E2]. apply negb_true_iff in E2.
      pose proof (weight_upd t (tix z) true ltac:(lia)) as Wt. unfold bit in Wt. unfold bget in E2.
      rewrite E2 in Wt. cbn [Nat.b2n] in Wt.
      pose proof (weight_le (upd t (tix z) true)) as Wl. rewrite upd_length in Wl.
      assert (Q : (MAX_BITMAP_SIZE <=? length q) = false).
      { apply Nat.leb_gt. unfold room in Hr. lia. }
      rewrite Q.
      destruct (IH (upd t (tix z) true) (idx z :: q)) as (t' & new & F & L' & R' & Mono & Done & New & Old).
      { intros; apply Hl; now right. } { now rewrite upd_length. }
      { unfold room in *. cbn [length]. lia. }
      exists t', (new ++ [idx z]). rewrite F. rewrite <- app_assoc. simpl app.
      assert (Hz' : bget t' (tix z) = true). { apply Mono. unfold bget. apply upd_nth_eq. lia. }
      split; [reflexivity|]. split; [auto|]. split. { rewrite R'. unfold room. cbn [length]. lia. }
      split. { intros j Hj. apply Mono. rewrite bget_upd. destruct (_ && _); auto. }
      split. { intros b' [<-|Hb'] HV; auto. }
      split. { intros i Hi. apply in_app_or in Hi. destruct Hi as [Hi|[<-|[]]].
        - destruct (New i Hi) as (b' & ? & ?). exists b'. split; auto. now right.
        - exists b. split. now left. split; [reflexivity|]. split; [now apply Hbit|auto]. }
      intros j Hj. apply Old in Hj. destruct Hj as [Hj|(b' & ? & ? & ? & ?)].
      * rewrite bget_upd in Hj. destruct ((j =? tix z) && (tix z <? length t)) eqn:F2; auto.
        apply andb_true_iff in F2. destruct F2 as [F2 _]. apply Nat.eqb_eq in F2. right. exists b.
        split. now left. split. now apply Hbit. split; auto. apply in_or_app. right. now left.
      * right. exists b'. split. now right. repeat split; auto. apply in_or_app; auto.
    + destruct (IH t q) as (t' & new & F & L' & R' & Mono & Done & New & Old); auto.
      { intros; apply Hl; now right. }
      exists t', new. rewrite F. split; [reflexivity|]. split; [auto|]. split; [auto|]. split; [auto|].
      split. { intros b' [<-|Hb'] HV; auto. fold z. fold z in HV. apply Hbit in HV. rewrite HV in E. simpl in E.
        apply negb_false_iff in E. auto. }
      split. { intros i Hi. destruct (New i Hi) as (b' & ? & ?). exists b'. split; auto. now right. }
      intros j Hj. apply Old in Hj. destruct Hj as [Hj|(b' & ? & ?)]; auto. right. exists b'. split; auto. now right.
Qed.

Definition visited (t : list bool) (y : vec) : Prop :=
  length y = n /\ bit y c = true /\ bget t (tix y) = true.

Record inv (t : list bool) (q : list nat) : Prop := {
  inv_len : length t = 2 ^ (n - 1);
  inv_room : room t q <= 2 ^ (n - 1);
  inv_start : bget t (tix u) = true;
  inv_sound : forall j, bget t j = true -> exists y, up_reach V' u y /\ j = tix y;
  inv_queue : forall i, In i q -> exists y, i = idx y /\ visited t y;
  inv_closed : forall y, visited t y -> In (idx y) q \/
                 (forall z, covers y z -> V' z -> visited t z)
}.

Lemma u_ok : length u = n /\ bit u c = true.
Proof. unfold u. rewrite unit_vec_length, bit_unit_vec, Nat.eqb_refl; auto. Qed.

Lemma reach_ok y : up_reach V' u y -> length y = n /\ bit y c = true.
Proof.
  intros H. pose proof (up_reach_vle _ _ _ H) as [L1 _]. split.
  - rewrite <- L1. apply u_ok.
  - apply (up_reach_bit n c V'); auto.
Qed.

Lemma prune_loop_spec : 2 ^ (n - 1) < MAX_BITMAP_SIZE -> forall fuel t q, room t q < fuel -> inv t q ->
  exists t', prune_loop fuel (bitmap s) n (2 ^ c - 1) (Nat.lxor (2 ^ (n - 1) - 1) (2 ^ c - 1))
      ((2 ^ n - 1) * Nat.b2n pol) ((2 ^ (n - 1) - 1) * Nat.b2n pol) (t, q) = Some t' /\ inv t' [].
Proof.
  intros Hmax. induction fuel as [|f IH]; intros t q Hf I; [lia|]. cbn [prune_loop snd fst].
  destruct q as [|i q].
  - exists t. auto.
  - destruct (inv_queue _ _ I i (or_introl eq_refl)) as (y & -> & Ly & By & Ty).
    rewrite prune_inner_eq by auto.
    assert (R0 : room t q + 1 = room t (idx y :: q)) by (unfold room; simpl; lia).
    destruct (inner_spec y Ly By Hmax (seq 0 n) t q) as (t' & new & F & L' & R' & Mono & Done & New & Old).
    { intros b Hb. apply in_seq in Hb. lia. } { apply I. } { pose proof (inv_room _ _ I). lia. }
    rewrite F. apply IH; [lia|].
    assert (VM : forall y, visited t y -> visited t' y) by (intros w (? & ? & ?); repeat split; auto).
    assert (Bz : forall b, b < n -> length (upd y b true) = n /\ bit (upd y b true) c = true).
    { intros b Hb. rewrite upd_length, bit_upd. split; auto. destruct (_ && _); auto. }
    constructor.
    + auto.
    + pose proof (inv_room _ _ I). lia.
    + apply Mono, I.
    + intros j Hj. apply Old in Hj. destruct Hj as [Hj|(b & Hb & HV & -> & _)]. now apply I.
      apply in_seq in Hb.
      destruct (inv_sound _ _ I _ Ty) as (y' & Ry & Ey).
      destruct (reach_ok _ Ry) as [Ly' By']. apply tix_inj in Ey; auto. subst y'.
      exists (upd y b true). split; auto.
      destruct (bit y b) eqn:Eb.
      * replace (upd y b true) with y; auto. rewrite <- Eb. unfold bit. symmetry. apply upd_same.
      * eapply up_step; eauto. exists b. repeat split; auto. lia.
    + intros i Hi. apply in_app_or in Hi. destruct Hi as [Hi|Hi].
      * destruct (New i Hi) as (b & Hb & -> & HV & Tz). apply in_seq in Hb.
        exists (upd y b true). split; auto. destruct (Bz b ltac:(lia)). repeat split; auto.
      * destruct (inv_queue _ _ I i (or_intror Hi)) as (w & -> & Hv). exists w. auto.
    + intros w (Lw & Bw & Tw).
      destruct (Old _ Tw) as [Tw'|(b & Hb & HV & Ej & Hin)].
      * destruct (inv_closed _ _ I w) as [[Ew|Hin]|Cl]. now repeat split.
        -- right. assert (w = y) by (apply idx_inj; [congruence|auto]). subst w.
           intros z (b & Hb & Eb & ->) HV. destruct (Bz b ltac:(lia)). repeat split; auto.
           apply Done; auto. apply in_seq. lia.
        -- left. apply in_or_app; auto.
        -- right. auto.
      * left. apply in_seq in Hb. destruct (Bz b ltac:(lia)). apply tix_inj in Ej; auto. subst w.
        apply in_or_app. auto.
Qed.

Lemma del_unit : del c u = repeat false (n - 1).
Proof.
  destruct u_ok as [Lu _]. apply vec_ext. rewrite del_length, repeat_length; lia.
  intros i Hi. rewrite del_length in Hi by lia. rewrite bit_del. unfold u. rewrite bit_unit_vec by auto.
  assert (E : (skip c i =? c) = false) by (apply Nat.eqb_neq, skip_neq). rewrite E.
  unfold bit. symmetry. apply nth_repeat.
Qed.

Lemma tix_u : tix u = (2 ^ (n - 1) - 1) * Nat.b2n pol.
Proof.
  unfold tix. rewrite del_unit. rewrite <- (lxor_flip (n - 1)) by apply repeat_length.
  assert (Z : idx (repeat false (n - 1)) = 0).
  { generalize (n - 1). induction n0 as [|k IH]; simpl; auto. lia. }
  rewrite Z. apply Nat.lxor_0_l.
Qed.

Theorem prune_spec : n <= MAX_CHANNELS -> V' u ->
  exists t, prune_extremal_channel_into s pol c (n - 1) = Some t /\ channels t = n - 1 /\ wf t /\
    same_set (vs t) (image (complement_if pol) (pruned n c V')).
Proof.
  intros HM Hu. unfold prune_extremal_channel_into. rewrite Hn.
  assert (E : (n - 1 + 1 =? n) = true) by (apply Nat.eqb_eq; lia). rewrite E. cbn [negb].
  rewrite Hw, Hn, shiftr_all by lia.
  assert (P : bget (bitmap s) (Nat.lxor (2 ^ c) ((2 ^ n - 1) * Nat.b2n pol)) = true).
  { rewrite <- (idx_unit_vec n c) by auto. rewrite lxor_flip by apply unit_vec_length.
    apply V'_mem; auto. apply unit_vec_length. }
  rewrite P. cbn [negb].
  rewrite <- tix_u. destruct u_ok as [Lu Bu]. pose proof (tix_lt u Lu) as Tu.
  set (t0 := upd (repeat false (2 ^ (n - 1))) (tix u) true).
  assert (Lt0 : length t0 = 2 ^ (n - 1)) by (unfold t0; now rewrite upd_length, repeat_length).
  assert (W0 : weight t0 = 1).
  { pose proof (weight_upd (repeat false (2 ^ (n - 1))) (tix u) true) as Q.
    rewrite repeat_length in Q. specialize (Q Tu). unfold bit in Q. rewrite nth_repeat, zero_vec_weight in Q.
    simpl in Q. unfold t0. lia. }
  assert (G0 : forall j, bget t0 j = true <-> j = tix u).
  { intros j. unfold t0. rewrite bget_upd, repeat_length. apply Nat.ltb_lt in Tu. rewrite Tu, andb_true_r.
    destruct (j =? tix u) eqn:F. apply Nat.eqb_eq in F; tauto.
    unfold bget. rewrite nth_repeat. apply Nat.eqb_neq in F. split; [discriminate|tauto]. }
  assert (Room : room t0 [2 ^ c] = 2 ^ (n - 1)).
  { unfold room. rewrite W0. simpl. pose proof (Nat.pow_nonzero 2 (n - 1)). lia. }
  assert (Hmax : 2 ^ (n - 1) < MAX_BITMAP_SIZE).
  { unfold MAX_BITMAP_SIZE. apply Nat.pow_lt_mono_r. lia. unfold MAX_CHANNELS in *. lia. }
  destruct (prune_loop_spec Hmax (2 ^ n + 1) t0 [2 ^ c]) as (t & F & I).
  { rewrite Room. pose proof (Nat.pow_le_mono_r 2 (n - 1) n ltac:(lia) ltac:(lia)). lia. }
  { constructor; auto.
    - lia.
    - now apply G0.
    - intros j Hj. apply G0 in Hj. exists u. split; auto. now constructor.
    - intros i [<-|[]]. exists u. split. symmetry. now apply idx_unit_vec. repeat split; auto. now apply G0.
    - intros y (Ly & By & Ty). apply G0 in Ty. left. left. apply tix_inj in Ty; auto. subst y.
      symmetry. now apply idx_unit_vec. }
  rewrite <- tix_u in F. rewrite F. exists (mkOutputSet (n - 1) t). split; [reflexivity|]. split; [reflexivity|].
  split. { unfold wf. simpl. apply I. }
  (* everything reachable is visited *)
  assert (Compl : forall y, up_reach V' u y -> visited t y).
  { induction 1 as [|x y R IHR C Hy].
    - repeat split; auto. apply I.
    - destruct (inv_closed _ _ I x IHR) as [[]|Cl]; auto. }
  intros x. unfold vs. cbn [channels bitmap]. split.
  - intros [Lx Hx]. destruct (inv_sound _ _ I _ Hx) as (y & Ry & Ey).
    destruct (reach_ok _ Ry) as [Ly By]. exists (del c y). split. exists y; auto.
    unfold tix in Ey. apply idx_inj in Ey; auto. rewrite complement_if_length, del_length; lia.
  - intros (w & (y & Ry & ->) & ->). destruct (reach_ok _ Ry) as [Ly By]. split.
    rewrite complement_if_length, del_length; lia. apply (Compl y Ry).
Qed.

(* the second assertion: exactly the non-extremal channels are rejected *)
Theorem prune_none tch : n <= MAX_CHANNELS ->
  (prune_extremal_channel_into s pol c tch = None <-> tch + 1 <> n \/ ~ V' u).
Proof.
  intros HM. destruct (Nat.eq_dec (tch + 1) n) as [E|E].
  - replace tch with (n - 1) in * by lia.
    destruct (bool_dec (bget (bitmap s) (idx (complement_if pol u))) true) as [B|B].
    + assert (Hu : V' u) by (apply V'_mem; auto; apply u_ok).
      destruct (prune_spec HM Hu) as (t & F & _). rewrite F. split; [discriminate|]. intros [?|?]; tauto.
    + assert (Hu : ~ V' u) by (rewrite V'_mem by apply u_ok; auto).
      split; auto. intros _. unfold prune_extremal_channel_into. rewrite Hn.
      assert (E' : (n - 1 + 1 =? n) = true) by (apply Nat.eqb_eq; lia). rewrite E'. cbn [negb].
      rewrite Hw, Hn.
      assert (P : bget (bitmap s) (Nat.lxor (2 ^ c) ((2 ^ n - 1) * Nat.b2n pol)) = false).
      { rewrite <- (idx_unit_vec n c) by auto. rewrite lxor_flip by apply unit_vec_length.
        fold u. destruct (bget _ _); auto. congruence. }
      rewrite P. reflexivity.
  - split; auto. intros _. unfold prune_extremal_channel_into. rewrite Hn.
    apply Nat.eqb_neq in E. now rewrite E.
Qed.
End Prune.

(* ---------- in terms of the specification ---------- *)

Lemma complement_repeat b n : complement (repeat b n) = repeat (negb b) n.
Proof. unfold complement. induction n; simpl; congruence. Qed.

Lemma complement_upd x i v : complement (upd x i v) = upd (complement x) i (negb v).
Proof. apply map_upd. Qed.

Lemma unit_vec_upd n c : c < n -> unit_vec n c = upd (repeat false n) c true.
Proof.
  intros H. apply vec_ext. rewrite unit_vec_length, upd_length, repeat_length; auto.
  intros i Hi. rewrite bit_unit_vec by auto. rewrite bit_upd, repeat_length.
  apply Nat.ltb_lt in H. rewrite H, andb_true_r. destruct (i =? c); auto. unfold bit. now rewrite nth_repeat.
Qed.

Lemma lone_eq n pol c : c < n -> lone n pol c = complement_if pol (unit_vec n c).
Proof.
  intros H. rewrite unit_vec_upd by auto. unfold lone. destruct pol; simpl; auto.
  now rewrite complement_upd, complement_repeat.
Qed.

Lemma complement_del c x : complement (del c x) = del c (complement x).
Proof. revert c; induction x as [|a x IH]; intros [|c]; simpl; auto. f_equal. apply IH. Qed.

Lemma complement_if_del p c x : complement_if p (del c x) = del c (complement_if p x).
Proof. destruct p; simpl; auto. apply complement_del. Qed.

Lemma complement_if_upd p x i v : complement_if p (upd x i v) = upd (complement_if p x) i (xorb p v).
Proof. destruct p; simpl. rewrite complement_upd. destruct v; auto. destruct v; auto. Qed.

Lemma bit_complement_if p x i : i < length x -> bit (complement_if p x) i = xorb p (bit x i).
Proof. intros H. destruct p; simpl. rewrite bit_complement by auto. destruct (bit x i); auto. destruct (bit x i); auto. Qed.

Lemma flip_reach_up V pol x0 x : flip_reach V pol x0 x <->
  up_reach (image (complement_if pol) V) (complement_if pol x0) (complement_if pol x).
Proof.
  split.
  - induction 1 as [H|x i R IH Hi Hb HV].
    + constructor. exists x0; auto.
    + eapply up_step; eauto.
      * exists i. rewrite complement_if_length, bit_complement_if, Hb, complement_if_upd by auto.
        split; auto. split. now destruct pol. f_equal. now destruct pol.
      * exists (upd x i (negb pol)); auto.
  - intros H. remember (complement_if pol x) as y eqn:E. revert x E.
    induction H as [H|y z R IH C Hz]; intros x E.
    + apply complement_if_inj in E. subst. destruct H as (w & Hw & E). apply complement_if_inj in E. subst. now constructor.
    + assert (x = complement_if pol z) by (rewrite E; now rewrite complement_if_involutive). subst x. clear E.
      destruct C as (i & Hi & Hb & ->). specialize (IH (complement_if pol y)).
      rewrite complement_if_involutive in IH. specialize (IH eq_refl).
      rewrite complement_if_upd. replace (xorb pol true) with (negb pol) by now destruct pol.
      apply flip_step; auto.
      * now rewrite complement_if_length.
      * rewrite bit_complement_if, Hb by auto. apply xorb_false_r.
      * destruct Hz as (w & HVw & E). replace (negb pol) with (xorb pol true) by now destruct pol.
        rewrite <- complement_if_upd, E, complement_if_involutive. auto.
Qed.

Definition pruned_pol (n c : nat) (pol : bool) (V : vset) : vset :=
  image (complement_if pol) (pruned n c (image (complement_if pol) V)).

Lemma pruned_pol_flip n c pol V : c < n ->
  same_set (pruned_pol n c pol V) (image (del c) (flip_reach V pol (lone n pol c))).
Proof.
  intros Hc z. unfold pruned_pol, pruned. rewrite lone_eq by auto. split.
  - intros (w & (y & Ry & ->) & ->). exists (complement_if pol y). split.
    apply flip_reach_up. now rewrite !complement_if_involutive. apply complement_if_del.
  - intros (x & Rx & ->). apply flip_reach_up in Rx. rewrite complement_if_involutive in Rx.
    exists (complement_if pol (del c x)). rewrite complement_if_involutive. split; auto.
    exists (complement_if pol x). split; auto. apply complement_if_del.
Qed.

Lemma lone_mem V n pol c : c < n -> (V (lone n pol c) <-> image (complement_if pol) V (unit_vec n c)).
Proof.
  intros Hc. rewrite lone_eq by auto. split.
  - intros H. exists (complement_if pol (unit_vec n c)). split; auto. now rewrite complement_if_involutive.
  - intros (x & Hx & E). now rewrite E, complement_if_involutive.
Qed.

Lemma prune_extremal_spec s pol c : wf s -> c < channels s -> channels s <= MAX_CHANNELS ->
  vs s (lone (channels s) pol c) ->
  exists t, prune_extremal_channel_into s pol c (channels s - 1) = Some t /\
    channels t = channels s - 1 /\ wf t /\
    same_set (vs t) (image (del c) (flip_reach (vs s) pol (lone (channels s) pol c))).
Proof.
  intros W Hc HM He.
  destruct (prune_spec s (channels s) c pol eq_refl W Hc HM) as (t & F & Ct & Wt & S).
  { apply lone_mem; auto. }
  exists t. split; [auto|]. split; [auto|]. split; [auto|].
  eapply same_set_trans; [exact S|]. now apply pruned_pol_flip.
Qed.

Lemma prune_extremal_none s pol c tch : wf s -> c < channels s -> channels s <= MAX_CHANNELS ->
  (prune_extremal_channel_into s pol c tch = None <->
   tch + 1 <> channels s \/ ~ vs s (lone (channels s) pol c)).
Proof.
  intros W Hc HM. rewrite (prune_none s (channels s) c pol eq_refl W Hc tch HM), lone_mem; tauto.
Qed.

Lemma channel_is_extremal_lone s pol c : wf s -> c < channels s ->
  (channel_is_extremal s pol c = true <-> vs s (lone (channels s) pol c)).
Proof. intros W H. rewrite channel_is_extremal_spec by auto. unfold extremal_vec. now rewrite lone_eq. Qed.
