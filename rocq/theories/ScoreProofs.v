(* The complement of the partition size gives the reversed order: the scores compared are of at most
   MAX_CHANNELS, and the run is the one of CanonModel.v. *)
From Coq Require Import List Arith Bool ZArith Lia.
Import ListNotations.
From Verif Require Import Spec Vec Net Bits Util OutputSetModel OutputSetProofs CountProofs SubsumeModel CanonModel
  CanonBits ScoreModel.

Lemma not64_val x : (Z.of_nat x < 2 ^ 64)%Z -> not64 x = (2 ^ 64 - 1 - Z.of_nat x)%Z.
Proof.
  intros H. unfold not64, Z.lnot. symmetry. apply (Z.mod_unique _ _ (-1)); [left|]; lia.
Qed.

Lemma not64_cmp x y : (Z.of_nat x < 2 ^ 64)%Z -> (Z.of_nat y < 2 ^ 64)%Z -> Z.compare (not64 x) (not64 y) = Nat.compare y x.
Proof.
  intros Hx Hy. rewrite !not64_val by auto. destruct (Nat.compare_spec y x).
  - apply Z.compare_eq_iff. lia.
  - apply Z.compare_lt_iff. lia.
  - apply Z.compare_gt_iff. lia.
Qed.

(* ---------- the sizes ---------- *)

Definition small (c : Cand) : Prop := snd (c_score c) <= MAX_CHANNELS.

Lemma small_lt x : x <= MAX_CHANNELS -> (Z.of_nat x < 2 ^ 64)%Z.
Proof. unfold MAX_CHANNELS. intros H. change (2 ^ 64)%Z with 18446744073709551616%Z. lia. Qed.

Lemma filter_or_le (f g : nat -> bool) ch l : NoDup l -> (forall i, i <> ch -> g i = f i) ->
  length (filter g l) <= S (length (filter f l)).
Proof.
  intros N E. induction N as [|a l I N IH]; simpl; auto. destruct (Nat.eq_dec a ch) as [->|D].
  - assert (Q : filter g l = filter f l).
    { apply filter_ext_in. intros i J. apply E. intros ->. auto. }
    rewrite Q. destruct (g ch), (f ch); simpl; lia.
  - rewrite (E a D). destruct (f a); simpl; lia.
Qed.

Lemma count_lor m ch : count_ones (Nat.lor m (2 ^ ch)) <= S (count_ones m).
Proof.
  set (k := S (Nat.max (Nat.log2 m) ch)).
  assert (Hm : m < 2 ^ k).
  { destruct (Nat.eq_dec m 0) as [->|]. apply Nat.neq_0_lt_0, Nat.pow_nonzero; lia.
    apply Nat.log2_lt_pow2; lia. }
  assert (Hc : 2 ^ ch < 2 ^ k) by (apply Nat.pow_lt_mono_r; lia).
  assert (Hl : Nat.lor m (2 ^ ch) < 2 ^ k).
  { destruct (Nat.eq_dec (Nat.lor m (2 ^ ch)) 0) as [E|]. rewrite E. lia.
    apply Nat.log2_lt_pow2; [lia|]. rewrite Nat.log2_lor, Nat.log2_pow2 by lia. lia. }
  rewrite (count_ones_bits k _ Hl), (count_ones_bits k _ Hm). unfold bits. apply (filter_or_le _ _ ch). apply seq_NoDup.
  intros i D. rewrite Nat.lor_spec, Nat.pow2_bits_false by auto. apply orb_false_r.
Qed.

Lemma cut_small l : forall fingerprint mask id e, In e (cut_parts fingerprint mask id l) ->
  count_ones (fst e) <= count_ones mask + length l.
Proof.
  induction l as [|(f, ch) r IH]; intros fingerprint mask id e I; cbn [cut_parts length] in *.
  - destruct I as [<-|[]]. cbn [fst]. lia.
  - destruct (fingerprint =? f).
    + apply IH in I. pose proof (count_lor mask ch). lia.
    + destruct I as [<-|I]; [cbn [fst]; lia|]. apply IH in I. pose proof (count_lor 0 ch).
      assert (count_ones 0 = 0) by reflexivity. lia.
Qed.

Lemma split_small f chs id ps fps : split_part f chs id = Some (ps, fps) ->
  forall e, In e ps -> count_ones (fst e) <= length fps.
Proof.
  unfold split_part. set (l := isort pair_leb (map (fun ch => (f ch, ch)) chs)). clearbody l.
  destruct l as [|a r] eqn:E; [discriminate|]. rewrite <- E. intros H. injection H as <- <-. intros e I.
  apply cut_small in I. rewrite map_length. assert (count_ones 0 = 0) by reflexivity. lia.
Qed.

Lemma refine_small f : forall parts id ps fps, refine_parts f parts id = Some (ps, fps) ->
  forall e, In e ps -> count_ones (fst e) <= length fps.
Proof.
  induction parts as [|a parts IH]; intros id ps fps H e I; cbn [refine_parts] in H.
  - injection H as <- <-. destruct I.
  - destruct (split_part _ _ _) as [(p1, f1)|] eqn:E1; [|discriminate].
    destruct (refine_parts _ _ _) as [(p2, f2)|] eqn:E2; [|discriminate]. injection H as <- <-. rewrite app_length.
    apply in_app_or in I. destruct I as [I|I].
    + pose proof (split_small _ _ _ _ _ E1 _ I). lia.
    + pose proof (IH _ _ _ E2 _ I). lia.
Qed.

Lemma sort_small c c' : (forall e, In e (c_part c) -> count_ones (fst e) <= MAX_CHANNELS) -> sort_partition c = Some c' -> small c'.
Proof.
  intros H. unfold sort_partition. destruct (take_singles _); [|discriminate].
  destruct (isort part_leb (c_part c)) as [|e p] eqn:E; [discriminate|]. intros Q. injection Q as <-. unfold small. cbn [c_score snd].
  apply H. apply (proj1 (isort_In part_leb e (c_part c))). rewrite E. left. reflexivity.
Qed.

Lemma initialize_small used c c' : c_part c = [] -> initialize_cand used c = Some c' -> small c'.
Proof.
  intros E. unfold initialize_cand. destruct (split_part _ _ _) as [(ps, fps)|] eqn:S; [|discriminate].
  destruct (fits _ && fits _) eqn:F; [|discriminate]. apply andb_true_iff in F. destruct F as (_ & F). unfold fits in F.
  apply Nat.leb_le in F. rewrite app_length in F. apply sort_small. cbn [c_part]. rewrite E. intros e I.
  pose proof (split_small _ _ _ _ _ S _ I). lia.
Qed.

Lemma refine_cand_small hash fixed c c' : refine_cand hash fixed c = Some c' -> small c'.
Proof.
  unfold refine_cand. destruct (refine_parts _ _ _) as [(ps, fps)|] eqn:S; [|discriminate].
  destruct (fits _ && fits _) eqn:F; [|discriminate]. apply andb_true_iff in F. destruct F as (_ & F). unfold fits in F.
  apply Nat.leb_le in F. apply sort_small. cbn [c_part]. intros e I.
  pose proof (refine_small _ _ _ _ _ S _ I). lia.
Qed.

Lemma map_opt_all {A B} (f : A -> option B) (P : A -> Prop) (Q : B -> Prop) l : (forall a b, P a -> f a = Some b -> Q b) ->
  forall r, Forall P l -> map_opt f l = Some r -> Forall Q r.
Proof.
  intros H. induction l as [|a l IH]; intros r F E; simpl in E. now injection E as <-.
  inversion F; subst. destruct (f a) eqn:E1; [|discriminate]. destruct (map_opt f l) eqn:E2; [|discriminate].
  injection E as <-. constructor; eauto.
Qed.

(* ---------- the run ---------- *)

Lemma tuple_cmp_score a b : small a -> small b -> tuple_cmp (score64 a) (score64 b) = score_cmp a b.
Proof.
  intros Ha Hb. unfold tuple_cmp, score64, score_cmp. cbn [fst snd]. now rewrite (not64_cmp _ _ (small_lt _ Ha) (small_lt _ Hb)).
Qed.

Lemma nat_cmp_opp x y : Nat.compare x y = CompOpp (Nat.compare y x).
Proof. apply Nat.compare_antisym. Qed.

Lemma list_cmp_opp a : forall b, list_cmp Nat.compare a b = CompOpp (list_cmp Nat.compare b a).
Proof.
  induction a as [|x a IH]; intros [|y b]; simpl; auto. rewrite (nat_cmp_opp x y).
  destruct (Nat.compare y x); simpl; auto.
Qed.

Lemma score_cmp_opp a b : score_cmp a b = CompOpp (score_cmp b a).
Proof.
  unfold score_cmp. rewrite (nat_cmp_opp (fst (c_score a)) (fst (c_score b))). destruct (Nat.compare (fst (c_score b)) (fst (c_score a))); simpl; auto.
  rewrite (nat_cmp_opp (snd (c_score b)) (snd (c_score a))). destruct (Nat.compare (snd (c_score a)) (snd (c_score b))); simpl; auto.
  apply list_cmp_opp.
Qed.

Lemma best_same l : forall c, small c -> Forall small l -> best_score64 c l = best_score c l /\ small (best_score c l).
Proof.
  unfold best_score64, best_score. induction l as [|x l IH]; intros c Hc Hl; simpl; auto. inversion Hl; subst.
  rewrite (tuple_cmp_score x c) by auto. rewrite (score_cmp_opp x c). destruct (score_cmp c x); simpl; auto.
Qed.

Lemma prune_same z : Forall small (z_layer z) -> prune_using_fingerprints64 z = prune_using_fingerprints z.
Proof.
  intros F. unfold prune_using_fingerprints64, prune_using_fingerprints. destruct (z_layer z) as [|c r]; auto.
  assert (Hc : small c) by now inversion F. assert (Hr : Forall small r) by now inversion F.
  destruct (best_same r c Hc Hr) as (E & S). rewrite E. do 2 f_equal. apply filter_ext_in. intros x I.
  rewrite tuple_cmp_score; auto. now apply (proj1 (Forall_forall _ _) F).
Qed.

Lemma loop_same hash : forall fuel z, Forall small (z_layer z) -> canon_loop64 hash fuel z = canon_loop hash fuel z.
Proof.
  induction fuel as [|f IH]; intros z F; cbn [canon_loop64 canon_loop]; auto. rewrite (prune_same z F).
  destruct (prune_using_fingerprints z) as [z1|]; cbn [bind]; auto.
  destruct (move_singletons _ _ _) as [r|]; cbn [bind]; auto.
  destruct (if fst r then _ else _) as [z2|]; cbn [bind]; auto.
  destruct (z_fixed z2 =? z_used z2); auto.
  destruct (individualize hash z2) as [z3|]; cbn [bind]; auto.
  destruct (prune hash false z3) as [z4|]; cbn [bind]; auto.
  destruct (z_fixed z4 =? z_used z4); auto.
  unfold refine. destruct (map_opt _ (z_layer z4)) as [l|] eqn:E; cbn [bind option_map]; auto.
  apply IH. cbn [z_layer]. apply (map_opt_all _ (fun _ => True) small _ (fun a b _ => refine_cand_small hash (z_fixed z4) a b) _) in E; auto.
  apply Forall_forall. auto.
Qed.

Lemma new_parts s inversion : Forall (fun c => c_part c = []) (z_layer (canon_new s inversion)).
Proof.
  unfold canon_new. destruct (fold_left _ _ _) as ((used, s'), p). cbn [z_layer].
  destruct (inversion && _); repeat constructor.
Qed.

Lemma run_same hash s inversion : canon_run64 hash (canon_new s inversion) = canon_run hash (canon_new s inversion).
Proof.
  unfold canon_run64, canon_run. pose proof (new_parts s inversion) as N. destruct (canon_new s inversion) as [used fixed l].
  cbn [z_used z_layer] in *. destruct (0 <? used); auto. unfold initialize_partitions. cbn [z_used z_fixed z_layer].
  destruct (map_opt _ l) as [l'|] eqn:E; cbn [bind option_map]; auto. rewrite loop_same; auto. cbn [z_layer].
  eapply map_opt_all; [|exact N|exact E]. intros a b. apply initialize_small.
Qed.

Lemma canonicalize_same hash s inversion : canonicalize64 hash s inversion = canonicalize hash s inversion.
Proof. unfold canonicalize64, canonicalize. now rewrite run_same. Qed.
