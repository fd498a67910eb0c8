(* subsumes_permuted is sound, complete and terminates (output_set/subsume.rs). *)
From Coq Require Import List Arith Bool Lia Permutation.
Import ListNotations.
From Verif Require Import Spec Vec Net Bits Util OutputSetModel OutputSetProofs CountProofs AbsProofs SubsumeModel.

(* ---------- bits ---------- *)

Lemma land_split a v b w :
  Nat.land (Nat.b2n a + 2 * v) (Nat.b2n b + 2 * w) = Nat.b2n (a && b) + 2 * Nat.land v w.
Proof.
  apply nat_ext_bits. intros [|i].
  - rewrite Nat.land_spec, !testbit_b2n_0. auto.
  - rewrite Nat.land_spec, !testbit_b2n_S, Nat.land_spec. auto.
Qed.

Lemma ctz_f_spec : forall fuel m, m <> 0 -> m <= fuel ->
  Nat.testbit m (ctz_f fuel m) = true /\ (Nat.land m (m - 1) =? 0) = (m =? 2 ^ ctz_f fuel m).
Proof.
  induction fuel as [|f IH]; intros m H L; [lia|]. simpl.
  destruct (nat_split m) as (a & v & E). destruct a.
  - assert (O : Nat.odd m = true). { rewrite E. rewrite <- Nat.bit0_odd. apply testbit_b2n_0. }
    rewrite O. split. rewrite E. apply testbit_b2n_0.
    replace (m - 1) with (Nat.b2n false + 2 * v) by (simpl in *; lia). rewrite E at 1. rewrite land_split. simpl andb.
    rewrite Nat.land_diag. rewrite E. cbn [Nat.pow].
    destruct v as [|v]; auto.
  - assert (O : Nat.odd m = false). { rewrite E. rewrite <- Nat.bit0_odd. apply testbit_b2n_0. }
    assert (D : Nat.div2 m = v). { rewrite E. simpl Nat.b2n. rewrite Nat.add_0_l. apply Nat.div2_double. }
    rewrite O, D. simpl Nat.b2n in E. destruct (IH v) as (I1 & I2); try lia. split.
    + rewrite E. change (0 + 2 * v) with (Nat.b2n false + 2 * v). now rewrite testbit_b2n_S.
    + replace (m - 1) with (Nat.b2n true + 2 * (v - 1)) by (simpl; lia). rewrite E at 1.
      change (0 + 2 * v) with (Nat.b2n false + 2 * v). rewrite land_split. simpl andb. cbn [Nat.pow].
      transitivity (Nat.land v (v - 1) =? 0).
      * simpl Nat.b2n. destruct (Nat.eqb_spec (Nat.land v (v - 1)) 0) as [->|N]; auto. apply Nat.eqb_neq. lia.
      * rewrite I2. destruct (Nat.eqb_spec v (2 ^ ctz_f f v)) as [Ev|N]; symmetry.
        -- apply Nat.eqb_eq. lia.
        -- apply Nat.eqb_neq. lia.
Qed.

Lemma ctz_bit m : m <> 0 -> Nat.testbit m (ctz m) = true.
Proof. intros H. now apply ctz_f_spec. Qed.

Lemma is_single_some m : m <> 0 -> is_single m = Some (m =? 2 ^ ctz m).
Proof. intros H. unfold is_single. apply Nat.eqb_neq in H as H'. rewrite H'. f_equal. now apply ctz_f_spec. Qed.

Lemma pow2_nz k : 2 ^ k <> 0. Proof. apply Nat.pow_nonzero; lia. Qed.

Lemma ctz_pow2 k : ctz (2 ^ k) = k.
Proof. pose proof (ctz_bit (2 ^ k) (pow2_nz k)) as H. rewrite pow2_testbit in H. now apply Nat.eqb_eq in H. Qed.

Lemma single_iff m : m <> 0 -> (is_single m = Some true <-> exists d, m = 2 ^ d).
Proof.
  intros H. rewrite is_single_some by auto. split.
  - intros E. injection E as E. apply Nat.eqb_eq in E. eauto.
  - intros (d & E). f_equal. apply Nat.eqb_eq. rewrite E. now rewrite ctz_pow2.
Qed.

Lemma single_cases m : m <> 0 -> (is_single m = Some true /\ m = 2 ^ ctz m) \/ (is_single m = Some false /\ forall d, m <> 2 ^ d).
Proof.
  intros H. rewrite is_single_some by auto. destruct (Nat.eqb_spec m (2 ^ ctz m)) as [E|E]; [left|right]; split; auto.
  intros d ->. apply E. now rewrite ctz_pow2.
Qed.

Lemma testbit_without m c i : Nat.testbit (mask_without m c) i = Nat.testbit m i && negb (i =? c).
Proof. unfold mask_without. rewrite Nat.ldiff_spec, pow2_testbit, (Nat.eqb_sym c i). auto. Qed.

Lemma only_bits m d : m = 2 ^ d <-> (forall e, Nat.testbit m e = (e =? d)).
Proof.
  split. intros -> e. rewrite pow2_testbit. apply Nat.eqb_sym.
  intros H. apply nat_ext_bits. intros e. rewrite H, pow2_testbit. apply Nat.eqb_sym.
Qed.

Lemma nz_bit m : m <> 0 <-> exists i, Nat.testbit m i = true.
Proof.
  split. intros H. exists (ctz m). now apply ctz_bit. intros (i & H) ->. now rewrite Nat.bits_0 in H.
Qed.

(* ---------- accessors ---------- *)

Lemma sel_put {A} s s' (p : A * A) a : sel s (put s' p a) = if eqb s s' then a else sel s p.
Proof. destruct s, s', p; auto. Qed.

Definition adj (st : Subsume) (side : bool) (c d : nat) : bool := Nat.testbit (mask_of st side c) d.

Lemma mask_of_set st side c m side' c' :
  mask_of (set_mask st side c m) side' c' =
  if eqb side' side && (c' =? c) && (c <? length (sel side (s_matching st))) then m else mask_of st side' c'.
Proof.
  unfold mask_of, set_mask. simpl. rewrite sel_put. destruct (eqb side' side) eqn:E; simpl; auto.
  apply eqb_prop in E. subst. apply upd_nth.
Qed.

Lemma set_mask_len st side c m side' : length (sel side' (s_matching (set_mask st side c m))) = length (sel side' (s_matching st)).
Proof.
  unfold set_mask. simpl. rewrite sel_put. destruct (eqb side' side) eqn:E; auto. apply eqb_prop in E. subst. apply upd_length.
Qed.

Definition same_core (a b : Subsume) : Prop :=
  s_channels a = s_channels b /\ s_sets a = s_sets b /\ s_perms a = s_perms b /\ s_matching a = s_matching b.

Lemma same_core_refl a : same_core a a. Proof. repeat split. Qed.
Lemma same_core_trans a b c : same_core a b -> same_core b c -> same_core a c.
Proof. unfold same_core. intuition congruence. Qed.

Lemma undo_action_core a b x : same_core a b -> same_core (undo_action a x) (undo_action b x).
Proof.
  intros (H1 & H2 & H3 & H4). destruct a, b; simpl in *; subst. destruct x; repeat split; auto.
Qed.

Lemma undo_all_core l : forall a b, same_core a b -> same_core (fold_left undo_action l a) (fold_left undo_action l b).
Proof. induction l; simpl; intros; auto. apply IHl. now apply undo_action_core. Qed.

Lemma undo_action_keeps a x : s_undo (undo_action a x) = s_undo a /\ s_fixed (undo_action a x) = s_fixed a.
Proof. destruct x; simpl; auto. Qed.

Lemma undo_all_keeps l : forall a, s_undo (fold_left undo_action l a) = s_undo a /\ s_fixed (fold_left undo_action l a) = s_fixed a.
Proof. induction l as [|x l IH]; simpl; intros a; auto. destruct (IH (undo_action a x)) as (-> & ->). apply undo_action_keeps. Qed.

(* st' is st after some pushed actions, and undoing them gives st back *)
Definition ext (st st' : Subsume) : Prop :=
  exists acts, s_undo st' = acts ++ s_undo st /\ same_core (fold_left undo_action acts st') st.

Lemma ext_refl st : ext st st. Proof. exists []. split; auto. apply same_core_refl. Qed.

Lemma ext_trans a b c : ext a b -> ext b c -> ext a c.
Proof.
  intros (l1 & U1 & C1) (l2 & U2 & C2). exists (l2 ++ l1). split. now rewrite U2, U1, app_assoc.
  rewrite fold_left_app. eapply same_core_trans; [|exact C1]. now apply undo_all_core.
Qed.

Lemma rollback_ext st st' : ext st st' -> rollback st' (length (s_undo st)) (s_fixed st) = st.
Proof.
  intros (l & U & C). unfold rollback. rewrite U, app_length.
  replace (length l + length (s_undo st) - length (s_undo st)) with (length l) by lia.
  rewrite firstn_app, Nat.sub_diag, firstn_O, app_nil_r, firstn_all.
  assert (C' : same_core (fold_left undo_action l (set_fixed st' (s_fixed st))) st).
  { eapply same_core_trans; [|exact C]. apply undo_all_core. repeat split. }
  destruct C' as (C1 & C2 & C3 & C4). destruct (undo_all_keeps l (set_fixed st' (s_fixed st))) as (_ & F).
  rewrite skipn_app, Nat.sub_diag, skipn_all. simpl.
  rewrite C1, C2, C3, C4, F. now destruct st.
Qed.

Section Sub.
Variable n : nat.

Record MInv (st : Subsume) : Prop := {
  mi_ch : s_channels st = n;
  mi_len : forall side, length (sel side (s_matching st)) = n;
  mi_lt : forall side c d, adj st side c d = true -> d < n;
  mi_nz : forall side c, c < n -> mask_of st side c <> 0;
  mi_sym : forall side c d, adj st side c d = adj st (negb side) d c }.

Lemma adj_lt st side c d : MInv st -> adj st side c d = true -> c < n /\ d < n.
Proof. intros M H. split; [|now apply (mi_lt st M) in H]. rewrite (mi_sym st M) in H. now apply (mi_lt st M) in H. Qed.

Definition compat (tau : list nat) (st : Subsume) : Prop :=
  is_perm n tau /\ forall b, b < n -> adj st true b (nth b tau 0) = true.

Lemma compat_inv tau st a : MInv st -> compat tau st -> a < n -> exists b, b < n /\ nth b tau 0 = a /\ adj st false a b = true.
Proof.
  intros M (P & H) Ha. destruct (is_perm_surj n tau a P Ha) as (b & Hb & E). exists b. split; auto. split; auto.
  rewrite (mi_sym st M). simpl. rewrite <- E. auto.
Qed.

Definition sub (st' st : Subsume) : Prop := forall side c d, adj st' side c d = true -> adj st side c d = true.

Lemma sub_refl st : sub st st. Proof. intros side c d; auto. Qed.
Lemma sub_trans a b c : sub a b -> sub b c -> sub a c. Proof. intros H1 H2 side x y H. auto. Qed.

Definition edges (st : Subsume) : nat :=
  length (filter (fun p => adj st false (fst p) (snd p)) (list_prod (seq 0 n) (seq 0 n))).

Lemma filter_le {A} (f g : A -> bool) l : (forall x, In x l -> f x = true -> g x = true) -> length (filter f l) <= length (filter g l).
Proof.
  induction l as [|a l IH]; simpl; intros H; auto. assert (IH' := IH ltac:(intros; apply H; auto)).
  destruct (f a) eqn:E. rewrite (H a) by auto. simpl; lia. destruct (g a); simpl; lia.
Qed.

Lemma filter_lt {A} (f g : A -> bool) l a : (forall x, In x l -> f x = true -> g x = true) ->
  In a l -> f a = false -> g a = true -> length (filter f l) < length (filter g l).
Proof.
  induction l as [|b l IH]; simpl; intros H Hin Fa Ga; [tauto|].
  assert (L := filter_le f g l ltac:(intros; apply H; auto)). destruct Hin as [->|Hin].
  - rewrite Fa, Ga. simpl. lia.
  - assert (L' := IH ltac:(intros; apply H; auto) Hin Fa Ga). destruct (f b) eqn:E. rewrite (H b) by auto. simpl; lia.
    destruct (g b); simpl; lia.
Qed.

Lemma edges_le st st' : sub st' st -> edges st' <= edges st.
Proof. intros S. apply filter_le. intros x _. apply S. Qed.

Lemma edges_lt st st' a b : MInv st -> sub st' st -> adj st false a b = true -> adj st' false a b = false -> edges st' < edges st.
Proof.
  intros M S H1 H2. destruct (adj_lt _ _ _ _ M H1). apply (filter_lt _ _ _ (a, b)); auto.
  apply in_prod; apply in_seq; lia.
Qed.

Lemma filter_length_le {A} (f : A -> bool) l : length (filter f l) <= length l.
Proof. induction l as [|a l IH]; simpl; auto. destruct (f a); simpl; lia. Qed.

Lemma edges_max st : edges st <= n * n.
Proof. unfold edges. etransitivity. apply filter_length_le. rewrite prod_length, !seq_length. auto. Qed.

Definition OK (st : Subsume) (side : bool) (c : nat) : Prop :=
  forall d, mask_of st side c = 2 ^ d -> mask_of st (negb side) d = 2 ^ c.

Definition okx (P : bool -> nat -> Prop) (st : Subsume) : Prop :=
  forall side c, c < n -> P side c \/ OK st side c.

Definition frame (st st' : Subsume) : Prop :=
  s_channels st' = s_channels st /\ s_sets st' = s_sets st /\ s_perms st' = s_perms st /\ s_fixed st' = s_fixed st.

Lemma frame_refl st : frame st st. Proof. repeat split. Qed.
Lemma frame_trans a b c : frame a b -> frame b c -> frame a c.
Proof. unfold frame. intuition congruence. Qed.

Definition step (st st' : Subsume) : Prop := frame st st' /\ ext st st' /\ MInv st' /\ sub st' st.

Lemma step_refl st : MInv st -> step st st.
Proof. intros M. split. apply frame_refl. split. apply ext_refl. split; auto. apply sub_refl. Qed.
Lemma step_trans a b c : step a b -> step b c -> step a c.
Proof.
  intros (F1 & E1 & M1 & S1) (F2 & E2 & M2 & S2). split. eapply frame_trans; eauto. split. eapply ext_trans; eauto. split; auto.
  eapply sub_trans; eauto.
Qed.

Definition rm_post (P : bool -> nat -> Prop) (st : Subsume) (chs : nat * nat) (r : bool) (st' : Subsume) : Prop :=
  step st st' /\
  (if r then
     adj st' false (fst chs) (snd chs) = false /\ okx P st' /\
     forall tau, compat tau st -> nth (snd chs) tau 0 <> fst chs -> compat tau st'
   else forall tau, compat tau st -> nth (snd chs) tau 0 = fst chs).

Definition rm_good (rm : Subsume -> nat * nat -> option (bool * Subsume)) (bound : nat) : Prop :=
  forall P st chs, MInv st -> edges st < bound -> adj st false (fst chs) (snd chs) = true -> okx P st ->
  exists r st', rm st chs = Some (r, st') /\ rm_post P st chs r st'.

(* tau sends the side-1 end of the edge (keep on side [side], other) to the side-0 end *)
Definition uses (side : bool) (keep other : nat) (tau : list nat) : Prop :=
  if side then nth keep tau 0 = other else nth other tau 0 = keep.

Definition co_post (P : bool -> nat -> Prop) (st : Subsume) (side : bool) (other keep : nat) (r : bool) (st' : Subsume) : Prop :=
  step st st' /\
  (if r then
     mask_of st' (negb side) other = 2 ^ keep /\ okx P st' /\
     forall tau, compat tau st -> uses side keep other tau -> compat tau st'
   else forall tau, compat tau st -> ~ uses side keep other tau).

Lemma clear_others_spec rm bound P side other keep : rm_good rm bound -> other < n -> keep < n ->
  forall fuel st, MInv st -> edges st < bound -> edges st < fuel -> okx P st ->
  exists r st', clear_others rm fuel side other keep st = Some (r, st') /\ co_post P st side other keep r st'.
Proof.
  intros G Ho Hk. induction fuel as [|f IH]; intros st M Eb Ef O; [lia|]. cbn [clear_others].
  assert (NZ : mask_of st (negb side) other <> 0) by now apply (mi_nz st M).
  destruct (Nat.eqb_spec (mask_without (mask_of st (negb side) other) keep) 0) as [Z|NZ'].
  - exists true, st. split; auto. split. now apply step_refl. split; auto.
    apply only_bits. intros e. destruct (Nat.eqb_spec e keep) as [->|Ne].
    + apply nz_bit in NZ. destruct NZ as (i & Hi). destruct (Nat.eq_dec i keep) as [<-|Ni]; auto.
      assert (T : Nat.testbit (mask_without (mask_of st (negb side) other) keep) i = true).
      { rewrite testbit_without, Hi. apply Nat.eqb_neq in Ni. now rewrite Ni. }
      rewrite Z, Nat.bits_0 in T. discriminate.
    + assert (T : Nat.testbit (mask_without (mask_of st (negb side) other) keep) e = false) by (rewrite Z; apply Nat.bits_0).
      rewrite testbit_without in T. apply Nat.eqb_neq in Ne. rewrite Ne, andb_true_r in T. auto.
  - set (target := ctz (mask_without (mask_of st (negb side) other) keep)).
    assert (T : Nat.testbit (mask_without (mask_of st (negb side) other) keep) target = true) by now apply ctz_bit.
    rewrite testbit_without in T. apply andb_true_iff in T. destruct T as (T & Tn). apply negb_true_iff, Nat.eqb_neq in Tn.
    change (Nat.testbit (mask_of st (negb side) other) target) with (adj st (negb side) other target) in T.
    destruct (adj_lt _ _ _ _ M T) as (_ & Ht).
    set (chs := put side (put (negb side) (0, 0) other) target).
    assert (A : adj st false (fst chs) (snd chs) = true).
    { unfold chs. destruct side; simpl in *; auto. rewrite (mi_sym st M). auto. }
    destruct (G P st chs M Eb A O) as (r & st1 & E1 & St1 & Post). rewrite E1.
    assert (U : forall tau, compat tau st -> uses side keep other tau -> nth (snd chs) tau 0 <> fst chs).
    { intros tau (Pt & _) Us. unfold chs, uses in *. destruct side; simpl; intros E.
      - apply Tn. apply (is_perm_inj n tau); auto. congruence.
      - congruence. }
    destruct r.
    + destruct Post as (A' & O1 & Pr). destruct St1 as (F1 & X1 & M1 & S1).
      assert (Lt : edges st1 < edges st) by (eapply edges_lt; eauto).
      destruct (IH st1 M1) as (r & st2 & E2 & St2 & Post2); auto; try lia.
      exists r, st2. split; auto. split. eapply step_trans; [|exact St2]. split; auto.
      destruct r.
      * destruct Post2 as (P1 & P2 & P3). split; auto.
      * intros tau C Us. apply (Post2 tau); auto.
    + exists false, st1. split; auto. split; auto. intros tau C Us. apply (U tau C Us). auto.
Qed.

Lemma propagate_spec rm bound (P : bool -> nat -> Prop) chs side : rm_good rm bound -> sel side chs < n ->
  forall fuel st, MInv st -> edges st < bound -> edges st < fuel ->
  okx (fun s c => P s c \/ (s = side /\ c = sel side chs)) st ->
  exists r st', propagate_side rm fuel chs side st = Some (r, st') /\ step st st' /\
    (if r then okx P st' /\ forall tau, compat tau st -> compat tau st' else forall tau, ~ compat tau st).
Proof.
  intros G Hc fuel st M Eb Ef O. unfold propagate_side.
  assert (NZ := mi_nz st M side _ Hc).
  destruct (single_cases _ NZ) as [(-> & E)|(-> & E)].
  - set (other := ctz (mask_of st side (sel side chs))) in *.
    assert (A : adj st side (sel side chs) other = true) by (unfold adj; rewrite E, pow2_testbit; apply Nat.eqb_refl).
    destruct (adj_lt _ _ _ _ M A) as (_ & Ho).
    destruct (clear_others_spec rm bound (fun s c => P s c \/ (s = side /\ c = sel side chs)) side other (sel side chs) G Ho Hc fuel st M Eb Ef O)
      as (r & st' & E' & St & Post).
    exists r, st'. split; auto. split; auto.
    assert (U : forall tau, compat tau st -> uses side (sel side chs) other tau).
    { intros tau C. destruct side; unfold uses; simpl in *.
      - destruct C as (Pt & Ca). specialize (Ca _ Hc). unfold adj in Ca. rewrite E, pow2_testbit in Ca. now apply Nat.eqb_eq in Ca.
      - destruct (compat_inv tau st (fst chs) M C Hc) as (b & Hb & Eb' & Ab). unfold adj in Ab. rewrite E, pow2_testbit in Ab.
        apply Nat.eqb_eq in Ab. now rewrite Ab. }
    destruct r.
    + destruct Post as (P1 & P2 & P3). split; auto.
      intros s c Hcn. destruct (P2 s c Hcn) as [[?|(-> & ->)]|?]; auto. right.
      intros d Ed. destruct St as (_ & _ & M' & S').
      assert (adj st side (sel side chs) d = true) by (apply S'; unfold adj; rewrite Ed, pow2_testbit; apply Nat.eqb_refl).
      unfold adj in H. rewrite E, pow2_testbit in H. apply Nat.eqb_eq in H. now subst d.
    + intros tau C. apply (Post tau C). auto.
  - exists true, st. split; auto. split. now apply step_refl. split; auto.
    intros s c Hcn. destruct (O s c Hcn) as [[?|(-> & ->)]|?]; auto. right. intros d Ed. now apply E in Ed.
Qed.

(* ---------- one edge ---------- *)

Definition is_edge (chs : nat * nat) (side : bool) (c d : nat) : bool :=
  (c =? sel side chs) && (d =? sel (negb side) chs).

Lemma drop_edge_adj st chs side c d : MInv st -> fst chs < n -> snd chs < n ->
  adj (drop_edge st chs) side c d = adj st side c d && negb (is_edge chs side c d).
Proof.
  intros M H0 H1. unfold adj, drop_edge. rewrite !mask_of_set, !set_mask_len. cbn [push_undo s_matching].
  pose proof (mi_len st M false) as L0. pose proof (mi_len st M true) as L1. simpl in L0, L1 |- *.
  rewrite L0, L1. apply Nat.ltb_lt in H0, H1. rewrite H0, H1, !andb_true_r.
  unfold is_edge. destruct side; simpl.
  - destruct (Nat.eqb_spec c (snd chs)) as [->|N]; simpl.
    + rewrite testbit_without. reflexivity.
    + rewrite andb_true_r. reflexivity.
  - destruct (Nat.eqb_spec c (fst chs)) as [->|N]; simpl.
    + rewrite testbit_without. reflexivity.
    + rewrite andb_true_r. reflexivity.
Qed.

Lemma set_mask_twice st side c m m' : set_mask (set_mask st side c m) side c m' = set_mask st side c m'.
Proof.
  unfold set_mask. simpl. f_equal. destruct side, (s_matching st) as (m0 & m1); simpl; f_equal.
  - revert c. induction m1; intros [|c]; simpl; f_equal; auto.
  - revert c. induction m0; intros [|c]; simpl; f_equal; auto.
Qed.

Lemma lists_bits (l l' : list nat) : length l = length l' -> (forall c d, c < length l -> Nat.testbit (nth c l 0) d = Nat.testbit (nth c l' 0) d) -> l = l'.
Proof. intros L H. apply nth_ext_lt with (d := 0); auto. intros c Hc. apply nat_ext_bits. intros d. auto. Qed.

Lemma restore_edge_adj st chs s side c d : (forall x, length (sel x (s_matching st)) = n) -> fst chs < n -> snd chs < n ->
  adj (restore_edge st chs s) side c d = adj st side c d || is_edge chs side c d.
Proof.
  intros L H0 H1. unfold adj, restore_edge. rewrite !mask_of_set, !set_mask_len, !L.
  assert (Hs : forall x, (sel x chs <? n) = true) by (intros []; apply Nat.ltb_lt; auto).
  rewrite !Hs, !andb_true_r. unfold is_edge.
  assert (OE : forall a b, Nat.testbit (2 ^ a) b = (b =? a)) by (intros; rewrite pow2_testbit; apply Nat.eqb_sym).
  destruct s, side; cbn [eqb negb andb];
    match goal with |- context [c =? ?x] => destruct (Nat.eqb_spec c x) as [->|N] end; cbn [andb];
    rewrite ?Nat.lor_spec, ?OE, ?orb_false_r; auto.
Qed.

Lemma restore_edge_len st chs s side : length (sel side (s_matching (restore_edge st chs s))) = length (sel side (s_matching st)).
Proof. unfold restore_edge. now rewrite !set_mask_len. Qed.

Lemma drop_edge_len st chs side : length (sel side (s_matching (drop_edge st chs))) = length (sel side (s_matching st)).
Proof. unfold drop_edge. now rewrite !set_mask_len. Qed.

Lemma sel_ext {A} (p q : A * A) : (forall s, sel s p = sel s q) -> p = q.
Proof. intros H. destruct p, q. pose proof (H false). pose proof (H true). simpl in *. congruence. Qed.

Lemma drop_edge_ext st chs : MInv st -> fst chs < n -> snd chs < n -> adj st false (fst chs) (snd chs) = true ->
  ext st (drop_edge st chs).
Proof.
  intros M H0 H1 A. exists [UMatching chs]. split; auto. simpl. unfold same_core. repeat split; auto.
  apply sel_ext. intros s. apply lists_bits. { now rewrite !restore_edge_len, drop_edge_len. }
  intros c d Hc.
  change (adj (restore_edge (restore_edge (drop_edge st chs) chs false) chs true) s c d = adj st s c d).
  assert (L : forall x, length (sel x (s_matching (drop_edge st chs))) = n) by (intros; rewrite drop_edge_len; apply (mi_len st M)).
  rewrite restore_edge_adj; auto. 2: { intros x. now rewrite restore_edge_len. }
  rewrite restore_edge_adj, drop_edge_adj by auto.
  destruct (is_edge chs s c d) eqn:E; [|now rewrite andb_true_r, !orb_false_r].
  rewrite !orb_true_r. symmetry. unfold is_edge in E. apply andb_true_iff in E. destruct E as (E1 & E2).
  apply Nat.eqb_eq in E1, E2. subst. destruct s; simpl; auto. rewrite (mi_sym st M). auto.
Qed.

Lemma drop_edge_MInv st chs : MInv st -> fst chs < n -> snd chs < n ->
  (forall s d, mask_of st s (sel s chs) <> 2 ^ d) -> adj st false (fst chs) (snd chs) = true -> MInv (drop_edge st chs).
Proof.
  intros M H0 H1 NS A. constructor.
  - apply (mi_ch st M).
  - intros s. rewrite drop_edge_len. apply (mi_len st M).
  - intros s c d H. rewrite drop_edge_adj in H by auto. apply andb_true_iff in H. now apply (mi_lt st M) with (side := s) (c := c).
  - intros s c Hc. apply nz_bit.
    destruct (Nat.eq_dec c (sel s chs)) as [->|Nc].
    + assert (As : adj st s (sel s chs) (sel (negb s) chs) = true) by (destruct s; simpl; auto; rewrite (mi_sym st M); auto).
      (* another bit *)
      assert (D : exists e, adj st s (sel s chs) e = true /\ e <> sel (negb s) chs).
      { destruct (existsb (fun e => adj st s (sel s chs) e && negb (e =? sel (negb s) chs)) (seq 0 n)) eqn:Ex.
        - apply existsb_exists in Ex. destruct Ex as (e & _ & He). apply andb_true_iff in He. destruct He as (He & Hn).
          exists e. split; auto. now apply negb_true_iff, Nat.eqb_neq in Hn.
        - exfalso. apply (NS s (sel (negb s) chs)). apply only_bits. intros e.
          destruct (Nat.eqb_spec e (sel (negb s) chs)) as [->|Ne]; auto.
          destruct (Nat.testbit (mask_of st s (sel s chs)) e) eqn:T; auto.
          assert (He : e < n) by (now apply (mi_lt st M) with (side := s) (c := sel s chs)).
          rewrite <- Ex. symmetry. apply existsb_exists. exists e. split. apply in_seq; lia.
          unfold adj. rewrite T. apply Nat.eqb_neq in Ne. now rewrite Ne. }
      destruct D as (e & He & Ne). exists e. change (adj (drop_edge st chs) s (sel s chs) e = true).
      rewrite drop_edge_adj, He by auto. unfold is_edge. rewrite Nat.eqb_refl. apply Nat.eqb_neq in Ne. now rewrite Ne.
    + pose proof (mi_nz st M s c Hc) as Z. apply nz_bit in Z. destruct Z as (e & He). exists e.
      change (adj (drop_edge st chs) s c e = true). rewrite drop_edge_adj by auto. unfold adj. rewrite He.
      unfold is_edge. apply Nat.eqb_neq in Nc. now rewrite Nc.
  - intros s c d. rewrite !drop_edge_adj by auto. rewrite (mi_sym st M). f_equal. f_equal. unfold is_edge.
    rewrite negb_involutive. apply andb_comm.
Qed.

Lemma drop_edge_mask st chs s c : MInv st -> fst chs < n -> snd chs < n -> c <> sel s chs ->
  mask_of (drop_edge st chs) s c = mask_of st s c.
Proof.
  intros M H0 H1 N. apply nat_ext_bits. intros d. change (adj (drop_edge st chs) s c d = adj st s c d).
  rewrite drop_edge_adj by auto. unfold is_edge. apply Nat.eqb_neq in N. now rewrite N, andb_true_r.
Qed.

Lemma get_matching_adj st chs : get_matching st chs = adj st false (fst chs) (snd chs).
Proof.
  unfold get_matching, adj. destruct (Nat.testbit (mask_of st false (fst chs)) (snd chs)) eqn:E.
  - apply negb_true_iff, Nat.eqb_neq, nz_bit. exists (snd chs). rewrite Nat.land_spec, E, pow2_testbit, Nat.eqb_refl. auto.
  - apply negb_false_iff, Nat.eqb_eq, nat_ext_bits. intros i. rewrite Nat.land_spec, pow2_testbit, Nat.bits_0.
    destruct (Nat.eqb_spec (snd chs) i) as [<-|]; rewrite ?E, ?andb_false_r; auto.
Qed.

Lemma remove_matching_spec : forall fuel, rm_good (remove_matching fuel) fuel.
Proof.
  induction fuel as [|f IH]; intros P st chs M Ef A O; [lia|].
  destruct (adj_lt _ _ _ _ M A) as (H0 & H1). cbn [remove_matching]. rewrite get_matching_adj, A. cbn [negb].
  destruct (single_cases _ (mi_nz st M false _ H0)) as [(-> & E)|(-> & E0)].
  { exists false, st. split; auto. split. now apply step_refl. intros tau C.
    destruct (compat_inv tau st (fst chs) M C H0) as (b & Hb & Eb & Ab). unfold adj in A, Ab. rewrite E, pow2_testbit in A, Ab.
    apply Nat.eqb_eq in A, Ab. rewrite <- A, Ab. auto. }
  destruct (single_cases _ (mi_nz st M true _ H1)) as [(-> & E)|(-> & E1)].
  { exists false, st. split; auto. split. now apply step_refl. intros tau C.
    destruct C as (Pt & Ca). specialize (Ca _ H1). rewrite (mi_sym st M) in A. simpl in A. unfold adj in A, Ca.
    rewrite E, pow2_testbit in A, Ca. apply Nat.eqb_eq in A, Ca. congruence. }
  set (st1 := drop_edge st chs).
  assert (M1 : MInv st1). { apply drop_edge_MInv; auto. intros []; auto. }
  assert (S1 : sub st1 st). { intros s c d H. unfold st1 in H. rewrite drop_edge_adj in H by auto. apply andb_true_iff in H. tauto. }
  assert (D1 : adj st1 false (fst chs) (snd chs) = false).
  { unfold st1. rewrite drop_edge_adj by auto. unfold is_edge. simpl. rewrite !Nat.eqb_refl. apply andb_false_r. }
  assert (St1 : step st st1). { split. repeat split. split. now apply drop_edge_ext. auto. }
  assert (L1 : edges st1 < edges st) by (eapply edges_lt; eauto).
  assert (O1 : okx (fun s c => (P s c \/ (s = true /\ c = sel true chs)) \/ (s = false /\ c = sel false chs)) st1).
  { intros s c Hc. destruct (Nat.eq_dec c (sel s chs)) as [->|Nc]. { left. destruct s; auto. }
    destruct (O s c Hc) as [?|OKc]; auto. right. intros d Ed. unfold st1 in *. rewrite drop_edge_mask in Ed by auto.
    specialize (OKc d Ed). destruct (Nat.eq_dec d (sel (negb s) chs)) as [->|Nd].
    - exfalso. destruct s; [now apply E0 in OKc|now apply E1 in OKc].
    - now rewrite drop_edge_mask. }
  assert (K1 : forall tau, compat tau st -> nth (snd chs) tau 0 <> fst chs -> compat tau st1).
  { intros tau (Pt & Ca) U. split; auto. intros b Hb. unfold st1. rewrite drop_edge_adj by auto. rewrite Ca by auto.
    unfold is_edge. simpl. destruct (Nat.eqb_spec b (snd chs)) as [->|]; auto. apply Nat.eqb_neq in U. now rewrite U. }
  destruct (propagate_spec (remove_matching f) f (fun s c => P s c \/ (s = true /\ c = sel true chs)) chs false IH H0 f st1 M1) as (r & st2 & -> & St2 & Post); auto; try lia.
  destruct r.
  2: { exists false, st2. split; auto. split. eapply step_trans; eauto. intros tau C.
       destruct (Nat.eq_dec (nth (snd chs) tau 0) (fst chs)); auto. exfalso. apply (Post tau). auto. }
  destruct Post as (O2 & K2). pose proof St2 as (_ & _ & M2 & S2). pose proof (edges_le _ _ S2).
  destruct (propagate_spec (remove_matching f) f P chs true IH H1 f st2 M2) as (r & st3 & -> & St3 & Post); auto; try lia.
  exists r, st3. split; auto. split. eapply step_trans; eauto. eapply step_trans; eauto.
  destruct r.
  - destruct Post as (O3 & K3). pose proof St3 as (_ & _ & M3 & S3). split; auto.
    destruct (adj st3 false (fst chs) (snd chs)) eqn:E; auto. apply S3, S2 in E. congruence.
  - intros tau C. destruct (Nat.eq_dec (nth (snd chs) tau 0) (fst chs)); auto. exfalso. apply (Post tau). auto.
Qed.

End Sub.
