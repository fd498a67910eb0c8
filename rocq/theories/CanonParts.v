(* Partitions of the channels in output_set/canon.rs: cutting, sorting, and matching partitions of
   isomorphic sets. *)
From Coq Require Import List Arith Bool Lia Permutation.
Import ListNotations.
From Verif Require Import Spec Vec Net Bits Util OutputSetModel OutputSetProofs CountProofs SubsumeModel SubsumeProofs SubsumeSearch CanonModel CanonBits.

Lemma Forall2_rev' {A B} (R : A -> B -> Prop) l l' : Forall2 R l l' -> Forall2 R (rev l) (rev l').
Proof. induction 1; simpl. constructor. apply Forall2_app; auto. Qed.

Lemma Forall2_len {A B} (R : A -> B -> Prop) l l' : Forall2 R l l' -> length l = length l'.
Proof. induction 1; simpl; auto. Qed.

Lemma pair_leb_total a b : pair_leb a b = true \/ pair_leb b a = true.
Proof.
  unfold pair_leb. destruct a as (x & y), b as (z & w). simpl. destruct (Nat.ltb_spec x z); auto. destruct (Nat.ltb_spec z x); auto.
  assert (x = z) by lia. subst. rewrite Nat.eqb_refl. simpl. destruct (Nat.leb_spec y w); auto. right. apply Nat.leb_le. lia.
Qed.
Lemma pair_leb_trans a b c : pair_leb a b = true -> pair_leb b c = true -> pair_leb a c = true.
Proof.
  unfold pair_leb. rewrite !orb_true_iff, !andb_true_iff, !Nat.ltb_lt, !Nat.eqb_eq, !Nat.leb_le. lia.
Qed.
Lemma pair_leb_fst a b : pair_leb a b = true -> fst a <= fst b.
Proof. unfold pair_leb. rewrite orb_true_iff, andb_true_iff, Nat.ltb_lt, Nat.eqb_eq. lia. Qed.

Lemma NoDup_app_r {A} (l l' : list A) : NoDup (l ++ l') -> NoDup l'.
Proof. induction l; simpl; auto. intros H. apply NoDup_cons_iff in H. tauto. Qed.

Section Parts.
Variable n : nat.
Notation bits := (bits n).
Notation pm := (pm n).

(* ---------- cut_parts ---------- *)

Lemma cut_ids l : forall v m id, map snd (cut_parts v m id l) = seq id (length (cut_parts v m id l)).
Proof.
  induction l as [|(f & c) r IH]; intros v m id; simpl; auto. destruct (v =? f); auto. simpl. now rewrite IH.
Qed.

Lemma cut_bits l : forall v m id, m < 2 ^ n -> (forall e, In e l -> snd e < n) -> NoDup (bits m ++ map snd l) ->
  Permutation (flat_map (fun e => bits (fst e)) (cut_parts v m id l)) (bits m ++ map snd l) /\
  Forall (fun e => fst e < 2 ^ n) (cut_parts v m id l).
Proof.
  induction l as [|(f & c) r IH]; intros v m id Hm Hl N; cbn [cut_parts].
  - simpl. rewrite !app_nil_r. split; auto.
  - assert (Hc : c < n) by (apply (Hl (f, c)); simpl; auto). assert (Hr : forall e, In e r -> snd e < n) by (intros; apply Hl; simpl; auto).
    simpl map in *. assert (T : Nat.testbit m c = false).
    { destruct (Nat.testbit m c) eqn:E; auto. exfalso. apply NoDup_remove_2 in N. apply N. apply in_or_app. left. apply bits_In. auto. }
    pose proof (bits_lor n m c Hm Hc T) as B. assert (Hm' : Nat.lor m (2 ^ c) < 2 ^ n) by (apply lor_lt; auto; now apply pow2_lt_pow2).
    destruct (v =? f).
    + destruct (IH v (Nat.lor m (2 ^ c)) id) as (P & F); auto.
      { apply (Permutation_NoDup (l := bits m ++ c :: map snd r)); auto. rewrite B. simpl. symmetry. apply Permutation_middle. }
      split; auto. rewrite P, B. simpl. apply Permutation_middle.
    + assert (Hc2 : 2 ^ c < 2 ^ n) by now apply pow2_lt_pow2.
      assert (B0 : bits (2 ^ c) = [c]) by now apply bits_single.
      rewrite Nat.lor_0_l. destruct (IH f (2 ^ c) (S id)) as (P & F); auto.
      { rewrite B0. simpl. apply NoDup_app_r in N. auto. }
      split; [|constructor; auto]. simpl flat_map. rewrite P, B0. auto.
Qed.

Lemma cut_nonzero l : forall v m id, m <> 0 -> Forall (fun e => fst e <> 0) (cut_parts v m id l).
Proof.
  assert (L : forall m c, Nat.lor m (2 ^ c) <> 0). { intros m c E. apply Nat.lor_eq_0_iff in E. now apply (pow2_nz c). }
  induction l as [|(f & c) r IH]; intros v m id H; cbn [cut_parts]; auto. destruct (v =? f); auto.
Qed.

Definition cut_rel (v m1 m2 : nat) (l1 l2 : list (nat * nat)) (e1 e2 : nat * nat) : Prop :=
  snd e1 = snd e2 /\ exists w, v <= w /\
    (forall c, Nat.testbit (fst e1) c = true <-> (w = v /\ Nat.testbit m1 c = true) \/ In (w, c) l1) /\
    (forall c, Nat.testbit (fst e2) c = true <-> (w = v /\ Nat.testbit m2 c = true) \/ In (w, c) l2).

Lemma Forall2_impl' {A B} (R Q : A -> B -> Prop) l l' : (forall a b, R a b -> Q a b) -> Forall2 R l l' -> Forall2 Q l l'.
Proof. intros H. induction 1; constructor; auto. Qed.

Lemma cut_match : forall l1 l2 v m1 m2 id, map fst l1 = map fst l2 -> Srt Nat.leb (v :: map fst l1) ->
  Forall2 (cut_rel v m1 m2 l1 l2) (cut_parts v m1 id l1) (cut_parts v m2 id l2).
Proof.
  induction l1 as [|(f & c1) r1 IH]; intros [|(f2 & c2) r2] v m1 m2 id E Hs; try discriminate; cbn [cut_parts].
  - constructor; [|constructor]. split; auto. exists v. split; auto. simpl. intuition.
  - simpl in E. injection E as <- E. inversion Hs as [|v' l' Hv Hs' E1]. subst v' l'. simpl map in *.
    assert (Hvf : v <= f) by (apply Nat.leb_le, Hv; simpl; auto).
    inversion Hs' as [|f' l' Hf Hs'' E1]. subst f' l'.
    destruct (Nat.eqb_spec v f) as [->|Ne].
    + eapply Forall2_impl'; [|apply (IH r2 f (Nat.lor m1 (2 ^ c1)) (Nat.lor m2 (2 ^ c2)) id E Hs')].
      intros e1 e2 (Ei & w & Hw & H1 & H2). split; auto. exists w. split; auto.
      split; intros c; rewrite ?H1, ?H2, Nat.lor_spec, orb_true_iff, pow2_testbit, Nat.eqb_eq; simpl; split.
      * intros [(-> & [X|X])|X]; subst; auto.
      * intros [(-> & X)|[X|X]]; auto. injection X as -> ->. auto.
      * intros [(-> & [X|X])|X]; subst; auto.
      * intros [(-> & X)|[X|X]]; auto. injection X as -> ->. auto.
    + assert (Nin : forall l : list (nat * nat), map fst l = map fst r1 -> forall c, ~ In (v, c) l).
      { intros l El c Hin. assert (In v (map fst r1)) by (rewrite <- El; apply (in_map fst) in Hin; auto).
        apply Hf in H. apply Nat.leb_le in H. lia. }
      constructor.
      * split; auto. exists v. split; auto. simpl. split; intros c; split; auto.
        -- intros [|[X|X]]; [tauto| |]. injection X as -> ->. congruence. exfalso. now apply (Nin r1 eq_refl c).
        -- intros [|[X|X]]; [tauto| |]. injection X as -> ->. congruence. exfalso. now apply (Nin r2 (eq_sym E) c).
      * eapply Forall2_impl'; [|apply (IH r2 f (Nat.lor 0 (2 ^ c1)) (Nat.lor 0 (2 ^ c2)) (S id) E Hs')].
        intros e1 e2 (Ei & w & Hw & H1 & H2). split; auto. exists w. split; [lia|].
        split; intros c; rewrite ?H1, ?H2, Nat.lor_0_l, pow2_testbit, Nat.eqb_eq; simpl; split.
        -- intros [(-> & ->)|X]; auto.
        -- intros [(-> & X)|[X|X]]; auto. lia. injection X as -> ->. auto.
        -- intros [(-> & ->)|X]; auto.
        -- intros [(-> & X)|[X|X]]; auto. lia. injection X as -> ->. auto.
Qed.

(* ---------- split_part ---------- *)

Definition pmatch (sg : list nat) : list (nat * nat) -> list (nat * nat) -> Prop :=
  Forall2 (fun e1 e2 => snd e1 = snd e2 /\ pm sg (fst e1) (fst e2)).

Definition parts_bits (ps : list (nat * nat)) : list nat := flat_map (fun e => bits (fst e)) ps.
Definition parts_ok (ps : list (nat * nat)) : Prop := Forall (fun e => fst e <> 0 /\ fst e < 2 ^ n) ps.

Lemma fp_list_fst_sorted f chs : Srt Nat.leb (map fst (isort pair_leb (map (fun ch => (f ch, ch)) chs))).
Proof.
  pose proof (isort_Srt pair_leb pair_leb_total pair_leb_trans (map (fun ch => (f ch, ch)) chs)) as H.
  induction H as [|a l Ha Hl IH]; simpl; constructor; auto. intros b Hb. apply in_map_iff in Hb. destruct Hb as (e & <- & He).
  apply Nat.leb_le, pair_leb_fst. auto.
Qed.

Lemma fp_list_In f chs w c : In (w, c) (isort pair_leb (map (fun ch => (f ch, ch)) chs)) <-> In c chs /\ f c = w.
Proof.
  rewrite isort_In, in_map_iff. split. intros (x & E & H). injection E as <- <-. auto. intros (H & <-). exists c. auto.
Qed.

Lemma split_ok f chs id : chs <> [] -> NoDup chs -> (forall c, In c chs -> c < n) ->
  exists ps fps, split_part f chs id = Some (ps, fps) /\
    map snd ps = seq id (length ps) /\ Permutation (parts_bits ps) chs /\ parts_ok ps /\ length fps = length chs.
Proof.
  intros NE ND Hlt. unfold split_part. set (l := isort pair_leb (map (fun ch => (f ch, ch)) chs)).
  assert (Ll : length l = length chs) by (unfold l; now rewrite isort_length, map_length).
  assert (Pl : Permutation (map snd l) chs).
  { unfold l. rewrite (Permutation_map snd (isort_perm pair_leb _)). rewrite map_map. simpl. now rewrite map_id. }
  assert (Hl : forall e, In e l -> snd e < n).
  { intros e He. apply Hlt. apply (Permutation_in _ Pl). now apply in_map. }
  destruct l as [|(v & c) r] eqn:El. { destruct chs; [congruence|simpl in Ll; lia]. }
  exists (cut_parts v 0 id ((v, c) :: r)), (map fst ((v, c) :: r)). split; auto.
  split; [apply cut_ids|]. destruct (cut_bits ((v, c) :: r) v 0 id) as (P & F); auto.
  { apply Nat.neq_0_lt_0, Nat.pow_nonzero. lia. }
  { assert (E0 : bits 0 = []). { unfold CanonBits.bits. clear. induction (seq 0 n); simpl; auto. now rewrite Nat.bits_0. }
    rewrite E0. simpl app. symmetry in Pl. now apply (Permutation_NoDup Pl). }
  split.
  { unfold parts_bits. rewrite P. assert (E0 : bits 0 = []). { unfold CanonBits.bits. clear. induction (seq 0 n); simpl; auto. now rewrite Nat.bits_0. }
    rewrite E0. exact Pl. }
  split.
  - unfold parts_ok. apply Forall_and; auto. cbn [cut_parts]. rewrite Nat.eqb_refl, Nat.lor_0_l. apply cut_nonzero. apply pow2_nz.
  - now rewrite map_length.
Qed.

Lemma split_match sg f1 f2 chs1 chs2 id : is_perm n sg -> Permutation (map (fun c => nth c sg 0) chs2) chs1 ->
  (forall c, In c chs2 -> c < n) -> chs1 <> [] -> (forall c, In c chs2 -> f2 c = f1 (nth c sg 0)) ->
  exists ps1 ps2 fps, split_part f1 chs1 id = Some (ps1, fps) /\ split_part f2 chs2 id = Some (ps2, fps) /\ pmatch sg ps1 ps2.
Proof.
  intros P Pc Hlt NE Hf. unfold split_part.
  set (l1 := isort pair_leb (map (fun ch => (f1 ch, ch)) chs1)). set (l2 := isort pair_leb (map (fun ch => (f2 ch, ch)) chs2)).
  assert (EF : map fst l1 = map fst l2).
  { apply (Srt_perm_eq Nat.leb).
    - intros a b H1 H2. apply Nat.leb_le in H1, H2. lia.
    - apply fp_list_fst_sorted.
    - apply fp_list_fst_sorted.
    - unfold l1, l2. rewrite !(Permutation_map fst (isort_perm pair_leb _)), !map_map. simpl. rewrite <- Pc, map_map.
      assert (E : map (fun x => f1 (nth x sg 0)) chs2 = map (fun x => f2 x) chs2) by (apply map_ext_in; intros; symmetry; auto). now rewrite E. }
  assert (I1 : forall w c, In (w, c) l1 <-> In c chs1 /\ f1 c = w) by (intros; apply fp_list_In).
  assert (I2 : forall w c, In (w, c) l2 <-> In c chs2 /\ f2 c = w) by (intros; apply fp_list_In).
  assert (S1 : Srt Nat.leb (map fst l1)) by apply fp_list_fst_sorted.
  assert (Ll : length l1 = length chs1) by (unfold l1; now rewrite isort_length, map_length).
  destruct l1 as [|(v & c1) r1] eqn:E1. { destruct chs1; [congruence|simpl in Ll; lia]. }
  destruct l2 as [|(v2 & c2) r2] eqn:E2; [discriminate|]. 
  assert (v2 = v) by (simpl in EF; congruence). subst v2. cbn [fst].
  exists (cut_parts v 0 id ((v, c1) :: r1)), (cut_parts v 0 id ((v, c2) :: r2)), (map fst ((v, c1) :: r1)).
  split; auto. split. now rewrite EF.
  assert (Sv : Srt Nat.leb (v :: map fst ((v, c1) :: r1))).
  { constructor; auto. simpl. intros b [<-|Hb]. apply Nat.leb_refl. inversion S1; auto. }
  eapply Forall2_impl'; [|apply (cut_match _ _ v 0 0 id EF Sv)].
  intros e1 e2 (Ei & w & Hw & H1 & H2). split; auto. intros c Hc.
  assert (Hs : nth c sg 0 < n) by now apply is_perm_nth.
  assert (Hin : In c chs2 <-> In (nth c sg 0) chs1).
  { split.
    - intros H. apply (Permutation_in _ Pc). apply in_map_iff. exists c. auto.
    - intros H. apply (Permutation_in _ (Permutation_sym Pc)) in H. apply in_map_iff in H. destruct H as (d & Ed & Hd).
      apply (is_perm_inj n sg) in Ed; auto. now subst. }
  assert (B : Nat.testbit (fst e2) c = true <-> Nat.testbit (fst e1) (nth c sg 0) = true).
  { rewrite H1, H2, Nat.bits_0, Nat.bits_0. rewrite I1, I2. split.
    - intros [(_ & X)|(X & Y)]; [discriminate|]. right. split. now apply Hin. now rewrite <- Hf.
    - intros [(_ & X)|(X & Y)]; [discriminate|]. right. apply Hin in X. split; auto. now rewrite Hf. }
  destruct (Nat.testbit (fst e2) c), (Nat.testbit (fst e1) (nth c sg 0)); auto; intuition congruence.
Qed.

(* ---------- refine_parts ---------- *)

Lemma parts_bits_app a b : parts_bits (a ++ b) = parts_bits a ++ parts_bits b.
Proof. unfold parts_bits. apply flat_map_app. Qed.

Lemma refine_ok f parts : parts_ok parts -> NoDup (parts_bits parts) -> forall id,
  exists ps fps, refine_parts f parts id = Some (ps, fps) /\
    map snd ps = seq id (length ps) /\ Permutation (parts_bits ps) (parts_bits parts) /\ parts_ok ps /\ length fps = length (parts_bits parts) /\
    (parts <> [] -> ps <> []).
Proof.
  induction 1 as [|e r (NZ & Hlt) Hr IH]; intros ND id; cbn [refine_parts].
  { exists [], []. simpl. repeat split; auto; try constructor. }
  change (parts_bits (e :: r)) with (bits (fst e) ++ parts_bits r) in *.
  destruct (split_ok f (mask_bits (fst e) (fst e)) id) as (ps & fps & -> & Hid & Hb & Hok & Hl).
  { intros E. apply (bits_nonempty n _ Hlt) in NZ. apply NZ. apply Permutation_nil. rewrite <- (mask_bits_perm n (fst e)) by auto. now rewrite E. }
  { apply mask_bits_spec. auto. }
  { intros c Hc. apply (Permutation_in _ (mask_bits_perm n _ Hlt)) in Hc. now apply bits_In in Hc. }
  destruct (IH ltac:(now apply NoDup_app_r in ND) (id + length ps)) as (ps' & fps' & -> & Hid' & Hb' & Hok' & Hl' & _).
  exists (ps ++ ps'), (fps ++ fps'). split; auto. split.
  { rewrite map_app, app_length, Hid, Hid'. symmetry. apply seq_app. }
  rewrite parts_bits_app. split.
  { rewrite Hb, Hb'. apply Permutation_app_tail. now apply mask_bits_perm. }
  split. { apply Forall_app; auto. }
  split. { rewrite !app_length, Hl, Hl'. f_equal. now apply Permutation_length, mask_bits_perm. }
  intros _ E. apply app_eq_nil in E. destruct E as (-> & _). simpl in Hb.
  apply Permutation_nil in Hb. apply (bits_nonempty n _ Hlt) in NZ. apply NZ. apply Permutation_nil. rewrite <- (mask_bits_perm n (fst e)) by auto. now rewrite Hb.
Qed.

Lemma refine_match sg f1 f2 : is_perm n sg -> forall parts1 parts2, pmatch sg parts1 parts2 -> parts_ok parts1 -> parts_ok parts2 ->
  (forall c, In c (parts_bits parts2) -> f2 c = f1 (nth c sg 0)) -> forall id,
  exists ps1 ps2 fps, refine_parts f1 parts1 id = Some (ps1, fps) /\ refine_parts f2 parts2 id = Some (ps2, fps) /\ pmatch sg ps1 ps2.
Proof.
  intros P. induction 1 as [|e1 e2 r1 r2 (Ei & Hm) H IH]; intros O1 O2 Hf id; cbn [refine_parts].
  { exists [], [], []. repeat split; auto. constructor. }
  inversion O1 as [|? ? (NZ1 & L1) O1']. inversion O2 as [|? ? (NZ2 & L2) O2']. subst.
  change (parts_bits (e2 :: r2)) with (bits (fst e2) ++ parts_bits r2) in *.
  destruct (split_match sg f1 f2 (mask_bits (fst e1) (fst e1)) (mask_bits (fst e2) (fst e2)) id P) as (ps1 & ps2 & fps & -> & -> & M).
  { rewrite (mask_bits_perm n) by auto. rewrite (mask_bits_perm n (fst e1)) by auto. now apply pm_bits. }
  { intros c Hc. apply (Permutation_in _ (mask_bits_perm n _ L2)) in Hc. now apply bits_In in Hc. }
  { intros E. apply (bits_nonempty n _ L1) in NZ1. apply NZ1. apply Permutation_nil. rewrite <- (mask_bits_perm n (fst e1)) by auto. now rewrite E. }
  { intros c Hc. apply Hf. apply in_or_app. left. now apply (Permutation_in _ (mask_bits_perm n _ L2)) in Hc. }
  destruct (IH O1' O2') with (id := id + length ps1) as (ps1' & ps2' & fps' & E1 & E2 & M').
  { intros c Hc. apply Hf. apply in_or_app. auto. }
  rewrite <- (Forall2_len _ _ _ M). rewrite E1, E2. exists (ps1 ++ ps1'), (ps2 ++ ps2'), (fps ++ fps'). repeat split; auto. apply Forall2_app; auto.
Qed.

(* ---------- sort_partition ---------- *)

Definition emeas (e : nat * nat) : nat := count_ones (fst e).

Lemma pm_count sg m1 m2 : is_perm n sg -> m1 < 2 ^ n -> m2 < 2 ^ n -> pm sg m1 m2 -> count_ones m1 = count_ones m2.
Proof. intros P L1 L2 H. rewrite !(count_ones_bits n) by auto. now apply (pm_length n sg). Qed.

Definition erel (sg : list nat) (e1 e2 : nat * nat) : Prop :=
  snd e1 = snd e2 /\ pm sg (fst e1) (fst e2) /\ fst e1 <> 0 /\ fst e1 < 2 ^ n /\ fst e2 <> 0 /\ fst e2 < 2 ^ n.

Lemma part_leb_match sg a1 a2 b1 b2 : is_perm n sg -> erel sg a1 a2 -> erel sg b1 b2 -> snd a1 <> snd b1 -> part_leb a1 b1 = part_leb a2 b2.
Proof.
  intros P (E1 & M1 & _ & L1 & _ & L2) (E2 & M2 & _ & L3 & _ & L4) N. unfold part_leb. cbv zeta.
  rewrite (pm_count sg (fst a1) (fst a2)), (pm_count sg (fst b1) (fst b2)) by auto. rewrite <- E1, <- E2.
  apply Nat.eqb_neq in N. rewrite N. reflexivity.
Qed.

Lemma insert_match sg a1 a2 l1 l2 : is_perm n sg -> erel sg a1 a2 -> Forall2 (erel sg) l1 l2 -> ~ In (snd a1) (map snd l1) ->
  Forall2 (erel sg) (insert_sorted part_leb a1 l1) (insert_sorted part_leb a2 l2).
Proof.
  intros P Ha. induction 1 as [|b1 b2 r1 r2 Hb H IH]; intros N; simpl in *. { repeat constructor; auto; apply Ha. }
  rewrite <- (part_leb_match sg a1 a2 b1 b2) by (auto; intuition congruence). destruct (part_leb a1 b1).
  - repeat (constructor; auto).
  - constructor; auto.
Qed.

Lemma isort_match sg l1 l2 : is_perm n sg -> Forall2 (erel sg) l1 l2 -> NoDup (map snd l1) ->
  Forall2 (erel sg) (isort part_leb l1) (isort part_leb l2).
Proof.
  intros P. induction 1 as [|b1 b2 r1 r2 Hb H IH]; intros N; simpl in *. constructor.
  apply NoDup_cons_iff in N. destruct N as (N1 & N2). apply insert_match; auto.
  intros Hin. apply N1. apply (Permutation_in _ (Permutation_map snd (isort_perm part_leb r1))). auto.
Qed.

Lemma take_singles_match sg l1 l2 : is_perm n sg -> Forall2 (erel sg) l1 l2 -> take_singles l1 = take_singles l2.
Proof.
  intros P. induction 1 as [|b1 b2 r1 r2 Hb H IH]; simpl; auto. destruct Hb as (_ & M & NZ1 & L1 & NZ2 & L2).
  rewrite !(is_single_bits n) by auto. rewrite (pm_length n sg _ _ P M). destruct (length (bits (fst b2)) =? 1); auto. now rewrite IH.
Qed.

Lemma pmatch_erel sg l1 l2 : pmatch sg l1 l2 -> parts_ok l1 -> parts_ok l2 -> Forall2 (erel sg) l1 l2.
Proof.
  induction 1 as [|e1 e2 r1 r2 (Ei & Hm) H IH]; intros O1 O2; constructor; inversion O1 as [|? ? (NZ1 & L1) O1']; inversion O2 as [|? ? (NZ2 & L2) O2']; subst; auto.
  repeat split; auto.
Qed.
Lemma erel_pmatch sg l1 l2 : Forall2 (erel sg) l1 l2 -> pmatch sg l1 l2.
Proof. apply Forall2_impl'. intros a b H. split; apply H. Qed.

Lemma take_singles_ok l : parts_ok l -> exists k, take_singles l = Some k.
Proof.
  induction 1 as [|e r (NZ & L) H IH]; simpl; eauto. rewrite (is_single_bits n) by auto. destruct (length (bits (fst e)) =? 1); eauto.
  destruct IH as (k & ->). simpl. eauto.
Qed.

Lemma parts_ok_perm l l' : Permutation l l' -> parts_ok l -> parts_ok l'.
Proof. intros P H. apply Forall_forall. intros e He. unfold parts_ok in H. rewrite Forall_forall in H. apply H. now apply (Permutation_in _ (Permutation_sym P)). Qed.

Lemma sort_ok c : parts_ok (c_part c) -> c_part c <> [] ->
  exists c', sort_partition c = Some c' /\ c_set c' = c_set c /\ c_perm c' = c_perm c /\ c_invert c' = c_invert c /\ c_fp c' = c_fp c /\
    Permutation (c_part c') (c_part c) /\ take_singles (rev (c_part c')) = Some (fst (c_score c')).
Proof.
  intros O NE. unfold sort_partition. set (p := isort part_leb (c_part c)). assert (P : Permutation p (c_part c)) by apply isort_perm.
  assert (Op : parts_ok p) by (eapply parts_ok_perm; [symmetry; exact P|auto]).
  destruct (take_singles_ok (rev p)) as (k & E). { eapply parts_ok_perm; [apply Permutation_rev|auto]. }
  rewrite E. destruct p as [|e r] eqn:Ep. { apply Permutation_nil in P. congruence. }
  eexists. split; [reflexivity|]. cbn [c_set c_perm c_invert c_fp c_part c_score fst]. repeat split; auto.
Qed.

Lemma sort_match sg c1 c2 : is_perm n sg -> pmatch sg (c_part c1) (c_part c2) -> parts_ok (c_part c1) -> parts_ok (c_part c2) ->
  NoDup (map snd (c_part c1)) -> forall d1 d2, sort_partition c1 = Some d1 -> sort_partition c2 = Some d2 ->
  pmatch sg (c_part d1) (c_part d2) /\ c_score d1 = c_score d2.
Proof.
  intros P M O1 O2 N d1 d2. unfold sort_partition.
  pose proof (isort_match sg _ _ P (pmatch_erel sg _ _ M O1 O2) N) as Mi.
  rewrite (take_singles_match sg _ _ P (Forall2_rev' _ _ _ Mi)).
  destruct (take_singles (rev (isort part_leb (c_part c2)))) as [k|]; [|discriminate].
  destruct Mi as [|e1 e2 r1 r2 He Hr]; [discriminate|]. intros E1 E2. injection E1 as <-. injection E2 as <-. cbn [c_part c_score]. split.
  - apply erel_pmatch. constructor; auto.
  - f_equal. destruct He as (_ & Hm & _ & L1 & _ & L2). now apply (pm_count sg).
Qed.

End Parts.
