(* The arena of CanonArenaModel holds the layers of CanonModel. *)
From Coq Require Import List Arith Bool Lia Permutation.
Import ListNotations.
From Verif Require Import Spec Vec Util OutputSetModel OutputSetProofs SubsumeModel CanonModel TreeModel CanonArenaModel IndexProofs.
From Verif Require PipeProofs SearchEdges CanonLoop.

Lemma swap_channels_length s a b : length (bitmap (swap_channels s a b)) = length (bitmap s).
Proof.
  unfold swap_channels. destruct (a =? b); auto. cbn [bitmap]. exact (pair_loop_length a b (fun u v => v) (fun u v => u) _ _).
Qed.

Lemma skipn_twice {A} (l : list A) : forall a b, skipn a (skipn b l) = skipn (b + a) l.
Proof. induction l as [|x l IH]; intros a b. now rewrite !skipn_nil. destruct b; cbn; auto. Qed.

Section Slots.
Implicit Types r : Arena.

Definition ok r : Prop := length (r_bitmaps r) = length (r_data r) * bitmap_len r.
Definition fit r (c : Cand) : Prop := channels (c_set c) = r_channels r /\ length (bitmap (c_set c)) = bitmap_len r.
(* the fields that a change of slots keeps *)
Definition same r r' : Prop := r_channels r' = r_channels r /\ r_used r' = r_used r /\ r_fixed r' = r_fixed r.
Definition same_lists r r' : Prop := same r r' /\ r_layer r' = r_layer r /\ r_next r' = r_next r.

Lemma same_refl r : same r r.
Proof. repeat split. Qed.
Lemma same_trans a b c : same a b -> same b c -> same a c.
Proof. unfold same. intros (A & B & C) (D & E & F). repeat split; congruence. Qed.
Lemma same_fit r r' c : same r r' -> fit r c -> fit r' c.
Proof. unfold same, fit, bitmap_len. intros (A & _) (B & C). rewrite A. auto. Qed.

Lemma get_bound r i : ok r -> i < length (r_data r) -> (i + 1) * bitmap_len r <= length (r_bitmaps r).
Proof. intros -> H. apply Nat.mul_le_mono_r. lia. Qed.

Lemma load_some r i : ok r -> i < length (r_data r) -> exists c, load r i = Some c /\ fit r c.
Proof.
  intros K H. pose proof (get_bound r i K H) as B. unfold load, get_set. cbv zeta. apply Nat.leb_le in B. rewrite B. apply Nat.leb_le in B.
  destruct (nth_error (r_data r) i) as [d|] eqn:E. 2: { apply nth_error_None in E. lia. }
  eexists. split. reflexivity. split; cbn. reflexivity. rewrite firstn_length, skipn_length. lia.
Qed.
Lemma load_lt r i c : load r i = Some c -> i < length (r_data r).
Proof.
  unfold load. destruct (get_set r i); [|discriminate]. destruct (nth_error (r_data r) i) eqn:E; [|discriminate]. intros _. apply nth_error_Some. congruence.
Qed.
Lemma load_fit r i c : ok r -> load r i = Some c -> fit r c.
Proof. intros K L. destruct (load_some r i K (load_lt r i c L)) as (c' & L' & F). congruence. Qed.
Lemma load_lists r fr l n i : load (with_lists r fr l n) i = load r i.
Proof. reflexivity. Qed.
Lemma load_next_fixed r i : load (next_fixed r) i = load r i.
Proof. reflexivity. Qed.

Lemma data_cand c : to_cand (c_set c) (data_of c) = c.
Proof. now destruct c. Qed.

Lemma slice_other (b : list bool) v i j len : (i + 1) * len <= length b -> length v = len -> i <> j ->
  firstn len (skipn (j * len) (firstn (i * len) b ++ v ++ skipn ((i + 1) * len) b)) = firstn len (skipn (j * len) b).
Proof.
  intros B V N. assert (L1 : length (firstn (i * len) b) = i * len) by (rewrite firstn_length; nia).
  destruct (Nat.lt_ge_cases j i) as [H|H].
  - assert (X : (j + 1) * len <= i * len) by (apply Nat.mul_le_mono_r; lia).
    rewrite skipn_app, L1. replace (j * len - i * len) with 0 by lia. cbn [skipn]. rewrite firstn_app, skipn_length, L1.
    replace (len - (i * len - j * len)) with 0 by lia. cbn [firstn]. rewrite app_nil_r, skipn_firstn_comm, firstn_firstn. f_equal. lia.
  - assert (X : (i + 1) * len <= j * len) by (apply Nat.mul_le_mono_r; lia).
    rewrite skipn_app, L1, (skipn_all2 (firstn (i * len) b)) by lia. cbn [app]. rewrite skipn_app, V, (skipn_all2 v) by lia. cbn [app]. rewrite skipn_twice.
    f_equal. f_equal. lia.
Qed.
Lemma slice_same (b : list bool) v i len : (i + 1) * len <= length b -> length v = len ->
  firstn len (skipn (i * len) (firstn (i * len) b ++ v ++ skipn ((i + 1) * len) b)) = v.
Proof.
  intros B V. assert (L1 : length (firstn (i * len) b) = i * len) by (rewrite firstn_length; nia).
  rewrite skipn_app, L1, Nat.sub_diag, (skipn_all2 (firstn (i * len) b)) by lia. cbn [app skipn]. rewrite firstn_app, V, Nat.sub_diag. cbn [firstn].
  rewrite app_nil_r. apply firstn_all2. lia.
Qed.

Lemma store_spec r i c : ok r -> i < length (r_data r) -> fit r c ->
  exists r', store r i c = Some r' /\ ok r' /\ same_lists r r' /\ r_free r' = r_free r /\ length (r_data r') = length (r_data r) /\
    load r' i = Some c /\ forall j, j <> i -> load r' j = load r j.
Proof.
  intros K H (F1 & F2). pose proof (get_bound r i K H) as B. unfold store. cbv zeta. rewrite F2, Nat.eqb_refl. apply Nat.ltb_lt in H as H'. rewrite H'.
  apply Nat.leb_le in B as B'. rewrite B'. cbn [andb]. eexists. split. reflexivity.
  assert (LB : length (firstn (i * bitmap_len r) (r_bitmaps r) ++ bitmap (c_set c) ++ skipn ((i + 1) * bitmap_len r) (r_bitmaps r)) = length (r_bitmaps r)).
  { rewrite !app_length, firstn_length, skipn_length, F2. nia. }
  assert (G : forall j, get_set (with_slots r (firstn (i * bitmap_len r) (r_bitmaps r) ++ bitmap (c_set c) ++ skipn ((i + 1) * bitmap_len r) (r_bitmaps r)) (upd (r_data r) i (data_of c))) j =
    if j =? i then Some (c_set c) else get_set r j).
  { intros j. unfold get_set. cbv zeta. unfold with_slots. cbn [r_bitmaps r_channels]. change (bitmap_len {| r_channels := r_channels r; r_used := r_used r; r_bitmaps := _; r_data := _; r_free := _; r_layer := _; r_next := _; r_fixed := _ |}) with (bitmap_len r).
    rewrite LB. destruct (Nat.eqb_spec j i) as [->|N].
    - rewrite B'. f_equal. rewrite slice_same; auto. destruct (c_set c); cbn in *. now subst.
    - destruct ((j + 1) * bitmap_len r <=? length (r_bitmaps r)); auto. f_equal. f_equal. apply slice_other; auto. }
  split. { unfold ok. cbn [with_slots r_bitmaps r_data]. rewrite LB, upd_length. exact K. }
  split. repeat split. split. reflexivity. split. { cbn. apply upd_length. }
  split.
  - unfold load. rewrite G, Nat.eqb_refl. cbn [with_slots r_data]. rewrite SearchEdges.nth_error_upd_eq by auto. now rewrite data_cand.
  - intros j N. unfold load. rewrite G. apply Nat.eqb_neq in N as N'. rewrite N'. cbn [with_slots r_data]. now rewrite SearchEdges.nth_error_upd_neq.
Qed.

(* one slot is taken from the free list, or a new one is made *)
Lemma alloc_spec r c : ok r -> fit r c -> (forall i, In i (r_free r) -> i < length (r_data r)) ->
  exists i r', alloc r c = Some (i, r') /\ ok r' /\ same_lists r r' /\ load r' i = Some c /\
    (forall j, j <> i -> j < length (r_data r) -> load r' j = load r j) /\
    (r_free r = i :: r_free r' /\ length (r_data r') = length (r_data r) \/
     r_free r = [] /\ r_free r' = [] /\ i = length (r_data r) /\ length (r_data r') = S (length (r_data r))).
Proof.
  intros K F B. unfold alloc. destruct (r_free r) as [|i fr] eqn:E.
  - exists (length (r_data r)). eexists. split. reflexivity. destruct F as (F1 & F2).
    assert (K' : ok (with_slots r (r_bitmaps r ++ bitmap (c_set c)) (r_data r ++ [data_of c]))).
    { unfold ok. cbn [with_slots r_bitmaps r_data]. change (bitmap_len (with_slots _ _ _)) with (bitmap_len r). rewrite !app_length, F2, K. cbn. lia. }
    assert (X : bitmap_len r + length (r_data r) * bitmap_len r = length (r_bitmaps r ++ bitmap (c_set c))) by (rewrite app_length, F2, K; lia).
    split; auto. split. repeat split. split; [|split].
    + unfold load, get_set. cbv zeta. cbn [with_slots r_bitmaps r_data r_channels]. change (bitmap_len (with_slots _ _ _)) with (bitmap_len r).
      replace (_ <=? _) with true by (symmetry; apply Nat.leb_le; nia). rewrite nth_error_app2, Nat.sub_diag by lia. cbn [nth_error].
      rewrite skipn_app, <- K, skipn_all, Nat.sub_diag. cbn [skipn app]. rewrite firstn_all2 by lia.
      destruct c as [s p v f q sc]; destruct s; cbn in *; subst; reflexivity.
    + intros j _ H. unfold load, get_set. cbv zeta. cbn [with_slots r_bitmaps r_data r_channels]. change (bitmap_len (with_slots _ _ _)) with (bitmap_len r).
      pose proof (get_bound r j K H) as Bj. replace ((j + 1) * bitmap_len r <=? length (r_bitmaps r)) with true by (symmetry; apply Nat.leb_le; auto).
      replace ((j + 1) * bitmap_len r <=? _) with true by (symmetry; apply Nat.leb_le; rewrite app_length; lia).
      rewrite nth_error_app1 by auto. rewrite skipn_app, firstn_app, skipn_length.
      replace (bitmap_len r - (length (r_bitmaps r) - j * bitmap_len r)) with 0 by nia. cbn [firstn]. now rewrite app_nil_r.
    + right. cbn [with_slots r_free r_data]. rewrite E, app_length. cbn. repeat split; auto. lia.
  - destruct (store_spec (with_lists r fr (r_layer r) (r_next r)) i c) as (r' & -> & K' & S & Fr & L & Li & Lj); auto. { apply B. now left. }
    exists i, r'. split. reflexivity. split; auto. split; auto. split; auto. split. intros j N _. apply Lj; auto. left. rewrite Fr. cbn. auto.
Qed.

(* ---- layers ---- *)
Definition reads r (l : list nat) (cs : list Cand) : Prop := Forall2 (fun i c => load r i = Some c) l cs.
Definition slots r (extra : list nat) : Prop := ok r /\ Permutation (extra ++ r_layer r ++ r_next r ++ r_free r) (seq 0 (length (r_data r))).
Definition rep r (z : Canonicalize) : Prop :=
  slots r [] /\ r_next r = [] /\ r_used r = z_used z /\ r_fixed r = z_fixed z /\ reads r (r_layer r) (z_layer z).

Lemma reads_map r l cs : reads r l cs -> map_opt (load r) l = Some cs.
Proof. induction 1 as [|i c l cs H _ IH]; cbn; auto. now rewrite H, IH. Qed.
Lemma reads_length r l cs : reads r l cs -> length l = length cs.
Proof. induction 1; cbn; congruence. Qed.
Lemma reads_In r l cs i : reads r l cs -> In i l -> exists c, load r i = Some c /\ In c cs.
Proof. induction 1 as [|j c l cs H _ IH]; intros Hi. destruct Hi. destruct Hi as [<-|Hi]. exists c. split; auto. now left. destruct (IH Hi) as (c' & A & B). exists c'. split; auto. now right. Qed.
Lemma reads_keep r r' l cs : (forall i, In i l -> load r' i = load r i) -> reads r l cs -> reads r' l cs.
Proof. intros H R. induction R as [|i c l cs L R IH]; constructor. rewrite H; auto. now left. apply IH. intros j Hj. apply H. now right. Qed.
Lemma reads_app r l cs l' cs' : reads r l cs -> reads r l' cs' -> reads r (l ++ l') (cs ++ cs').
Proof. apply Forall2_app. Qed.

Lemma slots_lt r extra i : slots r extra -> In i (extra ++ r_layer r ++ r_next r ++ r_free r) -> i < length (r_data r).
Proof. intros (_ & P) H. apply (Permutation_in _ P) in H. apply in_seq in H. lia. Qed.
Lemma slots_nodup r extra : slots r extra -> NoDup (extra ++ r_layer r ++ r_next r ++ r_free r).
Proof. intros (_ & P). apply (Permutation_NoDup (Permutation_sym P)). apply seq_NoDup. Qed.

Lemma change_all F r0 : (forall c c', fit r0 c -> F c = Some c' -> fit r0 c') -> forall l r cs, ok r -> same r0 r -> NoDup l -> reads r l cs ->
  match map_opt F cs with
  | None => fold_opt (change_slot F) l r = None
  | Some cs' => exists r', fold_opt (change_slot F) l r = Some r' /\ ok r' /\ same_lists r r' /\ r_free r' = r_free r /\ length (r_data r') = length (r_data r) /\
      reads r' l cs' /\ forall j, ~ In j l -> load r' j = load r j
  end.
Proof.
  intros HF l. induction l as [|i l IH]; intros r cs K S N R; inversion R as [|? c ? cs0 L R0]; subst; cbn [map_opt fold_opt].
  - exists r. repeat split; auto.
  - apply NoDup_cons_iff in N. destruct N as (Ni & N). assert (CS : change_slot F r i = match F c with Some c' => store r i c' | None => None end) by (unfold change_slot; now rewrite L).
    destruct (F c) as [c'|] eqn:Fc; rewrite CS; clear CS. 2: { reflexivity. }
    assert (Fi : fit r c'). { apply (same_fit r0); auto. apply (HF c); auto. apply load_fit in L; auto. destruct S as (S & _). unfold fit, bitmap_len in *. now rewrite S in L. }
    destruct (store_spec r i c' K (load_lt _ _ _ L) Fi) as (r1 & E1 & K1 & S1 & Fr1 & D1 & L1 & O1). rewrite E1.
    assert (R1 : reads r1 l cs0). { apply (reads_keep r); auto. intros j Hj. apply O1. intros ->. contradiction. }
    specialize (IH r1 cs0 K1 (same_trans _ _ _ S (proj1 S1)) N R1). destruct (map_opt F cs0) as [cs1|]; auto.
    destruct IH as (r' & E' & K' & S' & Fr' & D' & R' & O'). exists r'. split; auto. split; auto.
    destruct S1 as (S1 & S1a & S1b), S' as (S' & Sa' & Sb'). split. { split. eapply same_trans; eauto. split; congruence. }
    split. congruence. split. congruence. split.
    + constructor; auto. rewrite O'; auto.
    + intros j Hj. rewrite O', O1; auto. intros ->. apply Hj. now left. intros H. apply Hj. now right.
Qed.
Lemma change_layer_rep F r z : (forall c c', fit r c -> F c = Some c' -> fit r c') -> rep r z ->
  match map_opt F (z_layer z) with
  | None => change_layer F r = None
  | Some l => exists r', change_layer F r = Some r' /\ same r r' /\ rep r' (mkCanonicalize (z_used z) (z_fixed z) l)
  end.
Proof.
  intros HF ((K & P) & Nx & U & Fx & R). unfold change_layer.
  assert (N : NoDup (r_layer r)). { pose proof (slots_nodup r [] (conj K P)) as N. cbn [app] in N. now apply PipeProofs.NoDup_app_l in N. }
  pose proof (change_all F r HF (r_layer r) r (z_layer z) K (same_refl r) N R) as H. destruct (map_opt F (z_layer z)) as [l|]; auto.
  destruct H as (r' & E & K' & (S & La & Ne) & Fr & D & R' & _). exists r'. split; auto. split; auto. split; [split|]; auto.
  - cbn [app] in *. now rewrite La, Ne, Fr, D.
  - destruct S as (S1 & S2 & S3). cbn [z_used z_fixed z_layer]. rewrite La, Ne, S2, S3. auto.
Qed.

Lemma filter_split {A} (f : A -> bool) l : Permutation (filter f l ++ filter (fun x => negb (f x)) l) l.
Proof.
  induction l as [|a l IH]; cbn; auto. destruct (f a); cbn. now apply perm_skip. rewrite <- Permutation_middle. now apply perm_skip.
Qed.
Lemma reads_filter r l cs keep keepc : (forall i c, In i l -> load r i = Some c -> keep i = keepc c) -> reads r l cs -> reads r (filter keep l) (filter keepc cs).
Proof.
  intros H R. induction R as [|i c l cs L R IH]; cbn. constructor. rewrite (H i c (or_introl eq_refl) L). specialize (IH (fun j d Hj => H j d (or_intror Hj))).
  destruct (keepc c); auto. now constructor.
Qed.
Lemma retain_slots keep r : slots r [] -> slots (retain keep r) [].
Proof.
  intros (K & P). split. exact K. unfold retain. cbn [with_lists r_layer r_next r_free r_data app] in *. rewrite <- P.
  rewrite <- Permutation_rev. transitivity ((filter keep (r_layer r) ++ filter (fun i => negb (keep i)) (r_layer r)) ++ r_next r ++ r_free r).
  - rewrite <- !app_assoc. apply Permutation_app_head. rewrite !app_assoc. apply Permutation_app_tail. apply Permutation_app_comm.
  - apply Permutation_app_tail. apply filter_split.
Qed.
Lemma retain_rep keep keepc r z : (forall i c, In i (r_layer r) -> load r i = Some c -> keep i = keepc c) -> rep r z ->
  rep (retain keep r) (mkCanonicalize (z_used z) (z_fixed z) (filter keepc (z_layer z))).
Proof.
  intros H (S & Nx & U & Fx & R). split. now apply retain_slots. cbn. repeat split; auto. apply (reads_filter r); auto.
Qed.

(* ---- prune_using_fingerprints ---- *)
Lemma best_index_spec r : forall l cs i c, reads r l cs -> load r i = Some c -> exists m, best_index r i l = Some m /\ load r m = Some (best_score c cs) /\ In m (i :: l).
Proof.
  intros l cs i c R. revert i c. induction R as [|x d l cs L R IH]; intros i c Hi; unfold best_index, best_score; cbn [fold_opt fold_left].
  - exists i. auto with datatypes.
  - rewrite Hi, L. destruct (score_cmp c d).
    + destruct (IH i c Hi) as (m & A & B & C). exists m. split; auto. split; auto. cbn in *. tauto.
    + destruct (IH x d L) as (m & A & B & C). exists m. split; auto. split; auto. cbn in *. tauto.
    + destruct (IH i c Hi) as (m & A & B & C). exists m. split; auto. split; auto. cbn in *. tauto.
Qed.
Lemma prune_fp_rep r z : rep r z ->
  match prune_using_fingerprints z with
  | None => arena_prune_fp r = None
  | Some z' => exists r', arena_prune_fp r = Some r' /\ same r r' /\ rep r' z'
  end.
Proof.
  intros H. pose proof H as (S & Nx & U & Fx & R). unfold prune_using_fingerprints, arena_prune_fp.
  destruct (z_layer z) as [|c cs] eqn:Ez; inversion R as [|i ? l ? L R0 El]; subst; auto.
  destruct (best_index_spec r l cs i c R0 L) as (m & -> & Lm & _). rewrite Lm. rewrite El, (reads_map _ _ _ R). eexists. split. reflexivity. split. repeat split.
  rewrite <- Ez. apply retain_rep; auto. intros x d _ Lx. now rewrite Lx.
Qed.

(* ---- move_singleton ---- *)
Lemma move_fit r f a c : fit r c -> fit r (move_cand f a c).
Proof.
  intros (A & B). unfold move_cand. destruct (a =? f); split; cbn [c_set]; auto. now rewrite swap_channels_channels. now rewrite swap_channels_length.
Qed.
Lemma move_spec : forall l r cs, ok r -> NoDup l -> reads r l cs ->
  match move_layer (r_fixed r) cs with
  | None => arena_move l r = None
  | Some (b, cs') => exists r', arena_move l r = Some (b, if b then next_fixed r' else r') /\ ok r' /\ same_lists r r' /\ r_free r' = r_free r /\ length (r_data r') = length (r_data r) /\
      reads r' l cs' /\ forall j, ~ In j l -> load r' j = load r j
  end.
Proof.
  induction l as [|i l IH]; intros r cs K N R; inversion R as [|? c ? cs0 L R0]; subst; cbn [move_layer arena_move].
  - exists r. repeat split; auto.
  - apply NoDup_cons_iff in N. destruct N as (Ni & N). rewrite L. destruct (rev (c_part c)) as [|e q].
    { exists r. repeat split; auto. }
    destruct (is_single (fst e)) as [[|]|]; auto. 2: { exists r. repeat split; auto. }
    destruct (store_spec r i (move_cand (r_fixed r) (ctz (fst e)) c) K (load_lt _ _ _ L)) as (r1 & E1 & K1 & (S1 & S1a & S1b) & Fr1 & D1 & L1 & O1). { apply move_fit. eapply load_fit; eauto. }
    rewrite E1.
    assert (R1 : reads r1 l cs0). { apply (reads_keep r); auto. intros j Hj. apply O1. intros ->. contradiction. }
    specialize (IH r1 cs0 K1 N R1). replace (r_fixed r1) with (r_fixed r) in IH by (symmetry; apply S1). destruct (move_layer (r_fixed r) cs0) as [(b, cs1)|]; auto.
    destruct IH as (r' & E' & K' & (S' & Sa' & Sb') & Fr' & D' & R' & O'). exists r'. split; auto. split; auto.
    split. { split. eapply same_trans; eauto. split; congruence. } split. congruence. split. congruence. split.
    + constructor; auto. rewrite O'; auto.
    + intros j Hj. rewrite O', O1; auto. intros ->. apply Hj. now left. intros H. apply Hj. now right.
Qed.
Lemma move_rep r z : rep r z ->
  match move_singleton z with
  | None => arena_move_singleton r = None
  | Some (b, z') => exists r', arena_move_singleton r = Some (b, r') /\ r_channels r' = r_channels r /\ r_used r' = r_used r /\ rep r' z'
  end.
Proof.
  intros ((K & P) & Nx & U & Fx & R). unfold move_singleton, arena_move_singleton.
  assert (N : NoDup (r_layer r)). { pose proof (slots_nodup r [] (conj K P)) as N. cbn [app] in N. now apply PipeProofs.NoDup_app_l in N. }
  pose proof (move_spec (r_layer r) r (z_layer z) K N R) as H. rewrite <- Fx. destruct (move_layer (r_fixed r) (z_layer z)) as [(b, cs)|]; auto.
  destruct H as (r' & E & K' & ((S1 & S2 & S3) & La & Ne) & Fr & D & R' & _). cbn [app] in P.
  destruct b; (eexists; split; [exact E|]); (split; [exact S1|]); (split; [exact S2|]); (split; [split; [exact K'|cbn; now rewrite La, Ne, Fr, D]|]); cbn; rewrite La, Ne, S2, S3, ?Fx; auto.
Qed.
Lemma moves_rep fuel : forall b r z, rep r z ->
  match move_singletons fuel b z with
  | None => arena_move_singletons fuel b r = None
  | Some (b', z') => exists r', arena_move_singletons fuel b r = Some (b', r') /\ r_channels r' = r_channels r /\ r_used r' = r_used r /\ rep r' z'
  end.
Proof.
  induction fuel as [|f IH]; intros b r z H; cbn [move_singletons arena_move_singletons]; auto.
  pose proof (move_rep r z H) as M. destruct (move_singleton z) as [([|], z1)|]. 3: { now rewrite M. }
  - destruct M as (r1 & -> & C & U & R1). specialize (IH true r1 z1 R1). destruct (move_singletons f true z1) as [(b', z')|]; auto.
    destruct IH as (r' & -> & C' & U' & R'). exists r'. split; auto. split. congruence. split; auto. congruence.
  - destruct M as (r1 & -> & C & U & R1). exists r1. auto.
Qed.

(* ---- prune ---- *)
Lemma min_index_spec r : forall l cs i c, reads r l cs -> load r i = Some c -> exists m, min_index r i l = Some m /\ load r m = Some (min_set c cs) /\ In m (i :: l).
Proof.
  intros l cs i c R. revert i c. induction R as [|x d l cs L R IH]; intros i c Hi; unfold min_index, min_set; cbn [fold_opt fold_left].
  - exists i. auto with datatypes.
  - rewrite Hi, L. destruct (set_leb c d).
    + destruct (IH i c Hi) as (m & A & B & C). exists m. split; auto. split; auto. cbn in *. tauto.
    + destruct (IH x d L) as (m & A & B & C). exists m. split; auto. split; auto. cbn in *. tauto.
Qed.
Lemma filter_one m l : NoDup l -> In m l -> filter (fun x => x =? m) l = [m].
Proof.
  induction l as [|a l IH]; intros N H. destruct H. apply NoDup_cons_iff in N. destruct N as (Na & N). cbn. destruct (Nat.eqb_spec a m) as [->|D].
  - f_equal. clear IH H. induction l as [|b l IHl]; cbn; auto. destruct (Nat.eqb_spec b m) as [->|D]. exfalso. apply Na. now left. apply IHl. intros H. apply Na. now right. now apply NoDup_cons_iff in N.
  - destruct H as [H|H]; [congruence|]. auto.
Qed.
Fixpoint dedup_from (c : Cand) (l : list Cand) : list Cand :=
  match l with
  | [] => []
  | d :: l' => if os_eqb (c_set d) (c_set c) then dedup_from c l' else d :: dedup_from d l'
  end.
Lemma dedup_from_same c d l : bitmap (c_set c) = bitmap (c_set d) -> dedup_from c l = dedup_from d l.
Proof. intros E. induction l as [|x l IH]; cbn; auto. replace (os_eqb (c_set x) (c_set c)) with (os_eqb (c_set x) (c_set d)). now rewrite IH. unfold os_eqb. now rewrite E. Qed.
Lemma dedup_sets_from l : forall c, dedup_sets (c :: l) = c :: dedup_from c l.
Proof.
  induction l as [|d l IH]; intros c. reflexivity. change (dedup_sets (c :: d :: l)) with
    (match dedup_sets (d :: l) with e :: r' => if os_eqb (c_set e) (c_set c) then c :: r' else c :: e :: r' | [] => [c] end).
  rewrite IH. cbn [dedup_from]. destruct (os_eqb (c_set d) (c_set c)) eqn:E; auto. f_equal. apply dedup_from_same. now apply CanonLoop.os_eqb_bitmap.
Qed.
Lemma dedup_index_spec r : forall l cs i c fr, reads r l cs -> load r i = Some c -> exists k fr', dedup_index r i l fr = Some (k, fr') /\
  reads r k (dedup_from c cs) /\ Permutation (k ++ fr') (l ++ fr).
Proof.
  intros l cs i c fr R. revert i c fr. induction R as [|x d l cs L R IH]; intros i c fr Hi; cbn [dedup_index dedup_from].
  - exists [], fr. repeat split; auto. constructor.
  - rewrite L, Hi. destruct (os_eqb (c_set d) (c_set c)).
    + destruct (IH i c (x :: fr) Hi) as (k & fr' & A & B & C). exists k, fr'. repeat split; auto. rewrite C. symmetry. apply Permutation_middle.
    + destruct (IH x d fr L) as (k & fr' & A & B & C). rewrite A. exists (x :: k), fr'. repeat split; auto. now constructor. cbn. now rewrite C.
Qed.
Lemma insert_reads r : forall l cs i c, reads r l cs -> load r i = Some c -> reads r (insert_sorted (index_leb r) i l) (insert_sorted set_leb c cs).
Proof.
  intros l cs i c R Hi. induction R as [|x d l cs L R IH]; cbn [insert_sorted]. { constructor; auto. }
  assert (X : index_leb r i x = set_leb c d) by (unfold index_leb; now rewrite Hi, L). rewrite X.
  destruct (set_leb c d); constructor; auto.
Qed.
Lemma isort_reads r l cs : reads r l cs -> reads r (isort (index_leb r) l) (isort set_leb cs).
Proof. induction 1 as [|x d l cs L R IH]; cbn [isort]. constructor. now apply insert_reads. Qed.

Lemma set_fp0_fit hash f r c c' : fit r c -> set_fp0 hash f c = Some c' -> fit r c'.
Proof. unfold set_fp0. intros F H. destruct (c_fp c); [discriminate|]. injection H as <-. exact F. Qed.

Lemma prune_rep hash recompute r z : rep r z ->
  match prune hash recompute z with
  | None => arena_prune hash recompute r = None
  | Some z' => exists r', arena_prune hash recompute r = Some r' /\ same r r' /\ rep r' z'
  end.
Proof.
  intros H. pose proof H as ((K & P) & Nx & U & Fx & R). unfold prune, arena_prune. rewrite (reads_length _ _ _ R). destruct (length (z_layer z) =? 1).
  { exists r. split; auto. split; auto. apply same_refl. }
  rewrite (reads_map _ _ _ R), U, Fx. cbv zeta.
  assert (N : NoDup (r_layer r)). { pose proof (slots_nodup r [] (conj K P)) as N. cbn [app] in N. now apply PipeProofs.NoDup_app_l in N. }
  destruct (z_fixed z =? z_used z).
  - destruct (z_layer z) as [|c cs] eqn:Ez; inversion R as [|i ? l ? L R0 El]; subst; auto.
    destruct (min_index_spec r l cs i c R0 L) as (m & -> & Lm & Im). eexists. split. reflexivity. split. repeat split.
    split. apply retain_slots. split; auto. cbn. repeat split; auto. rewrite El in Im. rewrite (filter_one m (r_layer r) N Im). constructor; auto.
  - pose proof (isort_reads r _ _ R) as Rs. pose proof (isort_perm' (index_leb r) (r_layer r)) as Ps.
    assert (X : exists l fr, match isort (index_leb r) (r_layer r) with
                | [] => Some ([], r_free r)
                | i :: l => match dedup_index r i l (r_free r) with Some (k, fr) => Some (i :: k, fr) | None => None end
                end = Some (l, fr) /\ reads r l (dedup_sets (isort set_leb (z_layer z))) /\ Permutation (l ++ fr) (r_layer r ++ r_free r)).
    { destruct (isort (index_leb r) (r_layer r)) as [|i l] eqn:Ei; inversion Rs as [|? c ? cs L R0 E1 E2]; subst.
      - exists [], (r_free r). repeat split; auto. constructor. now rewrite <- Ps.
      - rewrite dedup_sets_from. destruct (dedup_index_spec r l cs i c (r_free r) R0 L) as (k & fr & -> & Rk & Pk). exists (i :: k), fr. repeat split; auto. now constructor.
        rewrite <- Ps. cbn. now rewrite Pk. }
    destruct X as (l & fr & -> & Rl & Pl). rewrite (reads_length _ _ _ Rl). set (z1 := mkCanonicalize (z_used z) (z_fixed z) (dedup_sets (isort set_leb (z_layer z)))).
    assert (R1 : rep (with_lists r fr l (r_next r)) z1).
    { split. split. exact K. cbn [app with_lists r_layer r_next r_free r_data] in *. rewrite Nx in *. cbn [app] in *. now rewrite Pl. cbn. auto. }
    destruct ((length (dedup_sets (isort set_leb (z_layer z))) =? 1) || negb recompute).
    { eexists. split. reflexivity. split. repeat split. exact R1. }
    pose proof (change_layer_rep (set_fp0 hash (z_fixed z)) _ z1 (set_fp0_fit hash (z_fixed z) _) R1) as C. cbn [z1 z_layer] in C.
    destruct (map_opt (set_fp0 hash (z_fixed z)) (dedup_sets (isort set_leb (z_layer z)))) as [cs|]. 2: { now rewrite C. }
    destruct C as (r2 & -> & S2 & R2). pose proof R2 as (_ & _ & _ & _ & Rd). rewrite (reads_map _ _ _ Rd). cbn [z_layer z_used z_fixed z1].
    eexists. split. reflexivity. split. exact S2.
    refine (retain_rep _ (fun c => nth 0 (c_fp c) 0 =? fold_left Nat.max (map (fun c => nth 0 (c_fp c) 0) cs) 0) r2 _ _ R2).
    intros i c _ L. now rewrite L.
Qed.

(* ---- individualize ---- *)
Lemma individual_fit r f a c e : fit r c -> fit r (individual_cand f a c e).
Proof. intros (A & B). unfold individual_cand. split; cbn [c_set]. now rewrite swap_channels_channels. now rewrite swap_channels_length. Qed.

Definition ind_rel r0 (extra : list nat) (cs : list Cand) (st : nat * list Cand) (ast : nat * Arena) : Prop :=
  fst ast = fst st /\ same r0 (snd ast) /\ slots (snd ast) extra /\ r_layer (snd ast) = [] /\ reads (snd ast) extra cs /\ reads (snd ast) (r_next (snd ast)) (snd st).

Lemma individualize_channel_rep hash r0 index extra c cs e q st ast source :
  ind_rel r0 (index :: extra) (c :: cs) st ast -> rev (c_part c) = e :: q ->
  exists ast', arena_individualize_channel hash index ast source = Some ast' /\
    ind_rel r0 (index :: extra) (c :: cs) (individualize_channel hash (r_fixed r0) c e st source) ast'.
Proof.
  destruct st as (mx, nl), ast as (mx', r). unfold ind_rel. cbn [fst snd]. intros (-> & Sm & Sl & La & Re & Rn) Ep.
  assert (L : load r index = Some c) by (inversion Re; auto).
  unfold arena_individualize_channel, individualize_channel. rewrite L. cbn [fst snd]. replace (r_fixed r) with (r_fixed r0) by (symmetry; apply Sm).
  set (fp := low_channels_fingerprint hash (swap_channels (c_set c) source (r_fixed r0)) (S (r_fixed r0))). cbv zeta. rewrite Ep.
  pose proof (individual_fit r (r_fixed r0) source c e (load_fit _ _ _ (proj1 Sl) L)) as Fi.
  set (new := individual_cand (r_fixed r0) source c e) in *.
  assert (STEP : forall r1 (m1 : nat) (nl1 : list Cand), r1 = with_lists r (r_free r1) [] (r_next r1) -> slots r1 (index :: extra) -> reads r1 (r_next r1) nl1 -> reads r1 (index :: extra) (c :: cs) ->
    exists ast' : nat * Arena, match alloc r1 new with Some (i, r2) => Some (m1, with_lists r2 (r_free r2) (r_layer r2) (r_next r2 ++ [i])) | None => None end = Some ast' /\
      fst ast' = m1 /\ same r0 (snd ast') /\ slots (snd ast') (index :: extra) /\ r_layer (snd ast') = [] /\ reads (snd ast') (index :: extra) (c :: cs) /\
      reads (snd ast') (r_next (snd ast')) (nl1 ++ [new])).
  { intros r1 m1 nl1 E1 S1 Rn1 Re1. assert (F1 : fit r1 new) by (rewrite E1; exact Fi).
    assert (B1 : forall i, In i (r_free r1) -> i < length (r_data r1)). { intros i Hi. apply (slots_lt r1 _ i S1). rewrite !in_app_iff. tauto. }
    destruct (alloc_spec r1 new (proj1 S1) F1 B1) as (i & r2 & -> & K2 & (S2 & La2 & Ne2) & L2 & O2 & Fr2). eexists. split. reflexivity. cbn [fst snd with_lists r_layer r_next].
    assert (La1 : r_layer r1 = []) by (rewrite E1; reflexivity). rewrite La1 in La2.
    assert (Ni : ~ In i ((index :: extra) ++ r_next r1) /\ Permutation (i :: (index :: extra) ++ r_next r1 ++ r_free r2) (seq 0 (length (r_data r2)))).
    { destruct S1 as (_ & P1). rewrite La1 in P1. cbn [app] in P1. destruct Fr2 as [(Fr & D2)|(Fr & Fr' & Ei & D2)].
      - rewrite Fr in P1. rewrite D2. assert (P2 : Permutation (i :: (index :: extra) ++ r_next r1 ++ r_free r2) (seq 0 (length (r_data r1)))).
        { rewrite <- P1. rewrite (app_assoc (index :: extra)), (app_comm_cons extra), (app_assoc (index :: extra)). apply Permutation_middle. }
        split; auto. pose proof (Permutation_NoDup (Permutation_sym P2) (seq_NoDup _ _)) as N. apply NoDup_cons_iff in N. intros Hi. apply (proj1 N). rewrite app_assoc. apply in_or_app. now left.
      - rewrite Fr in P1. rewrite app_nil_r in P1. rewrite Fr', D2, app_nil_r, seq_S, Nat.add_0_l. split.
        + intros Hi. change (In i (index :: extra ++ r_next r1)) in Hi. apply (Permutation_in _ P1) in Hi. apply in_seq in Hi. lia.
        + rewrite Ei. change ((index :: extra) ++ r_next r1) with (index :: extra ++ r_next r1). rewrite P1. symmetry. apply Permutation_app_comm with (l' := [_]). }
    destruct Ni as (Ni & P2).
    assert (O : forall j, In j ((index :: extra) ++ r_next r1) -> load r2 j = load r1 j).
    { intros j Hj. apply O2. intros ->. contradiction. apply (slots_lt r1 _ j S1). rewrite !in_app_iff in *. tauto. }
    split; auto. split. { eapply same_trans; [exact Sm|]. rewrite E1 in S2. exact S2. }
    split. { split. exact K2. cbn [with_lists r_layer r_next r_free r_data]. rewrite La2. cbn [app]. rewrite <- P2, Ne2, <- app_assoc. cbn [app].
      change (index :: extra ++ r_next r1 ++ i :: r_free r2) with ((index :: extra) ++ r_next r1 ++ i :: r_free r2). rewrite !app_assoc. symmetry. exact (Permutation_middle (index :: extra ++ r_next r1) (r_free r2) i). }
    split. exact La2. split. { apply (reads_keep r1). intros j Hj. apply O. apply in_or_app. now left. exact Re1. }
    rewrite Ne2. apply reads_app. apply (reads_keep r1); auto. intros j Hj. apply O. apply in_or_app. now right. constructor; auto. }
  destruct (Nat.ltb_spec fp mx) as [H|H].
  - replace (mx <? fp) with false by (symmetry; apply Nat.ltb_ge; lia). eexists. split. reflexivity. cbn [fst snd]. auto 10.
  - destruct (Nat.ltb_spec mx fp) as [H'|H'].
    + destruct (STEP (with_lists r (rev (r_next r) ++ r_free r) (r_layer r) []) fp []) as (ast' & E' & X); auto.
      { cbn. now rewrite La. }
      { split. exact (proj1 Sl). destruct Sl as (_ & P). cbn [with_lists r_layer r_next r_free r_data]. rewrite <- P, La. cbn [app]. now rewrite <- Permutation_rev. }
      { constructor. }
      exists ast'. split. exact E'. cbn [fst snd]. exact X.
    + destruct (STEP r fp nl) as (ast' & E' & X); auto. { destruct r; cbn in *. now subst. } exists ast'. split. exact E'. cbn [fst snd]. replace mx with fp by lia. exact X.
Qed.
Lemma individualize_channels_rep hash r0 index extra c cs e q : rev (c_part c) = e :: q -> forall l st ast, ind_rel r0 (index :: extra) (c :: cs) st ast ->
  exists ast', fold_opt (arena_individualize_channel hash index) l ast = Some ast' /\
    ind_rel r0 (index :: extra) (c :: cs) (fold_left (individualize_channel hash (r_fixed r0) c e) l st) ast'.
Proof.
  intros Ep l. induction l as [|x l IH]; intros st ast H; cbn [fold_opt fold_left]. eauto.
  destruct (individualize_channel_rep hash r0 index extra c cs e q st ast x H Ep) as (a1 & -> & H1). apply IH. exact H1.
Qed.
Lemma individualize_slots_rep hash r0 : forall extra cs st ast, ind_rel r0 extra cs st ast ->
  match fold_opt (individualize_cand hash (r_fixed r0)) cs st with
  | None => fold_opt (arena_individualize_slot hash) extra ast = None
  | Some st' => exists ast', fold_opt (arena_individualize_slot hash) extra ast = Some ast' /\ ind_rel r0 [] [] st' ast'
  end.
Proof.
  induction extra as [|i extra IH]; intros cs st ast H; pose proof H as (H1 & H2 & H3 & H4 & H5 & H6); inversion H5 as [|? c ? cs0 L R0]; subst; cbn [fold_opt].
  - exists ast. auto.
  - assert (AS : arena_individualize_slot hash ast i = match rev (c_part c) with
      | [] => None
      | last :: _ => match fold_opt (arena_individualize_channel hash i) (mask_bits (fst last) (fst last)) ast with
                     | Some (max, r) => Some (max, with_lists r (i :: r_free r) (r_layer r) (r_next r))
                     | None => None
                     end
      end) by (unfold arena_individualize_slot; now rewrite L).
    rewrite AS. clear AS. unfold individualize_cand at 1. destruct (rev (c_part c)) as [|e q] eqn:Ep; auto.
    destruct (individualize_channels_rep hash r0 i extra c cs0 e q Ep (mask_bits (fst e) (fst e)) st ast H) as ((m, r) & -> & G1 & G2 & G3 & G4 & G5 & G6). cbn [fst snd] in *.
    apply IH. split; auto. cbn [snd]. split. exact G2. split; [|split; [exact G4|split; [|exact G6]]].
    + destruct G3 as (K & P). split. exact K. cbn [with_lists r_layer r_next r_free r_data]. rewrite <- P, G4. cbn [app]. rewrite app_assoc. rewrite <- Permutation_middle. now rewrite app_assoc.
    + inversion G5; auto.
Qed.
Lemma individualize_rep hash r z : rep r z ->
  match individualize hash z with
  | None => arena_individualize hash r = None
  | Some z' => exists r', arena_individualize hash r = Some r' /\ r_channels r' = r_channels r /\ r_used r' = r_used r /\ rep r' z'
  end.
Proof.
  intros ((K & P) & Nx & U & Fx & R). unfold individualize, arena_individualize. rewrite <- Fx.
  assert (I : ind_rel r (r_layer r) (z_layer z) (0, []) (0, with_lists r (r_free r) [] (r_next r))).
  { split; auto. cbn [snd with_lists r_layer r_next]. split. repeat split. split; [|split; [|split]]; auto. { split. exact K. cbn [with_lists r_layer r_next r_free r_data app] in *. exact P. }
    rewrite Nx. constructor. }
  pose proof (individualize_slots_rep hash r (r_layer r) (z_layer z) _ _ I) as H. destruct (fold_opt (individualize_cand hash (r_fixed r)) (z_layer z) (0, [])) as [(m, l)|].
  2: { now rewrite H. }
  destruct H as ((m', r') & -> & H1 & (S1 & S2 & S3) & (K' & P') & H4 & H5 & H6). cbn [fst snd] in *. eexists. split. reflexivity. split. exact S1. split. exact S2.
  split; [split|]. exact K'. { cbn in *. rewrite H4 in *. cbn [app] in *. exact P'. } cbn. rewrite S2, S3, H4. auto.
Qed.

(* ---- refine, initialize_partitions ---- *)
Lemma sort_partition_set c c' : sort_partition c = Some c' -> c_set c' = c_set c.
Proof. unfold sort_partition. destruct (take_singles _); [|discriminate]. destruct (isort _ _); [discriminate|]. intros H. now injection H as <-. Qed.
Lemma set_same_fit r c c' : c_set c' = c_set c -> fit r c -> fit r c'.
Proof. unfold fit. now intros ->. Qed.
Lemma refine_fit hash f r c c' : fit r c -> refine_cand hash f c = Some c' -> fit r c'.
Proof.
  unfold refine_cand. intros F H. destruct (refine_parts _ _ _) as [(p, fp)|]; [|discriminate]. destruct (fits p && fits fp); [|discriminate].
  apply sort_partition_set in H. apply (set_same_fit r c); auto.
Qed.
Lemma initialize_fit u r c c' : fit r c -> initialize_cand u c = Some c' -> fit r c'.
Proof.
  unfold initialize_cand. intros F H. destruct (split_part _ _ _) as [(p, fp)|]; [|discriminate]. cbv zeta in H. destruct (_ && _); [|discriminate].
  apply sort_partition_set in H. apply (set_same_fit r c); auto.
Qed.
Lemma refine_rep hash r z : rep r z ->
  match refine hash z with
  | None => arena_refine hash r = None
  | Some z' => exists r', arena_refine hash r = Some r' /\ same r r' /\ rep r' z'
  end.
Proof.
  intros H. pose proof (change_layer_rep (refine_cand hash (z_fixed z)) r z (refine_fit hash (z_fixed z) r) H) as C. destruct H as (_ & _ & _ & Fx & _).
  unfold refine, arena_refine. rewrite Fx. destruct (map_opt _ _); exact C.
Qed.
Lemma initialize_rep r z : rep r z ->
  match initialize_partitions z with
  | None => arena_initialize r = None
  | Some z' => exists r', arena_initialize r = Some r' /\ same r r' /\ rep r' z'
  end.
Proof.
  intros H. pose proof (change_layer_rep (initialize_cand (z_used z)) r z (initialize_fit (z_used z) r) H) as C. destruct H as (_ & _ & U & _ & _).
  unfold initialize_partitions, arena_initialize. rewrite U. destruct (map_opt _ _); exact C.
Qed.

(* ---- the loop ---- *)
Lemma rep_used r z : rep r z -> r_used r = z_used z.
Proof. now intros (_ & _ & U & _). Qed.
Lemma rep_fixed r z : rep r z -> r_fixed r = z_fixed z.
Proof. now intros (_ & _ & _ & F & _). Qed.
Lemma loop_rep hash fuel : forall r z, rep r z ->
  match canon_loop hash fuel z with
  | None => arena_loop hash fuel r = None
  | Some z' => exists r', arena_loop hash fuel r = Some r' /\ rep r' z' /\ r_channels r' = r_channels r
  end.
Proof.
  induction fuel as [|f IH]; intros r z H; cbn [canon_loop arena_loop bind]; auto. rewrite (rep_used _ _ H).
  pose proof (prune_fp_rep r z H) as H1. destruct (prune_using_fingerprints z) as [z1|]; cbn [bind]. 2: { now rewrite H1. } destruct H1 as (r1 & -> & (C1 & _) & H1).
  pose proof (moves_rep (S (z_used z)) false r1 z1 H1) as H2. destruct (move_singletons (S (z_used z)) false z1) as [(b, z2)|]; cbn [bind fst snd]. 2: { now rewrite H2. }
  destruct H2 as (r2 & -> & C2 & _ & H2).
  assert (H3 : match (if b then prune hash true z2 else Some z2) with
               | None => (if b then arena_prune hash true r2 else Some r2) = None
               | Some z' => exists r', (if b then arena_prune hash true r2 else Some r2) = Some r' /\ rep r' z' /\ r_channels r' = r_channels r2
               end).
  { destruct b; [|eauto]. pose proof (prune_rep hash true r2 z2 H2) as X. destruct (prune hash true z2); auto. destruct X as (r' & A & (C & _) & B). eauto. }
  destruct (if b then prune hash true z2 else Some z2) as [z3|]; cbn [bind]. 2: { now rewrite H3. } destruct H3 as (r3 & -> & H3 & C3).
  rewrite (rep_used _ _ H3), (rep_fixed _ _ H3). destruct (z_fixed z3 =? z_used z3). { exists r3. repeat split; try apply H3. congruence. }
  pose proof (individualize_rep hash r3 z3 H3) as H4. destruct (individualize hash z3) as [z4|]; cbn [bind]. 2: { now rewrite H4. } destruct H4 as (r4 & -> & C4 & _ & H4).
  pose proof (prune_rep hash false r4 z4 H4) as H5. destruct (prune hash false z4) as [z5|]; cbn [bind]. 2: { now rewrite H5. } destruct H5 as (r5 & -> & (C5 & _) & H5).
  rewrite (rep_used _ _ H5), (rep_fixed _ _ H5). destruct (z_fixed z5 =? z_used z5). { exists r5. repeat split; try apply H5. congruence. }
  pose proof (refine_rep hash r5 z5 H5) as H6. destruct (refine hash z5) as [z6|]; cbn [bind]. 2: { now rewrite H6. } destruct H6 as (r6 & -> & (C6 & _) & H6).
  specialize (IH r6 z6 H6). destruct (canon_loop hash f z6) as [z'|]; auto. destruct IH as (r' & E' & H' & C'). exists r'. repeat split; try apply H'; auto. congruence.
Qed.

(* ---- new ---- *)
Lemma moved_length l : forall st used s p, fold_left move_unconstrained l st = (used, s, p) ->
  channels s = channels (snd (fst st)) /\ length (bitmap s) = length (bitmap (snd (fst st))).
Proof.
  induction l as [|a l IH]; intros st used s p H; cbn [fold_left] in H. rewrite H. auto.
  apply IH in H. destruct H as (-> & ->). destruct st as ((u, s0), p0). unfold move_unconstrained. cbn [fst snd].
  destruct (is_channel_unconstrained s0 a); auto. cbn [fst snd]. now rewrite swap_channels_channels, swap_channels_length.
Qed.
Lemma new_rep s inversion : wf s -> exists r, arena_new s inversion = Some r /\ r_channels r = channels s /\ rep r (canon_new s inversion).
Proof.
  intros W. unfold arena_new, canon_new. destruct (fold_left move_unconstrained (rev (seq 0 (channels s))) (channels s, s, seq 0 (channels s))) as ((used, s'), p) eqn:E.
  apply moved_length in E. cbn [fst snd] in E. destruct E as (Ec & El). set (r0 := mkArena (channels s) used [] [] [] [] [] 0).
  assert (F0 : forall b, fit r0 (mkCand s' p b [] [] (0, 0))). { intros b. split; cbn. auto. rewrite El. exact W. }
  assert (K0 : ok r0) by reflexivity. unfold alloc at 1. cbn [r0 r_free with_lists with_slots r_bitmaps r_data r_layer r_next length app]. cbv zeta.
  set (r1 := mkArena (channels s) used (bitmap s') [data_of (mkCand s' p false [] [] (0, 0))] [] [0] [] 0).
  assert (K1 : ok r1). { unfold ok. cbn. rewrite El, W. change (bitmap_len r1) with (2 ^ channels s). lia. }
  assert (L1 : load r1 0 = Some (mkCand s' p false [] [] (0, 0))).
  { destruct (load_some r1 0 K1) as (c & Lc & _). cbn; lia. unfold load in *. unfold get_set in *. cbv zeta in *. change (bitmap_len r1) with (2 ^ channels s) in *. cbn [r1 r_bitmaps r_channels r_data nth_error skipn Nat.mul] in *.
    replace ((0 + 1) * 2 ^ channels s <=? length (bitmap s')) with true by (symmetry; apply Nat.leb_le; rewrite El, W; lia). rewrite firstn_all2 by (rewrite El, W; lia). cbn. rewrite <- Ec. now destruct s'. }
  destruct inversion; cbn [andb].
  2: { exists r1. split. reflexivity. split. reflexivity. split. split. exact K1. cbn. auto. cbn. repeat split; auto. constructor; auto. }
  match goal with |- context [alloc ?r _] => change r with r1 end.
  destruct (alloc_spec r1 (mkCand s' p true [] [] (0, 0)) K1) as (i & r2 & E2 & K2 & ((S2a & S2b & S2c) & La2 & Ne2) & L2 & O2 & Fr2). { exact (F0 true). } { intros i []. }
  rewrite E2. destruct Fr2 as [(Fr & _)|(_ & Fr & Ei & D2)]; [discriminate|]. cbn in Ei, D2. subst i. rewrite L2. cbn [c_set c_perm c_invert c_fp c_part c_score].
  destruct (store_spec r2 1 (mkCand (invert s') p true [] [] (0, 0)) K2) as (r3 & E3 & K3 & ((S3a & S3b & S3c) & La3 & Ne3) & Fr3 & D3 & L3 & O3).
  { lia. } { split; cbn. rewrite S2a. cbn. auto. rewrite rev_length, El, W. unfold bitmap_len. now rewrite S2a. }
  rewrite E3. assert (L0 : load r3 0 = Some (mkCand s' p false [] [] (0, 0))). { rewrite O3 by lia. rewrite O2; cbn; auto. }
  assert (G : forall i c, load r3 i = Some c -> get_set r3 i = Some (c_set c)).
  { intros i c. unfold load. destruct (get_set r3 i); [|discriminate]. destruct (nth_error (r_data r3) i); [|discriminate]. intros H. now injection H as <-. }
  rewrite (G 1 _ L3), (G 0 _ L0). cbn [c_set]. rewrite D2 in D3. cbn in La2, Ne2. rewrite La2 in La3. rewrite Ne2 in Ne3. rewrite Fr in Fr3.
  destruct (os_eqb (invert s') s'); cbn [negb]; eexists; (split; [reflexivity|]); (split; [cbn; now rewrite S3a, S2a|]); (split; [split; [exact K3|]|]); cbn; rewrite ?La3, ?Ne3, ?Fr3, ?D3, ?S3b, ?S3c, ?S2b, ?S2c; cbn; auto.
  - repeat split; auto; repeat (constructor; auto).
  - repeat split; auto; repeat (constructor; auto).
Qed.

Theorem arena_refines hash s inversion : wf s -> arena_canonicalize hash s inversion = canonicalize hash s inversion.
Proof.
  intros W. unfold arena_canonicalize, canonicalize. destruct (channels s =? 0); auto. destruct (new_rep s inversion W) as (r & -> & _ & H). unfold canon_run, arena_final. rewrite (rep_used _ _ H).
  assert (X : match (if 0 <? z_used (canon_new s inversion) then bind (initialize_partitions (canon_new s inversion)) (canon_loop hash (S (z_used (canon_new s inversion)))) else Some (canon_new s inversion)) with
    | None => (if 0 <? z_used (canon_new s inversion) then match arena_initialize r with Some r1 => arena_loop hash (S (z_used (canon_new s inversion))) r1 | None => None end else Some r) = None
    | Some z => exists r', (if 0 <? z_used (canon_new s inversion) then match arena_initialize r with Some r1 => arena_loop hash (S (z_used (canon_new s inversion))) r1 | None => None end else Some r) = Some r' /\ rep r' z
    end).
  { destruct (0 <? z_used (canon_new s inversion)); [|eauto]. pose proof (initialize_rep r _ H) as I. destruct (initialize_partitions (canon_new s inversion)) as [z1|]; cbn [bind].
    2: { now rewrite I. } destruct I as (r1 & -> & _ & I). pose proof (loop_rep hash (S (z_used (canon_new s inversion))) r1 z1 I) as L. destruct (canon_loop hash (S (z_used (canon_new s inversion))) z1); auto. destruct L as (r' & E' & L & _). eauto. }
  match goal with |- context [bind ?a _] => destruct a as [z|] end; cbn [bind option_map]. 2: { now rewrite X. }
  destruct X as (r' & -> & (_ & _ & _ & _ & R)). destruct (z_layer z) as [|c cs]; inversion R as [|i ? l ? L R0]; subst; auto. rewrite L. reflexivity.
Qed.

Lemma final_slots hash s inversion r0 r : wf s -> arena_new s inversion = Some r0 -> arena_final hash r0 = Some r ->
  length (r_bitmaps r) = length (r_data r) * 2 ^ channels s /\ r_next r = [] /\ Permutation (r_layer r ++ r_free r) (seq 0 (length (r_data r))).
Proof.
  intros W E0 E. destruct (new_rep s inversion W) as (r1 & E1 & C0 & H). rewrite E0 in E1. injection E1 as <-. unfold arena_final in E.
  assert (X : exists z, rep r z /\ r_channels r = r_channels r0).
  { destruct (0 <? r_used r0). 2: { injection E as <-. eauto. } pose proof (initialize_rep r0 _ H) as I. destruct (initialize_partitions (canon_new s inversion)) as [z1|].
    2: { rewrite I in E. discriminate. } destruct I as (r1 & I1 & (C1 & _) & I). rewrite I1 in E. pose proof (loop_rep hash (S (r_used r0)) r1 z1 I) as L.
    destruct (canon_loop hash (S (r_used r0)) z1) as [z|]. destruct L as (r' & E' & L & C'). rewrite E in E'. injection E' as <-. exists z. split; auto. congruence. rewrite E in L. discriminate. }
  destruct X as (z & ((K & P) & Nx & _) & C). split. { unfold ok, bitmap_len in K. now rewrite C, C0 in K. } split; auto. cbn [app] in P. now rewrite Nx in P.
Qed.
End Slots.
