(* The backtracking search of output_set/subsume.rs. *)
From Coq Require Import List Arith Bool Lia Permutation.
Import ListNotations.
From Verif Require Import Spec Vec Net Bits Util OutputSetModel OutputSetProofs CountProofs AbsProofs SubsumeModel SubsumeProofs.

Lemma position_In l v : In v l -> exists i, position l v = Some i /\ i < length l /\ nth i l 0 = v.
Proof.
  induction l as [|a l IH]; simpl; intros H; [tauto|]. destruct (Nat.eqb_spec a v) as [->|N].
  - exists 0. repeat split; auto. lia.
  - destruct H as [|H]; [congruence|]. destruct (IH H) as (i & -> & L & E). exists (S i). repeat split; auto. lia.
Qed.

Lemma swap_list_length p a b : length (swap_list p a b) = length p.
Proof. unfold swap_list. now rewrite !upd_length. Qed.

Lemma swap_list_nth p a b i : a < length p -> b < length p -> nth i (swap_list p a b) 0 = nth (transp a b i) p 0.
Proof.
  intros Ha Hb. unfold swap_list, transp. rewrite !upd_nth, upd_length.
  apply Nat.ltb_lt in Ha as Ha'. apply Nat.ltb_lt in Hb as Hb'. rewrite Ha', Hb', !andb_true_r.
  destruct (Nat.eqb_spec i b), (Nat.eqb_spec i a); subst; auto.
Qed.

Lemma swap_list_comp n p a b : length p = n -> a < n -> b < n -> swap_list p a b = comp_perm p (transp_perm n a b).
Proof.
  intros L Ha Hb. assert (Lt : length (transp_perm n a b) = n) by (unfold transp_perm; now rewrite map_length, seq_length).
  apply nth_ext_lt with (d := 0). rewrite swap_list_length, comp_perm_length. lia.
  rewrite swap_list_length. intros i Hi. rewrite swap_list_nth, comp_perm_nth, transp_perm_nth by lia. auto.
Qed.

Lemma swap_list_perm n p a b : is_perm n p -> a < n -> b < n -> is_perm n (swap_list p a b).
Proof.
  intros P Ha Hb. rewrite (swap_list_comp n) by (auto; now apply is_perm_length). apply comp_perm_is_perm; auto. now apply transp_perm_is_perm.
Qed.

Lemma swap_list_invol n p a b : length p = n -> a < n -> b < n -> swap_list (swap_list p a b) a b = p.
Proof.
  intros L Ha Hb. apply nth_ext_lt with (d := 0). now rewrite !swap_list_length.
  intros i Hi. rewrite !swap_list_nth by (rewrite ?swap_list_length; lia). now rewrite transp_invol.
Qed.

Lemma swap_relabelled n p s t a b : channels s = n -> relabelled p s t -> a < n -> b < n ->
  relabelled (swap_list p a b) s (swap_channels t a b).
Proof.
  intros Cn (Ws & Wt & C & P & S) Ha Hb. rewrite Cn in *. unfold relabelled. rewrite Cn.
  split; auto. split. apply swap_channels_wf; auto; lia. split. now rewrite swap_channels_channels.
  split. now apply swap_list_perm.
  intros y. pose proof (swap_channels_vs t a b ltac:(lia) ltac:(lia) Wt y) as SV. rewrite SV. rewrite (swap_list_comp n) by (auto; now apply is_perm_length).
  split.
  - intros (z & Hz & ->). apply S in Hz. destruct Hz as (x & Hx & ->). exists x. split; auto.
    rewrite (swapv_permute n) by (auto; rewrite permute_length; now apply is_perm_length).
    apply (permute_comp n); auto. now apply transp_perm_is_perm.
  - intros (x & Hx & ->). exists (permute p x). split. apply S. now exists x.
    rewrite (swapv_permute n) by (auto; rewrite permute_length; now apply is_perm_length).
    symmetry. apply (permute_comp n); auto. now apply transp_perm_is_perm.
Qed.

Section Search.
Variable n : nat.
Variables A B : OutputSet.
Hypothesis WA : wf A. Hypothesis WB : wf B.
Hypothesis CA : channels A = n. Hypothesis CB : channels B = n.

Definition none : bool -> nat -> Prop := fun _ _ => False.

Record Inv (st : Subsume) : Prop := {
  iv_m : MInv n st;
  iv_ok : okx n none st;
  iv_fix : s_fixed st <= n;
  iv_rel : forall s, relabelled (sel s (s_perms st)) (sel s (A, B)) (sel s (s_sets st));
  iv_pair : forall i, i < s_fixed st -> mask_of st false (nth i (fst (s_perms st)) 0) = 2 ^ nth i (snd (s_perms st)) 0 }.

Lemma ch_side s : channels (sel s (A, B)) = n. Proof. destruct s; auto. Qed.

Lemma iv_perm st s : Inv st -> is_perm n (sel s (s_perms st)).
Proof. intros I. destruct (iv_rel st I s) as (_ & _ & _ & P & _). now rewrite ch_side in P. Qed.

Lemma iv_setch st s : Inv st -> channels (sel s (s_sets st)) = n.
Proof. intros I. destruct (iv_rel st I s) as (_ & _ & C & _). now rewrite C, ch_side. Qed.

Lemma ok_all st s c : Inv st -> c < n -> OK st s c.
Proof. intros I H. destruct (iv_ok st I s c H) as [[]|]; auto. Qed.

Definition sol (tau : list nat) : Prop := is_perm n tau /\ forall x, vs A x -> vs B (permute tau x).

(* a change of the matching alone keeps the invariant *)
Lemma Inv_step st st' : Inv st -> step n st st' -> okx n none st' -> Inv st'.
Proof.
  intros I ((F1 & F2 & F3 & F4) & _ & M & S) O. constructor; auto.
  - rewrite F4. apply I.
  - intros s. rewrite F2, F3. apply I.
  - intros i Hi. rewrite F4 in Hi. rewrite F3. pose proof (iv_pair st I i Hi) as E.
    pose proof (iv_fix st I). pose proof (is_perm_nth _ _ i (iv_perm st false I) ltac:(lia)) as Hc. simpl in Hc.
    pose proof (mi_nz n st' M false _ Hc) as Z. apply only_bits. intros e.
    assert (Z1 : forall e, adj st' false (nth i (fst (s_perms st)) 0) e = true -> e = nth i (snd (s_perms st)) 0).
    { intros e' H'. apply S in H'. unfold adj in H'. rewrite E, pow2_testbit in H'. now apply Nat.eqb_eq in H'. }
    destruct (Nat.eqb_spec e (nth i (snd (s_perms st)) 0)) as [->|Ne].
    + apply nz_bit in Z. destruct Z as (j & Hj). pose proof (Z1 j Hj). now subst j.
    + destruct (Nat.testbit _ e) eqn:T; auto. exfalso. apply Ne. now apply Z1.
Qed.

(* ---------- filter_matching ---------- *)

(* the positions: q = perm0^-1 . tau . perm1 *)
Lemma filter_keeps st tau lo hi : Inv st -> compat n tau st -> sol tau ->
  s_fixed st <= lo < n -> s_fixed st <= hi < n ->
  nth (nth hi (snd (s_perms st)) 0) tau 0 = nth lo (fst (s_perms st)) 0 ->
  abstraction_exceeds (low_channels_channel_abstraction (fst (s_sets st)) (s_fixed st) lo)
                      (low_channels_channel_abstraction (snd (s_sets st)) (s_fixed st) hi) = false.
Proof.
  intros I (Pt & Ca) (_ & So) Hlo Hhi E.
  pose proof (iv_perm st false I) as P0. pose proof (iv_perm st true I) as P1. simpl in P0, P1.
  set (p0 := fst (s_perms st)) in *. set (p1 := snd (s_perms st)) in *.
  set (q := comp_perm (inv_perm n p0) (comp_perm tau p1)).
  assert (Pq : is_perm n q) by (apply comp_perm_is_perm; [now apply inv_perm_is_perm|now apply comp_perm_is_perm]).
  assert (Lp1 : length p1 = n) by now apply is_perm_length.
  assert (Nq : forall j, j < n -> nth j q 0 = nth (nth (nth j p1 0) tau 0) (inv_perm n p0) 0).
  { intros j Hj. unfold q. rewrite comp_perm_nth by (rewrite comp_perm_length; lia). now rewrite comp_perm_nth by lia. }
  assert (Qhi : nth hi q 0 = lo).
  { rewrite Nq by lia. rewrite E. apply inv_perm_nth'; auto. lia. }
  assert (Fx : fixes_low (s_fixed st) q).
  { intros j Hj. pose proof (iv_fix st I). rewrite Nq by lia.
    assert (E1 : nth (nth j p1 0) tau 0 = nth j p0 0).
    { assert (Hb : nth j p1 0 < n) by (apply is_perm_nth; auto; lia). specialize (Ca _ Hb).
      pose proof (iv_pair st I j Hj) as Ep. fold p0 p1 in Ep.
      apply (ok_all st false (nth j p0 0) I) in Ep. 2: apply is_perm_nth; auto; lia. simpl in Ep.
      unfold adj in Ca. rewrite Ep, pow2_testbit in Ca. now apply Nat.eqb_eq in Ca. }
    rewrite E1. apply inv_perm_nth'; auto. lia. }
  pose proof (iv_rel st I false) as R0. pose proof (iv_rel st I true) as R1. simpl in R0, R1. fold p0 in R0. fold p1 in R1.
  pose proof (iv_setch st false I) as C0. pose proof (iv_setch st true I) as C1. simpl in C0, C1.
  assert (SS : subsumed false q (fst (s_sets st)) (snd (s_sets st))).
  { split. apply R0. split. apply R1. split. congruence. split. now rewrite C0.
    intros y Hy. simpl. destruct R0 as (_ & _ & _ & _ & S0). apply S0 in Hy. destruct Hy as (x & Hx & ->).
    assert (Lx : length x = n) by (rewrite <- CA; apply Hx).
    replace (permute q (permute p0 x)) with (permute p1 (permute tau x)).
    - apply (relabelled_mem p1 B). auto. rewrite permute_length, CB. now apply is_perm_length. auto.
    - rewrite (permute_comp n tau p1) by auto. rewrite (permute_comp n p0 q) by auto. f_equal.
      apply nth_ext_lt with (d := 0). rewrite !comp_perm_length. rewrite Lp1. symmetry. now apply is_perm_length.
      rewrite comp_perm_length, Lp1. intros j Hj. rewrite !comp_perm_nth by (rewrite ?(is_perm_length _ _ Pq); lia).
      rewrite Nq by auto. symmetry. apply inv_perm_nth; auto. apply is_perm_nth; auto. now apply is_perm_nth. }
  unfold abstraction_exceeds. apply not_true_is_false. intros Ex. apply existsb_exists in Ex.
  destruct Ex as ((x & y) & Hin & Hlt). apply Nat.ltb_lt in Hlt. simpl in Hlt.
  apply (In_nth _ _ (0, 0)) in Hin. destruct Hin as (k & Hk & Ek).
  rewrite combine_nth in Ek by (rewrite !low_abs_length; congruence). injection Ek as Ex Ey.
  pose proof (low_abs_mono q _ _ (s_fixed st) hi k SS Fx ltac:(lia) ltac:(lia)) as Mono. rewrite Qhi in Mono. lia.
Qed.

Lemma frame_filter st st' : frame st st' -> rm_fuel st' = rm_fuel st.
Proof. intros (F & _). unfold rm_fuel. now rewrite F. Qed.

Lemma rm_enough st : MInv n st -> edges n st < rm_fuel st.
Proof. intros M. unfold rm_fuel. rewrite (mi_ch n st M). pose proof (edges_max n st). lia. Qed.

Lemma filter_loop_spec st0 (K : list nat -> Prop) pairs : Inv st0 ->
  (forall lo bl hi bh, In ((lo, bl), (hi, bh)) pairs -> lo < n /\ hi < n /\
     (abstraction_exceeds bl bh = true -> forall tau, compat n tau st0 -> K tau ->
        nth (nth hi (snd (s_perms st0)) 0) tau 0 <> nth lo (fst (s_perms st0)) 0)) ->
  forall st, step n st0 st -> okx n none st ->
  exists r st', filter_loop st pairs = Some (r, st') /\ step n st st' /\
    (if r then okx n none st' /\ forall tau, compat n tau st -> compat n tau st0 -> K tau -> compat n tau st'
     else forall tau, compat n tau st -> compat n tau st0 -> K tau -> False).
Proof.
  intros I0. induction pairs as [|((lo & bl) & (hi & bh)) r IH]; intros Hp st St O; cbn [filter_loop].
  { exists true, st. split; auto. split. apply step_refl. apply St. auto. }
  assert (IH' := IH ltac:(intros; apply Hp; simpl; auto)). clear IH.
  destruct (Hp lo bl hi bh ltac:(simpl; auto)) as (Hlo & Hhi & Hx).
  pose proof St as ((F1 & F2 & F3 & F4) & X & M & S).
  rewrite get_matching_adj. cbn [fst snd].
  destruct (adj st false _ _) eqn:Ea; [|now apply IH'].
  destruct (abstraction_exceeds bl bh) eqn:Ex; [|now apply IH'].
  destruct (remove_matching_spec n (rm_fuel st) none st (nth lo (fst (s_perms st)) 0, nth hi (snd (s_perms st)) 0) M (rm_enough st M) Ea O)
    as (res & st1 & -> & St1 & Post).
  cbn [fst snd] in Post. rewrite F3 in Post.
  destruct res.
  - destruct Post as (_ & O1 & K1). assert (St01 : step n st0 st1) by (eapply step_trans; eauto).
    destruct (IH' st1 St01 O1) as (r' & st2 & E2 & St2 & Post2). exists r', st2. split; auto.
    split. eapply step_trans; eauto. destruct r'.
    + destruct Post2 as (O2 & K2). split; [auto|]. intros tau C C0 Kt. apply K2; auto.
    + intros tau C C0 Kt. apply (Post2 tau); auto.
  - exists false, st1. split; auto. split; auto. intros tau C C0 Kt. apply (Hx eq_refl tau C0 Kt). auto.
Qed.

Lemma filter_matching_spec st : Inv st ->
  exists r st', filter_matching st = Some (r, st') /\ step n st st' /\
    (if r then Inv st' /\ forall tau, compat n tau st -> sol tau -> compat n tau st'
     else forall tau, compat n tau st -> sol tau -> False).
Proof.
  intros I. unfold filter_matching. pose proof (iv_m st I) as M. rewrite (mi_ch n st M).
  destruct (filter_loop_spec st sol
    (list_prod
       (map (fun channel => (channel, low_channels_channel_abstraction (sel false (s_sets st)) (s_fixed st) channel)) (seq (s_fixed st) (n - s_fixed st)))
       (map (fun channel => (channel, low_channels_channel_abstraction (sel true (s_sets st)) (s_fixed st) channel)) (seq (s_fixed st) (n - s_fixed st)))) I) with (st := st)
    as (r & st' & E & St & Post).
  - intros lo bl hi bh Hin. apply in_prod_iff in Hin. destruct Hin as (H1 & H2). apply in_map_iff in H1, H2.
    destruct H1 as (lo' & E1 & H1). destruct H2 as (hi' & E2 & H2). injection E1 as -> <-. injection E2 as -> <-.
    apply in_seq in H1, H2. pose proof (iv_fix st I). split. lia. split. lia.
    intros Ex tau C So E. pose proof (filter_keeps st tau lo hi I C So ltac:(lia) ltac:(lia) E) as F. simpl in Ex. congruence.
  - now apply step_refl.
  - apply I.
  - exists r, st'. split; auto. split; auto. destruct r.
    + destruct Post as (O & K). split; [now apply (Inv_step st)|auto].
    + intros tau C So. apply (Post tau); auto.
Qed.

(* ---------- move_unique ---------- *)

Lemma swap_side_mask st s a b s' c : mask_of (swap_side st s a b) s' c = mask_of st s' c.
Proof. reflexivity. Qed.

Definition moved_state (st : Subsume) (lo hi : nat) : Subsume :=
  let st1 := push_undo st (USwap (s_fixed st) (lo, hi)) in
  let st3 := swap_side (swap_side st1 false (s_fixed st) lo) true (s_fixed st) hi in
  set_fixed st3 (s_fixed st + 1).

Lemma moved_ext st lo hi : Inv st -> s_fixed st < n -> lo < n -> hi < n -> ext st (moved_state st lo hi).
Proof.
  intros I Hf Hlo Hhi. exists [USwap (s_fixed st) (lo, hi)]. split; auto.
  pose proof (is_perm_length _ _ (iv_perm st false I)) as L0. pose proof (is_perm_length _ _ (iv_perm st true I)) as L1.
  pose proof (iv_setch st false I) as C0. pose proof (iv_setch st true I) as C1.
  destruct (iv_rel st I false) as (_ & W0 & _). destruct (iv_rel st I true) as (_ & W1 & _).
  destruct st as [ch (s0 & s1) (q0 & q1) m u f]. simpl in *. unfold same_core. simpl. repeat split.
  - f_equal; apply swap_channels_involutive; auto; lia.
  - f_equal; apply (swap_list_invol n); auto.
Qed.

Lemma moved_Inv st lo hi : Inv st -> s_fixed st <= lo -> lo < n -> s_fixed st <= hi -> hi < n ->
  mask_of st false (nth lo (fst (s_perms st)) 0) = 2 ^ nth hi (snd (s_perms st)) 0 -> Inv (moved_state st lo hi).
Proof.
  intros I Hlo Hlo' Hhi Hhi' E. pose proof (is_perm_length _ _ (iv_perm st false I)) as L0. pose proof (is_perm_length _ _ (iv_perm st true I)) as L1.
  constructor.
  - destruct (iv_m st I) as [M1 M2 M3 M4 M5]. constructor; auto.
  - intros s c Hc. right. exact (ok_all st s c I Hc).
  - simpl. lia.
  - intros s. pose proof (iv_rel st I s) as R. unfold moved_state.
    destruct s; simpl in *; apply (swap_relabelled n); auto; lia.
  - intros i Hi. simpl in Hi |- *. change (mask_of (moved_state st lo hi) false) with (mask_of st false).
    simpl in L0, L1. rewrite !swap_list_nth by lia. unfold transp.
    destruct (Nat.eqb_spec i (s_fixed st)) as [->|Ni]; auto.
    destruct (Nat.eqb_spec i lo); [lia|]. destruct (Nat.eqb_spec i hi); [lia|]. apply (iv_pair st I). lia.
Qed.

Definition no_single (st : Subsume) (a b : nat) : Prop :=
  forall i, a <= i < b -> forall d, mask_of st false (nth i (fst (s_perms st)) 0) <> 2 ^ d.

Lemma move_unique_loop_spec : forall k st moved j, Inv st -> j + k = n -> s_fixed st <= j -> no_single st (s_fixed st) j ->
  exists r st', move_unique_loop st moved (seq j k) = Some (r, st') /\ ext st st' /\ Inv st' /\ s_matching st' = s_matching st /\
    s_fixed st <= s_fixed st' /\ no_single st' (s_fixed st') n /\
    (r = moved /\ st' = st \/ r = true /\ s_fixed st < s_fixed st').
Proof.
  induction k as [|k IH]; intros st moved j I Hj Hf NS; simpl.
  { exists moved, st. replace n with j in NS by lia. split; auto. split. apply ext_refl. split; auto. split; auto. split; auto. split; auto.
    intros i Hi. apply NS. lia. }
  assert (Hjn : j < n) by lia.
  pose proof (is_perm_nth _ _ j (iv_perm st false I) Hjn) as Hc. simpl in Hc.
  destruct (single_cases _ (mi_nz n st (iv_m st I) false _ Hc)) as [(-> & E)|(-> & E)].
  - set (d := ctz (mask_of st false (nth j (fst (s_perms st)) 0))) in *.
    assert (Hd : d < n). { apply (mi_lt n st (iv_m st I) false (nth j (fst (s_perms st)) 0)). unfold adj. rewrite E, pow2_testbit. apply Nat.eqb_refl. }
    destruct (position_In (snd (s_perms st)) d) as (hi & Ep & Hhi & Ehi).
    { apply (is_perm_In n). apply (iv_perm st true I). auto. }
    rewrite Ep. rewrite (is_perm_length n) in Hhi by apply (iv_perm st true I).
    assert (Hhf : s_fixed st <= hi).
    { destruct (le_lt_dec (s_fixed st) hi) as [|Hl]; auto. exfalso. pose proof (iv_pair st I hi Hl) as E2. rewrite Ehi in E2.
      assert (Hc2 : nth hi (fst (s_perms st)) 0 < n) by (apply (is_perm_nth n); auto; apply (iv_perm st false I)).
      apply (ok_all st false _ I Hc2) in E2. apply (ok_all st false _ I Hc) in E. simpl in E, E2. rewrite E in E2.
      apply Nat.pow_inj_r in E2; [|lia]. apply (is_perm_inj n) in E2; auto. lia. apply (iv_perm st false I). }
    change (move_unique_loop _ true _) with (move_unique_loop (moved_state st j hi) true (seq (S j) k)).
    assert (I' : Inv (moved_state st j hi)). { apply moved_Inv; auto. now rewrite Ehi. }
    destruct (IH (moved_state st j hi) true (S j) I') as (r & st' & E' & X & I2 & Mm & F & NS2 & R).
    + lia.
    + simpl. lia.
    + intros i Hi d'. simpl in Hi. change (mask_of (moved_state st j hi) false) with (mask_of st false). simpl.
      assert (L0 : length (fst (s_perms st)) = n) by (apply is_perm_length, (iv_perm st false I)).
      rewrite swap_list_nth by lia. unfold transp. destruct (Nat.eqb_spec i (s_fixed st)); [lia|].
      destruct (Nat.eqb_spec i j).
      * apply NS. lia.
      * apply NS. lia.
    + exists r, st'. split; auto. split. { eapply ext_trans; [|exact X]. apply moved_ext; auto. lia. }
      split; auto. split; auto. simpl in F. split. lia. split; auto. right. split. destruct R as [(-> & _)|(-> & _)]; auto. lia.
  - destruct (IH st moved (S j) I) as (r & st' & E' & R); try lia.
    + intros i Hi. destruct (Nat.eq_dec i j) as [->|]. auto. apply NS. lia.
    + exists r, st'. auto.
Qed.

Lemma move_unique_spec st : Inv st ->
  exists r st', move_unique st = Some (r, st') /\ ext st st' /\ Inv st' /\ s_matching st' = s_matching st /\
    s_fixed st <= s_fixed st' /\ no_single st' (s_fixed st') n /\
    (r = false /\ st' = st \/ r = true /\ s_fixed st < s_fixed st').
Proof.
  intros I. unfold move_unique. rewrite (mi_ch n st (iv_m st I)). pose proof (iv_fix st I).
  apply (move_unique_loop_spec (n - s_fixed st) st false (s_fixed st)); auto. lia. intros i Hi. lia.
Qed.

Lemma compat_matching tau st st' : s_matching st' = s_matching st -> compat n tau st -> compat n tau st'.
Proof. intros E (P & C). split; auto. intros b Hb. unfold adj, mask_of in *. rewrite E. auto. Qed.

Lemma edges_matching st st' : s_matching st' = s_matching st -> edges n st' = edges n st.
Proof. intros E. unfold edges, adj, mask_of. now rewrite E. Qed.

(* ---------- select_guess ---------- *)

Lemma choice_min_cases a b : choice_min a b = a \/ choice_min a b = b.
Proof. destruct a as ((w & s) & c), b as ((w' & s') & c'). unfold choice_min. repeat destruct (_ <? _); auto. Qed.

Lemma choice_min_le a b : fst (fst (choice_min a b)) <= fst (fst b).
Proof.
  destruct a as ((w & s) & c), b as ((w' & s') & c'). unfold choice_min.
  destruct (w' <? w) eqn:E1; auto. destruct (w <? w') eqn:E2. apply Nat.ltb_lt in E2. simpl. lia.
  apply Nat.ltb_ge in E1, E2. repeat destruct (_ <? _); simpl; lia.
Qed.

Lemma choice_min_le' a b : fst (fst (choice_min a b)) <= fst (fst a).
Proof.
  destruct a as ((w & s) & c), b as ((w' & s') & c'). unfold choice_min.
  destruct (w' <? w) eqn:E1. apply Nat.ltb_lt in E1. simpl. lia. destruct (w <? w') eqn:E2. auto.
  apply Nat.ltb_ge in E1, E2. repeat destruct (_ <? _); simpl; lia.
Qed.

Lemma fold_choice l : forall a, (fold_left choice_min l a = a \/ In (fold_left choice_min l a) l) /\
  fst (fst (fold_left choice_min l a)) <= fst (fst a) /\
  (forall b, In b l -> fst (fst (fold_left choice_min l a)) <= fst (fst b)).
Proof.
  induction l as [|b l IH]; intros a; simpl. { split; auto. split; auto. intros b []. }
  destruct (IH (choice_min a b)) as (I1 & I2 & I3). split; [|split].
  - destruct I1 as [->|]; auto. destruct (choice_min_cases a b) as [->| ->]; auto.
  - etransitivity. exact I2. apply choice_min_le'.
  - intros c [<-|Hc]; auto. etransitivity. exact I2. apply choice_min_le.
Qed.

Lemma fold_choice_In l a b : In b l -> fst (fst b) < fst (fst a) -> In (fold_left choice_min l a) l.
Proof.
  intros Hb Hlt. destruct (fold_choice l a) as ([E|H] & _ & H3); auto. specialize (H3 b Hb). rewrite E in H3. lia.
Qed.

Lemma count_ones_lt m : m < 2 ^ n -> count_ones m <= n.
Proof. intros H. rewrite (count_ones_vec n) by auto. pose proof (weight_le (vec_of n m)) as W. now rewrite vec_of_length in W. Qed.

Lemma mask_lt st s c : MInv n st -> mask_of st s c < 2 ^ n.
Proof.
  intros M. apply bits_lt. intros i Hi. destruct (Nat.testbit _ i) eqn:E; auto. exfalso.
  pose proof (mi_lt n st M s c i E). lia.
Qed.

Lemma mask_bits_In : forall fuel m d, In d (mask_bits fuel m) -> Nat.testbit m d = true.
Proof.
  induction fuel as [|f IH]; intros m d; simpl; [tauto|]. destruct (Nat.eqb_spec m 0) as [|NZ]; [intros []|].
  intros [<-|H]. now apply ctz_bit. apply IH in H. rewrite Nat.land_spec in H. apply andb_true_iff in H. tauto.
Qed.

Lemma mask_bits_nonempty m : m <> 0 -> In (ctz m) (mask_bits m m).
Proof. intros H. destruct m as [|m]; [congruence|]. cbn [mask_bits]. simpl Nat.eqb. cbv iota. left. auto. Qed.

Hypothesis Nmax : n <= MAX_CHANNELS.

(* the guess is an edge, and both ends have another partner *)
Lemma select_guess_spec st : Inv st -> s_fixed st < n -> no_single st (s_fixed st) n ->
  let g := select_guess st in
  adj st false (fst g) (snd g) = true /\ (forall d, mask_of st true (snd g) <> 2 ^ d).
Proof.
  intros I Hf NS. pose proof (iv_m st I) as M.
  (* no channel of either side that is not yet fixed is a singleton *)
  assert (NS1 : forall s i d, s_fixed st <= i < n -> mask_of st s (nth i (sel s (s_perms st)) 0) <> 2 ^ d).
  { intros s i d Hi E. destruct s; simpl in E; [|now apply NS in E].
    assert (Hb : nth i (snd (s_perms st)) 0 < n) by (apply (is_perm_nth n); [apply (iv_perm st true I)|lia]).
    apply (ok_all st true _ I Hb) in E as E2. simpl in E2.
    assert (Hd : d < n). { apply (mi_lt n st M true (nth i (snd (s_perms st)) 0)). unfold adj. rewrite E, pow2_testbit. apply Nat.eqb_refl. }
    destruct (is_perm_surj n _ d (iv_perm st false I) Hd) as (k & Hk & Ek). simpl in Ek.
    destruct (le_lt_dec (s_fixed st) k) as [Hkf|Hkf].
    - rewrite <- Ek in E2. apply NS in E2; auto.
    - pose proof (iv_pair st I k Hkf) as E3. rewrite Ek, E2 in E3. apply Nat.pow_inj_r in E3; [|lia].
      apply (is_perm_inj n) in E3; try lia. apply (iv_perm st true I). }
  (* hence no partner of such a channel is one *)
  assert (NS2 : forall s c b d, (exists i, s_fixed st <= i < n /\ c = nth i (sel s (s_perms st)) 0) -> adj st s c b = true -> mask_of st (negb s) b <> 2 ^ d).
  { intros s c b d (i & Hi & ->) Ha E. destruct (adj_lt n st _ _ _ M Ha) as (Hc & Hb).
    pose proof (ok_all st (negb s) b I Hb d E) as E2. rewrite negb_involutive in E2.
    rewrite (mi_sym n st M) in Ha. unfold adj in Ha. rewrite E, pow2_testbit in Ha. apply Nat.eqb_eq in Ha. subst d.
    now apply NS1 in E2. }
  set (cands := fun side : bool => map (fun channel => let mc := nth channel (sel side (s_perms st)) 0 in
                        (count_ones (mask_of st side mc), Nat.b2n side, mc)) (seq (s_fixed st) (n - s_fixed st))).
  set (best := fold_left choice_min (cands false ++ cands true) (MAX_CHANNELS + 1, 0, 0)).
  assert (Hin : In best (cands false ++ cands true)).
  { apply fold_choice_In with (b := (count_ones (mask_of st false (nth (s_fixed st) (fst (s_perms st)) 0)), 0, nth (s_fixed st) (fst (s_perms st)) 0)).
    - apply in_or_app. left. apply in_map_iff. exists (s_fixed st). split; auto. apply in_seq. lia.
    - cbn [fst snd]. pose proof (count_ones_lt (mask_of st false (nth (s_fixed st) (fst (s_perms st)) 0)) (mask_lt st _ _ M)). lia. }
  assert (G : exists s i o, s_fixed st <= i < n /\ adj st s (nth i (sel s (s_perms st)) 0) o = true /\
                select_guess st = put s (put (negb s) (0, 0) o) (nth i (sel s (s_perms st)) 0)).
  { assert (Hs : exists s i, best = (fst (fst best), Nat.b2n s, nth i (sel s (s_perms st)) 0) /\ s_fixed st <= i < n).
    { apply in_app_or in Hin. destruct Hin as [H|H]; apply in_map_iff in H; destruct H as (i & E & Hi); apply in_seq in Hi; cbv zeta in E.
      - exists false, i. rewrite <- E. split; auto. lia.
      - exists true, i. rewrite <- E. split; auto. lia. }
    destruct Hs as (s & i & Eb & Hi).
    assert (Hc : nth i (sel s (s_perms st)) 0 < n) by (apply (is_perm_nth n); [apply (iv_perm st s I)|lia]).
    pose proof (mi_nz n st M s _ Hc) as NZ.
    set (mask := mask_of st s (nth i (sel s (s_perms st)) 0)) in *.
    set (others := map (fun mc => (count_ones (mask_of st (negb s) mc), 0, mc)) (mask_bits mask mask)).
    assert (Hin2 : In (fold_left choice_min others (MAX_CHANNELS + 1, 0, 0)) others).
    { apply fold_choice_In with (b := (count_ones (mask_of st (negb s) (ctz mask)), 0, ctz mask)).
      - apply in_map_iff. exists (ctz mask). split; auto. now apply mask_bits_nonempty.
      - cbn [fst snd]. pose proof (count_ones_lt (mask_of st (negb s) (ctz mask)) (mask_lt st _ _ M)). lia. }
    apply in_map_iff in Hin2. destruct Hin2 as (o & E & Ho). apply mask_bits_In in Ho.
    exists s, i, o. split; auto. split; auto.
    unfold select_guess. rewrite (mi_ch n st M). cbv zeta.
    match goal with |- context[fold_left choice_min (?a ++ ?b) ?c] => change (fold_left choice_min (a ++ b) c) with best end.
    rewrite Eb. replace (Nat.b2n s =? 1) with s by (destruct s; auto). fold mask others. rewrite <- E. reflexivity. }
  destruct G as (s & i & o & Hi & Ho & E). cbv zeta. rewrite E. clear E. destruct s; simpl put; cbn [fst snd].
  - split. rewrite (mi_sym n st M). exact Ho. intros d. apply (NS1 true i d); auto.
  - split. exact Ho. intros d. apply (NS2 false (nth i (sel false (s_perms st)) 0) o d); eauto.
Qed.

(* ---------- search ---------- *)

Lemma result_perm_gen p0 p1 l r : (forall i, In i l -> i < n) -> NoDup l -> is_perm n p1 -> length r = n ->
  let t := fold_left (fun perm i => upd perm (nth i p1 0) (nth i p0 0)) l r in
  length t = n /\ (forall i, In i l -> nth (nth i p1 0) t 0 = nth i p0 0) /\
  (forall b, (forall i, In i l -> nth i p1 0 <> b) -> nth b t 0 = nth b r 0).
Proof.
  intros Hl N P1. revert r. induction l as [|i l IH]; intros r Lr; simpl. { repeat split; auto. intros i []. }
  apply NoDup_cons_iff in N. destruct N as (Hni & N').
  destruct (IH ltac:(intros; apply Hl; simpl; auto) N' (upd r (nth i p1 0) (nth i p0 0))) as (L & H1 & H2). now rewrite upd_length.
  split; auto. split.
  - intros j [<-|Hj]; auto. rewrite H2.
    + apply upd_nth_eq. rewrite Lr. apply is_perm_nth; auto. apply Hl. simpl; auto.
    + intros j Hj E. apply (is_perm_inj n) in E; auto; try (apply Hl; simpl; auto). now subst.
  - intros b Hb. rewrite H2 by (intros; apply Hb; auto). apply upd_nth_neq. apply not_eq_sym, Hb. auto.
Qed.

Lemma result_perm_nth st i : Inv st -> i < n -> nth (nth i (snd (s_perms st)) 0) (result_perm st) 0 = nth i (fst (s_perms st)) 0.
Proof.
  intros I Hi. unfold result_perm. rewrite (mi_ch n st (iv_m st I)).
  apply (result_perm_gen (fst (s_perms st)) (snd (s_perms st)) (seq 0 n) (seq 0 n)).
  - intros j Hj. apply in_seq in Hj. lia.
  - apply seq_NoDup.
  - apply (iv_perm st true I).
  - apply seq_length.
  - apply in_seq. lia.
Qed.

Lemma result_perm_eq st : Inv st -> result_perm st = comp_perm (fst (s_perms st)) (inv_perm n (snd (s_perms st))).
Proof.
  intros I. pose proof (iv_perm st true I) as P1. simpl in P1.
  apply nth_ext_lt with (d := 0).
  - rewrite comp_perm_length, inv_perm_length. unfold result_perm. rewrite (mi_ch n st (iv_m st I)).
    apply (result_perm_gen (fst (s_perms st)) (snd (s_perms st)) (seq 0 n) (seq 0 n)); auto using seq_NoDup, seq_length.
    intros j Hj. apply in_seq in Hj. lia.
  - intros b Hb.
    assert (Hb' : b < n). { revert Hb. unfold result_perm. rewrite (mi_ch n st (iv_m st I)).
      destruct (result_perm_gen (fst (s_perms st)) (snd (s_perms st)) (seq 0 n) (seq 0 n)) as (-> & _); auto using seq_NoDup, seq_length.
      intros j Hj. apply in_seq in Hj. lia. }
    rewrite comp_perm_nth by now rewrite inv_perm_length.
    destruct (inv_perm_nth n _ b P1 Hb') as (H1 & H2). rewrite <- H2 at 1. now apply result_perm_nth.
Qed.

Lemma inv_perm_comp n' p x : is_perm n' p -> length x = n' -> permute (inv_perm n' p) (permute p x) = x.
Proof. intros. now apply permute_inv. Qed.

Lemma final_sol st : Inv st -> s_fixed st = n -> subsumes_unpermuted (fst (s_sets st)) (snd (s_sets st)) = true -> sol (result_perm st).
Proof.
  intros I F H. pose proof (iv_perm st true I) as P1. pose proof (iv_perm st false I) as P0. simpl in P0, P1.
  rewrite result_perm_eq by auto. split.
  - apply comp_perm_is_perm; auto. now apply inv_perm_is_perm.
  - pose proof (iv_rel st I false) as R0. pose proof (iv_rel st I true) as R1. simpl in R0, R1.
    pose proof (iv_setch st false I) as C0. pose proof (iv_setch st true I) as C1. simpl in C0, C1.
    apply subsumes_unpermuted_spec in H; [|apply R0|apply R1|congruence].
    intros x Hx. assert (Lx : length x = n) by (rewrite <- CA; apply Hx).
    rewrite <- (permute_comp n) by (auto; now apply inv_perm_is_perm).
    assert (Hy : vs (fst (s_sets st)) (permute (fst (s_perms st)) x)) by (apply (relabelled_mem _ A); auto; now rewrite CA).
    apply H in Hy. apply (relabelled_mem (snd (s_perms st)) B (snd (s_sets st))); auto.
    + rewrite permute_length, inv_perm_length. auto.
    + rewrite permute_inv'; auto. rewrite permute_length. now apply is_perm_length.
Qed.

Lemma final_complete st tau : Inv st -> s_fixed st = n -> compat n tau st -> sol tau ->
  subsumes_unpermuted (fst (s_sets st)) (snd (s_sets st)) = true.
Proof.
  intros I F (Pt & Ca) (_ & So). pose proof (iv_perm st true I) as P1. pose proof (iv_perm st false I) as P0. simpl in P0, P1.
  pose proof (iv_rel st I false) as R0. pose proof (iv_rel st I true) as R1. simpl in R0, R1.
  pose proof (iv_setch st false I) as C0. pose proof (iv_setch st true I) as C1. simpl in C0, C1.
  apply subsumes_unpermuted_spec; [apply R0|apply R1|congruence|].
  intros y Hy. destruct R0 as (_ & _ & _ & _ & S0). apply S0 in Hy. destruct Hy as (x & Hx & ->).
  assert (E : fst (s_perms st) = comp_perm tau (snd (s_perms st))).
  { apply nth_ext_lt with (d := 0). rewrite comp_perm_length. now rewrite (is_perm_length _ _ P0), (is_perm_length _ _ P1).
    intros j Hj. rewrite (is_perm_length _ _ P0) in Hj. rewrite comp_perm_nth by now rewrite (is_perm_length _ _ P1).
    pose proof (iv_pair st I j ltac:(lia)) as Ep. apply (ok_all st false _ I) in Ep. 2: now apply is_perm_nth. simpl in Ep.
    specialize (Ca (nth j (snd (s_perms st)) 0) ltac:(now apply is_perm_nth)). unfold adj in Ca. rewrite Ep, pow2_testbit in Ca.
    now apply Nat.eqb_eq in Ca. }
  rewrite E, <- (permute_comp n) by auto. apply (relabelled_mem _ B); auto.
  rewrite permute_length, (is_perm_length _ _ Pt). auto.
Qed.

Definition measure (st : Subsume) : nat := edges n st * (n + 1) + (n - s_fixed st).

Lemma search_spec : forall fuel st, Inv st -> measure st < fuel ->
  exists res st', search fuel st = Some (res, st') /\ ext st st' /\
    match res with
    | Some tau => sol tau
    | None => forall tau, compat n tau st -> sol tau -> False
    end.
Proof.
  induction fuel as [|f IH]; intros st I Hm; [lia|]. cbn [search].
  rewrite (mi_ch n st (iv_m st I)).
  destruct (Nat.eqb_spec (s_fixed st) n) as [F|F].
  { destruct (subsumes_unpermuted _ _) eqn:E.
    - exists (Some (result_perm st)), st. split; auto. split. apply ext_refl. now apply final_sol.
    - exists None, st. split; auto. split. apply ext_refl. intros tau C So. rewrite (final_complete st tau) in E; auto. discriminate. }
  assert (Hf : s_fixed st < n) by (pose proof (iv_fix st I); lia).
  destruct (filter_matching_spec st I) as (r1 & st1 & -> & St1 & Post1).
  destruct r1.
  2: { exists None, st1. split; auto. split. apply St1. auto. }
  destruct Post1 as (I1 & K1). pose proof St1 as (Fr1 & X1 & M1 & S1).
  destruct (move_unique_spec st1 I1) as (r2 & st2 & -> & X2 & I2 & Mm2 & F2 & NS2 & R2).
  assert (Fx1 : s_fixed st1 = s_fixed st) by apply Fr1.
  pose proof (edges_le n _ _ S1) as Le1. pose proof (edges_matching _ _ Mm2) as Ee2.
  assert (X02 : ext st st2) by (eapply ext_trans; eauto).
  destruct R2 as [(-> & ->)|(-> & Lt2)].
  2: { pose proof (iv_fix st2 I2).
       destruct (IH st2 I2) as (res & st' & -> & X3 & Post). { unfold measure in *. rewrite Ee2. nia. }
       exists res, st'. split; auto. split. eapply ext_trans; eauto. destruct res; auto.
       intros tau C So. apply (Post tau); auto. apply (compat_matching tau st1); auto. }
  (* guess *)
  destruct (select_guess_spec st1 I1) as (Ga & Gn); [lia|auto|].
  set (g := select_guess st1) in *. destruct (adj_lt n st1 _ _ _ M1 Ga) as (G0 & G1).
  assert (After : forall st3, ext st1 st3 ->
    (forall tau, compat n tau st1 -> sol tau -> nth (snd g) tau 0 <> fst g) ->
    exists res st', match remove_matching (rm_fuel st3) (rollback st3 (length (s_undo st1)) (s_fixed st1)) g with
      | None => None
      | Some (false, st4) => Some (None, st4)
      | Some (true, st4) => match move_unique st4 with None => None | Some (_, st5) => search f st5 end
      end = Some (res, st') /\ ext st st' /\
      match res with Some tau => sol tau | None => forall tau, compat n tau st -> sol tau -> False end).
  { intros st3 X3 Hg. rewrite (rollback_ext _ _ X3).
    assert (Fu : rm_fuel st3 = rm_fuel st1).
    { unfold rm_fuel. destruct X3 as (l & _ & (Ch & _)).
      assert (Hk : forall l a, s_channels (fold_left undo_action l a) = s_channels a).
      { clear. induction l as [|x l IHl]; simpl; intros a; auto. rewrite IHl. destruct x; auto. }
      rewrite Hk in Ch. now rewrite Ch. }
    rewrite Fu.
    destruct (remove_matching_spec n (rm_fuel st1) none st1 g M1 (rm_enough st1 M1) Ga (iv_ok st1 I1)) as (r4 & st4 & -> & St4 & Post4).
    destruct r4.
    - destruct Post4 as (A4 & O4 & K4). pose proof (Inv_step st1 st4 I1 St4 O4) as I4. pose proof St4 as (Fr4 & X4 & M4 & S4).
      destruct (move_unique_spec st4 I4) as (r5 & st5 & -> & X5 & I5 & Mm5 & F5 & _ & _).
      assert (Lt : edges n st4 < edges n st1) by (eapply edges_lt; eauto). pose proof (edges_matching _ _ Mm5) as Ee5.
      destruct (IH st5 I5) as (res & st' & -> & X6 & Post6). { unfold measure in *. rewrite Ee5. nia. }
      exists res, st'. split; auto. split. { eapply ext_trans; eauto. eapply ext_trans; eauto. eapply ext_trans; eauto. }
      destruct res; auto. intros tau C So. apply (Post6 tau); auto. apply (compat_matching tau st4); auto.
    - exists None, st4. split; auto. split. { eapply ext_trans; eauto. apply St4. }
      intros tau C So. apply (Hg tau); auto. }
  unfold isolate_matching.
  destruct (clear_others_spec n (remove_matching (rm_fuel st1)) (rm_fuel st1) none false (snd g) (fst g)
             (remove_matching_spec n (rm_fuel st1)) G1 G0 (rm_fuel st1) st1 M1 (rm_enough st1 M1) (rm_enough st1 M1) (iv_ok st1 I1))
    as (r3 & st3 & -> & St3 & Post3).
  destruct r3.
  - destruct Post3 as (A3 & O3 & K3). pose proof (Inv_step st1 st3 I1 St3 O3) as I3. pose proof St3 as (Fr3 & X3 & M3 & S3).
    assert (Lt : edges n st3 < edges n st1).
    { (* some partner of the guessed side-1 channel disappeared *)
      destruct (existsb (fun a => adj st1 true (snd g) a && negb (adj st3 true (snd g) a)) (seq 0 n)) eqn:Ex.
      - apply existsb_exists in Ex. destruct Ex as (a & _ & Ha). apply andb_true_iff in Ha. destruct Ha as (Ha & Hb).
        apply negb_true_iff in Hb. apply (edges_lt n st1 st3 a (snd g)); auto.
        rewrite (mi_sym n st1 M1). auto. rewrite (mi_sym n st3 M3). auto.
      - exfalso. apply (Gn (fst g)). rewrite <- A3. simpl. apply nat_ext_bits. intros e.
        destruct (Nat.testbit (mask_of st1 true (snd g)) e) eqn:T.
        + assert (He : e < n) by (now apply (mi_lt n st1 M1 true (snd g))).
          destruct (Nat.testbit (mask_of st3 true (snd g)) e) eqn:T3; auto. rewrite <- Ex. symmetry. apply existsb_exists. exists e.
          split. apply in_seq; lia. unfold adj. rewrite T, T3. auto.
        + destruct (Nat.testbit (mask_of st3 true (snd g)) e) eqn:T3; auto. apply S3 in T3. unfold adj in T3. congruence. }
    destruct (move_unique_spec st3 I3) as (r4 & st4 & -> & X4 & I4 & Mm4 & F4 & _ & _). pose proof (edges_matching _ _ Mm4) as Ee4.
    destruct (IH st4 I4) as (res & st5 & -> & X5 & Post5). { unfold measure in *. rewrite Ee4. nia. }
    assert (X15 : ext st1 st5) by (eapply ext_trans; [exact X3|]; eapply ext_trans; eauto).
    destruct res as [tau|].
    + exists (Some tau), (rollback st5 (length (s_undo st1)) (s_fixed st1)). split; auto. split; auto.
      rewrite (rollback_ext _ _ X15). auto.
    + apply After; auto. intros tau C So E. apply (Post5 tau); auto. apply (compat_matching tau st3); auto.
  - apply After. apply St3. intros tau C So E. apply (Post3 tau C). exact E.
Qed.

Lemma full_Inv : forall st, subsume_new (A, B) = Some st -> Inv st /\ (forall tau, is_perm n tau -> compat n tau st) /\ s_channels st = n /\ s_fixed st = 0.
Proof.
  intros st H. unfold subsume_new in H. simpl in H. rewrite CA, CB, Nat.eqb_refl in H. injection H as <-.
  assert (Ad : forall s c d, adj (mkSubsume n (A, B) (seq 0 n, seq 0 n) (repeat (2 ^ n - 1) n, repeat (2 ^ n - 1) n) [] 0) s c d = (c <? n) && (d <? n)).
  { intros s c d. unfold adj, mask_of. cbn [s_matching]. replace (sel s (repeat (2 ^ n - 1) n, repeat (2 ^ n - 1) n)) with (repeat (2 ^ n - 1) n) by (destruct s; auto).
    destruct (c <? n) eqn:E. apply Nat.ltb_lt in E. rewrite nth_repeat_lt by auto. apply ones_testbit.
    apply Nat.ltb_ge in E. rewrite nth_overflow by now rewrite repeat_length. apply Nat.bits_0. }
  split; [|split; [|split; auto]].
  - constructor; auto.
    + constructor; auto.
      * intros []; simpl; apply repeat_length.
      * intros s c d. rewrite Ad. intros H. apply andb_true_iff in H. now apply Nat.ltb_lt.
      * intros s c Hc. apply nz_bit. exists c. fold (adj (mkSubsume n (A, B) (seq 0 n, seq 0 n) (repeat (2 ^ n - 1) n, repeat (2 ^ n - 1) n) [] 0) s c c).
        rewrite Ad. apply Nat.ltb_lt in Hc. now rewrite Hc.
      * intros s c d. rewrite !Ad. apply andb_comm.
    + intros s c Hc. right. intros d E. assert (Hd : d < n).
      { assert (T : adj (mkSubsume n (A, B) (seq 0 n, seq 0 n) (repeat (2 ^ n - 1) n, repeat (2 ^ n - 1) n) [] 0) s c d = true).
        { unfold adj. rewrite E, pow2_testbit. apply Nat.eqb_refl. } rewrite Ad in T. apply andb_true_iff in T. now apply Nat.ltb_lt. }
      assert (En : mask_of (mkSubsume n (A, B) (seq 0 n, seq 0 n) (repeat (2 ^ n - 1) n, repeat (2 ^ n - 1) n) [] 0) (negb s) d = 2 ^ d).
      { rewrite <- E. unfold mask_of. cbn [s_matching]. destruct s; cbn [sel fst snd negb]; now rewrite !nth_repeat_lt by auto. }
      replace c with d; auto.
      (* the full mask is a power of two only for n = 1 *)
      assert (T : adj (mkSubsume n (A, B) (seq 0 n, seq 0 n) (repeat (2 ^ n - 1) n, repeat (2 ^ n - 1) n) [] 0) s c c = true).
      { rewrite Ad. apply Nat.ltb_lt in Hc. now rewrite Hc. }
      unfold adj in T. rewrite E, pow2_testbit in T. now apply Nat.eqb_eq.
    + simpl. lia.
    + intros s. simpl. assert (Id : forall t, wf t -> channels t = n -> relabelled (seq 0 n) t t).
      { intros t W C. split; auto. split; auto. split; auto. rewrite C. split. apply is_perm_id.
        intros y. split. intros H. exists y. split; auto. destruct H as (L & _). rewrite <- C, <- L. now rewrite permute_id.
        intros (x & Hx & ->). pose proof Hx as (L & _). rewrite <- C, <- L. now rewrite permute_id. }
      destruct s; simpl; auto.
    + simpl. lia.
  - intros tau P. split; auto. intros b Hb. rewrite Ad. apply Nat.ltb_lt in Hb as Hb'. rewrite Hb'. apply Nat.ltb_lt. now apply is_perm_nth.
Qed.

Theorem subsumes_permuted_spec :
  exists res, subsumes_permuted A B = Some res /\
    match res with
    | Some tau => sol tau
    | None => forall tau, ~ sol tau
    end.
Proof.
  unfold subsumes_permuted. destruct (subsume_new (A, B)) as [st|] eqn:E.
  2: { unfold subsume_new in E. simpl in E. rewrite CA, CB, Nat.eqb_refl in E. discriminate. }
  destruct (full_Inv st E) as (I & Full & Ch & Fx). rewrite Ch.
  destruct (search_spec (search_fuel n) st I) as (res & st' & -> & _ & Post).
  { unfold measure, search_fuel. rewrite Fx. pose proof (edges_max n st). nia. }
  exists res. split; auto. destruct res; auto. intros tau So. apply (Post tau); auto. apply Full, So.
Qed.

End Search.
