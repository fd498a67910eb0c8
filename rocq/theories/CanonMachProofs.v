(* The checked canonicalization of CanonMachModel runs through the same arenas as CanonArenaModel. *)
From Coq Require Import List Arith Bool Lia Permutation.
Import ListNotations.
From Verif Require Import Spec Vec Util OutputSetModel OutputSetProofs CountProofs SubsumeModel MachineModel MachineProofs SubsumeMachModel CanonModel TreeModel
  CanonArenaModel CanonArenaProofs CanonBits CanonParts CanonProofs CanonSteps CanonLoop CanonNew CanonMachModel CanonMachParts.
From Verif Require PipeProofs SearchEdges IndexProofs SubsumeProofs.

Lemma rep_nodup r z : rep r z -> NoDup (r_layer r).
Proof. intros (S & _). pose proof (slots_nodup r [] S) as N. cbn [app] in N. now apply PipeProofs.NoDup_app_l in N. Qed.
Lemma rep_reads r z : rep r z -> reads r (r_layer r) (z_layer z).
Proof. now intros (_ & _ & _ & _ & R). Qed.
Lemma rep_ok r z : rep r z -> ok r.
Proof. now intros ((K & _) & _). Qed.

(* a loop over a layer that changes every slot once *)
Lemma change_mach F P M r0 :
  (forall c c', fit r0 c -> F c = Some c' -> fit r0 c') ->
  (forall m i c c' r', same r0 (m_arena m) -> load (m_arena m) i = Some c -> P c -> F c = Some c' -> store (m_arena m) i c' = Some r' ->
     exists b, M m i = Some (mkCanonM r' b (m_temp m))) ->
  forall l m cs r', ok (m_arena m) -> same r0 (m_arena m) -> NoDup l -> reads (m_arena m) l cs -> (forall c, In c cs -> P c) ->
  fold_opt (change_slot F) l (m_arena m) = Some r' -> exists b, fold_opt M l m = Some (mkCanonM r' b (m_temp m)).
Proof.
  intros HF HM l. induction l as [|i l IH]; intros m cs r' K S N R HP E; cbn [fold_opt] in *.
  - injection E as <-. exists (m_buffer m). now destruct m.
  - inversion R as [|? c ? cs0 L R0]; subst. apply NoDup_cons_iff in N. destruct N as (Ni & N).
    unfold change_slot at 1 in E. rewrite L in E. destruct (F c) as [c'|] eqn:Fc; [|discriminate].
    assert (Fi : fit (m_arena m) c'). { apply (same_fit r0); auto. apply (HF c); auto. apply load_fit in L; auto. destruct S as (S & _). unfold fit, bitmap_len in *. now rewrite S in L. }
    destruct (store_spec (m_arena m) i c' K (load_lt _ _ _ L) Fi) as (r1 & E1 & K1 & (S1 & _) & Fr1 & D1 & L1 & O1). rewrite E1 in E.
    destruct (HM m i c c' r1 S L (HP c (or_introl eq_refl)) Fc E1) as (b & ->).
    apply (IH (mkCanonM r1 b (m_temp m)) cs0 r'); auto.
    + cbn. eapply same_trans; eauto.
    + cbn. apply (reads_keep (m_arena m)); auto. intros j Hj. apply O1. intros ->. contradiction.
    + intros d Hd. apply HP. now right.
Qed.

Section Steps.
Variables n u : nat.
Variable hash : list nat -> nat.
Hypothesis Hu : u <= n.
Hypothesis Hn : n <= MAX_CHANNELS.
Notation good := (good n).
Notation pgood := (pgood n u).

Definition tok (t : OutputSet) : Prop := channels t = n /\ length (bitmap t) = 2 ^ n.

Lemma initialize_mach m z r' : rep (m_arena m) z -> z_used z = u -> (forall c, In c (z_layer z) -> good c) ->
  arena_initialize (m_arena m) = Some r' -> exists b, mach_initialize m = Some (mkCanonM r' b (m_temp m)).
Proof.
  intros H U G E. unfold arena_initialize, change_layer in E. unfold mach_initialize. rewrite (rep_used _ _ H), U in E.
  apply (change_mach (initialize_cand u) good mach_initialize_slot (m_arena m)) with (cs := z_layer z); auto.
  - apply initialize_fit.
  - intros m' i c c' r1 (_ & S2 & _) L Gc Fc St. exists (m_buffer m'). apply (init_slot n u Hu Hn m' i c c'); auto. rewrite S2, (rep_used _ _ H). auto.
  - apply (rep_ok _ _ H).
  - apply same_refl.
  - apply (rep_nodup _ _ H).
  - apply (rep_reads _ _ H).
Qed.

Lemma refine_mach m z r' : rep (m_arena m) z -> (forall c, In c (z_layer z) -> good c /\ pgood (z_fixed z) c) ->
  arena_refine hash (m_arena m) = Some r' -> exists b, mach_refine hash m = Some (mkCanonM r' b (m_temp m)).
Proof.
  intros H G E. unfold arena_refine, change_layer in E. unfold mach_refine. rewrite (rep_fixed _ _ H) in E.
  apply (change_mach (refine_cand hash (z_fixed z)) (fun c => good c /\ pgood (z_fixed z) c) (mach_refine_slot hash) (m_arena m)) with (cs := z_layer z); auto.
  - apply refine_fit.
  - intros m' i c c' r1 (_ & _ & S3) L (Gc & Pc) Fc St. rewrite (rep_fixed _ _ H) in S3. apply (refine_slot n u hash Hu Hn m' i c c'); auto; rewrite S3; auto.
  - apply (rep_ok _ _ H).
  - apply same_refl.
  - apply (rep_nodup _ _ H).
  - apply (rep_reads _ _ H).
Qed.

(* ---- prune ---- *)
Lemma recompute_mach f r0 : f <= n -> r_fixed r0 = f -> forall l mx m cs r', ok (m_arena m) -> same r0 (m_arena m) -> NoDup l -> reads (m_arena m) l cs -> (forall c, In c cs -> good c) ->
  fold_opt (change_slot (set_fp0 hash f)) l (m_arena m) = Some r' ->
  exists b, fold_opt (mach_recompute_slot hash) l (mx, m) = Some (fold_left Nat.max (map (key hash f) cs) mx, mkCanonM r' b (m_temp m)).
Proof.
  intros Hf F0 l. induction l as [|i l IH]; intros mx m cs r' K S N R HP E; cbn [fold_opt] in *.
  - injection E as <-. inversion R. subst. exists (m_buffer m). now destruct m.
  - inversion R as [|? c ? cs0 L R0]; subst. apply NoDup_cons_iff in N. destruct N as (Ni & N).
    unfold change_slot at 1 in E. rewrite L in E. destruct (set_fp0 hash (r_fixed r0) c) as [c'|] eqn:Fc; [|discriminate].
    assert (Fi : fit (m_arena m) c') by (apply (set_fp0_fit hash (r_fixed r0) _ c); auto; eapply load_fit; eauto).
    destruct (store_spec (m_arena m) i c' K (load_lt _ _ _ L) Fi) as (r1 & E1 & K1 & (S1 & _) & Fr1 & D1 & L1 & O1). rewrite E1 in E.
    destruct (load_parts _ _ _ L) as (G & D). destruct (HP c (or_introl eq_refl)) as (W & C & _).
    unfold mach_recompute_slot at 1. cbv zeta. rewrite G. destruct S as (Sa & Sb & Sc). rewrite Sc.
    destruct (low_fingerprint_m_ok hash (c_set c) (r_fixed r0) (m_buffer m) W) as (b & ->). { rewrite C. exact Hf. }
    rewrite D. cbn [data_of d_fp d_perm d_invert d_part d_score]. unfold set_fp0 in Fc. destruct (c_fp c) as [|x fp] eqn:Efp; [discriminate|]. injection Fc as <-.
    unfold wr at 1. cbn [length Nat.ltb Nat.leb upd]. rewrite (put_data_store n u Hu Hn _ _ _ _ _ G D). unfold to_cand. cbn [d_fp d_perm d_invert d_part d_score]. rewrite E1.
    cbn [map fold_left]. apply (IH (Nat.max mx (low_channels_fingerprint hash (c_set c) (r_fixed r0))) (mkCanonM r1 b (m_temp m)) cs0 r'); auto.
    + cbn. eapply same_trans; [|exact S1]. split; auto.
    + cbn. apply (reads_keep (m_arena m)); auto. intros j Hj. apply O1. intros ->. contradiction.
    + intros d Hd. apply HP. now right.
Qed.

Lemma retain_ext k1 k2 r : (forall i, In i (r_layer r) -> k1 i = k2 i) -> retain k1 r = retain k2 r.
Proof.
  intros H. unfold retain. rewrite (filter_ext_in k1 k2) by auto. rewrite (filter_ext_in (fun i => negb (k1 i)) (fun i => negb (k2 i))). reflexivity. intros i Hi. now rewrite H.
Qed.

Lemma set_fp0_keys f cs : forall cs', map_opt (set_fp0 hash f) cs = Some cs' -> map (fun c => nth 0 (c_fp c) 0) cs' = map (key hash f) cs /\ Forall (fun c => c_fp c <> []) cs'.
Proof.
  induction cs as [|c cs IH]; intros cs' H; cbn [map_opt] in H. { injection H as <-. auto. }
  unfold set_fp0 at 1 in H. destruct (c_fp c) as [|x fp]; [discriminate|]. destruct (map_opt _ cs) as [cs1|]; [|discriminate]. injection H as <-. destruct (IH cs1 eq_refl) as (A & B).
  split. cbn [map c_fp nth]. now rewrite A. constructor; auto. cbn. discriminate.
Qed.

Lemma prune_mach recompute m z r' : rep (m_arena m) z -> z_fixed z <= n -> (forall c, In c (z_layer z) -> good c) ->
  arena_prune hash recompute (m_arena m) = Some r' -> exists b, mach_prune hash recompute m = Some (mkCanonM r' b (m_temp m)).
Proof.
  intros H Hf HP E. pose proof H as ((K & P) & Nx & U & Fx & R). unfold arena_prune in E. unfold mach_prune. cbv zeta. destruct (length (r_layer (m_arena m)) =? 1).
  { injection E as <-. exists (m_buffer m). now destruct m. }
  destruct (map_opt (load (m_arena m)) (r_layer (m_arena m))) as [ld|] eqn:Eld; [|discriminate].
  destruct (r_fixed (m_arena m) =? r_used (m_arena m)).
  - destruct (r_layer (m_arena m)) as [|i l]; [discriminate|]. destruct (min_index (m_arena m) i l) as [k|]; [|discriminate]. injection E as <-. exists (m_buffer m). reflexivity.
  - pose proof (isort_reads _ _ _ R) as Rs. pose proof (IndexProofs.isort_perm' (index_leb (m_arena m)) (r_layer (m_arena m))) as Ps.
    set (X := match isort (index_leb (m_arena m)) (r_layer (m_arena m)) with
              | [] => Some ([], r_free (m_arena m))
              | i :: l => match dedup_index (m_arena m) i l (r_free (m_arena m)) with Some (k, fr) => Some (i :: k, fr) | None => None end
              end) in *.
    assert (Y : exists l fr, X = Some (l, fr) /\ reads (m_arena m) l (dedup_sets (isort set_leb (z_layer z))) /\ Permutation (l ++ fr) (r_layer (m_arena m) ++ r_free (m_arena m))).
    { unfold X. destruct (isort (index_leb (m_arena m)) (r_layer (m_arena m))) as [|i l] eqn:Ei; inversion Rs as [|? c ? cs L R0 E1 E2]; subst.
      - exists [], (r_free (m_arena m)). split; auto. split. constructor. now rewrite <- Ps.
      - rewrite dedup_sets_from. destruct (dedup_index_spec (m_arena m) l cs i c (r_free (m_arena m)) R0 L) as (k & fr & -> & Rk & Pk). exists (i :: k), fr. split; auto. split. now constructor.
        rewrite <- Ps. cbn. now rewrite Pk. }
    destruct Y as (l & fr & EX & Rl & Pl). rewrite EX in *. clear X EX. destruct ((length l =? 1) || negb recompute). { injection E as <-. exists (m_buffer m). reflexivity. }
    set (r1 := with_lists (m_arena m) fr l (r_next (m_arena m))) in *. unfold change_layer in E. change (r_layer r1) with l in E.
    destruct (fold_opt (change_slot (set_fp0 hash (r_fixed (m_arena m)))) l r1) as [r2|] eqn:E2; [|discriminate].
    assert (HP' : forall c, In c (dedup_sets (isort set_leb (z_layer z))) -> good c).
    { intros c Hc. apply (proj1 (dedup_spec n (isort set_leb (z_layer z)) ltac:(intros d Hd; apply HP; apply (Permutation_in _ (IndexProofs.isort_perm' set_leb (z_layer z))) in Hd; exact Hd))) in Hc.
      apply HP. apply (Permutation_in _ (IndexProofs.isort_perm' set_leb (z_layer z))) in Hc. exact Hc. }
    assert (Nl : NoDup l).
    { pose proof (slots_nodup _ [] (conj K P)) as N. cbn [app] in N. rewrite Nx in N. cbn [app] in N. apply (Permutation_NoDup (Permutation_sym Pl)) in N. now apply PipeProofs.NoDup_app_l in N. }
    destruct (recompute_mach (r_fixed (m_arena m)) r1 ltac:(lia) eq_refl l 0 (with_arena m r1) (dedup_sets (isort set_leb (z_layer z))) r2 K (same_refl r1) Nl Rl HP' E2) as (b & ->).
    pose proof (change_all (set_fp0 hash (r_fixed (m_arena m))) r1 (set_fp0_fit hash _ r1) l r1 (dedup_sets (isort set_leb (z_layer z))) K (same_refl r1) Nl Rl) as CA.
    destruct (map_opt (set_fp0 hash (r_fixed (m_arena m))) (dedup_sets (isort set_leb (z_layer z)))) as [cs'|] eqn:Ecs. 2: { rewrite E2 in CA. discriminate. }
    destruct CA as (r2' & E2' & K2 & (S2 & La2 & Ne2) & Fr2 & D2 & R2 & _). rewrite E2 in E2'. injection E2' as <-. change (r_layer r1) with l in La2.
    destruct (set_fp0_keys _ _ _ Ecs) as (Kk & NE). rewrite La2, (reads_map _ _ _ R2), Kk in E. injection E as <-.
    cbn [m_arena m_temp]. change (m_temp (with_arena m r1)) with (m_temp m).
    assert (Q : exists fps, map_opt (fun i => match rd (r_data r2) i with Some d => rd (d_fp d) 0 | None => None end) l = Some fps).
    { apply CanonSteps.map_opt_all. intros i Hi. destruct (reads_In _ _ _ i R2 Hi) as (c & Lc & Hc). destruct (load_parts _ _ _ Lc) as (_ & ->). cbn [data_of d_fp].
      rewrite Forall_forall in NE. apply NE in Hc. destruct (c_fp c); [congruence|]. eexists. reflexivity. }
    destruct Q as (fps & ->). exists b. unfold with_arena. cbn [m_buffer m_temp]. do 2 f_equal.
    apply retain_ext. intros i Hi. rewrite La2 in Hi. destruct (reads_In _ _ _ i R2 Hi) as (c & Lc & Hc). rewrite Lc. destruct (load_parts _ _ _ Lc) as (_ & ->). reflexivity.
Qed.

Lemma prune_fp_mach m r' : arena_prune_fp (m_arena m) = Some r' -> mach_prune_fp m = Some (with_arena m r').
Proof. unfold mach_prune_fp. now intros ->. Qed.

(* ---- move_singleton ---- *)
Lemma pgood_last f c e q : pgood f c -> rev (c_part c) = e :: q -> fst e <> 0 /\ fst e < 2 ^ n /\ forall ch, Nat.testbit (fst e) ch = true -> f <= ch < u.
Proof.
  intros P E. unfold CanonMachParts.pgood in P. rewrite Forall_forall in P. apply P. apply in_rev. rewrite E. now left.
Qed.

Lemma move_mach : forall l r cs, ok r -> NoDup l -> reads r l cs -> (forall c, In c cs -> good c /\ pgood (r_fixed r) c) ->
  mach_move l r = arena_move l r.
Proof.
  induction l as [|i l IH]; intros r cs K N R HP; cbn [mach_move arena_move]; auto.
  inversion R as [|? c ? cs0 L R0]; subst. apply NoDup_cons_iff in N. destruct N as (Ni & N). destruct (load_parts _ _ _ L) as (G & D). rewrite L, D.
  destruct (HP c (or_introl eq_refl)) as ((W & C & Lp) & PG). cbn [data_of d_part d_perm d_invert d_fp d_score].
  destruct (rev (c_part c)) as [|e q] eqn:Ep; auto. destruct (pgood_last _ _ _ _ PG Ep) as (NZ & Lt & Fb). destruct (is_single (fst e)) as [[|]|]; auto.
  pose proof (Fb _ (SubsumeProofs.ctz_bit _ NZ)) as Hb. set (a := ctz (fst e)) in *. cbv zeta.
  assert (ST : (if a =? r_fixed r
     then put_data r i (mkData (c_perm c) (c_invert c) (c_fp c) (removelast (c_part c)) (c_score c))
     else match get_set r i with
          | Some s => match swap_channels_c s a (r_fixed r) with
                      | Some s' => match put_set r i s' with
                                   | Some r1 => match swap_list_c (c_perm c) a (r_fixed r) with
                                                | Some perm => match swap_parts_m a (r_fixed r) (removelast (c_part c)) with
                                                               | Some part' => put_data r1 i (mkData perm (c_invert c) (c_fp c) part' (c_score c))
                                                               | None => None end
                                                | None => None end
                                   | None => None end
                      | None => None end
          | None => None end) = store r i (move_cand (r_fixed r) a c)).
  { unfold move_cand. destruct (a =? r_fixed r) eqn:Ea.
    - rewrite (put_data_store n u Hu Hn _ _ _ _ _ G D). reflexivity.
    - rewrite G, swap_ok by (auto; lia). destruct (put_both n u Hu Hn r i (c_set c) (data_of c) (swap_channels (c_set c) a (r_fixed r))
        (mkData (swap_list (c_perm c) a (r_fixed r)) (c_invert c) (c_fp c) (map (swap_part a (r_fixed r)) (removelast (c_part c))) (c_score c)) G D) as (r1 & E1 & E2).
      { rewrite swap_channels_length. apply (get_set_length n u Hu Hn _ _ _ G). }
      rewrite E1, swap_list_c_ok by lia. rewrite (swap_parts_m_ok n u Hu Hn) by lia. rewrite E2. reflexivity. }
  rewrite ST. destruct (store_spec r i (move_cand (r_fixed r) a c) K (load_lt _ _ _ L)) as (r1 & E1 & K1 & (S1 & S1a & S1b) & Fr1 & D1 & L1 & O1). { apply move_fit. eapply load_fit; eauto. }
  rewrite E1. apply (IH r1 cs0); auto.
  - apply (reads_keep r); auto. intros j Hj. apply O1. intros ->. contradiction.
  - intros d Hd. destruct S1 as (_ & _ & ->). apply HP. now right.
Qed.

(* ---- individualize ---- *)
Lemma ind_channel_mach index c e q ast b0 t0 source ast' : load (snd ast) index = Some c -> rev (c_part c) = e :: q -> good c -> source < n -> r_fixed (snd ast) < n -> tok t0 ->
  arena_individualize_channel hash index ast source = Some ast' ->
  exists b t, mach_individualize_channel hash index source (fst ast, mkCanonM (snd ast) b0 t0) = Some (fst ast', mkCanonM (snd ast') b t) /\ tok t.
Proof.
  destruct ast as (mx & r). cbn [fst snd]. intros L Ep (W & C & Lp) Hs Hf (T1 & T2) E. unfold arena_individualize_channel in E. rewrite L in E. cbv zeta in E.
  destruct (load_parts _ _ _ L) as (G & D). unfold mach_individualize_channel. cbv zeta. cbn [m_arena m_buffer m_temp]. rewrite G.
  assert (Lb : length (bitmap (c_set c)) = 2 ^ n) by (rewrite W, C; reflexivity).
  rewrite T2, Lb, Nat.eqb_refl. cbn [negb]. replace (mkOutputSet (channels t0) (bitmap (c_set c))) with (c_set c) by (apply os_same; cbn; congruence).
  rewrite swap_ok by (auto; lia). rewrite Nat.add_1_r.
  assert (Ws : wf (swap_channels (c_set c) source (r_fixed r))) by (apply swap_channels_wf; auto; lia).
  assert (Cs : channels (swap_channels (c_set c) source (r_fixed r)) = n) by now rewrite swap_channels_channels.
  assert (Tt : tok (swap_channels (c_set c) source (r_fixed r))) by (split; auto; now rewrite swap_channels_length).
  destruct (low_fingerprint_m_ok hash (swap_channels (c_set c) source (r_fixed r)) (S (r_fixed r)) b0 Ws) as (b & ->). { lia. }
  set (fp := low_channels_fingerprint hash (swap_channels (c_set c) source (r_fixed r)) (S (r_fixed r))) in *.
  destruct (fp <? mx). { injection E as <-. exists b, (swap_channels (c_set c) source (r_fixed r)). auto. }
  set (r1 := if mx <? fp then with_lists r (rev (r_next r) ++ r_free r) (r_layer r) [] else r) in *.
  assert (D1 : r_data r1 = r_data r) by (unfold r1; destruct (mx <? fp); reflexivity).
  rewrite D1, D. cbn [data_of d_perm d_part d_invert d_fp d_score]. rewrite swap_list_c_ok by lia. rewrite Ep in *. rewrite shl16_small by (unfold MAX_CHANNELS in *; lia).
  rewrite (swap_parts_m_ok n u Hu Hn) by lia. unfold to_cand. cbn [d_perm d_part d_invert d_fp d_score].
  change (mkCand (swap_channels (c_set c) source (r_fixed r)) (swap_list (c_perm c) source (r_fixed r)) (c_invert c) (c_fp c)
     (map (swap_part source (r_fixed r)) (removelast (c_part c) ++ [(Nat.ldiff (fst e) (2 ^ source), snd e)])) (c_score c)) with (individual_cand (r_fixed r) source c e).
  destruct (alloc r1 (individual_cand (r_fixed r) source c e)) as [(i & r2)|]; [|discriminate]. injection E as <-. exists b, (swap_channels (c_set c) source (r_fixed r)). auto.
Qed.

Lemma ind_channels_mach r0 index extra c cs e q : rev (c_part c) = e :: q -> good c -> r_fixed r0 < n -> forall l st ast b0 t0, (forall a, In a l -> a < n) -> tok t0 ->
  ind_rel r0 (index :: extra) (c :: cs) st ast -> forall ast', fold_opt (arena_individualize_channel hash index) l ast = Some ast' ->
  exists b t, fold_opt (fun st a => mach_individualize_channel hash index a st) l (fst ast, mkCanonM (snd ast) b0 t0) = Some (fst ast', mkCanonM (snd ast') b t) /\ tok t.
Proof.
  intros Ep G Hf l. induction l as [|a l IH]; intros st ast b0 t0 Hl Ht I ast' E; cbn [fold_opt] in *. { injection E as <-. eauto. }
  destruct (individualize_channel_rep hash r0 index extra c cs e q st ast a I Ep) as (a1 & E1 & I1). rewrite E1 in E.
  pose proof I as (_ & (_ & _ & Fx) & _ & _ & Re & _).
  destruct (ind_channel_mach index c e q ast b0 t0 a a1) as (b & t & -> & Ht1); auto. { inversion Re; auto. } { apply Hl. now left. } { now rewrite Fx. }
  refine (IH _ a1 b t _ Ht1 I1 ast' E). intros x Hx. apply Hl. now right.
Qed.

Lemma ind_slots_mach r0 : r_fixed r0 < n -> forall extra cs st ast b0 t0, (forall c, In c cs -> good c /\ pgood (r_fixed r0) c) -> tok t0 -> ind_rel r0 extra cs st ast ->
  forall ast', fold_opt (arena_individualize_slot hash) extra ast = Some ast' ->
  exists b t, fold_opt (mach_individualize_slot hash) extra (fst ast, mkCanonM (snd ast) b0 t0) = Some (fst ast', mkCanonM (snd ast') b t) /\ tok t.
Proof.
  intros Hf extra. induction extra as [|i extra IH]; intros cs st ast b0 t0 HP Ht H ast' E; pose proof H as (H1 & H2 & H3 & H4 & H5 & H6); cbn [fold_opt] in *. { injection E as <-. eauto. }
  inversion H5 as [|? c ? cs0 L R0]. subst cs. unfold arena_individualize_slot at 1 in E. unfold mach_individualize_slot at 1. cbn [snd m_arena]. rewrite L in E.
  destruct (load_parts _ _ _ L) as (G & D). rewrite D. cbn [data_of d_part]. destruct (rev (c_part c)) as [|e q] eqn:Ep; [discriminate|].
  destruct (HP c (or_introl eq_refl)) as (Gc & Pc). destruct (pgood_last _ _ _ _ Pc Ep) as (NZ & Lt & Fb).
  destruct (individualize_channels_rep hash r0 i extra c cs0 e q Ep (mask_bits (fst e) (fst e)) st ast H) as ((m & r) & E1 & I1). rewrite E1 in E.
  destruct (ind_channels_mach r0 i extra c cs0 e q Ep Gc Hf (mask_bits (fst e) (fst e)) st ast b0 t0) with (ast' := (m, r)) as (b & t & E2 & Ht2); auto. { intros a Ha. apply (mask_bits_lt n (fst e)) in Ha; tauto. }
  rewrite (bits_loop_fold (mach_individualize_channel hash i) (fst e)), E2; auto. 2: { pose proof (mask_bits_length n (fst e) Lt). unfold MAX_CHANNELS in *. lia. }
  cbn [fst snd m_arena with_arena m_buffer m_temp]. unfold with_arena. cbn [m_arena m_buffer m_temp].
  destruct I1 as (G1 & G2 & G3 & G4 & G5 & G6). cbn [fst snd] in *.
  refine (IH cs0 _ (m, with_lists r (i :: r_free r) (r_layer r) (r_next r)) b t _ Ht2 _ ast' E). { intros d Hd. apply HP. now right. }
  split; [exact G1|]. cbn [snd]. split. exact G2. split; [|split; [exact G4|split; [|exact G6]]].
  - destruct G3 as (K & P). split. exact K. cbn [with_lists r_layer r_next r_free r_data]. rewrite <- P, G4. cbn [app]. rewrite app_assoc. rewrite <- Permutation_middle. now rewrite app_assoc.
  - inversion G5; auto.
Qed.

Lemma individualize_mach m z r' : rep (m_arena m) z -> z_fixed z < n -> (forall c, In c (z_layer z) -> good c /\ pgood (z_fixed z) c) -> tok (m_temp m) ->
  arena_individualize hash (m_arena m) = Some r' -> exists b t, mach_individualize hash m = Some (mkCanonM r' b t) /\ tok t.
Proof.
  intros ((K & P) & Nx & U & Fx & R) Hf HP Ht E. unfold arena_individualize in E. unfold mach_individualize. cbv zeta.
  set (r := m_arena m) in *.
  assert (I : ind_rel r (r_layer r) (z_layer z) (0, []) (0, with_lists r (r_free r) [] (r_next r))).
  { split; auto. cbn [snd with_lists r_layer r_next]. split. repeat split. split; [|split; [|split]]; auto. { split. exact K. cbn [with_lists r_layer r_next r_free r_data app] in *. exact P. }
    rewrite Nx. constructor. }
  destruct (fold_opt (arena_individualize_slot hash) (r_layer r) (0, with_lists r (r_free r) [] (r_next r))) as [(mx & r1)|] eqn:E1; [|discriminate]. injection E as <-.
  destruct (ind_slots_mach r ltac:(lia) (r_layer r) (z_layer z) _ _ (m_buffer m) (m_temp m) ltac:(rewrite Fx; exact HP) Ht I (mx, r1) E1) as (b & t & E2 & Ht2).
  cbn [fst snd] in E2. unfold with_arena at 1. rewrite E2. exists b, t. auto.
Qed.
End Steps.

(* ---- the loop ---- *)
Section Loops.
Variables n u : nat.
Variable hash : list nat -> nat.
Variables s1 s2 : OutputSet.
Variable inv : bool.
Hypothesis Hu : u <= n.
Hypothesis Hn : n <= MAX_CHANNELS.
Notation Inv := (Inv n u s1 s2 inv).
Notation Fresh := (Fresh n u).
Notation good := (good n).
Notation pgood := (pgood n u).

Lemma CW_good s c : CW n inv s c -> good c.
Proof. intros (W & C & P & _). split; auto. split; auto. now apply is_perm_length. Qed.

Lemma PW_pgood f c : PW n u f c -> pgood f c.
Proof.
  intros (O & P & _). unfold CanonMachParts.pgood. unfold parts_ok in O. rewrite Forall_forall in *. intros e He. destruct (O e He) as (A & B). split; auto. split; auto. intros ch Ht.
  assert (L : ch < n). { apply Nat.nle_gt. intros G. rewrite (testbit_big n) in Ht by auto. discriminate. }
  assert (I : In ch (seq f (u - f))). { apply (Permutation_in _ P). unfold parts_bits. apply in_flat_map. exists e. split; auto. apply bits_In. auto. }
  apply in_seq in I. lia.
Qed.

Lemma Inv_good f L1 L2 : Inv f L1 L2 -> forall c, In c L1 -> good c /\ pgood f c.
Proof.
  intros I c Hc. split. apply (CW_good s1). apply (cw1 _ _ _ _ _ _ _ _ (i_pair _ _ _ _ _ _ _ _ I)); auto. apply PW_pgood. apply (i_pw1 _ _ _ _ _ _ _ _ I); auto.
Qed.

Lemma moves_mach : forall k fuel b f L1 L2 m, Inv f L1 L2 -> Uniform k L1 L2 -> k < fuel -> rep (m_arena m) (mkCanonicalize u f L1) -> exists r' L1' L2',
  arena_move_singletons fuel b (m_arena m) = Some (b || (0 <? k), r') /\ mach_move_singletons fuel b m = Some (b || (0 <? k), with_arena m r') /\
  rep r' (mkCanonicalize u (k + f) L1') /\ Inv (k + f) L1' L2' /\ Uniform 0 L1' L2'.
Proof.
  induction k as [|k IH]; intros fuel b f L1 L2 m I U Hk H; (destruct fuel as [|fuel]; [lia|]); cbn [arena_move_singletons mach_move_singletons].
  - pose proof (move_rep (m_arena m) _ H) as M. unfold move_singleton in M. cbn [z_fixed z_layer z_used] in M.
    rewrite move_layer_0 in M. 2: { apply (ne1 _ _ _ _ _ _ _ _ (i_pair _ _ _ _ _ _ _ _ I)). } 2: { intros c Hc. apply U. auto. }
    destruct M as (r' & E & _ & _ & R'). unfold mach_move_singleton.
    rewrite (move_mach n u Hu Hn (r_layer (m_arena m)) (m_arena m) L1); auto. 2: { apply (rep_ok _ _ H). } 2: { apply (rep_nodup _ _ H). } 2: { apply (rep_reads _ _ H). }
    2: { intros c Hc. rewrite (rep_fixed _ _ H). apply (Inv_good _ _ _ I c Hc). }
    unfold arena_move_singleton in *. rewrite E. exists r', L1, L2. rewrite orb_false_r. auto.
  - pose proof (move_rep (m_arena m) _ H) as M. unfold move_singleton in M. cbn [z_fixed z_layer z_used] in M.
    rewrite (move_layer_S n u Hu Hn f k) in M. 2: { apply (i_pw1 _ _ _ _ _ _ _ _ I). } 2: { intros c Hc. apply U. auto. }
    destruct M as (r' & E & _ & _ & R'). unfold mach_move_singleton.
    rewrite (move_mach n u Hu Hn (r_layer (m_arena m)) (m_arena m) L1); auto. 2: { apply (rep_ok _ _ H). } 2: { apply (rep_nodup _ _ H). } 2: { apply (rep_reads _ _ H). }
    2: { intros c Hc. rewrite (rep_fixed _ _ H). apply (Inv_good _ _ _ I c Hc). }
    unfold arena_move_singleton in *. rewrite E. destruct (move_step n u s1 s2 inv Hu Hn f k L1 L2 I U) as (I' & U' & _).
    destruct (IH fuel true (S f) _ _ (with_arena m r') I' U' ltac:(lia) R') as (r2 & A1 & A2 & E1 & E2 & R2 & I2 & U2). cbn [m_arena with_arena] in E1. rewrite E1, E2.
    exists r2, A1, A2. replace (S k + f) with (k + S f) by lia. rewrite orb_true_r. auto.
Qed.

Lemma loop_mach : forall fuel f L1 L2 m, Inv f L1 L2 -> Fresh f L1 L2 -> f < u -> u - f < fuel -> rep (m_arena m) (mkCanonicalize u f L1) -> tok n (m_temp m) ->
  exists r' b t, arena_loop hash fuel (m_arena m) = Some r' /\ mach_loop hash fuel m = Some (mkCanonM r' b t).
Proof.
  induction fuel as [|fuel IH]; intros f L1 L2 m I Fr Hf Hfuel H Ht; [lia|]. cbn [arena_loop mach_loop].
  destruct (prune_fp_step n u hash s1 s2 inv f L1 L2 I Fr) as (k & A1 & A2 & E1 & _ & I1 & U1).
  pose proof (prune_fp_rep (m_arena m) _ H) as M1. rewrite E1 in M1. destruct M1 as (r1 & F1 & _ & R1). rewrite F1, (prune_fp_mach m r1 F1). rewrite (rep_used _ _ H). cbn [z_used].
  assert (Lk : k <= u - f) by (eapply Uniform_le; [exact Hu|exact Hn|exact I1|exact U1]).
  destruct (moves_mach k (S u) false f A1 A2 (with_arena m r1) I1 U1 ltac:(lia) R1) as (r2 & B1 & B2 & F2 & G2 & R2 & I2 & U2). cbn [m_arena with_arena] in F2. rewrite F2, G2. cbn [orb].
  set (m2 := with_arena (with_arena m r1) r2) in *.
  destruct (Nat.eq_dec (k + f) u) as [Eu|Nu].
  - assert (Hk : 0 <? k = true) by (apply Nat.ltb_lt; lia). rewrite Hk, Eu in *.
    destruct (prune_end_step n u hash s1 s2 inv Hu true B1 B2 I2) as (c1 & c2 & P1 & _).
    pose proof (prune_rep hash true r2 _ R2) as M3. rewrite P1 in M3. destruct M3 as (r3 & F3 & _ & R3). rewrite F3.
    destruct (prune_mach n u hash Hu Hn true m2 _ r3 R2 Hu (fun c Hc => proj1 (Inv_good _ _ _ I2 c Hc)) F3) as (b3 & ->). cbn [m_arena].
    rewrite (rep_used _ _ R3), (rep_fixed _ _ R3). cbn [z_used z_fixed]. rewrite Nat.eqb_refl. eauto.
  - assert (Hkf : k + f < u) by lia.
    assert (exists r3 b3 C1 C2, (if 0 <? k then arena_prune hash true r2 else Some r2) = Some r3 /\ (if 0 <? k then mach_prune hash true m2 else Some m2) = Some (mkCanonM r3 b3 (m_temp m)) /\
       rep r3 (mkCanonicalize u (k + f) C1) /\ Inv (k + f) C1 C2 /\ Uniform 0 C1 C2) as (r3 & b3 & C1 & C2 & F3 & G3 & R3 & I3 & U3).
    { destruct (0 <? k).
      - destruct (prune_step n u hash s1 s2 inv Hu Hn true (k + f) B1 B2 Hkf I2) as (C1 & C2 & P1 & _ & I3 & U3).
        pose proof (prune_rep hash true r2 _ R2) as M3. rewrite P1 in M3. destruct M3 as (r3 & F3 & _ & R3).
        destruct (prune_mach n u hash Hu Hn true m2 _ r3 R2 ltac:(cbn; lia) (fun c Hc => proj1 (Inv_good _ _ _ I2 c Hc)) F3) as (b3 & G3). exists r3, b3, C1, C2. split; [exact F3|]. split; [exact G3|]. auto.
      - exists r2, (m_buffer m), B1, B2. split; [reflexivity|]. split; [reflexivity|]. auto. }
    rewrite F3, G3. cbn [m_arena]. rewrite (rep_used _ _ R3), (rep_fixed _ _ R3). cbn [z_used z_fixed]. apply Nat.eqb_neq in Nu. rewrite Nu.
    destruct (individualize_step n u hash s1 s2 inv Hu Hn (k + f) C1 C2 Hkf I3 U3) as (D1 & D2 & P1 & _ & I4 & Hs).
    pose proof (individualize_rep hash r3 _ R3) as M4. rewrite P1 in M4. destruct M4 as (r4 & F4 & _ & _ & R4). rewrite F4.
    destruct (individualize_mach n u hash Hu Hn (mkCanonM r3 b3 (m_temp m)) _ r4 R3 ltac:(cbn; lia) (Inv_good _ _ _ I3) Ht F4) as (b4 & t4 & -> & Ht4).
    destruct (prune_step n u hash s1 s2 inv Hu Hn false (S (k + f)) D1 D2 Hs I4) as (X1 & X2 & P2 & _ & I5 & _).
    pose proof (prune_rep hash false r4 _ R4) as M5. rewrite P2 in M5. destruct M5 as (r5 & F5 & _ & R5). rewrite F5.
    destruct (prune_mach n u hash Hu Hn false (mkCanonM r4 b4 t4) _ r5 R4 ltac:(cbn; lia) (fun c Hc => proj1 (Inv_good _ _ _ I4 c Hc)) F5) as (b5 & ->). cbn [m_arena m_temp].
    rewrite (rep_used _ _ R5), (rep_fixed _ _ R5). cbn [z_used z_fixed]. destruct (Nat.eqb_spec (S (k + f)) u) as [|_]; [lia|].
    destruct (refine_step n u hash s1 s2 inv Hu Hn (S (k + f)) X1 X2 Hs I5) as (Y1 & Y2 & P3 & _ & I6 & Fr6).
    pose proof (refine_rep hash r5 _ R5) as M6. unfold refine in M6. cbn [z_fixed z_used z_layer] in M6. rewrite P3 in M6. cbn [option_map] in M6. destruct M6 as (r6 & F6 & _ & R6). rewrite F6.
    destruct (refine_mach n u hash Hu Hn (mkCanonM r5 b5 t4) _ r6 R5 (Inv_good _ _ _ I5) F6) as (b6 & ->).
    apply (IH (S (k + f)) Y1 Y2 (mkCanonM r6 b6 t4)); auto. lia.
Qed.
End Loops.

(* ---- new ---- *)
Lemma upd_same_value {A} (l : list A) i x : nth_error l i = Some x -> upd l i x = l.
Proof. revert i. induction l as [|a l IH]; intros [|i] H; cbn in *; try discriminate. injection H as ->. reflexivity. now rewrite IH. Qed.

Lemma put_set_store n r i s d s' : n <= MAX_CHANNELS -> get_set r i = Some s -> rd (r_data r) i = Some d -> put_set r i s' = store r i (to_cand s' d).
Proof.
  intros Hn G D. destruct (get_set_length n n (le_n n) Hn r i s G) as (B & L & Eb). assert (H : i < length (r_data r)) by (apply nth_error_Some; unfold rd in D; congruence).
  unfold put_set, store. cbv zeta. cbn [to_cand c_set]. apply Nat.leb_le in B. rewrite B. apply Nat.ltb_lt in H. rewrite H, andb_true_r. cbn [andb].
  destruct (length (bitmap s') =? bitmap_len r); auto. f_equal. f_equal. symmetry. replace (data_of (to_cand s' d)) with d by (now destruct d). apply upd_same_value. exact D.
Qed.

Lemma new_fold_mach n s : wf s -> channels s = n -> forall k st, k <= n -> NewInv n s k st ->
  fold_opt move_unconstrained_m (rev (seq 0 k)) st = Some (fold_left move_unconstrained (rev (seq 0 k)) st).
Proof.
  intros W C. induction k as [|k IH]; intros st Hk H. reflexivity. rewrite seq_S, rev_app_distr. cbn [rev app Nat.add fold_opt fold_left].
  assert (E : move_unconstrained_m st k = Some (move_unconstrained st k)).
  { destruct st as ((used & t) & p). cbn [NewInv] in H. destruct H as (H1 & (_ & Wt & Ct & P & _) & _). rewrite C in *. apply is_perm_length in P.
    unfold move_unconstrained_m, move_unconstrained. rewrite unconstrained_ok by (auto; lia). destruct (is_channel_unconstrained t k); auto.
    unfold sub_u. replace (1 <=? used) with true by (symmetry; apply Nat.leb_le; lia). rewrite swap_ok by (auto; lia). rewrite swap_list_c_ok by lia. reflexivity. }
  rewrite E. apply IH. lia. apply new_step; auto.
Qed.

Lemma new_mach s inversion r : wf s -> channels s <= MAX_CHANNELS -> arena_new s inversion = Some r -> mach_new s inversion = Some (mkCanonM r [] s).
Proof.
  intros W Hn E. unfold mach_new. cbv zeta. rewrite collect_le by (rewrite seq_length; exact Hn).
  rewrite (new_fold_mach (channels s) s W eq_refl (channels s)); auto.
  2: { cbn [NewInv]. split; [lia|]. split. apply (relabelled_id (channels s) (channels s) (le_n _)); auto. split; intros; lia. }
  unfold arena_new in E. cbv zeta in E. destruct (fold_left move_unconstrained (rev (seq 0 (channels s))) (channels s, s, seq 0 (channels s))) as ((used & s') & p).
  cbn [to_cand d_perm d_invert d_fp d_part d_score]. unfold to_cand. cbn [d_perm d_invert d_fp d_part d_score].
  destruct (alloc _ (mkCand s' p false [] [] (0, 0))) as [(identity & r1)|]; [|discriminate]. destruct inversion. 2: { injection E as <-. reflexivity. }
  destruct (alloc _ (mkCand s' p true [] [] (0, 0))) as [(inverted & r2)|]; [|discriminate]. destruct (load r2 inverted) as [c|] eqn:L; [|discriminate].
  destruct (load_parts _ _ _ L) as (G & D). rewrite G. rewrite (put_set_store (channels s) r2 inverted (c_set c) (data_of c)) by auto. unfold to_cand. cbn [data_of d_perm d_invert d_fp d_part d_score].
  destruct (store r2 inverted _) as [r3|]; [|discriminate]. destruct (get_set r3 inverted) as [a|]; [|discriminate]. destruct (get_set r3 identity) as [b|]; [|discriminate].
  destruct (os_eqb a b); injection E as <-; reflexivity.
Qed.

(* ---- the whole run ---- *)
Theorem mach_refines hash s inversion : wf s -> channels s <= MAX_CHANNELS -> mach_canonicalize hash s inversion = canonicalize hash s inversion /\ canonicalize hash s inversion <> None.
Proof.
  intros W Hn. rewrite <- arena_refines by auto. unfold mach_canonicalize, arena_canonicalize. destruct (Nat.eqb_spec (channels s) 0) as [E0|N0]. { split. reflexivity. discriminate. }
  destruct (new_rep s inversion W) as (r0 & E0 & C0 & H0). rewrite E0, (new_mach s inversion r0 W Hn E0).
  destruct (canon_new_spec (channels s) s inversion W eq_refl) as (u & t & p & L & EN & Hu & R & _ & _ & I & _ & NE). rewrite EN in H0.
  assert (X : exists r b t z, arena_final hash r0 = Some r /\ mach_final hash (mkCanonM r0 [] s) = Some (mkCanonM r b t) /\ rep r z /\ r_channels r = channels s /\ z_layer z <> []).
  { unfold arena_final, mach_final. cbn [m_arena]. rewrite (rep_used _ _ H0). cbn [z_used]. destruct (Nat.ltb_spec 0 u) as [Lu|Lu].
    2: { exists r0, [], s, (mkCanonicalize u 0 L). auto. }
    assert (P : Pair (channels s) u s s inversion 0 L L).
    { assert (Hc : forall c, In c L -> CW (channels s) inversion s c) by (intros c Hc; apply I; auto).
      assert (Hs : forall c, In c L -> exists d sg, In d L /\ srel (channels s) u 0 sg (c_set c) (c_set d)).
      { intros c Hc'. destruct (Hc c Hc') as (Wc & Cc & _). exists c, (seq 0 (channels s)). split; auto. split; auto. split. split. apply Permutation_refl.
        intros i Hi _. rewrite seq_nth by auto. reflexivity. apply (relabelled_id (channels s) (channels s) (le_n _)); auto. }
      constructor; auto. intros c Hc'. destruct (Hc c Hc') as (Wc & Cc & _). exists c, (seq 0 (channels s)). split; auto. split; auto. split. split. apply Permutation_refl.
        intros i Hi _. rewrite seq_nth by auto. reflexivity. apply (relabelled_id (channels s) (channels s) (le_n _)); auto. }
    destruct (initialize_step (channels s) u s s inversion Hu Hn L L Lu P) as (L1 & L2 & M1 & _ & I1 & Fr).
    { intros c [Hc|Hc]; destruct (I c Hc) as (A & B & _); auto. }
    pose proof (initialize_rep r0 _ H0) as IR. unfold initialize_partitions in IR. cbn [z_used z_fixed z_layer] in IR. rewrite M1 in IR. cbn [option_map] in IR. destruct IR as (r1 & E1 & (C1 & _) & R1).
    rewrite E1. destruct (initialize_mach (channels s) u Hu Hn (mkCanonM r0 [] s) _ r1 H0 eq_refl) as (b1 & ->); auto. { intros c Hc. apply (CW_good (channels s) inversion s). apply I. auto. }
    assert (Ts : tok (channels s) s) by (split; auto).
    destruct (loop_mach (channels s) u hash s s inversion Hu Hn (S u) 0 L1 L2 (mkCanonM r1 b1 s) I1 Fr Lu ltac:(lia) R1 Ts) as (r' & b & t' & A & B). cbn [m_arena m_temp] in *. rewrite A, B.
    pose proof (loop_rep hash (S u) r1 _ R1) as LR. destruct (loop_ok (channels s) u hash s s inversion Hu Hn (S u) 0 L1 L2 I1 Fr Lu ltac:(lia)) as (c1 & _ & K1 & _). rewrite K1 in LR.
    destruct LR as (r'' & A' & R' & C'). rewrite A in A'. injection A' as <-. exists r', b, t', (mkCanonicalize u u [c1]). repeat split; auto; try apply R'. congruence. cbn. discriminate. }
  destruct X as (r & b & t' & z & -> & -> & Rz & Cz & Nz). cbn [m_arena]. pose proof (rep_reads _ _ Rz) as Rd. destruct (z_layer z) as [|c cs]; [congruence|]. inversion Rd as [|i ? l ? Lc _ El]. subst.
  unfold rd at 1. cbn [nth_error]. destruct (load_parts _ _ _ Lc) as (G & D). rewrite G, D, Lc. cbn [data_of d_invert d_perm].
  pose proof (get_set_length (channels s) (channels s) (le_n _) Hn r i (c_set c) G) as (_ & Lb & _). unfold bitmap_len in Lb. rewrite Cz in Lb. unfold wf in W. rewrite Lb, W, Nat.eqb_refl.
  assert (Ec : channels (c_set c) = channels s). { unfold get_set in G. cbv zeta in G. destruct (_ <=? _); [|discriminate]. injection G as G. rewrite <- G. exact Cz. }
  split; [|discriminate]. rewrite <- Ec. now destruct (c_set c).
Qed.
