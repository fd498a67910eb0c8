(* The reference checker and the verified checker accept the same well-formed certificates. *)
From Coq Require Import List Arith Bool Lia Permutation ZArith Sorted.
Import ListNotations.
From Verif Require Import Spec Vec Net Graded Bits Util OutputSetProofs PruneProofs CountProofs HuffmanProofs
  VerifiedCheckerModel VerifiedCheckerProofs RefCheckerModel RefCheckerProofs DecodeModel.

Lemma Forall2_length {A B} (R : A -> B -> Prop) l m : Forall2 R l m -> length l = length m.
Proof. induction 1; simpl; auto. Qed.

Definition trel (n : nat) (t : Vect_trie) (vs : VectSet) : Prop :=
  rwf vs /\ vchannels vs = n /\ same_set (mem t) (rset vs).

Lemma asBool_In vs y : rwf vs -> (In y (asBoolVectList vs) <-> rset vs y).
Proof.
  intros W. unfold asBoolVectList. rewrite in_map_iff. split.
  - intros (v & <- & Hv). now apply (rset_vec vs v W).
  - intros (L & H). exists (idx y). split; auto. rewrite <- L. apply vec_of_idx.
Qed.

Lemma trel_list vs : rwf vs -> trel (vchannels vs) (vt_list (asBoolVectList vs)) vs.
Proof. intros W. split; auto. split; auto. intros y. rewrite vt_list_mem. now apply asBool_In. Qed.

Lemma trel_unsorted n t vs : trel n t vs -> is_unsorted_vt n t = (1 + vchannels vs <? vsize vs).
Proof.
  intros (W & C & Sm). unfold is_unsorted_vt. rewrite C. f_equal.
  destruct (mem_card t) as (k & <- & Hk). apply (card_unique (mem t) (rset vs)); auto. now apply rset_card.
Qed.

Lemma same_nonredundant c V W : same_set V W -> (nonredundant c V <-> nonredundant c W).
Proof.
  intros E. assert (A : forall c V W, same_set V W -> nonredundant c V -> nonredundant c W).
  { clear. intros c V W E (H1 & H2). split; [destruct H1 as (x & Hx & G)|destruct H2 as (x & Hx & G)]; exists x; split; auto; now apply E. }
  split; apply A; auto. intros x; symmetry; apply E.
Qed.

Section Agree.
Variable count : Z.
Variable fn : Z -> RefStep.
Hypothesis WF : forall i, (0 <= i < count)%Z -> rstep_wf (fn i).
Let rsteps (limit : Z) : Z -> option RefStep :=
  fun i => bind (check (i <? limit)%Z) (fun _ => if (0 <=? i)%Z && (i <? count)%Z then Some (fn i) else None).
Let vsteps : Z -> Proof_step := fun i => translateStep (fn i).

Lemma bound_agree limit w n t vs : (limit <= count)%Z ->
  (forall i, (0 <= i < limit)%Z -> vects (vectSet (fn i)) <> []) ->
  trel n t vs -> wperm_ok n w ->
  get_bound vsteps limit (option_map translateWitness w) n t = getBound (rsteps limit) w vs.
Proof.
  intros Lc NE T P. pose proof T as (W & C & Sm). destruct w as [w|]; cbn [option_map get_bound getBound].
  - simpl in P. cbv zeta. cbn [translateWitness witness_step_id witness_perm witness_invert].
    assert (Em : map Z.to_nat (map Z.of_nat (wperm w)) = wperm w).
    { rewrite map_map. rewrite <- (map_id (wperm w)) at 2. apply map_ext. intros. apply Nat2Z.id. }
    rewrite Em. unfold rsteps at 1. 
    assert (E2 : forallb (fun i => (0 <=? i) && (i <? n)) (wperm w) = true).
    { apply forallb_forall. intros i Hi. apply (is_perm_In n) in Hi; auto. now apply andb_true_iff; split; [|apply Nat.ltb_lt]. }
    assert (E3 : (length (wperm w) =? n) = true) by (apply Nat.eqb_eq; now apply is_perm_length).
    assert (E4 : distinct (wperm w) = true) by (apply distinct_NoDup; now apply (is_perm_NoDup n)).
    rewrite E2, E3, E4. cbn [negb orb].
    destruct (0 <=? stepId w)%Z eqn:B1; [|destruct (stepId w <? limit)%Z; reflexivity].
    destruct (stepId w <? limit)%Z eqn:B2; [|reflexivity]. apply Z.leb_le in B1. apply Z.ltb_lt in B2.
    assert (B3 : (stepId w <? count)%Z = true) by (apply Z.ltb_lt; lia). rewrite B3. cbn [andb negb orb check bind].
    set (s := fn (stepId w)). destruct (WF (stepId w)) as (Ws & _); [lia|]. fold s in Ws.
    unfold vsteps. fold s. cbn [translateStep step_vect_list step_bound].
    specialize (NE (stepId w) ltac:(lia)). fold s in NE.
    set (V' := if winvert w then vinvert (vectSet s) else vectSet s).
    assert (HV : rwf V' /\ vchannels V' = vchannels (vectSet s) /\
                 same_set (rset V') (image (complement_if (winvert w)) (rset (vectSet s)))).
    { unfold V'. destruct (winvert w); simpl complement_if.
      - destruct (vinvert_spec (vectSet s) Ws). auto.
      - split; auto. split; auto. apply same_set_sym, image_id_ext. auto. }
    destruct HV as (W' & C' & S'). unfold vsubsumes. cbn [vpermute vchannels]. rewrite C', C.
    destruct (Nat.eq_dec (vchannels (vectSet s)) n) as [En|En].
    + assert (Q1 : forallb (fun xs : list bool => length xs =? n) (asBoolVectList (vectSet s)) = true).
      { apply forallb_width. intros x Hx. apply asBool_In in Hx; auto. rewrite <- En. now apply rset_width. }
      rewrite Q1, En, Nat.eqb_refl. cbn [negb orb bind].
      assert (Lp : length (wperm w) = vchannels V') by (rewrite C', En; now apply is_perm_length).
      destruct (vpermute_spec (wperm w) V' W' Lp) as (W2 & S2).
      assert (Q2 : is_subset_vt (permute_vt (wperm w) (invert_vt (winvert w) (vt_list (asBoolVectList (vectSet s))))) t =
                   is_subset (vects (vpermute (wperm w) V')) (vects vs)).
      { apply eq_true_iff_eq. rewrite is_subset_mem, vsubsumes_spec; auto; [|simpl; congruence].
        assert (X : same_set (mem (permute_vt (wperm w) (invert_vt (winvert w) (vt_list (asBoolVectList (vectSet s))))))
                             (rset (vpermute (wperm w) V'))).
        { eapply same_set_trans; [apply permute_vt_mem|]. eapply same_set_trans; [|apply same_set_sym, S2].
          intros y; split; intros (x & Hx & ->); exists x; split; auto.
          - apply invert_vt_mem in Hx. apply S'. destruct Hx as (z & Hz & ->). exists z. split; auto.
            apply (trel_list (vectSet s) Ws). auto.
          - apply S' in Hx. apply invert_vt_mem. destruct Hx as (z & Hz & ->). exists z. split; auto.
            apply (trel_list (vectSet s) Ws). auto. }
        split; intros H y Hy; apply Sm, H, X, Hy. }
      rewrite Q2. cbn [vpermute vects]. destruct (is_subset _ _); cbn [negb check bind]; auto. now rewrite Nat2Z.id.
    + assert (Q1 : forallb (fun xs : list bool => length xs =? n) (asBoolVectList (vectSet s)) = false).
      { apply not_true_iff_false. rewrite forallb_width. intros H. destruct (vects (vectSet s)) as [|v r] eqn:E; [easy|].
        apply En. assert (Hv : rset (vectSet s) (vec_of (vchannels (vectSet s)) v)).
        { apply rset_vec; auto. rewrite E. now left. }
        rewrite <- (H (vec_of (vchannels (vectSet s)) v)). now rewrite vec_of_length. now apply asBool_In. }
      rewrite Q1. apply Nat.eqb_neq in En. rewrite En. reflexivity.
  - rewrite (trel_unsorted n t vs T). destruct (vsize vs <=? 1 + vchannels vs) eqn:E.
    + apply Nat.leb_le in E. replace (1 + vchannels vs <? vsize vs) with false; auto. symmetry. apply Nat.ltb_ge. lia.
    + apply Nat.leb_gt in E. replace (1 + vchannels vs <? vsize vs) with true; auto. symmetry. apply Nat.ltb_lt. lia.
Qed.

Lemma ocmp_comp n : ocmp_list n = map (fun c => (snd c, fst c)) (comp_pairs n).
Proof.
  unfold ocmp_list, comp_pairs, upt. rewrite Nat.sub_0_r. induction (seq 0 n) as [|i l IH]; simpl; auto.
  rewrite map_app, map_map. f_equal; auto. now rewrite Nat.sub_0_r.
Qed.

Lemma successors_agree vs l : rwf vs -> (forall c, In c l -> snd c < fst c /\ fst c < vchannels vs) ->
  let t := vt_list (asBoolVectList vs) in
  Forall2 (trel (vchannels vs))
    (map (fun c => vt_list (map (apply_cmp_list c) (asBoolVectList vs)))
         (filter (fun c => negb (is_redundant_cmp_vt c t)) (map (fun c => (snd c, fst c)) l)))
    (cat_maybes (map (fun c => applyComp (fst c) (snd c) vs) l)).
Proof.
  intros W H t. induction l as [|(i, j) l IH]; simpl. constructor.
  specialize (IH (fun c Hc => H c (or_intror Hc))). destruct (H (i, j) (or_introl eq_refl)) as (H1 & H2). simpl in H1, H2.
  pose proof (applyComp_spec i j vs W ltac:(lia) ltac:(lia) ltac:(lia)) as A.
  assert (R : is_redundant_cmp_vt (j, i) t = false <-> nonredundant (j, i) (rset vs)).
  { rewrite is_redundant_spec. apply same_nonredundant. apply (trel_list vs W). }
  destruct (applyComp i j vs) as [r|]; simpl.
  - destruct A as (NR & C & Wr & Sr). rewrite (proj2 R NR). simpl. constructor; auto.
    split; auto. split; auto. intros y. rewrite (Sr y), vt_list_mem, in_map_iff. split.
    + intros (x & <- & Hx). exists x. split. now apply asBool_In. apply apply_cmp_exch.
    + intros (x & Hx & ->). exists x. split. apply apply_cmp_exch. now apply asBool_In.
  - destruct (is_redundant_cmp_vt (j, i) t) eqn:E; simpl; auto. exfalso. now apply A, R.
Qed.

Lemma check_successors_agree limit s ws : (limit <= count)%Z ->
  (forall i, (0 <= i < limit)%Z -> vects (vectSet (fn i)) <> []) ->
  rwf (vectSet s) -> witnesses s = Successors ws -> Forall (wperm_ok (vchannels (vectSet s))) ws -> rbound s <> 0 ->
  (check_successors vsteps limit (translateStep s) = true <-> checkSuccessors (rsteps limit) s ws = Some tt).
Proof.
  intros Lc NE W Ew P Hb. unfold check_successors, checkSuccessors. cbn [translateStep step_witnesses step_width step_bound step_vect_list].
  rewrite Ew. cbn [translateWitnesses]. cbv zeta. rewrite !Nat2Z.id.
  set (vs := vectSet s) in *. set (n := vchannels vs) in *. set (t := vt_list (asBoolVectList vs)).
  pose proof (trel_list vs W) as T. fold n t in T.
  rewrite (trel_unsorted n t vs T). fold n.
  assert (E0 : (rbound s =? 0) = false) by now apply Nat.eqb_neq. rewrite E0. cbn [negb andb].
  assert (E1 : forallb (fun xs : list bool => length xs =? n) (asBoolVectList vs) = true).
  { apply forallb_width. intros x Hx. apply asBool_In in Hx; auto. now apply rset_width. }
  rewrite E1, andb_true_r. rewrite ocmp_comp.
  pose proof (successors_agree vs (comp_pairs n) W) as F. cbv zeta in F. fold n t in F.
  assert (F' := F). clear F. specialize (F' ltac:(intros (i, j) Hc; apply comp_pairs_In in Hc; simpl; unfold n in *; lia)).
  set (nr := filter (fun c => negb (is_redundant_cmp_vt c t)) (map (fun c => (snd c, fst c)) (comp_pairs n))) in *.
  set (su := cat_maybes (map (fun c => applyComp (fst c) (snd c) vs) (comp_pairs n))) in *.
  rewrite <- (map_length (fun c => vt_list (map (apply_cmp_list c) (asBoolVectList vs))) nr).
  set (bs := map (fun c => vt_list (map (apply_cmp_list c) (asBoolVectList vs))) nr) in *.
  rewrite (Forall2_length _ _ _ F'). unfold translateWitnessList. rewrite map_length.
  destruct (1 + n <? vsize vs); cbn [andb check bind]; [|split; discriminate].
  destruct (length su =? length ws) eqn:EL; cbn [andb check bind]; [|split; discriminate].
  apply Nat.eqb_eq in EL. clearbody bs su. clear nr.
  match goal with |- _ <-> bind ?m _ = _ => assert (G : list_all2 (fun b w => match get_bound vsteps limit w n b with None => false | Some ba => rbound s <=? S ba end) bs (map (option_map translateWitness) ws) = true <-> exists r, m = Some r) end.
  { clear Ew. revert ws P EL. induction F' as [|b v bs su Tb F IH]; intros [|w ws] P EL; simpl in EL; try discriminate.
    - simpl. split; eauto.
    - inversion P as [|? ? P1 P2]; subst. cbn [list_all2 map combine map_opt fst snd].
      rewrite (bound_agree limit w n b v Lc NE Tb P1).
      rewrite andb_true_iff. rewrite (IH ws P2 ltac:(lia)).
      destruct (getBound (rsteps limit) w v) as [ba|]; cbn [bind]; [|split; [intros (?&_); discriminate|intros (?&?); discriminate]].
      rewrite Nat.add_1_r. destruct (rbound s <=? S ba); cbn [check].
      + split. intros (_ & r & ->). eauto. intros (r & E). split; auto.
        destruct (map_opt _ _); [eauto|discriminate].
      + split. intros (?&_); discriminate. intros (?&?); discriminate. }
  rewrite G. match goal with |- _ <-> bind ?m _ = _ => destruct m end; cbn [bind].
  - split; eauto.
  - split. intros (r & ?); discriminate. discriminate.
Qed.

Lemma extremal_agree vs pol : rwf vs ->
  extremal_channels_vt (vt_list (asBoolVectList vs)) (vchannels vs) pol = extremalChannels pol vs.
Proof.
  intros W. unfold extremal_channels_vt, extremalChannels, upt. rewrite Nat.sub_0_r. cbv zeta.
  apply filter_ext_in. intros c Hc. apply in_seq in Hc. apply eq_true_iff_eq.
  pose proof (extremal_channels_In (vchannels vs) (vt_list (asBoolVectList vs)) pol c) as A.
  pose proof (extremalChannels_In pol vs c) as B.
  unfold extremal_channels_vt in A. unfold extremalChannels in B. cbv zeta in B. rewrite filter_In in A, B.
  assert (U : In c (upt 0 (vchannels vs)) <-> c < vchannels vs) by (unfold upt; rewrite in_seq; lia).
  rewrite in_seq in B. rewrite U in A. unfold upt in A. rewrite Nat.sub_0_r in A.
  assert (X : mem (vt_list (asBoolVectList vs)) (lone (vchannels vs) pol c) <-> rset vs (lone (vchannels vs) pol c)) by apply (trel_list vs W).
  split; intros H.
  - apply B. split; [lia|]. apply X. apply A. split; [lia|auto].
  - apply A. split; [lia|]. apply X. apply B. split; [lia|auto].
Qed.

Lemma prune_agree vs pol c : rwf vs -> c < vchannels vs ->
  exists r, pruneExtremal pol c vs = Some r /\
            trel (vchannels vs - 1) (prune_extremal_vt pol c (vt_list (asBoolVectList vs))) r.
Proof.
  intros W Hc. destruct (pruneExtremal_spec pol c vs W Hc) as (r & E & C & Wr & Sr). exists r. split; auto.
  split; auto. split; auto. destruct (trel_list vs W) as (_ & _ & Sm).
  assert (Wm : width (vchannels vs) (mem (vt_list (asBoolVectList vs)))).
  { intros x Hx. apply Sm in Hx. now apply rset_width. }
  intros y. split.
  - intros Hy. assert (Ly := prune_vt_width _ pol c _ Hc Wm y Hy). apply Sr; auto. apply Sm.
    unfold mem in *. now rewrite prune_vt_mem in Hy by lia.
  - intros Hy. assert (Ly : length y = vchannels vs - 1) by (rewrite <- C; now apply rset_width).
    unfold mem. rewrite prune_vt_mem by lia. apply Sm. now apply Sr.
Qed.

Lemma huffman_values_agree l : l <> [] -> sucmax_value_bound_huffman l = huffmanBound l.
Proof.
  intros H. destruct (sucmax_huffman l H) as (r & -> & Hr). destruct (huffmanBound_spec l H) as (q & -> & Hq).
  f_equal. apply Nat.le_antisymm. apply Hr, Hq. auto. apply Hq, Hr. auto.
Qed.

Lemma check_huffman_agree limit s pol ws : (limit <= count)%Z ->
  (forall i, (0 <= i < limit)%Z -> vects (vectSet (fn i)) <> []) ->
  rwf (vectSet s) -> witnesses s = Huffman pol ws -> Forall (wperm_ok (vchannels (vectSet s) - 1)) ws ->
  (check_huffman vsteps limit (translateStep s) = true <-> checkHuffman (rsteps limit) s pol ws = Some tt).
Proof.
  intros Lc NE W Ew P. unfold check_huffman, checkHuffman. cbn [translateStep step_witnesses step_width step_bound step_vect_list].
  rewrite Ew. cbn [translateWitnesses]. cbv zeta. rewrite !Nat2Z.id.
  set (vs := vectSet s) in *. set (n := vchannels vs) in *. set (t := vt_list (asBoolVectList vs)).
  assert (E1 : forallb (fun xs : list bool => length xs =? n) (asBoolVectList vs) = true).
  { apply forallb_width. intros x Hx. apply asBool_In in Hx; auto. now apply rset_width. }
  rewrite E1, andb_true_r. assert (EE : extremal_channels_vt t n pol = extremalChannels pol vs) by now apply extremal_agree. rewrite EE.
  set (ext := extremalChannels pol vs).
  assert (Hx : forall c, In c ext -> c < n) by (intros c Hc; now apply extremalChannels_In in Hc).
  unfold translateWitnessList. rewrite map_length.
  destruct (length ext =? length ws) eqn:EL; cbn [check bind].
  2:{ rewrite andb_false_r. cbn [andb]. split; discriminate. }
  rewrite andb_true_r. apply Nat.eqb_eq in EL.
  replace (Nat.pred n) with (n - 1) by lia.
  assert (G : match map_opt (fun e => bind (pruneExtremal pol (fst e) vs) (getBound (rsteps limit) (snd e))) (combine ext ws) with
              | Some r => map (fun e => get_bound vsteps limit (snd e) (n - 1) (fst e))
                              (combine (map (fun c => prune_extremal_vt pol c t) ext) (map (option_map translateWitness) ws)) = map Some r
              | None => forallb (fun b => match b with None => false | Some _ => true end)
                          (map (fun e => get_bound vsteps limit (snd e) (n - 1) (fst e))
                              (combine (map (fun c => prune_extremal_vt pol c t) ext) (map (option_map translateWitness) ws))) = false
              end).
  { clear Ew. clearbody ext. revert ws P EL. induction ext as [|c ext IH]; intros [|w ws] P EL; simpl in EL; try discriminate; [reflexivity|].
    inversion P as [|? ? P1 P2]; subst. cbn [map combine map_opt fst snd].
    destruct (prune_agree vs pol c W (Hx c (or_introl eq_refl))) as (r & -> & Tr). cbn [bind].
    fold n in Tr. fold t in Tr. rewrite (bound_agree limit w (n - 1) _ r Lc NE Tr P1).
    specialize (IH (fun c Hc => Hx c (or_intror Hc)) ws P2 ltac:(lia)).
    destruct (getBound (rsteps limit) w r) as [b|]; cbn [forallb]; auto.
    destruct (map_opt _ _) as [bs|]; cbn [map]; auto. now rewrite IH. }
  match type of G with match ?m with _ => _ end => destruct m as [bounds|] eqn:M end.
  - rewrite G. cbn [bind]. rewrite map_map. cbn [the]. rewrite map_id.
    assert (E2 : forallb (fun b => match b with None => false | Some _ => true end) (map Some bounds) = true).
    { apply forallb_forall. intros b Hb. apply in_map_iff in Hb. destruct Hb as (x & <- & _). auto. }
    rewrite E2, andb_true_r.
    apply map_opt_Some in M. apply Forall2_length in M. rewrite combine_length, EL, Nat.min_id in M.
    destruct ws as [|w ws].
    + destruct bounds; [|discriminate]. rewrite huffmanBound_nil. cbn [map bind negb]. rewrite andb_false_r. split; discriminate.
    + cbn [map negb]. rewrite andb_true_r. assert (N0 : (n =? 0) = false).
      { apply Nat.eqb_neq. destruct ext as [|c e]; [discriminate|]. specialize (Hx c (or_introl eq_refl)). lia. }
      rewrite N0. cbn [negb andb]. rewrite huffman_values_agree by (destruct bounds; easy).
      destruct (huffmanBound bounds) as [h|]; cbn [bind]; [|split; discriminate].
      destruct (rbound s <=? h); cbn [check]; split; auto; discriminate.
  - rewrite G. cbn [bind]. rewrite andb_false_r. cbn [andb]. split; discriminate.
Qed.

Lemma accepted_nonempty limit s : rwf (vectSet s) ->
  match witnesses s with
  | Huffman pol ws => checkHuffman (rsteps limit) s pol ws = Some tt
  | Successors ws => checkSuccessors (rsteps limit) s ws = Some tt
  end -> vects (vectSet s) <> [].
Proof.
  intros W H E. destruct (witnesses s) as [pol ws|ws].
  - unfold checkHuffman in H. cbv zeta in H.
    assert (X : extremalChannels pol (vectSet s) = []).
    { unfold extremalChannels. cbv zeta. rewrite E. induction (seq 0 (vchannels (vectSet s))); simpl; auto. }
    rewrite X in H. destruct ws; discriminate.
  - unfold checkSuccessors in H. cbv zeta in H. unfold vsize in H. rewrite E in H. discriminate.
Qed.

Hypothesis BD : forall i, (0 <= i < count)%Z -> rbound (fn i) <> 0.

Theorem checkers_agree :
  check_proof_get_bound (translateProofSteps count fn) =
  if (0 <? count)%Z then option_map (fun r => (Z.of_nat (fst r), Z.of_nat (snd r))) (checkProof count fn) else None.
Proof.
  unfold check_proof_get_bound, checkProof. cbn [translateProofSteps cert_length cert_step].
  destruct (0 <? count)%Z eqn:Pc; [|now rewrite andb_false_r]. apply Z.ltb_lt in Pc. rewrite andb_true_r. cbv zeta.
  set (steps := fun n => if (0 <=? n)%Z && (n <? count)%Z then Some (fn n) else None).
  assert (A : check_proof (translateProofSteps count fn) = true <->
              parCheckRange (Z.to_nat count) (checkStep steps) 0 count = Some tt).
  { rewrite par_check_range_spec by lia. unfold check_proof. cbv zeta. cbn [translateProofSteps cert_length cert_step].
    replace (0 <=? count)%Z with true by (symmetry; apply Z.leb_le; lia). cbn [andb].
    unfold par_range_all. rewrite par_range_spec by auto. fold vsteps.
    assert (Hst : forall i, (0 <= i < count)%Z -> checkStep steps i =
      match witnesses (fn i) with Huffman pol ws => checkHuffman (rsteps i) (fn i) pol ws
                                | Successors ws => checkSuccessors (rsteps i) (fn i) ws end).
    { intros i Hi. unfold checkStep. assert (Es : steps i = Some (fn i)).
      { unfold steps. replace (0 <=? i)%Z with true by (symmetry; apply Z.leb_le; lia).
        replace (i <? count)%Z with true by (symmetry; apply Z.ltb_lt; lia). auto. }
      rewrite Es. cbn [bind]. reflexivity. }
    assert (Step : forall i, (0 <= i < count)%Z -> (forall j, (0 <= j < i)%Z -> vects (vectSet (fn j)) <> []) ->
      (check_step vsteps i (vsteps i) = true <-> checkStep steps i = Some tt)).
    { intros i Hi NE. rewrite Hst by auto. destruct (WF i Hi) as (Wi & Pi). unfold check_step, vsteps.
      cbn [translateStep step_witnesses]. destruct (witnesses (fn i)) as [pol ws|ws] eqn:Ew; cbn [translateWitnesses].
      - apply check_huffman_agree; auto; lia.
      - apply check_successors_agree; auto; lia. }
    assert (NEs : forall i, (0 <= i < count)%Z -> checkStep steps i = Some tt -> vects (vectSet (fn i)) <> []).
    { intros i Hi H. rewrite Hst in H by auto. apply (accepted_nonempty i). apply WF; auto. destruct (witnesses (fn i)); auto. }
    split.
    - intros H i. remember (Z.to_nat i) as m eqn:Em. revert i Em. induction m as [m IH] using lt_wf_ind. intros i Em Hi.
      apply Step; auto.
      + intros j Hj. apply NEs; [lia|]. apply (IH (Z.to_nat j)); auto; lia.
      + specialize (H (Z.to_nat i) ltac:(lia)). rewrite Z2Nat.id in H by lia. exact H.
    - intros H k Hk. refine (proj2 (Step (Z.of_nat k) _ _) _); [lia| |apply H; lia]. intros j Hj. apply NEs; [lia|]. apply H. lia. }
  destruct (check_proof (translateProofSteps count fn)), (parCheckRange _ _ _ _) as [[]|]; cbn [bind option_map]; auto.
  - exfalso. discriminate (proj1 A eq_refl).
  - exfalso. discriminate (proj2 A eq_refl).
Qed.
End Agree.
