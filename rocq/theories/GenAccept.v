(* The certificate file written by gen_proof, read by both checkers. *)
From Coq Require Import String List Arith Bool Lia ZArith Permutation Sorted.
Import ListNotations.
From Verif Require Import Spec Vec Net Graded Bits Util OutputSetModel OutputSetProofs PruneProofs PackProofs CountProofs HuffmanModel HuffmanProofs
  VerifiedCheckerModel VerifiedCheckerProofs RefCheckerModel RefCheckerProofs DecodeModel DecodeProofs AgreeProofs
  TreeModel IndexModel IndexSpec StatesModel StatesProofs SearchModel SearchFacts SearchOrder FileModel FileProofs LogModel DumpProofs PruneLogProofs CrashProofs
  ProofGenModel GenLoad GenSteps GenEncode GenCheck GenMain PropDecode.

Section Accept.
Variables (g0 : GenProof) (E : list (OutputSet * nat)) (es : list entry).
Hypothesis T0 : tables g0 E.
Hypothesis Hfrom : forall i e, nth_error es i = Some e -> entry_from g0 (firstn i es) e.
Hypothesis Huns : forall s b, In (s, b) E -> b <> 0 -> is_sorted s = false.
Hypothesis Hnd : NoDup (map eset es).
Hypothesis HE : (Z.of_nat (length E) < 2 ^ 32)%Z.

Lemma entry_facts i e : nth_error es i = Some e -> okset (eset e) /\ 1 < channels (eset e) /\ In (eset e, ebound e) E /\
  exists st, step_ok E (ebound e) (eset e) st /\
    match st, ewits e with
    | PHuffman pol ws, Huffman pol' ws' => pol' = pol /\ Forall2 (ref_ok g0 (firstn i es)) ws ws'
    | PSuccessors ws, Successors ws' => Forall2 (ref_ok g0 (firstn i es)) ws ws'
    | _, _ => False
    end.
Proof.
  intros H. destruct (Hfrom i e H) as (A & st & B & C).
  assert (I : In (eset e, ebound e) E) by (now apply (go_sets _ _ (tb_gen _ _ T0))).
  destruct (tb_ok _ _ T0 _ _ I) as (K & C1). destruct (tb_steps _ _ T0 _ _ I) as (st' & B' & So). assert (st' = st) by congruence. subst st'.
  split; auto. split; auto. split; auto. exists st. auto.
Qed.

Lemma es_few : length es <= length E.
Proof.
  rewrite <- (map_length eset es). rewrite <- (map_length fst E). apply NoDup_incl_length; auto. intros s Hs. apply in_map_iff in Hs. destruct Hs as (e & <- & He).
  apply In_nth_error in He. destruct He as (i & Hi). destruct (entry_facts i e Hi) as (_ & _ & I & _). apply in_map_iff. exists (eset e, ebound e). auto.
Qed.

(* a witness that is written has a permutation of the right size and refers backwards *)
Lemma entry_wits i e w : nth_error es i = Some e -> In (Some w) (list_of (ewits e)) ->
  is_perm (match ewits e with Huffman _ _ => channels (eset e) - 1 | Successors _ => channels (eset e) end) (wperm w) /\
  exists j e', stepId w = Z.of_nat j /\ j < i /\ nth_error es j = Some e' /\
    channels (eset e') = match ewits e with Huffman _ _ => channels (eset e) - 1 | Successors _ => channels (eset e) end.
Proof.
  intros H I. destruct (entry_facts i e H) as (K & C & _ & st & So & Hw).
  assert (Ref : forall ws ws' pw, Forall2 (ref_ok g0 (firstn i es)) ws ws' -> In (Some w) ws' -> (forall inv p c, In (Some (inv, p, c)) ws -> is_perm pw p /\ channels c = pw) ->
    is_perm pw (wperm w) /\ exists j e', stepId w = Z.of_nat j /\ j < i /\ nth_error es j = Some e' /\ channels (eset e') = pw).
  { intros ws ws' pw R Iw Hp. destruct (Forall2_r _ _ _ _ R Iw) as ([((inv, p), c)|] & Ia & Ra); cbn in Ra; [|easy].
    destruct Ra as (_ & Ep & j & e' & Ej & Hj & Hc). apply nth_error_firstn in Hj. split. rewrite Ep. eapply Hp; eauto. exists j, e'. rewrite Hc. destruct (Hp _ _ _ Ia) as (_ & Cc). tauto. }
  destruct st as [| |pol ws|ws], (ewits e) as [pol' ws'|ws'] eqn:Ew; try easy; cbn [list_of] in I.
  - destruct Hw as (-> & R). eapply Ref; eauto. intros inv p c Hc. destruct So as (_ & _ & L & h & -> & F & _). apply in_map_iff in Hc. destruct Hc as (x & Ex & Hx).
    destruct (Forall2_r _ _ _ _ F Hx) as (ch & Hch & t & Et & A). rewrite Ex in A. destruct A as (_ & _ & Cc & P & _).
    destruct (prune_facts _ pol ch K Hch) as (t' & Et' & _ & Ct & _). assert (t' = t) by congruence. subst t'. rewrite Ct in *. auto.
  - eapply Ref; eauto. intros inv p c Hc. destruct So as (_ & _ & L & -> & F). apply in_map_iff in Hc. destruct Hc as (x & Ex & Hx).
    destruct (Forall2_r _ _ _ _ F Hx) as ((c1, c2) & Hch & A & _). rewrite Ex in A. destruct A as (_ & _ & Cc & P & _). cbn [fst snd] in *. rewrite apply_comparator_channels in *. auto.
Qed.

Lemma wits_count i e : nth_error es i = Some e -> length (list_of (ewits e)) <= 121.
Proof.
  intros H. destruct (entry_facts i e H) as ((_ & K & _) & C & _ & st & So & Hw).
  destruct st as [| |pol ws|ws], (ewits e) as [pol' ws'|ws'] eqn:Ew; try easy; cbn [list_of].
  - destruct Hw as (_ & R). apply Forall2_length in R. destruct So as (_ & _ & L & h & -> & F & _). apply Forall2_length in F. rewrite map_length in R. pose proof (extremal_length (eset e) pol). lia.
  - apply Forall2_length in Hw. destruct So as (_ & _ & L & -> & F). apply Forall2_length in F. rewrite map_length in Hw. unfold changing in F.
    assert (Lp : length (filter (fun c => snd (apply_comparator (eset e) (fst c) (snd c))) (pairs (channels (eset e)))) <= length (pairs 11)).
    { transitivity (length (pairs (channels (eset e)))). { generalize (pairs (channels (eset e))). intros l. induction l as [|x l IH]; cbn; auto. destruct (snd _); cbn; lia. }
      apply NoDup_incl_length.
      - clear. unfold pairs. assert (Nn : forall l, NoDup l -> NoDup (flat_map (fun i => map (fun j => (i, j)) (seq 0 i)) l)).
        { induction l as [|a l IH]; intros N; cbn; [constructor|]. inversion N; subst. apply NoDup_app_disj; auto.
          - apply FinFun.Injective_map_NoDup. intros x y Hxy. congruence. apply seq_NoDup.
          - intros (x, y) Hx Hy. apply in_map_iff in Hx. destruct Hx as (j & Eq & _). injection Eq as <- <-. apply in_flat_map in Hy. destruct Hy as (a' & Ha' & Hy).
            apply in_map_iff in Hy. destruct Hy as (j' & Eq & _). injection Eq as -> ->. auto. }
        apply Nn. apply seq_NoDup.
      - intros (a, b) Hab. apply pairs_In in Hab. apply pairs_In. lia. }
    change (length (pairs 11)) with 55 in Lp. lia.
Qed.

Lemma step_len i e bytes : nth_error es i = Some e -> encodes e bytes -> length bytes <= 3000.
Proof.
  intros H (p & Ep & ->). destruct (entry_facts i e H) as ((W & K & _) & C & _).
  assert (Lp : length p <= 256).
  { rewrite packed_pk in Ep by auto. injection Ep as <-. rewrite pk_len by auto. unfold packed_len_for_channels. pose proof (Nat.pow_le_mono_r 2 (channels (eset e)) 11 ltac:(lia) K).
    change (2 ^ 11) with 2048 in H0. apply Nat.lt_succ_r. apply Nat.div_lt_upper_bound; lia. }
  assert (Lw : forall l, (forall w, In (Some w) l -> length (wperm w) <= 11) -> length (flat_map enc_witness l) <= 16 * length l).
  { induction l as [|[w|] l IH]; intros Hl; cbn [flat_map enc_witness length]; auto.
    - rewrite app_length. cbn [length]. rewrite app_length. change (length (le_bytes 4 (stepId w))) with 4. pose proof (Hl w (or_introl eq_refl)). specialize (IH (fun x Hx => Hl x (or_intror Hx))). lia.
    - cbn [app length]. specialize (IH (fun x Hx => Hl x (or_intror Hx))). lia. }
  unfold enc_step. cbn [length]. rewrite app_length. cbn [length]. specialize (Lw (list_of (ewits e))).
  assert (Lw' : length (flat_map enc_witness (list_of (ewits e))) <= 16 * length (list_of (ewits e))).
  { apply Lw. intros w Iw. destruct (entry_wits i e w H Iw) as (P & _). apply Permutation_length in P. rewrite seq_length in P. rewrite P. destruct (ewits e); lia. }
  pose proof (wits_count i e H). lia.
Qed.

Lemma entries_ok : Forall entry_ok es.
Proof.
  apply Forall_forall. intros e He. apply In_nth_error in He. destruct He as (i & Hi). destruct (entry_facts i e Hi) as ((W & K & _) & _). split. exact W. split. lia.
  intros w Hw. destruct (entry_wits i e w Hi Hw) as (P & j & e' & Ej & Lj & _). apply Permutation_length in P. rewrite seq_length in P. split; auto.
  rewrite Ej. pose proof es_few. assert (i < length es) by (apply nth_error_Some; congruence). lia.
Qed.

Lemma data_sizes data : Forall2 encodes es data ->
  Forall (fun s : list nat => (Z.of_nat (length s) < 2 ^ 32)%Z) data /\ (Z.of_nat (4 + 12 * length data + length (concat data)) < 2 ^ 63)%Z /\ (Z.of_nat (length data) < 2 ^ 32)%Z.
Proof.
  intros F. assert (Ld : length data = length es) by (symmetry; eapply Forall2_length; eauto).
  assert (All : Forall (fun s : list nat => length s <= 3000) data).
  { apply Forall_forall. intros d Hd. destruct (Forall2_r _ _ _ _ F Hd) as (e & He & Ee). apply In_nth_error in He. destruct He as (i & Hi). eapply step_len; eauto. }
  assert (Lc : length (concat data) <= 3000 * length data).
  { clear -All. induction All as [|d l H F IH]; cbn [concat length]; auto. rewrite app_length. lia. }
  pose proof es_few. split; [|split].
  - eapply Forall_impl; [|exact All]. cbv beta. intros. lia.
  - lia.
  - lia.
Qed.

(* two channels: every step is trivial *)
Lemma two_channels s b st : In (s, b) E -> channels s = 2 -> step_ok E b s st -> trivial st.
Proof.
  intros I C So. destruct (tb_ok _ _ T0 s b I) as (K & _). assert (W : wf s) by apply K.
  destruct st as [| |pol ws|ws]; [now left|now right| |]; exfalso.
  - destruct So as (Nb & N1 & L & h & -> & F & Eh & Le). assert (Us : is_sorted s = false) by (eapply Huns; eauto).
    assert (B2 : 2 <= b) by (destruct b as [|[|b]]; try lia; rewrite N1 in Us; congruence).
    assert (Z0 : forall x, In x (map fst L) -> x = 0).
    { intros x Hx. apply in_map_iff in Hx. destruct Hx as (y & <- & Hy). destruct (Forall2_r _ _ _ _ F Hy) as (ch & Hch & t & Et & A).
      destruct (prune_facts s pol ch K Hch) as (t' & Et' & Kt & Ct & _). assert (t' = t) by congruence. subst t'. rewrite C in Ct.
      destruct (snd y) as [((inv, p), c)|]; cbn in A.
      - destruct A as (A1 & _ & A3 & _). destruct (tb_ok _ _ T0 c _ A1) as (_ & Lc). lia.
      - destruct A as (-> & _). destruct (is_sorted t) eqn:Es; auto. pose proof (unsorted_len t Kt Es) as U. exfalso.
        destruct (members_ex t (proj1 Kt)) as (Lt & M). rewrite (members_len t Lt (proj1 Kt) M) in U.
        assert (Le2 : length Lt <= length [[true]; [false]]).
        { apply NoDup_incl_length. apply M. intros x Hx. apply M in Hx. pose proof (vs_width t x Hx) as Lx. rewrite Ct in Lx.
          destruct x as [|[] [|? ?]]; cbn in Lx |- *; try discriminate; auto. }
        cbn in Le2. lia. }
    assert (Lk : kraft (map fst L) <= 2 ^ 1).
    { assert (Ll : length (map fst L) <= 2). { rewrite map_length. apply Forall2_length in F. pose proof (extremal_length s pol). lia. }
      destruct (map fst L) as [|x [|y [|z l]]]; cbn in Ll |- *; try lia.
      rewrite (Z0 x) by (cbn; auto). cbn; lia. rewrite (Z0 x), (Z0 y) by (cbn; auto). cbn; lia. }
    assert (NL : map fst L <> []).
    { intros Ex. apply Forall2_length in F. apply map_eq_nil in Ex. subst L. pose proof (extremal_nonempty s pol K ltac:(lia)). destruct (extremal_channels s pol); cbn in F; congruence. }
    apply (huffman_kraft _ _ NL Eh 1) in Lk. lia.
  - destruct So as (Nb & N1 & L & -> & F). assert (Us : is_sorted s = false) by (eapply Huns; eauto).
    assert (B2 : 2 <= b) by (destruct b as [|[|b]]; try lia; rewrite N1 in Us; congruence).
    assert (I10 : In (1, 0) (pairs (channels s))) by (rewrite C; cbn; auto).
    destruct (comparator_facts s 1 0 K I10) as (Kt & Ct & St & Fl). set (t := fst (apply_comparator s 1 0)) in *.
    assert (Ch : In (1, 0) (changing s)).
    { apply filter_In. split; auto. apply Fl. destruct (not_opw_pair s W Us) as (x & y & Hx & Hy & Ew & Ne).
      pose proof (vs_width s x Hx) as Lx. pose proof (vs_width s y Hy) as Ly. rewrite C in Lx, Ly.
      destruct x as [|x0 [|x1 [|? ?]]], y as [|y0 [|y1 [|? ?]]]; try discriminate.
      destruct x0, x1, y0, y1; cbn in Ew; try discriminate; try (now elim Ne).
      split; [exists [true; false]|exists [false; true]]; auto. split; [exists [true; false]|exists [false; true]]; auto. }
    destruct (Forall2_l _ _ _ _ F Ch) as (x & Hx & A & Lb). cbn [fst snd] in A. fold t in A.
    assert (Ts : is_sorted t = true).
    { apply is_sorted_spec. apply Kt. assert (Form : forall x, vs t x -> x = [false; false] \/ x = [false; true] \/ x = [true; true]).
      { intros y Hy. apply St in Hy. destruct Hy as (z & Hz & ->). pose proof (vs_width s z Hz) as Lz. rewrite C in Lz.
        destruct z as [|[] [|[] [|? ?]]]; try discriminate; cbn; auto. }
      intros y z Hy Hz Ew. destruct (Form y Hy) as [->|[->| ->]], (Form z Hz) as [->|[->| ->]]; cbn in Ew; auto; discriminate. }
    assert (fst x = 0).
    { destruct (snd x) as [((inv, p), c)|] eqn:Ex; cbn in A.
      - destruct A as (A1 & A2 & A3 & A4 & A5 & _). destruct (Nat.eq_dec (fst x) 0) as [|Nz]; auto. exfalso.
        pose proof (Huns c _ A1 Nz) as Uc. pose proof (unsorted_len c (proj1 (tb_ok _ _ T0 c _ A1)) Uc). pose proof (subsumed_len inv p c t A2 (proj1 Kt) A3 A4 A5) as (Lc & _).
        pose proof (sorted_len t (proj1 Kt) Ts). lia.
      - destruct A as (-> & _). now rewrite Ts. }
    lia.
Qed.

Theorem file_accepted data e : es <> [] -> Forall2 encodes es data -> nth_error es (length es - 1) = Some e ->
  snocheck_v (write_proof data) = Some (Z.of_nat (channels (eset e)), Z.of_nat (ebound e)) /\
  snocheck_r (write_proof data) = Some (channels (eset e), ebound e).
Proof.
  intros Ne F He. destruct (data_sizes data F) as (D1 & D2 & D3).
  destruct (C28_decode_written es data F entries_ok D3 D1 D2) as (Cnt & Dec). set (file := write_proof data) in *.
  assert (Ld : length data = length es) by (symmetry; eapply Forall2_length; eauto).
  assert (Ad : all_decode file (Z.of_nat (length es)) = true).
  { unfold all_decode. rewrite Nat2Z.id. apply forallb_forall. intros k Hk. apply in_seq in Hk. destruct (nth_error es k) as [x|] eqn:Ex; [|apply nth_error_None in Ex; lia].
    destruct (Dec k x Ex) as (s & Es & _). now rewrite Es. }
  assert (Say : forall i x, nth_error es i = Some x -> says x (translateStep (step_or file (Z.of_nat i)))).
  { intros i x Hx. destruct (Dec i x Hx) as (s & Es & E1 & E2 & E3 & E4 & E5). unfold step_or. rewrite Es. destruct (entry_facts i x Hx) as ((W & _) & _).
    unfold says, translateStep. cbn [step_width step_vect_list step_bound step_witnesses]. rewrite E1, E2, E3. split; auto. split; auto.
    assert (Rw : rwf (vectSet s)). { split. exact E4. apply Forall_forall. intros v Hv. apply E5 in Hv. rewrite E1. destruct (lt_dec v (2 ^ channels (eset x))) as [|G]; auto.
      rewrite nth_overflow in Hv; [discriminate|]. unfold wf in W. lia. }
    intros y. rewrite (asBool_In _ y Rw). unfold rset, vs. rewrite E1, E5. reflexivity. }
  assert (V : snocheck_v file = Some (Z.of_nat (channels (eset e)), Z.of_nat (ebound e))).
  { unfold snocheck_v. rewrite Cnt. cbn [bind]. rewrite Ad. unfold translateProofSteps.
    apply (accept_all g0 E es (fun i => translateStep (step_or file i)) T0 Say Hfrom Huns Ne e He). }
  split; auto.
  assert (Ag : snocheck_v file = option_map (fun r => (Z.of_nat (fst r), Z.of_nat (snd r))) (snocheck_r file)).
  { assert (Lp : 0 < length es) by (destruct es; cbn; [congruence|lia]).
    apply (C31_checkers_agree file (Z.of_nat (length es))); auto. lia.
    - intros i s Hi Ds. rewrite <- (Z2Nat.id i) in Ds by lia. destruct (nth_error es (Z.to_nat i)) as [x|] eqn:Ex; [|apply nth_error_None in Ex; lia].
      destruct (Dec _ x Ex) as (s' & Es & E1 & E2 & E3 & _). assert (s' = s) by congruence. subst s'. rewrite E1, E3. destruct (entry_facts _ x Ex) as ((W & K & _) & C & I & st & So & Hw).
      split.
      + split; [|lia]. destruct (Nat.eq_dec (channels (eset x)) 2) as [C2|]; [|lia]. exfalso. destruct (two_channels _ _ _ I C2 So) as [-> | ->]; destruct (ewits x); easy.
      + destruct (ewits x) as [pol ws|ws] eqn:Ew; intros w Iw; destruct (entry_wits _ x w Ex) as (P & _); rewrite Ew in *; auto.
    - intros i s Hi Ds. rewrite <- (Z2Nat.id i) in Ds by lia. destruct (nth_error es (Z.to_nat i)) as [x|] eqn:Ex; [|apply nth_error_None in Ex; lia].
      destruct (Dec _ x Ex) as (s' & Es & E1 & E2 & E3 & _). assert (s' = s) by congruence. subst s'. rewrite E2. destruct (entry_facts _ x Ex) as (_ & _ & _ & st & So & Hw).
      destruct st as [| |pol ws|ws]; [destruct (ewits x); easy|destruct (ewits x); easy| |]; apply So. }
  rewrite V in Ag. destruct (snocheck_r file) as [(a, b)|]; [|discriminate]. cbn in Ag. injection Ag as A1 A2. f_equal. f_equal; lia.
Qed.
End Accept.
