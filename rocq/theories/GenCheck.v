(* The verified checker accepts what encode_proof writes. *)
From Coq Require Import String List Arith Bool Lia ZArith Permutation Sorted.
Import ListNotations.
From Verif Require Import Spec Vec Net Graded Bits Util OutputSetModel OutputSetProofs PruneProofs PackProofs CountProofs HuffmanModel HuffmanProofs
  VerifiedCheckerModel VerifiedCheckerProofs RefCheckerModel RefCheckerProofs DecodeModel DecodeProofs AgreeProofs
  TreeModel IndexModel IndexSpec StatesModel StatesProofs SearchModel SearchFacts SearchOrder FileModel LogModel ProofGenModel GenLoad GenSteps GenEncode PropDecode.

(* the step of the checker for an entry *)
Definition says (e : entry) (s : Proof_step) : Prop :=
  step_width s = Z.of_nat (channels (eset e)) /\ same_set (fun x => In x (step_vect_list s)) (vs (eset e)) /\ step_bound s = Z.of_nat (ebound e) /\
  step_witnesses s = translateWitnesses (ewits e).

Lemma length_vt_ge t a : wf t -> subset (vs t) (mem a) -> os_len t <= length_vt a.
Proof.
  intros W S. destruct (members_ex t W) as (L & M). rewrite (members_len t L W M), length_vt_elems. apply NoDup_incl_length. apply M.
  intros x Hx. apply elems_In. apply S. now apply M.
Qed.

Lemma perm_forallb n p : is_perm n p -> forallb (fun i => (0 <=? i) && (i <? n)) p = true /\ length p = n /\ distinct p = true.
Proof.
  intros P. split; [|split].
  - apply forallb_forall. intros i Hi. apply (Permutation_in _ P) in Hi. apply in_seq in Hi. apply andb_true_iff. split. apply Nat.leb_le; lia. apply Nat.ltb_lt; lia.
  - apply Permutation_length in P. now rewrite seq_length in P.
  - apply distinct_NoDup. eapply Permutation_NoDup. apply Permutation_sym. exact P. apply seq_NoDup.
Qed.

Section Check.
Variables (g0 : GenProof) (E : list (OutputSet * nat)) (es : list entry) (fn : Z -> Proof_step).
Hypothesis T0 : tables g0 E.
Hypothesis Hsays : forall i e, nth_error es i = Some e -> says e (fn (Z.of_nat i)).
Hypothesis Hfrom : forall i e, nth_error es i = Some e -> entry_from g0 (firstn i es) e.
Hypothesis Huns : forall s b, In (s, b) E -> b <> 0 -> is_sorted s = false.

Lemma nth_error_firstn {A} (l : list A) i j x : nth_error (firstn i l) j = Some x -> j < i /\ nth_error l j = Some x.
Proof.
  revert l j. induction i as [|i IH]; intros [|y l] [|j] H; cbn in *; try discriminate. split; auto; lia. destruct (IH _ _ H). split; auto; lia.
Qed.

Lemma entry_bound i e c b : nth_error es i = Some e -> eset e = c -> In (c, b) E -> ebound e = b.
Proof.
  intros H <- I. destruct (Hfrom i e H) as (A & _). apply (go_sets _ _ (tb_gen _ _ T0)) in A.
  pose proof (proj1 (go_get g0 E _ _ (tb_gen _ _ T0)) A). pose proof (proj1 (go_get g0 E _ _ (tb_gen _ _ T0)) I). congruence.
Qed.

Lemma wit_bound i t b w w' a : i <= length es -> okset t -> answer E t b w -> ref_ok g0 (firstn i es) w w' -> subset (vs t) (mem a) ->
  exists b', get_bound fn (Z.of_nat i) (option_map translateWitness w') (channels t) a = Some b' /\ b <= b'.
Proof.
  intros Hi Kt A R S. assert (Wt : wf t) by apply Kt.
  assert (Un : channels t + 1 < os_len t -> is_unsorted_vt (channels t) a = true).
  { intros H. unfold is_unsorted_vt. apply Nat.ltb_lt. pose proof (length_vt_ge t a Wt S). lia. }
  destruct w as [((inv, p), c)|], w' as [x|]; cbn in R; try easy.
  - destruct R as (Ei & Ep & j & e & Hj & Hn & He). apply nth_error_firstn in Hn. destruct Hn as (Lt & Hn).
    destruct A as (A1 & A2 & A3 & A4 & A5 & _). destruct (Hsays j e Hn) as (S1 & S2 & S3 & S4).
    cbn [option_map get_bound translateWitness witness_step_id witness_perm witness_invert]. rewrite Hj.
    set (st := fn (Z.of_nat j)) in *. rewrite map_map. rewrite (map_ext _ (fun x => x)) by (intros; apply Nat2Z.id). rewrite map_id. rewrite Ep, Ei.
    destruct (perm_forallb _ _ A4) as (P1 & P2 & P3). rewrite P1, P3. rewrite (proj2 (Nat.eqb_eq _ _) P2).
    assert (C1 : ((0 <=? Z.of_nat j)%Z && (Z.of_nat j <? Z.of_nat i)%Z) = true).
    { apply andb_true_iff. split. apply Z.leb_le; lia. apply Z.ltb_lt; lia. }
    assert (C2 : forallb (fun xs : list bool => length xs =? channels t) (step_vect_list st) = true).
    { apply forallb_width. intros y Hy. apply S2 in Hy. rewrite <- A3, <- He. now apply vs_width. }
    assert (C3 : is_subset_vt (permute_vt p (invert_vt inv (vt_list (step_vect_list st)))) a = true).
    { apply is_subset_mem. intros y Hy. apply permute_vt_mem in Hy. destruct Hy as (y1 & Hy1 & ->). apply invert_vt_mem in Hy1. destruct Hy1 as (y2 & Hy2 & ->).
      apply S. apply A5. apply vt_list_mem in Hy2. rewrite <- He. now apply S2. }
    rewrite C1, C2, C3. cbn [negb orb]. eexists. split; [reflexivity|]. rewrite S3, Nat2Z.id. rewrite (entry_bound j e c b Hn He A1). auto.
  - destruct R as (st & Hs & Ts). destruct A as (A1 & A2 & A3 & A4 & A5 & _). cbn [option_map get_bound].
    destruct (tb_steps _ _ T0 c b A1) as (st' & Hs' & So). assert (st' = st) by congruence. subst st'.
    eexists. split; [reflexivity|]. destruct Ts as [-> | ->]; cbn in So. lia.
    destruct So as (-> & So). rewrite Un; auto. pose proof (unsorted_len c (proj1 (tb_ok _ _ T0 c 1 A1)) So) as U.
    destruct (subsumed_len inv p c t A2 Wt A3 A4 A5) as (Le & _). lia.
  - destruct A as (A & _). cbn [option_map get_bound]. eexists. split; [reflexivity|]. subst b. destruct (is_sorted t) eqn:Es. lia.
    rewrite Un; auto. now apply unsorted_len.
Qed.

Lemma flip_in V pol x0 x : flip_reach V pol x0 x -> V x.
Proof. destruct 1; auto. Qed.

Lemma flip_bit n V pol c x : c < n -> flip_reach V pol (lone n pol c) x -> length x = n /\ bit x c = negb pol.
Proof.
  intros Hc. induction 1 as [Hx|x i H IH Hi Hb Hx].
  - unfold lone. split. now rewrite upd_length, repeat_length. unfold bit. rewrite upd_nth_eq; auto. now rewrite repeat_length.
  - destruct IH as (L & B). split. now rewrite upd_length. destruct (Nat.eq_dec i c) as [->|N]. rewrite Hb in B. destruct pol; discriminate.
    unfold bit in *. rewrite upd_nth_neq; auto.
Qed.

Lemma pruned_subset s pol c p a : c < channels s -> same_set (vs p) (pruned_pol (channels s) c pol (vs s)) -> subset (vs s) (mem a) ->
  channels p = channels s - 1 -> subset (vs p) (mem (prune_extremal_vt pol c a)).
Proof.
  intros Hc Sp Sa Cp y Hy. assert (Ly : length y = channels s - 1) by (rewrite <- Cp; now apply vs_width).
  apply Sp, pruned_pol_flip in Hy; auto. destruct Hy as (x & Hx & ->). destruct (flip_bit _ _ _ _ _ Hc Hx) as (L & B).
  unfold mem. rewrite prune_vt_mem by lia. replace (ins c (negb pol) (del c x)) with x. apply Sa. eapply flip_in; eauto.
  rewrite <- B. symmetry. apply ins_del. lia.
Qed.

Lemma kraft_le l m : Forall2 le l m -> kraft l <= kraft m.
Proof. unfold kraft. induction 1 as [|a b l m H F IH]; cbn [fold_right]; auto. pose proof (Nat.pow_le_mono_r 2 a b ltac:(lia) H). lia. Qed.

Lemma huff_bounds i s pol a : i <= length es -> okset s -> subset (vs s) (mem a) -> forall l L ws',
  Forall2 (fun c x => exists p, prune_extremal_channel_into s pol c (channels s - 1) = Some p /\ answer E p (fst x) (snd x)) l L ->
  incl l (extremal_channels s pol) -> Forall2 (ref_ok g0 (firstn i es)) (map snd L) ws' ->
  exists bl, map (fun e => get_bound fn (Z.of_nat i) (snd e) (channels s - 1) (fst e)) (combine (map (fun c => prune_extremal_vt pol c a) l) (translateWitnessList ws')) = map Some bl /\
    Forall2 le (map fst L) bl /\ length l = length ws'.
Proof.
  intros Hi K S. induction l as [|c l IH]; intros L ws' F I R; inversion F as [|? x ? L' Hx F']; subst; cbn [map] in R.
  - inversion R; subst. exists []. cbn. auto.
  - inversion R as [|? w' ? ws1 Hw R']; subst. destruct (IH L' ws1 F' (fun y Hy => I y (or_intror Hy)) R') as (bl & E1 & E2 & E3).
    destruct Hx as (p & Ep & A). destruct (prune_facts s pol c K (I c (or_introl eq_refl))) as (p' & Ep' & Kp & Cp & Lc & Vc & Sp). assert (p' = p) by congruence. subst p'.
    destruct (wit_bound i p (fst x) (snd x) w' (prune_extremal_vt pol c a) Hi Kp A Hw) as (b' & Eb & Lb). { eapply pruned_subset; eauto. }
    exists (b' :: bl). cbn [translateWitnessList map combine fst snd length]. rewrite Cp in Eb. rewrite Eb. fold (translateWitnessList ws1). rewrite E1. split; auto.
Qed.

Lemma entry_step i e : nth_error es i = Some e -> okset (eset e) /\ 1 < channels (eset e) /\ In (eset e, ebound e) E /\
  exists st, step_ok E (ebound e) (eset e) st /\
    match st, ewits e with
    | PHuffman pol ws, Huffman pol' ws' => pol' = pol /\ Forall2 (ref_ok g0 (firstn i es)) ws ws'
    | PSuccessors ws, Successors ws' => Forall2 (ref_ok g0 (firstn i es)) ws ws'
    | _, _ => False
    end.
Proof.
  intros H. destruct (Hfrom i e H) as (A & st & B & C).
  assert (I : In (eset e, ebound e) E) by (now apply (go_sets _ _ (tb_gen _ _ T0))).
  destruct (tb_ok _ _ T0 _ _ I) as (K & C1). destruct (tb_steps _ _ T0 _ _ I) as (st' & B' & So). assert (st' = st) by congruence. subst st'.
  split; auto. split; auto. split; auto. exists st. auto.
Qed.

Lemma ext_same s a pol : wf s -> same_set (mem a) (vs s) -> extremal_channels_vt a (channels s) pol = extremal_channels s pol.
Proof.
  intros W S. unfold extremal_channels_vt, extremal_channels. unfold upt at 2. rewrite Nat.sub_0_r. apply filter_ext_in. intros c Hc. apply in_seq in Hc.
  rewrite extremal_pattern by lia. apply eq_true_iff_eq. rewrite (channel_is_extremal_lone s pol c W) by lia. apply S.
Qed.

Lemma accept_huffman i e pol ws ws' : nth_error es i = Some e -> ewits e = Huffman pol ws' -> step_ok E (ebound e) (eset e) (PHuffman pol ws) ->
  Forall2 (ref_ok g0 (firstn i es)) ws ws' -> check_step fn (Z.of_nat i) (fn (Z.of_nat i)) = true.
Proof.
  intros H Ew So R. destruct (entry_step i e H) as (K & C & I & _). destruct (Hsays i e H) as (S1 & S2 & S3 & S4).
  set (st := fn (Z.of_nat i)) in *. set (s := eset e) in *. destruct So as (Nb & _ & L & h & -> & F & Eh & Le).
  unfold check_step. rewrite S4, Ew. cbn [translateWitnesses]. unfold check_huffman. rewrite S4, Ew. cbn [translateWitnesses].
  rewrite S1, Nat2Z.id, S3, Nat2Z.id. cbv zeta. set (a := vt_list (step_vect_list st)).
  assert (Sa : same_set (mem a) (vs s)). { intros y. rewrite <- (S2 y). apply vt_list_mem. }
  rewrite (ext_same s a pol (proj1 K) Sa). rewrite <- Nat.sub_1_r.
  assert (Hi : i <= length es). { apply Nat.lt_le_incl. apply nth_error_Some. congruence. }
  destruct (huff_bounds i s pol a Hi K (fun y Hy => proj2 (Sa y) Hy) _ _ _ F (fun y Hy => Hy) R) as (bl & Eb & Lb & Ll). rewrite Eb.
  assert (Ne : extremal_channels s pol <> []) by (apply extremal_nonempty; auto; lia).
  assert (Lbl : length bl = length (extremal_channels s pol)).
  { apply Forall2_length in Lb. apply Forall2_length in F. rewrite map_length in Lb. lia. }
  assert (Nbl : bl <> []). { intros ->. destruct (extremal_channels s pol); auto; discriminate. }
  assert (NL : map fst L <> []). { intros EL. rewrite EL in Lb. inversion Lb. congruence. }
  repeat (apply andb_true_iff; split).
  - apply negb_true_iff, Nat.eqb_neq. lia.
  - apply forallb_width. intros y Hy. apply S2 in Hy. now apply vs_width.
  - destruct ws' as [|? ?]; auto. cbn in Ll. destruct (extremal_channels s pol); auto; discriminate.
  - apply Nat.eqb_eq. unfold translateWitnessList. now rewrite map_length.
  - apply forallb_forall. intros b Hb. apply in_map_iff in Hb. destruct Hb as (v & <- & _). reflexivity.
  - rewrite map_map. cbn [the]. rewrite map_id. destruct (sucmax_huffman bl Nbl) as (r & -> & Hr). apply Nat.leb_le.
    transitivity h; auto. apply (huffman_kraft _ _ NL Eh r). transitivity (kraft bl). now apply kraft_le. now apply Hr.
Qed.

Lemma filter_map {A B} (f : A -> B) P l : filter P (map f l) = map f (filter (fun x => P (f x)) l).
Proof. induction l as [|x l IH]; cbn; auto. destruct (P (f x)); cbn; now rewrite IH. Qed.

Lemma succ_accept i s al b : i <= length es -> okset s -> (forall y, In y al <-> vs s y) -> forall l L ws', incl l (pairs (channels s)) ->
  Forall2 (fun c x => answer E (fst (apply_comparator s (fst c) (snd c))) (fst x) (snd x) /\ b <= S (fst x)) l L ->
  Forall2 (ref_ok g0 (firstn i es)) (map snd L) ws' ->
  list_all2 (fun t w => match get_bound fn (Z.of_nat i) w (channels s) t with None => false | Some ba => b <=? S ba end)
    (map (fun c => vt_list (map (apply_cmp_list c) al)) (map (fun c => (snd c, fst c)) l)) (translateWitnessList ws') = true /\ length l = length ws'.
Proof.
  intros Hi K Sal. induction l as [|(c1, c2) l IH]; intros L ws' I F R; inversion F as [|? x ? L' Hx F']; subst; cbn [map] in R.
  - inversion R; subst. auto.
  - inversion R as [|? w' ? ws1 Hw R']; subst. destruct (IH L' ws1 (fun y Hy => I y (or_intror Hy)) F' R') as (E1 & E2). cbn [map fst snd translateWitnessList list_all2 length].
    split; auto. apply andb_true_iff. split; auto. destruct Hx as (A & Lb). cbn [fst snd] in A.
    destruct (comparator_facts s c1 c2 K (I _ (or_introl eq_refl))) as (Kt & Ct & St & _).
    destruct (wit_bound i _ (fst x) (snd x) w' (vt_list (map (apply_cmp_list (c2, c1)) al)) Hi Kt A Hw) as (b' & Eb & Lb').
    + intros y Hy. apply vt_list_mem. apply St in Hy. destruct Hy as (z & Hz & ->). rewrite <- apply_cmp_exch. apply in_map. now apply Sal.
    + rewrite Ct in Eb. rewrite Eb. apply Nat.leb_le. lia.
Qed.

Lemma accept_successors i e ws ws' : nth_error es i = Some e -> ewits e = Successors ws' -> step_ok E (ebound e) (eset e) (PSuccessors ws) ->
  Forall2 (ref_ok g0 (firstn i es)) ws ws' -> check_step fn (Z.of_nat i) (fn (Z.of_nat i)) = true.
Proof.
  intros H Ew So R. destruct (entry_step i e H) as (K & C & I & _). destruct (Hsays i e H) as (S1 & S2 & S3 & S4).
  set (st := fn (Z.of_nat i)) in *. set (s := eset e) in *. destruct So as (Nb & _ & L & -> & F).
  unfold check_step. rewrite S4, Ew. cbn [translateWitnesses]. unfold check_successors. rewrite S4, Ew. cbn [translateWitnesses].
  rewrite S1, Nat2Z.id, S3, Nat2Z.id. cbv zeta. set (a := vt_list (step_vect_list st)).
  assert (Sa : same_set (mem a) (vs s)). { intros y. rewrite <- (S2 y). apply vt_list_mem. }
  assert (Hi : i <= length es). { apply Nat.lt_le_incl. apply nth_error_Some. congruence. }
  assert (Nr : filter (fun c => negb (is_redundant_cmp_vt c a)) (ocmp_list (channels s)) = map (fun c => (snd c, fst c)) (changing s)).
  { rewrite ocmp_comp, filter_map. f_equal. unfold changing. change (comp_pairs (channels s)) with (pairs (channels s)). apply filter_ext_in. intros (c1, c2) Hc. cbn [fst snd].
    destruct (comparator_facts s c1 c2 K Hc) as (_ & _ & _ & Fl). apply eq_true_iff_eq. rewrite Fl, negb_true_iff, is_redundant_spec. now apply same_nonredundant. }
  rewrite Nr.
  destruct (succ_accept i s (step_vect_list st) (ebound e) Hi K S2 (changing s) L ws') as (A1 & A2); auto. { intros y Hy. apply filter_In in Hy. apply Hy. }
  repeat (apply andb_true_iff; split).
  - now apply negb_true_iff, Nat.eqb_neq.
  - apply Nat.ltb_lt. pose proof (length_vt_ge s a (proj1 K) (fun y Hy => proj2 (Sa y) Hy)). pose proof (unsorted_len s K (Huns s _ I Nb)). lia.
  - apply Nat.eqb_eq. unfold translateWitnessList. now rewrite !map_length.
  - apply forallb_width. intros y Hy. apply S2 in Hy. now apply vs_width.
  - exact A1.
Qed.

Theorem accept_all : es <> [] -> forall e, nth_error es (length es - 1) = Some e ->
  check_proof_get_bound (ProofCert (Z.of_nat (length es)) fn) = Some (Z.of_nat (channels (eset e)), Z.of_nat (ebound e)).
Proof.
  intros Ne e He. unfold check_proof_get_bound, check_proof. cbn [cert_length cert_step]. rewrite Nat2Z.id.
  assert (L : 0 < length es) by (destruct es; cbn; [congruence|lia]).
  assert (A : par_range_all (fun i => check_step fn (Z.of_nat i) (fn (Z.of_nat i))) 0 (length es) = true).
  { apply par_range_spec; auto. intros i Hi. destruct (nth_error es i) as [e'|] eqn:En; [|apply nth_error_None in En; lia].
    destruct (entry_step i e' En) as (_ & _ & _ & st & So & Hw). destruct st as [| |pol ws|ws], (ewits e') as [pol' ws'|ws'] eqn:Ew; try easy.
    - destruct Hw as (-> & Hw). eapply accept_huffman; eauto.
    - eapply accept_successors; eauto. }
  rewrite A. replace (0 <=? Z.of_nat (length es))%Z with true by (symmetry; apply Z.leb_le; lia). replace (0 <? Z.of_nat (length es))%Z with true by (symmetry; apply Z.ltb_lt; lia).
  cbn [andb]. replace (Z.of_nat (length es) - 1)%Z with (Z.of_nat (length es - 1)) by lia.
  destruct (Hsays _ e He) as (S1 & _ & S3 & _). now rewrite S1, S3.
Qed.
End Check.
