(* find_step of ProofGenModel.v succeeds for every set of a log whose bounds are justified by each other. *)
From Coq Require Import String List Arith Bool Lia Permutation Sorted.
Import ListNotations.
From Verif Require Import Spec Vec Net Graded Bits Util OutputSetModel OutputSetProofs PruneProofs PackProofs CountProofs HuffmanModel HuffmanProofs TreeModel IndexModel IndexSpec
  CanonModel StatesModel StatesProofs SearchModel SearchFacts SearchInv SearchFrames SearchOrder FileModel LogModel ProofGenModel GenLoad GenSteps.

Lemma covers_iso c u t inv p : channels c = channels u -> channels t = channels u -> is_perm (channels u) p ->
  isomorphic_by inv p (vs u) (vs t) -> IndexSpec.covers LowerInvert c t -> IndexSpec.covers LowerInvert c u.
Proof.
  intros Cc Ct P Iso ((z, q) & Q & S). unfold valid in *. cbn [fst snd] in *. rewrite Cc in Q.
  exists (xorb z inv, comp_perm q (inv_perm (channels u) p)). unfold valid. cbn [fst snd]. pose proof (inv_perm_is_perm _ _ P) as P'.
  split. rewrite Cc. now apply comp_perm_is_perm.
  intros x Hx. specialize (S x Hx). apply Iso in S. destruct S as (y & Hy & Ey).
  assert (Lx : length x = channels u) by (rewrite <- Cc; apply Hx). assert (Ly : length y = channels u) by apply Hy.
  change (permute (comp_perm q (inv_perm (channels u) p)) (complement_if (xorb z inv) x)) with (sym (xorb z inv) (comp_perm q (inv_perm (channels u) p)) x).
  rewrite <- (sym_comp (channels u)) by auto. change (sym z q x) with (permute q (complement_if z x)). rewrite Ey.
  change (permute p (complement_if inv y)) with (sym inv p y). rewrite (sym_inverse (channels u)) by auto. exact Hy.
Qed.

Lemma is_sorted_iso u t inv p : wf u -> wf t -> channels t = channels u -> is_perm (channels u) p -> isomorphic_by inv p (vs u) (vs t) -> is_sorted u = is_sorted t.
Proof.
  intros Wu Wt Ct P Iso. apply eq_true_iff_eq. rewrite !is_sorted_spec by auto.
  assert (Wd : width (channels u) (vs u)) by (intros x Hx; apply Hx).
  rewrite <- (one_per_weight_sym (channels u) inv p (vs u) P Wd). split; apply one_per_weight_same.
  exact Iso. now apply same_set_sym.
Qed.

Lemma Forall2_pairs {A B} (P : A -> B -> Prop) l l' : Forall2 P l l' -> exists z, l = map fst z /\ l' = map snd z /\ forall a b, In (a, b) z -> P a b.
Proof.
  induction 1 as [|a b l l' H _ (z & -> & -> & IH)]. exists []. cbn. repeat split. easy.
  exists ((a, b) :: z). cbn. split; auto. split; auto. intros x y [E|Hz]; auto. now injection E as <- <-.
Qed.

Section Complete.
Variable chash : list nat -> nat.
Variables (g : GenProof) (E : list (OutputSet * nat)) (L : OutputSet -> nat).
Hypothesis G : gen_ok g E.
Hypothesis HE : forall s b, In (s, b) E -> okset s /\ is_sorted s = false /\ 1 <= b /\ b <= 35 /\ L s = b.
Hypothesis Hcov : forall t, okset t -> L t <= (if is_sorted t then 0 else 1) \/
  exists c b, In (c, b) E /\ channels c = channels t /\ IndexSpec.covers LowerInvert c t /\ L t <= b.
Hypothesis Hjust : forall s, okset s -> L s = 0 \/ (is_sorted s = false /\
  (L s <= 1 \/ (exists pol r, max_plus_1_huffman (map L (prunes chash s pol)) = Some r /\ L s <= r) \/
   (forall t, In t (succs chash s) -> L s <= L t + 1))).

Lemma lookup_bound u t inv p : okset u -> okset t -> channels t = channels u -> is_perm (channels u) p -> isomorphic_by inv p (vs u) (vs t) ->
  exists b w, lookup_witness g u = Some (b, w) /\ L t <= b /\ b <= 35.
Proof.
  intros Ku Kt Ct P Iso. destruct (lookup_witness_ok g E u G) as (b & w & El & A). apply Ku. exists b, w. split; auto.
  pose proof (is_sorted_iso u t inv p (proj1 Ku) (proj1 Kt) Ct P Iso) as Es.
  destruct w as [((z, q), c)|]; cbn [answer] in A.
  - destruct A as (Ic & Wc & Cc & Q & Sub & Max). destruct (HE c b Ic) as (_ & _ & B1 & B2 & _). split; auto.
    destruct (Hcov t Kt) as [H|(c' & b' & Ic' & Cc' & Cov & H)].
    + destruct (is_sorted t); lia.
    + apply Nat.le_trans with b'; auto. apply (Max c'); auto. congruence. apply (covers_iso c' u t inv p); auto. congruence.
  - destruct A as (-> & No). split. 2:{ destruct (is_sorted u); lia. } destruct (Hcov t Kt) as [H|(c' & b' & Ic' & Cc' & Cov & H)].
    + now rewrite Es.
    + exfalso. apply (No c' b'); auto. congruence. apply (covers_iso c' u t inv p); auto. congruence.
Qed.

Lemma huffman_witnesses_total s pol : okset s -> exists z, extremal_channels s pol = map fst z /\ huffman_witnesses g s pol = Some (map snd z) /\
  forall c x, In (c, x) z -> L (prune_of chash s pol c) <= fst x /\ fst x <= 35.
Proof.
  intros K.
  assert (T : forall l, incl l (extremal_channels s pol) -> exists ws,
    map_opt (fun channel => pruned <- prune_extremal_channel_into s pol channel (channels s - 1) ;; lookup_witness g pruned) l = Some ws /\
    Forall2 (fun c (x : nat * option PWitness) => L (prune_of chash s pol c) <= fst x /\ fst x <= 35) l ws).
  { induction l as [|c l IH]; intros Hl. exists []. split; auto.
    destruct IH as (ws & Ew & Fw). { intros x Hx. apply Hl. now right. }
    destruct (prune_facts s pol c K (Hl c (or_introl eq_refl))) as (p & Ep & Kp & Cp & _).
    destruct (canon_spec chash p Kp) as (t & inv & q & Ec & Kt & Ct & Q & Iso).
    destruct (lookup_bound p t inv q Kp Kt Ct Q Iso) as (b & w & El & B1 & B2).
    exists ((b, w) :: ws). cbn [map_opt]. rewrite Ep. cbv beta iota. rewrite El, Ew. split; auto. constructor; auto. cbn [fst].
    unfold prune_of, SearchModel.prune_canon. rewrite Ep. cbv beta iota. rewrite Ec. auto. }
  destruct (T (extremal_channels s pol) (incl_refl _)) as (ws & Ew & Fw). destruct (Forall2_pairs _ _ _ Fw) as (z & E1 & E2 & H).
  exists z. split; auto. split; auto. unfold huffman_witnesses. now rewrite Ew, E2.
Qed.

Lemma huffman_pols_total s b pols : okset s -> exists o, huffman_pols g b s pols = Some o /\
  ((exists pol r, In pol pols /\ max_plus_1_huffman (map L (prunes chash s pol)) = Some r /\ b <= r) -> o <> None).
Proof.
  intros K. induction pols as [|pol pols IH].
  - exists None. split; auto. intros (pol & r & [] & _).
  - destruct IH as (o & Eo & Ho). cbn [huffman_pols]. destruct (huffman_witnesses_total s pol K) as (z & E1 & E2 & Hz). rewrite E2. cbv beta iota.
    destruct (huffman_total_small (map fst (map snd z))) as (h & Eh).
    { rewrite !map_length. rewrite <- (map_length fst z), <- E1. eapply Nat.le_trans. apply extremal_length. apply K. }
    { intros v Hv. rewrite map_map in Hv. apply in_map_iff in Hv. destruct Hv as ((c & x) & <- & Hx). now apply (Hz c x). }
    rewrite Eh. cbv beta iota. destruct (Nat.leb_spec b h) as [Hb|Hb]. eexists. split; [reflexivity|discriminate].
    exists o. split; auto. intros (pol' & r & [->|Hp] & Er & Hr); [|apply Ho; eauto]. exfalso.
    assert (r <= h); [|lia]. rewrite map_map in Eh. unfold prunes in Er. rewrite E1, !map_map in Er.
    apply (huffman_mono (fun x : nat * (nat * option PWitness) => L (prune_of chash s pol' (fst x))) (fun x => fst (snd x)) z); auto.
    intros (c, x) Hx. cbn. now apply (Hz c x).
Qed.

Lemma successor_loop_total s b : okset s -> (forall t, In t (succs chash s) -> b <= L t + 1) ->
  forall todo acc, incl todo (pairs (channels s)) -> exists r, successor_loop g b s todo acc = Some (Some r).
Proof.
  intros K J. induction todo as [|(i, j) todo IH]; intros acc Hi. { cbn. eauto. }
  assert (Hin : In (i, j) (pairs (channels s))) by (apply Hi; now left).
  assert (Hr : incl todo (pairs (channels s))) by (intros x Hx; apply Hi; now right).
  cbn [successor_loop]. destruct (comparator_facts s i j K Hin) as (Kt & Ct & _). destruct (apply_comparator s i j) as (t, ch) eqn:Ea. cbn [fst snd] in *.
  destruct ch; [|now apply IH].
  destruct (canon_spec chash t Kt) as (t' & inv & q & Ec & Kt' & Ct' & Q & Iso).
  destruct (lookup_bound t t' inv q Kt Kt' Ct' Q Iso) as (v & w & El & B1 & B2). rewrite El. cbv beta iota. cbn [fst snd].
  rewrite (u8_succ_small v B2). cbv beta iota.
  assert (It : In t' (succs chash s)). { unfold succs. apply in_flat_map. exists (i, j). split; auto. unfold succ1. cbn [fst snd]. rewrite Ea. left. unfold canon_of. now rewrite Ec. }
  specialize (J t' It). destruct (Nat.ltb_spec (v + 1) b); [lia|]. now apply IH.
Qed.

Theorem find_step_total s b : In (s, b) E -> exists st, find_step g b s = Some st.
Proof.
  intros Hs. destruct (HE s b Hs) as (K & Us & B1 & B2 & Lb). unfold find_step, trivial_step.
  destruct (Nat.eqb_spec b 0); [lia|]. rewrite Us. cbn [negb andb]. destruct (Nat.eqb_spec b 1) as [->|N1]; cbn [andb]. eauto.
  unfold huffman_step. match goal with |- context [huffman_pols g b s ?l] => set (pols := l) end.
  assert (Ip : forall pol, In pol pols). { intros pol. unfold pols. destruct (_ <? _), pol; simpl; auto. }
  destruct (huffman_pols_total s b pols K) as (o & Eo & Ho). rewrite Eo. cbv beta iota. destruct o as [st|]; [eauto|].
  destruct (Hjust s K) as [J|(_ & [J|[(pol & r & Er & Hr)|J]])]; try lia.
  - exfalso. apply Ho; auto. exists pol, r. split; auto. split; auto. lia.
  - unfold successor_step. rewrite Lb in J. destruct (successor_loop_total s b K J (pairs (channels s)) [] (incl_refl _)) as (r & Er). rewrite Er. cbn. eauto.
Qed.

Theorem prove_all_total : exists g', prove_all g = Some g'.
Proof.
  unfold prove_all.
  assert (T : forall l, incl l (output_sets g) -> exists sts, map_opt (fun e => st <- find_step g (snd e) (fst e) ;; Some (fst e, st)) l = Some sts).
  { induction l as [|(s, b) l IH]; intros Hl. cbn; eauto. destruct IH as (sts & Es). { intros x Hx. apply Hl. now right. }
    destruct (find_step_total s b) as (st & Ef). { apply (go_sets g E G). apply Hl. now left. }
    cbn [map_opt fst snd]. rewrite Ef, Es. cbv beta iota. eauto. }
  destruct (T (output_sets g) (incl_refl _)) as (sts & ->). cbv beta iota. eauto.
Qed.
End Complete.
