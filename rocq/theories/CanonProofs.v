(* The steps of output_set/canon.rs, run side by side on two isomorphic sets. *)
From Coq Require Import List Arith Bool Lia Permutation.
Import ListNotations.
From Verif Require Import Spec Vec Net Bits Util OutputSetModel OutputSetProofs CountProofs SubsumeModel SubsumeProofs SubsumeSearch CanonModel CanonBits CanonParts.

(* ---------- comparisons ---------- *)

Record ocmp {A} (cmp : A -> A -> comparison) : Prop := {
  o_eq : forall a b, cmp a b = Eq <-> a = b;
  o_opp : forall a b, cmp b a = CompOpp (cmp a b);
  o_tr : forall a b c, cmp a b = Lt -> cmp b c = Lt -> cmp a c = Lt
}.

Lemma ocmp_nat : ocmp Nat.compare.
Proof.
  constructor. apply Nat.compare_eq_iff. intros. apply Nat.compare_antisym. intros a b c. rewrite !Nat.compare_lt_iff. lia.
Qed.
Lemma ocmp_bool : ocmp bool_cmp.
Proof.
  constructor. intros [] []; simpl; intuition congruence. intros [] []; auto. intros [] [] []; simpl; congruence.
Qed.
Lemma ocmp_flip {A} (cmp : A -> A -> comparison) : ocmp cmp -> ocmp (fun a b => cmp b a).
Proof.
  intros O. constructor. intros. rewrite (o_eq _ O). intuition. intros. apply (o_opp _ O).
  intros a b c H1 H2. now apply (o_tr _ O _ b).
Qed.
Definition lexc {A B} (ca : A -> A -> comparison) (cb : B -> B -> comparison) (x y : A * B) : comparison :=
  match ca (fst x) (fst y) with Eq => cb (snd x) (snd y) | c => c end.
Lemma ocmp_lex {A B} (ca : A -> A -> comparison) (cb : B -> B -> comparison) : ocmp ca -> ocmp cb -> ocmp (lexc ca cb).
Proof.
  intros Oa Ob. unfold lexc. constructor.
  - intros (a & b) (a' & b'). simpl. pose proof (o_eq _ Oa a a'). destruct (ca a a').
    + rewrite (o_eq _ Ob). assert (a = a') by intuition. split; intros; subst; congruence.
    + split; [discriminate|]. intros E. injection E as -> ->. intuition congruence.
    + split; [discriminate|]. intros E. injection E as -> ->. intuition congruence.
  - intros (a & b) (a' & b'). simpl. rewrite (o_opp _ Oa a a'). destruct (ca a a'); simpl; auto. apply (o_opp _ Ob).
  - intros (a & b) (a' & b') (a'' & b''). simpl.
    destruct (ca a a') eqn:E1; try discriminate; destruct (ca a' a'') eqn:E2; try discriminate; intros H1 H2.
    + apply (o_eq _ Oa) in E1, E2. subst. rewrite (proj2 (o_eq _ Oa a'' a'') eq_refl). now apply (o_tr _ Ob _ b').
    + apply (o_eq _ Oa) in E1. subst. now rewrite E2.
    + apply (o_eq _ Oa) in E2. subst. now rewrite E1.
    + now rewrite (o_tr _ Oa _ a' _ E1 E2).
Qed.
Lemma ocmp_list {A} (cmp : A -> A -> comparison) : ocmp cmp -> ocmp (list_cmp cmp).
Proof.
  intros O. constructor.
  - induction a as [|a l IH]; intros [|b l']; simpl; try (split; congruence). destruct (cmp a b) eqn:E.
    + apply (o_eq _ O) in E. subst. rewrite IH. split; congruence.
    + split; [discriminate|]. intros X. injection X as -> ->. rewrite (proj2 (o_eq _ O b b) eq_refl) in E. discriminate.
    + split; [discriminate|]. intros X. injection X as -> ->. rewrite (proj2 (o_eq _ O b b) eq_refl) in E. discriminate.
  - induction a as [|a l IH]; intros [|b l']; simpl; auto. rewrite (o_opp _ O a b). destruct (cmp a b); simpl; auto.
  - induction a as [|a l IH]; intros [|b l'] [|c l'']; simpl; auto; try discriminate.
    destruct (cmp a b) eqn:E1; try discriminate; destruct (cmp b c) eqn:E2; try discriminate; intros H1 H2.
    + apply (o_eq _ O) in E1, E2. subst. rewrite (proj2 (o_eq _ O c c) eq_refl). eauto.
    + apply (o_eq _ O) in E1. subst. now rewrite E2.
    + apply (o_eq _ O) in E2. subst. now rewrite E1.
    + now rewrite (o_tr _ O _ b _ E1 E2).
Qed.

Lemma ocmp_ge_trans {A} (cmp : A -> A -> comparison) a b c : ocmp cmp -> cmp a b <> Lt -> cmp b c <> Lt -> cmp a c <> Lt.
Proof.
  intros O H1 H2 H. destruct (cmp b c) eqn:E2; [| |].
  - apply (o_eq _ O) in E2. now subst.
  - congruence.
  - assert (cmp c b = Lt) by (rewrite (o_opp _ O b c), E2; auto). apply H1. now apply (o_tr _ O _ c).
Qed.

Lemma fold_best {C K} (cmp : K -> K -> comparison) (k : C -> K) : ocmp cmp -> forall l c,
  let r := fold_left (fun m x => match cmp (k m) (k x) with Lt => x | _ => m end) l c in
  In r (c :: l) /\ forall x, In x (c :: l) -> cmp (k r) (k x) <> Lt.
Proof.
  intros O. induction l as [|y l IH]; intros c; cbn [fold_left].
  { split; [simpl; auto|]. intros x [->|[]]. rewrite (proj2 (o_eq _ O _ _) eq_refl). discriminate. }
  set (c' := match cmp (k c) (k y) with Lt => y | _ => c end). specialize (IH c'). cbv zeta in *. destruct IH as (I1 & I2).
  set (r := fold_left _ l c') in *. 
  assert (Hc : cmp (k c') (k c) <> Lt /\ cmp (k c') (k y) <> Lt /\ In c' [c; y]).
  { unfold c'. assert (cmp (k c) (k c) <> Lt) by (rewrite (proj2 (o_eq _ O _ _) eq_refl); discriminate).
    assert (cmp (k y) (k y) <> Lt) by (rewrite (proj2 (o_eq _ O _ _) eq_refl); discriminate).
    destruct (cmp (k c) (k y)) eqn:E; simpl; repeat split; auto; rewrite ?E; try discriminate.
    rewrite (o_opp _ O (k c) (k y)), E. discriminate. }
  destruct Hc as (H1 & H2 & H3).
  split.
  - destruct I1 as [I1|I1]. rewrite <- I1. simpl in *. tauto. simpl; auto.
  - assert (Hr : cmp (k r) (k c') <> Lt) by (apply I2; simpl; auto).
    intros x [<-|[<-|Hx]].
    + now apply (ocmp_ge_trans cmp _ (k c')).
    + now apply (ocmp_ge_trans cmp _ (k c')).
    + apply I2. simpl; auto.
Qed.

Definition skey (c : Cand) : nat * (nat * list nat) := (fst (c_score c), (snd (c_score c), c_fp c)).
Definition scmp : nat * (nat * list nat) -> nat * (nat * list nat) -> comparison :=
  lexc Nat.compare (lexc (fun a b => Nat.compare b a) (list_cmp Nat.compare)).
Lemma ocmp_scmp : ocmp scmp.
Proof. apply ocmp_lex. apply ocmp_nat. apply ocmp_lex. apply ocmp_flip, ocmp_nat. apply ocmp_list, ocmp_nat. Qed.
Lemma score_cmp_key a b : score_cmp a b = scmp (skey a) (skey b).
Proof. reflexivity. Qed.
Lemma skey_eq a b : skey a = skey b <-> c_score a = c_score b /\ c_fp a = c_fp b.
Proof.
  unfold skey. destruct (c_score a), (c_score b). simpl. split. intros E. injection E as -> -> ->. auto. intros (E & ->). congruence.
Qed.

Lemma best_score_spec c l : In (best_score c l) (c :: l) /\ forall x, In x (c :: l) -> scmp (skey (best_score c l)) (skey x) <> Lt.
Proof. apply (fold_best scmp skey ocmp_scmp l c). Qed.

Lemma ocmp_os : ocmp (list_cmp bool_cmp). Proof. apply ocmp_list, ocmp_bool. Qed.

Lemma fold_left_eq {A B} (f g : A -> B -> A) l : (forall a b, f a b = g a b) -> forall a, fold_left f l a = fold_left g l a.
Proof. intros H. induction l; intros; simpl; auto. rewrite H. auto. Qed.

Lemma min_set_spec c l : In (min_set c l) (c :: l) /\ forall x, In x (c :: l) -> os_cmp (c_set (min_set c l)) (c_set x) <> Gt.
Proof.
  pose proof (fold_best (fun a b => list_cmp bool_cmp b a) (fun x => bitmap (c_set x)) (ocmp_flip _ ocmp_os) l c) as H. cbv zeta in H.
  assert (E : min_set c l = fold_left (fun m x => match list_cmp bool_cmp (bitmap (c_set x)) (bitmap (c_set m)) with Lt => x | _ => m end) l c).
  { unfold min_set. apply fold_left_eq. intros m x. unfold set_leb, os_cmp.
    rewrite (o_opp _ ocmp_os (bitmap (c_set m)) (bitmap (c_set x))).
    destruct (list_cmp bool_cmp (bitmap (c_set m)) (bitmap (c_set x))); reflexivity. }
  rewrite E. destruct H as (H1 & H2). split; auto. intros x Hx. unfold os_cmp. rewrite (o_opp _ ocmp_os (bitmap (c_set x)) _).
  specialize (H2 x Hx). cbv beta in H2. destruct (list_cmp bool_cmp (bitmap (c_set x)) _); simpl; congruence.
Qed.

(* ---------- relabellings ---------- *)

Section Rel.
Variables n u : nat.
Hypothesis Hu : u <= n.

Lemma relabelled_trans p q s t w : channels s = n -> relabelled p s t -> relabelled q t w -> relabelled (comp_perm p q) s w.
Proof.
  intros Cn (Ws & Wt & C & P & Sp) (_ & Ww & C' & Q & Sq). rewrite C, Cn in *. unfold relabelled. rewrite Cn.
  split; auto. split; auto. split; [congruence|]. split. now apply comp_perm_is_perm.
  intros y. rewrite (Sq y). split.
  - intros (z & Hz & ->). apply Sp in Hz. destruct Hz as (x & Hx & ->). exists x. split; auto. now apply (permute_comp n).
  - intros (x & Hx & ->). exists (permute p x). split. apply Sp. now exists x. symmetry. now apply (permute_comp n).
Qed.

Lemma relabelled_swap s a b : wf s -> channels s = n -> a < n -> b < n -> relabelled (transp_perm n a b) s (swap_channels s a b).
Proof.
  intros W C Ha Hb. unfold relabelled. rewrite C. split; auto. split. apply swap_channels_wf; auto; lia. split. now rewrite swap_channels_channels.
  split. now apply transp_perm_is_perm. intros y. pose proof (swap_channels_vs s a b ltac:(lia) ltac:(lia) W y) as SV. rewrite SV.
  split; intros (x & Hx & ->); exists x; split; auto; [|symmetry]; apply swapv_permute; auto; destruct Hx; lia.
Qed.

Lemma relabelled_unswap s a b : wf s -> channels s = n -> a < n -> b < n -> relabelled (transp_perm n a b) (swap_channels s a b) s.
Proof.
  intros W C Ha Hb. assert (R : relabelled (transp_perm n a b) (swap_channels s a b) (swap_channels (swap_channels s a b) a b)).
  { apply relabelled_swap; auto. apply swap_channels_wf; auto; lia. now rewrite swap_channels_channels. }
  rewrite swap_channels_involutive in R by (auto; lia). auto.
Qed.

Lemma relabelled_id s : wf s -> channels s = n -> relabelled (seq 0 n) s s.
Proof.
  intros W C. unfold relabelled. rewrite C. split; auto. split; auto. split; auto. split. apply Permutation_refl.
  assert (E : forall x, length x = n -> permute (seq 0 n) x = x).
  { intros x <-. apply permute_id. }
  intros y. split.
  - intros Hy. exists y. split; auto. rewrite E; auto. destruct Hy; lia.
  - intros (x & Hx & ->). rewrite E; auto. destruct Hx; lia.
Qed.

Definition fixes (f : nat) (sg : list nat) : Prop := is_perm n sg /\ forall i, i < n -> i < f \/ u <= i -> nth i sg 0 = i.
Definition srel (f : nat) (sg : list nat) (s t : OutputSet) : Prop := channels s = n /\ fixes f sg /\ relabelled sg s t.

Lemma fixes_range f sg c : fixes f sg -> f <= c < u -> f <= nth c sg 0 < u.
Proof.
  intros (P & F) Hc. assert (Hn : c < n) by lia. pose proof (is_perm_nth _ _ _ P Hn) as Hs.
  assert (G : nth c sg 0 < f \/ u <= nth c sg 0 -> False).
  { intros G. assert (nth c sg 0 = c); [|lia]. apply (is_perm_inj n sg); auto. }
  lia.
Qed.
Lemma fixes_id f : fixes f (seq 0 n).
Proof. split. apply Permutation_refl. intros i Hi _. now apply seq_nth. Qed.
Lemma srel_id f s : wf s -> channels s = n -> srel f (seq 0 n) s s.
Proof. intros. split; auto. split. apply fixes_id. now apply relabelled_id. Qed.

Lemma conj_nth f a1 a2 sg i : is_perm n sg -> f < n -> a1 < n -> a2 < n -> i < n ->
  nth i (comp_perm (comp_perm (transp_perm n a1 f) sg) (transp_perm n a2 f)) 0 = transp a1 f (nth (transp a2 f i) sg 0).
Proof.
  intros P Hf H1 H2 Hi. pose proof (transp_lt n a2 f i H2 Hf Hi) as Ht. pose proof (is_perm_nth _ _ _ P Ht) as Hs.
  rewrite comp_perm_nth by (now rewrite (is_perm_length _ _ (transp_perm_is_perm n a2 f H2 Hf))).
  rewrite (transp_perm_nth n a2 f) by auto. rewrite comp_perm_nth by (now rewrite (is_perm_length _ _ P)). now apply transp_perm_nth.
Qed.

(* forward: the moved sets are related by tau1 sigma tau2 *)
Lemma move_forward f a1 a2 sg s t : f < u -> f <= a1 < u -> f <= a2 < u -> nth a2 sg 0 = a1 -> srel f sg s t ->
  exists sg', srel (S f) sg' (swap_channels s a1 f) (swap_channels t a2 f).
Proof.
  intros Hf H1 H2 E (Cs & (P & F) & R). pose proof R as (Ws & Wt & C & _ & _).
  exists (comp_perm (comp_perm (transp_perm n a1 f) sg) (transp_perm n a2 f)).
  split. now rewrite swap_channels_channels. split; [split|].
  - apply comp_perm_is_perm; [apply comp_perm_is_perm|]; auto; apply transp_perm_is_perm; lia.
  - intros i Hi Hc. pose proof (transp_lt n a2 f i ltac:(lia) ltac:(lia) Hi) as Ht. pose proof (is_perm_nth _ _ _ P Ht) as Hs.
    rewrite conj_nth by (auto; lia).
    destruct (Nat.eq_dec i f) as [->|Ne].
    + assert (Et : transp a2 f f = a2). { unfold transp. destruct (Nat.eqb_spec f a2); auto. now rewrite Nat.eqb_refl. }
      rewrite Et, E. unfold transp. now rewrite Nat.eqb_refl.
    + assert (Hi' : i < f \/ u <= i) by lia.
      assert (Et : forall a, f <= a < u -> transp a f i = i).
      { intros a Ha. unfold transp. destruct (Nat.eqb_spec i a), (Nat.eqb_spec i f); auto; lia. }
      rewrite (Et a2), F, (Et a1) by auto. auto.
  - assert (R1 : relabelled (transp_perm n a1 f) (swap_channels s a1 f) s) by (apply relabelled_unswap; auto; lia).
    assert (R2 : relabelled (transp_perm n a2 f) t (swap_channels t a2 f)) by (apply relabelled_swap; auto; lia).
    eapply relabelled_trans; [now rewrite swap_channels_channels| |exact R2].
    eapply relabelled_trans; [now rewrite swap_channels_channels|exact R1|exact R].
Qed.

Lemma move_backward f a1 a2 sg' s t : wf s -> wf t -> channels s = n -> channels t = n -> f < u -> f <= a1 < u -> f <= a2 < u ->
  srel (S f) sg' (swap_channels s a1 f) (swap_channels t a2 f) ->
  exists sg, srel f sg s t /\ nth a2 sg 0 = a1 /\ forall i, i < n -> nth (transp a2 f i) sg 0 = transp a1 f (nth i sg' 0).
Proof.
  intros Ws Wt Cs Ct Hf H1 H2 (_ & (P & F) & R).
  set (sg := comp_perm (comp_perm (transp_perm n a1 f) sg') (transp_perm n a2 f)).
  assert (Ps : is_perm n sg). { apply comp_perm_is_perm; [apply comp_perm_is_perm|]; auto; apply transp_perm_is_perm; lia. }
  assert (Hn : forall i, i < n -> nth (transp a2 f i) sg 0 = transp a1 f (nth i sg' 0)).
  { intros i Hi. pose proof (transp_lt n a2 f i ltac:(lia) ltac:(lia) Hi) as Ht. pose proof (is_perm_nth _ _ _ P Hi) as Hs. unfold sg.
    rewrite conj_nth by (auto; lia). now rewrite transp_invol. }
  exists sg. split; [split; auto; split; [split; auto|]|split; auto].
  - intros i Hi Hc. pose proof (Hn i Hi) as E0.
    assert (Et : forall a, f <= a < u -> transp a f i = i).
    { intros a Ha. unfold transp. destruct (Nat.eqb_spec i a), (Nat.eqb_spec i f); auto; lia. }
    rewrite (Et a2), F, (Et a1) in E0 by (auto; lia). exact E0.
  - assert (R1 : relabelled (transp_perm n a1 f) s (swap_channels s a1 f)) by (apply relabelled_swap; auto; lia).
    assert (R2 : relabelled (transp_perm n a2 f) (swap_channels t a2 f) t) by (apply relabelled_unswap; auto; lia).
    eapply relabelled_trans; [auto| |exact R2]. eapply relabelled_trans; [auto|exact R1|exact R].
  - assert (E2 : transp a2 f f = a2). { unfold transp. destruct (Nat.eqb_spec f a2); auto. now rewrite Nat.eqb_refl. }
    rewrite <- E2 at 1. rewrite Hn by lia. rewrite F by lia. unfold transp. destruct (Nat.eqb_spec f a1); auto. now rewrite Nat.eqb_refl.
Qed.

Lemma srel_full sg s t : srel u sg s t -> s = t.
Proof.
  intros (Cs & (P & F) & R). assert (E : sg = seq 0 n).
  { apply nth_ext_lt with (d := 0). rewrite seq_length. now apply is_perm_length.
    rewrite (is_perm_length _ _ P). intros i Hi. rewrite F, seq_nth; auto. lia. }
  subst sg. pose proof R as (Ws & Wt & C & _ & S).
  pose proof (relabelled_id s Ws Cs) as (_ & _ & _ & _ & S'). apply os_ext; auto. intros y. rewrite (S y), (S' y). tauto.
Qed.

(* ---------- a part after the move ---------- *)

Lemma swap_part_bit a f e c : Nat.testbit (fst e) a = false -> Nat.testbit (fst (swap_part a f e)) c = Nat.testbit (fst e) (transp a f c).
Proof.
  intros T. unfold swap_part, transp. cbn [fst]. rewrite Nat.lor_spec, Nat.ldiff_spec, pow2_testbit.
  assert (E : Nat.testbit (2 ^ a * Nat.b2n (Nat.testbit (fst e) f)) c = (a =? c) && Nat.testbit (fst e) f).
  { destruct (Nat.testbit (fst e) f); cbn [Nat.b2n]. rewrite Nat.mul_1_r, pow2_testbit. now rewrite andb_true_r. rewrite Nat.mul_0_r, Nat.bits_0. now rewrite andb_false_r. }
  rewrite E. rewrite (Nat.eqb_sym f c), (Nat.eqb_sym a c). destruct (Nat.eqb_spec c a) as [Ea|Na].
  - subst c. rewrite T. reflexivity.
  - destruct (Nat.eqb_spec c f) as [Ef|Nf]; simpl. rewrite T. now rewrite andb_false_r. now rewrite andb_true_r, orb_false_r.
Qed.

Lemma swap_part_ok a f e : a < n -> f < n -> Nat.testbit (fst e) a = false -> fst e <> 0 -> fst e < 2 ^ n ->
  pm n (transp_perm n a f) (fst e) (fst (swap_part a f e)) /\ fst (swap_part a f e) <> 0 /\ fst (swap_part a f e) < 2 ^ n.
Proof.
  intros Ha Hf T NZ L.
  assert (PM : pm n (transp_perm n a f) (fst e) (fst (swap_part a f e))).
  { intros c Hc. rewrite swap_part_bit, transp_perm_nth by auto. auto. }
  assert (L' : fst (swap_part a f e) < 2 ^ n).
  { apply bits_lt. intros i Hi. rewrite swap_part_bit by auto. unfold transp. destruct (Nat.eqb_spec i a), (Nat.eqb_spec i f); try lia. now apply (testbit_big n). }
  split; auto. split; auto. apply (bits_nonempty n); auto. intros E.
  pose proof (pm_length n _ _ _ (transp_perm_is_perm n a f Ha Hf) PM) as EL. rewrite E in EL. apply (bits_nonempty n) in NZ; auto.
  destruct (bits n (fst e)); auto. discriminate.
Qed.

Definition nobit (a : nat) (ps : list (nat * nat)) : Prop := forall e, In e ps -> Nat.testbit (fst e) a = false.

Lemma swap_part_same a e : Nat.testbit (fst e) a = false -> swap_part a a e = e.
Proof.
  intros T. destruct e as (m & i) eqn:E. rewrite <- E in *. rewrite (surjective_pairing (swap_part a a e)), (surjective_pairing e). f_equal.
  apply nat_ext_bits. intros c. rewrite swap_part_bit by auto. f_equal. unfold transp. destruct (Nat.eqb_spec c a); auto.
Qed.

Lemma swap_parts a f ps : a < n -> f < n -> nobit a ps -> parts_ok n ps ->
  parts_ok n (map (swap_part a f) ps) /\
  Permutation (map (transp a f) (parts_bits n (map (swap_part a f) ps))) (parts_bits n ps) /\
  take_singles (map (swap_part a f) ps) = take_singles ps.
Proof.
  intros Ha Hf. induction ps as [|e r IH]; intros N O. { repeat split; auto. }
  inversion O as [|? ? (NZ & L) O']. subst.
  destruct (swap_part_ok a f e Ha Hf (N e (or_introl eq_refl)) NZ L) as (PM & NZ' & L').
  destruct IH as (I1 & I2 & I3). { intros x Hx. apply N. simpl; auto. } { auto. }
  pose proof (pm_bits n _ _ _ (transp_perm_is_perm n a f Ha Hf) PM) as PB.
  split; [constructor; auto|]. split.
  - change (parts_bits n (e :: r)) with (bits n (fst e) ++ parts_bits n r).
    change (parts_bits n (map (swap_part a f) (e :: r))) with (bits n (fst (swap_part a f e)) ++ parts_bits n (map (swap_part a f) r)).
    rewrite map_app. apply Permutation_app; auto. rewrite <- PB. apply Permutation_refl'. apply map_ext_in. intros c Hc.
    apply bits_In in Hc. symmetry. apply transp_perm_nth. tauto.
  - cbn [map take_singles]. rewrite I3. rewrite !(is_single_bits n) by auto.
    now rewrite (pm_length n _ _ _ (transp_perm_is_perm n a f Ha Hf) PM).
Qed.

Lemma swap_parts_cover a f ps : f < u -> f <= a < u -> nobit a ps -> parts_ok n ps ->
  Permutation (a :: parts_bits n ps) (seq f (u - f)) -> Permutation (parts_bits n (map (swap_part a f) ps)) (seq (S f) (u - S f)).
Proof.
  intros Hf Ha N O P. destruct (swap_parts a f ps) as (O' & P' & _); auto; try lia.
  assert (ND : NoDup (a :: parts_bits n ps)) by (apply (Permutation_NoDup (Permutation_sym P)), seq_NoDup).
  apply NoDup_cons_iff in ND. destruct ND as (Na & ND).
  apply NoDup_Permutation.
  - apply (Permutation_NoDup (Permutation_sym P')) in ND. now apply NoDup_map_inv in ND.
  - apply seq_NoDup.
  - intros x. assert (In x (parts_bits n (map (swap_part a f) ps)) <-> In (transp a f x) (parts_bits n ps)).
    { split.
      - intros H. apply (Permutation_in _ P'). now apply in_map.
      - intros H. apply (Permutation_in _ (Permutation_sym P')) in H. apply in_map_iff in H. destruct H as (y & E & Hy).
        rewrite <- (transp_invol a f x), <- E, transp_invol. auto. }
    rewrite H. assert (H' : forall y, In y (parts_bits n ps) <-> f <= y < u /\ y <> a).
    { intros y. split.
      - intros Hy. split. assert (In y (seq f (u - f))) by (apply (Permutation_in _ P); simpl; auto). apply in_seq in H0. lia. intros ->. auto.
      - intros (Hy & Ne). assert (Hi : In y (a :: parts_bits n ps)) by (apply (Permutation_in _ (Permutation_sym P)), in_seq; lia).
        destruct Hi; congruence. }
    rewrite H', in_seq. unfold transp. destruct (Nat.eqb_spec x a), (Nat.eqb_spec x f); lia.
Qed.

Lemma swap_pmatch f a1 a2 sg sg' ps1 ps2 : f < u -> f <= a1 < u -> f <= a2 < u -> is_perm n sg' ->
  (forall i, i < n -> nth (transp a2 f i) sg 0 = transp a1 f (nth i sg' 0)) -> nobit a1 ps1 -> nobit a2 ps2 ->
  pmatch n sg ps1 ps2 -> pmatch n sg' (map (swap_part a1 f) ps1) (map (swap_part a2 f) ps2).
Proof.
  intros Hf H1 H2 P' Hn N1 N2 M. induction M as [|e1 e2 r1 r2 (Ei & Hm) M IH]; [constructor|]. cbn [map]. constructor.
  - split; auto. intros c Hc. pose proof (is_perm_nth _ _ _ P' Hc) as Hs. rewrite !swap_part_bit by (try apply N1; try apply N2; simpl; auto).
    rewrite <- Hn by auto. apply Hm. apply transp_lt; lia.
  - apply IH; intros e He; [apply N1|apply N2]; simpl; auto.
Qed.

End Rel.
