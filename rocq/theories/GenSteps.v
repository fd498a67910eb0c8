(* The steps found by find_step of ProofGenModel.v, and the order of sets that makes encode_proof end. *)
From Coq Require Import String List Arith Bool Lia Permutation Sorted.
Import ListNotations.
From Verif Require Import Spec Vec Net Graded Bits Util OutputSetModel OutputSetProofs PruneProofs PackProofs CountProofs HuffmanModel HuffmanProofs TreeModel IndexModel IndexSpec
  StatesModel StatesProofs SearchModel SearchFacts SearchOrder FileModel LogModel ProofGenModel GenLoad.

(* ---- sizes ---- *)
Lemma sub_map_list n inv p c t Lc Lt : is_perm n p -> wf c -> wf t -> channels c = n -> channels t = n -> members c Lc -> members t Lt ->
  subsumes_by inv p (vs c) (vs t) -> let f x := permute p (complement_if inv x) in NoDup (map f Lc) /\ incl (map f Lc) Lt.
Proof.
  intros P Wc Wt Cc Ct (Nc & Hc) (Nt & Ht) S f. split.
  - assert (Wd : forall x, In x Lc -> length x = n). { intros x Hx. apply Hc in Hx. rewrite <- Cc. now apply vs_width. }
    clear Hc Ht. induction Lc as [|x L IH]; cbn; [constructor|]. inversion Nc as [|? ? N1 N2]. constructor.
    + intros I. apply in_map_iff in I. destruct I as (y & E & Hy). apply N1. replace x with y; auto.
      apply (permute_inj n) in E; auto; try (rewrite complement_if_length; apply Wd; simpl; auto).
      rewrite <- (complement_if_involutive inv y), <- (complement_if_involutive inv x). now f_equal.
    + apply IH; auto. intros y Hy. apply Wd. now right.
  - intros y Hy. apply in_map_iff in Hy. destruct Hy as (x & <- & Hx). apply Ht. apply S. now apply Hc.
Qed.

Lemma subsumed_len inv p c t : wf c -> wf t -> channels c = channels t -> is_perm (channels t) p -> subsumes_by inv p (vs c) (vs t) ->
  os_len c <= os_len t /\ (os_len c = os_len t -> mixed c = mixed t).
Proof.
  intros Wc Wt C P S. destruct (members_ex c Wc) as (Lc & Mc), (members_ex t Wt) as (Lt & Mt).
  destruct (sub_map_list _ inv p c t Lc Lt P Wc Wt C eq_refl Mc Mt S) as (N & I). set (f x := permute p (complement_if inv x)) in *.
  rewrite (members_len c Lc Wc Mc), (members_len t Lt Wt Mt). split.
  - rewrite <- (map_length f Lc). now apply NoDup_incl_length.
  - intros E. assert (I' : incl Lt (map f Lc)). { apply NoDup_length_incl; auto. rewrite map_length. lia. }
    assert (M' : members t (map f Lc)). { split; auto. intros x. rewrite <- (proj2 Mt). split; auto. }
    rewrite (members_mixed t _ Wt M'), (members_mixed c _ Wc Mc). rewrite C. symmetry. apply mixedL_sym; auto.
    intros x Hx. apply (proj2 Mc) in Hx. rewrite <- C. now apply vs_width.
Qed.

Lemma iso_id n V : width n V -> isomorphic_by false (seq 0 n) V V.
Proof.
  intros W x. split.
  - intros Hx. exists x. split; auto. cbn. rewrite <- (W x Hx). now rewrite permute_id.
  - intros (y & Hy & ->). cbn. rewrite <- (W y Hy). now rewrite permute_id.
Qed.

Lemma comparator_facts s i j : okset s -> In (i, j) (pairs (channels s)) ->
  okset (fst (apply_comparator s i j)) /\ channels (fst (apply_comparator s i j)) = channels s /\
  same_set (vs (fst (apply_comparator s i j))) (image (exch (j, i)) (vs s)) /\
  (snd (apply_comparator s i j) = true <-> nonredundant (j, i) (vs s)).
Proof.
  intros K I. apply pairs_In in I. destruct I as (Hi & Hj). split. apply comparator_ok; auto. split. apply apply_comparator_channels.
  split. apply apply_comparator_vs; try lia; apply K. apply apply_comparator_flag; try lia; apply K.
Qed.

Lemma comparator_smaller s i j : okset s -> In (i, j) (pairs (channels s)) -> snd (apply_comparator s i j) = true -> smaller (fst (apply_comparator s i j)) s.
Proof.
  intros K I Ch. destruct (comparator_facts s i j K I) as (Kt & Ct & St & Fl). apply pairs_In in I. destruct I as (Hi & Hj).
  apply (successor_smaller s _ (j, i) false (seq 0 (channels s))); auto; try apply K; try apply Kt.
  - split; [|split]; cbn; lia.
  - now apply Fl.
  - apply Permutation_refl.
  - eapply same_set_trans; [exact St|]. apply iso_id. rewrite <- Ct. intros x Hx. apply (vs_width (fst (apply_comparator s i j))). now apply St.
Qed.

Lemma witness_smaller s t c inv p : wf c -> wf t -> channels c = channels t -> is_perm (channels t) p -> subsumes_by inv p (vs c) (vs t) -> smaller t s -> smaller c s.
Proof.
  intros Wc Wt C P S Sm. destruct (subsumed_len inv p c t Wc Wt C P S) as (L & M). unfold smaller in *. rewrite C.
  destruct Sm as [Sm|(E & [Sm|(E' & Sm)])]; auto; right; split; auto. left; lia.
  destruct (Nat.eq_dec (os_len c) (os_len t)) as [Eq|N]; [right; split; [lia|rewrite M; auto]|left; lia].
Qed.

(* a set with one member of each weight has n+1 members, any other more *)
Lemma not_opw_pair (t : OutputSet) : wf t -> is_sorted t = false -> exists x y, vs t x /\ vs t y /\ weight x = weight y /\ x <> y.
Proof.
  intros W H. destruct (members_ex t W) as (L & N & M).
  assert (D : {x & {y | In x L /\ In y L /\ weight x = weight y /\ x <> y}} + {forall x y, In x L -> In y L -> weight x = weight y -> x = y}).
  { clear. induction L as [|a L IH]. right; intros ? ? [].
    destruct IH as [(x & y & Hx & Hy & Ew & Ne)|IH]. left; exists x, y; cbn; auto.
    assert (D : {y | In y L /\ weight a = weight y /\ a <> y} + {forall y, In y L -> weight a = weight y -> a = y}).
    { clear IH. induction L as [|b L IH]. right; intros ? []. destruct IH as [(y & Hy & Ew & Ne)|IH]. left; exists y; cbn; auto.
      destruct (Nat.eq_dec (weight a) (weight b)) as [E|E], (list_eq_dec Bool.bool_dec a b) as [F|F].
      right; intros y [<-|Hy]; auto. left; exists b; cbn; auto. right; intros y [<-|Hy]; auto. right; intros y [<-|Hy]; auto; intros; lia. }
    destruct D as [(y & Hy & Ew & Ne)|D]. left; exists a, y; cbn; auto.
    right. intros x y [<-|Hx] [<-|Hy] Ew; auto. symmetry; apply D; auto. }
  destruct D as [(x & y & Hx & Hy & Ew & Ne)|D].
  - exists x, y. rewrite <- !M in *. auto.
  - exfalso. assert (O : one_per_weight (vs t)). { intros x y Hx Hy. apply D; now apply M. }
    apply is_sorted_spec in O; auto. congruence.
Qed.

Lemma unsorted_len t : okset t -> is_sorted t = false -> channels t + 1 < os_len t.
Proof.
  intros (W & _ & G) H. destruct (members_ex t W) as (L & M). rewrite (members_len t L W M).
  destruct (not_opw_pair t W H) as (x & y & Hx & Hy & Ew & Ne).
  assert (R : forall k, k <= channels t + 1 -> exists l, NoDup l /\ length l = k /\ (forall z, In z l -> vs t z /\ weight z < k) /\ ~ In y l).
  { induction k as [|k IH]; intros Hk. { exists []. split; [constructor|]. split; auto. split; [intros ? []|intros []]. }
    destruct IH as (l & N & Ll & Hl & Hyl); [lia|].
    assert (Ez : exists z, vs t z /\ weight z = k /\ (weight x = k -> z = x)).
    { destruct (Nat.eq_dec (weight x) k) as [E|E]. exists x; auto. assert (Hk2 : k <= channels t) by lia. destruct (graded_weight _ _ k G Hk2) as (z & Hz & Wz). exists z. split; [auto|split; [auto|intros Ex; now elim E]]. }
    destruct Ez as (z & Hz & Wz & Zx). exists (z :: l). split; [|split; [|split]].
    - constructor; auto. intros I. apply Hl in I. lia.
    - simpl; lia.
    - intros u [<-|I]. split; auto; lia. destruct (Hl u I). split; auto; lia.
    - intros [E|I]; auto. subst z. apply Ne. symmetry. apply Zx. lia. }
  destruct (R (channels t + 1) (le_n _)) as (l & N & Ll & Hl & Hyl).
  assert (Le : length (y :: l) <= length L).
  { apply NoDup_incl_length. now constructor. intros z [<-|Hz]; apply M; auto. now apply Hl. }
  cbn in Le. lia.
Qed.

Lemma sorted_len t : wf t -> is_sorted t = true -> os_len t <= channels t + 1.
Proof.
  intros W H. destruct (members_ex t W) as (L & M). rewrite (members_len t L W M). apply is_sorted_spec in H; auto.
  rewrite <- (map_length weight L). replace (channels t + 1) with (length (seq 0 (channels t + 1))) by apply seq_length.
  apply NoDup_incl_length.
  - destruct M as (N & M). clear -N M H.
    assert (Hi : forall x y, In x L -> In y L -> weight x = weight y -> x = y) by (intros; apply H; auto; now apply M).
    clear M H. induction L as [|a L IH]; cbn; constructor; inversion N; subst.
    + intros I. apply in_map_iff in I. destruct I as (b & E & Hb). assert (b = a) by (apply Hi; cbn; auto). now subst.
    + apply IH; auto. intros; apply Hi; cbn; auto.
  - intros k Hk. apply in_map_iff in Hk. destruct Hk as (x & <- & Hx). apply M in Hx. apply in_seq. pose proof (weight_le x). pose proof (vs_width t x Hx). lia.
Qed.

(* ---- pruned sets ---- *)
Lemma prune_facts s pol c : okset s -> In c (extremal_channels s pol) ->
  exists p, prune_extremal_channel_into s pol c (channels s - 1) = Some p /\ okset p /\ channels p = channels s - 1 /\ c < channels s /\
    vs s (lone (channels s) pol c) /\ same_set (vs p) (pruned_pol (channels s) c pol (vs s)).
Proof.
  intros (W & M & G) H. apply extremal_In in H; auto. destruct H as (Hc & He). destruct (prune_extremal_spec s pol c W Hc M He) as (u & E & Cu & Wu & S).
  assert (S' : same_set (vs u) (pruned_pol (channels s) c pol (vs s))).
  { eapply same_set_trans; [exact S|]. apply same_set_sym. now apply pruned_pol_flip. }
  assert (Gp : graded (channels s - 1) (pruned_pol (channels s) c pol (vs s))).
  { unfold pruned_pol. apply complement_if_image_graded. apply graded_pruned; auto. now apply complement_if_image_graded.
    now apply lone_mem. }
  exists u. split; auto. split; auto. split; auto. rewrite Cu. split. lia. apply (graded_same _ _ _ (same_set_sym _ _ S')). auto.
Qed.

(* ---- find_step ---- *)
Definition changing (s : OutputSet) : list (nat * nat) := filter (fun c => snd (apply_comparator s (fst c) (snd c))) (pairs (channels s)).

Definition step_ok (E : list (OutputSet * nat)) (b : nat) (s : OutputSet) (st : PStep) : Prop :=
  match st with
  | PTrivial => b = 0
  | PNotSorted => b = 1 /\ is_sorted s = false
  | PHuffman pol ws => b <> 0 /\ (b = 1 -> is_sorted s = true) /\ exists L h, ws = map snd L /\
      Forall2 (fun c x => exists p, prune_extremal_channel_into s pol c (channels s - 1) = Some p /\ answer E p (fst x) (snd x)) (extremal_channels s pol) L /\
      max_plus_1_huffman (map fst L) = Some h /\ b <= h
  | PSuccessors ws => b <> 0 /\ (b = 1 -> is_sorted s = true) /\ exists L, ws = map snd L /\
      Forall2 (fun c x => answer E (fst (apply_comparator s (fst c) (snd c))) (fst x) (snd x) /\ b <= S (fst x)) (changing s) L
  end.

Section Steps.
Variables (g : GenProof) (E : list (OutputSet * nat)).
Hypothesis G : gen_ok g E.

Lemma lookup_answer t r : wf t -> lookup_witness g t = Some r -> answer E t (fst r) (snd r).
Proof. intros W H. destruct (lookup_witness_ok g E t G W) as (b & w & H' & A). rewrite H' in H. injection H as <-. exact A. Qed.

Lemma Forall2_In_impl {A B} (P Q : A -> B -> Prop) l m : Forall2 P l m -> (forall a b, In a l -> P a b -> Q a b) -> Forall2 Q l m.
Proof. induction 1; intros H'; constructor. apply H'; cbn; auto. apply IHForall2. intros; apply H'; cbn; auto. Qed.

Lemma huffman_witnesses_ok s pol ws : okset s -> huffman_witnesses g s pol = Some ws ->
  Forall2 (fun c x => exists p, prune_extremal_channel_into s pol c (channels s - 1) = Some p /\ answer E p (fst x) (snd x)) (extremal_channels s pol) ws.
Proof.
  intros K H. unfold huffman_witnesses in H. apply map_opt_Some in H. eapply Forall2_In_impl; [exact H|].
  intros c x Hc Hx. cbv beta in Hx. destruct (prune_facts s pol c K Hc) as (p & Ep & Kp & _). rewrite Ep in *. cbv beta iota in Hx. exists p. split; auto.
  apply lookup_answer; auto. apply Kp.
Qed.

Lemma huffman_pols_ok s b pols st : okset s -> b <> 0 -> (b = 1 -> is_sorted s = true) -> huffman_pols g b s pols = Some (Some st) -> step_ok E b s st.
Proof.
  intros K Nb N1. induction pols as [|pol r IH]; cbn [huffman_pols]. discriminate.
  destruct (huffman_witnesses g s pol) as [ws|] eqn:Ew; [|discriminate]. cbv beta iota.
  destruct (max_plus_1_huffman (map fst ws)) as [h|] eqn:Eh; [|discriminate]. cbv beta iota.
  destruct (b <=? h) eqn:El; auto. intros H. injection H as <-. split; auto. split; auto. exists ws, h. split; auto. split.
  now apply huffman_witnesses_ok. split; auto. now apply Nat.leb_le.
Qed.

Lemma successor_loop_ok s b : okset s -> forall todo acc r, incl todo (pairs (channels s)) -> successor_loop g b s todo acc = Some (Some r) ->
  exists L, r = acc ++ map snd L /\
    Forall2 (fun c x => answer E (fst (apply_comparator s (fst c) (snd c))) (fst x) (snd x) /\ b <= S (fst x))
            (filter (fun c => snd (apply_comparator s (fst c) (snd c))) todo) L.
Proof.
  intros K. induction todo as [|(i, j) todo IH]; intros acc r I H; cbn [successor_loop] in H.
  - injection H as <-. exists []. rewrite app_nil_r. cbn. auto.
  - cbn [filter fst snd]. pose proof (comparator_facts s i j K (I _ (or_introl eq_refl))) as (Kt & _).
    destruct (apply_comparator s i j) as [t ch] eqn:Ea. cbn [fst snd] in *. destruct ch.
    + destruct (lookup_witness g t) as [w|] eqn:Ew; [|discriminate]. cbv beta iota in H.
      unfold u8_succ in H. destruct (fst w + 1 <=? 255); [|discriminate]. cbv beta iota in H.
      destruct (fst w + 1 <? b) eqn:El; [discriminate|]. apply Nat.ltb_ge in El.
      destruct (IH _ _ (fun x Hx => I x (or_intror Hx)) H) as (L & -> & F). exists (w :: L). split. cbn. now rewrite <- app_assoc.
      constructor; auto. cbn [fst snd]. rewrite Ea. cbn [fst]. split. apply lookup_answer; auto. apply Kt. lia.
    + apply (IH _ _ (fun x Hx => I x (or_intror Hx)) H).
Qed.

Theorem find_step_ok s b st : okset s -> find_step g b s = Some st -> step_ok E b s st.
Proof.
  intros K. unfold find_step, trivial_step. destruct (b =? 0) eqn:E0. { intros H. injection H as <-. now apply Nat.eqb_eq in E0. }
  apply Nat.eqb_neq in E0. destruct ((b =? 1) && negb (is_sorted s)) eqn:E1.
  { intros H. injection H as <-. apply andb_true_iff in E1. destruct E1 as (E1 & E2). apply Nat.eqb_eq in E1. apply negb_true_iff in E2. split; auto. }
  assert (N1 : b = 1 -> is_sorted s = true). { intros ->. destruct (is_sorted s); auto; discriminate. }
  unfold huffman_step. destruct (huffman_pols g b s _) as [[st'|]|] eqn:Eh; cbv beta iota; [|  |discriminate].
  - intros H. injection H as ->. eapply huffman_pols_ok; eauto.
  - unfold successor_step. destruct (successor_loop g b s (pairs (channels s)) []) as [[ws|]|] eqn:Es; cbn; try discriminate.
    intros H. injection H as <-. destruct (successor_loop_ok s b K _ _ _ (fun x H => H) Es) as (L & -> & F). split; auto. split; auto. exists L. auto.
Qed.
End Steps.
