(* The reference checker: exact meaning of its set operations, and soundness for well-formed
   certificates. *)
From Coq Require Import List Arith Bool Lia Permutation ZArith Sorted.
Import ListNotations.
From Verif Require Import Spec Vec Net Graded Bits Util OutputSetProofs PruneProofs CountProofs HuffmanProofs
  VerifiedCheckerModel VerifiedCheckerProofs RefCheckerModel.

(* ---------- ascending lists ---------- *)

Definition asc (l : list nat) : Prop := StronglySorted lt l.

Lemma is_insert_In v s w : In w (is_insert v s) <-> w = v \/ In w s.
Proof.
  induction s as [|u s IH]; simpl. intuition congruence.
  destruct (v <? u); [|destruct (v =? u) eqn:E]; simpl; try rewrite IH; intuition (subst; auto).
  apply Nat.eqb_eq in E. auto.
Qed.

Lemma is_insert_asc v s : asc s -> asc (is_insert v s).
Proof.
  unfold asc. induction 1 as [|u s Ss IH F]; simpl. repeat constructor.
  destruct (v <? u) eqn:E1; [|destruct (v =? u) eqn:E2].
  - apply Nat.ltb_lt in E1. constructor. constructor; auto. constructor; auto.
    eapply Forall_impl; [|exact F]. simpl. intros; lia.
  - constructor; auto.
  - apply Nat.ltb_ge in E1. apply Nat.eqb_neq in E2. constructor; auto. apply Forall_forall. intros w Hw.
    apply is_insert_In in Hw. destruct Hw as [->|Hw]. lia. rewrite Forall_forall in F. auto.
Qed.

Lemma is_map_In f s w : In w (is_map f s) <-> exists v, In v s /\ w = f v.
Proof.
  unfold is_map. induction s as [|u s IH]; simpl. split; [easy|intros (v & [] & _)].
  rewrite is_insert_In, IH. split.
  - intros [->|(v & Hv & ->)]; eauto.
  - intros (v & [<-|Hv] & ->); eauto.
Qed.

Lemma is_map_asc f s : asc (is_map f s).
Proof. unfold is_map. induction s; simpl. constructor. now apply is_insert_asc. Qed.

Lemma asc_NoDup s : asc s -> NoDup s.
Proof.
  induction 1 as [|u s Ss IH F]; constructor; auto. intros H. rewrite Forall_forall in F. specialize (F u H). lia.
Qed.

Lemma is_mem_In v s : is_mem v s = true <-> In v s.
Proof.
  unfold is_mem. rewrite existsb_exists. split.
  - intros (x & Hx & E). apply Nat.eqb_eq in E. now subst.
  - intros H. exists v. split; auto. apply Nat.eqb_refl.
Qed.

(* ---------- sets of vectors ---------- *)

Definition rset (vs : VectSet) : vset := fun x => length x = vchannels vs /\ In (idx x) (vects vs).

Definition rwf (vs : VectSet) : Prop := asc (vects vs) /\ Forall (fun v => v < 2 ^ vchannels vs) (vects vs).

Lemma rset_width vs : width (vchannels vs) (rset vs).
Proof. intros x H. apply H. Qed.

Lemma rset_vec vs v : rwf vs -> In v (vects vs) -> rset vs (vec_of (vchannels vs) v).
Proof.
  intros (_ & B) H. rewrite Forall_forall in B. split. apply vec_of_length. rewrite idx_vec_of; auto.
Qed.

Lemma rset_card vs : rwf vs -> card (rset vs) (vsize vs).
Proof.
  intros (A & B). rewrite Forall_forall in B. exists (map (vec_of (vchannels vs)) (vects vs)). split; [|split].
  - apply CountProofs.NoDup_map_on. now apply asc_NoDup. intros v w Hv Hw E.
    rewrite <- (idx_vec_of (vchannels vs) v), <- (idx_vec_of (vchannels vs) w) by auto. now rewrite E.
  - intros x. rewrite in_map_iff. split.
    + intros (v & <- & Hv). apply rset_vec; auto. split; auto. now apply Forall_forall.
    + intros (L & H). exists (idx x). split; auto. rewrite <- L. apply vec_of_idx.
  - apply map_length.
Qed.

Lemma is_map_rwf n f s : (forall v, In v s -> f v < 2 ^ n) -> rwf (mkVectSet n (is_map f s)).
Proof.
  intros H. split; simpl. apply is_map_asc. apply Forall_forall. intros w Hw. apply is_map_In in Hw.
  destruct Hw as (v & Hv & ->). auto.
Qed.

Lemma is_map_rset vs m f (g : vec -> vec) : rwf vs ->
  (forall x, length x = vchannels vs -> length (g x) = m /\ f (idx x) = idx (g x)) ->
  rwf (mkVectSet m (is_map f (vects vs))) /\
  same_set (rset (mkVectSet m (is_map f (vects vs)))) (image g (rset vs)).
Proof.
  intros W H. pose proof W as (A & B). rewrite Forall_forall in B. split.
  - apply is_map_rwf. intros v Hv. destruct (H (vec_of (vchannels vs) v)) as (L & E). apply vec_of_length.
    rewrite idx_vec_of in E by auto. rewrite E, <- L. apply idx_lt.
  - intros y. unfold rset; simpl. rewrite is_map_In. split.
    + intros (L & v & Hv & E). exists (vec_of (vchannels vs) v). split. now apply rset_vec.
      destruct (H (vec_of (vchannels vs) v)) as (L' & E'). apply vec_of_length.
      apply idx_inj. congruence. rewrite <- E', idx_vec_of; auto.
    + intros (x & (Lx & Hx) & ->). destruct (H x Lx) as (L' & E'). split; auto. exists (idx x). auto.
Qed.

(* ---------- comparators ---------- *)

Lemma land_pair_eq a b v m : a <> b -> (m = 2 ^ a \/ m = 2 ^ b) ->
  (Nat.land v (Nat.lor (2 ^ a) (2 ^ b)) =? m) =
  (eqb (Nat.testbit v a) (Nat.testbit m a) && eqb (Nat.testbit v b) (Nat.testbit m b)).
Proof.
  intros Hne Hm. apply eq_true_iff_eq. rewrite Nat.eqb_eq, andb_true_iff, !eqb_true_iff. split.
  - intros <-. rewrite !Nat.land_spec, !Nat.lor_spec, !Nat.pow2_bits_true, orb_true_r, orb_true_l, !andb_true_r. auto.
  - intros (E1 & E2). apply nat_ext_bits. intros i. rewrite Nat.land_spec, Nat.lor_spec, !pow2_testbit.
    destruct (a =? i) eqn:Ea; [apply Nat.eqb_eq in Ea; subst i; now rewrite andb_true_r|].
    destruct (b =? i) eqn:Eb; [apply Nat.eqb_eq in Eb; subst i; now rewrite andb_true_r|].
    rewrite andb_false_r. destruct Hm as [-> | ->]; rewrite pow2_testbit; auto.
Qed.

Lemma comp_idx a b x : a <> b -> a < length x -> b < length x ->
  (if Nat.land (idx x) (Nat.lor (2 ^ a) (2 ^ b)) =? 2 ^ b then Nat.lxor (idx x) (Nat.lor (2 ^ a) (2 ^ b)) else idx x)
  = idx (exch (b, a) x).
Proof.
  intros Hne Ha Hb. rewrite land_pair_eq by auto. rewrite !pow2_testbit, !testbit_idx, Nat.eqb_refl.
  assert (E : (b =? a) = false) by (apply Nat.eqb_neq; auto). rewrite E.
  assert (OK : cmp_ok (length x) (b, a)) by (repeat split; simpl; auto).
  destruct (bit x a) eqn:Ea, (bit x b) eqn:Eb; simpl.
  - rewrite exch_in_order; auto.
  - rewrite exch_in_order; auto; simpl; try congruence.
  - rewrite exch_out_of_order; simpl; auto; try congruence.
    rewrite idx_swapv; auto; [|congruence]. f_equal. apply Nat.lor_comm.
  - rewrite exch_in_order; auto; simpl; congruence.
Qed.

Lemma applyComp_spec a b vs : rwf vs -> a <> b -> a < vchannels vs -> b < vchannels vs ->
  match applyComp a b vs with
  | Some r => nonredundant (b, a) (rset vs) /\ vchannels r = vchannels vs /\ rwf r /\
              same_set (rset r) (image (exch (b, a)) (rset vs))
  | None => ~ nonredundant (b, a) (rset vs)
  end.
Proof.
  intros W Hne Ha Hb. unfold applyComp. cbv zeta.
  assert (H : forall m, (m = 2 ^ a \/ m = 2 ^ b) ->
    (existsb (fun v => Nat.land v (Nat.lor (2 ^ a) (2 ^ b)) =? m) (vects vs) = true <->
     exists x, rset vs x /\ bit x a = Nat.testbit m a /\ bit x b = Nat.testbit m b)).
  { intros m Hm. rewrite existsb_exists. split.
    - intros (v & Hv & E). rewrite land_pair_eq in E by auto. apply andb_true_iff in E. rewrite !eqb_true_iff in E.
      exists (vec_of (vchannels vs) v). split. now apply rset_vec.
      destruct W as (_ & B). rewrite Forall_forall in B. rewrite <- !testbit_idx, idx_vec_of; auto.
    - intros (x & Hx & E1 & E2). exists (idx x). split. apply Hx. rewrite land_pair_eq by auto.
      rewrite !testbit_idx, E1, E2, !eqb_reflx. auto. }
  pose proof (H (2 ^ a) (or_introl eq_refl)) as H1. pose proof (H (2 ^ b) (or_intror eq_refl)) as H2.
  rewrite !pow2_testbit, !Nat.eqb_refl in H1, H2.
  assert (E1 : (a =? b) = false) by (apply Nat.eqb_neq; auto). assert (E2 : (b =? a) = false) by (apply Nat.eqb_neq; auto).
  rewrite E1 in H1. rewrite E2 in H2.
  match goal with |- context [if ?c then _ else _] => destruct c eqn:C end.
  - apply andb_true_iff in C. destruct C as (C1 & C2). apply H1 in C1. apply H2 in C2.
    destruct (is_map_rset vs (vchannels vs)
      (fun v => if Nat.land v (Nat.lor (2 ^ a) (2 ^ b)) =? 2 ^ b then Nat.lxor v (Nat.lor (2 ^ a) (2 ^ b)) else v)
      (exch (b, a))) as (G1 & G2); auto.
    { intros x Hx. rewrite exch_length. split; auto. apply comp_idx; auto; now rewrite Hx. }
    split; [|split; [|split]]; auto. split.
    + destruct C2 as (x & Hx & X1 & X2). exists x. auto.
    + destruct C1 as (x & Hx & X1 & X2). exists x. auto.
  - intros (N1 & N2). apply andb_false_iff in C.
    destruct N1 as (x & Hx & X1 & X2), N2 as (y & Hy & Y1 & Y2). simpl in *. destruct C as [C|C].
    + rewrite (proj2 H1) in C; [discriminate|]. exists y. auto.
    + rewrite (proj2 H2) in C; [discriminate|]. exists x. auto.
Qed.

(* ---------- symmetry ---------- *)

Lemma permVect_idx perm v : permVect perm v = idx (map (Nat.testbit v) perm).
Proof.
  induction perm as [|p perm IH]; auto. unfold permVect in *. cbn [fold_right map idx]. rewrite IH. rewrite Nat.shiftl_mul_pow2. simpl (2 ^ 1).
  apply nat_ext_bits. intros i. rewrite Nat.lor_spec. rewrite (Nat.mul_comm _ 2).
  destruct i as [|i].
  - rewrite testbit_b2n_0. replace (2 * idx (map (Nat.testbit v) perm)) with (Nat.b2n false + 2 * idx (map (Nat.testbit v) perm)) by reflexivity.
    rewrite testbit_b2n_0. destruct (Nat.testbit v p); auto.
  - rewrite testbit_b2n_S. replace (2 * idx (map (Nat.testbit v) perm)) with (Nat.b2n false + 2 * idx (map (Nat.testbit v) perm)) by reflexivity.
    rewrite testbit_b2n_S. replace (Nat.b2n (Nat.testbit v p)) with (Nat.b2n (Nat.testbit v p) + 2 * 0) by lia.
    rewrite testbit_b2n_S, Nat.bits_0, orb_false_r. auto.
Qed.

Lemma vpermute_spec p vs : rwf vs -> length p = vchannels vs ->
  rwf (vpermute p vs) /\ same_set (rset (vpermute p vs)) (image (permute p) (rset vs)).
Proof.
  intros W L. apply is_map_rset; auto. intros x Hx. rewrite permute_length. split; auto.
  rewrite permVect_idx. unfold permute. f_equal. apply map_ext. intros i. apply testbit_idx.
Qed.

Lemma vinvert_spec vs : rwf vs -> rwf (vinvert vs) /\ same_set (rset (vinvert vs)) (image complement (rset vs)).
Proof.
  intros W. apply is_map_rset; auto. intros x Hx. rewrite complement_length. split; auto.
  rewrite Nat.lxor_comm. now apply lxor_all_mask.
Qed.

Lemma vsubsumes_spec a b : rwf a -> rwf b -> vchannels a = vchannels b ->
  (is_subset (vects a) (vects b) = true <-> subset (rset a) (rset b)).
Proof.
  intros Wa Wb E. unfold is_subset. rewrite forallb_forall. split.
  - intros H x (L & Hx). split. congruence. apply is_mem_In. auto.
  - intros H v Hv. apply is_mem_In. pose proof (rset_vec a v Wa Hv) as R. apply H in R. destruct R as (_ & R).
    destruct Wa as (_ & B). rewrite Forall_forall in B. rewrite idx_vec_of in R; auto.
Qed.

(* ---------- extremal channels ---------- *)

Lemma extremalChannels_In pol vs c : In c (extremalChannels pol vs) <->
  c < vchannels vs /\ rset vs (lone (vchannels vs) pol c).
Proof.
  unfold extremalChannels. cbv zeta. rewrite filter_In, in_seq, is_mem_In. unfold rset.
  assert (E : c < vchannels vs -> Nat.lxor (2 ^ c) (if pol then 2 ^ vchannels vs - 1 else 0) = idx (lone (vchannels vs) pol c)).
  { intros Hc. rewrite lone_eq by auto. rewrite <- (idx_unit_vec (vchannels vs) c) by auto. destruct pol; simpl complement_if.
    - apply lxor_all_mask, unit_vec_length.
    - apply Nat.lxor_0_r. }
  split.
  - intros (H1 & H2). assert (Hc : c < vchannels vs) by lia. rewrite E in H2 by auto. repeat split; auto.
    unfold lone. now rewrite upd_length, repeat_length.
  - intros (Hc & _ & H). rewrite E by auto. split; auto. lia.
Qed.

Lemma idx_del' c z : c < length z ->
  Nat.lor (Nat.land (idx z) (2 ^ c - 1)) (Nat.ldiff (Nat.shiftr (idx z) 1) (2 ^ c - 1)) = idx (del c z).
Proof.
  intros Hc. apply nat_ext_bits. intros i. rewrite Nat.lor_spec, Nat.land_spec, Nat.ldiff_spec, Nat.shiftr_spec', ones_testbit.
  rewrite !testbit_idx, bit_del. unfold skip. destruct (i <? c) eqn:E; simpl.
  - rewrite andb_true_r, andb_false_r, orb_false_r. auto.
  - rewrite andb_false_r, andb_true_r. simpl. now rewrite Nat.add_1_r.
Qed.

Lemma pruneExtremal_spec pol c vs : rwf vs -> c < vchannels vs ->
  exists r, pruneExtremal pol c vs = Some r /\ vchannels r = vchannels vs - 1 /\ rwf r /\
    forall y, length y = vchannels vs - 1 -> (rset r y <-> rset vs (ins c (negb pol) y)).
Proof.
  intros W Hc. unfold pruneExtremal. assert (E0 : (vchannels vs =? 0) = false) by (apply Nat.eqb_neq; lia). rewrite E0. cbv zeta.
  set (sub := mkVectSet (vchannels vs) (filter (fun v => Nat.land v (2 ^ c) =? (if pol then 0 else 2 ^ c)) (vects vs))).
  assert (T : forall v, (Nat.land v (2 ^ c) =? (if pol then 0 else 2 ^ c)) = eqb (Nat.testbit v c) (negb pol)).
  { intros v. apply eq_true_iff_eq. rewrite Nat.eqb_eq, eqb_true_iff. split.
    - intros E. apply (f_equal (fun w => Nat.testbit w c)) in E. rewrite Nat.land_spec, Nat.pow2_bits_true, andb_true_r in E.
      rewrite E. destruct pol; simpl. apply Nat.bits_0. apply Nat.pow2_bits_true.
    - intros E. apply nat_ext_bits. intros i. rewrite Nat.land_spec, pow2_testbit.
      destruct (c =? i) eqn:Q; [apply Nat.eqb_eq in Q; subst i; rewrite E, andb_true_r|rewrite andb_false_r];
        destruct pol; simpl; rewrite ?Nat.bits_0, ?pow2_testbit, ?Nat.eqb_refl, ?Q; auto. }
  assert (Ws : rwf sub).
  { destruct W as (A & B). split; simpl.
    - clear -A. unfold asc in *. induction A as [|u s Ss IH F]; simpl. constructor. destruct (_ =? _); auto. constructor; auto.
      rewrite Forall_forall in *. intros w Hw. apply filter_In in Hw. apply F. tauto.
    - rewrite Forall_forall in *. intros w Hw. apply filter_In in Hw. apply B. tauto. }
  destruct (is_map_rset sub (vchannels vs - 1) (fun v => Nat.lor (Nat.land v (2 ^ c - 1)) (Nat.ldiff (Nat.shiftr v 1) (2 ^ c - 1)))
    (del c)) as (G1 & G2); auto.
  { intros x Hx. simpl in Hx. rewrite del_length by lia. split. lia. apply idx_del'. lia. }
  eexists. split; [reflexivity|]. split; [reflexivity|]. split; [exact G1|].
  intros y Hy. eapply iff_trans; [apply (G2 y)|]. assert (R : forall x, rset sub x <-> rset vs x /\ bit x c = negb pol).
  { intros x. unfold rset. simpl. rewrite filter_In, T, testbit_idx, eqb_true_iff. tauto. }
  split.
  - intros (x & Hx & ->). apply R in Hx. destruct Hx as (Hx & B). rewrite <- B, ins_del; auto.
    destruct Hx as (L & _). lia.
  - intros H. exists (ins c (negb pol) y). rewrite del_ins by lia. split; auto. apply R. split; auto. apply bit_ins_eq. lia.
Qed.

(* ---------- huffman ---------- *)

Definition expand (q : list (nat * nat)) : list nat := flat_map (fun e => repeat (fst e) (snd e)) q.

Definition qwf (q : list (nat * nat)) : Prop := asc (map fst q) /\ Forall (fun e => 0 < snd e) q.

Lemma im_add_spec k c q : 0 < c -> qwf q -> qwf (im_add k c q) /\ Permutation (expand (im_add k c q)) (repeat k c ++ expand q) /\
  (forall x, In x (map fst (im_add k c q)) <-> x = k \/ In x (map fst q)).
Proof.
  intros Hc. unfold qwf. induction q as [|(k', c') r IH]; intros (A & P); simpl.
  - split; [split; repeat constructor; auto|]. split; auto. intuition.
  - destruct (k <? k') eqn:E1; [|destruct (k =? k') eqn:E2]; simpl.
    + apply Nat.ltb_lt in E1. split; [split|].
      * constructor; auto. inversion A as [|? ? A1 A2]; subst. constructor; auto. eapply Forall_impl; [|exact A2]. intros; simpl in *; lia.
      * constructor; auto.
      * split; auto. intuition.
    + apply Nat.eqb_eq in E2. subst k'. inversion P as [|? ? P1 P2]; subst. simpl in P1. split; [split|]; auto.
      * constructor; auto. simpl. lia.
      * split. now rewrite repeat_app, app_assoc. intuition.
    + apply Nat.ltb_ge in E1. apply Nat.eqb_neq in E2. inversion A as [|? ? A1 A2]; subst. inversion P as [|? ? P1 P2]; subst.
      destruct IH as ((I1 & I2) & I3 & I4); auto. split; [split|].
      * constructor; auto. apply Forall_forall. intros x Hx. apply I4 in Hx. destruct Hx as [->|Hx]. lia.
        rewrite Forall_forall in A2. auto.
      * constructor; auto.
      * split. rewrite I3. rewrite !app_assoc. apply Permutation_app_tail, Permutation_app_comm.
        intros x. rewrite I4. intuition.
Qed.

Lemma queuePop_spec q : qwf q ->
  match queuePop q with
  | None => expand q = []
  | Some (item, q') => qwf q' /\ expand q = item :: expand q' /\ forall x, In x (expand q') -> item <= x
  end.
Proof.
  intros (A & P). destruct q as [|(k, c) r]; simpl; auto.
  inversion A as [|? ? A1 A2]; subst. inversion P as [|? ? P1 P2]; subst. simpl in P1.
  assert (Hin : forall x, In x (expand r) -> k < x).
  { intros x Hx. apply in_flat_map in Hx. destruct Hx as ((k', c') & H1 & H2). apply repeat_spec in H2. simpl in H2. subst x.
    rewrite Forall_forall in A2. apply A2. apply (in_map fst) in H1. auto. }
  destruct (1 <? c) eqn:E; [apply Nat.ltb_lt in E|apply Nat.ltb_ge in E].
  - split; [split; simpl; auto; constructor; simpl; auto; lia|]. split.
    + destruct c as [|[|c]]; try lia. simpl. auto.
    + intros x Hx. simpl in Hx. apply in_app_iff in Hx. destruct Hx as [Hx|Hx]. apply repeat_spec in Hx. lia.
      apply Hin in Hx. lia.
  - assert (c = 1) by lia. subst c. split; [split; auto|]. split; auto. intros x Hx. apply Hin in Hx. lia.
Qed.

Lemma huffmanBound'_spec fuel : forall q, qwf q -> length (expand q) < fuel -> expand q <> [] ->
  exists r, huffmanBound' fuel q = Some r /\ forall K, kraft (expand q) <= 2 ^ K <-> r <= K.
Proof.
  induction fuel as [|f IH]; intros q W L Hne; [lia|]. cbn [huffmanBound'].
  pose proof (queuePop_spec q W) as Q1. destruct (queuePop q) as [(item, q')|]; [|congruence].
  destruct Q1 as (W' & E1 & M1). pose proof (queuePop_spec q' W') as Q2.
  destruct (queuePop q') as [(item2, q'')|].
  - destruct Q2 as (W'' & E2 & M2). destruct (im_add_spec (1 + Nat.max item item2) 1 q'' ltac:(lia) W'') as (W3 & P3 & _).
    fold (queuePush (1 + Nat.max item item2) q'') in W3, P3.
    destruct (IH _ W3) as (r & R1 & R2).
    { rewrite (Permutation_length P3). simpl. rewrite E1, E2 in L. simpl in L. lia. }
    { intros X. rewrite X in P3. apply Permutation_nil in P3. discriminate. }
    exists r. split; auto. intros K. rewrite <- R2, (kraft_perm _ _ P3), E1, E2. cbn [repeat app].
    rewrite (Nat.add_comm 1 (Nat.max item item2)). apply kraft_merge; auto. apply M1. rewrite E2. now left.
  - exists item. split; auto. intros K. rewrite E1, Q2. simpl. rewrite Nat.add_0_r. symmetry. apply Nat.pow_le_mono_r_iff. lia.
Qed.

Lemma huffmanBound_spec l : l <> [] -> exists r, huffmanBound l = Some r /\ forall K, kraft l <= 2 ^ K <-> r <= K.
Proof.
  intros Hne. unfold huffmanBound.
  assert (G : forall l q, qwf q -> qwf (fold_left (fun q k => im_add k 1 q) l q) /\
    Permutation (expand (fold_left (fun q k => im_add k 1 q) l q)) (l ++ expand q)).
  { clear. induction l as [|k l IH]; intros q W; simpl; auto.
    destruct (im_add_spec k 1 q ltac:(lia) W) as (W1 & P1 & _). destruct (IH _ W1) as (W2 & P2). split; auto.
    rewrite P2, P1. simpl. symmetry. apply Permutation_middle. }
  destruct (G l []) as (W & P). { split; constructor. } simpl in P. rewrite app_nil_r in P.
  destruct (huffmanBound'_spec (S (length l)) _ W) as (r & R1 & R2).
  - rewrite (Permutation_length P). lia.
  - intros X. rewrite X in P. apply Permutation_nil in P. congruence.
  - exists r. split; auto. intros K. rewrite <- R2. now rewrite (kraft_perm _ _ P).
Qed.

Lemma huffmanBound_nil : huffmanBound [] = None.
Proof. reflexivity. Qed.

(* ---------- lists of results ---------- *)

Lemma map_opt_total {A B} (f : A -> option B) l :
  (exists r, map_opt f l = Some r) <-> forall a, In a l -> exists b, f a = Some b.
Proof.
  induction l as [|a l IH]; simpl.
  - split; [easy|]. eauto.
  - split.
    + intros (r & H) x [<-|Hx]; destruct (f a) as [b|]; try discriminate; eauto.
      apply IH; auto. destruct (map_opt f l); [eauto|discriminate].
    + intros H. destruct (H a (or_introl eq_refl)) as (b & ->). destruct (proj2 IH) as (r & ->); eauto.
Qed.

Lemma par_check_range_spec f : forall fuel low high, Z.to_nat (high - low) <= fuel ->
  (parCheckRange fuel f low high = Some tt <-> forall i, (low <= i < high)%Z -> f i = Some tt).
Proof.
  assert (Leaf : forall low high,
    bind (map_opt f (map (fun k => (low + Z.of_nat k)%Z) (seq 0 (Z.to_nat (high - low))))) (fun _ => Some tt) = Some tt <->
    forall i, (low <= i < high)%Z -> f i = Some tt).
  { intros low high.
    assert (T := map_opt_total f (map (fun k => (low + Z.of_nat k)%Z) (seq 0 (Z.to_nat (high - low))))).
    destruct (map_opt f _) as [r|]; simpl.
    - split; auto. intros _ i Hi. destruct (proj1 T (ex_intro _ r eq_refl) i) as ([] & E); auto.
      apply in_map_iff. exists (Z.to_nat (i - low)). split. lia. apply in_seq. lia.
    - split; [discriminate|]. intros H. destruct (proj2 T) as (r & E); [|discriminate].
      intros a Ha. apply in_map_iff in Ha. destruct Ha as (k & <- & Hk). apply in_seq in Hk. exists tt. apply H. lia. }
  induction fuel as [|fu IH]; intros low high L; cbn [parCheckRange].
  - assert (E : (high - low <? 1000)%Z = true) by (apply Z.ltb_lt; lia). rewrite E. apply Leaf.
  - destruct (high - low <? 1000)%Z eqn:E; [apply Leaf|]. apply Z.ltb_ge in E. cbv zeta.
    set (mid := ((low + high) / 2)%Z).
    assert (Hm : (low < mid < high)%Z).
    { unfold mid. split. apply Z.lt_le_trans with (low + 1)%Z; [lia|]. apply Z.div_le_lower_bound; lia.
      apply Z.div_lt_upper_bound; lia. }
    pose proof (IH low mid ltac:(lia)) as I1. pose proof (IH mid high ltac:(lia)) as I2.
    destruct (parCheckRange fu f low mid) as [[]|]; simpl.
    + rewrite I2. split.
      * intros G i Hi. destruct (Z.lt_ge_cases i mid). apply I1; auto; lia. apply G; lia.
      * intros G i Hi. apply G; lia.
    + split; [discriminate|]. intros G. assert (X : @None unit = Some tt) by (apply I1; intros; apply G; lia). discriminate.
Qed.

Lemma cat_maybes_In {A} (l : list (option A)) a : In a (cat_maybes l) <-> In (Some a) l.
Proof.
  unfold cat_maybes. rewrite in_flat_map. split.
  - intros ([b|] & H & E); simpl in E; [|easy]. destruct E as [<-|[]]. auto.
  - intros H. exists (Some a). split; auto. now left.
Qed.

Lemma comp_pairs_In n i j : In (i, j) (comp_pairs n) <-> i < n /\ j < i.
Proof.
  unfold comp_pairs. rewrite in_flat_map. split.
  - intros (x & Hx & E). apply in_map_iff in E. destruct E as (y & E & Hy). injection E as -> ->. apply in_seq in Hx, Hy. lia.
  - intros (H1 & H2). exists i. split. apply in_seq; lia. apply in_map_iff. exists j. split; auto. apply in_seq. lia.
Qed.

Lemma vsize_unsorted vs : rwf vs -> 1 + vchannels vs < vsize vs -> ~ one_per_weight (rset vs).
Proof.
  intros W H O. destruct (rset_card vs W) as (l & N & I & L).
  assert (X : length l <= S (vchannels vs)); [|lia]. apply one_per_weight_count; auto.
  - intros x Hx. apply I in Hx. apply Hx.
  - intros x y Hx Hy. apply I in Hx, Hy. now apply O.
Qed.

Lemma rset_dec vs x : {rset vs x} + {~ rset vs x}.
Proof.
  unfold rset. destruct (Nat.eq_dec (length x) (vchannels vs)) as [E|]; [|right; tauto].
  destruct (in_dec Nat.eq_dec (idx x) (vects vs)); [left|right]; tauto.
Qed.

Lemma out_of_order_dec_rset c vs : rwf vs -> out_of_order c (rset vs) \/ ~ out_of_order c (rset vs).
Proof.
  intros W. destruct (existsb (fun v => Nat.testbit v (fst c) && negb (Nat.testbit v (snd c))) (vects vs)) eqn:E.
  - left. apply existsb_exists in E. destruct E as (v & Hv & E). apply andb_true_iff in E. destruct E as (E1 & E2).
    exists (vec_of (vchannels vs) v). split. now apply rset_vec. apply negb_true_iff in E2.
    destruct W as (_ & B). rewrite Forall_forall in B. rewrite <- !testbit_idx, idx_vec_of; auto.
  - right. intros (x & Hx & E1 & E2).
    assert (X : existsb (fun v => Nat.testbit v (fst c) && negb (Nat.testbit v (snd c))) (vects vs) = true).
    { apply existsb_exists. exists (idx x). rewrite !testbit_idx, E1, E2. split; auto. apply Hx. } congruence.
Qed.

(* ---------- soundness ---------- *)

Definition wperm_ok (n : nat) (w : option Witness) : Prop :=
  match w with None => True | Some w => is_perm n (wperm w) end.

(* sets made of in-range vectors, and witness lists that are permutations *)
Definition rstep_wf (s : RefStep) : Prop :=
  rwf (vectSet s) /\
  match witnesses s with
  | Huffman _ ws => Forall (wperm_ok (vchannels (vectSet s) - 1)) ws
  | Successors ws => Forall (wperm_ok (vchannels (vectSet s))) ws
  end.

Definition rsound (s : RefStep) : Prop := lower_bound (vchannels (vectSet s)) (rset (vectSet s)) (rbound s).

Lemma getBound_sound steps w vs b :
  (forall i s, steps i = Some s -> rwf (vectSet s) /\ rsound s) -> rwf vs -> wperm_ok (vchannels vs) w ->
  getBound steps w vs = Some b -> lower_bound (vchannels vs) (rset vs) b.
Proof.
  intros IH W P E. destruct w as [w|]; cbn [getBound] in E.
  - simpl in P. destruct (steps (stepId w)) as [s|] eqn:Es; [|discriminate]. cbn [bind] in E. cbv zeta in E.
    destruct (IH _ _ Es) as (Ws & So). unfold rsound in So.
    set (V' := if winvert w then vinvert (vectSet s) else vectSet s) in E.
    assert (HV : rwf V' /\ vchannels V' = vchannels (vectSet s) /\
                 same_set (rset V') (image (complement_if (winvert w)) (rset (vectSet s)))).
    { unfold V'. destruct (winvert w); simpl complement_if.
      - destruct (vinvert_spec (vectSet s) Ws). auto.
      - split; auto. split; auto. apply same_set_sym, image_id_ext. auto. }
    destruct HV as (W' & C' & S'). unfold vsubsumes in E.
    destruct (vchannels (vpermute (wperm w) V') =? vchannels vs) eqn:Ec; [|discriminate]. apply Nat.eqb_eq in Ec.
    simpl in Ec. cbn [bind] in E.
    destruct (is_subset (vects (vpermute (wperm w) V')) (vects vs)) eqn:Su; [|discriminate]. injection E as <-.
    assert (Lp : length (wperm w) = vchannels V') by (rewrite Ec; now apply is_perm_length).
    destruct (vpermute_spec (wperm w) V' W' Lp) as (W2 & S2).
    apply vsubsumes_spec in Su; auto.
    rewrite <- C', Ec in So.
    apply (lower_bound_mono _ (image (sym (winvert w) (wperm w)) (rset (vectSet s)))).
    + intros y Hy. apply Su, S2. apply sym_split in Hy. destruct Hy as (z & (x & Hx & ->) & ->).
      exists (complement_if (winvert w) x). split; auto. apply S'. exists x. auto.
    + apply lower_bound_sym; auto. intros x Hx. apply rset_width in Hx. congruence.
  - destruct (vsize vs <=? 1 + vchannels vs) eqn:L; injection E as <-.
    + apply lower_bound_0.
    + apply lower_bound_1, vsize_unsorted; auto. now apply Nat.leb_gt.
Qed.

Lemma checkSuccessors_sound steps s ws :
  (forall i s, steps i = Some s -> rwf (vectSet s) /\ rsound s) -> rwf (vectSet s) ->
  Forall (wperm_ok (vchannels (vectSet s))) ws ->
  checkSuccessors steps s ws = Some tt -> rsound s.
Proof.
  intros IH W P H. unfold checkSuccessors in H. cbv zeta in H.
  set (vs := vectSet s) in *. set (n := vchannels vs) in *.
  destruct (1 + n <? vsize vs) eqn:H1; [|discriminate]. cbn [check bind] in H.
  set (succ := cat_maybes (map (fun c => applyComp (fst c) (snd c) vs) (comp_pairs n))) in *.
  destruct (length succ =? length ws) eqn:H2; [|discriminate]. cbn [check bind] in H.
  match type of H with bind ?m _ = _ => destruct m as [r|] eqn:M; [|discriminate] end. clear H.
  apply Nat.ltb_lt in H1. apply Nat.eqb_eq in H2.
  assert (T := proj1 (map_opt_total _ _) (ex_intro _ r M)). clear M.
  unfold rsound. fold vs. fold n. intros net F. destruct (le_lt_dec (rbound s) (length net)) as [|Hl]; auto. exfalso.
  apply (lower_bound_successors n (rbound s) (length net) (rset vs) Hl) with (net := net); auto.
  - apply rset_width.
  - intros c _. now apply out_of_order_dec_rset.
  - now apply vsize_unsorted.
  - intros i j Hi Hj NR.
    pose proof (applyComp_spec i j vs W ltac:(lia) Hi ltac:(unfold n in *; lia)) as A.
    destruct (applyComp i j vs) as [t|] eqn:Ea; [|contradiction]. destruct A as (_ & Ct & Wt & St).
    assert (Hin : In t succ).
    { apply cat_maybes_In, in_map_iff. exists (i, j). split; auto. apply comp_pairs_In. auto. }
    destruct (In_nth _ _ t Hin) as (k & Hk & Ek).
    assert (Hc : In (t, nth k ws None) (combine succ ws)).
    { rewrite <- Ek, <- combine_nth by auto. apply nth_In. rewrite combine_length. lia. }
    destruct (T _ Hc) as (u & E). simpl in E.
    destruct (getBound steps (nth k ws None) t) as [b|] eqn:G; [|discriminate]. cbn [bind] in E.
    destruct (rbound s <=? b + 1) eqn:L; [|discriminate]. apply Nat.leb_le in L.
    apply getBound_sound in G; auto.
    + rewrite Ct in G. fold n in G. apply (lower_bound_same _ (rset t)); auto.
      apply (lower_bound_le _ _ b); auto. lia.
    + rewrite Ct. rewrite Forall_forall in P. apply P, nth_In. lia.
Qed.

Lemma checkHuffman_sound steps s pol ws :
  (forall i s, steps i = Some s -> rwf (vectSet s) /\ rsound s) -> rwf (vectSet s) ->
  Forall (wperm_ok (vchannels (vectSet s) - 1)) ws ->
  checkHuffman steps s pol ws = Some tt -> rsound s.
Proof.
  intros IH W P H. unfold checkHuffman in H. cbv zeta in H.
  set (vs := vectSet s) in *. set (n := vchannels vs) in *. set (ext := extremalChannels pol vs) in *.
  destruct (length ext =? length ws) eqn:H1; [|discriminate]. cbn [check bind] in H. apply Nat.eqb_eq in H1.
  match type of H with bind ?m _ = _ => destruct m as [bounds|] eqn:M; [|discriminate] end. cbn [bind] in H.
  destruct (huffmanBound bounds) as [h|] eqn:Hh; [|discriminate]. cbn [bind] in H.
  destruct (rbound s <=? h) eqn:L; [|discriminate]. apply Nat.leb_le in L. clear H.
  assert (Hne : bounds <> []) by (intros ->; rewrite huffmanBound_nil in Hh; discriminate).
  destruct (huffmanBound_spec bounds Hne) as (h' & Hh' & Hk). rewrite Hh in Hh'. injection Hh' as <-.
  assert (Hext : forall c, In c ext -> c < n /\ rset vs (lone n pol c)) by (intros c; apply extremalChannels_In).
  assert (En : exists E : list (nat * (vset * nat)), map fst E = ext /\ map (fun e => snd (snd e)) E = bounds /\
     forall c P b, In (c, (P, b)) E -> (forall y, P y -> length y = n - 1 /\ rset vs (ins c (negb pol) y)) /\ lower_bound (n - 1) P b).
  { clear Hne Hh Hk L. assert (Nx := fun c Hc => proj1 (Hext c Hc)). clear Hext.
    generalize dependent bounds. generalize dependent ws. clearbody ext. induction ext as [|c ext IHe]; intros [|w ws] P L bounds M; simpl in L; try discriminate.
    - injection M as <-. exists []. simpl. repeat split; auto; easy.
    - cbn [combine map_opt] in M.
      match type of M with match ?x with _ => _ end = _ => destruct x as [b|] eqn:Gb; [|discriminate] end.
      match type of M with match ?x with _ => _ end = _ => destruct x as [bs|] eqn:Gs; [|discriminate] end.
      injection M as <-. inversion P as [|? ? P1 P2]; subst.
      destruct (IHe (fun c' Hc' => Nx c' (or_intror Hc')) ws P2 ltac:(lia) bs Gs) as (E & E1 & E2 & E3).
      cbn [fst snd] in Gb. destruct (pruneExtremal_spec pol c vs W (Nx c (or_introl eq_refl))) as (r & Hr & Cr & Wr & Sr).
      fold n in Cr, Sr. rewrite Hr in Gb. cbn [bind] in Gb.
      exists ((c, (rset r, b)) :: E). simpl. rewrite E1, E2. split; auto. split; auto.
      intros c' P' b' [X|X]; [|now apply E3]. injection X as <- <- <-. split.
      + intros y Hy. assert (Ly : length y = n - 1) by (rewrite <- Cr; now apply rset_width). split; auto. now apply Sr.
      + rewrite <- Cr. apply (getBound_sound steps w); auto. now rewrite Cr. }
  destruct En as (E & E1 & E2 & E3). unfold rsound. fold vs. fold n.
  apply (huffman_lower_bound_pol n pol (rset vs) E).
  - apply rset_width.
  - rewrite E1. apply NoDup_filter, seq_NoDup.
  - intros c P' b Hin. assert (Hc : In c ext) by (rewrite <- E1; apply (in_map fst) in Hin; auto).
    destruct (Hext c Hc) as (Hc1 & Hc2). destruct (E3 _ _ _ Hin) as (G1 & G2). auto.
  - intros k Hk'. rewrite E2 in Hk'. apply Hk in Hk'. lia.
Qed.

Theorem ref_steps_sound stepCount stepFn r : checkProof stepCount stepFn = Some r ->
  (forall i, (0 <= i < stepCount)%Z -> rstep_wf (stepFn i)) ->
  forall i, (0 <= i < stepCount)%Z -> rsound (stepFn i).
Proof.
  intros H WF. unfold checkProof in H. cbv zeta in H.
  set (steps := fun n => if (0 <=? n)%Z && (n <? stepCount)%Z then Some (stepFn n) else None) in *.
  destruct (parCheckRange (Z.to_nat stepCount) (checkStep steps) 0 stepCount) as [[]|] eqn:C; [|discriminate]. clear H.
  rewrite par_check_range_spec in C by (rewrite Z.sub_0_r; lia).
  intros i. remember (Z.to_nat i) as m eqn:Em. revert i Em. induction m as [m IH] using lt_wf_ind. intros i Em Hi.
  specialize (C i Hi). unfold checkStep in C.
  assert (Es : steps i = Some (stepFn i)).
  { unfold steps. replace (0 <=? i)%Z with true by (symmetry; apply Z.leb_le; lia).
    replace (i <? stepCount)%Z with true by (symmetry; apply Z.ltb_lt; lia). auto. }
  rewrite Es in C. cbn [bind] in C. cbv zeta in C.
  set (steps' := fun i0 => bind (check (i0 <? i)%Z) (fun _ => steps i0)) in C.
  assert (Hs : forall j s, steps' j = Some s -> rwf (vectSet s) /\ rsound s).
  { intros j s E. unfold steps' in E. destruct (j <? i)%Z eqn:Lj; [|discriminate]. cbn [check bind] in E.
    apply Z.ltb_lt in Lj. unfold steps in E. destruct (0 <=? j)%Z eqn:Pj; [|discriminate]. apply Z.leb_le in Pj.
    destruct (j <? stepCount)%Z eqn:Qj; [|discriminate]. injection E as <-. apply Z.ltb_lt in Qj. split.
    - apply WF. lia.
    - apply (IH (Z.to_nat j)); auto; lia. }
  destruct (WF i Hi) as (W & P). destruct (witnesses (stepFn i)) as [pol ws|ws].
  - now apply (checkHuffman_sound steps' _ pol ws).
  - now apply (checkSuccessors_sound steps' _ ws).
Qed.

Theorem checkProof_sound stepCount stepFn n b : (0 < stepCount)%Z -> checkProof stepCount stepFn = Some (n, b) ->
  (forall i, (0 <= i < stepCount)%Z -> rstep_wf (stepFn i)) ->
  lower_bound n (all_inputs n) b.
Proof.
  intros P H WF. pose proof (ref_steps_sound _ _ _ H WF (stepCount - 1)%Z ltac:(lia)) as So.
  unfold checkProof in H. cbv zeta in H.
  destruct (parCheckRange _ _ _ _); [|discriminate]. injection H as <- <-.
  eapply lower_bound_mono; [|exact So]. intros x Hx. now apply rset_width.
Qed.
