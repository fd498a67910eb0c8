(* The same for index.rs: the index with flat vectors does what the index with lists of entries does. *)
From Coq Require Import List Arith Bool Lia Permutation.
Import ListNotations.
From Verif Require Import Spec Util OutputSetModel OutputSetProofs SubsumeModel PackProofs PropSubsume TreeModel IndexModel IndexTests FlatModel FlatProofs.

Record IRep (n : nat) (x : FIndex) (ix : Index) : Prop := {
  IR_dir : fx_dir x = ix_dir ix;
  IR_fchan : fx_channels x = n;
  IR_chan : ix_channels ix = n;
  IR_trees : Forall2 (Rep (abstraction_len_for_channels n) (packed_len_for_channels n)) (fx_trees x) (ix_trees ix);
  IR_vecs : VRep (abstraction_len_for_channels n) (packed_len_for_channels n) (fx_vecs x) (ix_ents ix) }.

Section Lists.
Context {A B : Type}.
Variable R : A -> B -> Prop.
Variables (le1 : A -> A -> bool) (le2 : B -> B -> bool).
Hypothesis Hle : forall a b a' b', R a b -> R a' b' -> le1 a a' = le2 b b'.
Lemma F2_insert a b l m : R a b -> Forall2 R l m -> Forall2 R (insert_sorted le1 a l) (insert_sorted le2 b m).
Proof.
  intros H. induction 1 as [|x y l m Hx Hl IH]; cbn; [constructor; auto|]. rewrite (Hle _ _ _ _ H Hx).
  destruct (le2 b y); constructor; auto.
Qed.
Lemma F2_isort l m : Forall2 R l m -> Forall2 R (isort le1 l) (isort le2 m).
Proof. induction 1; cbn; auto. apply F2_insert; auto. Qed.
Lemma F2_rev l m : Forall2 R l m -> Forall2 R (rev l) (rev m).
Proof. induction 1; cbn; auto. apply Forall2_app; auto. Qed.
Lemma F2_filter (p : A -> bool) (q : B -> bool) l m : (forall a b, R a b -> p a = q b) -> Forall2 R l m -> Forall2 R (filter p l) (filter q m).
Proof. intros H. induction 1 as [|x y l m Hx Hl IH]; cbn; auto. rewrite (H _ _ Hx). destruct (q y); auto. Qed.
Lemma F2_map {C} (g : A -> C) (h : B -> C) l m : (forall a b, R a b -> g a = h b) -> Forall2 R l m -> map g l = map h m.
Proof. intros H. induction 1; cbn; f_equal; auto. Qed.
Lemma F2_fold {S_ T_} (Q : S_ -> T_ -> Prop) (g : S_ -> A -> option S_) (h : T_ -> B -> option T_) l m :
  (forall u w a b, Q u w -> R a b -> orel Q (g u a) (h w b)) -> Forall2 R l m -> forall u w, Q u w -> orel Q (fold_opt g l u) (fold_opt h m w).
Proof.
  intros H. induction 1 as [|x y l m Hx Hl IH]; intros u w HQ; cbn [fold_opt]; [apply orel_some; auto|].
  pose proof (H u w x y HQ Hx) as K. destruct (h w y) as [w'|]; [|exact Logic.I]. destruct K as (u' & -> & K). apply IH. auto.
Qed.
End Lists.

(* ---------------------------------------------------------------- scan *)

Section Scan.
Variables dim pdim : nat.
Context {S_ T_ : Type}.
Variable Q : S_ -> T_ -> Prop.
Variables (act : S_ -> Entry -> option (S_ * bool)) (act' : T_ -> Entry -> option (T_ * bool)).
Hypothesis Ha : forall u w e, ent_ok dim pdim e -> Q u w -> orel (fun x y => Q (fst x) (fst y) /\ snd x = snd y) (act u e) (act' w e).

Lemma buffer_fold v es : VRep dim pdim v es -> forall suf pre u w, es = pre ++ suf -> Q u w ->
  orel Q (fold_opt (fun us i => e <- entry_at dim pdim v i ;; r <- act us e ;; Some (fst r)) (seq (length pre) (length suf)) u)
         (fold_opt (fun us e => r <- act' us e ;; Some (fst r)) suf w).
Proof.
  intros V. induction suf as [|e suf IH]; intros pre u w E HQ; cbn [length seq fold_opt]; [apply orel_some; auto|].
  assert (En : nth_error es (length pre) = Some e) by (rewrite E, nth_error_app2, Nat.sub_diag by lia; auto).
  rewrite (V_entry _ _ _ _ _ _ V En).
  pose proof (Ha u w e (Forall_nth_error _ _ _ _ (VR_ok _ _ _ _ V) En) HQ) as K. destruct (act' w e) as [(w', go)|]; [|exact Logic.I].
  destruct K as ((u', go') & -> & HQ' & _). cbn [fst] in *.
  specialize (IH (pre ++ [e]) u' w'). rewrite app_length, Nat.add_1_r in IH. apply IH; auto. rewrite <- app_assoc. auto.
Qed.
End Scan.

Lemma R_scan n {S_ T_} (Q : S_ -> T_ -> Prop) filt filt' act act' x ix u w :
  (forall u w g rg, Q u w -> filt u g rg = filt' w g rg) ->
  (forall u w e, Q u w -> orel (fun x y => Q (fst x) (fst y) /\ snd x = snd y) (act u e) (act' w e)) ->
  IRep n x ix -> Q u w -> orel Q (fx_scan filt act x u) (scan filt' act' ix w).
Proof.
  intros Hf Ha [D FC C T V] HQ. unfold fx_scan, scan. rewrite D.
  eapply (orel_bind Q).
  - eapply F2_fold; [|exact T|exact HQ]. intros u0 w0 f t HQ0 HR. eapply R_traverse; eauto.
  - intros u1 w1 _ _ HQ1. unfold fx_dim, fx_pdim. rewrite FC. rewrite (V_len _ _ _ _ V).
    apply (buffer_fold _ _ Q act act' (fun u w e _ => Ha u w e) _ _ V (ix_ents ix) [] u1 w1); auto.
Qed.

Lemma act_eq {S_} (act : S_ -> Entry -> option (S_ * bool)) u w e : u = w ->
  orel (fun x y : S_ * bool => fst x = fst y /\ snd x = snd y) (act u e) (act w e).
Proof. intros ->. destruct (act w e); cbn; eauto. Qed.

Section Index.
Variables (n : nat) (x : FIndex) (ix : Index).
Hypothesis H : IRep n x ix.

Lemma head_eq : ix_dir (fx_head x) = ix_dir ix /\ ix_channels (fx_head x) = ix_channels ix.
Proof. destruct H as [D FC C T V]. cbn. split; congruence. Qed.

Lemma R_lookup s ab : orel eq (fx_lookup x s ab) (lookup ix s ab).
Proof.
  destruct head_eq as [Ed Ec]. unfold fx_lookup, lookup. apply (R_scan n eq); auto.
  - intros u w g rg ->. unfold lookup_filter. rewrite Ed. auto.
  - intros u w e ->. unfold lookup_action. rewrite Ed, Ec. apply (act_eq (lookup_action ix s ab)). auto.
Qed.

Lemma R_lookup_subsuming s ab : orel eq (fx_lookup_subsuming x s ab) (lookup_subsuming ix s ab).
Proof.
  destruct head_eq as [Ed Ec]. unfold fx_lookup_subsuming, lookup_subsuming. apply (R_scan n eq); auto.
  - intros u w g rg ->. unfold subsuming_filter. rewrite Ed. auto.
  - intros u w e ->. unfold subsuming_action. rewrite Ed, Ec. apply (act_eq (subsuming_action ix s ab)). auto.
Qed.

Lemma R_for_each : orel eq (fx_for_each x) (for_each ix).
Proof.
  unfold fx_for_each, for_each. apply (R_scan n eq); auto.
  intros u w e ->. replace (fx_channels x) with (ix_channels ix) by (destruct H; congruence).
  apply (act_eq (fun acc e => cand <- from_packed (ix_channels ix) (e_packed e) ;; Some (acc ++ [(cand, e_point e, e_value e)], true))). auto.
Qed.

Lemma R_is_empty : fx_is_empty x = index_is_empty ix.
Proof.
  destruct H as [D FC C T V]. unfold fx_is_empty, index_is_empty. rewrite (VR_values _ _ _ _ V).
  destruct (ix_ents ix); cbn; auto. destruct T; auto.
Qed.

Lemma R_len : fx_len x = index_len ix.
Proof.
  destruct H as [D FC C T V]. unfold fx_len, index_len. rewrite (V_len _ _ _ _ V).
  rewrite (F2_map _ flat_len tree_len _ _ (fun f t R => N_len f t (R_nodes _ _ _ _ R)) T). auto.
Qed.
End Index.

(* ---------------------------------------------------------------- insertion *)

Definition arel n (a : list Flat * Vecs) (b : list Tree * list Entry) : Prop :=
  Forall2 (Rep (abstraction_len_for_channels n) (packed_len_for_channels n)) (fst a) (fst b) /\
  VRep (abstraction_len_for_channels n) (packed_len_for_channels n) (snd a) (snd b).

Lemma R_absorb n d fs ts : Forall2 (Rep (abstraction_len_for_channels n) (packed_len_for_channels n)) fs ts ->
  forall v es, VRep (abstraction_len_for_channels n) (packed_len_for_channels n) v es -> orel (arel n) (fx_absorb d fs v) (absorb d ts es).
Proof.
  induction 1 as [|f t fs ts Hf Hfs IH]; intros v es V; cbn [fx_absorb absorb]; [apply orel_some; split; cbn; auto|].
  rewrite (V_len _ _ _ _ V), (N_len f t (R_nodes _ _ _ _ Hf)). destruct (length es <? tree_len t); [apply orel_some; split; cbn; auto|].
  eapply orel_bind.
  - apply (R_traverse (abstraction_len_for_channels n) (packed_len_for_channels n) (VRep (abstraction_len_for_channels n) (packed_len_for_channels n))); eauto.
    intros u w e Ok HQ. apply orel_some. split; auto. apply V_push; auto.
  - intros v' es' _ _ V'. apply IH. auto.
Qed.

Definition new_ok n (s : OutputSet) (ab : list nat) : Prop :=
  channels s = n /\ wf s /\ length ab = abstraction_len_for_channels n /\ Forall (fun c => c < LIM) ab.

Lemma R_insert_new n x ix s ab value : IRep n x ix -> new_ok n s ab ->
  orel (IRep n) (fx_insert_new_unchecked x s ab value) (insert_new_unchecked ix s ab value).
Proof.
  intros H (Cs & W & La & Fa). pose proof H as [D FC C T V]. unfold fx_insert_new_unchecked, insert_new_unchecked.
  destruct (packed_roundtrip s W) as (pk & Ep & Lp & _). rewrite Ep. unfold fx_pdim, fx_dim. rewrite FC, Lp, Cs, Nat.eqb_refl. cbn [negb]. cbv zeta.
  assert (V1 : VRep (abstraction_len_for_channels n) (packed_len_for_channels n) (push_entry (fx_vecs x) (mkEntry ab pk value)) (ix_ents ix ++ [mkEntry ab pk value])).
  { apply V_push; auto. split; [|split]; cbn; auto. rewrite Lp, Cs. auto. }
  rewrite (V_len _ _ _ _ V1). destruct (_ <? TREE_THRESHOLD).
  - apply orel_some. constructor; cbn; auto.
  - rewrite D. eapply orel_bind.
    + apply R_absorb; [|exact V1]. apply F2_rev. eapply F2_isort; [|exact T].
      intros a b a' b' Ra Rb. rewrite (N_len a b (R_nodes _ _ _ _ Ra)), (N_len a' b' (R_nodes _ _ _ _ Rb)). auto.
    + intros (fs, v') (ts, es') _ _ [T' V']. cbn [fst snd] in *.
      eapply orel_bind; [unfold ix_dim; rewrite C; apply R_new; exact V'|]. intros f t _ _ HR.
      apply orel_some. constructor; cbn; auto.
      * apply Forall2_app; auto. apply F2_rev. auto.
      * apply V_nil.
Qed.

Definition urel n (a : bool * list Flat) (b : bool * list Tree) : Prop :=
  fst a = fst b /\ Forall2 (Rep (abstraction_len_for_channels n) (packed_len_for_channels n)) (snd a) (snd b).

Lemma R_update_trees n h ix s ab value fs ts : ix_dir h = ix_dir ix -> ix_channels h = ix_channels ix ->
  Forall2 (Rep (abstraction_len_for_channels n) (packed_len_for_channels n)) fs ts -> forall flag,
  orel (urel n) (fx_update_trees h s ab value flag fs) (update_trees ix s ab value flag ts).
Proof.
  intros Ed Ec. induction 1 as [|f t fs ts Hf Hfs IH]; intros flag; cbn [fx_update_trees update_trees]; [apply orel_some; split; cbn; auto|].
  assert (EA : insert_action h s ab value = insert_action ix s ab value) by (unfold insert_action; rewrite Ed, Ec; auto).
  assert (EF : insert_filter h ab value = insert_filter ix ab value) by (unfold insert_filter; rewrite Ed; auto).
  rewrite EA, EF, Ed. eapply orel_bind; [apply R_traverse_mut; exact Hf|]. intros (b, f') (b', t') _ _ [E1 R1]. cbn [fst snd] in *. subst b'.
  eapply orel_bind; [apply IH|]. intros (c, fs') (c', ts') _ _ [E2 R2]. cbn [fst snd] in *. subst c'.
  apply orel_some. split; auto. cbn. auto.
Qed.

Section Remove.
Variables dim pdim : nat.

Lemma firstn_upd_last {A} (l : list A) x : firstn (length l - 1) (upd l (length l - 1) x) = firstn (length l - 1) l.
Proof.
  induction l as [|a l IH]; auto. cbn [length]. rewrite Nat.sub_succ, Nat.sub_0_r.
  destruct l as [|b l]; auto. cbn [length upd firstn] in *. rewrite Nat.sub_succ, Nat.sub_0_r in IH. rewrite IH. auto.
Qed.
Lemma firstn_upd {A} (l : list A) : forall k i x, firstn k (upd l i x) = upd (firstn k l) i x.
Proof. induction l as [|a l IH]; intros [|k] [|i] x; cbn; auto. rewrite IH. auto. Qed.
Lemma last_split {A} (l : list A) x : nth_error l (length l - 1) = Some x -> l = firstn (length l - 1) l ++ [x].
Proof.
  intros E. rewrite <- (firstn_skipn (length l - 1) l) at 1. f_equal.
  assert (length l <> 0) by (destruct l; discriminate).
  assert (K : forall (m : list A) k y, nth_error m k = Some y -> skipn k m = y :: skipn (S k) m).
  { induction m as [|a m IH]; intros [|k] y Ey; cbn in *; try discriminate; try congruence. auto. }
  rewrite (K _ _ _ E). f_equal. apply skipn_all2. lia.
Qed.

Lemma move_last_ok {A} (l : list (list A)) k index last : Forall (fun y => length y = k) l -> nth_error l (length l - 1) = Some last ->
  index < length l - 1 -> exists r, move_last (concat l) k (length l - 1) index = Some r /\
    firstn ((length l - 1) * k) r = concat (firstn (length l - 1) (upd l index last)).
Proof.
  intros F E L. unfold move_last. rewrite (full_length k l F).
  destruct (Nat.leb_spec ((length l - 1) * k) (length l * k)); [|nia].
  rewrite (full_firstn k l F). pose proof (last_split _ _ E) as S. set (c := length l - 1) in *.
  assert (F' : Forall (fun y => length y = k) (firstn c l)) by (apply full_firstn_part; auto).
  assert (Lc : length (firstn c l) = c) by (rewrite firstn_length; lia).
  destruct (nth_error (firstn c l) index) as [y|] eqn:Ey; [|apply nth_error_None in Ey; lia].
  rewrite (slot_concat k _ _ _ F' Ey). cbv zeta.
  assert (Ls : skipn (c * k) (concat l) = last).
  { rewrite (full_skipn k l F). rewrite S, skipn_app, skipn_all2, Lc, Nat.sub_diag by lia. cbn. apply app_nil_r. }
  rewrite Ls. assert (Ll : length last = k) by (apply (Forall_nth_error _ _ _ _ F E)). rewrite Ll, Nat.eqb_refl.
  eexists. split; [reflexivity|]. rewrite put_concat by (auto; lia). rewrite firstn_upd.
  rewrite firstn_app. assert (Lp : length (concat (upd (firstn c l) index last)) = c * k).
  { rewrite (full_length k); [rewrite upd_len, Lc; auto|]. apply Forall_upd; auto. }
  rewrite firstn_all2, Lp, Nat.sub_diag by lia. cbn. apply app_nil_r.
Qed.

Lemma R_swap_remove v es index : VRep dim pdim v es -> index < length es -> orel (VRep dim pdim) (flat_swap_remove dim pdim v index) (swap_remove es index).
Proof.
  intros V L. pose proof V as [P K X O]. unfold flat_swap_remove, swap_remove, vec_swap_remove. rewrite (V_len _ _ _ _ V), X.
  destruct (nth_error es (length es - 1)) as [e|] eqn:E; [|exact Logic.I]. rewrite (map_nth_error e_value _ _ E).
  destruct (Nat.ltb_spec index (length es)); [|lia]. cbv zeta. rewrite firstn_length, upd_len, map_length.
  replace (Nat.min (length es - 1) (length es)) with (length es - 1) by lia.
  assert (Ok : Forall (ent_ok dim pdim) (firstn (length es - 1) (upd es index e))).
  { rewrite firstn_upd. assert (Forall (ent_ok dim pdim) (firstn (length es - 1) es)).
    { rewrite <- (firstn_skipn (length es - 1) es) in O. apply Forall_app in O. apply O. }
    apply Forall_upd; auto. apply (Forall_nth_error _ _ _ _ O E). }
  destruct (Nat.eqb_spec index (length es - 1)) as [->|Ne].
  - apply orel_some. constructor; cbn [v_points v_packed v_values fst snd]; auto.
    + rewrite P, firstn_upd_last, (full_firstn dim) by (eapply points_full; eauto). rewrite firstn_map. auto.
    + rewrite K, firstn_upd_last, (full_firstn pdim) by (eapply packed_full; eauto). rewrite firstn_map. auto.
    + rewrite <- map_upd_. rewrite firstn_map. auto.
  - pose proof (move_last_ok (map e_point es) dim index (e_point e) (points_full _ _ _ O)) as M1.
    pose proof (move_last_ok (map e_packed es) pdim index (e_packed e) (packed_full _ _ _ O)) as M2.
    rewrite map_length in M1, M2. destruct M1 as (r1 & E1 & F1); [apply map_nth_error; auto|lia|].
    destruct M2 as (r2 & E2 & F2); [apply map_nth_error; auto|lia|]. rewrite P, K, E1, E2.
    apply orel_some. constructor; cbn [v_points v_packed v_values fst snd]; auto.
    + rewrite F1, <- map_upd_, firstn_map. auto.
    + rewrite F2, <- map_upd_, firstn_map. auto.
    + rewrite <- map_upd_. rewrite firstn_map. auto.
Qed.

Definition brel (a : bool * Vecs) (b : bool * list Entry) : Prop := fst a = fst b /\ VRep dim pdim (snd a) (snd b).

Lemma R_update_buffer act : forall fuel flag v es index, VRep dim pdim v es ->
  orel brel (fx_update_buffer dim pdim act fuel flag v index) (update_buffer act fuel flag es index).
Proof.
  induction fuel as [|fuel IH]; intros flag v es index V; cbn [fx_update_buffer update_buffer]; [exact Logic.I|].
  rewrite (V_len _ _ _ _ V). destruct (Nat.ltb_spec index (length es)) as [L|L]; [|apply orel_some; split; auto].
  destruct (nth_error es index) as [e|] eqn:E; [|exact Logic.I]. rewrite (V_entry _ _ _ _ _ _ V E).
  destruct (act flag e) as [(fl, res)|]; [|exact Logic.I]. cbn [fst snd].
  destruct res as [y|y|y]; try (apply IH; apply V_store; auto).
  eapply orel_bind; [apply R_swap_remove; [apply V_store; eauto|rewrite upd_len; auto]|]. intros v' es' _ _ V'. apply IH. auto.
Qed.
End Remove.

Definition irel n (a : FIndex * nat) (b : Index * nat) : Prop := IRep n (fst a) (fst b) /\ snd a = snd b.

Lemma R_insert n x ix s ab value : IRep n x ix -> new_ok n s ab ->
  orel (irel n) (fx_insert x s ab value) (insert ix s ab value).
Proof.
  intros H Ok. pose proof H as [D FC C T V]. pose proof (head_eq n x ix H) as [Ed Ec]. unfold fx_insert, insert.
  eapply orel_bind; [apply (R_lookup n); exact H|]. intros best ? _ _ <-. rewrite D.
  destruct (negb _); [destruct best; [apply orel_some; split; auto|exact Logic.I]|].
  eapply orel_bind; [apply (R_update_trees n (fx_head x) ix); eauto|]. intros (fl, fs) (fl', ts) _ _ [E1 T1]. cbn [fst snd] in *. subst fl'.
  cbv zeta. unfold fx_dim, fx_pdim. rewrite FC, (V_len _ _ _ _ V).
  assert (EA : insert_action (fx_head x) s ab value = insert_action ix s ab value) by (unfold insert_action; rewrite Ed, Ec; auto).
  rewrite EA. eapply orel_bind; [apply R_update_buffer; exact V|]. intros (b, v') (b', es') _ _ [E2 V2]. cbn [fst snd] in *. subst b'.
  assert (H' : IRep n (mkFIndex (ix_dir ix) n (filter (fun t => negb (flat_is_empty t)) fs) v')
                      (mkIndex (ix_dir ix) (ix_channels ix) (filter (fun t => negb (tree_is_empty t)) ts) es')).
  { constructor; cbn; auto. eapply F2_filter; [|exact T1]. intros f t HR. rewrite (N_is_empty f t (R_nodes _ _ _ _ HR)). auto. }
  destruct b; [apply orel_some; split; auto|].
  eapply orel_bind; [apply R_insert_new; [exact H'|exact Ok]|]. intros x'' ix'' _ _ H''. apply orel_some. split; auto.
Qed.

Lemma R_index_new d n : IRep n (fx_new d n) (index_new d n).
Proof. constructor; cbn; auto. apply V_nil. Qed.

Lemma new_ok_abstraction n s : 1 < n -> n <= MAX_CHANNELS -> wf s -> channels s = n -> new_ok n s (abstraction s).
Proof.
  intros N1 N2 W C. split; [|split; [|split]]; auto.
  - rewrite abstraction_length, C by lia. unfold abstraction_len_for_channels. unfold PAIR_ABSTRACTION_GROUPS. lia.
  - apply Forall_forall. intros c Hc. destruct (In_nth _ _ 0 Hc) as (i & _ & <-).
    pose proof (abstraction_le s i W ltac:(lia)) as Le. rewrite C in Le. pose proof LIM_eq as LE.
    assert (P1 : 2 ^ n < 2 ^ 15) by (apply Nat.pow_lt_mono_r; unfold MAX_CHANNELS in N2; lia).
    change 16 with (S 15) in LE. rewrite Nat.pow_succ_r' in LE. assert (2 ^ 15 <> 0) by (apply Nat.pow_nonzero; lia). lia.
Qed.
