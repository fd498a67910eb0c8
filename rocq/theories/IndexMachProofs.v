(* The index with shared bitmaps and checked accesses does what the index of FlatModel.v does. *)
From Coq Require Import List Arith Bool Lia.
Import ListNotations.
From Verif Require Import Spec Util OutputSetModel OutputSetProofs PackProofs SubsumeModel TreeModel IndexModel IndexTests FlatModel
  FlatProofs MachineModel MachineProofs SubsumeMachModel PropSubsumeMach IndexMachModel.

Lemma slot_length {A} (l : list A) dim i x : slot l dim i = Some x -> length x = dim.
Proof.
  unfold slot. destruct (Nat.leb_spec (i * dim + dim) (length l)); [|discriminate]. intros E. injection E as <-.
  rewrite firstn_length, skipn_length. lia.
Qed.
Lemma entry_at_lengths dim pdim v i e : entry_at dim pdim v i = Some e -> length (e_point e) = dim /\ length (e_packed e) = pdim.
Proof.
  unfold entry_at. destruct (slot (v_points v) dim i) eqn:E1; [|discriminate]. destruct (slot (v_packed v) pdim i) eqn:E2; [|discriminate].
  destruct (nth_error _ _); [|discriminate]. intros E. injection E as <-. cbn. split; eapply slot_length; eauto.
Qed.

(* ---------------------------------------------------------------- trees keep their dimensions *)
Definition dims (f f' : Flat) : Prop := f_dim f' = f_dim f /\ f_pdim f' = f_pdim f.
Lemma dims_refl f : dims f f. Proof. split; auto. Qed.
Lemma dims_trans f g h : dims f g -> dims g h -> dims f h. Proof. intros (a & b) (c & d). split; congruence. Qed.
Lemma update_f_dims : forall fuel f id f', flat_update_f fuel f id = Some f' -> dims f f'.
Proof.
  induction fuel as [|fuel IH]; intros f id f' E; [discriminate|]. cbn [flat_update_f] in E.
  destruct (nth_error (f_nodes f) id) as [nd|]; [|discriminate].
  match type of E with match ?a with _ => _ end = _ => destruct a as [ag|]; [|discriminate] end. cbv beta iota zeta in E.
  destruct (_ && _).
  - apply IH in E. eapply dims_trans; [|exact E]. split; auto.
  - injection E as <-. split; auto.
Qed.
Lemma update_dims f id f' : flat_update f id = Some f' -> dims f f'.
Proof. apply update_f_dims. Qed.
Lemma move_dims f d s f' : flat_move_ranges f d s = Some f' -> dims f f'.
Proof.
  unfold flat_move_ranges. destruct (d =? s). intros E; injection E as <-; apply dims_refl.
  destruct (slot _ _ _); [|discriminate]. destruct (slot _ _ _); [|discriminate]. intros E; injection E as <-. split; auto.
Qed.
Lemma unlink_dims f dir id r : flat_unlink f dir id = Some r -> dims f (fst r).
Proof.
  unfold flat_unlink. destruct (id =? 0). intros E; injection E as <-; split; auto.
  destruct (nth_error (f_nodes f) id) as [nd|]; [|discriminate]. cbv beta iota zeta.
  destruct (nth_error (f_nodes f) (n_parent nd)) as [pn|]; [|discriminate]. destruct (n_links pn) as [|c0 c1]; [discriminate|].
  destruct (_ =? id); [discriminate|]. destruct (nth_error (f_nodes f) _) as [mv|]; [|discriminate]. 
  match goal with |- match ?a with _ => _ end = _ -> _ => destruct a as [t1|]; [|discriminate] end.
  destruct (nth_error _ _) as [pn1|]; [|discriminate].
  destruct (flat_move_ranges _ _ _) as [f3|] eqn:M; [|discriminate]. apply move_dims in M.
  match goal with |- match ?a with _ => _ end = _ -> _ => destruct a as [f4|] eqn:U; [|discriminate] end.
  assert (D : dims f f4).
  { assert (D3 : dims f f3) by (destruct M as (a & b); split; cbn in *; auto).
    destruct (n_parent nd =? 0). injection U as <-. auto. apply update_dims in U. eapply dims_trans; eauto. }
  destruct (negb _). intros E; injection E as <-; auto. destruct (traversal_skip _ _ _); [|discriminate]. intros E; injection E as <-; auto.
Qed.
Lemma remove_dims f dir id index r : flat_remove f dir id index = Some r -> dims f (fst r).
Proof.
  unfold flat_remove. destruct (nth_error (f_nodes f) id) as [nd|]; [|discriminate]. destruct (n_links nd) as [start stop|]; [|discriminate].
  destruct (stop =? 0); [discriminate|]. cbv zeta. destruct (start =? _).
  - intros E. apply unlink_dims in E. destruct E as (a & b). split; cbn in *; auto.
  - destruct (flat_swap _ _ _ _ _) as [v|]; [|discriminate]. destruct (flat_update _ _) as [f2|] eqn:U; [|discriminate].
    apply update_dims in U. assert (D : dims f f2) by (destruct U as (a & b); split; cbn in *; auto).
    destruct (index =? _). destruct (traversal_skip _ _ _); [|discriminate]. intros E; injection E as <-; auto. intros E; injection E as <-; auto.
Qed.

(* ---------------------------------------------------------------- traversals *)
Section Traverse.
Variables dim pdim : nat.
Context {S_ T_ : Type}.
Variable Q : S_ -> T_ -> Prop.
Variables (filt : S_ -> Aug -> list (nat * nat) -> option bool) (filt' : T_ -> Aug -> list (nat * nat) -> bool).
Hypothesis Hf : forall u w g rg, length rg = dim -> Q u w -> filt u g rg = Some (filt' w g rg).

Section Read.
Variables (act : S_ -> Entry -> option (S_ * bool)) (act' : T_ -> Entry -> option (T_ * bool)).
Hypothesis Ha : forall u w e, length (e_point e) = dim -> length (e_packed e) = pdim -> Q u w ->
  orel (fun x y => Q (fst x) (fst y) /\ snd x = snd y) (act u e) (act' w e).

Lemma mx_traverse_f_ok f dir : f_dim f = dim -> f_pdim f = pdim -> forall fuel u w st, Q u w ->
  orel Q (mx_traverse_f filt act fuel f dir u st) (flat_traverse_f filt' act' fuel f dir w st).
Proof.
  intros D P. induction fuel as [|fuel IH]; intros u w st HQ; destruct st as [|id|id index]; cbn [mx_traverse_f flat_traverse_f];
    try (apply orel_some; auto; fail); try exact Logic.I.
  - destruct (nth_error (f_nodes f) id) as [nd|]; [|exact Logic.I]. destruct (slot _ _ id) as [rg|] eqn:E; [|exact Logic.I].
    rewrite D in E. apply slot_length in E. rewrite (Hf u w _ rg E HQ). destruct (if filt' _ _ _ then _ else _); [|exact Logic.I]. apply IH; auto.
  - destruct (entry_at _ _ _ index) as [e|] eqn:E; [|exact Logic.I]. rewrite D, P in E. destruct (entry_at_lengths _ _ _ _ _ E) as (L1 & L2).
    pose proof (Ha u w e L1 L2 HQ) as K. destruct (act' w e) as [(w', go)|]; [|exact Logic.I]. destruct K as ((u', go') & -> & HQ' & Eg).
    cbn in HQ', Eg. subst go'. cbv beta iota. destruct go; [|apply orel_some; auto].
    destruct (traversal_next _ _ _ _); [|exact Logic.I]. apply IH; auto.
Qed.
Lemma mx_traverse_ok f dir u w : f_dim f = dim -> f_pdim f = pdim -> Q u w ->
  orel Q (mx_traverse f u dir filt act) (flat_traverse f w dir filt' act').
Proof. intros. apply mx_traverse_f_ok; auto. Qed.

Lemma mx_trees_ok dir ts : Forall (fun f => f_dim f = dim /\ f_pdim f = pdim) ts -> forall u w, Q u w ->
  orel Q (fold_opt (fun us t => mx_traverse t us dir filt act) ts u) (fold_opt (fun us t => flat_traverse t us dir filt' act') ts w).
Proof.
  intros F. induction F as [|t ts (D & P) F IH]; intros u w HQ; cbn [fold_opt]; [apply orel_some; auto|].
  pose proof (mx_traverse_ok t dir u w D P HQ) as K. destruct (flat_traverse t w dir filt' act') as [w'|]; [|exact Logic.I].
  destruct K as (u' & -> & HQ'). apply IH; auto.
Qed.
Lemma mx_buffer_ok v l : forall u w, Q u w ->
  orel Q (fold_opt (fun us i => e <- entry_at dim pdim v i ;; r <- act us e ;; Some (fst r)) l u)
         (fold_opt (fun us i => e <- entry_at dim pdim v i ;; r <- act' us e ;; Some (fst r)) l w).
Proof.
  induction l as [|i l IH]; intros u w HQ; cbn [fold_opt]; [apply orel_some; auto|].
  destruct (entry_at dim pdim v i) as [e|] eqn:E; [|exact Logic.I]. destruct (entry_at_lengths _ _ _ _ _ E) as (L1 & L2).
  pose proof (Ha u w e L1 L2 HQ) as K. destruct (act' w e) as [(w', go)|]; [|exact Logic.I]. destruct K as ((u', go') & -> & HQ' & _).
  apply IH; auto.
Qed.
End Read.

Section Mut.
Variables (act : S_ -> Entry -> option (S_ * TResult)) (act' : T_ -> Entry -> option (T_ * TResult)).
Hypothesis Ha : forall u w e, length (e_point e) = dim -> length (e_packed e) = pdim -> Q u w ->
  orel (fun x y => Q (fst x) (fst y) /\ snd x = snd y) (act u e) (act' w e).
Definition Q2 (x : S_ * Flat) (y : T_ * Flat) : Prop := Q (fst x) (fst y) /\ snd x = snd y.

Lemma mx_traverse_mut_f_ok dir : forall fuel f u w st, f_dim f = dim -> f_pdim f = pdim -> Q u w ->
  orel Q2 (mx_traverse_mut_f filt act fuel f dir u st) (flat_traverse_mut_f filt' act' fuel f dir w st).
Proof.
  induction fuel as [|fuel IH]; intros f u w st D P HQ; destruct st as [|id|id index]; cbn [mx_traverse_mut_f flat_traverse_mut_f];
    try (apply orel_some; split; auto; fail); try exact Logic.I.
  - destruct (nth_error (f_nodes f) id) as [nd|]; [|exact Logic.I]. destruct (slot _ _ id) as [rg|] eqn:E; [|exact Logic.I].
    rewrite D in E. apply slot_length in E. rewrite (Hf u w _ rg E HQ). destruct (if filt' _ _ _ then _ else _); [|exact Logic.I]. apply IH; auto.
  - destruct (entry_at _ _ _ index) as [e|] eqn:E; [|exact Logic.I]. rewrite D, P in E. destruct (entry_at_lengths _ _ _ _ _ E) as (L1 & L2).
    pose proof (Ha u w e L1 L2 HQ) as K. destruct (act' w e) as [(w', go)|]; [|exact Logic.I]. destruct K as ((u', go') & -> & HQ' & Eg).
    cbn in HQ', Eg. subst go'. cbv beta iota zeta. destruct go as [v|v|v].
    + apply orel_some. split; auto.
    + match goal with |- orel _ (match ?a with _ => _ end) _ => destruct a as [f'|] eqn:U; [|exact Logic.I] end.
      assert (Df : dims f f').
      { destruct (v =? e_value e). injection U as <-. split; auto. apply update_dims in U. destruct U as (a & b). split; cbn in *; auto. }
      destruct Df as (D' & P'). destruct (traversal_next _ _ _ _); [|exact Logic.I]. apply IH; auto; congruence.
    + destruct (flat_remove _ _ _ _) as [(f', st')|] eqn:U; [|exact Logic.I]. apply remove_dims in U. destruct U as (D' & P'). cbn in *.
      apply IH; auto; congruence.
Qed.
Lemma mx_traverse_mut_ok dir f u w : f_dim f = dim -> f_pdim f = pdim -> Q u w ->
  orel Q2 (mx_traverse_mut f u dir filt act) (flat_traverse_mut f w dir filt' act').
Proof. intros. apply mx_traverse_mut_f_ok; auto. Qed.
End Mut.
End Traverse.

(* ---------------------------------------------------------------- the tests *)
Lemma all_masked_from {A} (f : A -> nat -> bool) mask lookup : forall (l : list A) i,
  (forall j, j < i + length l -> Nat.lxor j mask < length lookup) ->
  all_masked_c f l i mask lookup = Some (forallb (fun e : nat * A => f (snd e) (nth (Nat.lxor (fst e) mask) lookup 0)) (combine (seq i (length l)) l)).
Proof.
  induction l as [|c l IH]; intros i H; cbn [all_masked_c length seq combine forallb]; auto.
  unfold rd. rewrite (nth_error_nth' lookup 0) by (apply H; cbn; lia). cbn [fst snd].
  destruct (f c _); cbn [andb]; auto. apply IH. intros j Hj. apply H. cbn. lia.
Qed.
Lemma any_mask_ok {A} (f : A -> nat -> bool) (l : list A) lookup k : length l = 4 * k -> length lookup = 4 * k ->
  any_mask_c f l lookup = Some (any_mask f l lookup).
Proof.
  intros L L'. unfold any_mask_c, any_mask. change (0 * 3) with 0. change (1 * 3) with 3.
  rewrite all_masked_from by (intros j Hj; rewrite Nat.lxor_0_r; lia). fold (all_masked f l 0 lookup).
  destruct (all_masked f l 0 lookup); cbn [orb]; auto.
  rewrite all_masked_from by (intros j Hj; rewrite L'; apply lxor3_lt; lia). fold (all_masked f l 3 lookup). auto.
Qed.

Lemma test_range_ok d rg ab k : length rg = 4 * k -> length ab = 4 * k -> test_range_c d rg ab = Some (test_abstraction_range d rg ab).
Proof. intros. destruct d; cbn; auto. eapply any_mask_ok; eauto. Qed.
Lemma test_range_update_ok d rg ab k : length rg = 4 * k -> length ab = 4 * k ->
  test_range_update_c d rg ab = Some (test_abstraction_range_update d rg ab).
Proof. intros. destruct d; cbn; auto. eapply any_mask_ok; eauto. Qed.
Lemma test_abstraction_ok d c ab k : length c = 4 * k -> length ab = 4 * k -> test_abstraction_c d c ab = Some (test_abstraction d c ab).
Proof. intros. destruct d; cbn; auto. eapply any_mask_ok; eauto. Qed.
Lemma test_precise_ok d c cab s sab : wf c -> wf s -> channels c = channels s -> channels c <= MAX_CHANNELS ->
  test_precise_c d c cab s sab = test_precise d c cab s sab.
Proof.
  intros Wc Ws E M. destruct d; cbn [test_precise_c test_precise].
  - rewrite (proj1 (C46_checked_search_same c s Wc Ws M)). auto.
  - rewrite (proj1 (C46_checked_search_same c s Wc Ws M)).
    rewrite (proj1 (C46_checked_search_same (invert c) s ltac:(unfold wf; cbn; rewrite rev_length; auto) Ws ltac:(cbn; auto))). auto.
  - rewrite (proj1 (C46_checked_search_same s c Ws Wc ltac:(lia))). auto.
Qed.

(* unpacking overwrites the whole bitmap *)
Lemma unpack_all k : forall bm bm' pk, length bm <= k -> length bm' = length bm -> length pk = plen (length bm) ->
  exists r, unpack_into bm pk = Some r /\ unpack_into bm' pk = Some r /\ length r = length bm.
Proof.
  induction k as [|k IH]; intros bm bm' p Hk L Lp.
  - destruct bm; [|simpl in Hk; lia]. destruct bm'; [|discriminate]. exists []. auto.
  - destruct (block8 bm) as [Hs|(b0 & b1 & b2 & b3 & b4 & b5 & b6 & b7 & r & ->)].
    + destruct (Nat.eq_dec (length bm) 0) as [E|E]. destruct bm; [|discriminate]. destruct bm'; [|discriminate]. exists []; auto.
      rewrite plen_small in Lp by lia. destruct p as [|a p]; [discriminate|].
      rewrite !unpack_small by lia. rewrite L. eexists. split; [reflexivity|]. split; auto. now rewrite map_length, seq_length.
    + destruct (block8 bm') as [Hs|(c0 & c1 & c2 & c3 & c4 & c5 & c6 & c7 & r2 & ->)]; [cbn [length] in *; lia|].
      cbn [length] in *. rewrite plen_8 in Lp. destruct p as [|a p]; [discriminate|]. cbn [length] in Lp.
      destruct (IH r r2 p) as (r' & U & U' & Lr); try lia. cbn [unpack_into]. rewrite U, U'. eexists. split; [reflexivity|]. split; auto.
      rewrite app_length, map_length, seq_length, Lr. reflexivity.
Qed.
Lemma unpack_scratch n bm pk : length bm = 2 ^ n -> length pk = packed_len_for_channels n ->
  exists bm', unpack_into bm pk = Some bm' /\ length bm' = 2 ^ n /\ from_packed n pk = Some (mkOutputSet n bm').
Proof.
  intros L Lp. destruct (unpack_all _ bm (bitmap (all_values n)) pk (le_n _)) as (r & U & U' & Lr).
  { rewrite L. apply repeat_length. } { rewrite L. exact Lp. }
  exists r. unfold from_packed. rewrite U, U'. split; auto. split; auto. lia.
Qed.
Lemma scratch_ok n : n <= MAX_CHANNELS -> scratch_new n = Some (repeat false (2 ^ n)).
Proof.
  intros H. unfold scratch_new. rewrite collect_le.
  - rewrite repeat_length, Nat.eqb_refl, (proj2 (Nat.leb_le _ _) H). auto.
  - rewrite repeat_length. unfold BVEC, MAX_BITMAP_SIZE. apply Nat.pow_le_mono_r; lia.
Qed.

(* ---------------------------------------------------------------- the operations *)
Record FOk (n : nat) (x : FIndex) : Prop := {
  FO_channels : fx_channels x = n;
  FO_trees : Forall (fun f => f_dim f = abstraction_len_for_channels n /\ f_pdim f = packed_len_for_channels n) (fx_trees x) }.

Section Ops.
Variables (n : nat) (x : FIndex) (s : OutputSet) (ab : list nat).
Hypothesis Hn : n <= MAX_CHANNELS.
Hypothesis HO : FOk n x.
Hypothesis Ws : wf s.
Hypothesis Cs : channels s = n.
Hypothesis La : length ab = abstraction_len_for_channels n.
Local Notation dim := (abstraction_len_for_channels n).
Local Notation pdim := (packed_len_for_channels n).

Definition Qs {A} (u : A * list bool) (w : A) : Prop := fst u = w /\ length (snd u) = 2 ^ n.

Lemma dim4 : exists k, dim = 4 * k.
Proof. exists (n * (n - 1)). unfold abstraction_len_for_channels, PAIR_ABSTRACTION_GROUPS. lia. Qed.

Lemma lookup_action_ok u w e : length (e_point e) = dim -> length (e_packed e) = pdim -> Qs u w ->
  orel (fun a b => Qs (fst a) (fst b) /\ snd a = snd b) (lookup_action_c x s ab u e) (lookup_action (fx_head x) s ab w e).
Proof.
  intros L1 L2 (E & L). destruct u as (best, bm). cbn in E, L. subst w. destruct dim4 as (k & K).
  unfold lookup_action_c, lookup_action. cbn [fx_head ix_dir ix_channels]. rewrite (FO_channels _ _ HO).
  destruct (does_improve _ _ _); cbn [negb]; [|apply orel_some; repeat split; auto].
  rewrite (test_abstraction_ok _ _ _ k) by lia. destruct (test_abstraction _ _ _); cbn [negb]; [|apply orel_some; repeat split; auto].
  destruct (unpack_scratch n bm _ L L2) as (bm' & -> & L' & ->).
  destruct (os_eqb _ _); cbn [negb]; [apply orel_some; repeat split; auto|].
  rewrite test_precise_ok by (auto; unfold wf; cbn; lia). destruct (test_precise _ _ _ _ _) as [[p|]|]; [| |exact Logic.I]; apply orel_some; repeat split; auto.
Qed.
Lemma lookup_filter_ok (u : option nat * list bool) w g rg : length rg = dim -> Qs u w ->
  lookup_filter_c x ab u g rg = Some (lookup_filter (fx_head x) ab w g rg).
Proof.
  intros L (E & _). destruct dim4 as (k & K). unfold lookup_filter_c, lookup_filter. cbn [fx_head ix_dir]. rewrite E.
  destruct (can_improve _ _ _ _); cbn [andb]; auto. rewrite (test_range_ok _ _ _ k) by lia. auto.
Qed.

Lemma subsuming_action_ok u w e : length (e_point e) = dim -> length (e_packed e) = pdim -> Qs u w ->
  orel (fun a b => Qs (fst a) (fst b) /\ snd a = snd b) (subsuming_action_c x s ab u e) (subsuming_action (fx_head x) s ab w e).
Proof.
  intros L1 L2 (E & L). destruct u as (best, bm). cbn in E, L. subst w. destruct dim4 as (k & K).
  unfold subsuming_action_c, subsuming_action. cbn [fx_head ix_dir ix_channels]. rewrite (FO_channels _ _ HO).
  destruct (does_improve _ _ _); cbn [negb]; [|apply orel_some; repeat split; auto].
  rewrite (test_abstraction_ok _ _ _ k) by lia. destruct (test_abstraction _ _ _); cbn [negb]; [|apply orel_some; repeat split; auto].
  destruct (unpack_scratch n bm _ L L2) as (bm' & -> & L' & ->).
  destruct (os_eqb _ _).
  - unfold id_perm_c. rewrite collect_le by (rewrite seq_length, Cs; exact Hn). apply orel_some. repeat split; auto.
  - rewrite test_precise_ok by (auto; unfold wf; cbn; lia). destruct (test_precise _ _ _ _ _) as [[p|]|]; [| |exact Logic.I]; apply orel_some; repeat split; auto.
Qed.
Lemma subsuming_filter_ok (u : option (nat * (bool * list nat) * OutputSet) * list bool) w g rg : length rg = dim -> Qs u w ->
  subsuming_filter_c x ab u g rg = Some (subsuming_filter (fx_head x) ab w g rg).
Proof.
  intros L (E & _). destruct dim4 as (k & K). unfold subsuming_filter_c, subsuming_filter. cbn [fx_head ix_dir]. rewrite E.
  destruct (can_improve _ _ _ _); cbn [andb]; auto. rewrite (test_range_ok _ _ _ k) by lia. auto.
Qed.

Lemma insert_action_ok value u w e : length (e_point e) = dim -> length (e_packed e) = pdim -> Qs u w ->
  orel (fun a b => Qs (fst a) (fst b) /\ snd a = snd b) (insert_action_c x s ab value u e) (insert_action (fx_head x) s ab value w e).
Proof.
  intros L1 L2 (E & L). destruct u as (best, bm). cbn in E, L. subst w. destruct dim4 as (k & K).
  unfold insert_action_c, insert_action. cbn [fx_head ix_dir ix_channels]. rewrite (FO_channels _ _ HO).
  destruct (would_be_updated _ _ _); cbn [negb]; [|apply orel_some; repeat split; auto].
  unfold test_abstraction_update. rewrite (test_abstraction_ok _ _ _ k) by lia.
  destruct (test_abstraction _ _ _); cbn [negb]; [|apply orel_some; repeat split; auto].
  destruct (unpack_scratch n bm _ L L2) as (bm' & -> & L' & ->).
  destruct (os_eqb _ _). destruct best; [exact Logic.I|]. apply orel_some; repeat split; auto.
  unfold test_precise_update. rewrite test_precise_ok by (auto; unfold wf; cbn; lia).
  destruct (test_precise _ _ _ _ _) as [[p|]|]; [| |exact Logic.I]; apply orel_some; repeat split; auto.
Qed.
Lemma insert_filter_ok value (u : bool * list bool) w g rg : length rg = dim -> Qs u w ->
  insert_filter_c x ab value u g rg = Some (insert_filter (fx_head x) ab value w g rg).
Proof.
  intros L _. destruct dim4 as (k & K). unfold insert_filter_c, insert_filter. cbn [fx_head ix_dir].
  destruct (can_be_updated _ _ _ _); cbn [andb]; auto. rewrite (test_range_update_ok _ _ _ k) by lia. auto.
Qed.

Lemma mx_scan_ok {A} filt filt' act act' (w : A) u :
  (forall u w g rg, length rg = dim -> Qs u w -> filt u g rg = Some (filt' w g rg)) ->
  (forall u w e, length (e_point e) = dim -> length (e_packed e) = pdim -> Qs u w ->
     orel (fun a b => Qs (fst a) (fst b) /\ snd a = snd b) (act u e) (act' w e)) -> Qs u w ->
  orel Qs (mx_scan filt act x u) (fx_scan filt' act' x w).
Proof.
  intros Hf Ha HQ. unfold mx_scan, fx_scan. eapply (orel_bind Qs).
  - eapply mx_trees_ok; eauto. exact (FO_trees _ _ HO).
  - intros u1 w1 _ _ HQ1. unfold fx_dim, fx_pdim. rewrite (FO_channels _ _ HO). apply mx_buffer_ok; auto.
Qed.

Lemma scratch_of : scratch_new (fx_channels x) = Some (repeat false (2 ^ n)).
Proof. rewrite (FO_channels _ _ HO). apply scratch_ok. auto. Qed.
Lemma start_ok {A} (a : A) : Qs (a, repeat false (2 ^ n)) a.
Proof. split; auto. apply repeat_length. Qed.

Lemma mx_lookup_ok : orel eq (mx_lookup x s ab) (fx_lookup x s ab).
Proof.
  unfold mx_lookup, fx_lookup. rewrite scratch_of.
  pose proof (mx_scan_ok _ _ _ _ None _ lookup_filter_ok lookup_action_ok (start_ok None)) as K.
  destruct (fx_scan _ _ x None) as [r|]; [|exact Logic.I]. destruct K as (u & -> & E & _). apply orel_some. auto.
Qed.
Lemma mx_lookup_subsuming_ok : orel eq (mx_lookup_subsuming x s ab) (fx_lookup_subsuming x s ab).
Proof.
  unfold mx_lookup_subsuming, fx_lookup_subsuming. rewrite scratch_of.
  pose proof (mx_scan_ok _ _ _ _ None _ subsuming_filter_ok subsuming_action_ok (start_ok None)) as K.
  destruct (fx_scan _ _ x None) as [r|]; [|exact Logic.I]. destruct K as (u & -> & E & _). apply orel_some. auto.
Qed.

Lemma mx_update_trees_ok value ts : Forall (fun f => f_dim f = dim /\ f_pdim f = pdim) ts -> forall u w, Qs u w ->
  orel (fun a b => Qs (fst a) (fst b) /\ snd a = snd b) (mx_update_trees x s ab value u ts) (fx_update_trees (fx_head x) s ab value w ts).
Proof.
  intros F. induction F as [|t ts (D & P) F IH]; intros u w HQ; cbn [mx_update_trees fx_update_trees]; [apply orel_some; auto|].
  pose proof (mx_traverse_mut_ok dim pdim Qs _ _ (insert_filter_ok value) _ _ (insert_action_ok value) (lookup_dir (fx_dir x)) t u w D P HQ) as K.
  change (ix_dir (fx_head x)) with (fx_dir x).
  destruct (flat_traverse_mut t w _ _ _) as [(w', f')|]; [|exact Logic.I]. destruct K as ((u', g') & -> & HQ' & Eg). cbn in HQ', Eg. subst g'.
  cbn [fst snd]. specialize (IH u' w' HQ'). destruct (fx_update_trees _ _ _ _ w' ts) as [(w2, fs)|]; [|exact Logic.I].
  destruct IH as ((u2, gs) & -> & HQ2 & Es). cbn in HQ2, Es. subst gs. apply orel_some. cbn. auto.
Qed.
Lemma mx_update_buffer_ok value : forall fuel u w v index, Qs u w ->
  orel (fun a b => Qs (fst a) (fst b) /\ snd a = snd b) (mx_update_buffer dim pdim (insert_action_c x s ab value) fuel u v index)
    (fx_update_buffer dim pdim (insert_action (fx_head x) s ab value) fuel w v index).
Proof.
  induction fuel as [|fuel IH]; intros u w v index HQ; cbn [mx_update_buffer fx_update_buffer]; [exact Logic.I|].
  destruct (index <? length (v_values v)); [|apply orel_some; auto].
  destruct (entry_at dim pdim v index) as [e|] eqn:E; [|exact Logic.I]. destruct (entry_at_lengths _ _ _ _ _ E) as (L1 & L2).
  pose proof (insert_action_ok value u w e L1 L2 HQ) as K. destruct (insert_action _ _ _ _ w e) as [(w', res)|]; [|exact Logic.I].
  destruct K as ((u', res') & -> & HQ' & Er). cbn in HQ', Er. subst res'. cbn [fst snd]. destruct res; auto.
  destruct (flat_swap_remove _ _ _ _); [|exact Logic.I]. auto.
Qed.

Lemma mx_insert_ok value : orel eq (mx_insert x s ab value) (fx_insert x s ab value).
Proof.
  unfold mx_insert, fx_insert. pose proof mx_lookup_ok as K. destruct (fx_lookup x s ab) as [best|]; [|exact Logic.I].
  destruct K as (b' & -> & ->). rewrite scratch_of. destruct (negb _). destruct best; [apply orel_some; auto|exact Logic.I].
  pose proof (mx_update_trees_ok value _ (FO_trees _ _ HO) _ _ (start_ok false)) as K.
  destruct (fx_update_trees _ _ _ _ false _) as [(w1, fs)|]; [|exact Logic.I]. destruct K as ((u1, gs) & -> & HQ1 & Es). cbn in HQ1, Es. subst gs.
  cbn [fst snd]. unfold fx_dim, fx_pdim. rewrite (FO_channels _ _ HO).
  pose proof (mx_update_buffer_ok value (S (length (v_values (fx_vecs x)))) u1 w1 (fx_vecs x) 0 HQ1) as K.
  destruct (fx_update_buffer _ _ _ _ w1 _ 0) as [(w2, v2)|]; [|exact Logic.I]. destruct K as ((u2, v2') & -> & (E2 & _) & Ev). cbn in E2, Ev. subst v2'.
  cbn [fst snd]. rewrite E2. destruct w2; [apply orel_some; auto|]. destruct (fx_insert_new_unchecked _ _ _ _); [apply orel_some; auto|exact Logic.I].
Qed.

Lemma mx_for_each_ok : orel eq (mx_for_each x) (fx_for_each x).
Proof.
  unfold mx_for_each, fx_for_each. rewrite scratch_of.
  match goal with |- orel _ (match mx_scan ?f ?a _ _ with _ => _ end) (fx_scan ?f' ?a' _ _) =>
    pose proof (mx_scan_ok f f' a a' [] ([], repeat false (2 ^ n)) ltac:(auto)) as K end.
  match type of K with ?a -> _ => assert (H1 : a) end.
  { intros (acc, bm) w e L1 L2 (E & L). cbn in E, L. subst w. rewrite (FO_channels _ _ HO). cbn [fst snd].
    destruct (unpack_scratch n bm _ L L2) as (bm' & -> & L' & ->). apply orel_some. repeat split; auto. }
  specialize (K H1 (start_ok [])). destruct (fx_scan _ _ x []) as [r|]; [|exact Logic.I]. destruct K as (u & -> & E & _). apply orel_some. auto.
Qed.
End Ops.
