(* Pruning and certificate generation on the checked parts give the answers of LogModel and ProofGenModel. *)
From Coq Require Import String List Arith Bool Lia Permutation ZArith.
Import ListNotations.
From Verif Require Import Spec Vec Bits Util OutputSetModel OutputSetProofs PruneProofs PackProofs SubsumeModel HuffmanModel TreeModel IndexModel IndexTests IndexSpec StatesModel
  FlatModel FlatProofs FlatIndex SearchModel SearchFacts FileModel LogModel CrashProofs DecodeModel ProofGenModel PropSubsume.
From Verif Require Import MachineModel MachineProofs PropMachine SubsumeMachProofs IndexMachModel IndexMachProofs PropIndexMach StatesMachModel SearchMachModel SearchMachReq BackMachModel.

Lemma orel_trans {A} (a b c : option A) : orel eq a b -> orel eq b c -> orel eq a c.
Proof. unfold orel. destruct c as [x|]; auto. intros H (y & -> & ->). cbn in H. exact H. Qed.
Lemma orel_eq_some {A} (a b : option A) x : orel eq a b -> b = Some x -> a = Some x.
Proof. intros H ->. destruct H as (y & -> & ->). reflexivity. Qed.

(* ---- sets from packed bytes ---- *)
Lemma unpack_length : forall k bm pk r, length bm <= k -> unpack_into bm pk = Some r -> length r = length bm.
Proof.
  induction k as [|k IH]; intros bm pk r L E.
  { destruct bm; [|cbn in L; lia]. cbn in E. now injection E as <-. }
  destruct bm as [|b0 [|b1 [|b2 [|b3 [|b4 [|b5 [|b6 [|b7 bm]]]]]]]]; cbn [unpack_into] in E;
    try (destruct pk as [|p pk]; [discriminate|]; injection E as <-; reflexivity).
  { now injection E as <-. }
  destruct pk as [|p pk]. { destruct (_ =? _); [|discriminate]. now injection E as <-. }
  destruct (unpack_into bm pk) as [t|] eqn:U; [|discriminate]. injection E as <-.
  apply IH in U; [|cbn [length] in L; lia]. cbn [length]. now rewrite U.
Qed.
Lemma from_packed_facts n pk s : from_packed n pk = Some s -> wf s /\ channels s = n.
Proof.
  unfold from_packed. destruct (unpack_into _ pk) as [r|] eqn:U; [|discriminate]. intros E. injection E as <-.
  split; auto. apply (unpack_length _ _ _ _ (le_n _)) in U. unfold wf. cbn [bitmap channels]. rewrite U. cbn [all_values bitmap]. apply repeat_length.
Qed.
Lemma from_packed_same n pk : n <= MAX_CHANNELS -> from_packed_c n pk = from_packed n pk.
Proof.
  intros H. unfold from_packed_c, from_packed, all_values_c. destruct (Nat.leb_spec n MAX_CHANNELS); [|lia]. reflexivity.
Qed.
Lemma abs_same s : wf s -> 0 < channels s -> channels s <= MAX_CHANNELS -> abstraction_c s = Some (abstraction s).
Proof. intros W A B. apply (C45_abstraction_fits s W A B). Qed.

(* ---- the index ---- *)
Section Ix.
Variables (n : nat) (x : FIndex) (ix : Index).
Hypothesis N1 : 1 < n.
Hypothesis N2 : n <= MAX_CHANNELS.
Hypothesis R : IRep n x ix.
Lemma m_lookup s : wf s -> channels s = n -> orel eq (mx_lookup x s (abstraction s)) (lookup ix s (abstraction s)).
Proof.
  intros W C. eapply orel_trans; [|apply (R_lookup n); exact R].
  apply (mx_lookup_ok n); auto. eapply rep_fok; eauto. apply (ab_len n N1 N2); auto.
Qed.
Lemma m_subsuming s : wf s -> channels s = n -> orel eq (mx_lookup_subsuming x s (abstraction s)) (lookup_subsuming ix s (abstraction s)).
Proof.
  intros W C. eapply orel_trans; [|apply (R_lookup_subsuming n); exact R].
  apply (mx_lookup_subsuming_ok n); auto. eapply rep_fok; eauto. apply (ab_len n N1 N2); auto.
Qed.
Lemma m_for_each : orel eq (mx_for_each x) (for_each ix).
Proof. eapply orel_trans; [|apply (R_for_each n); exact R]. apply (mx_for_each_ok n); auto. eapply rep_fok; eauto. Qed.
Lemma m_insert_new s v : wf s -> channels s = n ->
  orel (IRep n) (fx_insert_new_unchecked x s (abstraction s) v) (insert_new_unchecked ix s (abstraction s) v).
Proof. intros W C. apply R_insert_new; auto. apply new_ok_abstraction; auto. Qed.
End Ix.

(* ---- prune.rs ---- *)
Section Prune.
Variables (n stride : nat) (data : list nat).
Hypothesis N1 : 1 < n.
Hypothesis N2 : n <= MAX_CHANNELS.
Lemma filter_ids_same x ix : IRep n x ix -> forall ids, orel eq (filter_ids_m n stride data x ids) (filter_ids n stride data ix ids).
Proof.
  intros R. induction ids as [|id ids IH]; cbn [filter_ids_m filter_ids]. { apply orel_some. reflexivity. }
  unfold get_set. destruct (get_packed stride data id) as [pk|]; [|exact Logic.I]. rewrite (from_packed_same n pk N2).
  destruct (from_packed n pk) as [s|] eqn:Es; [|exact Logic.I]. destruct (from_packed_facts _ _ _ Es) as (W & C).
  rewrite abs_same by (auto; lia). pose proof (m_lookup n x ix N1 N2 R s W C) as K.
  destruct (lookup ix s (abstraction s)) as [found|]; [|exact Logic.I]. destruct K as (f' & -> & ->).
  destruct (filter_ids n stride data ix ids) as [r|]; [|exact Logic.I]. destruct IH as (r' & -> & ->). apply orel_some. reflexivity.
Qed.

Definition PR (a : FIndex * list (list nat)) (b : Index * list (list nat)) : Prop := IRep n (fst a) (fst b) /\ snd a = snd b.

Lemma write_ids_same ids : forall a b, PR a b -> orel PR (fold_opt (write_id_m n stride data) ids a) (fold_opt (write_id n stride data) ids b).
Proof.
  induction ids as [|id ids IH]; intros a b P; cbn [fold_opt]. { now apply orel_some. }
  eapply (orel_bind PR); [|intros; apply IH; auto]. destruct P as (R & E). unfold write_id_m, write_id.
  destruct (get_packed stride data id) as [pk|]; [|exact Logic.I]. rewrite (from_packed_same n pk N2).
  destruct (from_packed n pk) as [s|] eqn:Es; [|exact Logic.I]. destruct (from_packed_facts _ _ _ Es) as (W & C).
  rewrite abs_same by (auto; lia). pose proof (m_insert_new n (fst a) (fst b) N1 N2 R s 0 W C) as K.
  destruct (insert_new_unchecked (fst b) s (abstraction s) 0) as [ix'|]; [|exact Logic.I]. destruct K as (x' & -> & R').
  apply orel_some. split; cbn; auto. now rewrite E.
Qed.
Lemma groups_same gs : forall a b, PR a b -> orel PR (fold_opt (prune_group_m n stride data) gs a) (fold_opt (prune_group n stride data) gs b).
Proof.
  induction gs as [|g gs IH]; intros a b P; cbn [fold_opt]. { now apply orel_some. }
  eapply (orel_bind PR); [|intros; apply IH; auto]. unfold prune_group_m, prune_group.
  pose proof (filter_ids_same (fst a) (fst b) (proj1 P) (snd g)) as K. destruct (filter_ids n stride data (fst b) (snd g)) as [ids|]; [|exact Logic.I].
  destruct K as (i' & -> & ->). now apply write_ids_same.
Qed.
End Prune.

Lemma prune_data_same n data : 1 < n -> n <= MAX_CHANNELS -> orel eq (prune_data_m n data) (prune_data n data).
Proof.
  intros N1 N2. unfold prune_data_m, prune_data. destruct (chunks _ data) as [ps|]; [|exact Logic.I].
  pose proof (groups_same n (packed_len_for_channels n) data N1 N2 (by_state_len ps) (fx_new LowerInvert n, []) (index_new LowerInvert n, [])) as K.
  specialize (K (conj (R_index_new _ _) eq_refl)). destruct (fold_opt (prune_group _ _ _) _ _) as [st|]; [|exact Logic.I].
  destruct K as (st' & -> & _ & ->). apply orel_some. reflexivity.
Qed.
Lemma prune_ops_same n line fs : 1 < n -> n <= MAX_CHANNELS -> orel eq (prune_ops_m n line fs) (prune_ops n line fs).
Proof.
  intros N1 N2. unfold prune_ops_m, prune_ops. destruct (fs line) as [file|]; [|exact Logic.I]. destruct (mmap file) as [data|]; [|exact Logic.I].
  destruct (fs (with_extension line (str "pbin"))). { apply orel_some. reflexivity. }
  pose proof (prune_data_same n data N1 N2) as K. destruct (prune_data n data) as [w|]; [|exact Logic.I]. destruct K as (w' & -> & ->). apply orel_some. reflexivity.
Qed.

Definition lines_fine (ls : list text) : Prop := forall line n, In line ls -> line_channels line = Some n -> 1 < n /\ n <= MAX_CHANNELS.

Lemma prune_lines_same ls : lines_fine ls -> forall fs, orel eq (prune_lines_m ls fs) (prune_lines ls fs).
Proof.
  intros F. induction ls as [|line ls IH]; intros fs; cbn [prune_lines_m prune_lines]. { apply orel_some. reflexivity. }
  destruct (line_channels line) as [n|] eqn:En; [|exact Logic.I]. destruct (F line n (or_introl eq_refl) En) as (N1 & N2).
  pose proof (prune_ops_same n line fs N1 N2) as K. destruct (prune_ops n line fs) as [ops|]; [|exact Logic.I]. destruct K as (o' & -> & ->).
  specialize (IH (fun l m H => F l m (or_intror H)) (fs_run ops fs)).
  destruct (prune_lines ls (fs_run ops fs)) as [rest|]; [|exact Logic.I]. destruct IH as (r' & -> & ->). apply orel_some. reflexivity.
Qed.
Lemma prune_all_ops_same fs index : fs index_name = Some index -> lines_fine (lines index) -> orel eq (prune_all_ops_m fs) (prune_all_ops fs).
Proof. intros E F. unfold prune_all_ops_m, prune_all_ops. rewrite E. now apply prune_lines_same. Qed.
Lemma prune_all_same fs index : fs index_name = Some index -> lines_fine (lines index) -> orel eq (prune_all_m fs) (prune_all fs).
Proof.
  intros E F. unfold prune_all_m, prune_all. pose proof (prune_all_ops_same fs index E F) as K.
  destruct (prune_all_ops fs) as [ops|]; [|exact Logic.I]. destruct K as (o' & -> & ->). apply orel_some. reflexivity.
Qed.

(* ---- proof.rs: loading ---- *)
Definition XR (a : nat * FIndex) (b : nat * Index) : Prop :=
  fst a = fst b /\ 1 < fst b /\ fst b <= MAX_CHANNELS /\ IRep (fst b) (snd a) (snd b).
Definition XS : FIndexes -> Indexes -> Prop := Forall2 XR.

Lemma xs_get n xs ixs : XS xs ixs ->
  match ixs_get n ixs with
  | Some ix => 1 < n /\ n <= MAX_CHANNELS /\ exists x, fxs_get n xs = Some x /\ IRep n x ix
  | None => fxs_get n xs = None
  end.
Proof.
  induction 1 as [|(k, x) (k', ix) xs ixs (E & N1 & N2 & R) F IH]; cbn [ixs_get fxs_get]; auto. cbn [fst snd] in *. subst k'.
  destruct (Nat.eqb_spec k n) as [->|]; auto. split; auto. split; auto. eauto.
Qed.
Lemma xs_put n x ix xs ixs : XS xs ixs -> 1 < n -> n <= MAX_CHANNELS -> IRep n x ix -> XS (fxs_put n x xs) (ixs_put n ix ixs).
Proof.
  intros X N1 N2 R. assert (XN : XR (n, x) (n, ix)) by (split; [reflexivity|split; [auto|split; auto]]).
  induction X as [|(k, y) (k', iy) xs ixs (E & M1 & M2 & R') F IH]; cbn [ixs_put fxs_put]. { constructor; auto. }
  cbn [fst snd] in *. subst k'. assert (XK : XR (k, y) (k, iy)) by (split; [reflexivity|split; [auto|split; auto]]).
  destruct (n <? k). { constructor; auto. }
  destruct (Nat.eqb_spec n k) as [->|]. { constructor; auto. } constructor; auto.
Qed.
Lemma load_sets_same n b ps : 1 < n -> n <= MAX_CHANNELS -> forall x ix, IRep n x ix ->
  orel (IRep n) (fold_opt (load_set_m n b) ps x) (fold_opt (load_set n b) ps ix).
Proof.
  intros N1 N2. induction ps as [|pk ps IH]; intros x ix R; cbn [fold_opt]. { now apply orel_some. }
  eapply (orel_bind (IRep n)); [|intros; apply IH; auto]. unfold load_set_m, load_set. rewrite (from_packed_same n pk N2).
  destruct (from_packed n pk) as [s|] eqn:Es; [|exact Logic.I]. destruct (from_packed_facts _ _ _ Es) as (W & C).
  rewrite abs_same by (auto; lia). now apply m_insert_new.
Qed.
Lemma load_line_same fs xs ixs line : XS xs ixs -> (forall n, line_channels line = Some n -> 1 < n /\ n <= MAX_CHANNELS) ->
  orel XS (load_line_m fs xs line) (load_line fs ixs line).
Proof.
  intros X F. unfold load_line_m, load_line. destruct (line_channels line) as [n|]; [|exact Logic.I]. destruct (F n eq_refl) as (N1 & N2).
  destruct (line_bound line) as [b|]; [|exact Logic.I]. destruct (fs _) as [file|]; [|exact Logic.I]. destruct (mmap file) as [data|]; [|exact Logic.I].
  destruct (chunks _ data) as [ps|]; [|exact Logic.I].
  assert (R : IRep n (match fxs_get n xs with Some x => x | None => fx_new LowerInvert n end) (match ixs_get n ixs with Some ix => ix | None => index_new LowerInvert n end)).
  { pose proof (xs_get n xs ixs X) as G. destruct (ixs_get n ixs) as [ix|]. { destruct G as (_ & _ & x & -> & R). exact R. } rewrite G. apply R_index_new. }
  pose proof (load_sets_same n b ps N1 N2 _ _ R) as K. destruct (fold_opt (load_set n b) ps _) as [ix'|]; [|exact Logic.I].
  destruct K as (x' & -> & R'). apply orel_some. now apply xs_put.
Qed.
Lemma load_lines_same fs ls : lines_fine ls -> forall xs ixs, XS xs ixs -> orel XS (fold_opt (load_line_m fs) ls xs) (fold_opt (load_line fs) ls ixs).
Proof.
  intros F. induction ls as [|line ls IH]; intros xs ixs X; cbn [fold_opt]. { now apply orel_some. }
  eapply (orel_bind XS). { apply load_line_same; auto. intros n. apply F. simpl. auto. }
  intros x y _ _ X'. apply IH; auto. intros l m H. apply F. simpl. auto.
Qed.
Lemma load_indexes_same fs index : fs index_name = Some index -> lines_fine (lines index) -> orel XS (load_indexes_m fs) (load_indexes fs).
Proof. intros E F. unfold load_indexes_m, load_indexes. rewrite E. apply load_lines_same; auto. constructor. Qed.

(* ---- what a scan collects ---- *)
Section Scan.
Context {S_ : Type}.
Variables (P : S_ -> Prop) (filt : S_ -> Aug -> list (nat * nat) -> bool) (act : S_ -> Entry -> option (S_ * bool)).
Hypothesis HA : forall us e us' b, P us -> act us e = Some (us', b) -> P us'.
Lemma traverse_inv t dir : forall fuel us st us', P us -> traverse_f filt act fuel t dir us st = Some us' -> P us'.
Proof.
  induction fuel as [|fuel IH]; intros us st us' H E; destruct st as [|id|id index]; cbn [traverse_f] in E; try congruence.
  - destruct (nth_error (t_nodes t) id) as [nd|]; [|discriminate]. destruct (nth_error (t_ranges t) id) as [rg|]; [|discriminate].
    destruct (if filt _ _ _ then _ else _); [|discriminate]. eapply IH; eauto.
  - destruct (nth_error (t_ents t) index) as [e|]; [|discriminate]. destruct (act us e) as [(u, go)|] eqn:Ea; [|discriminate].
    apply HA in Ea; auto. destruct go; [|congruence]. destruct (traversal_next _ _ _ _); [|discriminate]. eapply IH; eauto.
Qed.
Lemma scan_inv ix us us' : P us -> scan filt act ix us = Some us' -> P us'.
Proof.
  unfold scan. intros H E. destruct (fold_opt _ (ix_trees ix) us) as [u1|] eqn:E1; [|discriminate].
  assert (H1 : P u1).
  { clear E. revert us H E1. induction (ix_trees ix) as [|t ts IH]; intros us H E1; cbn [fold_opt] in E1. congruence.
    destruct (traverse t us _ filt act) as [u2|] eqn:E2; [|discriminate]. apply traverse_inv in E2; auto. eapply IH; eauto. }
  clear H E1. revert u1 H1 E. induction (ix_ents ix) as [|e es IH]; intros u1 H1 E; cbn [fold_opt] in E. congruence.
  destruct (act u1 e) as [(u2, go)|] eqn:Ea; [|discriminate]. apply HA in Ea; auto. eapply IH; eauto.
Qed.
End Scan.

Lemma for_each_facts ix E s a v : for_each ix = Some E -> In (s, a, v) E -> wf s /\ channels s = ix_channels ix.
Proof.
  intros H. revert s a v. unfold for_each in H.
  refine (scan_inv (fun E => forall s a v, In (s, a, v) E -> wf s /\ channels s = ix_channels ix) _ _ _ ix [] E _ H); [|easy].
  intros us e us' b K Ea. cbv beta in Ea. destruct (from_packed _ _) as [c|] eqn:Ec; [|discriminate]. injection Ea as <- _.
  intros s a v I. apply in_app_iff in I. destruct I as [I|[I|[]]]; [eauto|]. injection I as <- _ _. eapply from_packed_facts; eauto.
Qed.

(* the witnesses have permutations of the channels *)
Lemma perm_small n p : is_perm n p -> n <= MAX_CHANNELS -> Forall (fun i => i < 256) p.
Proof.
  intros P M. apply Forall_forall. intros i I. apply (Permutation_in _ P) in I. apply in_seq in I. unfold MAX_CHANNELS in M. lia.
Qed.
Lemma invert_wf s : wf s -> wf (invert s).
Proof. unfold wf, invert. cbn. intros W. now rewrite rev_length. Qed.
Lemma test_precise_perm d c cab s ab inv p : wf c -> wf s -> channels c = channels s -> channels s <= MAX_CHANNELS ->
  test_precise d c cab s ab = Some (Some (inv, p)) -> is_perm (channels s) p.
Proof.
  intros Wc Ws C M E. destruct d; cbn [test_precise] in E.
  - destruct (subsumes_permuted c s) as [[q|]|] eqn:Eq; try discriminate. injection E as _ <-. rewrite <- C.
    apply (C08_subsumes_permuted_sound c s q); auto. rewrite C; auto.
  - destruct (if test_abstraction Lower cab ab then _ else _) as [[q|]|] eqn:Eq; try discriminate.
    + injection E as _ <-. destruct (test_abstraction Lower cab ab); [|discriminate]. rewrite <- C.
      apply (C08_subsumes_permuted_sound c s q); auto. rewrite C; auto.
    + destruct (subsumes_permuted (invert c) s) as [[q|]|] eqn:Eq'; try discriminate. injection E as _ <-. rewrite <- C.
      change (channels c) with (channels (invert c)). apply (C08_subsumes_permuted_sound (invert c) s q); auto using invert_wf. cbn. rewrite C; auto.
  - destruct (subsumes_permuted s c) as [[q|]|] eqn:Eq; try discriminate. injection E as _ <-.
    apply (C08_subsumes_permuted_sound s c q); auto.
Qed.
Lemma subsuming_perm ix s ab b inv p c : wf s -> channels s = ix_channels ix -> channels s <= MAX_CHANNELS ->
  lookup_subsuming ix s ab = Some (Some (b, (inv, p), c)) -> is_perm (channels s) p /\ wf c /\ channels c = channels s.
Proof.
  intros W C M H. unfold lookup_subsuming in H.
  pose proof (scan_inv (fun r : option (nat * (bool * list nat) * OutputSet) => match r with Some (_, (_, p), c) => is_perm (channels s) p /\ wf c /\ channels c = channels s | None => True end)
    (subsuming_filter ix ab) (subsuming_action ix s ab)) as K. eapply K in H; clear K; [exact H| |exact Logic.I].
  intros us e us' go P Ea. unfold subsuming_action in Ea.
  destruct (negb (does_improve _ _ _)). { now injection Ea as <- _. }
  destruct (negb (test_abstraction _ _ _)). { now injection Ea as <- _. }
  destruct (from_packed _ _) as [cand|] eqn:Ec; [|discriminate]. destruct (from_packed_facts _ _ _ Ec) as (Wc & Cc).
  destruct (os_eqb cand s). { injection Ea as <- _. split. apply is_perm_id. split; auto. congruence. }
  destruct (test_precise _ _ _ _ _) as [[(i, q)|]|] eqn:Et; [| |discriminate]; injection Ea as <- _; auto.
  apply test_precise_perm in Et; auto. split; auto. split; auto. congruence. congruence.
Qed.

(* ---- proof.rs: the steps ---- *)
Lemma map_opt_orel {A B} (f g : A -> option B) l : (forall x, In x l -> orel eq (f x) (g x)) -> orel eq (map_opt f l) (map_opt g l).
Proof.
  induction l as [|x l IH]; intros H; cbn [map_opt]. { apply orel_some. reflexivity. }
  pose proof (H x (or_introl eq_refl)) as K. destruct (g x) as [y|]; [|exact Logic.I]. destruct K as (y' & -> & ->).
  specialize (IH (fun z I => H z (or_intror I))). destruct (map_opt g l) as [r|]; [|exact Logic.I]. destruct IH as (r' & -> & ->).
  apply orel_some. reflexivity.
Qed.

Section Steps.
Variables (xs : FIndexes) (g : GenProof).
Hypothesis X : XS xs (pruned_indexes g).
Let sets := output_sets g.

Lemma lookup_witness_same t : wf t -> channels t <= MAX_CHANNELS -> orel eq (lookup_witness_m xs sets t) (lookup_witness g t).
Proof.
  intros W M. unfold lookup_witness_m, lookup_witness. pose proof (xs_get (channels t) _ _ X) as G.
  assert (K : orel eq (match fxs_get (channels t) xs with None => Some None | Some x => ab <- abstraction_c t ;; mx_lookup_subsuming x t ab end)
                      (match ixs_get (channels t) (pruned_indexes g) with None => Some None | Some ix => lookup_subsuming ix t (abstraction t) end)).
  { destruct (ixs_get (channels t) (pruned_indexes g)) as [ix|].
    - destruct G as (N1 & N2 & x & -> & R). rewrite abs_same by (auto; lia). now apply (m_subsuming (channels t)).
    - rewrite G. apply orel_some. reflexivity. }
  destruct (match ixs_get _ _ with Some _ => _ | None => _ end) as [r|]; [|exact Logic.I]. destruct K as (r' & -> & ->).
  destruct r as [((b, (inv, p)), c)|].
  - fold sets. destruct (set_get c sets); [|exact Logic.I]. apply orel_some. reflexivity.
  - destruct (C45_reads_in_range t W M) as (_ & -> & _). apply orel_some. reflexivity.
Qed.
Lemma lookup_witness_small t b inv p c : wf t -> channels t <= MAX_CHANNELS -> lookup_witness g t = Some (b, Some (inv, p, c)) -> Forall (fun i => i < 256) p /\ wf c /\ channels c <= MAX_CHANNELS.
Proof.
  intros W M. unfold lookup_witness. pose proof (xs_get (channels t) _ _ X) as G.
  destruct (ixs_get (channels t) (pruned_indexes g)) as [ix|]; [|intros H; discriminate].
  destruct G as (_ & _ & x & _ & R). destruct (lookup_subsuming ix t (abstraction t)) as [[((b', (i', p')), c')|]|] eqn:E; try discriminate.
  destruct (set_get c' (output_sets g)); [|discriminate]. intros H. injection H as <- <- <- <-.
  apply subsuming_perm in E; auto. 2:{ now rewrite (IR_chan _ _ _ R). }
  destruct E as (P & Wc & Cc). split. eapply perm_small; eauto. split; auto. lia.
Qed.

Lemma trivial_same b t : wf t -> channels t <= MAX_CHANNELS -> trivial_step_m b t = Some (trivial_step b t).
Proof.
  intros W M. unfold trivial_step_m, trivial_step. destruct (b =? 0); auto. destruct (b =? 1); auto.
  destruct (C45_reads_in_range t W M) as (_ & -> & _). cbn [andb]. destruct (is_sorted t); reflexivity.
Qed.
Lemma extremal_m_same t pol : wf t -> channels t <= MAX_CHANNELS -> extremal_m t pol = Some (extremal_channels t pol).
Proof.
  intros W M. unfold extremal_m. rewrite fold_extremal; auto.
  - intros c H. apply in_seq in H. lia.
  - rewrite seq_length. exact M.
Qed.
Lemma pruned_same t pol c : wf t -> channels t <= MAX_CHANNELS -> In c (extremal_channels t pol) ->
  exists u, prune_extremal_channel_into t pol c (channels t - 1) = Some u /\ wf u /\ channels u <= MAX_CHANNELS /\
    huffman_witness_m xs sets t pol c = lookup_witness_m xs sets u.
Proof.
  intros W M H. apply extremal_In in H; auto. destruct H as (Hc & He).
  destruct (prune_extremal_spec t pol c W Hc M He) as (u & E & Cu & Wu & _). exists u. split; auto. split; auto. split. { rewrite Cu. lia. }
  unfold huffman_witness_m, sub_u. destruct (Nat.leb_spec 1 (channels t)) as [_|]; [|lia].
  unfold all_values_c. destruct (Nat.leb_spec (channels t - 1) MAX_CHANNELS) as [_|Y]; [|lia].
  change (mkOutputSet (channels t - 1) (repeat true (2 ^ (channels t - 1)))) with (all_values (channels t - 1)).
  destruct (C45_writes_in_range t W M) as (_ & P). rewrite P by (auto using all_values_wf). cbn [channels all_values]. now rewrite E.
Qed.

Definition small_witness (w : option PWitness) : Prop := match w with Some (_, p, c) => Forall (fun i => i < 256) p /\ wf c /\ channels c <= MAX_CHANNELS | None => True end.
Definition small_step (st : PStep) : Prop :=
  match st with PHuffman _ ws | PSuccessors ws => Forall small_witness ws | _ => True end.

Lemma huffman_witnesses_same t pol : wf t -> channels t <= MAX_CHANNELS ->
  orel eq (map_opt (huffman_witness_m xs sets t pol) (extremal_channels t pol)) (huffman_witnesses g t pol).
Proof.
  intros W M. apply map_opt_orel. intros c H. destruct (pruned_same t pol c W M H) as (u & -> & Wu & Mu & ->). now apply lookup_witness_same.
Qed.
Lemma huffman_witnesses_small t pol ws : wf t -> channels t <= MAX_CHANNELS -> huffman_witnesses g t pol = Some ws -> Forall small_witness (map snd ws).
Proof.
  intros W M E. unfold huffman_witnesses in E. assert (B : forall c, In c (extremal_channels t pol) -> In c (extremal_channels t pol)) by auto.
  revert ws B E. generalize (extremal_channels t pol) at 1 3. intros l. induction l as [|c l IH]; intros ws B E; cbn [map_opt] in E.
  { injection E as <-. constructor. }
  destruct (pruned_same t pol c W M) as (u & Eu & Wu & Mu & _). { apply B. simpl. auto. } rewrite Eu in E.
  destruct (lookup_witness g u) as [(b, w)|] eqn:Ew; [|discriminate]. destruct (map_opt _ l) as [r|]; [|discriminate]. injection E as <-.
  cbn [map snd]. constructor. 2:{ apply IH; auto. intros c' I. apply B. simpl. auto. }
  destruct w as [((i, p), c')|]; cbn; auto. eapply lookup_witness_small; [| |exact Ew]; auto.
Qed.
Lemma huffman_pols_same b t pols : wf t -> channels t <= MAX_CHANNELS ->
  orel eq (huffman_pols_m xs sets b t (map (fun pol => (pol, extremal_channels t pol)) pols)) (huffman_pols g b t pols) /\
  forall st, huffman_pols g b t pols = Some (Some st) -> small_step st.
Proof.
  intros W M. induction pols as [|pol pols IH]; cbn [map huffman_pols_m huffman_pols]. { split. apply orel_some. reflexivity. discriminate. }
  pose proof (huffman_witnesses_same t pol W M) as K. pose proof (huffman_witnesses_small t pol) as S.
  destruct (huffman_witnesses g t pol) as [ws|]; [|split; [exact Logic.I|discriminate]]. destruct K as (w' & -> & ->).
  destruct (max_plus_1_huffman (map fst ws)) as [hb|]; [|split; [exact Logic.I|discriminate]].
  destruct (b <=? hb); [|exact IH]. split. apply orel_some. reflexivity. intros st E. injection E as <-. cbn. now apply S.
Qed.
Lemma huffman_same b t : wf t -> channels t <= MAX_CHANNELS ->
  orel eq (huffman_step_m xs sets b t) (huffman_step g b t) /\ forall st, huffman_step g b t = Some (Some st) -> small_step st.
Proof.
  intros W M. unfold huffman_step_m, huffman_step. rewrite !extremal_m_same by auto. cbv beta iota zeta.
  destruct (length (extremal_channels t true) <? length (extremal_channels t false)).
  - apply (huffman_pols_same b t [true; false]); auto.
  - apply (huffman_pols_same b t [false; true]); auto.
Qed.
Lemma successor_same b t todo : wf t -> channels t <= MAX_CHANNELS -> (forall i j, In (i, j) todo -> i < channels t /\ j < channels t /\ i <> j) -> forall acc,
  orel eq (successor_loop_m xs sets b t todo acc) (successor_loop g b t todo acc) /\
  forall ws, Forall small_witness acc -> successor_loop g b t todo acc = Some (Some ws) -> Forall small_witness ws.
Proof.
  intros W M. destruct (C45_writes_in_range t W M) as (A & _). induction todo as [|(i, j) todo IH]; intros B acc; cbn [successor_loop_m successor_loop].
  { split. apply orel_some. reflexivity. intros ws F E. now injection E as <-. }
  destruct (B i j (or_introl eq_refl)) as (Bi & Bj & D). destruct (A i j Bi Bj) as (_ & Ec). rewrite (Ec D).
  pose proof (apply_comparator_wf t i j) as Wc. destruct (apply_comparator t i j) as (u, ch) eqn:Eu. cbn [fst snd] in *.
  specialize (IH (fun a c I => B a c (or_intror I))). destruct ch; [|apply IH].
  assert (Wu : wf u) by (apply Wc; auto). assert (Cu : channels u = channels t) by (pose proof (apply_comparator_channels t i j) as C; rewrite Eu in C; exact C).
  pose proof (lookup_witness_same u Wu ltac:(lia)) as K. pose proof (fun bb inv p c => lookup_witness_small u bb inv p c Wu ltac:(lia)) as S.
  destruct (lookup_witness g u) as [(wb, w)|]; [|split; [exact Logic.I|discriminate]]. destruct K as (w' & -> & ->). cbn [fst snd].
  destruct (u8_succ wb) as [b'|]; [|split; [exact Logic.I|discriminate]]. destruct (b' <? b). { split. apply orel_some. reflexivity. discriminate. }
  destruct (IH (acc ++ [w])) as (I1 & I2). split; auto. intros ws F. apply I2. apply Forall_app. split; auto. constructor; auto.
  destruct w as [((inv, p), c)|]; cbn; auto. eapply S. reflexivity.
Qed.
Lemma pairs_bound n i j : In (i, j) (pairs n) -> i < n /\ j < n /\ i <> j.
Proof.
  unfold pairs. intros H. apply in_flat_map in H. destruct H as (a & Ha & Hb). apply in_map_iff in Hb. destruct Hb as (c & E & Hc).
  injection E as -> ->. apply in_seq in Ha. apply in_seq in Hc. lia.
Qed.
Lemma find_step_same b t : wf t -> channels t <= MAX_CHANNELS ->
  orel eq (find_step_m xs sets b t) (find_step g b t) /\ forall st, find_step g b t = Some st -> small_step st.
Proof.
  intros W M. unfold find_step_m, find_step. rewrite trivial_same by auto. destruct (trivial_step b t) as [st0|] eqn:Et.
  { split. apply orel_some. reflexivity. intros st E. injection E as <-. unfold trivial_step in Et.
    destruct (b =? 0). { injection Et as <-. exact Logic.I. } destruct (_ && _); [|discriminate]. injection Et as <-. exact Logic.I. }
  destruct (huffman_same b t W M) as (H1 & H2). destruct (huffman_step g b t) as [h|]; [|split; [exact Logic.I|discriminate]].
  destruct H1 as (h' & -> & ->). destruct h as [st0|]. { split. apply orel_some. reflexivity. intros st E. injection E as <-. auto. }
  unfold successor_step_m, successor_step. destruct (successor_same b t (pairs (channels t)) W M (pairs_bound _) []) as (S1 & S2).
  destruct (successor_loop g b t _ []) as [r|]; [|split; [exact Logic.I|discriminate]]. destruct S1 as (r' & -> & ->).
  destruct r as [ws|]; cbn [option_map]; [|split; [exact Logic.I|discriminate]].
  split. apply orel_some. reflexivity. intros st E. injection E as <-. cbn. apply S2; auto.
Qed.

Hypothesis SW : forall s b, In (s, b) sets -> wf s /\ channels s <= MAX_CHANNELS.
Lemma prove_all_same : orel (fun sts g' => g' = mkGen (pruned_indexes g) sets sts (step_ids g) (step_data g) /\ forall s st, In (s, st) sts -> small_step st)
  (prove_all_m xs sets) (prove_all g).
Proof.
  unfold prove_all_m, prove_all. fold sets.
  pose proof (map_opt_orel (fun e => st <- find_step_m xs sets (snd e) (fst e) ;; Some (fst e, st)) (fun e => st <- find_step g (snd e) (fst e) ;; Some (fst e, st)) sets) as K.
  match type of K with ?a -> _ => assert (H : a) end.
  { intros (s, b) I. cbn [fst snd]. destruct (SW s b I) as (W & M). destruct (find_step_same b s W M) as (F & _).
    destruct (find_step g b s) as [st|]; [|exact Logic.I]. destruct F as (st' & -> & ->). apply orel_some. reflexivity. }
  specialize (K H). clear H.
  destruct (map_opt (fun e => st <- find_step g (snd e) (fst e) ;; Some (fst e, st)) sets) as [sts|] eqn:E; [|exact Logic.I].
  destruct K as (s' & -> & ->). apply orel_some. split; auto.
  assert (B : forall s b, In (s, b) sets -> wf s /\ channels s <= MAX_CHANNELS) by auto. clear SW.
  revert sts B E. generalize sets at 1 2. intros l. induction l as [|(s0, b0) l IH]; intros sts B E s st I; cbn [map_opt] in E.
  { injection E as <-. destruct I. }
  cbn [fst snd] in E. destruct (find_step g b0 s0) as [st0|] eqn:E0; [|discriminate]. destruct (map_opt _ l) as [r|] eqn:Er; [|discriminate]. injection E as <-.
  destruct I as [I|I].
  - injection I as <- <-. destruct (B s0 b0 (or_introl eq_refl)) as (W & M). now apply (find_step_same b0 s0 W M).
  - eapply (IH r); [|reflexivity|exact I]. intros s1 b1 I1. apply (B s1 b1). simpl. auto.
Qed.
End Steps.

(* ---- proof.rs: the map of the sets ---- *)
Lemma set_put_In {V} s (v : V) l k w : In (k, w) (set_put s v l) -> k = s \/ (exists w', In (k, w') l).
Proof.
  induction l as [|(k0, w0) l IH]; cbn [set_put]. { intros [E|[]]. injection E as <- <-. auto. }
  destruct (os_eqb k0 s); intros [E|I].
  - injection E as <- <-. right. exists w0. simpl. auto.
  - right. exists w. simpl. auto.
  - injection E as <- <-. right. exists w0. simpl. auto.
  - destruct (IH I) as [->|(w' & I')]; auto. right. exists w'. simpl. auto.
Qed.
Definition keys_fine (l : list (OutputSet * nat)) : Prop := forall s b, In (s, b) l -> wf s /\ channels s <= MAX_CHANNELS.
Lemma puts_fine (es : list (OutputSet * list nat * nat)) : forall l, keys_fine l -> (forall s a v, In (s, a, v) es -> wf s /\ channels s <= MAX_CHANNELS) ->
  keys_fine (fold_left (fun l x => set_put (fst (fst x)) (snd x) l) es l).
Proof.
  induction es as [|((s, a), v) es IH]; intros l K E; cbn [fold_left]; auto. apply IH.
  - intros k w I. cbn [fst snd] in I. apply set_put_In in I. destruct I as [->|(w' & I)]; eauto. eapply E. simpl. auto.
  - intros s' a' v' I. eapply E. simpl. eauto.
Qed.
Lemma collect_sets_same xs ixs : XS xs ixs -> orel (fun sets g => g = mkGen ixs sets [] [] [] /\ keys_fine sets) (collect_sets_m xs) (gen_new ixs).
Proof.
  intros X. unfold collect_sets_m, gen_new.
  assert (K : forall l, keys_fine l -> orel (fun a b => a = b /\ keys_fine a)
    (fold_opt (fun l e => es <- mx_for_each (snd e) ;; Some (fold_left (fun l x => set_put (fst (fst x)) (snd x) l) es l)) xs l)
    (fold_opt (fun l e => es <- for_each (snd e) ;; Some (fold_left (fun l x => set_put (fst (fst x)) (snd x) l) es l)) ixs l)).
  { induction X as [|(k, x) (k', ix) xs ixs (E & N1 & N2 & R) F IH]; intros l H; cbn [fold_opt]. { apply orel_some. auto. }
    cbn [fst snd] in *. pose proof (m_for_each k' x ix N2 R) as K. destruct (for_each ix) as [es|] eqn:Ee; [|exact Logic.I]. destruct K as (e' & -> & ->).
    apply IH. apply puts_fine; auto. intros s a v I. destruct (for_each_facts _ _ _ _ _ Ee I) as (W & C). split; auto. rewrite C, (IR_chan _ _ _ R). auto. }
  specialize (K [] ltac:(easy)). destruct (fold_opt (fun l e => es <- for_each (snd e) ;; _) ixs []) as [sets|]; [|exact Logic.I].
  destruct K as (s' & -> & -> & F). apply orel_some. auto.
Qed.

(* ---- proof.rs: the encoding ---- *)
Lemma as_u8_small v : v < 256 -> as_u8 v = v.
Proof. apply Nat.mod_small. Qed.
Lemma set_get_val {V} (s : OutputSet) (l : list (OutputSet * V)) v : set_get s l = Some v -> exists k, In (k, v) l.
Proof.
  induction l as [|(k, w) l IH]; cbn [set_get]; [discriminate|]. destruct (os_eqb k s) eqn:E.
  - intros H. injection H as <-. exists k. simpl. auto.
  - intros H. destruct (IH H) as (k' & I). exists k'. simpl. auto.
Qed.

Section Encode.
Variables (ixs : Indexes) (sets : list (OutputSet * nat)) (sts : list (OutputSet * PStep)).
Hypothesis SF : forall s st, In (s, st) sts -> small_step st.
Definition ER (z : Enc) (g : GenProof) : Prop := g = mkGen ixs sets sts (fst z) (snd z).

Lemma witness_bytes_same w : (match w with Some (_, p, _) => Forall (fun i => i < 256) p | None => True end) -> witness_bytes_m w = witness_bytes w.
Proof.
  destruct w as [((i, p), id)|]; cbn; auto. intros F. do 2 f_equal. f_equal. induction F as [|i0 p Hi F IH]; [reflexivity|]. cbn [map]. now rewrite as_u8_small, IH by auto.
Qed.
Lemma encode_ws_same encm enc ws : (forall z g t, wf t -> channels t <= MAX_CHANNELS -> ER z g -> orel (fun a b => ER (fst a) (fst b) /\ snd a = snd b) (encm z t) (enc g t)) ->
  Forall small_witness ws -> forall z g data, ER z g ->
  orel (fun a b => ER (fst a) (fst b) /\ snd a = snd b) (encode_witnesses_m encm ws z data) (encode_witnesses enc ws g data).
Proof.
  intros HE F. unfold encode_witnesses_m, encode_witnesses. induction F as [|w ws Hw F IH]; intros z g data E; cbn [fold_opt]. { apply orel_some. auto. }
  destruct w as [((inv, p), s)|]; [|apply IH; auto]. destruct Hw as (Sp & Ws & Ms). specialize (HE z g s Ws Ms E).
  destruct (enc g s) as [(g', id)|]; [|exact Logic.I]. destruct HE as ((z', id') & -> & E' & Ei). cbn [fst snd] in *. subst id'.
  rewrite (witness_bytes_same (option_map (fun i => (inv, p, i)) id)) by (destruct id; cbn; auto). apply IH; auto.
Qed.
Lemma encode_same fuel : forall z g t, wf t -> channels t <= MAX_CHANNELS -> ER z g -> orel (fun a b => ER (fst a) (fst b) /\ snd a = snd b) (encode_proof_m sets sts fuel z t) (encode_proof fuel g t).
Proof.
  induction fuel as [|fuel IH]; intros z g t Wt M E; cbn [encode_proof_m encode_proof]; [exact Logic.I|]. pose proof E as E0. unfold ER in E.
  rewrite E. cbn [step_ids output_sets steps]. rewrite <- E. destruct (set_get t (fst z)). { apply orel_some. auto. }
  destruct (set_get t sets) as [b|] eqn:Eb; [|exact Logic.I]. destruct (packed t) as [pk|]; [|exact Logic.I].
  destruct (set_get t sts) as [st|] eqn:Est; [|exact Logic.I].
  rewrite as_u8_small by (unfold MAX_CHANNELS in M; lia).
  destruct (set_get_val _ _ _ Est) as (k2 & Ik2). specialize (SF k2 st Ik2).
  assert (W : forall ws kind, Forall small_witness ws -> orel (fun a b => ER (fst a) (fst b) /\ snd a = snd b)
    (r <- encode_witnesses_m (encode_proof_m sets sts fuel) ws z (([channels t; b] ++ pk) ++ [kind]) ;;
     let '((ids, datas), data) := r in let id := length datas in Some ((set_put t id ids, datas ++ [data]), Some id))
    (r <- encode_witnesses (encode_proof fuel) ws g (([channels t; b] ++ pk) ++ [kind]) ;;
     let '(g', data) := r in let id := length (step_data g') in
     Some (mkGen (pruned_indexes g') (output_sets g') (steps g') (set_put t id (step_ids g')) (step_data g' ++ [data]), Some id))).
  { intros ws kind F. pose proof (encode_ws_same _ _ ws IH F z g (([channels t; b] ++ pk) ++ [kind]) E0) as K.
    destruct (encode_witnesses _ ws g _) as [(g', data)|]; [|exact Logic.I]. destruct K as (((ids, datas), data') & -> & E' & Ed). cbn [fst snd] in *. subst data'.
    unfold ER in E'. cbn [fst snd] in E'. subst g'. cbn [step_data step_ids pruned_indexes output_sets steps]. apply orel_some. split; reflexivity. }
  destruct st as [| |pol ws|ws]; [apply orel_some; auto|apply orel_some; auto|apply W; exact SF|apply W; exact SF].
Qed.
End Encode.

Lemma max_same xs ixs : XS xs ixs -> option_map fst (hd_error (rev xs)) = max_channels ixs.
Proof.
  intros X. unfold max_channels. assert (Y : Forall2 XR (rev xs) (rev ixs)).
  { clear - X. apply F2_rev; auto. } destruct Y as [|a b l m (E & _) _]; cbn; congruence.
Qed.

Lemma gen_proof_same fs index fuel : fs index_name = Some index -> lines_fine (lines index) -> orel eq (gen_proof_m fuel fs) (gen_proof fuel fs).
Proof.
  intros Ei F. unfold gen_proof_m, gen_proof. pose proof (load_indexes_same fs index Ei F) as K.
  destruct (load_indexes fs) as [ixs|]; [|exact Logic.I]. destruct K as (xs & -> & X). rewrite (max_same _ _ X).
  destruct (max_channels ixs) as [n|] eqn:En; [|exact Logic.I].
  pose proof (collect_sets_same xs ixs X) as K. destruct (gen_new ixs) as [g|]; [|exact Logic.I]. destruct K as (sets & -> & Eg & KF).
  assert (Xg : XS xs (pruned_indexes g)) by now rewrite Eg. assert (Es : output_sets g = sets) by now rewrite Eg.
  pose proof (prove_all_same xs g Xg) as K. rewrite Es in K. specialize (K KF).
  destruct (prove_all g) as [g'|]; [|exact Logic.I]. destruct K as (sts & -> & Eg' & SF).
  assert (N : n <= MAX_CHANNELS).
  { unfold max_channels in En. destruct (rev ixs) as [|b l] eqn:Er; [discriminate|]. injection En as <-.
    assert (I : In b ixs) by (apply in_rev; rewrite Er; simpl; auto). clear - X I. induction X as [|x y xs ixs (_ & _ & M & _) X IH]; [easy|].
    destruct I as [<-|I]; auto. }
  unfold all_values_c. destruct (Nat.leb_spec n MAX_CHANNELS); [|lia].
  change (mkOutputSet n (repeat true (2 ^ n))) with (all_values n).
  pose proof (encode_same (pruned_indexes g) sets sts SF fuel ([], []) g' (all_values n) (all_values_wf n) H) as K.
  specialize (K ltac:(unfold ER; cbn [fst snd]; rewrite Eg', Eg; reflexivity)).
  destruct (encode_proof fuel g' (all_values n)) as [(g2, id)|]; [|exact Logic.I]. destruct K as ((z, id') & -> & E2 & _). cbn [fst snd] in *.
  unfold ER in E2. subst g2. apply orel_some. reflexivity.
Qed.
