(* Loading the pruned files: load_indexes, gen_new and lookup_witness of ProofGenModel.v. *)
From Coq Require Import String List Arith Bool Lia Permutation Sorted.
Import ListNotations.
From Verif Require Import Spec Vec Net Util OutputSetModel OutputSetProofs PackProofs TreeModel IndexModel IndexSpec IndexProofs PropIndex
  CanonLoop StatesModel StatesProofs FileModel LogModel FileProofs DumpProofs PruneLogProofs CrashProofs ProofGenModel.

(* ---- maps keyed by sets ---- *)
Lemma os_eqb_wf s t : wf s -> wf t -> (os_eqb s t = true <-> s = t).
Proof.
  intros Ws Wt. rewrite os_eqb_bitmap. split; [|congruence]. intros E. unfold wf in *. rewrite E, Wt in Ws. apply Nat.pow_inj_r in Ws; [|lia].
  destruct s, t; simpl in *; congruence.
Qed.
Section Maps.
Context {V : Type}.
Definition keys_wf (l : list (OutputSet * V)) : Prop := forall s v, In (s, v) l -> wf s.
Lemma set_get_In l s v : keys_wf l -> wf s -> set_get s l = Some v -> In (s, v) l.
Proof.
  intros K W. induction l as [|(k, w) l IH]; cbn [set_get]; [discriminate|]. assert (Wk : wf k) by (apply (K k w); now left).
  destruct (os_eqb k s) eqn:E.
  - intros H. injection H as ->. apply os_eqb_wf in E; auto. subst. now left.
  - intros H. right. apply IH; auto. intros a b I. apply (K a b). now right.
Qed.
Lemma In_set_get l s v : keys_wf l -> NoDup (map fst l) -> In (s, v) l -> set_get s l = Some v.
Proof.
  intros K N I. induction l as [|(k, w) l IH]; [destruct I|]. cbn [set_get]. assert (Wk : wf k) by (apply (K k w); now left).
  assert (Ws : wf s) by (apply (K s v); auto). inversion N as [|? ? N1 N2]; subst.
  destruct I as [E|I].
  - injection E as -> ->. replace (os_eqb s s) with true; auto. symmetry. now apply os_eqb_wf.
  - destruct (os_eqb k s) eqn:E.
    + apply os_eqb_wf in E; auto. subst k. exfalso. apply N1. now apply (in_map fst) in I.
    + apply IH; auto. intros a b H. apply (K a b). now right.
Qed.
Lemma set_get_none l s : keys_wf l -> wf s -> (set_get s l = None <-> forall v, ~ In (s, v) l).
Proof.
  intros K W. induction l as [|(k, w) l IH]; cbn [set_get]. { split; auto. }
  assert (Wk : wf k) by (apply (K k w); now left). assert (K' : keys_wf l) by (intros a b I; apply (K a b); now right). specialize (IH K').
  destruct (os_eqb k s) eqn:E.
  - apply os_eqb_wf in E; auto. subst k. split; [discriminate|]. intros H. exfalso. apply (H w). now left.
  - rewrite IH. split.
    + intros H v [I|I]; [|eapply H; eauto]. injection I as -> ->. assert (X : os_eqb s s = true) by now apply os_eqb_wf. congruence.
    + intros H v I. apply (H v). now right.
Qed.
Lemma set_put_new l s v : keys_wf l -> wf s -> ~ In s (map fst l) -> set_put s v l = l ++ [(s, v)].
Proof.
  intros K W N. induction l as [|(k, w) l IH]; cbn [set_put]; auto. assert (Wk : wf k) by (apply (K k w); now left).
  destruct (os_eqb k s) eqn:E.
  - apply os_eqb_wf in E; auto. subst. exfalso. apply N. now left.
  - cbn [app]. f_equal. apply IH. intros a b I. apply (K a b). now right. intros I. apply N. now right.
Qed.
End Maps.

(* ---- the indexes by channel count ---- *)
Definition ixs_sorted (l : Indexes) : Prop := StronglySorted (fun x y : nat * Index => fst x < fst y) l.
Lemma ixs_get_In l n ix : ixs_sorted l -> (ixs_get n l = Some ix <-> In (n, ix) l).
Proof.
  intros S. induction S as [|(k, x) l S IH F]; cbn [ixs_get]. { split; [discriminate|intros []]. }
  rewrite Forall_forall in F. destruct (Nat.eqb_spec k n) as [->|N].
  - split. intros E. injection E as ->. now left. intros [E|I]; [congruence|]. specialize (F _ I). simpl in F. lia.
  - rewrite IH. split; auto. right; auto. intros [E|I]; [congruence|auto].
Qed.
Lemma ixs_put_spec l n ix : ixs_sorted l -> ixs_sorted (ixs_put n ix l) /\
  forall k x, In (k, x) (ixs_put n ix l) <-> (k = n /\ x = ix) \/ (k <> n /\ In (k, x) l).
Proof.
  intros S. induction S as [|(k0, x0) l S (IH1 & IH2) F]; cbn [ixs_put].
  - split. repeat constructor. intros k x. cbn. split. intros [E|[]]. injection E; auto. intros [(-> & ->)|(_ & [])]. auto.
  - rewrite Forall_forall in F. destruct (Nat.ltb_spec n k0) as [L|L]; [|destruct (Nat.eqb_spec n k0) as [->|N]].
    + split. { constructor. constructor; auto. now apply Forall_forall. apply Forall_forall. intros (k, x) [E|I]; cbn. injection E as <- <-; auto. specialize (F _ I). simpl in F. lia. }
      intros k x. split.
      * intros [E|I]. injection E as -> ->; auto. right. split; auto. destruct I as [E|I]. injection E as -> ->. lia. specialize (F _ I). simpl in F. lia.
      * intros [(-> & ->)|(_ & I)]. now left. now right.
    + split. { constructor; auto. now apply Forall_forall. }
      intros k x. split.
      * intros [E|I]. injection E as -> ->; auto. right. split; [|now right]. specialize (F _ I). simpl in F. lia.
      * intros [(-> & ->)|(Nk & [E|I])]. now left. congruence. now right.
    + split. { constructor; auto. apply Forall_forall. intros (k, x) I. apply IH2 in I. cbn. destruct I as [(-> & _)|(_ & I)]. lia. exact (F _ I). }
      intros k x. cbn [In]. rewrite IH2. split.
      * intros [E|[(-> & ->)|(Nk & I)]]; auto. injection E as -> ->. right. split; auto.
      * intros [(-> & ->)|(Nk & [E|I])]; auto.
Qed.

(* ---- what the indexes hold ---- *)
Definition ix_holds (n : nat) (H : list (OutputSet * nat)) (ix : Index) : Prop :=
  reachable LowerInvert n false H ix /\ exists M, contents ix = Some M /\ Permutation M H.
Definition of_channels (n : nat) (E : list (OutputSet * nat)) : list (OutputSet * nat) := filter (fun e => channels (fst e) =? n) E.

Record holds (ixs : Indexes) (E : list (OutputSet * nat)) : Prop := {
  ho_sorted : ixs_sorted ixs;
  ho_ix : forall n ix, In (n, ix) ixs -> 1 < n /\ n <= MAX_CHANNELS /\ exists H, ix_holds n H ix /\ Permutation H (of_channels n E) /\ H <> [];
  ho_e : forall s b, In (s, b) E -> wf s /\ exists ix, In (channels s, ix) ixs }.

Lemma load_sets_ok n b sets : 1 < n -> n <= MAX_CHANNELS -> forall ix H, ix_holds n H ix -> (forall s, In s sets -> wf s /\ channels s = n) ->
  exists ix', fold_opt (load_set n b) (map pk sets) ix = Some ix' /\ ix_holds n (rev (map (fun s => (s, b)) sets) ++ H) ix'.
Proof.
  intros Hn Hm. induction sets as [|s sets IH]; intros ix H (R & M & EM & P) Hs.
  - exists ix. split; [reflexivity|]. split; eauto.
  - destruct (Hs s (or_introl eq_refl)) as (W & C). destruct (C14_unchecked_adds_one _ _ _ _ _ M s b Hn Hm R EM W C) as (ix1 & M1 & E1 & EM1 & P1).
    cbn [map fold_opt]. unfold load_set at 1. replace (from_packed n (pk s)) with (Some s) by (symmetry; rewrite <- C; now apply from_pk). rewrite E1.
    destruct (IH ix1 ((s, b) :: H)) as (ix' & E' & I'). { split. eapply R_unchecked; eauto. exists M1. split; auto. now rewrite P1, P. }
    { intros t Ht. apply Hs. now right. }
    exists ix'. split; auto. cbn [rev]. rewrite <- app_assoc. exact I'.
Qed.

Lemma ix_new_holds n : 1 < n -> n <= MAX_CHANNELS -> ix_holds n [] (index_new LowerInvert n).
Proof.
  intros Hn Hm. assert (R : reachable LowerInvert n false [] (index_new LowerInvert n)) by constructor. split; auto.
  destruct (C14_for_each_len_is_empty _ _ _ _ _ Hn Hm R) as (E & M & E1 & E2 & _ & _ & F). exists M. split; auto.
  unfold contents in E2. rewrite E1 in E2. injection E2 as <-. destruct E as [|((s, a), v) E]; [constructor|]. destruct (F s a v (or_introl eq_refl)) as (_ & _ & _ & []).
Qed.

Lemma of_channels_app n A B : of_channels n (A ++ B) = of_channels n A ++ of_channels n B.
Proof. apply filter_app. Qed.
Lemma of_channels_all n b sets : (forall s, In s sets -> channels s = n) -> of_channels n (map (fun s => (s, b)) sets) = map (fun s => (s, b)) sets.
Proof.
  induction sets as [|s sets IH]; intros H; cbn; auto. rewrite (H s) by now left. rewrite Nat.eqb_refl. f_equal. apply IH. intros t Ht. apply H. now right.
Qed.
Lemma of_channels_other n m b sets : n <> m -> (forall s, In s sets -> channels s = n) -> of_channels m (map (fun s => (s, b)) sets) = [].
Proof.
  intros N. induction sets as [|s sets IH]; intros H; cbn; auto. rewrite (H s) by now left. destruct (Nat.eqb_spec n m); [congruence|]. apply IH. intros t Ht. apply H. now right.
Qed.
Lemma of_channels_In n E s b : In (s, b) (of_channels n E) <-> In (s, b) E /\ channels s = n.
Proof. unfold of_channels. rewrite filter_In. cbn. now rewrite Nat.eqb_eq. Qed.

(* a pruned file of the group g *)
Definition pruned_file (fs : Fs) (g : nat * nat) (sets : list OutputSet) : Prop :=
  fs (with_extension (group_name g) (str "pbin")) = Some (concat (map pk sets)) /\ sets <> [] /\
  1 < fst g /\ fst g <= MAX_CHANNELS /\ snd g <= 255 /\ forall s, In s sets -> wf s /\ channels s = fst g.

Lemma load_line_ok fs ixs E g sets : holds ixs E -> pruned_file fs g sets ->
  exists ixs', load_line fs ixs (group_name g) = Some ixs' /\ holds ixs' (E ++ map (fun s => (s, snd g)) sets).
Proof.
  intros HO (F & Ne & Hn & Hm & Hb & Hs). unfold load_line. rewrite group_channels, group_bound, F by auto.
  assert (Em : mmap (concat (map pk sets)) = Some (concat (map pk sets))).
  { destruct sets as [|s sets]; [congruence|]. cbn [map concat]. destruct (Hs s (or_introl eq_refl)) as (W & C). pose proof (pk_len s W) as L. pose proof (plen_pos (channels s)).
    destruct (pk s); [simpl in L; lia|reflexivity]. }
  rewrite Em. rewrite chunks_concat.
  2: apply plen_pos. 2: { intros p Hp. apply in_map_iff in Hp. destruct Hp as (s & <- & Hin). destruct (Hs s Hin) as (W & C). rewrite pk_len by auto. now rewrite C. }
  set (n := fst g) in *. set (b := snd g) in *.
  assert (I0 : exists H, ix_holds n H (match ixs_get n ixs with Some ix => ix | None => index_new LowerInvert n end) /\ Permutation H (of_channels n E)).
  { destruct (ixs_get n ixs) as [ix|] eqn:Eg.
    - apply ixs_get_In in Eg; [|apply HO]. destruct (ho_ix _ _ HO n ix Eg) as (_ & _ & H & I & P & _). eauto.
    - exists []. split. now apply ix_new_holds. assert (X : of_channels n E = []); [|now rewrite X].
      destruct (of_channels n E) as [|(s, v) l] eqn:El; auto. assert (I : In (s, v) (of_channels n E)) by (rewrite El; now left).
      apply of_channels_In in I. destruct I as (I & C). destruct (ho_e _ _ HO s v I) as (_ & ix & J). rewrite C in J. apply ixs_get_In in J; [congruence|apply HO]. }
  destruct I0 as (H & I0 & P0). destruct (load_sets_ok n b sets Hn Hm _ H I0 Hs) as (ix' & E' & I'). rewrite E'. eexists. split; [reflexivity|].
  destruct (ixs_put_spec ixs n ix' (ho_sorted _ _ HO)) as (Q1 & Q2). constructor; auto.
  - intros m x I. apply Q2 in I. destruct I as [(-> & ->)|(Nm & I)].
    + split; auto. split; auto. eexists. split; [exact I'|]. split.
      * rewrite of_channels_app, of_channels_all by (intros s Hin; now apply Hs). rewrite Permutation_app_comm. apply Permutation_app; auto. symmetry. apply Permutation_rev.
      * destruct sets as [|s sets]; [congruence|]. cbn. intros X. apply app_eq_nil in X. destruct X as (X & _). apply app_eq_nil in X. destruct X as (_ & X). discriminate.
    + destruct (ho_ix _ _ HO m x I) as (A & B & H' & I'' & P' & N'). split; auto. split; auto. exists H'. split; auto. split; auto.
      rewrite of_channels_app, (of_channels_other n), app_nil_r; auto. intros s Hin. now apply Hs.
  - intros s v I. apply in_app_iff in I. destruct I as [I|I].
    + destruct (ho_e _ _ HO s v I) as (W & ix & J). split; auto. destruct (Nat.eq_dec (channels s) n) as [C|C].
      exists ix'. apply Q2. auto. exists ix. apply Q2. auto.
    + apply in_map_iff in I. destruct I as (t & Et & It). injection Et as -> ->. destruct (Hs s It) as (W & C). split; auto. exists ix'. apply Q2. auto.
Qed.

Definition all_entries (groups : list (nat * nat)) (sets : nat * nat -> list OutputSet) : list (OutputSet * nat) :=
  flat_map (fun g => map (fun s => (s, snd g)) (sets g)) groups.

Lemma load_lines_ok fs sets groups : forall ixs E, holds ixs E -> (forall g, In g groups -> pruned_file fs g (sets g)) ->
  exists ixs', fold_opt (load_line fs) (map group_name groups) ixs = Some ixs' /\ holds ixs' (E ++ all_entries groups sets).
Proof.
  induction groups as [|g groups IH]; intros ixs E HO F.
  - exists ixs. split; [reflexivity|]. cbn. now rewrite app_nil_r.
  - destruct (load_line_ok fs ixs E g (sets g) HO) as (ixs1 & E1 & H1). { apply F. now left. }
    destruct (IH ixs1 _ H1) as (ixs' & E' & H'). { intros h Hh. apply F. now right. }
    exists ixs'. cbn [map fold_opt]. rewrite E1. split; auto. cbn [all_entries flat_map]. now rewrite app_assoc.
Qed.

Lemma holds_nil : holds [] [].
Proof. constructor; [constructor|intros ? ? []|intros ? ? []]. Qed.

Lemma load_indexes_ok fs groups sets : fs index_name = Some (index_text groups) -> (forall g, In g groups -> pruned_file fs g (sets g)) ->
  exists ixs, load_indexes fs = Some ixs /\ holds ixs (all_entries groups sets).
Proof.
  intros Ix F. unfold load_indexes. rewrite Ix, lines_index. apply (load_lines_ok fs sets groups [] [] holds_nil F).
Qed.

(* ---- gen_new ---- *)
Definition fe (x : OutputSet * list nat * nat) : OutputSet * nat := (fst (fst x), snd x).

Lemma put_all es : forall l, keys_wf l -> keys_wf (map fe es) -> NoDup (map fst (l ++ map fe es)) ->
  fold_left (fun l (x : OutputSet * list nat * nat) => set_put (fst (fst x)) (snd x) l) es l = l ++ map fe es.
Proof.
  induction es as [|x es IH]; intros l K Ke N; cbn [fold_left map]. now rewrite app_nil_r.
  assert (Wx : wf (fst (fst x))) by (apply (Ke _ (snd x)); now left).
  assert (Nx : ~ In (fst (fst x)) (map fst l)).
  { rewrite map_app in N. cbn [map fst fe] in N. apply NoDup_remove_2 in N. intros I. apply N. apply in_app_iff. auto. }
  rewrite set_put_new by auto. rewrite IH.
  - now rewrite <- app_assoc.
  - intros s v I. apply in_app_iff in I. destruct I as [I|[I|[]]]. now apply (K s v). injection I as <- <-. auto.
  - intros s v I. apply (Ke s v). now right.
  - rewrite <- app_assoc. exact N.
Qed.

Lemma gen_new_ok ixs E : holds ixs E -> NoDup (map fst E) ->
  exists sets, gen_new ixs = Some (mkGen ixs sets [] [] []) /\ keys_wf sets /\ NoDup (map fst sets) /\ forall s b, In (s, b) sets <-> In (s, b) E.
Proof.
  intros HO N. unfold gen_new.
  assert (G : forall l done, ixs = done ++ l -> forall acc, keys_wf acc -> NoDup (map fst acc) ->
    (forall s b, In (s, b) acc <-> In (s, b) E /\ In (channels s) (map fst done)) ->
    exists sets, fold_opt (fun l e => es <- for_each (snd e) ;; Some (fold_left (fun l (x : OutputSet * list nat * nat) => set_put (fst (fst x)) (snd x) l) es l)) l acc = Some sets /\
      keys_wf sets /\ NoDup (map fst sets) /\ (forall s b, In (s, b) sets <-> In (s, b) E /\ In (channels s) (map fst (done ++ l)))).
  { induction l as [|(n, ix) l IH]; intros done Ed acc K Na Ha.
    - exists acc. cbn [fold_opt]. rewrite app_nil_r. auto.
    - assert (Ii : In (n, ix) ixs) by (rewrite Ed; apply in_app_iff; right; now left).
      destruct (ho_ix _ _ HO n ix Ii) as (Hn & Hm & H & (R & M & EM & PM) & PH & _).
      assert (PE : Permutation M (of_channels n E)) by (now rewrite PM).
      unfold contents in EM. destruct (for_each ix) as [es|] eqn:Ee; [|discriminate]. cbn in EM. injection EM as EM.
      change (map fe es = M) in EM. cbn [fold_opt snd]. rewrite Ee.
      assert (Nn : ~ In n (map fst done)).
      { intros I. pose proof (ho_sorted _ _ HO) as S. rewrite Ed in S. clear - S I. induction done as [|(k, x) done IHd]; [destruct I|].
        inversion S as [|? ? S' F]; subst. rewrite Forall_forall in F. destruct I as [<-|I]; auto. specialize (F (k, ix)). simpl in F. assert (k < k) by (apply F; apply in_app_iff; right; now left). lia. }
      assert (Km : keys_wf (map fe es)). { intros s v I. rewrite EM in I. apply (Permutation_in _ PE) in I. apply of_channels_In in I. apply (ho_e _ _ HO s v), I. }
      assert (Nm : NoDup (map fst (acc ++ map fe es))).
      { rewrite map_app. apply NoDup_app_intro'; auto.
        - rewrite EM. eapply Permutation_NoDup; [symmetry; apply Permutation_map; exact PE|]. clear - N. unfold of_channels. induction E as [|x E IHE]; cbn; [constructor|].
          inversion N; subst. destruct (channels (fst x) =? n); auto. cbn. constructor; auto. intros I. apply in_map_iff in I. destruct I as (y & Ey & Iy). apply filter_In in Iy. apply H1. rewrite <- Ey. apply in_map. tauto.
        - intros s I1 I2. apply in_map_iff in I1. destruct I1 as ((s1, b1) & <- & I1). apply in_map_iff in I2. destruct I2 as ((s2, b2) & E2 & I2). cbn in *. subst s2.
          apply Ha in I1. rewrite EM in I2. apply (Permutation_in _ PE) in I2. apply of_channels_In in I2. destruct I2 as (_ & C). rewrite C in I1. tauto. }
      rewrite put_all by auto.
      destruct (IH (done ++ [(n, ix)])) with (acc := acc ++ map fe es) as (sets & Es & S1 & S2 & S3).
      + now rewrite <- app_assoc.
      + intros s v I. apply in_app_iff in I. destruct I as [I|I]. now apply (K s v). now apply (Km s v).
      + exact Nm.
      + intros s b. rewrite in_app_iff, Ha, EM. rewrite map_app, in_app_iff. cbn [map fst In]. split.
        * intros [(I1 & I2)|I]; auto. apply (Permutation_in _ PE) in I. apply of_channels_In in I. intuition.
        * intros (I1 & [I2|[C|[]]]); auto. right. eapply Permutation_in; [symmetry; exact PE|]. apply of_channels_In; auto.
      + exists sets. rewrite <- app_assoc in S3. auto. }
  destruct (G ixs [] eq_refl []) as (sets & Es & S1 & S2 & S3).
  { intros ? ? []. } { constructor. } { intros s b. split; [intros []|intros (_ & [])]. }
  rewrite Es. exists sets. split; auto. split; auto. split; auto. intros s b. rewrite S3. cbn [app]. split; [tauto|].
  intros I. split; auto. destruct (ho_e _ _ HO s b I) as (_ & ix & J). now apply (in_map fst) in J.
Qed.

(* ---- lookups ---- *)

(* the answer for t: the best bound of a set that subsumes t and a witness, or what is known without *)
Definition answer (E : list (OutputSet * nat)) (t : OutputSet) (b : nat) (w : option PWitness) : Prop :=
  match w with
  | Some (inv, p, c) => In (c, b) E /\ wf c /\ channels c = channels t /\ is_perm (channels t) p /\ subsumes_by inv p (vs c) (vs t) /\
      forall c' b', In (c', b') E -> channels c' = channels t -> covers LowerInvert c' t -> b' <= b
  | None => b = (if is_sorted t then 0 else 1) /\ forall c' b', In (c', b') E -> channels c' = channels t -> ~ covers LowerInvert c' t
  end.

Record gen_ok (g : GenProof) (E : list (OutputSet * nat)) : Prop := {
  go_ixs : holds (pruned_indexes g) E;
  go_wf : keys_wf (output_sets g);
  go_nodup : NoDup (map fst (output_sets g));
  go_sets : forall s b, In (s, b) (output_sets g) <-> In (s, b) E }.

Lemma go_get g E s b : gen_ok g E -> (In (s, b) E -> set_get s (output_sets g) = Some b) /\ (wf s -> set_get s (output_sets g) = Some b -> In (s, b) E).
Proof.
  intros G. split.
  - intros I. apply In_set_get; try apply G; auto.
  - intros W H. apply (go_sets _ _ G). apply set_get_In; auto. apply G.
Qed.

Lemma lookup_witness_ok g E t : gen_ok g E -> wf t -> exists b w, lookup_witness g t = Some (b, w) /\ answer E t b w.
Proof.
  intros G W. unfold lookup_witness. pose proof (go_ixs _ _ G) as HO. destruct (ixs_get (channels t) (pruned_indexes g)) as [ix|] eqn:Eg.
  - apply ixs_get_In in Eg; [|apply HO]. destruct (ho_ix _ _ HO _ ix Eg) as (Hn & Hm & H & (R & _) & PH & _).
    destruct (C12_lookup_subsuming_witness _ _ _ _ _ t Hn Hm R W eq_refl) as (r & M & El & EM & S).
    destruct (ho_ix _ _ HO _ ix Eg) as (_ & _ & H' & (R' & M' & EM' & PM') & PH' & _). rewrite EM in EM'. injection EM' as <-.
    assert (InM : forall c b, In (c, b) M <-> In (c, b) E /\ channels c = channels t).
    { intros c b. rewrite <- of_channels_In. pose proof (Permutation_trans PM' PH') as X. split; intros I. exact (Permutation_in _ X I). exact (Permutation_in _ (Permutation_sym X) I). }
    rewrite El. destruct r as [((v, (inv, p)), c)|].
    + destruct S as (S1 & S2 & Wc & Cc & (V1 & V2) & B). apply InM in S1. destruct S1 as (S1 & _).
      rewrite (proj1 (go_get g E c v G) S1). exists v, (Some (inv, p, c)). split; auto. cbn [answer]. cbn [fst snd] in *. rewrite Cc in V1. cbv iota in V2. do 4 (split; [assumption|]). split; [exact V2|].
      destruct B as (_ & B). intros c' b' I C Cv. apply (B c' b'); auto. now apply InM.
    + exists (if is_sorted t then 0 else 1), None. split; auto. cbn [answer]. split; auto. intros c' b' I C. apply (S c' b'). now apply InM.
  - exists (if is_sorted t then 0 else 1), None. split; auto. cbn [answer]. split; auto. intros c' b' I C. destruct (ho_e _ _ HO c' b' I) as (_ & ix & J).
    rewrite C in J. apply ixs_get_In in J; [congruence|apply HO].
Qed.
