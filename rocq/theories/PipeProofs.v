(* The log of a completed search, after pruning, is a log from which a certificate can be generated. *)
From Coq Require Import String List Arith Bool Lia Permutation Sorted ZArith.
Import ListNotations.
From Verif Require Import Spec Vec Net Graded Bits Util OutputSetModel OutputSetProofs PruneProofs PackProofs CountProofs HuffmanModel HuffmanProofs TreeModel IndexModel IndexSpec
  CanonModel StatesModel StatesProofs StatesBounds SearchModel SearchFacts SearchInv SearchSafe SearchOrder SearchTop SearchLeft FileModel FileProofs LogModel DumpProofs PruneLogProofs CrashProofs
  ProofGenModel GenLoad GenSteps GenMain GenComplete.

Lemma finite_choice {A B} (dec : forall a a' : A, {a = a'} + {a <> a'}) (d : B) (P : A -> B -> Prop) l :
  (forall a, In a l -> exists b, P a b) -> exists f, forall a, In a l -> P a (f a).
Proof.
  induction l as [|a l IH]; intros H. exists (fun _ => d). easy.
  destruct IH as (f & Hf). { intros x Hx. apply H. now right. } destruct (H a (or_introl eq_refl)) as (b & Hb).
  exists (fun x => if dec x a then b else f x). intros x [<-|Hx]; destruct (dec _ _); subst; auto. congruence.
Qed.

Lemma NoDup_app_intro {A} (l l' : list A) : NoDup l -> NoDup l' -> (forall x, In x l -> In x l' -> False) -> NoDup (l ++ l').
Proof.
  intros N N' D. induction N as [|a l Na N IH]; auto. cbn. constructor.
  - intros H. apply in_app_or in H. destruct H as [H|H]; auto. apply (D a); auto. now left.
  - apply IH. intros x Hx. apply D. now right.
Qed.
Lemma NoDup_app_l {A} (l l' : list A) : NoDup (l ++ l') -> NoDup l.
Proof.
  induction l as [|a l IH]; cbn; intros N. constructor. inversion N as [|? ? Na N']; subst. constructor; auto. intros H. apply Na, in_or_app. now left.
Qed.
Lemma NoDup_map_inj_in {A B} (f : A -> B) l : (forall x y, In x l -> In y l -> f x = f y -> x = y) -> NoDup l -> NoDup (map f l).
Proof.
  intros I N. induction N as [|a l Na N IH]; cbn; constructor.
  - intros H. apply in_map_iff in H. destruct H as (x & E & Hx). apply I in E; [congruence|now right|now left].
  - apply IH. intros x y Hx Hy. apply I; now right.
Qed.

Definition group_dec (g h : nat * nat) : {g = h} + {g <> h}.
Proof. decide equality; apply Nat.eq_dec. Defined.

Lemma NoDup_entries groups sets : NoDup groups -> (forall g, In g groups -> NoDup (sets g)) ->
  (forall g h s, In g groups -> In h groups -> In s (sets g) -> In s (sets h) -> g = h) -> NoDup (map fst (all_entries groups sets)).
Proof.
  intros N S D. assert (E : map fst (all_entries groups sets) = flat_map sets groups).
  { clear. induction groups as [|g l IH]; auto. unfold all_entries in *. cbn [flat_map]. rewrite map_app, IH. f_equal. rewrite map_map. cbn. apply map_id. }
  rewrite E. clear E. induction N as [|g l Ng N IH]; cbn [flat_map]. constructor.
  apply NoDup_app_intro.
  - apply S. now left.
  - apply IH. intros h Hh. apply S. now right. intros a b s Ha Hb. apply D; now right.
  - intros s Hs Ht. apply in_flat_map in Ht. destruct Ht as (h & Hh & Ht). assert (g = h). { apply (D g h s); auto. now left. now right. } congruence.
Qed.

Lemma covers_all s : wf s -> IndexSpec.covers LowerInvert s (all_values (channels s)).
Proof.
  intros W. exists (false, seq 0 (channels s)). split. cbn. apply is_perm_id. cbn. intros x Hx. apply all_values_vs. unfold all_inputs. rewrite permute_length. apply seq_length.
Qed.
Lemma smaller_than_all s : wf s -> s <> all_values (channels s) -> os_len s < os_len (all_values (channels s)).
Proof.
  intros W Ne. destruct (os_len_card s W) as (l & Nl & Il & <-). destruct (os_len_card _ (all_values_wf (channels s))) as (a & Na & Ia & <-).
  assert (Sub : incl l a). { intros x Hx. apply Ia, all_values_vs. apply Il in Hx. apply Hx. }
  pose proof (NoDup_incl_length Nl Sub) as Le. destruct (Nat.eq_dec (List.length l) (List.length a)) as [E|]; [|lia]. exfalso. apply Ne.
  apply os_ext; auto. apply all_values_wf. intros x. split; intros Hx.
  - apply Ia, Sub, Il, Hx.
  - apply Il. apply (NoDup_length_incl Nl (l' := a)); [lia|exact Sub|]. now apply Ia.
Qed.

Section Pipe.
Variables chash mhash : list nat -> nat.
Variables (n : nat) (m : StateMap).
Hypothesis Hn : n <= 11.
Hypothesis SL : search_left chash mhash n m.

Lemma logged_facts g s : logged mhash m g s -> okset s /\ work s /\ channels s = fst g /\ 1 <= snd g /\ snd g <= 35 /\ fst g <= n /\
  lo (cur mhash m s) = snd g.
Proof.
  intros (W & C & st & St & Lo). destruct (sl_stored _ _ _ _ SL s st W St) as (A & B & L1 & L2 & L3). rewrite Lo, C in *.
  repeat (split; auto). unfold cur. now rewrite St.
Qed.

(* what pruning leaves of the group g *)
Definition kept_ok (g : nat * nat) (kept : list OutputSet) : Prop :=
  kept <> [] /\ NoDup kept /\ (forall s, In s kept -> logged mhash m g s) /\
  (forall s, logged mhash m g s -> In s kept \/ exists c, In c kept /\ os_len c < os_len s /\ IndexSpec.covers LowerInvert c s) /\
  forall a b, In a kept -> In b kept -> os_len a < os_len b -> ~ IndexSpec.covers LowerInvert a b.

Lemma group_pruned g sets : NoDup sets -> (exists s, logged mhash m g s) -> (forall s, In s sets <-> logged mhash m g s) ->
  exists kept, prune_data (fst g) (concat (map pk sets)) = Some (map pk kept) /\ kept_ok g kept.
Proof.
  intros Nd (s0 & L0) Hs. destruct (logged_facts g s0 L0) as (_ & (_ & C3) & C0 & _ & _ & Hg & _).
  destruct (prune_data_ok (fst g) sets) as (kept & old & Ep & Pm & Hold & Inc).
  { rewrite <- C0. lia. } { unfold MAX_CHANNELS. lia. }
  { intros s Hi. apply Hs in Hi. destruct Hi as (W & C & _). auto. }
  assert (K : kept_ok g kept).
  { assert (Nk : NoDup (kept ++ old)) by (eapply Permutation_NoDup; eauto).
    split; [|split; [|split; [|split; [|exact Inc]]]].
    - intros ->. apply Hs in L0. apply (Permutation_in _ Pm) in L0. cbn in L0. destruct (Hold s0 L0) as (x & [] & _).
    - now apply NoDup_app_l in Nk.
    - intros s Hi. apply Hs. apply (Permutation_in _ (Permutation_sym Pm)). apply in_or_app. now left.
    - intros s Hl. apply Hs in Hl. apply (Permutation_in _ Pm) in Hl. apply in_app_or in Hl. destruct Hl as [Hl|Hl]; auto. }
  eauto.
Qed.

Lemma pk_concat_ne (sets : list OutputSet) : (forall s, In s sets -> wf s) -> sets <> [] -> concat (map pk sets) <> [].
Proof.
  intros W N. destruct sets as [|s l]; [congruence|]. cbn. pose proof (pk_len s (W s (or_introl eq_refl))) as E. pose proof (plen_pos (channels s)).
  destruct (pk s); cbn in *; [lia|discriminate].
Qed.

(* the files after dumping, any number of interrupted prune runs and one complete one *)
Lemma pipe_pruned fs0 fs' : (forall g, fs0 (with_extension (group_name g) (str "pbin")) = None) -> crashes (dump_states m fs0) fs' ->
  exists fs1 groups kept, prune_all fs' = Some fs1 /\ NoDup groups /\ (forall g, In g groups <-> exists s, logged mhash m g s) /\
    (forall g, In g groups -> kept_ok g (kept g)) /\ pruned_log fs1 groups kept.
Proof.
  intros N0 Cr. pose proof (mi_ok _ _ _ (sl_inv _ _ _ _ SL)) as Ok. destruct (dump_correct mhash m fs0 Ok) as (groups & Ng & Hg & Ix & Fl & Rest).
  set (fd := dump_states m fs0) in *.
  assert (P0 : forall g, fd (pbin_name g) = None).
  { intros g. unfold fd. rewrite Rest. unfold pbin_name. rewrite <- group_with_ext. apply N0. apply not_eq_sym, index_pbin. intros h _. apply not_eq_sym, name_pbin. }
  assert (KP : forall g, In g groups -> exists kept, kept_ok g kept /\ exists sets, sets <> [] /\ (forall s, In s sets -> wf s) /\ fd (group_name g) = Some (concat (map pk sets)) /\
             prune_data (fst g) (concat (map pk sets)) = Some (map pk kept)).
  { intros g Hi. destruct (Fl g Hi) as (sets & Nd & Hs & Ef). apply Hg in Hi. destruct (group_pruned g sets Nd Hi Hs) as (kept & Ep & Kk). exists kept. split; auto.
    exists sets. split; [|split; auto]. intros ->. destruct Hi as (s & L). apply Hs in L. easy. intros s H. apply Hs in H. apply H. }
  destruct (finite_choice group_dec [] _ groups KP) as (kept & HK).
  assert (OG : forall g, In g groups -> okg fd g).
  { intros g Hi. destruct (HK g Hi) as (_ & sets & Ns & Ws & Ef & Ep). exists (concat (map pk sets)). split; auto. split; eauto.
    unfold mmap. pose proof (pk_concat_ne sets Ws Ns). now destruct (concat (map pk sets)). }
  pose proof (crashes_ok fd groups fs' Ix OG Cr) as Mid.
  destruct (lines_run fd groups groups fs' Mid) as (ops & Eo & Mi & Dn). { auto. }
  exists (fs_run ops fs'), groups, kept.
  assert (M1 : mid fd groups (fs_run ops fs')). { specialize (Mi (List.length ops)). now rewrite firstn_all in Mi. }
  split. { unfold prune_all, prune_all_ops. rewrite (mid_index _ _ _ Mid), Ix. cbv beta iota. rewrite lines_index, Eo. reflexivity. }
  split; auto. split; auto. split. { intros g Hi. apply HK, Hi. }
  split.
  - rewrite (mid_index _ _ _ M1). exact Ix.
  - intros g Hi. specialize (Dn g (or_introl Hi)). unfold done_of in Dn. rewrite P0 in Dn. destruct Dn as (w & (data & x & E1 & E2 & ->) & E3 & _).
    destruct (HK g Hi) as ((Nk & _ & Lk & _) & sets & _ & _ & Ef & Ep). rewrite Ef in E1. injection E1 as <-. rewrite Ep in E2. injection E2 as <-.
    unfold pruned_file. rewrite group_with_ext. split; auto. split; auto. destruct (kept g) as [|s0 l] eqn:Ek; [congruence|].
    destruct (logged_facts g s0 (Lk s0 (or_introl eq_refl))) as (K0 & (_ & C3) & C0 & L1 & L2 & L3 & _). split. lia. split. unfold MAX_CHANNELS. lia. split. lia.
    intros s Hs. destruct (Lk s Hs) as (W & C & _). auto.
  - apply NoDup_entries; auto. intros g Hi. apply (HK g Hi). intros g h s Hi Hh Hs Ht.
    destruct (proj1 (proj2 (proj2 (proj1 (HK g Hi)))) s Hs) as (_ & C1 & st1 & S1 & L1). destruct (proj1 (proj2 (proj2 (proj1 (HK h Hh)))) s Ht) as (_ & C2 & st2 & S2 & L2).
    destruct g, h. cbn in *. rewrite S1 in S2. injection S2 as <-. congruence.
  - intros g s Hi Hs. destruct (logged_facts g s (proj1 (proj2 (proj2 (proj1 (HK g Hi)))) s Hs)) as ((_ & _ & Gr) & _ & C & _). now rewrite <- C.
Qed.

Lemma entries_len groups kept : NoDup (map fst (all_entries groups kept)) -> (forall g s, In g groups -> In s (kept g) -> logged mhash m g s) ->
  List.length (all_entries groups kept) <= List.length (flat_map drain_packed (into_shards m)).
Proof.
  intros Nd Lk. pose proof (mi_ok _ _ _ (sl_inv _ _ _ _ SL)) as Ok.
  rewrite <- (map_length fst (all_entries groups kept)), <- (map_length fst (flat_map drain_packed (into_shards m))).
  assert (Lg : forall s, In s (map fst (all_entries groups kept)) -> exists g, logged mhash m g s).
  { intros s Hs. apply in_map_iff in Hs. destruct Hs as ((s', b) & <- & Hs). apply all_entries_In in Hs. destruct Hs as (g & Hg & Hs & _). cbn. exists g. auto. }
  rewrite <- (map_length (fun s => (channels s, pk s)) (map fst (all_entries groups kept))). apply NoDup_incl_length.
  - apply NoDup_map_inj_in; auto. intros s t Hs Ht Eq. injection Eq as E1 E2. destruct (Lg s Hs) as (? & Ws & _). destruct (Lg t Ht) as (? & Wt & _). now apply pk_inj.
  - intros x Hx. apply in_map_iff in Hx. destruct Hx as (s & <- & Hs). destruct (Lg s Hs) as (g & W & C & st & St & Lo).
    apply in_map_iff. exists (channels s, pk s, st). split; auto. apply (drain_all_In mhash); [apply Ok|]. exists s. split; auto. eapply stored_okk; eauto.
Qed.
End Pipe.

(* the set of all values is not pruned away if it is the only one in its group, and otherwise it is *)
Lemma top_kept mhash n m k kept : (forall s, logged mhash m (n, k) s -> s = all_values n) -> logged mhash m (n, k) (all_values n) ->
  kept_ok mhash m (n, k) kept -> In (all_values n) kept.
Proof.
  intros Only L (_ & _ & Lk & Cov & _). destruct (Cov _ L) as [H|(c & Hc & Len & _)]; auto. exfalso. rewrite (Only c (Lk c Hc)) in Len. lia.
Qed.

Lemma top_dropped mhash n m k kept s : logged mhash m (n, k) s -> s <> all_values n -> kept_ok mhash m (n, k) kept -> ~ In (all_values n) kept.
Proof.
  intros L Ne (_ & _ & Lk & Cov & Inc) H.
  assert (C : exists c, In c kept /\ os_len c < os_len (all_values n)).
  { pose proof L as (W & C & _). cbn in C. assert (Lt : os_len s < os_len (all_values n)) by (rewrite <- C in *; now apply smaller_than_all).
    destruct (Cov s L) as [Hs|(c & Hc & Lc & _)]; [exists s|exists c]; split; auto; lia. }
  destruct C as (c & Hc & Lt). apply (Inc c (all_values n)); auto. destruct (Lk c Hc) as (W & C & _). cbn in C. rewrite <- C. now apply covers_all.
Qed.
