(* gen_proof of ProofGenModel.v as a whole. *)
From Coq Require Import String List Arith Bool Lia ZArith Permutation Sorted.
Import ListNotations.
From Verif Require Import Spec Vec Net Graded Bits Util OutputSetModel OutputSetProofs PruneProofs PackProofs CountProofs HuffmanModel HuffmanProofs
  VerifiedCheckerModel VerifiedCheckerProofs RefCheckerModel RefCheckerProofs DecodeModel DecodeProofs AgreeProofs
  TreeModel IndexModel IndexSpec StatesModel StatesProofs SearchModel SearchFacts SearchOrder FileModel FileProofs LogModel DumpProofs PruneLogProofs CrashProofs
  ProofGenModel GenLoad GenSteps GenEncode GenCheck PropDecode.

(* ---- fuel ---- *)
Lemma encode_witnesses_mono (e1 e2 : GenProof -> OutputSet -> option (GenProof * option nat)) ws : (forall g t r, e1 g t = Some r -> e2 g t = Some r) ->
  forall g d r, encode_witnesses e1 ws g d = Some r -> encode_witnesses e2 ws g d = Some r.
Proof.
  intros H. unfold encode_witnesses. induction ws as [|w ws IH]; intros g d r; cbn [fold_opt]; auto.
  destruct w as [((inv, p), c)|]; auto. destruct (e1 g c) as [(g', id)|] eqn:E1; [|discriminate]. rewrite (H _ _ _ E1). cbv beta iota. auto.
Qed.

Lemma encode_mono f : forall f' g t r, f <= f' -> encode_proof f g t = Some r -> encode_proof f' g t = Some r.
Proof.
  induction f as [|f IH]; intros f' g t r Hf H; [discriminate|]. destruct f' as [|f']; [lia|]. cbn [encode_proof] in *.
  destruct (set_get t (step_ids g)); auto. destruct (set_get t (output_sets g)) as [b|]; auto. cbv beta iota in *.
  destruct (packed t) as [pk|]; auto. cbv beta iota zeta in *. destruct (set_get t (steps g)) as [st|]; auto. cbv beta iota zeta in *.
  assert (M : forall ws d x, encode_witnesses (encode_proof f) ws g d = Some x -> encode_witnesses (encode_proof f') ws g d = Some x).
  { intros ws d x. apply encode_witnesses_mono. intros g1 t1 r1. apply IH. lia. }
  destruct st as [| |pol ws|ws]; auto; (destruct (encode_witnesses (encode_proof f) ws g _) as [x|] eqn:Ew; [|discriminate]; rewrite (M _ _ _ Ew); auto).
Qed.

(* ---- the pruned files of a log ---- *)
Record pruned_log (fs : Fs) (groups : list (nat * nat)) (sets : nat * nat -> list OutputSet) : Prop := {
  pl_index : fs index_name = Some (index_text groups);
  pl_files : forall g, In g groups -> pruned_file fs g (sets g);
  pl_nodup : NoDup (map fst (all_entries groups sets));
  pl_graded : forall g s, In g groups -> In s (sets g) -> graded (fst g) (vs s) }.

Lemma all_entries_In groups sets s b : In (s, b) (all_entries groups sets) <-> exists g, In g groups /\ In s (sets g) /\ b = snd g.
Proof.
  unfold all_entries. rewrite in_flat_map. split.
  - intros (g & Hg & H). apply in_map_iff in H. destruct H as (s' & Eq & H). injection Eq as -> <-. eauto.
  - intros (g & Hg & H & ->). exists g. split; auto. apply in_map_iff. eauto.
Qed.

Lemma pl_okset fs groups sets s b : pruned_log fs groups sets -> In (s, b) (all_entries groups sets) -> okset s /\ 1 < channels s.
Proof.
  intros P H. apply all_entries_In in H. destruct H as (g & Hg & Hs & ->). destruct (pl_files _ _ _ P g Hg) as (_ & _ & L1 & L2 & _ & W).
  destruct (W s Hs) as (Ws & C). split; [|lia]. split; auto. split. rewrite C; auto. rewrite C. eapply pl_graded; eauto.
Qed.

Lemma max_channels_ok ixs E : holds ixs E -> E <> [] -> exists n, max_channels ixs = Some n /\ (exists s b, In (s, b) E /\ channels s = n) /\ forall s b, In (s, b) E -> channels s <= n.
Proof.
  intros [So Ix He] Ne. unfold max_channels.
  assert (Nx : ixs <> []). { intros ->. destruct E as [|(s, b) E]; [congruence|]. destruct (He s b (or_introl eq_refl)) as (_ & ix & []). }
  destruct (exists_last Nx) as (l & (n, ix) & ->). rewrite rev_app_distr. cbn. exists n. split; auto.
  assert (Top : forall k x, In (k, x) (l ++ [(n, ix)]) -> k <= n).
  { clear -So. induction l as [|(a, y) l IH]; cbn in *; intros k x H. destruct H as [H|[]]. injection H; lia.
    inversion So as [|? ? So' Fo]; subst. destruct H as [H|H]; eauto. injection H as -> ->. rewrite Forall_forall in Fo. specialize (Fo (n, ix)). cbn in Fo. assert (k < n) by (apply Fo; apply in_or_app; cbn; auto). lia. }
  split.
  - destruct (Ix n ix) as (_ & _ & H & _ & Pm & Nh). apply in_or_app; cbn; auto. destruct H as [|(s, b) H]; [congruence|].
    assert (I : In (s, b) (of_channels n E)) by (eapply Permutation_in; [exact Pm|]; cbn; auto). apply of_channels_In in I. exists s, b. auto.
  - intros s b H. destruct (He s b H) as (_ & x & Hx). eapply Top; eauto.
Qed.

Lemma emitted_nil ixs os st : emitted (mkGen ixs os st [] []) [].
Proof. split; cbn; auto. intros [|i] e; discriminate. intros ? ? []. intros s id _. split; [discriminate|]. intros (e & H & _). destruct id; discriminate. constructor. Qed.

Theorem gen_main_full fs groups sets : pruned_log fs groups sets -> groups <> [] -> let E := all_entries groups sets in
  exists n, In n (map fst groups) /\ (forall g, In g groups -> fst g <= n) /\
  (((forall fuel, gen_proof fuel fs = None) /\ exists g0, gen_ok g0 E /\ (prove_all g0 = None \/ forall b, ~ In (all_values n, b) E)) \/
   exists g0 g es b F, tables g0 E /\ same_tables g0 g /\ emitted g es /\ In (all_values n, b) E /\
     (forall fuel, F <= fuel -> gen_proof fuel fs = Some (write_proof (step_data g))) /\
     ((es = [] /\ exists st, step_ok E b (all_values n) st /\ trivial st) \/ (es <> [] /\ exists e, nth_error es (length es - 1) = Some e /\ eset e = all_values n))).
Proof.
  intros P Ng E. destruct (load_indexes_ok fs groups sets (pl_index _ _ _ P) (pl_files _ _ _ P)) as (ixs & El & Ho). fold E in Ho.
  assert (Ne : E <> []).
  { destruct groups as [|g gs]; [congruence|]. destruct (pl_files _ _ _ P g (or_introl eq_refl)) as (_ & Ns & _). unfold E, all_entries. cbn. destruct (sets g); [congruence|discriminate]. }
  destruct (max_channels_ok ixs E Ho Ne) as (n & En & (s0 & b0 & H0 & C0) & Max). exists n.
  assert (Hn : In n (map fst groups)).
  { apply all_entries_In in H0. destruct H0 as (g & Hg & Hs & _). apply in_map_iff. exists g. split; auto. rewrite <- C0. symmetry. apply (pl_files _ _ _ P g Hg). auto. }
  split; auto. split.
  { intros g Hg. destruct (pl_files _ _ _ P g Hg) as (_ & Ns & _ & _ & _ & W). destruct (sets g) as [|s l] eqn:Es; [congruence|].
    destruct (W s (or_introl eq_refl)) as (_ & <-). apply (Max s (snd g)). apply all_entries_In. exists g. rewrite Es. cbn. auto. }
  destruct (gen_new_ok ixs E Ho (pl_nodup _ _ _ P)) as (os & Eg & Kw & Nd & Io).
  assert (G : gen_ok (mkGen ixs os [] [] []) E) by (split; auto).
  assert (Ge : forall fuel, gen_proof fuel fs = (g <- prove_all (mkGen ixs os [] [] []);; r <- encode_proof fuel g (all_values n);; Some (write_proof (step_data (fst r))))).
  { intros fuel. unfold gen_proof. rewrite El. cbv beta iota. rewrite En. cbv beta iota. now rewrite Eg. }
  destruct (prove_all (mkGen ixs os [] [] [])) as [g0|] eqn:Ep; [|left; split; [intros fuel; now rewrite Ge|eauto]].
  destruct (prove_all_ok _ E g0 G (fun s b H => pl_okset fs groups sets s b P H) Ep) as (T0 & Si & Sd & Sx).
  assert (Em : emitted g0 []). { destruct g0; cbn in *. subst. apply emitted_nil. }
  assert (Wn : wf (all_values n)) by apply all_values_wf.
  destruct (set_get (all_values n) (output_sets g0)) as [b|] eqn:Eb.
  - assert (Ib : In (all_values n, b) E) by (apply (proj2 (go_get g0 E _ b (tb_gen _ _ T0))); auto).
    destruct (encode_target g0 E T0 (all_values n) b Ib) as (F & HF).
    assert (Sg : same_tables g0 g0) by (repeat split).
    destruct (HF F g0 [] (le_n _) Sg Em) as (g & es & r & Er & Sg' & Em' & _ & Hr). cbn [app] in *. right. exists g0, g, es, b, F. split; auto. split; auto. split; auto. split; auto. split.
    { intros fuel Hf. rewrite Ge. cbv beta iota. now rewrite (encode_mono F fuel _ _ _ Hf Er). }
    destruct r as [id|].
    + right. destruct Hr as ((e & He & Hs) & D). destruct es as [|x es]. destruct id; discriminate. split. discriminate. destruct D as [D|D]; [discriminate|]. exists e. split; auto.
      rewrite <- D. replace (S id - 1) with id by lia. auto.
    + left. destruct Hr as (-> & st & Hst & Tr). split; auto. destruct (tb_steps _ _ T0 _ _ Ib) as (st' & Hst' & So). exists st. split; auto. congruence.
  - left. split. 2:{ exists g0. split; [apply T0|]. right. intros b H. apply (proj1 (go_get g0 E _ b (tb_gen _ _ T0))) in H. congruence. }
    intros fuel. rewrite Ge. cbv beta iota. destruct fuel as [|f]; auto. cbn [encode_proof]. rewrite Si. cbn [set_get step_ids]. now rewrite Eb.
Qed.

Theorem gen_main fs groups sets : pruned_log fs groups sets -> groups <> [] -> let E := all_entries groups sets in
  exists n, In n (map fst groups) /\ (forall g, In g groups -> fst g <= n) /\
  ((forall fuel, gen_proof fuel fs = None) \/
   exists g0 g es b F, tables g0 E /\ same_tables g0 g /\ emitted g es /\ In (all_values n, b) E /\
     (forall fuel, F <= fuel -> gen_proof fuel fs = Some (write_proof (step_data g))) /\
     ((es = [] /\ exists st, step_ok E b (all_values n) st /\ trivial st) \/ (es <> [] /\ exists e, nth_error es (length es - 1) = Some e /\ eset e = all_values n))).
Proof.
  intros P Ng E. destruct (gen_main_full fs groups sets P Ng) as (n & A & B & [(C & _)|C]); exists n; auto.
Qed.

Lemma gen_proof_run fs fuel file F x : gen_proof fuel fs = Some file -> (forall fuel, F <= fuel -> gen_proof fuel fs = Some x) -> file = x.
Proof.
  intros H Run. specialize (Run (max F fuel) ltac:(lia)). unfold gen_proof in *. destruct (load_indexes fs) as [ixs|]; [|discriminate]. cbv beta iota in *.
  destruct (max_channels ixs) as [m|]; [|discriminate]. cbv beta iota in *. destruct (gen_new ixs) as [gn|]; [|discriminate]. cbv beta iota in *.
  destruct (prove_all gn) as [gp|]; [|discriminate]. cbv beta iota in *. destruct (encode_proof fuel gp (all_values m)) as [r|] eqn:Er; [|discriminate].
  rewrite (encode_mono fuel (max F fuel) _ _ _ ltac:(lia) Er) in Run. congruence.
Qed.

Lemma emitted_from g0 g es : same_tables g0 g -> emitted g es -> forall i e, nth_error es i = Some e -> entry_from g0 (firstn i es) e.
Proof.
  intros St Em i e Hi. destruct (em_from _ _ Em i e Hi) as (A & st & B & C). destruct St as (S1 & S2 & S3). split. congruence. exists st. split. congruence.
  assert (R : forall w w', ref_ok g (firstn i es) w w' -> ref_ok g0 (firstn i es) w w') by (intros w w'; unfold ref_ok; now rewrite S2).
  destruct st, (ewits e); try easy. destruct C as (-> & C). split; auto. eapply Forall2_In_impl; eauto. eapply Forall2_In_impl; eauto.
Qed.
