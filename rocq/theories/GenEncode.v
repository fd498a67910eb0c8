(* encode_proof of ProofGenModel.v: it ends, references go backwards, the target comes last. *)
From Coq Require Import String List Arith Bool Lia ZArith Permutation Sorted.
Import ListNotations.
From Verif Require Import Spec Vec Net Graded Bits Util OutputSetModel OutputSetProofs PackProofs HuffmanModel RefCheckerModel DecodeModel DecodeProofs
  TreeModel IndexModel IndexSpec StatesModel StatesProofs SearchModel SearchFacts SearchOrder FileModel LogModel ProofGenModel GenLoad GenSteps PropDecode.

Definition wits (st : PStep) : list (option PWitness) :=
  match st with PHuffman _ ws => ws | PSuccessors ws => ws | _ => [] end.
Definition trivial (st : PStep) : Prop := st = PTrivial \/ st = PNotSorted.

Lemma Forall2_r {A B} (P : A -> B -> Prop) l m b : Forall2 P l m -> In b m -> exists a, In a l /\ P a b.
Proof. induction 1 as [|x y l m Hp F IH]; intros []; [subst; exists x; cbn; auto|]. destruct IH as (a & Ha & Pa); auto. exists a; cbn; auto. Qed.

Lemma Forall2_l {A B} (P : A -> B -> Prop) l m a : Forall2 P l m -> In a l -> exists b, In b m /\ P a b.
Proof. induction 1 as [|x y l m Hp F IH]; intros []; [subst; exists y; cbn; auto|]. destruct IH as (b & Hb & Pb); auto. exists b; cbn; auto. Qed.

Lemma step_wits E b s st inv p c : okset s -> channels s <> 0 -> step_ok E b s st -> In (Some (inv, p, c)) (wits st) ->
  (exists b', In (c, b') E) /\ smaller c s.
Proof.
  intros K N H I. destruct st as [| |pol ws|ws]; cbn in I; try easy.
  - destruct H as (_ & _ & L & h & -> & F & _). apply in_map_iff in I. destruct I as (x & Ex & Hx).
    destruct (Forall2_r _ _ _ _ F Hx) as (ch & Hc & q & Eq & A). rewrite Ex in A. destruct A as (A1 & A2 & A3 & A4 & A5 & _).
    destruct (prune_facts s pol ch K Hc) as (q' & Eq' & Kq & Cq & Lt & _). assert (q' = q) by congruence. subst q'.
    split. eauto. left. lia.
  - destruct H as (_ & _ & L & -> & F). apply in_map_iff in I. destruct I as (x & Ex & Hx).
    destruct (Forall2_r _ _ _ _ F Hx) as ((i, j) & Hc & A & _). rewrite Ex in A. destruct A as (A1 & A2 & A3 & A4 & A5 & _). cbn [fst snd] in *.
    apply filter_In in Hc. destruct Hc as (Hc & Ch). cbn [fst snd] in Ch. split. eauto.
    destruct (comparator_facts s i j K Hc) as ((Wt & _) & _).
    eapply (witness_smaller s _ c inv p); eauto. apply comparator_smaller; auto.
Qed.

(* what an emitted witness says *)
Definition ref_ok (g : GenProof) (es : list entry) (w : option PWitness) (w' : option Witness) : Prop :=
  match w, w' with
  | None, None => True
  | Some (inv, p, c), Some x => winvert x = inv /\ wperm x = p /\ exists i e, stepId x = Z.of_nat i /\ nth_error es i = Some e /\ eset e = c
  | Some (inv, p, c), None => exists st, set_get c (steps g) = Some st /\ trivial st
  | None, Some _ => False
  end.

Definition entry_from (g : GenProof) (es : list entry) (e : entry) : Prop :=
  In (eset e, ebound e) (output_sets g) /\ exists st, set_get (eset e) (steps g) = Some st /\
    match st, ewits e with
    | PHuffman pol ws, Huffman pol' ws' => pol' = pol /\ Forall2 (ref_ok g es) ws ws'
    | PSuccessors ws, Successors ws' => Forall2 (ref_ok g es) ws ws'
    | _, _ => False
    end.

Record emitted (g : GenProof) (es : list entry) : Prop := {
  em_enc : Forall2 encodes es (step_data g);
  em_from : forall i e, nth_error es i = Some e -> entry_from g (firstn i es) e;
  em_keys : keys_wf (step_ids g);
  em_ids : forall s id, wf s -> (set_get s (step_ids g) = Some id <-> exists e, nth_error es id = Some e /\ eset e = s);
  em_nodup : NoDup (map eset es) }.

Definition same_tables (g g' : GenProof) : Prop := output_sets g' = output_sets g /\ steps g' = steps g /\ pruned_indexes g' = pruned_indexes g.
Lemma same_trans a b c : same_tables a b -> same_tables b c -> same_tables a c.
Proof. unfold same_tables. intuition congruence. Qed.

Lemma ref_ok_mono g g' es es' w w' : same_tables g g' -> ref_ok g es w w' -> ref_ok g' (es ++ es') w w'.
Proof.
  intros (_ & S & _). destruct w as [((inv, p), c)|], w' as [x|]; cbn; auto; rewrite ?S; auto.
  intros (A & B & i & e & C & D & F). split; auto. split; auto. exists i, e. split; auto. split; auto. rewrite nth_error_app1; auto. apply nth_error_Some. congruence.
Qed.

(* the tables after prove_all *)
Record tables (g : GenProof) (E : list (OutputSet * nat)) : Prop := {
  tb_gen : gen_ok g E;
  tb_ok : forall s b, In (s, b) E -> okset s /\ 1 < channels s;
  tb_steps : forall s b, In (s, b) E -> exists st, set_get s (steps g) = Some st /\ step_ok E b s st }.

Lemma tables_same g g' E : same_tables g g' -> tables g E -> tables g' E.
Proof.
  intros (S1 & S2 & S3) [[A1 A2 A3 A4] B C]. split; auto. split; rewrite ?S3, ?S1; auto. intros s b H. rewrite S2. auto.
Qed.

Lemma prove_all_ok g E g' : gen_ok g E -> (forall s b, In (s, b) E -> okset s /\ 1 < channels s) -> prove_all g = Some g' ->
  tables g' E /\ step_ids g' = step_ids g /\ step_data g' = step_data g /\ pruned_indexes g' = pruned_indexes g.
Proof.
  intros G K H. unfold prove_all in H.
  destruct (map_opt (fun e => st <- find_step g (snd e) (fst e);; Some (fst e, st)) (output_sets g)) as [sts|] eqn:Em; [|discriminate].
  cbv beta iota in H. injection H as <-. cbn. split; auto. destruct G as [A1 A2 A3 A4].
  apply map_opt_Some in Em.
  assert (Fs : map fst sts = map fst (output_sets g)).
  { clear -Em. induction Em as [|(s, b) y l m H F IH]; cbn; auto. f_equal; auto. destruct (find_step g _ _); [|discriminate]. injection H as <-. reflexivity. }
  assert (Kw : keys_wf sts).
  { intros s st Hs. assert (I : In s (map fst sts)) by (apply in_map_iff; exists (s, st); auto). rewrite Fs in I. apply in_map_iff in I.
    destruct I as ((s', b) & <- & I). apply (A2 _ _ I). }
  split; auto. now split.
  intros s b Hs. apply A4 in Hs. assert (Fst : exists st, In (s, st) sts /\ find_step g b s = Some st).
  { clear -Em Hs. induction Em as [|(s', b') y l m H F IH]; cbn in Hs; [easy|]. destruct Hs as [Eq|Hs].
    - injection Eq as -> ->. cbn [fst snd] in H. destruct (find_step g b s) as [st|] eqn:Ef; [|discriminate]. cbv iota beta in H. injection H as <-. exists st; cbn; auto.
    - destruct (IH Hs) as (st & I & Ef). exists st; cbn; auto. }
  destruct Fst as (st & I & Ef). exists st. cbn. split.
  - apply In_set_get; auto. rewrite Fs. auto.
  - eapply find_step_ok; eauto. now split. apply (K s b). now apply A4.
Qed.

Lemma witness_bytes_enc inv p i : witness_bytes (Some (inv, p, i)) = enc_witness (Some (mkWitness (Z.of_nat i) inv p)).
Proof. reflexivity. Qed.

Lemma Forall2_length {A B} (P : A -> B -> Prop) l m : Forall2 P l m -> length l = length m.
Proof. induction 1; cbn; auto. Qed.

Definition le_set (a t : OutputSet) : Prop := a = t \/ smaller a t.

Section Encode.
Variables (g0 : GenProof) (E : list (OutputSet * nat)).
Hypothesis T0 : tables g0 E.

(* what encode_proof on t does from any reachable state, given enough fuel *)
Definition encodes_target (F : nat) (t : OutputSet) : Prop :=
  forall fuel g es, F <= fuel -> same_tables g0 g -> emitted g es ->
    exists g' es' r, encode_proof fuel g t = Some (g', r) /\ same_tables g0 g' /\ emitted g' (es ++ es') /\
      (forall e, In e es' -> le_set (eset e) t) /\
      match r with
      | Some id => (exists e, nth_error (es ++ es') id = Some e /\ eset e = t) /\ (es' = [] \/ S id = length (es ++ es'))
      | None => es' = [] /\ exists st, set_get t (steps g0) = Some st /\ trivial st
      end.

Lemma encode_list F ws t : (forall inv p c, In (Some (inv, p, c)) ws -> smaller c t /\ encodes_target F c) ->
  forall fuel g es data, F <= fuel -> same_tables g0 g -> emitted g es ->
    exists g' es' ws', encode_witnesses (encode_proof fuel) ws g data = Some (g', data ++ flat_map enc_witness ws') /\ same_tables g0 g' /\
      emitted g' (es ++ es') /\ (forall e, In e es' -> smaller (eset e) t) /\ Forall2 (ref_ok g0 (es ++ es')) ws ws'.
Proof.
  induction ws as [|w ws IH]; intros H fuel g es data Hf T Em.
  { exists g, [], []. cbn. rewrite !app_nil_r. split; auto. split; auto. split; auto. split; [intros ? []|constructor]. }
  assert (H' : forall inv p c, In (Some (inv, p, c)) ws -> smaller c t /\ encodes_target F c) by (intros; apply (H inv p c); now right).
  unfold encode_witnesses in *. cbn [fold_opt]. destruct w as [((inv, p), c)|].
  - destruct (H inv p c (or_introl eq_refl)) as (Sm & Ht). destruct (Ht fuel g es Hf T Em) as (g1 & es1 & r & E1 & S1 & Em1 & L1 & R1).
    rewrite E1. cbv beta iota.
    destruct (IH H' fuel g1 (es ++ es1) (data ++ witness_bytes (option_map (fun i => (inv, p, i)) r)) Hf S1 Em1) as (g2 & es2 & ws2 & E2 & S2 & Em2 & L2 & R2).
    exists g2, (es1 ++ es2), (option_map (fun i => mkWitness (Z.of_nat i) inv p) r :: ws2). rewrite E2. rewrite <- app_assoc in Em2, R2.
    split; [destruct r; cbn [option_map flat_map]; rewrite <- !app_assoc; reflexivity|].
    split; auto. split; auto. split.
    + intros e He. apply in_app_or in He. destruct He as [He|He]; auto. destruct (L1 e He) as [->|Y]; auto. eapply smaller_trans; eauto.
    + constructor; auto. destruct r as [id|]; cbn.
      * destruct R1 as ((e & Hn & He) & _). split; auto. split; auto. exists id, e. split; auto. split; auto. rewrite app_assoc. rewrite nth_error_app1; auto. apply nth_error_Some. congruence.
      * destruct R1 as (_ & st & Hs & Ts). exists st. auto.
  - destruct (IH H' fuel g es (data ++ witness_bytes None) Hf T Em) as (g2 & es2 & ws2 & E2 & S2 & Em2 & L2 & R2).
    exists g2, es2, (None :: ws2). rewrite E2. split; [cbn [flat_map]; rewrite <- !app_assoc; reflexivity|]. split; auto. split; auto. split; auto. constructor; auto. exact I.
Qed.

Lemma common_fuel ws : (forall inv p c, In (Some (inv, p, c) : option PWitness) ws -> exists F, encodes_target F c) ->
  exists F, forall inv p c, In (Some (inv, p, c)) ws -> encodes_target F c.
Proof.
  induction ws as [|w ws IH]; intros H. exists 0. intros ? ? ? [].
  destruct IH as (F & HF). intros; eapply (H inv p); now right.
  assert (Hw : exists F', forall inv p c, w = Some (inv, p, c) -> encodes_target F' c).
  { destruct w as [((inv, p), c)|]. destruct (H inv p c (or_introl eq_refl)) as (F' & H'). exists F'. intros ? ? ? Eq. injection Eq as <- <- <-. auto. exists 0; discriminate. }
  destruct Hw as (F' & HF'). exists (max F F'). intros inv p c [Eq|I]; intros fuel g es Hf. apply (HF' inv p c Eq); lia. apply (HF inv p c I); lia.
Qed.

Lemma nth_error_snoc {A} (l : list A) x i y : nth_error (l ++ [x]) i = Some y -> (i < length l /\ nth_error l i = Some y) \/ (i = length l /\ y = x).
Proof.
  intros H. destruct (lt_dec i (length l)) as [L|L]. rewrite nth_error_app1 in H by auto. auto.
  rewrite nth_error_app2 in H by lia. destruct (i - length l) as [|k] eqn:Ek. right. split. lia. cbn in H. congruence.
  destruct k; discriminate.
Qed.

Lemma firstn_snoc {A} (l : list A) x i : i <= length l -> firstn i (l ++ [x]) = firstn i l.
Proof. intros H. rewrite firstn_app. replace (i - length l) with 0 by lia. cbn. apply app_nil_r. Qed.

Lemma Forall2_snoc {A B} (P : A -> B -> Prop) l m a b : Forall2 P l m -> P a b -> Forall2 P (l ++ [a]) (m ++ [b]).
Proof. intros; apply Forall2_app; auto. Qed.

Lemma set_get_app {V} (l : list (OutputSet * V)) s t v : set_get s (l ++ [(t, v)]) = match set_get s l with Some w => Some w | None => if os_eqb t s then Some v else None end.
Proof. induction l as [|(k, w) l IH]; cbn; auto. destruct (os_eqb k s); auto. Qed.

(* the last part of encode_proof: a new step *)
Lemma emit g es t b ws' st : same_tables g0 g -> emitted g es -> In (t, b) E -> ~ In t (map eset es) -> set_get t (steps g0) = Some st ->
  match st, ws' with
  | PHuffman pol ws, Huffman pol' ws' => pol' = pol /\ Forall2 (ref_ok g0 es) ws ws'
  | PSuccessors ws, Successors ws' => Forall2 (ref_ok g0 es) ws ws'
  | _, _ => False
  end ->
  emitted (mkGen (pruned_indexes g) (output_sets g) (steps g) (set_put t (length (step_data g)) (step_ids g))
                 (step_data g ++ [enc_step (channels t) b (pk t) (kind_of ws') (list_of ws')])) (es ++ [mkEntry t b ws']).
Proof.
  intros S [M1 M2 M3 M4 M5] I N Hs Hw. destruct T0 as [G K _]. assert (Wt : wf t) by apply (K t b I).
  assert (Ld : length (step_data g) = length es) by (symmetry; eapply Forall2_length; eauto).
  assert (Nk : ~ In t (map fst (step_ids g))).
  { intros H. apply in_map_iff in H. destruct H as ((t', id) & <- & H). cbn in *.
    destruct (set_get t' (step_ids g)) as [id'|] eqn:Eg.
    - apply M4 in Eg; auto. destruct Eg as (e & Hn & He). apply N. rewrite <- He. apply in_map. eapply nth_error_In; eauto.
    - now elim (proj1 (set_get_none (step_ids g) t' M3 Wt) Eg id). }
  assert (Sp : set_put t (length (step_data g)) (step_ids g) = step_ids g ++ [(t, length es)]) by (rewrite set_put_new; auto; now rewrite Ld).
  destruct S as (S1 & S2 & S3).
  split; cbn [step_data step_ids output_sets steps].
  - apply Forall2_snoc; auto. exists (pk t). split; auto. now apply packed_pk.
  - intros i e Hn. apply nth_error_snoc in Hn. destruct Hn as [(Hi & Hn)|(-> & ->)].
    + rewrite firstn_snoc by lia. destruct (M2 i e Hn) as (A & st' & B & C). split; auto. exists st'. split; auto.
    + rewrite firstn_snoc by lia. rewrite firstn_all. split; cbn [eset ebound ewits output_sets steps].
      * rewrite S1. now apply (go_sets g0 E G).
      * exists st. split. congruence.
        assert (R : forall w w', ref_ok g0 es w w' -> ref_ok (mkGen (pruned_indexes g) (output_sets g) (steps g) (set_put t (length (step_data g)) (step_ids g))
                 (step_data g ++ [enc_step (channels t) b (pk t) (kind_of ws') (list_of ws')])) es w w').
        { intros w w' Hr. unfold ref_ok in *. cbn [steps]. rewrite S2. exact Hr. }
        destruct st, ws'; try easy. destruct Hw as (-> & Hw). split; auto. eapply Forall2_In_impl; eauto. eapply Forall2_In_impl; eauto.
  - rewrite Sp. intros s v Hv. apply in_app_or in Hv. destruct Hv as [Hv|[Eq|[]]]. eapply M3; eauto. injection Eq as <- <-. auto.
  - intros s id Ws. rewrite Sp, set_get_app. destruct (set_get s (step_ids g)) as [id'|] eqn:Eg.
    + apply M4 in Eg; auto. destruct Eg as (e & Hn & He). split.
      * intros Eq. injection Eq as <-. exists e. split; auto. rewrite nth_error_app1; auto. apply nth_error_Some. congruence.
      * intros (e' & Hn' & He'). apply nth_error_snoc in Hn'. destruct Hn' as [(Hi & Hn')|(-> & ->)].
        -- f_equal. assert (X : set_get s (step_ids g) = Some id') by (apply M4; eauto). assert (Y : set_get s (step_ids g) = Some id) by (apply M4; eauto). congruence.
        -- cbn in He'. elim N. rewrite He', <- He. apply in_map. eapply nth_error_In; eauto.
    + destruct (os_eqb t s) eqn:Eo.
      * apply os_eqb_wf in Eo; auto. subst s. split.
        -- intros Eq. injection Eq as <-. exists (mkEntry t b ws'). split; auto. rewrite nth_error_app2, Nat.sub_diag; auto.
        -- intros (e' & Hn' & He'). apply nth_error_snoc in Hn'. destruct Hn' as [(Hi & Hn')|(-> & ->)]; auto.
           elim N. rewrite <- He'. apply in_map. eapply nth_error_In; eauto.
      * split; [discriminate|]. intros (e' & Hn' & He'). apply nth_error_snoc in Hn'. destruct Hn' as [(Hi & Hn')|(-> & ->)].
        -- assert (Y : set_get s (step_ids g) = Some id) by (apply M4; eauto). congruence.
        -- cbn in He'. subst s. rewrite (proj2 (os_eqb_wf t t Wt Wt)) in Eo; congruence.
  - rewrite map_app. cbn. apply (Permutation_NoDup (l := t :: map eset es)). apply Permutation_cons_append. now constructor.
Qed.

Theorem encode_target : forall t b, In (t, b) E -> exists F, encodes_target F t.
Proof.
  intros t. induction t as [t IH] using (well_founded_induction smaller_wf). intros b I.
  destruct (tb_ok _ _ T0 t b I) as (K & C). destruct (tb_steps _ _ T0 t b I) as (st & Hst & So).
  assert (Hw : forall inv p c, In (Some (inv, p, c)) (wits st) -> smaller c t /\ exists F, encodes_target F c).
  { intros inv p c Hi. destruct (step_wits E b t st inv p c K ltac:(lia) So Hi) as ((b' & Hb) & Sm). split; auto. eapply IH; eauto. }
  destruct (common_fuel (wits st)) as (F & HF). { intros inv p c Hi. eapply Hw; eauto. }
  exists (S F). intros fuel g es Hf Sg Em. destruct fuel as [|f]; [lia|]. cbn [encode_proof].
  assert (Wt : wf t) by apply K.
  destruct (set_get t (step_ids g)) as [id|] eqn:Ei.
  { exists g, [], (Some id). rewrite app_nil_r. split; auto. split; auto. split; auto. split; [intros ? []|]. split; auto. now apply (em_ids _ _ Em). }
  destruct Sg as (S1 & S2 & S3). rewrite S1, (proj1 (go_get g0 E t b (tb_gen _ _ T0)) I), (packed_pk t Wt), S2, Hst. cbv beta iota zeta.
  assert (Sg : same_tables g0 g) by (split; auto).
  assert (Ww : forall inv p c, In (Some (inv, p, c)) (wits st) -> smaller c t /\ encodes_target F c) by (intros; split; [eapply Hw; eauto|eapply HF; eauto]).
  assert (Nt : forall es', (forall e, In e es' -> smaller (eset e) t) -> ~ In t (map eset (es ++ es'))).
  { intros es' Hs Hi. apply in_map_iff in Hi. destruct Hi as (e & He & Hi). apply in_app_or in Hi. destruct Hi as [Hi|Hi].
    - apply In_nth_error in Hi. destruct Hi as (id & Hn). assert (X : set_get t (step_ids g) = Some id) by (apply (em_ids _ _ Em); eauto). congruence.
    - specialize (Hs e Hi). rewrite He in Hs. now apply smaller_irrefl in Hs. }
  assert (Tr : trivial st -> exists g' es' r, Some (g, None) = Some (g', r) /\ same_tables g0 g' /\ emitted g' (es ++ es') /\
      (forall e, In e es' -> le_set (eset e) t) /\
      match r with
      | Some id => (exists e, nth_error (es ++ es') id = Some e /\ eset e = t) /\ (es' = [] \/ S id = length (es ++ es'))
      | None => es' = [] /\ exists st', Some st = Some st' /\ trivial st'
      end).
  { intros Tr. exists g, [], (@None nat). rewrite app_nil_r. split; auto. split; auto. split; auto. split; [intros ? []|]. split; auto. exists st. auto. }
  assert (Mk : forall mk ws, (st = PHuffman true ws /\ mk = Huffman true) \/ (st = PHuffman false ws /\ mk = Huffman false) \/ (st = PSuccessors ws /\ mk = Successors) ->
    exists g' es' r, (x <- encode_witnesses (encode_proof f) ws g (([channels t; b] ++ pk t) ++ [kind_of (mk [])]);;
        (let '(g', data) := x in
         let id := length (step_data g') in
         Some (mkGen (pruned_indexes g') (output_sets g') (steps g') (set_put t id (step_ids g')) (step_data g' ++ [data]), Some id))) = Some (g', r) /\
      same_tables g0 g' /\ emitted g' (es ++ es') /\ (forall e, In e es' -> le_set (eset e) t) /\
      match r with
      | Some id => (exists e, nth_error (es ++ es') id = Some e /\ eset e = t) /\ (es' = [] \/ S id = length (es ++ es'))
      | None => es' = [] /\ exists st', Some st = Some st' /\ trivial st'
      end).
  { intros mk ws Hk. assert (Ew : wits st = ws) by (destruct Hk as [(-> & _)|[(-> & _)|(-> & _)]]; reflexivity). rewrite Ew in Ww.
    destruct (encode_list F ws t Ww f g es (([channels t; b] ++ pk t) ++ [kind_of (mk [])]) ltac:(lia) Sg Em) as (g1 & es1 & ws1 & E1 & Sg1 & Em1 & L1 & R1).
    rewrite E1. cbv beta iota zeta. eexists _, (es1 ++ [mkEntry t b (mk ws1)]), _. split; [reflexivity|]. split. { exact Sg1. }
    rewrite !app_assoc. assert (Ld : length (step_data g1) = length (es ++ es1)) by (symmetry; eapply Forall2_length; apply (em_enc _ _ Em1)).
    split; [|split; [|split]].
    - replace ((([channels t; b] ++ pk t) ++ [kind_of (mk [])]) ++ flat_map enc_witness ws1) with (enc_step (channels t) b (pk t) (kind_of (mk ws1)) (list_of (mk ws1))).
      + apply (emit g1 (es ++ es1) t b (mk ws1) st); auto. destruct Hk as [(-> & ->)|[(-> & ->)|(-> & ->)]]; auto.
      + unfold enc_step. rewrite <- !app_assoc. destruct Hk as [(-> & ->)|[(-> & ->)|(-> & ->)]]; reflexivity.
    - intros e He. apply in_app_or in He. destruct He as [He|[<-|[]]]. right; auto. left; auto.
    - exists (mkEntry t b (mk ws1)). split; auto. rewrite Ld. rewrite nth_error_app2, Nat.sub_diag; auto.
    - right. rewrite app_length. cbn. rewrite Ld. lia. }
  destruct st as [| |pol ws|ws].
  - apply Tr. now left.
  - apply Tr. now right.
  - destruct pol. apply (Mk (Huffman true) ws); auto. apply (Mk (Huffman false) ws); auto.
  - apply (Mk Successors ws); auto.
Qed.
End Encode.
