(* traverse and traverse_mut of TreeModel.v visit every entry of the tree once, except below nodes that the
   filter rejects. *)
From Coq Require Import List Arith Bool Lia Permutation.
Import ListNotations.
From Verif Require Import Spec Vec Util TreeModel TreeProofs.

(* augmentation and ranges describe the entries es *)
Definition covered (g : Aug) (rg : list (nat * nat)) (es : list Entry) : Prop :=
  a_size g = length es /\
  (forall e, In e es -> a_min g <= e_value e <= a_max g /\ in_rng rg (e_point e)).

Section Walk.
Context {S_ : Type}.
Variable filt : S_ -> Aug -> list (nat * nat) -> bool.
Variable act : S_ -> Entry -> option (S_ * bool).
Variable mact : S_ -> Entry -> option (S_ * TResult).

Inductive Walk : S_ -> list Entry -> S_ -> Prop :=
| W_nil s : Walk s [] s
| W_visit s e s1 L s2 : act s e = Some (s1, true) -> Walk s1 L s2 -> Walk s (e :: L) s2
| W_stop s e s1 L : act s e = Some (s1, false) -> Walk s (e :: L) s1
| W_skip s g rg es L s' : filt s g rg = false -> covered g rg es -> Walk s L s' -> Walk s (es ++ L) s'.

Definition with_value (e : Entry) (v : nat) : Entry := mkEntry (e_point e) (e_packed e) v.

Inductive MWalk : S_ -> list Entry -> S_ -> list Entry -> Prop :=
| M_nil s : MWalk s [] s []
| M_break s e s1 v L : mact s e = Some (s1, RBreak v) -> MWalk s (e :: L) s1 (with_value e v :: L)
| M_retain s e s1 v L s2 L' : mact s e = Some (s1, RRetain v) -> MWalk s1 L s2 L' -> MWalk s (e :: L) s2 (with_value e v :: L')
| M_remove s e s1 v L s2 L' : mact s e = Some (s1, RRemove v) -> MWalk s1 L s2 L' -> MWalk s (e :: L) s2 L'
| M_skip s g rg es L s' L' : filt s g rg = false -> covered g rg es -> MWalk s L s' L' -> MWalk s (es ++ L) s' (es ++ L')
| M_perm s L L1 s' L' : Permutation L L1 -> MWalk s L1 s' L' -> MWalk s L s' L'.
End Walk.

(* ---------- positions ---------- *)

Definition pend1 (dir : bool) (f : frame) : list Entry := if eqb (fr_isr f) dir then [] else fents dir (fr_sib f).
Definition pend (dir : bool) (C : list frame) : list Entry := flat_map (pend1 dir) C.
Definition done1 (dir : bool) (f : frame) : list Entry := if eqb (fr_isr f) dir then fents dir (fr_sib f) else [].
Definition done (dir : bool) (C : list frame) : list Entry := flat_map (done1 dir) C.
Definition pcost1 (dir : bool) (f : frame) : nat := if eqb (fr_isr f) dir then 0 else cost (fr_sib f).
Fixpoint pcost (dir : bool) (C : list frame) : nat := match C with [] => 0 | f :: C' => pcost1 dir f + pcost dir C' end.

Lemma upd_ctx_pend dir C g : pend dir (upd_ctx C g) = pend dir C.
Proof. unfold pend. revert g. induction C as [|f C IH]; cbn; auto. intros g. now rewrite IH. Qed.
Lemma upd_ctx_done dir C g : done dir (upd_ctx C g) = done dir C.
Proof. unfold done. revert g. induction C as [|f C IH]; cbn; auto. intros g. now rewrite IH. Qed.
Lemma upd_ctx_pcost dir C g : pcost dir (upd_ctx C g) = pcost dir C.
Proof. revert g. induction C as [|f C IH]; intros g; cbn [upd_ctx pcost]; [reflexivity|]. now rewrite IH. Qed.

Definition GZ (st : Tree) (C : list frame) (t : ft) : Prop := ZR st C t /\ gT t /\ gC C (fag t) (fe t).

Lemma aug_comb_comm a b : aug_comb a b = aug_comb b a.
Proof. unfold aug_comb. f_equal; lia. Qed.

Lemma pincl_app_comm P Q : pincl (P ++ Q) (Q ++ P).
Proof. apply incl_pincl. intros x. rewrite !in_app_iff. tauto. Qed.

Lemma GZ_up st f C t : GZ st (f :: C) t <-> GZ st C (plug1 f t).
Proof.
  unfold GZ. rewrite ZR_up, plug1_fag. cbn [gC].
  assert (E : gC C (fr_ag f) (fe t ++ fe (fr_sib f)) <-> gC C (fr_ag f) (fe (plug1 f t))).
  { unfold plug1. destruct (fr_isr f); cbn; [|tauto]. split; apply gC_mono; apply pincl_app_comm. }
  rewrite E.
  assert (E2 : in_rg (fr_rg f) (fe t ++ fe (fr_sib f)) <-> in_rg (fr_rg f) (fe (fr_sib f) ++ fe t)).
  { split; apply in_rg_pincl; apply pincl_app_comm. }
  unfold combf, plug1. destruct (fr_isr f); cbn; tauto.
Qed.

Lemma GZ_flip st f C t : GZ st (f :: C) t -> GZ st (fflip f t :: C) (fr_sib f).
Proof.
  intros H. apply GZ_up. apply GZ_up in H.
  replace (plug1 (fflip f t) (fr_sib f)) with (plug1 f t); auto.
  unfold plug1, fflip. cbn. now destruct (fr_isr f).
Qed.

Lemma plug1_fe f t : Permutation (fe (plug1 f t)) (fe t ++ fe (fr_sib f)).
Proof. unfold plug1. destruct (fr_isr f); cbn; auto. apply Permutation_app_comm. Qed.

(* the whole tree, when nothing is pending *)
Fixpoint zip_up (C : list frame) (t : ft) : ft := match C with [] => t | f :: C' => zip_up C' (plug1 f t) end.
Lemma GZ_zip st C t : GZ st C t -> GZ st [] (zip_up C t).
Proof. revert t. induction C as [|f C IH]; cbn; auto. intros t H. apply IH. now apply GZ_up. Qed.

Lemma zip_fe dir C t : Permutation (fe (zip_up C t)) (fe t ++ pend dir C ++ done dir C).
Proof.
  revert t. induction C as [|f C IH]; intros t; cbn.
  - now rewrite app_nil_r.
  - rewrite IH, plug1_fe. unfold pend1, done1. fold (pend dir C). fold (done dir C).
    pose proof (fents_perm dir (fr_sib f)) as Q.
    destruct (eqb (fr_isr f) dir); cbn; rewrite <- !app_assoc; apply Permutation_app_head; rewrite <- Q.
    + rewrite !app_assoc. apply Permutation_app_tail. apply Permutation_app_comm.
    + reflexivity.
Qed.

Lemma fskip_spec dir st C t : GZ st C t ->
  match fskip dir C t with
  | None => pend dir C = []
  | Some (C', t') => GZ st C' t' /\ pend dir C = fents dir t' ++ pend dir C'
      /\ Permutation (fe t ++ done dir C) (done dir C') /\ pcost dir C = cost t' + pcost dir C'
  end.
Proof.
  revert t. induction C as [|f C IH]; intros t Z; cbn [fskip]; auto.
  cbn [pend flat_map done pcost]. fold (pend dir C). fold (done dir C). unfold pend1, done1, pcost1.
  destruct (eqb (fr_isr f) dir) eqn:E.
  - apply GZ_up in Z. specialize (IH _ Z). destruct (fskip dir C (plug1 f t)) as [[C' t']|]; auto.
    destruct IH as (H1 & H2 & H3 & H4). split; [exact H1|]. split; [exact H2|]. split; [|exact H4].
    rewrite <- H3, plug1_fe. rewrite <- app_assoc. apply Permutation_app_head. apply Permutation_app_tail. apply fents_perm.
  - split; [now apply GZ_flip|]. cbn [pend done flat_map pcost]. fold (pend dir C). fold (done dir C). unfold pend1, done1, pcost1. cbn [fflip fr_isr fr_sib].
    assert (E2 : eqb (negb (fr_isr f)) dir = true) by (destruct (fr_isr f), dir; auto; discriminate).
    rewrite E2. cbn. repeat split; auto. apply Permutation_app_tail. symmetry. apply fents_perm.
Qed.

Lemma aug_of_spec es g : aug_of es = Some g ->
  a_size g = length es /\ (forall e, In e es -> a_min g <= e_value e <= a_max g).
Proof.
  destruct es as [|e r]; [discriminate|]. intros [= <-]. cbn [a_size a_min a_max]. split; auto.
  assert (Mn : forall (r : list Entry) m, fold_left (fun m x => Nat.min m (e_value x)) r m <= m
     /\ forall x, In x r -> fold_left (fun m x => Nat.min m (e_value x)) r m <= e_value x).
  { clear. induction r as [|a r IH]; intros m; cbn. split; auto. intros x [].
    destruct (IH (Nat.min m (e_value a))) as (H1 & H2). split. lia. intros x [<-|Hx]; auto. lia. }
  assert (Mx : forall (r : list Entry) m, m <= fold_left (fun m x => Nat.max m (e_value x)) r m
     /\ forall x, In x r -> e_value x <= fold_left (fun m x => Nat.max m (e_value x)) r m).
  { clear. induction r as [|a r IH]; intros m; cbn. split; auto. intros x [].
    destruct (IH (Nat.max m (e_value a))) as (H1 & H2). split. lia. intros x [<-|Hx]; auto. lia. }
  destruct (Mn r (e_value e)) as (A1 & A2). destruct (Mx r (e_value e)) as (B1 & B2).
  intros x [<-|Hx]; auto.
Qed.

Lemma gT_covered t : gT t -> covered (fag t) (frg t) (fe t).
Proof.
  induction t as [i g rg a es|i g rg l IHl r IHr]; cbn.
  - intros (H & R). apply aug_of_spec in H. destruct H as (H1 & H2). split; auto.
  - intros (-> & R & A & B). destruct (IHl A) as (L1 & L2). destruct (IHr B) as (R1 & R2). split.
    + cbn. rewrite app_length. lia.
    + intros e He. split; [|now apply R]. cbn. apply in_app_iff in He. destruct He as [He|He].
      * specialize (L2 e He). lia.
      * specialize (R2 e He). lia.
Qed.

Lemma covered_perm g rg es es' : Permutation es es' -> covered g rg es -> covered g rg es'.
Proof.
  intros P (A & B). split. now rewrite <- (Permutation_length P). intros e He. apply B.
  eapply Permutation_in; [symmetry; exact P|auto].
Qed.

(* entering a node *)
Definition down (dir : bool) (i : nat) (g : Aug) (rg : list (nat * nat)) (l r : ft) : frame * ft :=
  if dir then (mkFr i g rg false r, l) else (mkFr i g rg true l, r).

Lemma GZ_down dir st C i g rg l r : GZ st C (FN i g rg l r) ->
  GZ st (fst (down dir i g rg l r) :: C) (snd (down dir i g rg l r)).
Proof. intros H. apply GZ_up. destruct dir; cbn; unfold plug1; cbn; auto. Qed.

Lemma down_pend dir C i g rg l r :
  fents dir (FN i g rg l r) ++ pend dir C =
  fents dir (snd (down dir i g rg l r)) ++ pend dir (fst (down dir i g rg l r) :: C).
Proof. destruct dir; cbn; unfold pend1; cbn; now rewrite app_assoc. Qed.
Lemma down_done dir C i g rg l r : done dir (fst (down dir i g rg l r) :: C) = done dir C.
Proof. destruct dir; reflexivity. Qed.
Lemma down_cost dir C i g rg l r :
  cost (FN i g rg l r) + pcost dir C = S (cost (snd (down dir i g rg l r)) + pcost dir (fst (down dir i g rg l r) :: C)).
Proof. destruct dir; cbn; unfold pcost1; cbn; lia. Qed.

Lemma GZ_node st C t : GZ st C t ->
  exists l, node_at st (fid t) (mkNode (fag t) (cpar C) (cisr C) l) (frg t)
    /\ l = match t with FL _ _ _ a es => Leaf a (a + length es) | FN _ _ _ l r => Inner (fid l) (fid r) end.
Proof. intros ((A & _) & _). now apply rp_node. Qed.

Section Traverse.
Context {S_ : Type}.
Variable filt : S_ -> Aug -> list (nat * nat) -> bool.
Variable act : S_ -> Entry -> option (S_ * bool).
Variable ok : Entry -> Prop.
Hypothesis Hact : forall s e, ok e -> act s e <> None.

Lemma traverse_f_ok fuel st dir :
  (forall C t us, GZ st C t -> cost t + pcost dir C <= fuel -> Forall ok (fents dir t ++ pend dir C) ->
     exists us', traverse_f filt act fuel st dir us (TNode (fid t)) = Some us' /\ Walk filt act us (fents dir t ++ pend dir C) us') /\
  (forall C i g rg a es1 e es2 us, GZ st C (FL i g rg a (es1 ++ e :: es2)) -> S (length es2) + pcost dir C <= fuel -> Forall ok (e :: es2 ++ pend dir C) ->
     exists us', traverse_f filt act fuel st dir us (TPoint i (a + length es1)) = Some us' /\ Walk filt act us (e :: es2 ++ pend dir C) us').
Proof.
  induction fuel as [|fuel (IHn & IHp)].
  { split. intros C t us _ H. destruct t; cbn in H; lia. intros; lia. }
  assert (Skip : forall C t us, GZ st C t -> pcost dir C <= fuel -> Forall ok (pend dir C) ->
     exists us' tst, traversal_skip st dir (fid t) = Some tst /\ traverse_f filt act fuel st dir us tst = Some us'
        /\ Walk filt act us (pend dir C) us').
  { intros C t us Z Hc Hk. destruct (skip_ok dir st C t (proj1 Z)) as (E & _).
    pose proof (fskip_spec dir st C t Z) as F. rewrite E.
    destruct (fskip dir C t) as [[C' t']|].
    - destruct F as (Z' & F2 & _ & F4). destruct (IHn C' t' us Z') as (us' & T & W). lia. now rewrite <- F2.
      exists us', (TNode (fid t')). rewrite F2. auto.
    - exists us, TDone. rewrite F. split; auto. split; [destruct fuel; auto|]. constructor. }
  split.
  - intros C t us Z Hc Hk. cbn [traverse_f].
    destruct (GZ_node st C t Z) as (l & (E & Er) & El). rewrite E, Er. cbn [n_aug].
    destruct (filt us (fag t) (frg t)) eqn:Ef.
    + unfold traversal_enter. rewrite E. cbn [n_links]. subst l.
      destruct t as [i g rg a es|i g rg l r].
      * destruct es as [|e es]. { destruct Z as (_ & (Z & _) & _). discriminate. }
        destruct (IHp C i g rg a [] e es us) as (us' & T & W); auto. { cbn in Hc. lia. }
        cbn [length] in T. rewrite Nat.add_0_r in T. exists us'. split; auto.
      * destruct (IHn _ _ us (GZ_down dir st C i g rg l r Z)) as (us' & T & W).
        { rewrite down_cost in Hc. lia. } { now rewrite down_pend in Hk. }
        exists us'. rewrite down_pend. split; auto.
        destruct dir; exact T.
    + destruct (Skip C t us Z) as (us' & tst & E1 & T & W). { destruct t; cbn in Hc; lia. } { now apply Forall_app in Hk. }
      rewrite E1. exists us'. split; auto. eapply W_skip; eauto.
      eapply covered_perm; [symmetry; apply fents_perm|]. apply gT_covered. apply Z.
  - intros C i g rg a es1 e es2 us Z Hc Hk. cbn [traverse_f]. apply Forall_cons_iff in Hk. destruct Hk as (Hk0 & Hk).
    pose proof Z as ((A & _) & _). cbn in A. destruct A as ((En & _) & G).
    assert (Ee : nth_error (t_ents st) (a + length es1) = Some e).
    { rewrite G. rewrite nth_error_app2, Nat.sub_diag by lia. auto. rewrite app_length. cbn. lia. }
    rewrite Ee. destruct (act us e) as [[us1 go]|] eqn:Ea; [|now apply Hact in Ea; auto].
    destruct go.
    + unfold traversal_next. rewrite En. cbn [n_links]. rewrite app_length. cbn [length].
      destruct es2 as [|e2 es2].
      * replace (S (a + length es1) =? a + (length es1 + S (length (@nil Entry)))) with true by (symmetry; apply Nat.eqb_eq; cbn; lia).
        destruct (Skip C _ us1 Z) as (us' & tst & E1 & T & W). { cbn in Hc. lia. } { exact Hk. }
        cbn [fid] in E1. rewrite E1. exists us'. split; auto. cbn. eapply W_visit; eauto.
      * replace (S (a + length es1) =? a + (length es1 + S (length (e2 :: es2)))) with false by (symmetry; apply Nat.eqb_neq; cbn; lia).
        destruct (IHp C i g rg a (es1 ++ [e]) e2 es2 us1) as (us' & T & W).
        { rewrite <- app_assoc. exact Z. } { cbn in Hc. lia. } { exact Hk. }
        rewrite app_length in T. cbn [length] in T. replace (a + (length es1 + 1)) with (S (a + length es1)) in T by lia.
        exists us'. split; auto. eapply W_visit; eauto.
    + exists us1. split; auto. apply W_stop. auto.
Qed.

End Traverse.

(* what a tree stores *)
Definition tree_inv (st : Tree) (L : list Entry) : Prop :=
  (t_nodes st = [] /\ L = []) \/ (exists t, GZ st [] t /\ Permutation (fe t) L).

Lemma traverse_ok {S_} filt act st (us : S_) dir L : tree_inv st L -> (forall s e, In e L -> act s e <> None) ->
  exists us' L', traverse st us dir filt act = Some us' /\ Permutation L' L /\ Walk filt act us L' us'.
Proof.
  intros [(E & ->)|(t & Z & P)] Ha.
  - exists us, []. unfold traverse, traversal_root. rewrite E. repeat split; auto. cbn. destruct (length (t_ents st)); auto. constructor.
  - destruct (proj1 (traverse_f_ok filt act (fun e => In e L) Ha (length (t_nodes st) + length (t_ents st)) st dir) [] t us Z) as (us' & T & W).
    { cbn. rewrite Nat.add_0_r. apply ZR_root_cost. apply Z. }
    { cbn. rewrite app_nil_r. apply Forall_forall. intros e. apply Permutation_in. now rewrite fents_perm. }
    exists us', (fents dir t). split; [|split].
    + unfold traverse, traversal_root. rewrite (ZR_fid0 _ _ (proj1 Z)) in T.
      destruct (t_nodes st) eqn:E; auto. destruct Z as ((A & _) & _). apply rp_node in A.
      destruct A as (l & (A & _) & _). rewrite E in A. destruct (fid t); discriminate.
    + now rewrite fents_perm.
    + cbn in W. now rewrite app_nil_r in W.
Qed.

Lemma tree_len_ok st L : tree_inv st L -> tree_len st = length L.
Proof.
  intros [(E & ->)|(t & Z & P)]; unfold tree_len.
  - now rewrite E.
  - destruct (GZ_node _ _ _ Z) as (l & (E & _) & _). rewrite (ZR_fid0 _ _ (proj1 Z)) in E.
    destruct (t_nodes st) as [|nd r]; [discriminate|]. injection E as ->. cbn [n_aug].
    destruct (gT_covered t (proj1 (proj2 Z))) as (S & _). rewrite S. now apply Permutation_length.
Qed.

Lemma gT_nonempty t : gT t -> fe t <> [].
Proof.
  induction t as [i g rg a es|i g rg l IHl r IHr]; cbn.
  - intros (H & _) ->. discriminate.
  - intros (_ & _ & A & B) E. apply app_eq_nil in E. now apply IHl.
Qed.

Lemma tree_is_empty_ok st L : tree_inv st L -> tree_is_empty st = match L with [] => true | _ => false end.
Proof.
  intros [(E & ->)|(t & Z & P)]; unfold tree_is_empty.
  - now rewrite E.
  - destruct (GZ_node _ _ _ Z) as (l & (E & _) & _). rewrite (ZR_fid0 _ _ (proj1 Z)) in E.
    destruct (t_nodes st) as [|nd r]; [discriminate|]. destruct L; auto.
    symmetry in P. apply Permutation_nil in P. apply gT_nonempty in P; [easy|]. apply Z.
Qed.

Lemma tree_inv_perm st L L' : Permutation L L' -> tree_inv st L -> tree_inv st L'.
Proof.
  intros P [(E & ->)|(t & Z & Q)].
  - left. split; auto. now apply Permutation_nil.
  - right. exists t. split; auto. now transitivity L.
Qed.
