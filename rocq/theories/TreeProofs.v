(* The array tree of TreeModel.v represents a functional tree; traversals walk a zipper over it. *)
From Coq Require Import List Arith Bool Lia Permutation.
Import ListNotations.
From Verif Require Import Spec Vec Util TreeModel.

(* ---------- lists ---------- *)

Lemma nth_error_upd {A} (l : list A) i v j :
  nth_error (upd l i v) j = if (j =? i) && (i <? length l) then Some v else nth_error l j.
Proof.
  revert i j. induction l as [|a l IH]; intros [|i] [|j]; cbn; auto.
  - now rewrite andb_false_r.
  - rewrite IH. reflexivity.
Qed.

Lemma nth_error_upd_eq {A} (l : list A) i v : i < length l -> nth_error (upd l i v) i = Some v.
Proof. intros H. rewrite nth_error_upd, Nat.eqb_refl. apply Nat.ltb_lt in H. now rewrite H. Qed.

Lemma nth_error_upd_neq {A} (l : list A) i v j : j <> i -> nth_error (upd l i v) j = nth_error l j.
Proof. intros H. rewrite nth_error_upd. apply Nat.eqb_neq in H. now rewrite H. Qed.

Lemma nth_error_lt {A} (l : list A) i x : nth_error l i = Some x -> i < length l.
Proof. intros H. apply nth_error_Some. now rewrite H. Qed.

Definition seg {A} (l : list A) (a : nat) (es : list A) : Prop :=
  forall i, i < length es -> nth_error l (a + i) = nth_error es i.

Lemma nth_error_ext {A} (l l' : list A) : (forall i, nth_error l i = nth_error l' i) -> l = l'.
Proof.
  revert l'. induction l as [|a l IH]; intros [|b l'] H; auto.
  - specialize (H 0). discriminate.
  - specialize (H 0). discriminate.
  - pose proof (H 0) as H0. cbn in H0. injection H0 as ->. f_equal. apply IH. intros i. apply (H (S i)).
Qed.

Lemma nth_error_firstn' {A} (l : list A) k i : nth_error (firstn k l) i = if i <? k then nth_error l i else None.
Proof.
  revert k i. induction l as [|a l IH]; intros [|k] [|i]; cbn [firstn nth_error]; auto.
  - now destruct (_ <? _).
  - rewrite IH. reflexivity.
Qed.

Lemma nth_error_skipn' {A} (l : list A) k i : nth_error (skipn k l) i = nth_error l (k + i).
Proof. revert l. induction k as [|k IH]; intros [|a l]; cbn; auto. now destruct i. Qed.

Lemma seg_slice {A} (l : list A) a es : seg l a es -> slice l a (a + length es) = es.
Proof.
  intros H. apply nth_error_ext. intros i. unfold slice. rewrite nth_error_firstn', nth_error_skipn'.
  replace (a + length es - a) with (length es) by lia.
  destruct (i <? length es) eqn:E.
  - apply H. now apply Nat.ltb_lt.
  - symmetry. apply nth_error_None. now apply Nat.ltb_ge.
Qed.

Lemma seg_slice_c {A} (l : list A) a es : seg l a es -> 0 < length es -> slice_c l a (a + length es) = Some es.
Proof.
  intros H L. unfold slice_c. rewrite (proj2 (Nat.leb_le _ _)) by lia.
  assert (B : a + length es <= length l).
  { specialize (H (length es - 1) ltac:(lia)).
    assert (Q : nth_error es (length es - 1) <> None) by (apply nth_error_Some; lia). rewrite <- H in Q. apply nth_error_Some in Q. lia. }
  rewrite (proj2 (Nat.leb_le _ _)) by exact B. cbn [andb]. now rewrite seg_slice.
Qed.

Lemma slice_c_in {A} (l : list A) a b : a <= b -> b <= length l -> slice_c l a b = Some (slice l a b).
Proof. intros H1 H2. unfold slice_c. rewrite !(proj2 (Nat.leb_le _ _)) by lia. reflexivity. Qed.

Lemma slice_seg {A} (l : list A) a b : a <= b -> b <= length l -> seg l a (slice l a b) /\ length (slice l a b) = b - a.
Proof.
  intros H1 H2. assert (E : length (slice l a b) = b - a) by (unfold slice; rewrite firstn_length, skipn_length; lia).
  split; auto. intros i Hi. unfold slice. rewrite nth_error_firstn', nth_error_skipn'.
  rewrite E in Hi. apply Nat.ltb_lt in Hi. now rewrite Hi.
Qed.

Lemma NoDup_bounded (l : list nat) n : NoDup l -> (forall x, In x l -> x < n) -> length l <= n.
Proof.
  intros H B. rewrite <- (seq_length n 0). apply NoDup_incl_length; auto.
  intros x Hx. apply in_seq. specialize (B x Hx). lia.
Qed.

Lemma NoDup_app_iff {A} (l l' : list A) :
  NoDup (l ++ l') <-> NoDup l /\ NoDup l' /\ (forall x, In x l -> ~ In x l').
Proof.
  induction l as [|a l IH]; cbn.
  - split; [intros H|intros (_ & H & _)]; auto. repeat split; auto using NoDup_nil.
  - rewrite !NoDup_cons_iff, IH, in_app_iff. split.
    + intros (H1 & H2 & H3 & H4). repeat split; auto. intros x [<-|Hx]; auto.
    + intros ((H1 & H2) & H3 & H4). repeat split; auto. intros [H|H]; auto. apply (H4 a); auto.
Qed.

(* ---------- functional trees ---------- *)

Inductive ft :=
| FL (id : nat) (ag : Aug) (rg : list (nat * nat)) (a : nat) (es : list Entry)
| FN (id : nat) (ag : Aug) (rg : list (nat * nat)) (l r : ft).

Definition fid (t : ft) : nat := match t with FL i _ _ _ _ => i | FN i _ _ _ _ => i end.
Definition fag (t : ft) : Aug := match t with FL _ g _ _ _ => g | FN _ g _ _ _ => g end.
Definition frg (t : ft) := match t with FL _ _ g _ _ => g | FN _ _ g _ _ => g end.
Definition set_ag (t : ft) (g : Aug) : ft := match t with FL i _ r a es => FL i g r a es | FN i _ rg l r => FN i g rg l r end.
Definition set_id (t : ft) (i : nat) : ft := match t with FL _ g r a es => FL i g r a es | FN _ g rg l r => FN i g rg l r end.

Fixpoint ids (t : ft) : list nat := match t with FL i _ _ _ _ => [i] | FN i _ _ l r => i :: ids l ++ ids r end.
Fixpoint poss (t : ft) : list nat := match t with FL _ _ _ a es => seq a (length es) | FN _ _ _ l r => poss l ++ poss r end.
Fixpoint fents (dir : bool) (t : ft) : list Entry :=
  match t with
  | FL _ _ _ _ es => es
  | FN _ _ _ l r => if dir then fents dir l ++ fents dir r else fents dir r ++ fents dir l
  end.
Notation fe := (fents true).
Fixpoint cost (t : ft) : nat := match t with FL _ _ _ _ es => S (length es) | FN _ _ _ l r => S (cost l + cost r) end.

Lemma fents_perm dir t : Permutation (fents dir t) (fe t).
Proof.
  induction t as [i g r a es|i g rg l IHl r IHr]; cbn; auto.
  destruct dir; auto. rewrite Permutation_app_comm. now apply Permutation_app.
Qed.

Lemma cost_ids_poss t : cost t = length (ids t) + length (poss t).
Proof. induction t; cbn; rewrite ?seq_length, ?app_length; lia. Qed.

Lemma ids_nonempty t : 1 <= length (ids t).
Proof. destruct t; cbn; lia. Qed.

Lemma fid_in t : In (fid t) (ids t).
Proof. destruct t; cbn; auto. Qed.

Lemma poss_fe t : length (poss t) = length (fe t).
Proof. induction t; cbn; rewrite ?seq_length, ?app_length; lia. Qed.

Definition node_at (st : Tree) (id : nat) (nd : Node) (rg : list (nat * nat)) : Prop :=
  nth_error (t_nodes st) id = Some nd /\ nth_error (t_ranges st) id = Some rg.

Fixpoint rp (st : Tree) (par : nat) (isr : bool) (t : ft) : Prop :=
  match t with
  | FL i g rg a es =>
      node_at st i (mkNode g par isr (Leaf a (a + length es))) rg /\ seg (t_ents st) a es
  | FN i g rg l r =>
      node_at st i (mkNode g par isr (Inner (fid l) (fid r))) rg /\ rp st i false l /\ rp st i true r
  end.

Record frame := mkFr { fr_id : nat; fr_ag : Aug; fr_rg : list (nat * nat); fr_isr : bool; fr_sib : ft }.

Definition plug1 (f : frame) (t : ft) : ft :=
  if fr_isr f then FN (fr_id f) (fr_ag f) (fr_rg f) (fr_sib f) t else FN (fr_id f) (fr_ag f) (fr_rg f) t (fr_sib f).

Definition cpar (C : list frame) : nat := match C with [] => 0 | f :: _ => fr_id f end.
Definition cisr (C : list frame) : bool := match C with [] => true | f :: _ => fr_isr f end.

Fixpoint rpc (st : Tree) (k : nat) (C : list frame) : Prop :=
  match C with
  | [] => k = 0
  | f :: C' =>
      node_at st (fr_id f) (mkNode (fr_ag f) (cpar C') (cisr C')
        (if fr_isr f then Inner (fid (fr_sib f)) k else Inner k (fid (fr_sib f)))) (fr_rg f)
      /\ rp st (fr_id f) (negb (fr_isr f)) (fr_sib f)
      /\ rpc st (fr_id f) C'
  end.

Definition cids (C : list frame) : list nat := flat_map (fun f => fr_id f :: ids (fr_sib f)) C.
Definition cposs (C : list frame) : list nat := flat_map (fun f => poss (fr_sib f)) C.

Definition ZR (st : Tree) (C : list frame) (t : ft) : Prop :=
  rp st (cpar C) (cisr C) t /\ rpc st (fid t) C
  /\ NoDup (ids t ++ cids C) /\ NoDup (poss t ++ cposs C).

(* ---------- frame rules ---------- *)

Lemma rp_ext st st' par isr t :
  (forall i, In i (ids t) -> nth_error (t_nodes st') i = nth_error (t_nodes st) i /\ nth_error (t_ranges st') i = nth_error (t_ranges st) i) ->
  (forall p, In p (poss t) -> nth_error (t_ents st') p = nth_error (t_ents st) p) ->
  rp st par isr t -> rp st' par isr t.
Proof.
  revert par isr. induction t as [i g rg a es|i g rg l IHl r IHr]; intros par isr H1 H2; cbn in *.
  - intros ((N & R) & G). destruct (H1 i (or_introl eq_refl)) as (E1 & E2).
    split. split; congruence. intros k Hk. rewrite H2; [now apply G|]. apply in_seq. lia.
  - intros ((N & R) & L & Rr). destruct (H1 i (or_introl eq_refl)) as (E1 & E2).
    split; [split; congruence|]. split.
    + apply IHl; auto; intros; [apply H1|apply H2]; rewrite ?in_app_iff; auto.
    + apply IHr; auto; intros; [apply H1|apply H2]; rewrite ?in_app_iff; auto.
Qed.

Lemma rpc_ext st st' k C :
  (forall i, In i (cids C) -> nth_error (t_nodes st') i = nth_error (t_nodes st) i /\ nth_error (t_ranges st') i = nth_error (t_ranges st) i) ->
  (forall p, In p (cposs C) -> nth_error (t_ents st') p = nth_error (t_ents st) p) ->
  rpc st k C -> rpc st' k C.
Proof.
  revert k. induction C as [|f C IH]; intros k H1 H2; cbn; auto.
  intros ((N & R) & P & Q). cbn in H1, H2. destruct (H1 _ (or_introl eq_refl)) as (E1 & E2).
  split; [split; congruence|]. split.
  - apply (rp_ext st); auto; intros; [apply H1|apply H2]; cbn; rewrite ?in_app_iff; auto.
  - apply IH; auto; intros; [apply H1|apply H2]; cbn; rewrite ?in_app_iff; auto.
Qed.

Lemma rp_bound st par isr t : rp st par isr t -> forall i, In i (ids t) -> i < length (t_nodes st).
Proof.
  revert par isr. induction t as [i g rg a es|i g rg l IHl r IHr]; cbn; intros par isr H j Hj.
  - destruct Hj as [<-|[]]. destruct H as ((N & _) & _). now apply nth_error_lt in N.
  - destruct H as ((N & _) & A & B). rewrite in_app_iff in Hj. destruct Hj as [<-|[Hj|Hj]]; eauto. now apply nth_error_lt in N.
Qed.

Lemma rp_poss_bound st par isr t : rp st par isr t -> forall i, In i (poss t) -> i < length (t_ents st).
Proof.
  revert par isr. induction t as [i g rg a es|i g rg l IHl r IHr]; cbn; intros par isr H j Hj.
  - destruct H as (_ & G). apply in_seq in Hj. specialize (G (j - a)).
    replace (a + (j - a)) with j in G by lia. specialize (G ltac:(lia)).
    destruct (nth_error es (j - a)) eqn:E.
    + now apply nth_error_lt in G.
    + apply nth_error_None in E. lia.
  - destruct H as (_ & A & B). rewrite in_app_iff in Hj. destruct Hj; eauto.
Qed.

Lemma rpc_bound st k C : rpc st k C -> forall i, In i (cids C) -> i < length (t_nodes st).
Proof.
  revert k. induction C as [|f C IH]; cbn; intros k H j Hj. destruct Hj.
  destruct H as ((N & _) & A & B). rewrite in_app_iff in Hj. destruct Hj as [<-|[Hj|Hj]]; eauto.
  - now apply nth_error_lt in N.
  - eapply rp_bound; eauto.
Qed.

Lemma rpc_poss_bound st k C : rpc st k C -> forall i, In i (cposs C) -> i < length (t_ents st).
Proof.
  revert k. induction C as [|f C IH]; cbn; intros k H j Hj. destruct Hj.
  destruct H as (_ & A & B). rewrite in_app_iff in Hj. destruct Hj as [Hj|Hj]; eauto. eapply rp_poss_bound; eauto.
Qed.

Lemma cids_length C : length C <= length (cids C).
Proof. induction C as [|f C IH]; auto. cbn. fold (cids C). rewrite app_length. lia. Qed.

Lemma ZR_depth st C t : ZR st C t -> length C < length (t_nodes st).
Proof.
  intros (A & B & N & _).
  assert (length (ids t ++ cids C) <= length (t_nodes st)).
  { apply NoDup_bounded; auto. intros x Hx. apply in_app_iff in Hx. destruct Hx.
    eapply rp_bound; eauto. eapply rpc_bound; eauto. }
  rewrite app_length in H. pose proof (cids_length C). pose proof (ids_nonempty t). lia.
Qed.

Lemma ZR_root_cost st t : ZR st [] t -> cost t <= length (t_nodes st) + length (t_ents st).
Proof.
  intros (A & B & N & M). cbn in N, M. rewrite app_nil_r in N, M. rewrite cost_ids_poss.
  assert (length (ids t) <= length (t_nodes st)) by (apply NoDup_bounded; auto; intros; eapply rp_bound; eauto).
  assert (length (poss t) <= length (t_ents st)) by (apply NoDup_bounded; auto; intros; eapply rp_poss_bound; eauto).
  lia.
Qed.

Lemma plug1_fid f t : fid (plug1 f t) = fr_id f.
Proof. unfold plug1. now destruct (fr_isr f). Qed.
Lemma plug1_fag f t : fag (plug1 f t) = fr_ag f.
Proof. unfold plug1. now destruct (fr_isr f). Qed.

Lemma plug1_ids f t : Permutation (ids (plug1 f t)) (ids t ++ fr_id f :: ids (fr_sib f)).
Proof.
  unfold plug1. destruct (fr_isr f); cbn; apply Permutation_cons_app; auto. apply Permutation_app_comm.
Qed.
Lemma plug1_poss f t : Permutation (poss (plug1 f t)) (poss t ++ poss (fr_sib f)).
Proof. unfold plug1. destruct (fr_isr f); cbn; auto. apply Permutation_app_comm. Qed.

Lemma ZR_up st f C t : ZR st (f :: C) t <-> ZR st C (plug1 f t).
Proof.
  unfold ZR. cbn [cpar cisr].
  assert (E1 : NoDup (ids t ++ cids (f :: C)) <-> NoDup (ids (plug1 f t) ++ cids C)).
  { assert (P : Permutation (ids (plug1 f t) ++ cids C) (ids t ++ cids (f :: C))).
    { rewrite plug1_ids. cbn. rewrite <- !app_assoc. cbn. auto. }
    split; intros H; eapply Permutation_NoDup; try exact H; auto using Permutation_sym. }
  assert (E2 : NoDup (poss t ++ cposs (f :: C)) <-> NoDup (poss (plug1 f t) ++ cposs C)).
  { assert (P : Permutation (poss (plug1 f t) ++ cposs C) (poss t ++ cposs (f :: C))).
    { rewrite plug1_poss. cbn. rewrite <- !app_assoc. cbn. auto. }
    split; intros H; eapply Permutation_NoDup; try exact H; auto using Permutation_sym. }
  rewrite E1, E2. rewrite plug1_fid. unfold plug1. cbn [rpc].
  destruct (fr_isr f); cbn; tauto.
Qed.

Definition fflip (f : frame) (t : ft) : frame := mkFr (fr_id f) (fr_ag f) (fr_rg f) (negb (fr_isr f)) t.

Lemma ZR_flip st f C t : ZR st (f :: C) t -> ZR st (fflip f t :: C) (fr_sib f).
Proof.
  intros H. apply ZR_up. apply ZR_up in H.
  replace (plug1 (fflip f t) (fr_sib f)) with (plug1 f t); auto.
  unfold plug1, fflip. cbn. now destruct (fr_isr f).
Qed.

(* ---------- skip ---------- *)

Fixpoint fskip (dir : bool) (C : list frame) (t : ft) : option (list frame * ft) :=
  match C with
  | [] => None
  | f :: C' => if eqb (fr_isr f) dir then fskip dir C' (plug1 f t) else Some (fflip f t :: C', fr_sib f)
  end.

Lemma rp_node st par isr t : rp st par isr t ->
  exists l, node_at st (fid t) (mkNode (fag t) par isr l) (frg t)
    /\ l = match t with FL _ _ _ a es => Leaf a (a + length es) | FN _ _ _ l r => Inner (fid l) (fid r) end.
Proof. destruct t; cbn; intros H; eexists; (split; [|reflexivity]); tauto. Qed.

Lemma ZR_fid_ne st f C t : ZR st (f :: C) t -> fid t <> 0.
Proof.
  intros (A & B & N & _) E.
  assert (In 0 (cids (f :: C))).
  { clear - B. revert f t B. induction C as [|g C IH]; intros f t B.
    - destruct B as (_ & _ & B). cbn in B. cbn. auto.
    - destruct B as (B1 & B2 & B3). cbn. right. apply in_app_iff. right.
      apply (IH g (FN (fr_id f) (fr_ag f) (fr_rg f) (fr_sib f) (fr_sib f))). exact B3. }
  apply NoDup_app_iff in N. destruct N as (_ & _ & N). apply (N (fid t)). apply fid_in. now rewrite E.
Qed.

Lemma ZR_fid0 st t : ZR st [] t -> fid t = 0.
Proof. intros (_ & B & _). exact B. Qed.

Lemma skip_f_ok dir fuel st C t : ZR st C t -> length C < fuel ->
  traversal_skip_f fuel st dir (fid t) = Some (match fskip dir C t with None => TDone | Some (_, t') => TNode (fid t') end)
  /\ (forall C' t', fskip dir C t = Some (C', t') -> ZR st C' t').
Proof.
  revert C t. induction fuel as [|fuel IH]; intros C t Z L; [lia|].
  destruct C as [|f C]; cbn [traversal_skip_f].
  - rewrite (ZR_fid0 _ _ Z). cbn. split; auto. discriminate.
  - pose proof (ZR_fid_ne _ _ _ _ Z) as NE. apply Nat.eqb_neq in NE. rewrite NE.
    pose proof Z as (A & B & _). destruct (rp_node _ _ _ _ A) as (l & (E & _) & _). cbn [cpar cisr] in E. rewrite E. cbn [n_right n_parent].
    cbn [fskip]. destruct (eqb (fr_isr f) dir) eqn:Ed.
    + apply ZR_up in Z. specialize (IH C (plug1 f t) Z). rewrite plug1_fid in IH. apply IH. cbn in L. lia.
    + cbn in B. destruct B as ((B & _) & _). rewrite B. cbn [n_links].
      split.
      * destruct (fr_isr f), dir; try discriminate; auto.
      * intros C' t' [= <- <-]. now apply ZR_flip.
Qed.

Lemma skip_ok dir st C t : ZR st C t ->
  traversal_skip st dir (fid t) = Some (match fskip dir C t with None => TDone | Some (_, t') => TNode (fid t') end)
  /\ (forall C' t', fskip dir C t = Some (C', t') -> ZR st C' t').
Proof. intros Z. apply skip_f_ok; auto. eapply ZR_depth; eauto. Qed.

(* ---------- invariants ---------- *)

Definition in_rng (rg : list (nat * nat)) (p : list nat) : Prop := Forall2 (fun r c => fst r <= c <= snd r) rg p.
Definition in_rg (rg : list (nat * nat)) (es : list Entry) : Prop := forall e, In e es -> in_rng rg (e_point e).

Fixpoint gT (t : ft) : Prop :=
  match t with
  | FL i g rg a es => aug_of es = Some g /\ in_rg rg es
  | FN i g rg l r => g = aug_comb (fag l) (fag r) /\ in_rg rg (fe l ++ fe r) /\ gT l /\ gT r
  end.

Definition combf (f : frame) (g : Aug) : Aug :=
  if fr_isr f then aug_comb (fag (fr_sib f)) g else aug_comb g (fag (fr_sib f)).

Fixpoint gC (C : list frame) (g : Aug) (P : list Entry) : Prop :=
  match C with
  | [] => True
  | f :: C' => fr_ag f = combf f g /\ gT (fr_sib f) /\ in_rg (fr_rg f) (P ++ fe (fr_sib f))
               /\ gC C' (fr_ag f) (P ++ fe (fr_sib f))
  end.

(* every point of P' occurs in P *)
Definition pincl (P' P : list Entry) : Prop := forall e, In e P' -> exists e', In e' P /\ e_point e' = e_point e.

Lemma pincl_app P P' Q : pincl P' P -> pincl (P' ++ Q) (P ++ Q).
Proof.
  intros H e. rewrite in_app_iff. intros [He|He].
  - destruct (H e He) as (e' & H1 & H2). exists e'. rewrite in_app_iff. auto.
  - exists e. rewrite in_app_iff. auto.
Qed.
Lemma in_rg_pincl rg P P' : pincl P' P -> in_rg rg P -> in_rg rg P'.
Proof. intros H G e He. destruct (H e He) as (e' & H1 & H2). rewrite <- H2. auto. Qed.
Lemma incl_pincl P P' : incl P' P -> pincl P' P.
Proof. intros H e He. exists e. auto. Qed.

Lemma gC_mono C g P P' : pincl P' P -> gC C g P -> gC C g P'.
Proof.
  revert g P P'. induction C as [|f C IH]; cbn; auto. intros g P P' H (A & B & D & E).
  pose proof (pincl_app P P' (fe (fr_sib f)) H). repeat split; eauto using in_rg_pincl.
Qed.

Definition set_fag (f : frame) (g : Aug) : frame := mkFr (fr_id f) g (fr_rg f) (fr_isr f) (fr_sib f).

Fixpoint upd_ctx (C : list frame) (g : Aug) : list frame :=
  match C with
  | [] => []
  | f :: C' => set_fag f (combf f g) :: upd_ctx C' (combf f g)
  end.

Lemma upd_ctx_same C g P : gC C g P -> upd_ctx C g = C.
Proof.
  revert g P. induction C as [|f C IH]; cbn; auto. intros g P (A & _ & _ & D).
  rewrite <- A. rewrite (IH _ _ D). f_equal. now destruct f.
Qed.

Lemma upd_ctx_gC C g g' P : gC C g P -> gC (upd_ctx C g') g' P.
Proof.
  revert g g' P. induction C as [|f C IH]; cbn; auto. intros g g' P (A & B & D & E).
  repeat split; auto. eapply IH; eauto.
Qed.

Definition calcag (t : ft) : option Aug :=
  match t with FL _ _ _ _ es => aug_of es | FN _ _ _ l r => Some (aug_comb (fag l) (fag r)) end.

Lemma aug_eqb_eq a b : aug_eqb a b = true <-> a = b.
Proof.
  unfold aug_eqb. rewrite !andb_true_iff, !Nat.eqb_eq. destruct a, b; cbn. split.
  - intros ((-> & ->) & ->). auto.
  - intros [= -> -> ->]. auto.
Qed.

Lemma set_ag_ids t g : ids (set_ag t g) = ids t. Proof. now destruct t. Qed.
Lemma set_ag_poss t g : poss (set_ag t g) = poss t. Proof. now destruct t. Qed.
Lemma set_ag_fid t g : fid (set_ag t g) = fid t. Proof. now destruct t. Qed.
Lemma set_ag_fag t g : fag (set_ag t g) = g. Proof. now destruct t. Qed.
Lemma set_ag_plug1 f t g : set_ag (plug1 f t) g = plug1 (set_fag f g) t.
Proof. unfold plug1, set_fag. cbn. now destruct (fr_isr f). Qed.

Definition same_but_nodes (st st' : Tree) : Prop :=
  t_dim st' = t_dim st /\ t_ents st' = t_ents st /\ t_ranges st' = t_ranges st /\ length (t_nodes st') = length (t_nodes st).

(* replacing the node of the focus by one with another augmentation *)
Lemma ZR_set_ag st C t g : ZR st C t ->
  exists nd, nth_error (t_nodes st) (fid t) = Some nd /\ n_parent nd = cpar C /\ n_right nd = cisr C /\ n_aug nd = fag t
   /\ ZR (set_node st (fid t) (mkNode g (n_parent nd) (n_right nd) (n_links nd))) C (set_ag t g).
Proof.
  intros (A & B & N & M). destruct (rp_node _ _ _ _ A) as (l & (E & Er) & El).
  eexists. split; [exact E|]. cbn [n_parent n_right n_aug n_links]. repeat split; auto.
  - pose proof (nth_error_lt _ _ _ E) as Lt. apply NoDup_app_iff in N. destruct N as (N1 & N2 & N3).
    destruct t as [i ag rg a es|i ag rg tl tr]; cbn in *.
    + destruct A as (_ & G). split; auto. subst l. split; cbn; auto. now rewrite nth_error_upd_eq.
    + destruct A as (_ & A1 & A2). subst l. apply NoDup_cons_iff in N1. destruct N1 as (N1 & _).
      split. split; cbn; auto. now rewrite nth_error_upd_eq.
      split; (eapply rp_ext; [| |eassumption]); cbn; auto; intros j Hj; split; auto;
        apply nth_error_upd_neq; intros ->; apply N1; apply in_app_iff; auto.
  - rewrite set_ag_fid. apply NoDup_app_iff in N. destruct N as (N1 & N2 & N3).
    eapply rpc_ext; [| |eassumption]; cbn; auto. intros j Hj. split; auto.
    apply nth_error_upd_neq. intros ->. apply (N3 (fid t)); auto. apply fid_in.
  - now rewrite set_ag_ids.
  - now rewrite set_ag_poss.
Qed.

Lemma ua_f_ok fuel st C t P g : ZR st C t -> gC C (fag t) P -> calcag t = Some g -> length C < fuel ->
  exists st', update_augmentation_f fuel st (fid t) = Some st'
    /\ ZR st' (upd_ctx C g) (set_ag t g) /\ same_but_nodes st st'.
Proof.
  revert st C t P g. induction fuel as [|fuel IH]; intros st C t P g Z G Cg L; [lia|].
  cbn [update_augmentation_f].
  destruct (ZR_set_ag st C t g Z) as (nd & E & Ep & Er & Ea & Z').
  rewrite E.
  assert (Eg : (match n_links nd with
             | Leaf start stop => es <- slice_c (t_ents st) start stop ;; aug_of es
             | Inner c0 c1 =>
                 if (c0 =? c1) || (fid t =? c0) || (fid t =? c1) then None else
                 n0 <- nth_error (t_nodes st) c0 ;;
                 n1 <- nth_error (t_nodes st) c1 ;;
                 Some (aug_comb (n_aug n0) (n_aug n1))
             end) = Some g).
  { destruct Z as (A & B & N & M). destruct (rp_node _ _ _ _ A) as (l & (E' & _) & El).
    rewrite E in E'. injection E' as ->. cbn [n_links]. subst l.
    destruct t as [i ag rg a es|i ag rg tl tr]; cbn in *.
    - destruct A as (_ & A). rewrite seg_slice_c; auto. destruct es; [discriminate|cbn; lia].
    - destruct A as (_ & A1 & A2).
      destruct (rp_node _ _ _ _ A1) as (l1 & (E1 & _) & _).
      destruct (rp_node _ _ _ _ A2) as (l2 & (E2 & _) & _).
      apply NoDup_cons_iff in N. destruct N as (N1 & N2). rewrite <- app_assoc in N1, N2.
      apply NoDup_app_iff in N2. destruct N2 as (_ & _ & N2).
      rewrite in_app_iff, in_app_iff in N1.
      destruct (Nat.eqb_spec (fid tl) (fid tr)) as [Q|_].
      { exfalso. apply (N2 (fid tl)). apply fid_in. rewrite Q. apply in_app_iff. left. apply fid_in. }
      destruct (Nat.eqb_spec i (fid tl)) as [Q|_].
      { exfalso. apply N1. left. rewrite Q. apply fid_in. }
      destruct (Nat.eqb_spec i (fid tr)) as [Q|_].
      { exfalso. apply N1. right. left. rewrite Q. apply fid_in. }
      cbn. rewrite E1, E2. exact Cg. }
  rewrite Eg, Ea. set (st1 := set_node _ _ _) in *.
  assert (SB : same_but_nodes st st1).
  { unfold st1, set_node, same_but_nodes. cbn. now rewrite upd_length. }
  destruct (aug_eqb g (fag t)) eqn:Eq.
  - apply aug_eqb_eq in Eq. subst g. cbn. exists st1. split; auto. rewrite (upd_ctx_same _ _ _ G). auto.
  - cbn [negb andb]. destruct C as [|f C].
    + rewrite (ZR_fid0 _ _ Z). cbn. exists st1. auto.
    + pose proof (ZR_fid_ne _ _ _ _ Z) as NE. apply Nat.eqb_neq in NE. rewrite NE. cbn [negb].
      cbn [cpar] in Ep. rewrite Ep. cbn [gC] in G. destruct G as (G1 & G2 & G3 & G4).
      assert (Z1 : ZR st1 C (plug1 f (set_ag t g))) by now apply ZR_up.
      assert (Cg2 : calcag (plug1 f (set_ag t g)) = Some (combf f g)).
      { unfold plug1, combf. destruct (fr_isr f); cbn; now rewrite set_ag_fag. }
      destruct (IH st1 C (plug1 f (set_ag t g)) (P ++ fe (fr_sib f)) (combf f g) Z1) as (st' & H1 & H2 & H3); auto.
      { now rewrite plug1_fag. } { cbn in L. lia. }
      rewrite plug1_fid in H1. exists st'. split; auto. split.
      * cbn [upd_ctx]. rewrite set_ag_plug1 in H2. apply ZR_up. exact H2.
      * destruct SB as (? & ? & ? & ?), H3 as (? & ? & ? & ?). unfold same_but_nodes. repeat split; congruence.
Qed.

Lemma ua_ok st C t P g : ZR st C t -> gC C (fag t) P -> calcag t = Some g ->
  exists st', update_augmentation st (fid t) = Some st'
    /\ ZR st' (upd_ctx C g) (set_ag t g) /\ same_but_nodes st st'.
Proof. intros. eapply ua_f_ok; eauto. eapply ZR_depth; eauto. Qed.
