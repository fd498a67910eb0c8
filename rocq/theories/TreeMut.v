(* traverse_mut of TreeModel.v: the stored entries change as the actions say. *)
From Coq Require Import List Arith Bool Lia Permutation.
Import ListNotations.
From Verif Require Import Spec Vec Util TreeModel TreeProofs TreeTraverse.

Lemma upd_nth_error_same {A} (l : list A) i x : nth_error l i = Some x -> upd l i x = l.
Proof.
  revert i. induction l as [|a l IH]; intros [|i]; cbn; try discriminate.
  - now intros [= ->].
  - intros H. now rewrite IH.
Qed.

Lemma ZR_leaf st C i g rg a es es' ents' :
  ZR st C (FL i g rg a es) -> length es' <= length es -> seg ents' a es' ->
  (forall p, ~ (a <= p < a + length es) -> nth_error ents' p = nth_error (t_ents st) p) ->
  ZR (mkTree (t_dim st) ents' (upd (t_nodes st) i (mkNode g (cpar C) (cisr C) (Leaf a (a + length es')))) (t_ranges st))
     C (FL i g rg a es').
Proof.
  intros (A & B & N & M) Hl Hs Ho. cbn in A, B, N, M. destruct A as ((A1 & A2) & A3).
  apply NoDup_cons_iff in N. destruct N as (N1 & N2). apply NoDup_app_iff in M. destruct M as (M1 & M2 & M3).
  unfold ZR. cbn. repeat split; auto.
  - apply nth_error_upd_eq. now apply nth_error_lt in A1.
  - eapply rpc_ext; [| |exact B]; cbn.
    + intros j Hj. split; auto. apply nth_error_upd_neq. intros ->. contradiction.
    + intros p Hp. apply Ho. intros Q. apply (M3 p); auto. apply in_seq. lia.
  - now apply NoDup_cons_iff.
  - apply NoDup_app_iff. split; [apply seq_NoDup|]. split; auto. intros x Hx. apply M3. apply in_seq. apply in_seq in Hx. lia.
Qed.

Lemma seg_app {A} (l : list A) a xs ys : seg l a (xs ++ ys) <-> seg l a xs /\ seg l (a + length xs) ys.
Proof.
  unfold seg. split.
  - intros H. split; intros i Hi.
    + rewrite H by (rewrite app_length; lia). now apply nth_error_app1.
    + rewrite <- Nat.add_assoc, H by (rewrite app_length; lia). rewrite nth_error_app2 by lia. f_equal. lia.
  - intros (H1 & H2) i Hi. rewrite app_length in Hi. destruct (Nat.lt_ge_cases i (length xs)).
    + rewrite H1 by lia. symmetry. now apply nth_error_app1.
    + rewrite nth_error_app2 by lia. rewrite <- H2 by lia. f_equal. lia.
Qed.

Lemma seg_ext {A} (l l' : list A) a xs : (forall p, a <= p < a + length xs -> nth_error l' p = nth_error l p) -> seg l a xs -> seg l' a xs.
Proof. intros H G i Hi. rewrite H by lia. now apply G. Qed.

Lemma seg_cons {A} (l : list A) a x : nth_error l a = Some x -> seg l a [x].
Proof. intros H i Hi. cbn in Hi. assert (i = 0) by lia. subst. rewrite Nat.add_0_r. auto. Qed.

Lemma seg_nil {A} (l : list A) a : seg l a [].
Proof. intros i Hi. cbn in Hi. lia. Qed.

Lemma seg_at {A} (l : list A) a xs x ys : seg l a (xs ++ x :: ys) -> nth_error l (a + length xs) = Some x.
Proof. intros G. rewrite G by (rewrite app_length; cbn; lia). rewrite nth_error_app2, Nat.sub_diag by lia. auto. Qed.

Lemma ZR_store st C i g rg a es1 e es2 e' :
  ZR st C (FL i g rg a (es1 ++ e :: es2)) ->
  ZR (set_ents st (upd (t_ents st) (a + length es1) e')) C (FL i g rg a (es1 ++ e' :: es2)).
Proof.
  intros Z. pose proof Z as (A & _). cbn in A. destruct A as ((A1 & _) & G).
  pose proof (seg_at _ _ _ _ _ G) as Ge. pose proof (nth_error_lt _ _ _ Ge) as Lt.
  assert (El : length (es1 ++ e' :: es2) = length (es1 ++ e :: es2)) by (rewrite !app_length; auto).
  pose proof (ZR_leaf st C i g rg a (es1 ++ e :: es2) (es1 ++ e' :: es2) (upd (t_ents st) (a + length es1) e') Z) as Q.
  rewrite El in Q. rewrite (upd_nth_error_same _ _ _ A1) in Q. apply Q; auto.
  - apply seg_app in G. destruct G as (G1 & G2). apply seg_app. split.
    + eapply seg_ext; [|exact G1]. intros p Hp. apply nth_error_upd_neq. lia.
    + intros k Hk. destruct k as [|k].
      * rewrite Nat.add_0_r. now apply nth_error_upd_eq.
      * rewrite nth_error_upd_neq by lia. apply (G2 (S k)). exact Hk.
  - intros p Hp. apply nth_error_upd_neq. rewrite app_length in Hp. cbn in Hp. lia.
Qed.

(* ---------- unlink ---------- *)

Lemma set_id_ids t i : ids (set_id t i) = i :: tl (ids t). Proof. now destruct t. Qed.
Lemma set_id_poss t i : poss (set_id t i) = poss t. Proof. now destruct t. Qed.
Lemma set_id_fid t i : fid (set_id t i) = i. Proof. now destruct t. Qed.
Lemma set_id_fag t i : fag (set_id t i) = fag t. Proof. now destruct t. Qed.
Lemma set_id_fents dir t i : fents dir (set_id t i) = fents dir t. Proof. now destruct t. Qed.
Lemma set_id_cost t i : cost (set_id t i) = cost t. Proof. now destruct t. Qed.
Lemma set_id_gT t i : gT t -> gT (set_id t i). Proof. now destruct t. Qed.
Lemma ids_cons t : ids t = fid t :: tl (ids t). Proof. now destruct t. Qed.

Lemma rp_reparent st st' par par' isr t :
  rp st par isr t ->
  (forall i, In i (tl (ids t)) -> nth_error (t_nodes st') i = nth_error (t_nodes st) i) ->
  (forall nd, nth_error (t_nodes st) (fid t) = Some nd -> nth_error (t_nodes st') (fid t) = Some (mkNode (n_aug nd) par' (n_right nd) (n_links nd))) ->
  (forall i, In i (ids t) -> nth_error (t_ranges st') i = nth_error (t_ranges st) i) ->
  t_ents st' = t_ents st ->
  rp st' par' isr t.
Proof.
  destruct t as [i g rg a es|i g rg l r]; cbn; intros A H1 H2 H3 H4.
  - destruct A as ((A1 & A2) & A3). rewrite H4. split; auto. split; [apply (H2 _ A1)|]. rewrite H3; auto.
  - destruct A as ((A1 & A2) & A3 & A4). split. { split; [apply (H2 _ A1)|]. rewrite H3; auto. }
    split; (eapply rp_ext; [| |eassumption]); try (intros; now rewrite H4);
      intros j Hj; split; [apply H1|apply H3| apply H1|apply H3]; rewrite ?in_app_iff; auto.
Qed.

(* the sibling moved into the parent's place *)
Lemma unlink_structure st f C i g rg a :
  ZR st (f :: C) (FL i g rg a []) ->
  exists moved t1 t3,
    nth_error (t_nodes st) (fid (fr_sib f)) = Some moved /\ n_aug moved = fag (fr_sib f) /\
    (match n_links moved with
     | Inner d0 d1 => t' <- set_parent st d0 (fr_id f) ;; set_parent t' d1 (fr_id f)
     | Leaf _ _ => Some st
     end) = Some t1 /\
    nth_error (t_nodes t1) (fr_id f) = nth_error (t_nodes st) (fr_id f) /\
    move_node_ranges (set_node t1 (fr_id f) (mkNode (n_aug moved) (cpar C) (cisr C) (n_links moved))) (fr_id f) (fid (fr_sib f)) = Some t3 /\
    ZR t3 C (set_id (fr_sib f) (fr_id f)) /\ fid (fr_sib f) <> i /\ t_dim t3 = t_dim st /\ t_ents t3 = t_ents st.
Proof.
  intros (A & B & N & M). cbn in A, B, N, M. destruct A as ((A1 & A2) & _). destruct B as ((B1 & B2) & B3 & B4).
  fold (cids C) in *. fold (cposs C) in *.
  set (s := fr_sib f) in *. set (pid := fr_id f) in *.
  destruct (rp_node _ _ _ _ B3) as (l & (S1 & S2) & Sl).
  apply NoDup_cons_iff in N. destruct N as (N1 & N). apply NoDup_cons_iff in N. destruct N as (N2 & N).
  apply NoDup_app_iff in N. destruct N as (N3 & N4 & N5). apply NoDup_app_iff in M. destruct M as (M1 & M2 & M3).
  cbn in N1. rewrite in_app_iff in N1, N2.
  assert (Hsi : fid s <> i) by (intros Q; apply N1; right; left; rewrite <- Q; apply fid_in).
  assert (Hsp : pid <> fid s) by (intros Q; apply N2; left; rewrite Q; apply fid_in).
  assert (Lp : pid < length (t_nodes st)) by (eapply nth_error_lt; eauto).
  assert (Lpr : pid < length (t_ranges st)) by (eapply nth_error_lt; eauto).
  destruct s as [si sg srg sa ses|si sg srg sl sr] eqn:Es.
  - (* leaf sibling *)
    cbn in S1, S2, Sl, B3, Hsi, Hsp. subst l. exists (mkNode sg pid (negb (fr_isr f)) (Leaf sa (sa + length ses))). exists st.
    eexists. cbn [fid fag n_links n_aug set_id]. split; [exact S1|]. split; auto. split; auto. split; auto. split.
    { unfold move_node_ranges. cbn [t_ranges set_node t_dim t_ents t_nodes]. destruct (Nat.eqb_spec pid si); [contradiction|]. rewrite S2.
      apply Nat.ltb_lt in Lpr. rewrite Lpr. reflexivity. }
    split; [|auto]. unfold ZR. cbn. split; [|split; [|split]].
    + split; [|apply B3]. split; cbn. now apply nth_error_upd_eq. now apply nth_error_upd_eq.
    + eapply rpc_ext; [| |exact B4]; cbn; auto. intros j Hj. split; apply nth_error_upd_neq; intros ->; tauto.
    + apply NoDup_cons_iff. split; auto.
    + apply NoDup_app_iff. auto.
  - (* inner sibling *)
    cbn in S1, S2, Sl, B3, Hsi, Hsp, N1, N2, N3, N5. subst l.
    destruct B3 as (_ & Bl & Br).
    destruct (rp_node _ _ _ _ Bl) as (ll & (L1 & L2) & _). destruct (rp_node _ _ _ _ Br) as (lr & (R1 & R2) & _).
    apply NoDup_cons_iff in N3. destruct N3 as (N3 & N3'). apply NoDup_app_iff in N3'. destruct N3' as (N6 & N7 & N8).
    rewrite in_app_iff in N3.
    assert (Hlr : fid sr <> fid sl) by (intros Q; apply (N8 (fid sl)); [apply fid_in|rewrite <- Q; apply fid_in]).
    assert (Hpl : ~ In pid (ids sl)) by (intros Q; apply N2; left; right; apply in_app_iff; auto).
    assert (Hpr : ~ In pid (ids sr)) by (intros Q; apply N2; left; right; apply in_app_iff; auto).
    pose proof (nth_error_lt _ _ _ L1) as Ll. pose proof (nth_error_lt _ _ _ R1) as Lr.
    exists (mkNode sg pid (negb (fr_isr f)) (Inner (fid sl) (fid sr))).
    eexists. eexists. cbn [fid fag n_links n_aug set_id].
    split; [exact S1|]. split; auto. split.
    { unfold set_parent at 1. rewrite L1. unfold set_parent. cbn [t_nodes set_node].
      rewrite nth_error_upd_neq, R1 by auto. cbn. reflexivity. }
    split.
    { cbn. rewrite !nth_error_upd_neq; auto; intros ->; [apply Hpl|apply Hpr]; apply fid_in. }
    split.
    { unfold move_node_ranges. cbn [t_ranges set_node t_dim t_ents t_nodes]. destruct (Nat.eqb_spec pid si); [contradiction|]. rewrite S2.
      apply Nat.ltb_lt in Lpr. rewrite Lpr. reflexivity. }
    split; [|auto]. unfold ZR. cbn. split; [|split; [|split]].
    + split; [|split].
      * split; cbn. { apply nth_error_upd_eq. rewrite !upd_length. auto. } now apply nth_error_upd_eq.
      * eapply rp_reparent; [exact Bl| | | |]; cbn; auto.
        -- intros j Hj. assert (In j (ids sl)) by (rewrite ids_cons; right; auto).
           rewrite !nth_error_upd_neq; auto.
           ++ intros ->. rewrite ids_cons in N6. apply NoDup_cons_iff in N6. tauto.
           ++ intros ->. apply (N8 (fid sr)); auto. apply fid_in.
           ++ intros ->. contradiction.
        -- intros nd Hnd. rewrite nth_error_upd_neq by (intros Q; apply Hpl; rewrite <- Q; apply fid_in).
           rewrite nth_error_upd_neq by auto. rewrite L1 in Hnd. injection Hnd as <-. now apply nth_error_upd_eq.
        -- intros j Hj. apply nth_error_upd_neq. intros ->. contradiction.
      * eapply rp_reparent; [exact Br| | | |]; cbn; auto.
        -- intros j Hj. assert (In j (ids sr)) by (rewrite ids_cons; right; auto).
           rewrite !nth_error_upd_neq; auto.
           ++ intros ->. apply (N8 (fid sl)); auto. apply fid_in.
           ++ intros ->. rewrite ids_cons in N7. apply NoDup_cons_iff in N7. tauto.
           ++ intros ->. contradiction.
        -- intros nd Hnd. rewrite nth_error_upd_neq by (intros Q; apply Hpr; rewrite <- Q; apply fid_in).
           rewrite nth_error_upd_eq by (rewrite upd_length; auto). rewrite R1 in Hnd. injection Hnd as <-. auto.
        -- intros j Hj. apply nth_error_upd_neq. intros ->. contradiction.
    + eapply rpc_ext; [| |exact B4]; cbn; auto. intros j Hj. split.
      * rewrite !nth_error_upd_neq; auto; intros ->.
        -- apply (N5 (fid sl)); auto. right. apply in_app_iff. left. apply fid_in.
        -- apply (N5 (fid sr)); auto. right. apply in_app_iff. right. apply fid_in.
        -- tauto.
      * apply nth_error_upd_neq; intros ->; tauto.
    + apply NoDup_cons_iff. split.
      * rewrite !in_app_iff. rewrite in_app_iff in N2. tauto.
      * apply NoDup_app_iff. split; [apply NoDup_app_iff; auto|]. split; auto.
    + apply NoDup_app_iff. auto.
Qed.

(* after removing the last entry of a leaf: the tree without the leaf, and where the traversal goes on *)
Lemma unlink_ok dir st f C i g rg a P :
  ZR st (f :: C) (FL i g rg a []) -> gC (f :: C) g P ->
  exists st' C' t', GZ st' C' t'
    /\ t' = set_id (fr_sib f) (fr_id f) /\ C' = upd_ctx C (fag t')
    /\ (exists tst, traversal_unlink st dir i = Some (st', tst)
        /\ (if negb (eqb (fr_isr f) dir) then tst = TNode (fid t')
            else traversal_skip st' dir (fid t') = Some tst)).
Proof.
  intros Z (G1 & G2 & G3 & G4).
  pose proof (ZR_fid_ne _ _ _ _ Z) as NE. cbn [fid] in NE. apply Nat.eqb_neq in NE.
  destruct (unlink_structure _ _ _ _ _ _ _ Z) as (moved & t1 & t3 & E1 & Eag & E2 & E3 & E4 & Z3 & Hsi & D1 & D2).
  set (t' := set_id (fr_sib f) (fr_id f)) in *.
  assert (GT : gT t') by now apply set_id_gT.
  assert (U : exists st', (if fr_id f =? 0 then Some t3 else update_augmentation t3 (cpar C)) = Some st'
     /\ ZR st' (upd_ctx C (fag t')) t').
  { destruct C as [|h C].
    - pose proof (ZR_fid0 _ _ Z3) as Q. unfold t' in Q. rewrite set_id_fid in Q. rewrite Q. cbn. exists t3. auto.
    - pose proof (ZR_fid_ne _ _ _ _ Z3) as Q. unfold t' in Q. rewrite set_id_fid in Q. apply Nat.eqb_neq in Q. rewrite Q.
      cbn [gC] in G4. destruct G4 as (G5 & G6 & G7 & G8).
      assert (Z4 : ZR t3 C (plug1 h t')) by now apply ZR_up.
      destruct (ua_ok t3 C (plug1 h t') ((P ++ fe (fr_sib f)) ++ fe (fr_sib h)) (combf h (fag t')) Z4) as (st' & U1 & U2 & _).
      { rewrite plug1_fag. exact G8. }
      { unfold plug1, combf. destruct (fr_isr h); reflexivity. }
      rewrite plug1_fid in U1. cbn [cpar]. exists st'. split; auto. cbn [upd_ctx]. apply ZR_up. now rewrite <- set_ag_plug1. }
  destruct U as (st' & U1 & U2).
  exists st', (upd_ctx C (fag t')), t'. split.
  { split; auto. split; auto. apply (upd_ctx_gC _ (fr_ag f)). eapply gC_mono; [|exact G4].
    unfold t'. rewrite set_id_fents. apply incl_pincl. intros x Hx. apply in_app_iff. auto. }
  split; auto. split; auto.
  destruct Z as (A & B & _). cbn in A, B. destruct A as ((A1 & _) & _). destruct B as ((B1 & _) & _).
  unfold traversal_unlink. rewrite NE, A1. cbn [n_parent n_right]. rewrite B1. cbn [n_links].
  assert (Fid : fid t' = fr_id f) by (unfold t'; apply set_id_fid). rewrite Fid.
  apply Nat.eqb_neq in Hsi. destruct (skip_ok dir st' _ _ U2) as (Q & _). rewrite Fid in Q.
  destruct (fr_isr f); cbv iota zeta; rewrite Hsi, E1, E2, E3, B1; cbn [n_parent n_right]; rewrite E4, U1, Q; clear;
    (destruct dir; cbn; eexists; split; reflexivity).
Qed.

(* ---------- remove ---------- *)

Definition rot (es : list Entry) : list Entry := match rev es with [] => [] | x :: r => x :: rev r end.

Lemma rot_perm es : Permutation (rot es) es.
Proof.
  unfold rot. rewrite <- (rev_involutive es) at 2. destruct (rev es) as [|x r]; cbn; auto.
  rewrite Permutation_app_comm. auto.
Qed.

Lemma rot_snoc es x : rot (es ++ [x]) = x :: es.
Proof. unfold rot. rewrite rev_app_distr. cbn. now rewrite rev_involutive. Qed.

Lemma aug_of_some es : es <> [] -> exists g, aug_of es = Some g.
Proof. destruct es; [easy|]. cbn. eauto. Qed.

Lemma pincl_trans A B C : pincl A B -> pincl B C -> pincl A C.
Proof. intros H1 H2 e He. destruct (H1 e He) as (e1 & P1 & Q1). destruct (H2 e1 P1) as (e2 & P2 & Q2). exists e2. split; auto. congruence. Qed.

Lemma perm_incl {A} (l l' : list A) : Permutation l l' -> incl l l'.
Proof. intros P x. now apply Permutation_in. Qed.

Lemma remove_some dir st C i g rg a es1 e es2 P :
  ZR st C (FL i g rg a (es1 ++ e :: es2)) -> gC C g P -> pincl (es1 ++ es2) P -> in_rg rg (es1 ++ es2) -> es1 ++ es2 <> [] ->
  exists st' g', GZ st' (upd_ctx C g') (FL i g' rg a (es1 ++ rot es2)) /\
    traversal_remove st dir i (a + length es1) =
      match es2 with
      | [] => tst <- traversal_skip st' dir i ;; Some (st', tst)
      | _ => Some (st', TPoint i (a + length es1))
      end.
Proof.
  intros Z G Pi Ri Ne. pose proof Z as (A & _). cbn in A. destruct A as ((A1 & A2) & A3).
  set (es' := es1 ++ rot es2).
  assert (Pe : Permutation es' (es1 ++ es2)) by (apply Permutation_app_head; apply rot_perm).
  assert (Le : length es' = length es1 + length es2) by (rewrite (Permutation_length Pe), app_length; auto).
  assert (Ne' : es' <> []) by (intros Q; rewrite Q in Pe; apply Permutation_nil in Pe; contradiction).
  destruct (aug_of_some es' Ne') as (g' & Hg).
  pose proof (seg_at _ _ _ _ _ A3) as Ek.
  set (k := a + length es1) in *.
  assert (Ls : a + length (es1 ++ e :: es2) - 1 = a + length es') by (rewrite app_length, Le; cbn; lia).
  (* the swapped entries *)
  assert (Sw : exists ents', swap_entries (t_ents st) k (a + length es') = Some ents' /\ seg ents' a es'
     /\ (forall p, ~ (a <= p < a + length (es1 ++ e :: es2)) -> nth_error ents' p = nth_error (t_ents st) p)).
  { unfold swap_entries. clear Hg. assert (D2 : es2 = [] \/ exists es2' x, es2 = es2' ++ [x]).
    { destruct es2 as [|y r]; auto. right. destruct (@exists_last _ (y :: r)) as (q & x & Q); [discriminate|]. rewrite Q. eauto. }
    destruct D2 as [->|(es2' & x & ->)].
    - replace (k =? a + length es') with true by (symmetry; apply Nat.eqb_eq; unfold k; rewrite Le; cbn; lia).
      eexists. split; [reflexivity|]. split; auto. apply seg_app in A3. unfold es', rot. cbn. rewrite app_nil_r. apply A3.
    - rewrite app_length in Le. cbn in Le.
      replace (k =? a + length es') with false by (symmetry; apply Nat.eqb_neq; unfold k; lia).
      rewrite Ek.
      assert (El : nth_error (t_ents st) (a + length es') = Some x).
      { assert (A3' : seg (t_ents st) a ((es1 ++ e :: es2') ++ x :: [])) by (rewrite <- app_assoc; exact A3).
        apply seg_at in A3'. rewrite app_length in A3'. cbn in A3'.
        replace (a + length es') with (a + (length es1 + S (length es2'))) by lia. exact A3'. }
      rewrite El. eexists. split; [reflexivity|]. split.
      + pose proof (nth_error_lt _ _ _ Ek) as Lk.
        apply seg_app in A3. destruct A3 as (A3 & A4).
        assert (Hla : a + length es' = k + S (length es2')) by (unfold k; lia). rewrite Hla. unfold es'. rewrite rot_snoc.
        apply seg_app. split.
        * eapply seg_ext; [|exact A3]. intros p Hp. assert (p <> k) by (unfold k; lia). assert (p <> k + S (length es2')) by (unfold k; lia). rewrite !nth_error_upd_neq; auto.
        * fold k. fold k in A4. intros j Hj. cbn in Hj. rewrite nth_error_upd_neq by lia. destruct j as [|j].
          -- rewrite Nat.add_0_r. now apply nth_error_upd_eq.
          -- rewrite nth_error_upd_neq by lia. rewrite A4 by (cbn; rewrite app_length; cbn; lia). cbn.
             rewrite nth_error_app1 by lia. auto.
      + intros p Hp. rewrite !app_length in Hp. cbn in Hp. rewrite app_length in Hp. cbn in Hp.
        rewrite !nth_error_upd_neq; auto; unfold k; lia. }
  destruct Sw as (ents' & Sw1 & Sw2 & Sw3).
  pose proof (ZR_leaf st C i g rg a (es1 ++ e :: es2) es' ents' Z) as Z1.
  assert (Z2 := Z1 ltac:(rewrite app_length, Le; cbn; lia) Sw2 Sw3). clear Z1.
  destruct (ua_ok _ C _ P g' Z2 G Hg) as (st' & U1 & U2 & _).
  exists st', g'. split.
  { split; [exact U2|]. split.
    - split; auto. eapply in_rg_pincl; [|exact Ri]. apply incl_pincl. now apply perm_incl.
    - cbn [fag fents]. apply (upd_ctx_gC _ g). eapply gC_mono; [|exact G]. eapply pincl_trans; [|exact Pi].
      apply incl_pincl. now apply perm_incl. }
  unfold traversal_remove. rewrite A1. cbn [n_links n_aug n_parent n_right].
  replace (a + length (es1 ++ e :: es2) =? 0) with false by (symmetry; apply Nat.eqb_neq; rewrite app_length; cbn; lia). rewrite Ls.
  replace (a =? a + length es') with false.
  2: { symmetry. apply Nat.eqb_neq. destruct es'; [easy|]. cbn. lia. }
  cbn [t_ents set_node]. rewrite Sw1.
  cbn [fid] in U1.
  replace (set_ents (set_node st i _) ents') with
    (mkTree (t_dim st) ents' (upd (t_nodes st) i (mkNode g (cpar C) (cisr C) (Leaf a (a + length es')))) (t_ranges st)) by reflexivity.
  rewrite U1. rewrite Le. unfold k. destruct es2 as [|y es2].
  - replace (a + length es1 =? a + (length es1 + length (@nil Entry))) with true by (symmetry; apply Nat.eqb_eq; cbn; lia). reflexivity.
  - replace (a + length es1 =? a + (length es1 + length (y :: es2))) with false by (symmetry; apply Nat.eqb_neq; cbn; lia). reflexivity.
Qed.

Lemma remove_last dir st C i g rg a e :
  ZR st C (FL i g rg a [e]) ->
  exists st1, ZR st1 C (FL i g rg a []) /\ traversal_remove st dir i a = traversal_unlink st1 dir i /\ t_dim st1 = t_dim st.
Proof.
  intros Z. pose proof Z as (A & _). cbn in A. destruct A as ((A1 & A2) & A3).
  eexists. split; [|split].
  - apply (ZR_leaf st C i g rg a [e] [] (t_ents st) Z); [cbn; lia|apply seg_nil|auto].
  - unfold traversal_remove. rewrite A1. cbn [n_links n_aug n_parent n_right].
    cbn [length]. replace (a + 1 =? 0) with false by (symmetry; apply Nat.eqb_neq; lia). replace (a + 1 - 1) with a by lia. rewrite Nat.eqb_refl. cbn [length]. rewrite Nat.add_0_r. reflexivity.
  - reflexivity.
Qed.

(* ---------- traverse_mut ---------- *)

Section TraverseMut.
Context {S_ : Type}.
Variable filt : S_ -> Aug -> list (nat * nat) -> bool.
Variable mact : S_ -> Entry -> option (S_ * TResult).
(* the traversal is defined as long as the actions are *)
Variable good : S_ -> list Entry -> Prop.
Hypothesis good_head : forall s e L, good s (e :: L) -> mact s e <> None.
Hypothesis good_step : forall s e L s1 r, good s (e :: L) -> mact s e = Some (s1, r) -> good s1 L.
Hypothesis good_skip : forall s es L, good s (es ++ L) -> good s L.
(* a Break action must not change the value: the code does not update the augmentations then *)
Hypothesis break_same : forall s e s1 v, mact s e = Some (s1, RBreak v) -> v = e_value e.
Hypothesis good_perm : forall s L L', Permutation L L' -> good s L -> good s L'.

Lemma with_value_point e v : e_point (with_value e v) = e_point e. Proof. reflexivity. Qed.

Lemma finish dir st C t : GZ st C t -> pend dir C = [] -> tree_inv st (fe t ++ done dir C).
Proof.
  intros Z Hp. right. exists (zip_up C t). split. now apply GZ_zip. rewrite (zip_fe dir), Hp. reflexivity.
Qed.

Lemma traverse_mut_f_ok dir fuel :
  (forall st C t us, GZ st C t -> cost t + pcost dir C <= fuel -> good us (fents dir t ++ pend dir C) ->
     exists us' st' L', traverse_mut_f filt mact fuel st dir us (TNode (fid t)) = Some (us', st')
       /\ MWalk filt mact us (fents dir t ++ pend dir C) us' L' /\ tree_inv st' (L' ++ done dir C)) /\
  (forall st C i g rg a es1 e es2 us, GZ st C (FL i g rg a (es1 ++ e :: es2)) -> S (length es2) + pcost dir C <= fuel ->
     good us (e :: es2 ++ pend dir C) ->
     exists us' st' L', traverse_mut_f filt mact fuel st dir us (TPoint i (a + length es1)) = Some (us', st')
       /\ MWalk filt mact us (e :: es2 ++ pend dir C) us' L' /\ tree_inv st' (L' ++ es1 ++ done dir C)).
Proof.
  induction fuel as [|fuel (IHn & IHp)].
  { split. intros st C t us _ H. destruct t; cbn in H; lia. intros; lia. }
  assert (Skip : forall st C t us, GZ st C t -> pcost dir C <= fuel -> good us (pend dir C) ->
     exists us' st' tst L', traversal_skip st dir (fid t) = Some tst /\ traverse_mut_f filt mact fuel st dir us tst = Some (us', st')
        /\ MWalk filt mact us (pend dir C) us' L' /\ tree_inv st' (L' ++ fe t ++ done dir C)).
  { intros st C t us Z Hc Hg. destruct (skip_ok dir st C t (proj1 Z)) as (E & _).
    pose proof (fskip_spec dir st C t Z) as F. rewrite E.
    destruct (fskip dir C t) as [[C' t']|].
    - destruct F as (Z' & F2 & F3 & F4). rewrite F2 in Hg. destruct (IHn st C' t' us Z') as (us' & st' & L' & T & W & I); auto. lia.
      exists us', st', (TNode (fid t')), L'. rewrite F2. split; auto. split; auto. split; auto.
      eapply tree_inv_perm; [|exact I]. apply Permutation_app_head. now symmetry.
    - exists us, st, TDone, []. rewrite F. split; auto. split; [destruct fuel; auto|]. split. constructor.
      cbn. now apply finish. }
  split.
  - intros st C t us Z Hc Hg. cbn [traverse_mut_f].
    destruct (GZ_node st C t Z) as (l & (E & Er) & El). rewrite E, Er. cbn [n_aug].
    destruct (filt us (fag t) (frg t)) eqn:Ef.
    + unfold traversal_enter. rewrite E. cbn [n_links]. subst l.
      destruct t as [i g rg a es|i g rg l r].
      * destruct es as [|e es]. { destruct Z as (_ & (Z & _) & _). discriminate. }
        destruct (IHp st C i g rg a [] e es us) as (us' & st' & L' & T & W & I); auto. { cbn in Hc. lia. }
        cbn [length] in T. rewrite Nat.add_0_r in T. exists us', st', L'. auto.
      * rewrite down_pend in Hg.
        destruct (IHn st _ _ us (GZ_down dir st C i g rg l r Z)) as (us' & st' & L' & T & W & I); auto.
        { rewrite down_cost in Hc. lia. }
        rewrite down_done in I. exists us', st', L'. rewrite down_pend. split; auto.
        destruct dir; exact T.
    + destruct (Skip st C t us Z) as (us' & st' & tst & L' & E1 & T & W & I). { destruct t; cbn in Hc; lia. } { eauto. }
      rewrite E1. exists us', st', (fents dir t ++ L'). split; auto. split.
      * eapply M_skip; eauto. eapply covered_perm; [symmetry; apply fents_perm|]. apply gT_covered. apply Z.
      * eapply tree_inv_perm; [|exact I]. rewrite (fents_perm dir t). rewrite !app_assoc. apply Permutation_app_tail. apply Permutation_app_comm.
  - intros st C i g rg a es1 e es2 us Z Hc Hg. cbn [traverse_mut_f].
    pose proof Z as (Z0 & (Ga & Gr) & Gc). cbn [fag fents] in Gc.
    pose proof Z0 as (A & _). cbn in A. destruct A as ((En & _) & Sg).
    pose proof (seg_at _ _ _ _ _ Sg) as Ee. rewrite Ee.
    destruct (mact us e) as [[us1 res]|] eqn:Ea; [|now apply good_head in Hg].
    pose proof (good_step _ _ _ _ _ Hg Ea) as Hg1.
    assert (St : forall v, ZR (set_ents st (upd (t_ents st) (a + length es1) (with_value e v))) C (FL i g rg a (es1 ++ with_value e v :: es2)))
      by (intros v; now apply (ZR_store st C i g rg a es1 e es2 (with_value e v))).
    assert (Pv : forall v, pincl (es1 ++ with_value e v :: es2) (es1 ++ e :: es2)).
    { intros v x Hx. rewrite in_app_iff in Hx. cbn in Hx. destruct Hx as [Hx|[<-|Hx]].
      - exists x. rewrite in_app_iff. auto.
      - exists e. rewrite in_app_iff. cbn. auto.
      - exists x. rewrite in_app_iff. cbn. auto. }
    assert (St2 : forall v g', aug_of (es1 ++ with_value e v :: es2) = Some g' ->
      forall st', ZR st' (upd_ctx C g') (FL i g' rg a (es1 ++ with_value e v :: es2)) -> GZ st' (upd_ctx C g') (FL i g' rg a (es1 ++ with_value e v :: es2))).
    { intros v g' Hg' st' Z'. split; auto. split.
      - split; auto. eapply in_rg_pincl; [apply Pv|]; auto.
      - cbn [fag fents]. apply (upd_ctx_gC _ g). eapply gC_mono; [apply Pv|]; auto. }
    change (mkEntry (e_point e) (e_packed e)) with (with_value e).
    destruct res as [v|v|v].
    + (* Break *)
      assert (Ev : with_value e v = e) by (rewrite (break_same _ _ _ _ Ea); now destruct e).
      specialize (St v). rewrite Ev in *.
      exists us1, (set_ents st (upd (t_ents st) (a + length es1) e)), (e :: es2 ++ pend dir C). split; auto. split.
      * pose proof (M_break filt mact us e us1 v (es2 ++ pend dir C) Ea) as Q. rewrite Ev in Q. exact Q.
      * right. exists (zip_up C (FL i g rg a (es1 ++ e :: es2))). split. { apply GZ_zip. split; auto. split; auto. split; auto. }
        rewrite (zip_fe dir). cbn [fents].
        change (e :: es2 ++ pend dir C) with ((e :: es2) ++ pend dir C). rewrite !app_assoc. apply Permutation_app_tail.
        rewrite <- (app_assoc es1). apply Permutation_app_comm.
    + (* Retain *)
      assert (Up : exists st' g', (if v =? e_value e then Some (set_ents st (upd (t_ents st) (a + length es1) (with_value e v)))
          else update_augmentation (set_ents st (upd (t_ents st) (a + length es1) (with_value e v))) i) = Some st'
          /\ GZ st' (upd_ctx C g') (FL i g' rg a (es1 ++ with_value e v :: es2))).
      { destruct (Nat.eqb_spec v (e_value e)) as [->|Nv].
        - assert (Ev : with_value e (e_value e) = e) by now destruct e.
          specialize (St (e_value e)). specialize (St2 (e_value e)). rewrite Ev in *. eexists. exists g. split; [reflexivity|].
          apply St2; auto. now rewrite (upd_ctx_same _ _ _ Gc).
        - destruct (aug_of_some (es1 ++ with_value e v :: es2)) as (g' & Hg'); [now destruct es1|].
          destruct (ua_ok _ C _ _ g' (St v) Gc Hg') as (st' & U1 & U2 & _). exists st', g'. split; auto. }
      destruct Up as (st' & g' & Eu & Z'). rewrite Eu.
      assert (En' : exists nd, nth_error (t_nodes st') i = Some nd /\ n_links nd = Leaf a (a + length (es1 ++ with_value e v :: es2))).
      { destruct Z' as ((A & _) & _). cbn in A. destruct A as ((A & _) & _). eexists. split; [exact A|]. reflexivity. }
      destruct En' as (nd & En1 & En2).
      unfold traversal_next. rewrite En1, En2. rewrite app_length. cbn [length].
      destruct es2 as [|e2 es2].
      * replace (S (a + length es1) =? a + (length es1 + S (length (@nil Entry)))) with true by (symmetry; apply Nat.eqb_eq; cbn; lia).
        destruct (Skip st' _ _ us1 Z') as (us' & st2 & tst & L' & E1 & T & W & I).
        { rewrite upd_ctx_pcost. cbn in Hc. lia. } { rewrite upd_ctx_pend. exact Hg1. }
        rewrite upd_ctx_pend in W. rewrite upd_ctx_done in I.
        cbn [fid] in E1. rewrite E1. exists us', st2, (with_value e v :: L'). split; auto. split.
        -- cbn. eapply M_retain; eauto.
        -- eapply tree_inv_perm; [|exact I]. cbn [fents]. cbn. rewrite <- app_assoc. cbn.
           rewrite (app_assoc L'). symmetry. rewrite (app_assoc L'). apply Permutation_middle.
      * replace (S (a + length es1) =? a + (length es1 + S (length (e2 :: es2)))) with false by (symmetry; apply Nat.eqb_neq; cbn; lia).
        destruct (IHp st' (upd_ctx C g') i g' rg a (es1 ++ [with_value e v]) e2 es2 us1) as (us' & st2 & L' & T & W & I).
        { rewrite <- app_assoc. exact Z'. } { rewrite upd_ctx_pcost. cbn in Hc. lia. } { rewrite upd_ctx_pend. exact Hg1. }
        rewrite app_length in T. cbn [length] in T. replace (a + (length es1 + 1)) with (S (a + length es1)) in T by lia.
        rewrite upd_ctx_pend in W. rewrite upd_ctx_done in I.
        exists us', st2, (with_value e v :: L'). split; auto. split.
        -- eapply M_retain; eauto.
        -- eapply tree_inv_perm; [|exact I]. cbn. rewrite <- app_assoc. cbn.
           rewrite (app_assoc L'). symmetry. rewrite (app_assoc L'). apply Permutation_middle.
    + (* Remove *)
      specialize (St v). set (st0 := set_ents st _) in *. clearbody st0.
      destruct es1 as [|x1 es1]; [destruct es2 as [|x2 es2]|].
      * (* last entry of the leaf *)
        cbn [app length] in *. rewrite Nat.add_0_r.
        destruct (remove_last dir st0 C i g rg a _ St) as (st1 & Z1 & R1 & _). rewrite R1.
        destruct C as [|f C].
        { pose proof (ZR_fid0 _ _ Z1) as Q. cbn in Q. subst i. unfold traversal_unlink. cbn.
          eexists us1, _, []. split; [destruct fuel; reflexivity|]. split. { eapply M_remove; eauto. constructor. }
          left. auto. }
        { destruct (unlink_ok dir st1 f C i g rg a _ Z1 Gc) as (st' & C' & t' & Z' & Et & EC & tst & E1 & E2).
          rewrite E1. cbn [fst snd]. cbn [pend flat_map] in *. fold (pend dir C) in *. unfold pend1 in *. cbn [done flat_map]. fold (done dir C). unfold done1.
          cbn [pcost] in Hc. unfold pcost1 in Hc.
          destruct (eqb (fr_isr f) dir) eqn:Ed; cbn [negb] in E2.
          - destruct (Skip st' C' t' us1 Z') as (us' & st2 & tst' & L' & E1' & T & W & I).
            { rewrite EC, upd_ctx_pcost. cbn in Hc. lia. } { rewrite EC, upd_ctx_pend. exact Hg1. }
            rewrite E2 in E1'. injection E1' as ->. exists us', st2, L'. split; auto.
            rewrite EC, upd_ctx_pend in W. rewrite EC, upd_ctx_done, Et, set_id_fents in I. split.
            + eapply M_remove; eauto.
            + eapply tree_inv_perm; [|exact I]. apply Permutation_app_head. apply Permutation_app_tail. symmetry. apply fents_perm.
          - subst tst. destruct (IHn st' C' t' us1 Z') as (us' & st2 & L' & T & W & I).
            { rewrite EC, upd_ctx_pcost, Et, set_id_cost. cbn in Hc. lia. }
            { rewrite EC, upd_ctx_pend, Et, set_id_fents. exact Hg1. }
            rewrite EC, upd_ctx_pend, Et, set_id_fents in W. rewrite EC, upd_ctx_done in I.
            exists us', st2, L'. split; auto. split; auto. eapply M_remove; eauto. }
      * destruct (remove_some dir st0 C i g rg a [] _ (x2 :: es2) _ St Gc) as (st' & g' & Z' & E1).
        { apply incl_pincl. intros z Hz. cbn in *. auto. } { intros z Hz. apply Gr. cbn in *. auto. } { discriminate. }
        rewrite E1. cbn [fst snd].
        assert (Q : exists y r, rot (x2 :: es2) = y :: r).
        { destruct (rot (x2 :: es2)) eqn:Q; eauto. pose proof (rot_perm (x2 :: es2)) as QQ. rewrite Q in QQ. apply Permutation_nil in QQ. discriminate. }
        destruct Q as (y & r & Q). rewrite Q in Z'. pose proof (rot_perm (x2 :: es2)) as QP. rewrite Q in QP.
        pose proof (Permutation_length QP) as QL.
        destruct (IHp st' (upd_ctx C g') i g' rg a [] y r us1 Z') as (us' & st2 & L' & T & W & I).
        { rewrite upd_ctx_pcost. cbn in Hc, QL. lia. }
        { rewrite upd_ctx_pend. eapply good_perm; [|exact Hg1]. change (y :: r ++ pend dir C) with ((y :: r) ++ pend dir C). apply Permutation_app_tail. now symmetry. }
        rewrite upd_ctx_pend in W. rewrite upd_ctx_done in I.
        exists us', st2, L'. split; auto. split; auto. eapply M_remove; eauto. eapply M_perm; [|exact W].
        change (y :: r ++ pend dir C) with ((y :: r) ++ pend dir C). apply Permutation_app_tail. now symmetry.
      * destruct (remove_some dir st0 C i g rg a (x1 :: es1) _ es2 _ St Gc) as (st' & g' & Z' & E1).
        { apply incl_pincl. intros z Hz. rewrite in_app_iff in *. cbn in *. tauto. }
        { intros z Hz. apply Gr. rewrite in_app_iff in *. cbn in *. tauto. } { discriminate. }
        rewrite E1. destruct es2 as [|x2 es2].
        { cbn [rot rev] in Z'. change (rot []) with (@nil Entry) in Z'. rewrite app_nil_r in Z'.
          destruct (Skip st' _ _ us1 Z') as (us' & st2 & tst & L' & E1' & T & W & I).
          { rewrite upd_ctx_pcost. cbn in Hc. lia. } { rewrite upd_ctx_pend. exact Hg1. }
          cbn [fid] in E1'. rewrite E1'. cbn [fst snd]. rewrite upd_ctx_pend in W. rewrite upd_ctx_done in I.
          exists us', st2, L'. split; auto. split; auto. eapply M_remove; eauto. }
        { cbn [fst snd].
          assert (Q : exists y r, rot (x2 :: es2) = y :: r).
          { destruct (rot (x2 :: es2)) eqn:Q; eauto. pose proof (rot_perm (x2 :: es2)) as QQ. rewrite Q in QQ. apply Permutation_nil in QQ. discriminate. }
          destruct Q as (y & r & Q). rewrite Q in Z'. pose proof (rot_perm (x2 :: es2)) as QP. rewrite Q in QP.
          pose proof (Permutation_length QP) as QL.
          destruct (IHp st' (upd_ctx C g') i g' rg a (x1 :: es1) y r us1 Z') as (us' & st2 & L' & T & W & I).
          { rewrite upd_ctx_pcost. cbn in Hc, QL. lia. }
          { rewrite upd_ctx_pend. eapply good_perm; [|exact Hg1]. change (y :: r ++ pend dir C) with ((y :: r) ++ pend dir C). apply Permutation_app_tail. now symmetry. }
          rewrite upd_ctx_pend in W. rewrite upd_ctx_done in I.
          exists us', st2, L'. split; auto. split; auto. eapply M_remove; eauto. eapply M_perm; [|exact W].
          change (y :: r ++ pend dir C) with ((y :: r) ++ pend dir C). apply Permutation_app_tail. now symmetry. }
Qed.

Lemma traverse_mut_ok st us dir L : tree_inv st L -> good us L ->
  exists us' st' L', traverse_mut st us dir filt mact = Some (us', st') /\ MWalk filt mact us L us' L' /\ tree_inv st' L'.
Proof.
  intros [(E & ->)|(t & Z & P)] Hg.
  - exists us, st, []. unfold traverse_mut, traversal_root. rewrite E. split. cbn. destruct (length (t_ents st)); auto.
    split. constructor. left. auto.
  - assert (P2 : Permutation (fents dir t ++ pend dir []) L) by (cbn; rewrite app_nil_r, fents_perm; auto).
    destruct (proj1 (traverse_mut_f_ok dir (length (t_nodes st) + length (t_ents st))) st [] t us Z) as (us' & st' & L' & T & W & I).
    { cbn. rewrite Nat.add_0_r. apply ZR_root_cost. apply Z. }
    { eapply good_perm; [|exact Hg]. now symmetry. }
    exists us', st', L'. split; [|split].
    + unfold traverse_mut, traversal_root. rewrite (ZR_fid0 _ _ (proj1 Z)) in T.
      destruct (t_nodes st) eqn:E; auto. destruct Z as ((A & _) & _). apply rp_node in A.
      destruct A as (l & (A & _) & _). rewrite E in A. destruct (fid t); discriminate.
    + eapply M_perm; [|exact W]. now symmetry.
    + cbn in I. now rewrite app_nil_r in I.
Qed.

End TraverseMut.
