(* insert_with_abstraction: the dominated entries go, everything else stays, the new entry is there once. *)
From Coq Require Import List Arith Bool Lia Permutation.
Import ListNotations.
From Verif Require Import Spec Vec Util OutputSetModel OutputSetProofs PackProofs SubsumeModel
  TreeModel TreeProofs TreeTraverse TreeMut TreeBuild IndexModel IndexSpec IndexTests IndexProofs.

Lemma with_same e : with_value e (e_value e) = e. Proof. now destruct e. Qed.
Lemma set_of_with n e v : set_of n (with_value e v) = set_of n e. Proof. reflexivity. Qed.
Lemma good_with n e v : good_entry n e -> good_entry n (with_value e v). Proof. intros H. exact H. Qed.

Lemma upd_mid {A} (l : list A) x y r : upd (l ++ x :: r) (length l) y = l ++ y :: r.
Proof. induction l; cbn; auto. now rewrite IHl. Qed.

Section Count.
Variables (n : nat) (s : OutputSet).
Definition isS (e : Entry) : bool := os_eqb (set_of n e) s.
Definition nS (L : list Entry) : nat := length (filter isS L).

Lemma nS_cons e L : nS (e :: L) = Nat.b2n (isS e) + nS L.
Proof. unfold nS. cbn [filter]. destruct (isS e); auto. Qed.
Lemma nS_app L L' : nS (L ++ L') = nS L + nS L'.
Proof. unfold nS. now rewrite filter_app, app_length. Qed.
Lemma nS_perm L L' : Permutation L L' -> nS L = nS L'.
Proof. induction 1; rewrite ?nS_cons in *; lia. Qed.
End Count.

Section Insert.
Variables (d : Dir) (n : nat) (s : OutputSet) (v : nat).
Hypothesis n_pos : 0 < n.
Hypothesis n_max : n <= MAX_CHANNELS.
Hypothesis Gs : gs n s.
Variable ix : Index.
Hypothesis Ed : ix_dir ix = d.
Hypothesis En : ix_channels ix = n.

Definition dom (e : Entry) : Prop := dominated d s v (item n e).
Let act := insert_action ix s (abstraction s) v.
Let filt := insert_filter ix (abstraction s) v.

Lemma would_better a b : would_be_updated d a b = true <-> better d b a.
Proof. unfold would_be_updated, better. destruct d; rewrite Nat.leb_le; tauto. Qed.

Lemma act_cases flag e : good_entry n e ->
  (dom e /\ set_of n e = s /\ act flag e = if flag then None else Some (true, RRetain v)) \/
  (dom e /\ set_of n e <> s /\ act flag e = Some (flag, RRemove (e_value e))) \/
  (~ dom e /\ act flag e = Some (flag, RRetain (e_value e))).
Proof.
  intros Ge. destruct (good_set n e Ge) as (Gc & Ep & Ef & _). unfold act, insert_action. rewrite Ed, En, Ef, Ep.
  destruct (would_be_updated d (e_value e) v) eqn:Hw; cbn [negb].
  2: { right. right. split; auto. intros (_ & H). apply would_better in H. cbn in H. congruence. }
  apply would_better in Hw. unfold test_abstraction_update.
  destruct (test_abstraction d (abstraction s) (abstraction (set_of n e))) eqn:Ht; cbn [negb].
  2: { right. right. split; auto. intros (H & _). cbn in H. rewrite (abs_test n n_pos n_max d s (set_of n e)) in Ht; auto. discriminate. }
  destruct (os_eqb (set_of n e) s) eqn:Heq.
  - apply (os_eqb_eq n n_pos n_max) in Heq; auto. left. split; auto. split; auto. cbn. rewrite Heq. exists (id_perm n). now apply valid_id.
  - assert (Hne : set_of n e <> s). { intros H. apply (os_eqb_eq n n_pos n_max) in H; auto. congruence. }
    unfold test_precise_update. destruct (precise n n_pos n_max d s (set_of n e) Gs Gc) as (r & Er & R). rewrite Er. destruct r as [w|].
    + right. left. split; auto. split; auto. now exists w.
    + right. right. split; auto. intros (H & _). contradiction.
Qed.

Definition good (flag : bool) (L : list Entry) : Prop := Forall (good_entry n) L /\ Nat.b2n flag + nS n s L <= 1.

Lemma good_head flag e L : good flag (e :: L) -> act flag e <> None.
Proof.
  intros (G & N). apply Forall_cons_iff in G. destruct G as (Ge & G).
  destruct (act_cases flag e Ge) as [(_ & E & H)|[(_ & _ & H)|(_ & H)]]; rewrite H; try discriminate.
  rewrite nS_cons in N. unfold isS in N. rewrite E in N. rewrite (proj2 (os_eqb_eq n n_pos n_max s s Gs Gs) eq_refl) in N. cbn in N. destruct flag; [cbn in N; lia|discriminate].
Qed.

Lemma good_step flag e L f1 r : good flag (e :: L) -> act flag e = Some (f1, r) -> good f1 L.
Proof.
  intros (G & N) H. apply Forall_cons_iff in G. destruct G as (Ge & G). split; auto. rewrite nS_cons in N.
  destruct (act_cases flag e Ge) as [(_ & E & H')|[(_ & _ & H')|(_ & H')]]; rewrite H in H'.
  - unfold isS in N. rewrite E in N. rewrite (proj2 (os_eqb_eq n n_pos n_max s s Gs Gs) eq_refl) in N. destruct flag; [discriminate|]. injection H' as -> _. cbn in *. lia.
  - injection H' as -> _. lia.
  - injection H' as -> _. lia.
Qed.

Lemma good_skip flag es L : good flag (es ++ L) -> good flag L.
Proof. intros (G & N). apply Forall_app in G. rewrite nS_app in N. split. tauto. lia. Qed.
Lemma good_perm flag L L' : Permutation L L' -> good flag L -> good flag L'.
Proof. intros P (G & N). split. eapply Permutation_Forall; eauto. now rewrite <- (nS_perm n s _ _ P). Qed.
Lemma break_same flag e f1 w : act flag e = Some (f1, RBreak w) -> w = e_value e.
Proof.
  unfold act, insert_action. destruct (negb _); [discriminate|]. destruct (negb _); [discriminate|]. destruct (from_packed _ _); [|discriminate].
  destruct (os_eqb _ _). destruct flag; discriminate. destruct (test_precise_update _ _ _ _ _) as [[]|]; discriminate.
Qed.

(* what one pass does *)
Definition effect (flag : bool) (L : list Entry) (flag' : bool) (L' : list Entry) : Prop :=
  exists kept gone same, Permutation L (kept ++ gone ++ same) /\ Permutation L' (kept ++ map (fun e => with_value e v) same) /\
    Forall (fun e => ~ dom e) kept /\ Forall dom gone /\ Forall (fun e => dom e /\ set_of n e = s) same /\
    Nat.b2n flag + length same = Nat.b2n flag'.

Lemma effect_nil flag : effect flag [] flag [].
Proof. exists [], [], []. cbn. repeat split; auto. Qed.
Lemma effect_keep flag e L flag' L' : ~ dom e -> effect flag L flag' L' -> effect flag (e :: L) flag' (e :: L').
Proof.
  intros H (k & g & m & P & P' & K & G & M & N). exists (e :: k), g, m. cbn. repeat split; auto.
Qed.
Lemma effect_perm flag L L1 flag' L' L2 : Permutation L L1 -> Permutation L' L2 -> effect flag L1 flag' L' -> effect flag L flag' L2.
Proof.
  intros Q Q' (k & g & m & P & P' & R). exists k, g, m. split. now rewrite Q. split. now rewrite <- Q'. exact R.
Qed.
Lemma effect_act flag e f1 L flag' L' : good_entry n e -> act flag e <> None -> effect f1 L flag' L' ->
  match act flag e with
  | Some (f, RRetain w) => f = f1 -> effect flag (e :: L) flag' (with_value e w :: L')
  | Some (f, RRemove _) => f = f1 -> effect flag (e :: L) flag' L'
  | _ => True
  end.
Proof.
  intros Ge Ha E. destruct (act_cases flag e Ge) as [(D & Es & H)|[(D & _ & H)|(D & H)]]; rewrite H in *.
  - destruct flag; [contradiction|]. intros <-. destruct E as (k & g & m & P & P' & K & G & M & N). exists k, g, (e :: m). split; [|split; [|split; [|split; [|split]]]]; auto.
    + rewrite P. rewrite !app_assoc. apply Permutation_middle.
    + rewrite P'. cbn. apply Permutation_middle.
  - intros ->. destruct E as (k & g & m & P & P' & K & G & M & N). exists k, (e :: g), m. split; [|split; [|split; [|split; [|split]]]]; auto.
    rewrite P. cbn. apply Permutation_middle.
  - intros ->. rewrite with_same. now apply effect_keep.
Qed.

Lemma skip_not_dom flag g rg es : filt flag g rg = false -> covered g rg es -> Forall (good_entry n) es -> Forall (fun e => ~ dom e) es.
Proof.
  intros F (_ & C) G. rewrite Forall_forall in *. intros e He (Hc & Hb). destruct (C e He) as (V & R). destruct (good_set n e (G e He)) as (Gc & Ep & _).
  cbn [item fst snd] in *. unfold filt, insert_filter in F. rewrite Ed in F. apply andb_false_iff in F. destruct F as [F|F].
  - unfold can_be_updated in F. unfold better in Hb. destruct d; apply Nat.leb_gt in F; lia.
  - rewrite (range_update_test n n_pos n_max d rg (e_point e) (abstraction s)) in F; try discriminate; auto.
    + rewrite Ep. now apply abl.
    + now apply abl.
    + unfold test_abstraction_update. rewrite Ep. now apply (abs_test n n_pos n_max).
Qed.

Lemma mwalk_effect filt' flag L flag' L' : (forall f g rg, filt' f g rg = false -> filt f g rg = false) ->
  MWalk filt' act flag L flag' L' -> good flag L -> effect flag L flag' L' /\ good flag' [] .
Proof.
  intros Hf W. induction W as [f|f e f1 w L H|f e f1 w L f2 L' H W IH|f e f1 w L f2 L' H W IH|f g rg es L f' L' F C W IH|f L L1 f' L' P W IH]; intros G.
  - split. apply effect_nil. auto.
  - exfalso. destruct (act_cases f e) as [(_ & _ & K)|[(_ & _ & K)|(_ & K)]]. now apply Forall_inv in G || (destruct G as (G & _); now apply Forall_inv in G).
    rewrite K in H. destruct f; discriminate. congruence. congruence.
  - destruct (IH (good_step _ _ _ _ _ G H)) as (E & G'). split; auto.
    pose proof (effect_act f e f1 L f2 L') as Q. rewrite H in Q. apply Q; auto. destruct G as (G & _); now apply Forall_inv in G. discriminate.
  - destruct (IH (good_step _ _ _ _ _ G H)) as (E & G'). split; auto.
    pose proof (effect_act f e f1 L f2 L') as Q. rewrite H in Q. apply Q; auto. destruct G as (G & _); now apply Forall_inv in G. discriminate.
  - destruct (IH (good_skip _ _ _ G)) as (E & G'). split; auto. assert (K : Forall (fun e => ~ dom e) es).
    { eapply skip_not_dom; eauto. destruct G as (G & _). now apply Forall_app in G. }
    clear -K E. induction K; cbn; auto. now apply effect_keep.
  - destruct (IH (good_perm _ _ _ P G)) as (E & G'). split; auto. eapply effect_perm; eauto.
Qed.

Lemma mwalk_good filt' flag L flag' L' M : MWalk filt' act flag L flag' L' -> good flag (L ++ M) -> good flag' M.
Proof.
  intros W. induction W as [f|f e f1 w L H|f e f1 w L f2 L' H W IH|f e f1 w L f2 L' H W IH|f g rg es L f' L' F C W IH|f L L1 f' L' P W IH]; intros G; auto.
  - cbn in G. apply good_step with (f1 := f1) (r := RBreak w) in G; auto. now apply good_skip in G.
  - cbn in G. apply good_step with (f1 := f1) (r := RRetain w) in G; auto.
  - cbn in G. apply good_step with (f1 := f1) (r := RRemove w) in G; auto.
  - rewrite <- app_assoc in G. apply good_skip in G. auto.
  - apply IH. eapply good_perm; [|exact G]. now apply Permutation_app_tail.
Qed.

Lemma effect_app f0 L1 f1 L1' L2 f2 L2' : effect f0 L1 f1 L1' -> effect f1 L2 f2 L2' -> effect f0 (L1 ++ L2) f2 (L1' ++ L2').
Proof.
  intros (k & g & m & P & P' & K & G & M & N) (k2 & g2 & m2 & P2 & P2' & K2 & G2 & M2 & N2).
  exists (k ++ k2), (g ++ g2), (m ++ m2). split; [|split; [|split; [|split; [|split]]]]; try (apply Forall_app; auto).
  - rewrite P, P2. rewrite <- !app_assoc. apply Permutation_app_head. rewrite !app_assoc. rewrite (Permutation_app_comm (g ++ m) k2).
    rewrite <- !app_assoc. apply Permutation_app_head. apply Permutation_app_head. rewrite !app_assoc. apply Permutation_app_tail. apply Permutation_app_comm.
  - rewrite P', P2', map_app. rewrite <- !app_assoc. apply Permutation_app_head. rewrite !app_assoc. apply Permutation_app_tail. apply Permutation_app_comm.
  - rewrite app_length. lia.
Qed.

Lemma trees_effect (P : list (Tree * list Entry)) flag M : Forall (fun p => tree_inv (fst p) (snd p)) P -> good flag (concat (map snd P) ++ M) ->
  exists flag' P', update_trees ix s (abstraction s) v flag (map fst P) = Some (flag', map fst P') /\
    Forall (fun p => tree_inv (fst p) (snd p)) P' /\ effect flag (concat (map snd P)) flag' (concat (map snd P')) /\ good flag' M.
Proof.
  revert flag. induction P as [|(t, L) P IH]; intros flag F G; cbn [map concat update_trees fst snd] in *.
  - exists flag, []. cbn in *. repeat split; auto. apply effect_nil. apply G. apply G.
  - apply Forall_cons_iff in F. destruct F as (I & F). cbn [fst snd] in I. rewrite <- app_assoc in G.
    destruct (traverse_mut_ok (S_ := bool) filt act good good_head good_step good_skip break_same good_perm t flag (lookup_dir (ix_dir ix)) L I) as (f1 & t' & L' & T & W & I').
    { destruct G as (G1 & G2). apply Forall_app in G1. rewrite nS_app in G2. split. tauto. lia. }
    unfold filt, act in T. rewrite T. cbn [fst snd].
    assert (G1 : good f1 (concat (map snd P) ++ M)) by (eapply mwalk_good; eauto).
    destruct (IH f1 F G1) as (f2 & P' & U & F' & E' & G2). rewrite U. cbn [fst snd].
    exists f2, ((t', L') :: P'). split; [reflexivity|]. split. constructor; auto. split; auto. cbn. apply (effect_app flag L f1 L'); auto.
    apply (mwalk_effect filt); auto. destruct G as (Ga & Gb). apply Forall_app in Ga. rewrite nS_app in Gb. split. tauto. lia.
Qed.

Lemma buffer_effect fuel flag pre L : good flag L -> length L < fuel ->
  exists flag' L', update_buffer act fuel flag (pre ++ L) (length pre) = Some (flag', pre ++ L') /\ effect flag L flag' L'.
Proof.
  revert flag pre L. induction fuel as [|fuel IH]; intros flag pre L G Hf; [lia|]. cbn [update_buffer].
  destruct L as [|e r].
  { rewrite app_nil_r, Nat.ltb_irrefl. exists flag, []. rewrite app_nil_r. split; auto. apply effect_nil. }
  replace (length pre <? length (pre ++ e :: r)) with true by (symmetry; apply Nat.ltb_lt; rewrite app_length; cbn; lia).
  rewrite nth_error_app2, Nat.sub_diag by lia. cbn [nth_error].
  assert (Ge : good_entry n e) by (destruct G as (G & _); now apply Forall_inv in G).
  pose proof (good_head _ _ _ G) as Ha. destruct (act flag e) as [(f1, res)|] eqn:E; [|contradiction]. cbn [fst snd].
  pose proof (good_step _ _ _ _ _ G E) as G1.
  pose proof (effect_act flag e f1) as Q. rewrite E in Q.
  destruct res as [w|w|w].
  - exfalso. destruct (act_cases flag e Ge) as [(_ & _ & K)|[(_ & _ & K)|(_ & K)]]; rewrite K in E; try discriminate; destruct flag; discriminate.
  - rewrite upd_mid. destruct (IH f1 (pre ++ [with_value e w]) r G1) as (f2 & L' & U & Ef). { cbn in Hf. lia. }
    rewrite <- app_assoc, app_length, Nat.add_1_r in U. cbn [app] in U. unfold with_value in U at 1. rewrite U.
    exists f2, (with_value e w :: L'). rewrite <- app_assoc. split; [auto|]. apply Q; auto; discriminate.
  - rewrite upd_mid. unfold swap_remove. rewrite app_length. cbn [length].
    replace (length pre + S (length r) - 1) with (length pre + length r) by lia.
    destruct r as [|x0 r0] using rev_ind.
    + cbn [length]. rewrite Nat.add_0_r. rewrite nth_error_app2, Nat.sub_diag by lia. cbn [nth_error]. rewrite upd_mid.
      rewrite firstn_app, Nat.sub_diag, firstn_all. cbn [firstn]. rewrite app_nil_r.
      destruct (IH f1 pre [] G1) as (f2 & L' & U & Ef). { cbn in *. lia. }
      rewrite app_nil_r in U. rewrite U. exists f2, L'. split; [auto|]. apply Q; auto; discriminate.
    + clear IHr0. rewrite app_length. cbn [length]. rewrite nth_error_app2 by lia.
      replace (length pre + (length r0 + 1) - length pre) with (S (length r0)) by lia. cbn [nth_error].
      rewrite nth_error_app2, Nat.sub_diag by lia. cbn [nth_error]. rewrite upd_mid.
      rewrite firstn_app, firstn_all2 by lia. replace (length pre + (length r0 + 1) - length pre) with (S (length r0)) by lia. cbn [firstn].
      rewrite firstn_app, Nat.sub_diag, firstn_all. cbn [firstn]. rewrite app_nil_r.
      assert (Pm : Permutation (r0 ++ [x0]) (x0 :: r0)) by (symmetry; apply Permutation_cons_append).
      destruct (IH f1 pre (x0 :: r0)) as (f2 & L' & U & Ef). { eapply good_perm; eauto. } { cbn in *. rewrite app_length in Hf. cbn in Hf. lia. }
      rewrite U. exists f2, L'. split; [auto|]. apply Q; auto; try discriminate. eapply effect_perm; [exact Pm|reflexivity|exact Ef].
Qed.

End Insert.

Lemma filter_trees (P : list (Tree * list Entry)) : Forall (fun p => tree_inv (fst p) (snd p)) P ->
  exists P', map fst P' = filter (fun t => negb (tree_is_empty t)) (map fst P) /\ Forall (fun p => tree_inv (fst p) (snd p) /\ snd p <> []) P' /\
   concat (map snd P') = concat (map snd P).
Proof.
  induction P as [|(t, L) P IH]; intros F. exists []. repeat split; auto.
  apply Forall_cons_iff in F. destruct F as (I & F). destruct (IH F) as (P' & E & F' & C). cbn [map fst snd filter concat] in *.
  pose proof (tree_is_empty_ok t L I) as Q. destruct (tree_is_empty t) eqn:T; cbn [negb].
  - exists P'. rewrite C. split; auto. split; auto. destruct L; [reflexivity|discriminate].
  - exists ((t, L) :: P'). cbn. rewrite E, C. split; auto. split; auto. constructor; auto. cbn. split; auto. intros ->. discriminate.
Qed.

Lemma insert_ok d n ix L s v : 1 < n -> n <= MAX_CHANNELS -> ix_inv d n ix L -> gs n s -> nS n s L <= 1 ->
  (exists r, best_of d n s (fun b => b) (fun _ _ => True) (Some r) L /\ better d r v /\ insert ix s (abstraction s) v = Some (ix, r)) \/
  ((forall e, In e L -> covers d (set_of n e) s -> ~ better d (e_value e) v) /\
   exists ix' L' pk kept gone, insert ix s (abstraction s) v = Some (ix', v) /\ ix_inv d n ix' L' /\ packed s = Some pk /\
     Permutation L (kept ++ gone) /\ Permutation L' (mkEntry (abstraction s) pk v :: kept) /\
     Forall (fun e => ~ dominated d s v (item n e)) kept /\ Forall (fun e => dominated d s v (item n e)) gone).
Proof.
  intros Hn Hm I Gs NS. destruct (lookup_ok d n Hn Hm ix L s I Gs) as (best & El & B). unfold insert. rewrite El.
  pose proof I as (Ed & En & G & P & E & F & R). rewrite Ed.
  destruct (does_improve d best v) eqn:Hi; cbn [negb].
  - right. split.
    { unfold best_of in B. unfold does_improve in Hi. intros e He Hc Hb. destruct best as [b|].
      - destruct B as (_ & B). specialize (B e He Hc). unfold better in *. destruct d; apply Nat.ltb_lt in Hi; lia.
      - now apply (B e). }
    assert (Hp : 0 < n) by lia.
    assert (Gd : good n s false (concat (map snd P) ++ ix_ents ix)).
    { split. eapply Permutation_Forall; eauto. cbn [Nat.b2n]. rewrite (nS_perm n s _ _ R) in NS. lia. }
    destruct (trees_effect d n s v Hp Hm Gs ix Ed En P false (ix_ents ix)) as (f1 & P1 & U1 & F1 & E1 & G1); auto.
    { eapply Forall_impl; [|exact F]. now intros ? []. }
    rewrite <- E, U1. cbn [fst snd].
    destruct (buffer_effect d n s v Hp Hm Gs ix Ed En (S (length (ix_ents ix))) f1 [] (ix_ents ix) G1) as (f2 & B2 & U2 & E2). lia.
    cbn [app length] in U2. rewrite U2. cbn [fst snd].
    assert (Ef : effect d n s v false (concat (map snd P) ++ ix_ents ix) f2 (concat (map snd P1) ++ B2)) by (eapply effect_app; eauto).
    destruct (filter_trees P1 F1) as (P2 & EP2 & FP2 & CP2).
    destruct Ef as (kept & gone & same & Pm & Pm' & K & Go & Sa & Nn).
    destruct (packed_roundtrip s (proj1 Gs)) as (pk & Epk & _).
    assert (Gl : Forall (good_entry n) (kept ++ gone ++ same)). { eapply Permutation_Forall; [|exact G]. now rewrite R. }
    apply Forall_app in Gl. destruct Gl as (Gk & Gl). apply Forall_app in Gl. destruct Gl as (_ & Gsa).
    set (ix1 := mkIndex (ix_dir ix) (ix_channels ix) (filter (fun t => negb (tree_is_empty t)) (map fst P1)) B2).
    replace (mkIndex d (ix_channels ix) _ B2) with ix1 by (unfold ix1; now rewrite Ed).
    assert (I1 : ix_inv d n ix1 (kept ++ map (fun e => with_value e v) same)).
    { split; [auto|split; [auto|split]]. apply Forall_app. split; auto. rewrite Forall_map. eapply Forall_impl; [|exact Gsa]. intros e; apply good_with.
      exists P2. split; auto. split; auto. rewrite CP2. symmetry. exact Pm'. }
    assert (Dk : Forall (fun e => ~ dominated d s v (item n e)) kept) by exact K.
    assert (Dg : Forall (fun e => dominated d s v (item n e)) (gone ++ same)).
    { apply Forall_app. split. exact Go. eapply Forall_impl; [|exact Sa]. now intros ? []. }
    destruct f2.
    + destruct same as [|e [|? ?]]; cbn in Nn; try lia. apply Forall_inv in Sa. destruct Sa as (_ & Es). apply Forall_inv in Gsa.
      destruct (good_set n e Gsa) as (_ & Epe & _ & Eke). rewrite Es in Epe, Eke. rewrite Epk in Eke. injection Eke as Eke.
      exists ix1, (kept ++ map (fun e => with_value e v) [e]), pk, kept, (gone ++ [e]). split; [auto|]. split; [auto|]. split; [auto|].
      split. now rewrite R, Pm. split; auto.
      cbn [map]. unfold with_value. rewrite Epe, <- Eke. symmetry. apply Permutation_cons_append.
    + destruct same; [|cbn in Nn; lia]. cbn [map] in I1. rewrite app_nil_r in I1.
      destruct (unchecked_ok d n Hn Hm ix1 kept s v I1 Gs) as (ix2 & pk' & Ek' & U3 & I3). rewrite Epk in Ek'. injection Ek' as <-.
      rewrite U3. exists ix2, (mkEntry (abstraction s) pk v :: kept), pk, kept, (gone ++ []). split; [auto|]. split; [auto|]. split; [auto|].
      split. now rewrite R, Pm. split; auto.
  - left. destruct best as [b|]; [|discriminate]. exists b. split; auto. split; auto. unfold does_improve in Hi. unfold better. destruct d; apply Nat.ltb_ge in Hi; lia.
Qed.

(* ---------- histories ---------- *)

Lemma new_inv d n : ix_inv d n (index_new d n) [].
Proof. split; [|split; [|split]]; auto. exists []. repeat split; auto. Qed.
