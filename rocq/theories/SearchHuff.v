(* improve_huffman returns, unless the map can be improved. *)
From Coq Require Import List Arith Bool Lia Permutation.
Import ListNotations.
From Verif Require Import Spec Vec Net Graded Bits Util CountProofs OutputSetModel OutputSetProofs PruneProofs PackProofs HuffmanModel HuffmanProofs CanonModel TreeModel StatesModel StatesProofs StatesBounds SearchModel SearchFacts SearchInv SearchEdges SearchStep SearchFrames SearchGlobal SearchRun SearchSafe SearchOrder SearchWaits SearchMain SearchClosed SearchSlack SearchGood SearchQuiet SearchReach SearchNext.

(* an edge that can be improved *)
Definition Open (e : Edges) : Prop := exists id x, In id (active e) /\ nth_error (targets e) id = Some x /\ closed (tg_state x) = false.

Lemma open_cov e ids : cov_on e ids -> (forall id, In id ids -> id < length (targets e)) ->
  (exists id, In id ids /\ closed (tg_state (target_at e id)) = false) -> Open e.
Proof.
  intros C B (id & Hi & H). destruct (C id Hi) as [A|A]; [|congruence]. destruct (target_at_In e id (B id Hi)) as (_ & N).
  exists id, (target_at e id). auto.
Qed.

(* the polarities that are still of interest *)
Definition cnt (st : State) (uh0 uh1 : nat) : nat := (if lo st <? uh0 then 1 else 0) + (if lo st <? uh1 then 1 else 0).

Section Huff.
Variables chash mhash : list nat -> nat.
Notation cur := (cur mhash).
Notation Good := (Good chash mhash).
Notation frame_req := (frame_req chash).
Notation frame_ok := (frame_ok chash mhash).
Notation Reach := (Reach chash mhash).
Notation popped := (popped mhash).
Notation W := (W mhash).
Notation Pops := (Pops chash mhash).

Lemma at_frame_ok c t f rest : Good c -> at_frame c t f rest -> frame_ok (g_map c) (goal_in (cores c)) f.
Proof. intros G A. apply (inv_frame_ok chash mhash); auto. now apply good_inv. now apply (at_frame_In c t _ rest). Qed.
Lemma at_frame_cov c t f rest : Good c -> at_frame c t f rest -> cov_frame f.
Proof. intros G A. apply (gd_cov _ _ c G). now apply (at_frame_In c t _ rest). Qed.

Variable s : OutputSet.
Hypothesis IH : forall p, smaller p s -> Pops p.
Variable t : nat.
Variable rest : list Frame.

Notation at_h c pc := (at_frame c t (FHuff s pc) rest).
Notation Goes c := (Reach (PH t s) c (popped t None s rest)).

Lemma HPh pc : PH t s t (fset (FHuff s pc)).
Proof. right. auto. Qed.
Hint Resolve HPh : core.

Lemma go_hret c v e : Good c -> at_h c (HRet v e) -> Goes c.
Proof.
  intros G A. eapply step_cancel; [exact G|exact A|auto|reflexivity|]. intros c' Q G' He. apply reach_ret; auto. exists v. split; [|split; auto; discriminate].
  destruct (at_frame_ok _ _ _ _ G A) as (_ & _ & E & _). rewrite <- E. symmetry. now apply (quiet_cur chash mhash (PH t s)).
Qed.

Definition Head (n : nat) : Prop := forall c st ids0 ids1 uh0 uh1 e, Good c -> at_h c (HPol st ids0 ids1 uh0 uh1 e false) -> lo st < hhi st -> cnt st uh0 uh1 <= n -> Goes c.

Lemma go_while n c st ids0 ids1 uh0 uh1 e : Head n -> Good c -> ends (huff_while s st ids0 ids1 uh0 uh1 e) rest c t -> cnt st uh0 uh1 <= n -> Goes c.
Proof.
  intros Hd G He L. unfold huff_while in He. destruct (Nat.ltb_spec (lo st) (hhi st)); cbn [ends] in He.
  - eapply Hd; eauto.
  - eapply go_hret; eauto.
Qed.

Lemma next_hok st ids0 ids1 uh0 uh1 m goal e np : frame_ok m goal (FHuff s (HNext st ids0 ids1 uh0 uh1 e np)) -> edges_ok mhash m goal e /\ np_ok e np.
Proof. intros (_ & _ & (_ & E & _) & N). auto. Qed.

Lemma hnext_any n c st ids0 ids1 uh0 uh1 e np : Head n -> Good c -> at_h c (HNext st ids0 ids1 uh0 uh1 e np) -> cnt st uh0 uh1 <= n -> Goes c.
Proof.
  intros Hd G A L. eapply reach_bind.
  - apply (next_any chash mhash s IH None (fun e' np' => FHuff s (HNext st ids0 ids1 uh0 uh1 e' np')) (fun e' => huff_while s st ids0 ids1 uh0 uh1 e')
             (fun _ _ => eq_refl) (fun _ _ => eq_refl) (fun _ _ => eq_refl) (next_hok st ids0 ids1 uh0 uh1) t rest c e np (S (W c e))); auto.
  - intros c' Q G' (e' & He & _). eapply go_while; eauto.
Qed.
Lemma hmax_any n c st ids0 ids1 uh0 uh1 e : Head n -> Good c -> at_h c (HMax st ids0 ids1 uh0 uh1 e) -> cnt st uh0 uh1 <= n -> Goes c.
Proof.
  intros Hd G A L. destruct (Nat.max uh0 uh1 <? hhi st) eqn:E.
  - eapply step_set; [exact G|exact A|auto|]. cbn [SearchModel.frame_req huff_req]. rewrite E. reflexivity.
  - eapply step_tau; [exact G|exact A|auto| |]. { cbn [SearchModel.frame_req huff_req]. rewrite E. reflexivity. }
    intros c' Q G' He. eapply hnext_any; eauto.
Qed.

Lemma hpolset_after c st ids0 ids1 uh0 uh1 e pol lh : Good c -> at_h c (HPolSet st ids0 ids1 uh0 uh1 e pol lh) ->
  Reach (PH t s) c (fun c' => ends (huff_after s st ids0 ids1 uh0 uh1 e pol) rest c' t /\ lh <= lo st).
Proof.
  intros G A. destruct (Nat.ltb_spec (hlo st) lh) as [E|E].
  - apply Nat.ltb_lt in E. destruct (lo st <? lh) eqn:E2; (eapply step_set; [exact G|exact A|auto|]); cbn [SearchModel.frame_req huff_req]; rewrite E, E2; reflexivity.
  - eapply step_tau; [exact G|exact A|auto| |]. { cbn [SearchModel.frame_req huff_req]. apply Nat.ltb_ge in E. rewrite E. reflexivity. }
    intros c' Q G' He. apply reach_ret; auto. split; auto.
    destruct (at_frame_ok _ _ _ _ G A) as (K & _ & (Ec & _) & _). destruct (gd_hb _ _ c G s K) as (B & _). rewrite Ec in B. lia.
Qed.


(* one polarity *)
Lemma pol_step pol c st ids0 ids1 uh0 uh1 e : Good c -> at_h c (HPol st ids0 ids1 uh0 uh1 e pol) ->
  Reach (PH t s) c (fun c' =>
    (exists uh0' uh1' e' lh, at_h c' (HPolSet st ids0 ids1 uh0' uh1' e' pol lh) /\ cnt st uh0' uh1' < cnt st uh0 uh1) \/
    (exists uh0' uh1', ends (huff_after s st ids0 ids1 uh0' uh1' e pol) rest c' t /\ cnt st uh0' uh1' <= cnt st uh0 uh1 /\
       (if pol then uh0' = uh0 /\ (uh1' <= lo st \/ Open e) else uh0' <= lo st \/ Open e))).
Proof.
  intros G A. pose proof (at_frame_ok _ _ _ _ G A) as (K & Wk & (Ec & EO & I0 & I1)). pose proof (at_frame_cov _ _ _ _ G A) as (C0 & C1).
  destruct (lo st <? (if pol then uh1 else uh0)) eqn:Elive.
  2: { eapply step_tau; [exact G|exact A|auto| |]. { cbn [SearchModel.frame_req huff_req]. rewrite Elive. reflexivity. }
       intros c' Q G' He. apply reach_ret; auto. right. exists uh0, uh1. apply Nat.ltb_ge in Elive. split; auto. destruct pol; auto. }
  set (ids := if pol then ids1 else ids0) in *.
  assert (Ii : exists l, ids_ok e ids l) by (unfold ids; destruct pol; eauto). destruct Ii as (l & Ii).
  assert (Ci : cov_on e ids). { apply Nat.ltb_lt in Elive. unfold ids. destruct pol; auto. }
  destruct (max_plus_1_huffman (map lo (map (fun id => tg_state (target_at e id)) ids))) as [lh|] eqn:Elh.
  2: { eapply step_tau; [exact G|exact A|auto| |]. { cbn [SearchModel.frame_req huff_req]. rewrite Elive. fold ids. rewrite (ids_states e ids l Ii). cbv beta iota. rewrite Elh. cbv beta iota. reflexivity. }
       intros c' Q G' []. }
  destruct (max_plus_1_huffman (map hi (map (fun id => tg_state (target_at e id)) ids))) as [uh|] eqn:Euh.
  2: { eapply step_tau; [exact G|exact A|auto| |]. { cbn [SearchModel.frame_req huff_req]. rewrite Elive. fold ids. rewrite (ids_states e ids l Ii). cbv beta iota. rewrite Elh, Euh. cbv beta iota. reflexivity. }
       intros c' Q G' []. }
  destruct (uh <=? lo st) eqn:Eu.
  - destruct (retain_edges (fun id => existsb (Nat.eqb id) (if pol then ids0 else ids1)) e) as (e', dr) eqn:Er.
    eapply step_cancel; [exact G|exact A|auto| |].
    { cbn [SearchModel.frame_req huff_req]. rewrite Elive. fold ids. rewrite (ids_states e ids l Ii). cbv beta iota. rewrite Elh, Euh. cbv beta iota. rewrite Eu, Er. reflexivity. }
    intros c' Q G' He. apply reach_ret; auto. left. eexists _, _, e', lh. split; [exact He|]. apply Nat.leb_le in Eu.
    unfold cnt. destruct pol; rewrite Elive; destruct (Nat.ltb_spec (lo st) uh); try lia.
  - eapply step_tau; [exact G|exact A|auto| |].
    { cbn [SearchModel.frame_req huff_req]. rewrite Elive. fold ids. rewrite (ids_states e ids l Ii). cbv beta iota. rewrite Elh, Euh. cbv beta iota. rewrite Eu. reflexivity. }
    intros c' Q G' He. cbn [ends] in He. eapply reach_bind. eapply hpolset_after; eauto.
    intros c2 Q2 G2 (He2 & Lh). apply reach_ret; auto. right. eexists _, _. split; [exact He2|]. apply Nat.leb_gt in Eu.
    assert (Op : Open e).
    { apply (open_cov e ids); auto. apply Ii.
      destruct (existsb (fun id => negb (closed (tg_state (target_at e id)))) ids) eqn:Ex.
      - apply existsb_exists in Ex. destruct Ex as (id & Hi & Hc). exists id. split; auto. now apply negb_true_iff.
      - exfalso. rewrite !map_map in *. assert (E : map (fun id => lo (tg_state (target_at e id))) ids = map (fun id => hi (tg_state (target_at e id))) ids).
        { apply map_ext_in. intros id Hi. destruct (closed (tg_state (target_at e id))) eqn:Ecl. now apply Nat.eqb_eq in Ecl.
          exfalso. assert (Y : existsb (fun id => negb (closed (tg_state (target_at e id)))) ids = true). { apply existsb_exists. exists id. rewrite Ecl. auto. } congruence. }
        rewrite E in Elh. rewrite Elh in Euh. injection Euh as ->. lia. }
    destruct pol; cbn [fst snd]; split; auto; unfold cnt; rewrite Elive; destruct (Nat.ltb_spec (lo st) uh); lia.
Qed.

Lemma hpol_true_any n c st ids0 ids1 uh0 uh1 e : Head n -> Good c -> at_h c (HPol st ids0 ids1 uh0 uh1 e true) -> cnt st uh0 uh1 <= n -> Goes c.
Proof.
  intros Hd G A L. eapply reach_bind. apply (pol_step true c st ids0 ids1 uh0 uh1 e); auto.
  intros c' Q G' [(u0 & u1 & e' & lh & He & Lc)|(u0 & u1 & He & Lc & _)].
  - eapply reach_bind. eapply hpolset_after; eauto. intros c2 Q2 G2 (He2 & _). cbn [huff_after ends] in He2. apply (hmax_any n c2 st ids0 ids1 u0 u1 e'); auto. lia.
  - cbn [huff_after ends] in He. apply (hmax_any n c' st ids0 ids1 u0 u1 e); auto. lia.
Qed.
Lemma hafter_any n pol c st ids0 ids1 uh0 uh1 e : Head n -> Good c -> ends (huff_after s st ids0 ids1 uh0 uh1 e pol) rest c t -> cnt st uh0 uh1 <= n -> Goes c.
Proof.
  intros Hd G He L. destruct pol; cbn [huff_after ends] in He. now apply (hmax_any n c st ids0 ids1 uh0 uh1 e). now apply (hpol_true_any n c st ids0 ids1 uh0 uh1 e).
Qed.
Lemma hpolset_any n pol c st ids0 ids1 uh0 uh1 e lh : Head n -> Good c -> at_h c (HPolSet st ids0 ids1 uh0 uh1 e pol lh) -> cnt st uh0 uh1 <= n -> Goes c.
Proof.
  intros Hd G A L. eapply reach_bind. eapply hpolset_after; eauto. intros c2 Q2 G2 (He2 & _). eapply hafter_any; eauto.
Qed.

(* the loop: nothing is written, so some edge can be improved *)
Lemma head_step n : (forall k, k < n -> Head k) -> Head n.
Proof.
  intros Lower. assert (Main : forall w c st ids0 ids1 uh0 uh1 e, Good c -> at_h c (HPol st ids0 ids1 uh0 uh1 e false) -> lo st < hhi st -> cnt st uh0 uh1 <= n -> W c e < w -> Goes c).
  2: { intros c st ids0 ids1 uh0 uh1 e G A L Lc. apply (Main (S (W c e)) c st ids0 ids1 uh0 uh1 e); auto. }
  induction w as [|w IHw]; intros c st ids0 ids1 uh0 uh1 e G A L Lc LW. lia.
  pose proof (at_frame_ok _ _ _ _ G A) as (_ & _ & (_ & EO & _)).
  eapply reach_bind. apply (pol_step false c st ids0 ids1 uh0 uh1 e); auto.
  intros c1 Q1 G1 [(u0 & u1 & e' & lh & He & L1)|(u0 & u1 & He & L1 & D0)].
  { apply (hpolset_any (cnt st u0 u1) false c1 st ids0 ids1 u0 u1 e' lh); auto. apply Lower. lia. }
  pose proof (W_quiet chash mhash (PH t s) c c1 e G1 Q1 EO) as W1. cbn [huff_after ends] in He.
  pose proof (at_frame_ok _ _ _ _ G1 He) as (_ & _ & (_ & EO1 & _)).
  eapply reach_bind. apply (pol_step true c1 st ids0 ids1 u0 u1 e); auto.
  intros c2 Q2 G2 [(v0 & v1 & e' & lh & He2 & L2)|(v0 & v1 & He2 & L2 & -> & D1)].
  { apply (hpolset_any (cnt st v0 v1) true c2 st ids0 ids1 v0 v1 e' lh); auto. apply Lower. lia. }
  pose proof (W_quiet chash mhash (PH t s) c1 c2 e G2 Q2 EO1) as W2. cbn [huff_after ends] in He2.
  pose proof (at_frame_ok _ _ _ _ G2 He2) as (_ & _ & (_ & EO2 & _)).
  destruct (Nat.max u0 v1 <? hhi st) eqn:E.
  { eapply step_set; [exact G2|exact He2|auto|]. cbn [SearchModel.frame_req huff_req]. rewrite E. reflexivity. }
  eapply step_tau; [exact G2|exact He2|auto| |]. { cbn [SearchModel.frame_req huff_req]. rewrite E. reflexivity. }
  intros c3 Q3 G3 He3. cbn [ends] in He3. pose proof (W_quiet chash mhash (PH t s) c2 c3 e G3 Q3 EO2) as W3. apply Nat.ltb_ge in E.
  assert (Op : Open e). { destruct D0 as [D0|]; auto. destruct D1 as [D1|]; auto. lia. }
  eapply reach_bind.
  - eapply (poll_open chash mhash s IH None (fun e' np' => FHuff s (HNext st ids0 ids1 u0 v1 e' np')) (fun e' => huff_while s st ids0 ids1 u0 v1 e')
             (fun _ _ => eq_refl) (fun _ _ => eq_refl) (fun _ _ => eq_refl) (next_hok st ids0 ids1 u0 v1) t rest _ c3 e _ _ w); auto.
    exact He3. lia.
  - intros c4 Q4 G4 (e' & He4 & L4). unfold huff_while in He4. destruct (Nat.ltb_spec (lo st) (hhi st)); [|lia]. cbn [ends] in He4.
    apply (IHw c4 st ids0 ids1 u0 v1 e'); auto. lia.
Qed.
Lemma head_all n : Head n.
Proof. induction n as [n IHn] using (well_founded_induction lt_wf). now apply head_step. Qed.

Lemma go_hedge todo : forall c st ids0 ids1 e, Good c -> at_h c (HEdge st todo ids0 ids1 e) -> Goes c.
Proof.
  induction todo as [|(pol, ch) todo IHt]; intros c st ids0 ids1 e G A.
  - eapply step_tau; [exact G|exact A|auto|reflexivity|]. intros c' Q G' He. eapply go_while; [apply (head_all (cnt st (hhi st) (hhi st)))|auto|exact He|auto].
  - destruct (prune_canon chash s pol ch) as [target|] eqn:Ep.
    2: { eapply step_tau; [exact G|exact A|auto| |]. { cbn [SearchModel.frame_req huff_req]. rewrite Ep. reflexivity. } intros c' Q G' []. }
    destruct (find_target target (targets e) 0) as [id|] eqn:Ef.
    + eapply step_tau; [exact G|exact A|auto| |]. { cbn [SearchModel.frame_req huff_req]. rewrite Ep. unfold add_edge_req. rewrite Ef. reflexivity. }
      intros c' Q G' He. destruct pol; cbn [ends] in He; eapply IHt; eauto.
    + eapply step_get; [exact G|exact A|auto| |]. { cbn [SearchModel.frame_req huff_req]. rewrite Ep. unfold add_edge_req. rewrite Ef. reflexivity. }
      intros c' Q G' He. cbv beta in He. destruct (push_target e target _) as (e', id). destruct pol; cbn [ends] in He; eapply IHt; eauto.
Qed.

Lemma go_huff c pc : Good c -> at_h c pc -> Goes c.
Proof.
  intros G A. destruct pc.
  - eapply step_get; [exact G|exact A|auto|reflexivity|]. intros c' Q G' He. cbv beta in He. destruct (_ <=? _).
    + apply reach_ret; auto. eexists. split; [|split; [discriminate|exact He]]. symmetry. now apply (quiet_cur chash mhash (PH t s)).
    + eapply go_hedge; eauto.
  - eapply go_hedge; eauto.
  - destruct pol. eapply (hpol_true_any _ c); eauto using head_all.
    eapply reach_bind. eapply pol_step; eauto. intros c' Q G' [(u0 & u1 & e' & lh & He & _)|(u0 & u1 & He & _)].
    + eapply (hpolset_any (cnt st u0 u1)); eauto using head_all.
    + eapply (hafter_any (cnt st u0 u1)); eauto using head_all.
  - eapply (hpolset_any _ _ c); eauto using head_all.
  - eapply (hmax_any _ c); eauto using head_all.
  - eapply (hnext_any _ c); eauto using head_all.
  - eapply go_hret; eauto.
Qed.
End Huff.
