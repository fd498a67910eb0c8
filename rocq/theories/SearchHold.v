(* improve, from the point where it holds the lock, returns and gives the lock back, unless the map can be improved. *)
From Coq Require Import List Arith Bool Lia Permutation.
Import ListNotations.
From Verif Require Import Spec Vec Net Graded Bits Util CountProofs OutputSetModel OutputSetProofs PruneProofs PackProofs HuffmanModel HuffmanProofs CanonModel TreeModel StatesModel StatesProofs StatesBounds SearchModel SearchFacts SearchInv SearchEdges SearchStep SearchFrames SearchGlobal SearchRun SearchSafe SearchOrder SearchWaits SearchMain SearchClosed SearchSlack SearchGood SearchQuiet SearchReach SearchNext SearchHuff.

Section Hold.
Variables chash mhash : list nat -> nat.
Notation cur := (cur mhash).
Notation Good := (Good chash mhash).
Notation frame_req := (frame_req chash).
Notation frame_ok := (frame_ok chash mhash).
Notation Reach := (Reach chash mhash).
Notation popped := (popped mhash).
Notation W := (W mhash).
Notation Pops := (Pops chash mhash).
Notation lock_of := (lock_of mhash).

Variable s : OutputSet.
Hypothesis IH : forall p, smaller p s -> Pops p.
Variable t : nat.
Variable rest : list Frame.
Variable prev : State.
Variable lk : nat.

Notation at_i c pc := (at_frame c t (FImp prev s pc) rest).
Definition released (c : Config) : Prop := popped t (Some prev) s rest c /\ In lk (g_sent c) /\ lock_of (g_map c) s = None.
Notation Goes c := (Reach (PH t s) c released).

Lemma HPi pc : PH t s t (fset (FImp prev s pc)).
Proof. right. auto. Qed.
Hint Resolve HPi : core.
Ltac req := cbn [SearchModel.frame_req imp_req].

Lemma go_unlock c v : Good c -> at_i c (IUnlock lk v) -> Goes c.
Proof.
  intros G A. destruct (at_frame_ok _ _ _ _ _ _ G A) as (_ & _ & E & D).
  eapply step_unlock; [exact G|exact A|auto|reflexivity|]. intros c' Q G' He Hs Hl. apply reach_ret; auto. split; auto.
  exists v. split; [|split; auto].
  - rewrite <- E. symmetry. now apply (quiet_cur chash mhash (PH t s)).
  - intros p H. injection H as <-. auto.
Qed.
Lemma go_iret c v e : Good c -> at_i c (IRet lk v e) -> Goes c.
Proof. intros G A. eapply step_cancel; [exact G|exact A|auto|reflexivity|]. intros c' Q G' He. eapply go_unlock; eauto. Qed.
Lemma go_lowset c st new e : Good c -> at_i c (ILowSet lk st new e) -> Goes c.
Proof. intros G A. eapply step_set; [exact G|exact A|auto|reflexivity]. Qed.
Lemma go_lowget c st b e : Good c -> at_i c (ILowGet lk st b e) -> Goes c.
Proof. intros G A. eapply step_get; [exact G|exact A|auto|reflexivity|]. intros c' Q G' He. eapply go_lowset; eauto. Qed.

Lemma next_iok st m goal e np : frame_ok m goal (FImp prev s (INext lk st e np)) -> edges_ok mhash m goal e /\ np_ok e np.
Proof. intros (_ & _ & (E & _) & N). auto. Qed.

Lemma open_targets e x : cov e -> In x (targets e) -> closed (tg_state x) = false -> Open e.
Proof.
  intros C Hx Hc. apply In_nth_error in Hx. destruct Hx as (id & N). pose proof (nth_error_lt _ _ _ N) as L.
  exists id, x. split; auto. destruct (C id) as [H|H]; auto. apply in_seq. lia. rewrite (target_at_nth e id x N) in H. congruence.
Qed.

Lemma states_small m goal e : map_inv chash mhash m -> edges_ok mhash m goal e -> forall st, In st (edge_states e) -> lo st <= 35 /\ hi st <= 35.
Proof. intros I (T & _) st H. apply in_map_iff in H. destruct H as (x & <- & Hx). destruct (T x Hx) as (K & P & _). split. now apply (past_lo_le chash mhash m (tg_set x)). apply P. Qed.

Lemma cur_order c p : Good c -> okset p -> lo (cur (g_map c) p) <= hi (cur (g_map c) p).
Proof.
  intros G K. pose proof (inv_map _ _ c (good_inv _ _ c G)) as I.
  destruct (mi_valid chash mhash _ I p K) as (L & U). exact (lower_upper _ _ _ _ L U).
Qed.

(* the loop: nothing is written, so some edge can be improved *)
Lemma go_upper : forall w c st e, Good c -> at_i c (IUpper lk st e) -> W c e < w -> Goes c.
Proof.
  induction w as [|w IHw]; intros c st e G A L. lia.
  pose proof (at_frame_ok _ _ _ _ _ _ G A) as (K & (Wk & Ec & El & Cl) & SE). pose proof (inv_map _ _ c (good_inv _ _ c G)) as I.
  pose proof (states_small _ _ e I (proj1 SE)) as SS.
  destruct (succ_edges_min chash mhash (g_map c) (goal_in (cores c)) s e hi I K Wk SE (fun st H => proj2 (SS st H))) as (uv & Eu & _ & Mu).
  destruct (succ_edges_min chash mhash (g_map c) (goal_in (cores c)) s e lo I K Wk SE (fun st H => proj1 (SS st H))) as (lv & Elo & (x & Hx & Ex & _) & _).
  destruct (uv + 1 <? hi st) eqn:E1.
  { eapply step_set; [exact G|exact A|auto|]. req. rewrite Eu. cbv beta iota. rewrite E1. reflexivity. }
  eapply step_tau; [exact G|exact A|auto| |]. { req. rewrite Eu. cbv beta iota. rewrite E1. reflexivity. }
  intros c1 Q1 G1 He1. cbn [ends] in He1. pose proof (W_quiet chash mhash (PH t s) c c1 e G1 Q1 (proj1 SE)) as W1.
  pose proof (at_frame_ok _ _ _ _ _ _ G1 He1) as (_ & _ & SE1).
  destruct (lo st <? lv + 1) eqn:E2.
  { eapply step_tau; [exact G1|exact He1|auto| |]. { req. rewrite Elo. cbv beta iota. rewrite E2. reflexivity. } intros c2 Q2 G2 He2. eapply go_lowget; eauto. }
  eapply step_tau; [exact G1|exact He1|auto| |]. { req. rewrite Elo. cbv beta iota. rewrite E2. reflexivity. }
  intros c2 Q2 G2 He2. cbn [ends] in He2. pose proof (W_quiet chash mhash (PH t s) c1 c2 e G2 Q2 (proj1 SE1)) as W2.
  pose proof (at_frame_cov _ _ _ _ _ _ G2 He2) as Cv. cbn [cov_frame] in Cv.
  apply Nat.ltb_ge in E1, E2. apply Nat.eqb_neq in Cl.
  assert (V : lo st <= hi st). { rewrite <- Ec. exact (cur_order c s G K). }
  assert (Op : Open e). { apply (open_targets e x); auto. apply Nat.eqb_neq. specialize (Mu x Hx). lia. }
  eapply reach_bind.
  - eapply (poll_open chash mhash s IH (Some (lo st)) (fun e' np' => FImp prev s (INext lk st e' np')) (fun e' => CGo (FImp prev s (IUpper lk st e')))
             (fun _ _ => eq_refl) (fun _ _ => eq_refl) (fun _ _ => eq_refl) (next_iok st) t rest _ c2 e _ _ w); auto.
    exact He2. lia.
  - intros c4 Q4 G4 (e' & He4 & L4). cbn [ends] in He4. apply (IHw c4 st e'); auto.
Qed.

Lemma go_inext c st e np : Good c -> at_i c (INext lk st e np) -> Goes c.
Proof.
  intros G A. eapply reach_bind.
  - apply (next_any chash mhash s IH (Some (lo st)) (fun e' np' => FImp prev s (INext lk st e' np')) (fun e' => CGo (FImp prev s (IUpper lk st e')))
             (fun _ _ => eq_refl) (fun _ _ => eq_refl) (fun _ _ => eq_refl) (next_iok st) t rest c e np (S (W c e))); auto.
  - intros c' Q G' (e' & He & _). cbn [ends] in He. eapply go_upper; eauto.
Qed.
Lemma go_lower c st e : Good c -> at_i c (ILower lk st e) -> Goes c.
Proof.
  intros G A. destruct (m <- list_min (map lo (edge_states e));; u8_succ m) as [lb|] eqn:Eb.
  2: { eapply step_tau; [exact G|exact A|auto| |]. { req. rewrite Eb. reflexivity. } intros c1 Q1 G1 []. }
  destruct (lo st <? lb) eqn:E; (eapply step_tau; [exact G|exact A|auto|req; rewrite Eb, E; reflexivity|]); intros c1 Q1 G1 He1; cbn [ends] in He1.
  eapply go_lowget; eauto. eapply go_inext; eauto.
Qed.

Lemma go_edge todo : forall c st e, Good c -> at_i c (IEdge lk st todo e) -> Goes c.
Proof.
  induction todo as [|(i, j) todo IHt]; intros c st e G A.
  - eapply step_tau; [exact G|exact A|auto|reflexivity|]. intros c' Q G' He. eapply go_upper; eauto.
  - destruct (apply_comparator s i j) as (t0, changed) eqn:Ea. destruct changed.
    2: { eapply step_tau; [exact G|exact A|auto| |]. { req. rewrite Ea. reflexivity. } intros c' Q G' He. eapply IHt; eauto. }
    destruct (canon chash t0) as [target|] eqn:Ep.
    2: { eapply step_tau; [exact G|exact A|auto| |]. { req. rewrite Ea, Ep. reflexivity. } intros c' Q G' []. }
    destruct (find_target target (targets e) 0) as [id|] eqn:Ef.
    + eapply step_tau; [exact G|exact A|auto| |]. { req. rewrite Ea, Ep. unfold add_edge_req. rewrite Ef. reflexivity. }
      intros c' Q G' He. eapply IHt; eauto.
    + eapply step_get; [exact G|exact A|auto| |]. { req. rewrite Ea, Ep. unfold add_edge_req. rewrite Ef. reflexivity. }
      intros c' Q G' He. cbv beta in He. destruct (push_target e target _) as (e', id). eapply IHt; eauto.
Qed.

(* the single extremal channel: a call with the state of p as it is, and then a call with that of the map *)
Lemma go_prlower_cur c st p pst : Good c -> at_i c (IPrLower lk st p pst) -> hi st <= hi pst -> pst = cur (g_map c) p -> Goes c.
Proof.
  intros G A Lh Ep. pose proof (at_frame_ok _ _ _ _ _ _ G A) as (K & (Wk & Ec & El & Cl) & Sg & _).
  destruct (lo st <? lo pst) eqn:E1.
  { eapply step_set; [exact G|exact A|auto|]. req. rewrite E1. reflexivity. }
  eapply step_tau; [exact G|exact A|auto| |]. { req. rewrite E1. reflexivity. }
  intros c1 Q1 G1 He1. cbn [ends] in He1.
  destruct (IH p (single_smaller chash s p K Sg) c1 t _ _ G1 He1 Logic.I eq_refl eq_refl) as [H|(c2 & Q2 & G2 & (v & Ev & D & _))]; [now left|].
  exfalso. apply Nat.ltb_ge in E1. apply Nat.eqb_neq in Cl.
  assert (Ev' : v = pst). { rewrite Ev, Ep, (quiet_cur chash mhash _ c1 c2 p Q2). apply (quiet_cur chash mhash _ c c1 p Q1). }
  destruct (D pst eq_refl) as [D'|D']; [|contradiction]. apply Nat.eqb_eq in D'. rewrite Ev' in D'.
  assert (V : lo st <= hi st). { rewrite <- Ec. exact (cur_order c s G K). }
  lia.
Qed.
Lemma go_prupper_cur c st p pst : Good c -> at_i c (IPrUpper lk st p pst) -> pst = cur (g_map c) p -> Goes c.
Proof.
  intros G A Ep. destruct (hi pst <? hi st) eqn:E1.
  { eapply step_set; [exact G|exact A|auto|]. req. rewrite E1. reflexivity. }
  eapply step_tau; [exact G|exact A|auto| |]. { req. rewrite E1. reflexivity. }
  intros c1 Q1 G1 He1. cbn [ends] in He1. apply Nat.ltb_ge in E1. apply (go_prlower_cur c1 st p pst); auto. rewrite Ep. symmetry. now apply (quiet_cur chash mhash (PH t s)).
Qed.
Lemma go_prlower c st p pst : Good c -> at_i c (IPrLower lk st p pst) -> Goes c.
Proof.
  intros G A. pose proof (at_frame_ok _ _ _ _ _ _ G A) as (K & _ & Sg & _). pose proof (single_smaller chash s p K Sg) as Sp.
  destruct (lo st <? lo pst) eqn:E1.
  { eapply step_set; [exact G|exact A|auto|]. req. rewrite E1. reflexivity. }
  eapply step_tau; [exact G|exact A|auto| |]. { req. rewrite E1. reflexivity. }
  intros c1 Q1 G1 He1. cbn [ends] in He1.
  destruct (IH p Sp c1 t _ _ G1 He1 Logic.I eq_refl eq_refl) as [H|(c2 & Q2 & G2 & (v & Ev & D & He2))]; [now left|].
  apply (reach_quiet chash mhash _ c1 c2). { apply (quiet_mono chash mhash (PA p)); auto. intros u y. now apply PA_PH. }
  cbn [ends resume] in He2. destruct He2 as (f' & Ef & A2). injection Ef as <-. apply (go_prupper_cur c2 st p v); auto.
Qed.
Lemma go_prupper c st p pst : Good c -> at_i c (IPrUpper lk st p pst) -> Goes c.
Proof.
  intros G A. destruct (hi pst <? hi st) eqn:E1.
  { eapply step_set; [exact G|exact A|auto|]. req. rewrite E1. reflexivity. }
  eapply step_tau; [exact G|exact A|auto| |]. { req. rewrite E1. reflexivity. }
  intros c1 Q1 G1 He1. eapply go_prlower; eauto.
Qed.
Lemma go_prget c st p : Good c -> at_i c (IPrGet lk st p) -> Goes c.
Proof. intros G A. eapply step_get; [exact G|exact A|auto|reflexivity|]. intros c' Q G' He. eapply go_prupper; eauto. Qed.

Lemma go_resumed c st v f' : Good c -> resume (FImp prev s (IHuff lk st)) v = Some f' -> at_frame c t f' rest -> Goes c.
Proof.
  intros G R A. cbn [resume] in R. destruct (lo st <? lo v); injection R as <-. eapply go_unlock; eauto. eapply go_edge; eauto.
Qed.
Lemma go_extremal c st : Good c -> ends (after_extremal prev s lk st) rest c t -> Goes c.
Proof.
  intros G He. unfold after_extremal in He. destruct (lo st <? hhi st); cbn [ends] in He.
  - eapply reach_bind. apply (go_huff chash mhash s IH t _ c HGet G He).
    intros c' Q G' (v & _ & _ & He'). cbn [ends] in He'. destruct He' as (f' & R & A). eapply go_resumed; eauto.
  - eapply go_edge; eauto.
Qed.
Lemma go_check c : Good c -> at_i c (ICheck lk) -> Goes c.
Proof.
  intros G A. eapply step_get; [exact G|exact A|auto|reflexivity|]. intros c' Q G' He. cbv beta in He.
  destruct (negb _). { eapply go_unlock; eauto. } destruct (closed _). { eapply go_unlock; eauto. }
  set (st := cur (g_map c) s) in *. unfold after_check in He.
  assert (E : forall pol ch, ends (match prune_canon chash s pol ch with Some p => CGo (FImp prev s (IPrGet lk st p)) | None => CPanic end) rest c' t -> Goes c').
  { intros pol ch H. destruct (prune_canon chash s pol ch); [eapply go_prget; eauto|destruct H]. }
  destruct (extremal_channels s false) as [|a [|b l]]; [| now apply (E false a) |];
    (destruct (extremal_channels s true) as [|a' [|b' l']]; [eapply go_extremal; eauto| now apply (E true a') |eapply go_extremal; eauto]).
Qed.

Lemma go_held c pc : Good c -> at_i c pc -> live (FImp prev s pc) -> held (FImp prev s pc) = Some (s, lk) -> Goes c.
Proof.
  intros G A L H. destruct pc; try discriminate; try destruct L; cbn [held] in H; injection H as ->.
  - now apply go_check.
  - eapply go_prget; eauto.
  - eapply go_prupper; eauto.
  - eapply go_prlower; eauto.
  - eapply go_edge; eauto.
  - eapply go_upper; eauto.
  - now apply (go_lower c st e).
  - eapply go_lowget; eauto.
  - eapply go_lowset; eauto.
  - eapply go_inext; eauto.
  - eapply go_iret; eauto.
  - eapply go_unlock; eauto.
Qed.
End Hold.
