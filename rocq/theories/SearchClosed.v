(* Properties of sets that hold for the sets of all frames and of everything stored, and what they give for a search that
   starts from all values: every other set on the same number of channels has two ordered channels. *)
From Coq Require Import List Arith Bool Lia Permutation.
Import ListNotations.
From Verif Require Import Spec Vec Net Graded Bits Util OutputSetModel OutputSetProofs PruneProofs PackProofs CountProofs HuffmanModel HuffmanProofs CanonModel TreeModel StatesModel StatesProofs StatesBounds SearchModel SearchFacts SearchInv SearchEdges SearchStep SearchFrames SearchGlobal SearchRun SearchSafe SearchOrder SearchWaits SearchMain.

Section Closed.
Variables chash mhash : list nat -> nat.
Notation Inv := (Inv chash mhash).
Notation frame_req := (frame_req chash).
Notation frame_ok := (frame_ok chash mhash).
Notation access := (access mhash).
Notation task_step := (task_step chash mhash).
Notation sys_step := (sys_step chash mhash).
Notation search_run := (search_run chash mhash).
Variable R : OutputSet -> Prop.
Hypothesis R_succ : forall s t, okset s -> R s -> In t (succs chash s) -> R t.
Hypothesis R_prune : forall s pol t, okset s -> R s -> In t (prunes chash s pol) -> R t.

(* the set of a frame and the sets its edges lead to *)
Definition edges_all (e : Edges) : Prop := forall t, In t (sets e) -> R t.
Definition frame_all (f : Frame) : Prop := R (fset f) /\ edges_all (frame_edges f).

Lemma edges_same e e' : sets e' = sets e -> edges_all e -> edges_all e'.
Proof. unfold edges_all. intros ->. auto. Qed.
Lemma edges_targets e e' : targets e' = targets e -> edges_all e -> edges_all e'.
Proof. intros H. apply edges_same. unfold sets. now rewrite H. Qed.
Lemma edges_none : edges_all no_edges.
Proof. intros t []. Qed.
Lemma edges_push e t st e' id : R t -> edges_all e -> push_target e t st = (e', id) -> edges_all e'.
Proof.
  intros H B E. unfold push_target in E. injection E as <- _. intros x Hx. unfold sets in Hx. cbn [targets] in Hx.
  rewrite map_app, in_app_iff in Hx. destruct Hx as [Hx|[<-|[]]]; auto.
Qed.

Lemma next_req_all s order e np go done : edges_all e ->
  (forall e' np', edges_all e' -> frame_all (go e' np')) -> (forall e', edges_all e' -> ctl_all frame_all (done e')) ->
  R s -> req_all frame_all (next_req order e np go done).
Proof.
  intros B G D Rs. assert (SA : forall o e', edges_all e' -> edges_all (sort_active o e')). { intros o e'. now apply edges_targets. }
  destruct np as [ids finished nr block| |index ids block|ids block t]; cbn [next_req].
  - destruct ids as [|id ids].
    + cbn [req_all]. unfold retain_closed. destruct (forallb _ _); [|exact Logic.I].
      set (e' := mkEdges _ _). assert (B' : edges_all e') by (now apply (edges_targets e)).
      destruct (finished || _); auto. destruct (block && _); apply G; auto.
    + destruct (nth_error (targets e) id) as [x|]; [|exact Logic.I]. destruct (tg_run x); cbn [req_all]; [|apply G; auto].
      intros [v|] b; apply G; auto. apply (edges_same e); auto. now apply set_target_sets.
  - apply G. auto.
  - destruct ids as [|id ids]. apply G; auto. destruct (nth_error (targets e) id) as [x|] eqn:Nx; [|exact Logic.I]. destruct (tg_run x).
    + destruct (index =? 0); apply G; auto.
    + destruct (closed (tg_state x)); [exact Logic.I|]. cbn [req_all]. split.
      * split; [|apply edges_none]. cbn [fset]. apply B. unfold sets. apply in_map. eapply nth_error_In; eauto.
      * intros u. apply G. apply (edges_same e); auto. now apply set_target_sets.
  - apply G; auto.
Qed.

Lemma add_edge_all e t k : edges_all e -> R t -> (forall e' id, edges_all e' -> ctl_all frame_all (k e' id)) ->
  req_all frame_all (add_edge_req e t k).
Proof.
  intros B T H. unfold add_edge_req. destruct (find_target t (targets e) 0); cbn [req_all]; auto. intros st.
  destruct (push_target e t st) as (e', id) eqn:E. apply H. eapply edges_push; eauto.
Qed.

Lemma after_check_all prev s lk st : R s -> ctl_all frame_all (after_check chash prev s lk st).
Proof.
  intros Rs. assert (NN : forall f, fset f = s -> frame_edges f = no_edges -> frame_all f).
  { intros f E1 E2. unfold frame_all. rewrite E1, E2. split; auto. apply edges_none. }
  assert (AE : ctl_all frame_all (after_extremal prev s lk st)).
  { unfold after_extremal. destruct (lo st <? hhi st); cbn; [split|]; now apply NN. }
  unfold after_check. destruct (extremal_channels s false) as [|c0 [|c1 l]], (extremal_channels s true) as [|d0 [|d1 l']]; auto;
    match goal with |- context [prune_canon ?a ?b ?c ?d] => destruct (prune_canon a b c d); [now apply NN|exact Logic.I] end.
Qed.

Lemma single_all s p : okset s -> R s -> single chash s p -> R p.
Proof.
  intros K Rs (pol & c & E & ->). apply (R_prune s pol); auto. unfold prunes. apply in_map. rewrite E. now left.
Qed.

Lemma req_closed m goal f : map_inv chash mhash m -> frame_ok m goal f -> frame_all f -> req_all frame_all (frame_req f).
Proof.
  intros IM F (Rs & S). assert (NN : forall g, fset g = fset f -> frame_edges g = no_edges -> frame_all g).
  { intros g E1 E2. unfold frame_all. rewrite E1, E2. split; auto. apply edges_none. }
  assert (SS : forall g, fset g = fset f -> edges_all (frame_edges g) -> frame_all g).
  { intros g E1 E2. unfold frame_all. now rewrite E1. }
  destruct f as [s lim pc|prev s pc|s pc]; cbn [SearchModel.frame_req]; cbn [fset] in *.
  - destruct pc; cbn [main_req req_all]; try exact Logic.I; intros; try (now apply NN). destruct (closed st || _); cbn; [|split]; now apply NN.
  - destruct F as (K & F).
    destruct pc; cbn [imp_req]; try exact Logic.I.
    + cbn [req_all]. intros st. destruct (negb _); [exact Logic.I|]. destruct (closed st); [exact Logic.I|]. now apply NN.
    + cbn [req_all]. split; intros; now apply NN.
    + cbn [req_all ctl_all]. now apply NN.
    + cbn [req_all]. intros st. destruct (negb _). now apply NN. destruct (closed st). now apply NN. now apply after_check_all.
    + cbn [req_all]. intros. now apply NN.
    + destruct (hi pst <? hi st); cbn [req_all ctl_all]; [destruct (closed _)|]; now apply NN.
    + destruct (lo st <? lo pst); cbn [req_all ctl_all]; [now apply NN|split; [now apply NN|]]. split; [|apply edges_none].
      destruct F as (_ & Sg & _). cbn [fset]. now apply (single_all s).
    + destruct todo as [|(i, j) todo]; [now apply SS|]. destruct (apply_comparator s i j) as (t, ch) eqn:Ea. destruct ch; [|now apply SS].
      destruct (canon chash t) as [t'|] eqn:Et; [|exact Logic.I]. apply add_edge_all.
      * exact S.
      * apply (R_succ s); auto. destruct F as (_ & _ & done & Ep & _). unfold succs. apply in_flat_map. exists (i, j).
        split. rewrite Ep. apply in_app_iff. right. now left. unfold succ1. cbn [fst snd]. rewrite Ea. left. unfold canon_of. now rewrite Et.
      * intros e' id B. now apply SS.
    + destruct (m0 <- list_min (map hi (edge_states e));; u8_succ m0) as [ub|]; [|exact Logic.I].
      destruct (ub <? hi st); cbn [req_all]; [destruct (closed _)|]; now apply SS.
    + destruct (m0 <- list_min (map lo (edge_states e));; u8_succ m0) as [ub|]; [|exact Logic.I].
      destruct (lo st <? ub); cbn [req_all]; now apply SS.
    + cbn [req_all]. intros st'. now apply SS.
    + now apply SS.
    + apply (next_req_all s); [exact S| | |exact Rs]; intros; now apply SS.
    + cbn [req_all]. now apply NN.
  - destruct F as (K & Wk & F).
    assert (HW : forall st ids0 ids1 uh0 uh1 e, edges_all e -> ctl_all frame_all (huff_while s st ids0 ids1 uh0 uh1 e)).
    { intros st ids0 ids1 uh0 uh1 e B. unfold huff_while. destruct (lo st <? hhi st); now apply SS. }
    assert (HA : forall st ids0 ids1 uh0 uh1 e pol, edges_all e -> ctl_all frame_all (huff_after s st ids0 ids1 uh0 uh1 e pol)).
    { intros st ids0 ids1 uh0 uh1 e pol B. unfold huff_after. destruct pol; now apply SS. }
    destruct pc; cbn [huff_req]; try exact Logic.I.
    + cbn [req_all]. intros st. destruct (hhi st <=? lo st). exact Logic.I. now apply NN.
    + destruct todo as [|(pol, c) todo]; [apply HW, S|]. destruct (prune_canon chash s pol c) as [t|] eqn:Et; [|exact Logic.I].
      apply add_edge_all.
      * exact S.
      * apply (R_prune s pol); auto. unfold prunes. apply in_map_iff. exists c. split. unfold prune_of. now rewrite Et.
        destruct F as (_ & _ & d0 & r0 & d1 & r1 & E0 & E1 & Et' & _).
        assert (X : In (pol, c) (map (pair false) r0 ++ map (pair true) r1)) by (rewrite <- Et'; now left).
        apply in_app_iff in X. destruct X as [X|X]; apply in_map_iff in X; destruct X as (c' & Ec & X); injection Ec as <- <-.
        rewrite E0. apply in_app_iff. auto. rewrite E1. apply in_app_iff. auto.
      * intros e' id B. destruct pol; now apply SS.
    + destruct (lo st <? (if pol then uh1 else uh0)); [|apply HA, S].
      match goal with |- context [match ?a with _ => _ end] => destruct a as [(lh, uh)|] end; [|exact Logic.I].
      destruct (uh <=? lo st); [|now apply SS]. destruct (retain_edges _ e) as (e', dr) eqn:Er. cbn [req_all ctl_all].
      unfold retain_edges in Er. injection Er as <- _. apply SS; auto. cbn [frame_edges fset].
      match goal with |- context [fold_left ?a ?b ?c] => change (fold_left a b c) with (stops b c) end.
      intros t Ht. rewrite stops_sets in Ht. apply S, Ht.
    + destruct (hlo st <? lh); [|apply HA, S]. destruct (lo st <? lh); [now apply SS|apply HA, S].
    + destruct (Nat.max uh0 uh1 <? hhi st); now apply SS.
    + apply (next_req_all s); [exact S| | |exact Rs]. intros; now apply SS. intros e' B. apply HW, B.
Qed.

Lemma resume_closed f v f' : resume f v = Some f' -> frame_all f -> frame_all f'.
Proof.
  assert (NN : forall f g, fset g = fset f -> frame_edges g = no_edges -> frame_all f -> frame_all g).
  { intros a g E1 E2 (H & _). unfold frame_all. rewrite E1, E2. split; auto. apply edges_none. }
  destruct f as [s lim pc|prev s pc|s pc]; try discriminate; destruct pc; try discriminate; cbn [resume].
  - intros H. injection H as <-. now apply NN.
  - intros H. injection H as <-. now apply NN.
  - destruct (lo st <? lo v); intros H; injection H as <-; now apply NN.
Qed.

Lemma run_closed threads initial limit c : okset initial -> R (canon_of chash initial) -> search_run threads initial limit c ->
  all_frames frame_all c.
Proof.
  intros K RI H. induction H as [c H|c c' H IH Hs].
  - unfold search_start in H. unfold canon_of in RI. destruct (canon chash initial) as [i|]; [|discriminate]. cbn in H. injection H as <-.
    intros f Hf. cbn in Hf. destruct Hf as [<-|[]]. split. exact RI. apply edges_none.
  - apply (step_all chash mhash frame_all req_closed resume_closed c c'); auto. eapply run_inv; eauto.
Qed.

(* ---- what is stored ---- *)
Definition stored_all (c : Config) : Prop := forall s st, wf s -> stored mhash (g_map c) s = Some st -> R s.

Lemma own_fset f s : own f = Some s -> fset f = s.
Proof. destruct f as [? ? pc|? ? pc|? pc]; cbn [own fset]; try discriminate; destruct pc; intros H; try discriminate; now injection H. Qed.

Lemma unlock_shards m s m' : sm_unlock mhash m s = Some m' -> state_shards m' = state_shards m.
Proof.
  unfold sm_unlock. intros H. destruct (packed s); [|discriminate]. cbn in H.
  repeat match type of H with match ?a with _ => _ end = _ => destruct a; try discriminate end. now injection H as <-.
Qed.
Lemma lock_shards_same m s id m' : sm_get_lock mhash m s id = Some (inr m') -> state_shards m' = state_shards m.
Proof.
  unfold sm_get_lock. intros H. destruct (packed s); [|discriminate]. cbn in H.
  repeat match type of H with match ?a with _ => _ end = _ => destruct a; try discriminate end. now injection H as <-.
Qed.
Lemma with_task_map c t g : g_map (with_task c t g) = g_map c.
Proof. reflexivity. Qed.
Lemma cancel_all_map l c : g_map (cancel_all l c) = g_map c.
Proof. unfold cancel_all. revert c. induction l as [|t l IH]; intros c; auto. cbn [fold_left]. now rewrite IH. Qed.

Lemma step_stored c c' : Inv c -> all_frames frame_all c -> stored_all c -> sys_step c c' -> stored_all c'.
Proof.
  intros I A S H.
  assert (SM : forall m, state_shards m = state_shards (g_map c) -> forall s st, wf s -> stored mhash m s = Some st -> R s).
  { intros m E s st W Hs. apply (S s st); auto. unfold stored in *. now rewrite <- E. }
  destruct H as [c t c' H|c t x N P|c t c' H].
  - unfold SearchModel.task_step in H. destruct (nth_error (g_tasks c) t) as [x|] eqn:N; [|discriminate]. destruct (negb (tk_sched x)); [discriminate|].
    destruct (tk_stack x) as [|f rest] eqn:E; [discriminate|].
    assert (IF : In f (frames (cores c))). { apply (frames_nth c t x); auto. rewrite E. now left. }
    pose proof (inv_core _ _ c I (core x) (nth_error_In _ _ (nth_cores c t x N))) as (_ & Sk & _). cbn [c_stack core] in Sk. rewrite E in Sk.
    destruct Sk as (Fo & Fi & Sk). pose proof (frame_req_ok chash mhash _ _ _ _ f (inv_map _ _ c I) Fo Fi Sk) as RO.
    destruct (access c (frame_req f)) as [| |c1 k] eqn:Ea; try discriminate.
    assert (S1 : forall s st, wf s -> stored mhash (g_map c1) s = Some st -> R s).
    { destruct (frame_req f) as [s k0|s st k0|s got busy|s id k0|id k0|u k0|prev s pend k0|u k0|ts k0|k0|]; cbn [SearchModel.access] in Ea; try discriminate.
      - destruct (sm_get mhash (g_map c) s); [|discriminate]. injection Ea as <- _. now apply SM.
      - destruct RO as (Ow & Ks & Wk & _). destruct (sm_set_spec mhash (g_map c) s st (mi_ok _ _ _ (inv_map _ _ c I)) (work_okk _ Ks Wk)) as (m' & Em & _ & _ & St).
        rewrite Em in Ea. injection Ea as <- _. cbn [g_map set_map]. intros t0 st0 W. rewrite St by auto. destruct (os_eq_dec t0 s) as [->|]; [|now apply S].
        intros _. destruct (A f IF) as (Rf & _). now rewrite (own_fset f s Ow) in Rf.
      - destruct (sm_get_lock mhash (g_map c) s (g_next c)) as [[id|m]|] eqn:El; try discriminate; injection Ea as <- _. now apply SM.
        apply SM. eapply lock_shards_same; eauto.
      - destruct (sm_unlock mhash (g_map c) s) eqn:El; [|discriminate]. injection Ea as <- _. apply SM. eapply unlock_shards; eauto.
      - destruct (existsb (Nat.eqb id) (g_sent c)); [|discriminate]. injection Ea as <- _. now apply SM.
      - destruct (nth_error (g_tasks c) u) as [y|]; [|discriminate]. destruct (tk_result y). injection Ea as <- _. now apply SM.
        destruct (tk_cancel y); [discriminate|]. injection Ea as <- _. now apply SM.
      - injection Ea as <- _. now apply SM.
      - injection Ea as <- _. now apply SM.
      - injection Ea as <- _. rewrite cancel_all_map. now apply SM.
      - injection Ea as <- _. now apply SM. }
    destruct k as [f'|f' g|v|]; cbn [run_ctl] in H; try discriminate.
    + injection H as <-. exact S1.
    + injection H as <-. exact S1.
    + destruct rest as [|f0 r]. injection H as <-. exact S1. destruct (resume f0 v) as [f'|] eqn:Er; [|discriminate]. injection H as <-. exact S1.
  - exact S.
  - unfold drop_frame in H. destruct (nth_error (g_tasks c) t) as [x|] eqn:N; [|discriminate]. destruct (negb (tk_cancel x)); [discriminate|].
    destruct (tk_stack x) as [|f rest] eqn:E; [discriminate|].
    destruct (held f) as [(s, id)|].
    + match type of H with context [sm_unlock ?h ?m ?x] => destruct (sm_unlock h m x) eqn:El; [|discriminate] end. injection H as <-.
      intros u0 v0. apply SM. cbn [g_map]. apply unlock_shards in El. rewrite El, with_task_map, cancel_all_map. reflexivity.
    + injection H as <-. intros u0 v0. apply SM. now rewrite with_task_map, cancel_all_map.
Qed.

Lemma run_stored threads initial limit c : okset initial -> R (canon_of chash initial) -> search_run threads initial limit c -> stored_all c.
Proof.
  intros K RI H. induction H as [c H|c c' H IH Hs].
  - unfold search_start in H. destruct (canon chash initial) as [i|]; [|discriminate]. cbn in H. injection H as <-.
    intros s st _. cbn [g_map]. rewrite sm_default_stored. discriminate.
  - apply (step_stored c c'); auto. eapply run_inv; eauto. eapply run_closed; eauto.
Qed.
End Closed.
