(* Further invariants of the search, needed to show that it can always go on. *)
From Coq Require Import List Arith Bool Lia Permutation.
Import ListNotations.
From Verif Require Import Spec Vec Net Graded Bits Util CountProofs OutputSetModel OutputSetProofs PruneProofs PackProofs HuffmanModel HuffmanProofs CanonModel TreeModel StatesModel StatesProofs StatesBounds SearchModel SearchFacts SearchInv SearchEdges SearchStep SearchFrames SearchGlobal SearchRun SearchSafe SearchOrder SearchWaits SearchMain SearchClosed SearchSlack.

(* ---- the active edges are all that can still be improved ---- *)
Definition cov_on (e : Edges) (ids : list nat) : Prop :=
  forall id, In id ids -> In id (active e) \/ closed (tg_state (target_at e id)) = true.
Definition cov (e : Edges) : Prop := cov_on e (seq 0 (length (targets e))).
Definition hcov (st : State) (ids0 ids1 : list nat) (uh0 uh1 : nat) (e : Edges) : Prop :=
  (lo st < uh0 -> cov_on e ids0) /\ (lo st < uh1 -> cov_on e ids1).
Definition cov_frame (f : Frame) : Prop :=
  match f with
  | FImp _ _ (IEdge _ _ _ e) | FImp _ _ (IUpper _ _ e) | FImp _ _ (ILower _ _ e) | FImp _ _ (INext _ _ e _) => cov e
  | FHuff _ (HEdge _ _ _ _ e) => cov e
  | FHuff _ (HPol st ids0 ids1 uh0 uh1 e _) | FHuff _ (HPolSet st ids0 ids1 uh0 uh1 e _ _) | FHuff _ (HMax st ids0 ids1 uh0 uh1 e)
  | FHuff _ (HNext st ids0 ids1 uh0 uh1 e _) => hcov st ids0 ids1 uh0 uh1 e
  | _ => True
  end.

Lemma cov_on_closed e e' ids : retain_closed e = Some e' -> cov_on e ids -> cov_on e' ids.
Proof.
  unfold retain_closed. destruct (forallb _ _); [|discriminate]. intros H. injection H as <-. intros C id Hi. cbn [active].
  change (target_at (mkEdges (targets e) _) id) with (target_at e id).
  destruct (closed (tg_state (target_at e id))) eqn:Ec; auto. left. apply filter_In. rewrite Ec. split; auto.
  destruct (C id Hi) as [H|H]; auto. congruence.
Qed.
Lemma cov_on_sort order e ids : cov_on e ids -> cov_on (sort_active order e) ids.
Proof.
  intros C id Hi. destruct (C id Hi) as [H|H]; [left|right]; auto. cbn [sort_active active]. 
  match goal with |- In _ (isort ?l _) => pose proof (isort_perm l (active e)) as P end. apply Permutation_sym in P. now apply (Permutation_in _ P).
Qed.
Lemma cov_on_run e ids id t : cov_on e ids -> cov_on (set_target e id (fun x => mkTarget (tg_set x) (tg_state x) (tg_len x) (Some t))) ids.
Proof.
  intros C j Hj. rewrite set_target_at. cbn [active set_target]. destruct ((j =? id) && (id <? length (targets e))) eqn:E; [|now apply C].
  apply andb_true_iff in E. destruct E as (E & _). apply Nat.eqb_eq in E. subst j. now apply C.
Qed.
Lemma cov_on_poll m goal mhash e ids id x u st : edges_ok mhash m goal e -> nth_error (targets e) id = Some x -> tg_run x = Some u ->
  cov_on e ids -> cov_on (set_target e id (fun x => mkTarget (tg_set x) st (tg_len x) None)) ids.
Proof.
  intros (A & _) N R C j Hj. rewrite set_target_at. cbn [active set_target]. destruct ((j =? id) && (id <? length (targets e))) eqn:E; [|now apply C].
  apply andb_true_iff in E. destruct E as (E & _). apply Nat.eqb_eq in E. subst j. left. destruct (C id Hj) as [H|H]; auto.
  rewrite (target_at_nth e id x N) in H. destruct (A x (nth_error_In _ _ N)) as (_ & _ & Hc & _). rewrite (Hc H) in R. discriminate.
Qed.
Lemma cov_seq e e' : length (targets e') = length (targets e) -> cov_on e' (seq 0 (length (targets e))) -> cov e'.
Proof. intros L H. unfold cov. now rewrite L. Qed.
Lemma set_target_length e id f : length (targets (set_target e id f)) = length (targets e).
Proof. unfold set_target. cbn [targets]. destruct (nth_error (targets e) id); auto. apply upd_length. Qed.
Lemma cov_push e t st e' id : cov e -> push_target e t st = (e', id) -> cov e'.
Proof.
  unfold push_target. intros C H. injection H as <- <-. intros j Hj. apply in_seq in Hj. cbn [targets active] in *. rewrite app_length in Hj. cbn [length] in Hj.
  unfold target_at. cbn [targets]. destruct (Nat.eq_dec j (length (targets e))) as [->|D].
  - rewrite app_nth2, Nat.sub_diag by auto. cbn [nth tg_state]. destruct (closed st); auto. left. apply in_app_iff. right. now left.
  - rewrite app_nth1 by lia. destruct (C j) as [H|H]. apply in_seq. lia. left. destruct (closed st); auto. apply in_app_iff. auto. auto.
Qed.
Lemma cov_none : cov no_edges.
Proof. intros id []. Qed.
Lemma cov_all e ids : cov e -> (forall id, In id ids -> id < length (targets e)) -> cov_on e ids.
Proof. intros C H id Hi. apply C. apply in_seq. specialize (H id Hi). lia. Qed.
Lemma stops_state D : forall e id, tg_state (target_at (stops D e) id) = tg_state (target_at e id).
Proof.
  unfold stops. induction D as [|d D IH]; intros e id; auto. cbn [fold_left]. rewrite IH, set_target_at.
  destruct ((id =? d) && (d <? length (targets e))) eqn:E; auto. apply andb_true_iff in E. destruct E as (E & _). apply Nat.eqb_eq in E. now subst.
Qed.
Lemma cov_retain keep e e' dr ids : retain_edges keep e = (e', dr) -> (forall id, In id ids -> keep id = true) -> cov_on e ids -> cov_on e' ids.
Proof.
  unfold retain_edges. intros H Hk C. injection H as <- <-. intros id Hi.
  match goal with |- context [fold_left ?a ?b ?c] => change (fold_left a b c) with (stops b c) end.
  rewrite stops_active, stops_state. cbn [active]. change (target_at (mkEdges (targets e) _) id) with (target_at e id).
  destruct (C id Hi) as [H|H]; auto. left. apply filter_In. auto.
Qed.

Section Good.
Variables chash mhash : list nat -> nat.
Notation cur := (cur mhash).
Notation map_inv := (map_inv chash mhash).
Notation Inv := (Inv chash mhash).
Notation frame_req := (frame_req chash).
Notation frame_ok := (frame_ok chash mhash).
Notation stack_ok := (stack_ok chash mhash).
Notation edges_ok := (edges_ok mhash).
Notation access := (access mhash).
Notation task_step := (task_step chash mhash).
Notation drop_frame := (drop_frame mhash).
Notation sys_step := (sys_step chash mhash).
Notation search_run := (search_run chash mhash).

Lemma next_req_cov m goal ids order e np go done : edges_ok m goal e -> cov_on e ids ->
  (forall e' np', length (targets e') = length (targets e) -> cov_on e' ids -> cov_frame (go e' np')) ->
  (forall e', length (targets e') = length (targets e) -> cov_on e' ids -> ctl_all cov_frame (done e')) ->
  req_all cov_frame (next_req order e np go done).
Proof.
  intros EO B G D.
  destruct np as [l finished nr block| |index l block|l block t]; cbn [next_req].
  - destruct l as [|id l].
    + cbn [req_all]. destruct (retain_closed e) as [e'|] eqn:Er; [|exact Logic.I].
      pose proof (cov_on_closed e e' ids Er B) as B'. unfold retain_closed in Er. destruct (forallb _ _); [|discriminate]. injection Er as Er.
      assert (Lt : length (targets e') = length (targets e)) by (now rewrite <- Er).
      destruct (finished || _); auto. destruct (block && _); apply G; auto. now apply cov_on_sort.
    + destruct (nth_error (targets e) id) as [x|] eqn:Nx; [|exact Logic.I]. destruct (tg_run x) eqn:Rx; cbn [req_all]; [|apply G; auto].
      intros [v|] b; apply G; auto. apply set_target_length. eapply cov_on_poll; eauto.
  - apply G; auto. now apply cov_on_sort.
  - destruct l as [|id l]. apply G; auto. destruct (nth_error (targets e) id) as [x|] eqn:Nx; [|exact Logic.I]. destruct (tg_run x).
    + destruct (index =? 0); apply G; auto.
    + destruct (closed (tg_state x)); [exact Logic.I|]. cbn [req_all]. split. exact Logic.I. intros u.
      apply G. apply set_target_length. now apply cov_on_run.
  - apply G; auto.
Qed.
Lemma add_edge_cov e t k : cov e -> (forall e' id, cov e' -> ctl_all cov_frame (k e' id)) -> req_all cov_frame (add_edge_req e t k).
Proof.
  intros B H. unfold add_edge_req. destruct (find_target t (targets e) 0); cbn [req_all]; auto. intros st.
  destruct (push_target e t st) as (e', id) eqn:E. apply H. eapply cov_push; eauto.
Qed.
Lemma after_check_cov prev s lk st : ctl_all cov_frame (after_check chash prev s lk st).
Proof.
  assert (AE : ctl_all cov_frame (after_extremal prev s lk st)).
  { unfold after_extremal. destruct (lo st <? hhi st); cbn; auto. apply cov_none. }
  unfold after_check. destruct (extremal_channels s false) as [|c0 [|c1 l]], (extremal_channels s true) as [|d0 [|d1 l']]; auto;
    match goal with |- context [prune_canon ?a ?b ?c ?d] => destruct (prune_canon a b c d); cbn; auto end.
Qed.
Lemma cov_req m goal f : map_inv m -> frame_ok m goal f -> cov_frame f -> req_all cov_frame (frame_req f).
Proof.
  intros IM F S. destruct f as [s lim pc|prev s pc|s pc]; cbn [SearchModel.frame_req].
  - destruct pc; cbn [main_req req_all]; try exact Logic.I; intros; try exact Logic.I. destruct (closed st || _); cbn; auto.
  - destruct F as (K & F).
    destruct pc; cbn [imp_req]; try exact Logic.I.
    + cbn [req_all]. intros st. destruct (negb _); [exact Logic.I|]. destruct (closed st); exact Logic.I.
    + cbn [req_all]. split; intros; exact Logic.I.
    + cbn [req_all]. intros st. destruct (negb _). exact Logic.I. destruct (closed st). exact Logic.I. apply after_check_cov.
    + cbn [req_all]. intros. exact Logic.I.
    + destruct (hi pst <? hi st); cbn [req_all ctl_all]; [destruct (closed _)|]; exact Logic.I.
    + destruct (lo st <? lo pst); cbn [req_all ctl_all]; [|split]; exact Logic.I.
    + destruct todo as [|(i, j) todo]; [exact S|]. destruct (apply_comparator s i j) as (t, ch) eqn:Ea. destruct ch; [|exact S].
      destruct (canon chash t) as [t'|] eqn:Et; [|exact Logic.I]. apply add_edge_cov. exact S. intros e' id B. exact B.
    + destruct (m0 <- list_min (map hi (edge_states e));; u8_succ m0) as [ub|]; [|exact Logic.I].
      destruct (ub <? hi st); cbn [req_all]; [destruct (closed _)|]; try exact S; exact Logic.I.
    + destruct (m0 <- list_min (map lo (edge_states e));; u8_succ m0) as [ub|]; [|exact Logic.I].
      destruct (lo st <? ub); cbn [req_all]; try exact S; exact Logic.I.
    + cbn [req_all]. intros. exact Logic.I.
    + destruct F as (_ & (EO & _) & _). apply (next_req_cov m goal (seq 0 (length (targets e)))); auto; intros e'.
      * intros np' L C. cbn. now apply (cov_seq e).
      * intros L C. cbn. now apply (cov_seq e).
  - destruct F as (K & Wk & F).
    assert (HW : forall st ids0 ids1 uh0 uh1 e, hcov st ids0 ids1 uh0 uh1 e -> ctl_all cov_frame (huff_while s st ids0 ids1 uh0 uh1 e)).
    { intros st ids0 ids1 uh0 uh1 e B. unfold huff_while. destruct (lo st <? hhi st); [exact B|exact Logic.I]. }
    assert (HA : forall st ids0 ids1 uh0 uh1 e pol, hcov st ids0 ids1 uh0 uh1 e -> ctl_all cov_frame (huff_after s st ids0 ids1 uh0 uh1 e pol)).
    { intros st ids0 ids1 uh0 uh1 e pol B. unfold huff_after. destruct pol; exact B. }
    destruct pc; cbn [huff_req]; try exact Logic.I.
    + cbn [req_all]. intros st. destruct (hhi st <=? lo st). exact Logic.I. apply cov_none.
    + destruct todo as [|(pol, c) todo].
      * apply HW. destruct F as (_ & _ & d0 & r0 & d1 & r1 & _ & _ & _ & (_ & I0) & (_ & I1)).
        split; intros _; apply cov_all; auto.
      * destruct (prune_canon chash s pol c) as [t|] eqn:Et; [|exact Logic.I].
        apply add_edge_cov. exact S. intros e' id B. destruct pol; exact B.
    + destruct S as (S0 & S1). destruct (Nat.ltb_spec (lo st) (if pol then uh1 else uh0)) as [Hl|Hl]; [|apply HA; split; auto].
      match goal with |- context [match ?a with _ => _ end] => destruct a as [(lh, uh)|] end; [|exact Logic.I].
      destruct (Nat.leb_spec uh (lo st)) as [Hu|Hu].
      * destruct (retain_edges _ e) as (e', dr) eqn:Er. cbn [req_all ctl_all cov_frame].
        assert (X : forall id l, In id l -> existsb (Nat.eqb id) l = true).
        { intros id l H. apply existsb_exists. exists id. split; auto. apply Nat.eqb_refl. }
        destruct pol; split; intros H; try lia; (eapply cov_retain; [exact Er| |auto]); intros; now apply X.
      * cbn [req_all ctl_all cov_frame]. destruct pol; split; auto.
    + destruct (hlo st <? lh); [|apply HA, S]. destruct (lo st <? lh); [exact Logic.I|apply HA, S].
    + destruct (Nat.max uh0 uh1 <? hhi st); exact S.
    + destruct F as ((_ & EO & _) & _). destruct S as (S0 & S1).
      set (l := (if lo st <? uh0 then ids0 else []) ++ (if lo st <? uh1 then ids1 else [])).
      assert (B : cov_on e l).
      { intros id Hi. apply in_app_iff in Hi. destruct Hi as [Hi|Hi].
        destruct (Nat.ltb_spec (lo st) uh0); [now apply S0|destruct Hi]. destruct (Nat.ltb_spec (lo st) uh1); [now apply S1|destruct Hi]. }
      assert (B' : forall e', cov_on e' l -> hcov st ids0 ids1 uh0 uh1 e').
      { intros e' C. unfold l in C. split; intros H id Hi; apply C, in_app_iff; [left|right]; destruct (Nat.ltb_spec (lo st) uh0), (Nat.ltb_spec (lo st) uh1); auto; lia. }
      apply (next_req_cov m goal l); auto; intros e'.
      * intros np' _ C. cbn. auto.
Qed.
Lemma cov_resume f v f' : resume f v = Some f' -> cov_frame f -> cov_frame f'.
Proof.
  destruct f as [s lim pc|prev s pc|s pc]; try discriminate; destruct pc; try discriminate; cbn [resume].
  - intros H _. injection H as <-. exact Logic.I.
  - intros H _. injection H as <-. exact Logic.I.
  - destruct (lo st <? lo v); intros H _; injection H as <-. exact Logic.I. apply cov_none.
Qed.
Lemma run_cov threads initial limit c : okset initial -> search_run threads initial limit c -> all_frames cov_frame c.
Proof.
  intros K H. induction H as [c H|c c' H IH Hs].
  - unfold search_start in H. destruct (canon chash initial) as [i|]; [|discriminate]. cbn in H. injection H as <-.
    intros f Hf. cbn in Hf. destruct Hf as [<-|[]]. exact Logic.I.
  - apply (step_all chash mhash cov_frame cov_req cov_resume c c'); auto. eapply run_inv; eauto.
Qed.

(* ---- what an access does to the tasks ---- *)
Definition evolve (y y1 : Task) : Prop :=
  tk_prev y1 = tk_prev y /\ tk_set y1 = tk_set y /\ tk_stack y1 = tk_stack y /\ tk_result y1 = tk_result y /\
  (tk_sched y = true -> tk_sched y1 = true) /\ (tk_cancel y = true -> tk_cancel y1 = true).
Lemma evolve_refl y : evolve y y.
Proof. unfold evolve. tauto. Qed.
Lemma cancel_all_evolve ts : forall c u y, nth_error (g_tasks c) u = Some y -> exists y1, nth_error (g_tasks (cancel_all ts c)) u = Some y1 /\ evolve y y1 /\ tk_sched y1 = tk_sched y.
Proof.
  unfold cancel_all. induction ts as [|t ts IH]; intros c u y N; cbn [fold_left]. { exists y. split; auto. split; auto using evolve_refl. }
  destruct (IH (with_task c t set_cancel) u (if u =? t then set_cancel y else y)) as (y1 & N1 & (E1 & E2 & E3 & E4 & E5 & E6) & Es).
  { rewrite with_task_nth, N. now destruct (u =? t). }
  exists y1. split; auto. unfold evolve. destruct (u =? t); cbn in *; intuition congruence.
Qed.
Lemma cancel_all_length ts : forall c, length (g_tasks (cancel_all ts c)) = length (g_tasks c).
Proof.
  unfold cancel_all. induction ts as [|t ts IH]; intros c; cbn [fold_left]; auto. rewrite IH. unfold with_task. cbn [g_tasks].
  destruct (nth_error (g_tasks c) t); auto. apply upd_length.
Qed.
Lemma with_task_length c t g : length (g_tasks (with_task c t g)) = length (g_tasks c).
Proof. unfold with_task. cbn [g_tasks]. destruct (nth_error (g_tasks c) t); auto. apply upd_length. Qed.
Lemma access_old c r c1 k : access c r = ADone c1 k -> forall u y, nth_error (g_tasks c) u = Some y ->
  exists y1, nth_error (g_tasks c1) u = Some y1 /\ evolve y y1.
Proof.
  intros H u y N. assert (SAME : exists y1, nth_error (g_tasks c) u = Some y1 /\ evolve y y1) by (exists y; split; auto using evolve_refl).
  destruct r; cbn [SearchModel.access] in *; try discriminate.
  - destruct (sm_get mhash (g_map c) s); [|discriminate]. now injection H as <- <-.
  - destruct (sm_set mhash (g_map c) s st); [|discriminate]. now injection H as <- <-.
  - destruct (sm_get_lock mhash (g_map c) s (g_next c)) as [[id|m]|]; try discriminate; now injection H as <- <-.
  - destruct (sm_unlock mhash (g_map c) s); [|discriminate]. now injection H as <- <-.
  - destruct (existsb (Nat.eqb id) (g_sent c)); [|discriminate]. now injection H as <- <-.
  - destruct (nth_error (g_tasks c) t) as [z|]; [|discriminate]. destruct (tk_result z). now injection H as <- <-.
    destruct (tk_cancel z); [discriminate|]. now injection H as <- <-.
  - injection H as <- <-. cbn [g_tasks]. exists y. split; auto using evolve_refl. rewrite nth_error_app1; auto. now apply nth_error_lt in N.
  - injection H as <- <-. rewrite with_task_nth, N. destruct (u =? t). exists (set_sched y). split; auto. unfold evolve; cbn; tauto.
    exists y. split; auto using evolve_refl.
  - injection H as <- <-. destruct (cancel_all_evolve ts c u y N) as (y1 & A & B & _). eauto.
  - now injection H as <- <-.
Qed.
Lemma access_new c r c1 k : access c r = ADone c1 k -> forall u y1, nth_error (g_tasks c1) u = Some y1 ->
  (exists y, nth_error (g_tasks c) u = Some y /\ evolve y y1) \/
  exists prev s pend k', r = RSpawn prev s pend k' /\ u = length (g_tasks c) /\ y1 = mkTask prev s [FImp prev s ILook] false pend false None.
Proof.
  intros H u y1 N1. destruct (nth_error (g_tasks c) u) as [y|] eqn:N.
  { left. destruct (access_old c r c1 k H u y N) as (y2 & N2 & E). rewrite N1 in N2. injection N2 as <-. eauto. }
  right. apply nth_error_None in N. apply nth_error_lt in N1 as L.
  destruct r; cbn [SearchModel.access] in *; try discriminate.
  - destruct (sm_get mhash (g_map c) s); [|discriminate]. injection H as <- <-. lia.
  - destruct (sm_set mhash (g_map c) s st); [|discriminate]. injection H as <- <-. cbn in L. lia.
  - destruct (sm_get_lock mhash (g_map c) s (g_next c)) as [[id|m]|]; try discriminate; injection H as <- <-; cbn in L; lia.
  - destruct (sm_unlock mhash (g_map c) s); [|discriminate]. injection H as <- <-; cbn in L; lia.
  - destruct (existsb (Nat.eqb id) (g_sent c)); [|discriminate]. injection H as <- <-. lia.
  - destruct (nth_error (g_tasks c) t) as [z|]; [|discriminate]. destruct (tk_result z). injection H as <- <-; lia.
    destruct (tk_cancel z); [discriminate|]. injection H as <- <-; lia.
  - injection H as <- <-. cbn [g_tasks] in *. rewrite app_length in L. cbn [length] in L. assert (u = length (g_tasks c)) by lia. subst u.
    rewrite nth_error_app2, Nat.sub_diag in N1 by auto. cbn in N1. injection N1 as <-. exists prev, s, pending, k0. auto.
  - injection H as <- <-. rewrite with_task_length in L. lia.
  - injection H as <- <-. rewrite cancel_all_length in L. lia.
  - injection H as <- <-. lia.
Qed.

(* ---- where a task that is not cancelled can be ---- *)
Definition live (f : Frame) : Prop :=
  match f with FImp _ _ (IPrCall _ _ _) | FImp _ _ (IHuff _ _) | FMain _ _ MCall => False | _ => True end.
Definition ctl_live (k : Ctl) : Prop := match k with CGo f => live f | CCall _ g => live g | _ => True end.
Definition req_live (r : Req) : Prop :=
  match r with
  | RGet s k => forall st, ctl_live (k st)
  | RSet s st k => ctl_live k
  | RLock s got busy => (forall id, ctl_live (got id)) /\ forall id, ctl_live (busy id)
  | RUnlock s id k => ctl_live k
  | RWait id k => ctl_live k
  | RPoll u k => forall v b, ctl_live (k v b)
  | RSpawn prev s pend k => forall u, ctl_live (k u)
  | RSchedule u k => ctl_live k
  | RCancel ts k => ctl_live k
  | RTau k => ctl_live k
  | RNone => True
  end.
Lemma next_req_live order e np go done : (forall e' np', live (go e' np')) -> (forall e', ctl_live (done e')) ->
  req_live (next_req order e np go done).
Proof.
  intros G D. destruct np as [ids finished nr block| |index ids block|ids block t]; cbn [next_req].
  - destruct ids as [|id ids].
    + cbn [req_live]. destruct (retain_closed e); [|exact Logic.I]. destruct (finished || _); auto. destruct (block && _); apply G.
    + destruct (nth_error (targets e) id) as [x|]; [|exact Logic.I]. destruct (tg_run x); cbn [req_live]; [|apply G].
      intros [v|] b; apply G.
  - apply G.
  - destruct ids as [|id ids]. apply G. destruct (nth_error (targets e) id) as [x|]; [|exact Logic.I]. destruct (tg_run x).
    + destruct (index =? 0); apply G.
    + destruct (closed (tg_state x)); [exact Logic.I|]. cbn [req_live]. intros u. apply G.
  - apply G.
Qed.
Lemma add_edge_live e t k : (forall e' id, ctl_live (k e' id)) -> req_live (add_edge_req e t k).
Proof. intros H. unfold add_edge_req. destruct (find_target t (targets e) 0); cbn [req_live]; auto. intros st. destruct (push_target e t st). auto. Qed.
Lemma after_check_live prev s lk st : ctl_live (after_check chash prev s lk st).
Proof.
  assert (AE : ctl_live (after_extremal prev s lk st)) by (unfold after_extremal; destruct (lo st <? hhi st); cbn; auto).
  unfold after_check. destruct (extremal_channels s false) as [|c0 [|c1 l]], (extremal_channels s true) as [|d0 [|d1 l']]; auto;
    match goal with |- context [prune_canon ?a ?b ?c ?d] => destruct (prune_canon a b c d); cbn; auto end.
Qed.
Lemma frame_req_live f : req_live (frame_req f).
Proof.
  destruct f as [s lim pc|prev s pc|s pc]; cbn [SearchModel.frame_req].
  - destruct pc; cbn [main_req req_live]; try exact Logic.I. intros; exact Logic.I. destruct (closed st || _); cbn; auto.
  - destruct pc; cbn [imp_req]; try exact Logic.I; try (cbn [req_live ctl_live]; auto; fail).
    + cbn [req_live]. intros st. destruct (negb _); [exact Logic.I|]. destruct (closed st); exact Logic.I.
    + cbn [req_live ctl_live live]. auto.
    + cbn [req_live]. intros st. destruct (negb _); [exact Logic.I|]. destruct (closed st); [exact Logic.I|]. apply after_check_live.
    + intros x. exact Logic.I.
    + destruct (hi pst <? hi st); cbn [req_live]; [destruct (closed _)|]; exact Logic.I.
    + destruct (lo st <? lo pst); cbn [req_live ctl_live]; exact Logic.I.
    + destruct todo as [|(i, j) todo]; [exact Logic.I|]. destruct (apply_comparator s i j) as (t, ch). destruct ch; [|exact Logic.I].
      destruct (canon chash t); [|exact Logic.I]. apply add_edge_live. intros; exact Logic.I.
    + destruct (m <- list_min (map hi (edge_states e));; u8_succ m) as [ub|]; [|exact Logic.I].
      destruct (ub <? hi st); cbn [req_live]; [destruct (closed _)|]; exact Logic.I.
    + destruct (m <- list_min (map lo (edge_states e));; u8_succ m) as [ub|]; [|exact Logic.I].
      destruct (lo st <? ub); cbn [req_live]; exact Logic.I.
    + intros x. exact Logic.I.
    + apply next_req_live; intros; exact Logic.I.
  - assert (HW : forall st ids0 ids1 uh0 uh1 e, ctl_live (huff_while s st ids0 ids1 uh0 uh1 e)).
    { intros. unfold huff_while. destruct (lo st <? hhi st); exact Logic.I. }
    assert (HA : forall st ids0 ids1 uh0 uh1 e pol, ctl_live (huff_after s st ids0 ids1 uh0 uh1 e pol)).
    { intros. unfold huff_after. destruct pol; exact Logic.I. }
    destruct pc; cbn [huff_req]; try exact Logic.I; try (cbn [req_live]; auto; fail).
    + cbn [req_live]. intros st. destruct (hhi st <=? lo st); exact Logic.I.
    + destruct todo as [|(pol, c) todo]; [apply HW|]. destruct (prune_canon chash s pol c); [|exact Logic.I].
      apply add_edge_live. intros e' id. destruct pol; exact Logic.I.
    + destruct (lo st <? (if pol then uh1 else uh0)); [|apply HA].
      match goal with |- context [match ?a with _ => _ end] => destruct a as [(lh, uh)|] end; [|exact Logic.I].
      destruct (uh <=? lo st); [|exact Logic.I]. destruct (retain_edges _ e). exact Logic.I.
    + destruct (hlo st <? lh); [|apply HA]. destruct (lo st <? lh); [exact Logic.I|apply HA].
    + destruct (Nat.max uh0 uh1 <? hhi st); exact Logic.I.
    + apply next_req_live; [intros; exact Logic.I|]. intros e'. apply HW.
Qed.
Lemma resume_live f v f' : resume f v = Some f' -> live f'.
Proof.
  destruct f as [s lim pc|prev s pc|s pc]; try discriminate; destruct pc; try discriminate; cbn [resume].
  - intros H. injection H as <-. exact Logic.I.
  - intros H. injection H as <-. exact Logic.I.
  - destruct (lo st <? lo v); intros H; injection H as <-; exact Logic.I.
Qed.
Lemma access_live c f c1 k : access c (frame_req f) = ADone c1 k -> ctl_live k.
Proof.
  pose proof (frame_req_live f) as L. destruct (frame_req f); cbn [SearchModel.access req_live] in *; try discriminate.
  - destruct (sm_get mhash (g_map c) s); [|discriminate]. intros H. now injection H as <- <-.
  - destruct (sm_set mhash (g_map c) s st); [|discriminate]. intros H. now injection H as <- <-.
  - destruct L as (L1 & L2). destruct (sm_get_lock mhash (g_map c) s (g_next c)) as [[id|m]|]; try discriminate; intros H; now injection H as <- <-.
  - destruct (sm_unlock mhash (g_map c) s); [|discriminate]. intros H. now injection H as <- <-.
  - destruct (existsb (Nat.eqb id) (g_sent c)); [|discriminate]. intros H. now injection H as <- <-.
  - destruct (nth_error (g_tasks c) t) as [z|]; [|discriminate]. destruct (tk_result z). intros H. now injection H as <- <-.
    destruct (tk_cancel z); [discriminate|]. intros H. now injection H as <- <-.
  - intros H. now injection H as <- <-.
  - intros H. now injection H as <- <-.
  - intros H. now injection H as <- <-.
  - intros H. now injection H as <- <-.
Qed.

Definition task_ok (x : Task) : Prop :=
  (tk_sched x = false -> tk_stack x = [] \/ exists p s, tk_stack x = [FImp p s ILook]) /\
  (tk_cancel x = false -> forall f rest, tk_stack x = f :: rest -> live f) /\
  (tk_cancel x = false -> tk_stack x = [] -> tk_result x <> None).
Definition tasks_ok (c : Config) : Prop := forall t x, nth_error (g_tasks c) t = Some x -> task_ok x.

Lemma evolve_ok y y1 : evolve y y1 -> task_ok y -> task_ok y1.
Proof.
  intros (_ & _ & E3 & E4 & E5 & E6) (A & B & C). unfold task_ok. rewrite E3, E4. split; [|split].
  - intros H. apply A. destruct (tk_sched y); auto. now rewrite E5 in H.
  - intros H. apply B. destruct (tk_cancel y); auto. now rewrite E6 in H.
  - intros H. apply C. destruct (tk_cancel y); auto. now rewrite E6 in H.
Qed.

Lemma tasks_step c c' : tasks_ok c -> sys_step c c' -> tasks_ok c'.
Proof.
  intros T H. destruct H as [c t c' H|c t x N P|c t c' H].
  - unfold SearchModel.task_step in H. destruct (nth_error (g_tasks c) t) as [x|] eqn:N; [|discriminate]. destruct (tk_sched x) eqn:Sx; [|discriminate]. cbn [negb] in H.
    destruct (tk_stack x) as [|f rest] eqn:E; [discriminate|].
    destruct (access c (frame_req f)) as [| |c1 k] eqn:Ea; try discriminate.
    assert (T1 : tasks_ok c1).
    { intros u y1 N1. destruct (access_new c _ c1 k Ea u y1 N1) as [(y & Ny & Ev)|(prev & s & pend & k' & _ & _ & ->)].
      - apply (evolve_ok y y1 Ev). eapply T; eauto.
      - split; [|split]; cbn; try discriminate. eauto. intros _ f0 r0 H0. injection H0 as <- <-. exact Logic.I. }
    pose proof (access_live c f c1 k Ea) as L. destruct (access_old c _ c1 k Ea t x N) as (x1 & N1 & Ev).
    assert (X : forall g, (forall y, tk_sched (g y) = tk_sched y) -> task_ok (g x1) -> tasks_ok (with_task c1 t g)).
    { intros g _ Hg u y Ny. rewrite with_task_nth in Ny. destruct (Nat.eqb_spec u t) as [->|D].
      rewrite N1 in Ny. cbn in Ny. injection Ny as <-. auto. now apply (T1 u). }
    assert (Y : forall f' r', live f' -> task_ok (set_stack (f' :: r') x1)).
    { intros f' r' Lf. destruct Ev as (_ & _ & _ & _ & E5 & _). split; [|split]; cbn; try discriminate.
      - intros H0. rewrite E5 in H0 by auto. discriminate.
      - intros _ f0 r0 H0. injection H0 as <- <-. auto. }
    destruct k as [f'|f' g|v|]; cbn [run_ctl] in H; try discriminate.
    + injection H as <-. apply X; auto.
    + injection H as <-. apply X; auto.
    + destruct rest as [|f0 r].
      * injection H as <-. apply X; auto. split; [|split]; cbn; try discriminate; auto.
      * destruct (resume f0 v) as [f'|] eqn:Er; [|discriminate]. injection H as <-. apply X; auto. apply Y. eapply resume_live; eauto.
  - intros u y Ny. rewrite with_task_nth in Ny. destruct (u =? t).
    + destruct (nth_error (g_tasks c) u) as [y0|] eqn:N0; [|discriminate]. cbn in Ny. injection Ny as <-.
      apply (evolve_ok y0). unfold evolve; cbn; tauto. eapply T; eauto.
    + eapply T; eauto.
  - unfold SearchModel.drop_frame in H. destruct (nth_error (g_tasks c) t) as [x|] eqn:N; [|discriminate]. destruct (tk_cancel x) eqn:Cx; [|discriminate]. cbn [negb] in H.
    destruct (tk_stack x) as [|f rest] eqn:E; [discriminate|].
    set (c1 := cancel_all (all_running (frame_edges f)) c) in *.
    assert (G : tasks_ok (with_task c1 t (set_stack rest))).
    { intros u y Ny. rewrite with_task_nth in Ny.
      assert (O : forall y1, nth_error (g_tasks c1) u = Some y1 -> exists y0, nth_error (g_tasks c) u = Some y0 /\ evolve y0 y1 /\ tk_sched y1 = tk_sched y0).
      { intros y1 N1. pose proof (nth_error_lt _ _ _ N1) as L. unfold c1 in L. rewrite cancel_all_length in L.
        destruct (nth_error (g_tasks c) u) as [y0|] eqn:N0; [|apply nth_error_None in N0; lia].
        destruct (cancel_all_evolve (all_running (frame_edges f)) c u y0 N0) as (y2 & N2 & Ev). fold c1 in N2. rewrite N1 in N2. injection N2 as <-. eauto. }
      destruct (Nat.eqb_spec u t) as [->|D].
      - destruct (nth_error (g_tasks c1) t) as [y1|] eqn:N1; [|discriminate]. cbn in Ny. injection Ny as <-.
        destruct (O y1 eq_refl) as (y0 & N0 & (E1 & E2 & E3 & E4 & E5 & E6) & E7). rewrite N in N0. injection N0 as <-.
        rewrite Cx in E6. specialize (E6 eq_refl). pose proof (T t x N) as (A & _). unfold task_ok. cbn. rewrite E6, E7. split; [|split]; try discriminate.
        intros H0. destruct (A H0) as [A0|(p & s & A0)]; rewrite E in A0; [discriminate|]. injection A0 as -> ->. auto.
      - destruct (O y Ny) as (y0 & N0 & Ev & _). apply (evolve_ok y0); auto. eapply T; eauto. }
    destruct (held f) as [(s, id)|].
    + destruct (sm_unlock mhash _ s); [|discriminate]. injection H as <-. exact G.
    + injection H as <-. exact G.
Qed.

(* ---- all invariants together ---- *)
Record Good (c : Config) : Prop := {
  gd_inv : Inv c;
  gd_small : all_frames small_frame c;
  gd_cov : all_frames cov_frame c;
  gd_hb : hbounds mhash (g_map c);
  gd_tasks : tasks_ok c;
  gd_main : exists K, K <> None /\ main_inv K (g_tasks c) }.

Lemma good_step c c' : Good c -> sys_step c c' -> Good c'.
Proof.
  intros G H. pose proof (gd_inv c G) as I. constructor.
  - apply (sys_step_inv chash mhash c c' I H).
  - apply (step_all chash mhash small_frame (small_req chash mhash) small_resume c c'); auto. apply (gd_small c G).
  - apply (step_all chash mhash cov_frame cov_req cov_resume c c'); auto. apply (gd_cov c G).
  - apply (step_slack chash mhash c c' I (gd_hb c G) H).
  - apply (tasks_step c c'); auto. apply (gd_tasks c G).
  - destruct (gd_main c G) as (K & HK & M). exists K. split; auto. apply (main_step chash mhash K c c' HK I M H).
Qed.

Lemma run_good threads initial limit c : okset initial -> search_run threads initial limit c -> Good c.
Proof.
  intros K H. induction H as [c H|c c' H IH Hs]; [|now apply (good_step c)].
  assert (R : search_run threads initial limit c) by now constructor.
  constructor.
  - eapply run_inv; eauto.
  - eapply run_small; eauto.
  - eapply run_cov; eauto.
  - unfold search_start in H. destruct (canon chash initial) as [i|]; [|discriminate]. cbn in H. injection H as <-. apply start_hbounds.
  - unfold search_start in H. destruct (canon chash initial) as [i|]; [|discriminate]. cbn in H. injection H as <-.
    intros t x N. destruct t as [|t]; [|destruct t; discriminate]. cbn in N. injection N as <-. split; [|split]; cbn; try discriminate.
    intros _ f rest E. injection E as <- <-. exact Logic.I.
  - exists (Some (canon_of chash initial, limit)). split. discriminate. eapply run_main; eauto.
Qed.
End Good.
