(* What a step of a task does to the other tasks of the executor, and what it leaves with its children. *)
From Coq Require Import List Arith Bool Lia Permutation.
Import ListNotations.
From Verif Require Import Spec Vec Net Graded Bits Util CountProofs OutputSetModel OutputSetProofs PruneProofs PackProofs HuffmanModel HuffmanProofs CanonModel TreeModel StatesModel StatesProofs StatesBounds SearchModel SearchFair SearchFacts SearchInv SearchEdges SearchStep SearchFrames SearchGlobal SearchRun SearchSafe SearchOrder SearchWaits SearchMain SearchClosed SearchSlack SearchGood SearchQuiet SearchReach SearchNext SearchHuff SearchLive SearchReady SearchCost SearchSpend SearchWork SearchPend PipeProofs ExecModel ExecFacts ExecInv.

Lemma flat_map_unique {A B} (F : A -> list B) u : forall l i j a b, NoDup (flat_map F l) -> nth_error l i = Some a -> nth_error l j = Some b -> In u (F a) -> In u (F b) -> i = j.
Proof.
  induction l as [|x l IH]; intros i j a b N Ni Nj Ha Hb. { destruct i; discriminate. }
  cbn [flat_map] in N. destruct (NoDup_app_inv _ _ N) as (N1 & N2 & N3). destruct i as [|i], j as [|j]; cbn [nth_error] in *; auto.
  - injection Ni as <-. exfalso. apply (N3 u Ha). apply in_flat_map. exists b. split; auto. eapply nth_error_In; eauto.
  - injection Nj as <-. exfalso. apply (N3 u Hb). apply in_flat_map. exists a. split; auto. eapply nth_error_In; eauto.
  - f_equal. eapply IH; eauto.
Qed.
Lemma flat_map_twice {A B C} (F : A -> list B) (G : B -> list C) l : flat_map G (flat_map F l) = flat_map (fun a => flat_map G (F a)) l.
Proof. induction l as [|a l IH]; auto. cbn [flat_map]. now rewrite flat_map_app, IH. Qed.
Lemma all_or {A} (P : A -> Prop) (Q : Prop) : forall l, (forall a, In a l -> P a \/ Q) -> (forall a, In a l -> P a) \/ Q.
Proof.
  induction l as [|a l IH]; intros H. left; intros a []. destruct (H a (or_introl eq_refl)) as [Pa|]; auto. destruct IH as [I|]; auto.
  intros b Hb. apply H. now right. left. intros b [<-|Hb]; auto.
Qed.

Lemma next_edges f e np : frame_next f = Some (e, np) -> frame_edges f = e.
Proof. destruct f as [s l pc|prev s pc|s pc]; try discriminate; destruct pc; try discriminate; cbn; intros H; now injection H as <- <-. Qed.
Lemma running_kid e id x u : nth_error (targets e) id = Some x -> tg_run x = Some u -> In u (all_running e).
Proof. intros N R. unfold all_running. apply in_flat_map. exists x. split. eapply nth_error_In; eauto. rewrite R. now left. Qed.
Lemma watched_next c s t f : watched c s t f <-> match frame_next f with
  | Some (e, NPend) => forall id, In id (active e) -> polled c s t e id
  | Some _ => False
  | None => match f with FImp _ _ (IWait id) => ~ In id (g_sent c) /\ In (id, t) (sc_waits s) | FMain _ _ (MDone _) => True | _ => False end end.
Proof. destruct f as [s0 l pc|prev s0 pc|s0 pc]; cbn; try tauto; destruct pc; cbn; try tauto; destruct np; tauto. Qed.

Section Step.
Variables chash mhash : list nat -> nat.
Notation Inv := (Inv chash mhash).
Notation Ready := (Ready chash mhash).
Notation frame_req := (frame_req chash).
Notation access := (access mhash).
Notation task_step := (task_step chash mhash).
Notation drop_frame := (drop_frame mhash).
Notation sys_step := (sys_step chash mhash).

Lemma kid_unique c t v x y f g u : Inv c -> nth_error (g_tasks c) t = Some x -> In f (tk_stack x) -> In u (kids f) ->
  nth_error (g_tasks c) v = Some y -> In g (tk_stack y) -> In u (kids g) -> t = v.
Proof.
  intros I N F K N' G K'. destruct (inv_kid _ _ c I) as (ND & _). unfold frames in ND. rewrite flat_map_twice in ND.
  apply (flat_map_unique (fun a => flat_map kids (c_stack a)) u (cores c) t v (core x) (core y)); auto using nth_cores; apply in_flat_map; eauto.
Qed.

(* ---- what a request leads to, in terms of improve_next ---- *)
Definition req_next (P : Frame -> Prop) (c : Config) (sch : nat -> Prop) (r : Req) : Prop :=
  match r with
  | RGet s k => forall st, ctl_all P (k st)
  | RSet s st k => ctl_all P k
  | RLock s got busy => (forall id, ctl_all P (got id)) /\ forall id, ctl_all P (busy id)
  | RUnlock s id k => ctl_all P k
  | RWait id k => ctl_all P k
  | RPoll u k => forall y, nth_error (g_tasks c) u = Some y -> ctl_all P (k (tk_result y) (tk_sched y))
  | RSpawn prev s pend k => forall u, ctl_all P (k u)
  | RSchedule u k => sch u -> ctl_all P k
  | RCancel ts k => ctl_all P k
  | RTau k => ctl_all P k
  | RNone => True
  end.
Lemma req_next_done P c sch r c1 k : req_next P c sch r -> access c r = ADone c1 k -> (forall u k', r = RSchedule u k' -> sch u) -> ctl_all P k.
Proof.
  intros H Ea S. destruct r; cbn [SearchModel.access req_next] in *; try discriminate.
  - destruct (sm_get mhash (g_map c) s); [|discriminate]. now injection Ea as _ <-.
  - destruct (sm_set mhash (g_map c) s st); [|discriminate]. now injection Ea as _ <-.
  - destruct H as (P1 & P2). destruct (sm_get_lock mhash (g_map c) s (g_next c)) as [[id|m]|]; try discriminate; now injection Ea as _ <-.
  - destruct (sm_unlock mhash (g_map c) s); [|discriminate]. now injection Ea as _ <-.
  - destruct (existsb (Nat.eqb id) (g_sent c)); [|discriminate]. now injection Ea as _ <-.
  - destruct (nth_error (g_tasks c) t) as [y|] eqn:Ny; [|discriminate]. specialize (H y eq_refl). destruct (tk_result y). now injection Ea as _ <-.
    destruct (tk_cancel y); [discriminate|]. now injection Ea as _ <-.
  - now injection Ea as _ <-.
  - injection Ea as _ <-. apply H. eapply S; eauto.
  - now injection Ea as _ <-.
  - now injection Ea as _ <-.
Qed.

(* a walk over all frames that leaves the cases of improve_next *)
Section Walk.
Variable P : Frame -> Prop.
Variable c : Config.
Variable sch : nat -> Prop.
Hypothesis P_none : forall g, frame_next g = None -> P g.
Hypothesis P_start : forall g e, frame_next g = Some (e, next_start e) -> P g.

Lemma add_edge_next e t k : (forall e' id, ctl_all P (k e' id)) -> req_next P c sch (add_edge_req e t k).
Proof. intros H. unfold add_edge_req. destruct (find_target t (targets e) 0); cbn [req_next]; auto. intros st. destruct (push_target e t st). auto. Qed.
Lemma after_check_next prev s lk st : ctl_all P (after_check chash prev s lk st).
Proof.
  assert (AE : ctl_all P (after_extremal prev s lk st)) by (unfold after_extremal; destruct (lo st <? hhi st); cbn; auto).
  unfold after_check. destruct (extremal_channels s false) as [|c0 [|c1 l]], (extremal_channels s true) as [|d0 [|d1 l']]; auto;
    match goal with |- context [prune_canon ?a ?b ?c ?d] => destruct (prune_canon a b c d); cbn; auto end.
Qed.
Lemma walk f : (forall order e np go done, frame_next f = Some (e, np) -> frame_req f = next_req order e np go done -> (forall e' np', frame_next (go e' np') = Some (e', np')) ->
    (forall e', ctl_all (fun g => frame_next g = None) (done e')) -> req_next P c sch (next_req order e np go done)) ->
  req_next P c sch (frame_req f).
Proof.
  intros H. assert (Pn : forall g, frame_next g = None -> P g) by auto.
  assert (Dn : forall k, ctl_all (fun g => frame_next g = None) k -> ctl_all P k). { intros [g|g g'|v|]; cbn; auto. intros (A & B). auto. }
  destruct f as [s lim pc|prev s pc|s pc].
  - cbn [SearchModel.frame_req]. destruct pc; cbn [main_req req_next ctl_all]; auto. destruct (closed st || _); cbn; auto.
  - destruct pc; cbn [SearchModel.frame_req imp_req]; try (cbn [req_next]; intros; apply Pn; reflexivity); try exact Logic.I.
    + cbn [req_next]. intros st. destruct (negb _); [exact Logic.I|]. destruct (closed st); cbn; auto.
    + cbn [req_next]. split; intros; cbn; auto.
    + cbn [req_next]. intros st. destruct (negb _). cbn; auto. destruct (closed st). cbn; auto. apply after_check_next.
    + destruct (hi pst <? hi st); cbn [req_next]; [match goal with |- ctl_all _ (if ?a then _ else _) => destruct a end|]; cbn; auto.
    + destruct (lo st <? lo pst); cbn; auto.
    + destruct todo as [|(i, j) todo]; [cbn; auto|]. destruct (apply_comparator s i j) as (t, ch) eqn:Ea. destruct ch; [|cbn; auto].
      destruct (canon chash t) as [t'|] eqn:Et; [|exact Logic.I]. apply add_edge_next. intros e' id. cbn; auto.
    + destruct (m0 <- list_min (map hi (edge_states e));; u8_succ m0) as [ub|] eqn:Eu; [|exact Logic.I].
      destruct (ub <? hi st); cbn [req_next]; [match goal with |- ctl_all _ (if ?a then _ else _) => destruct a end|]; cbn; auto.
    + destruct (m0 <- list_min (map lo (edge_states e));; u8_succ m0) as [ub|]; [|exact Logic.I].
      destruct (lo st <? ub). cbn; auto. cbn. apply (P_start _ e). reflexivity.
    + apply (H (Some (lo st))); try reflexivity; intros; reflexivity.
  - assert (HW : forall st ids0 ids1 uh0 uh1 e, ctl_all (fun g => frame_next g = None) (huff_while s st ids0 ids1 uh0 uh1 e)).
    { intros st ids0 ids1 uh0 uh1 e. unfold huff_while. destruct (lo st <? hhi st); reflexivity. }
    assert (HA : forall st ids0 ids1 uh0 uh1 e pol, ctl_all P (huff_after s st ids0 ids1 uh0 uh1 e pol)).
    { intros st ids0 ids1 uh0 uh1 e pol. unfold huff_after. destruct pol; cbn; auto. }
    destruct pc; cbn [SearchModel.frame_req huff_req]; try exact Logic.I.
    + cbn [req_next]. intros st. destruct (hhi st <=? lo st); cbn; auto.
    + destruct todo as [|(pol, c0) todo]; [cbn [req_next]; auto|].
      destruct (prune_canon chash s pol c0) as [t|] eqn:Et; [|exact Logic.I]. apply add_edge_next. intros e' id. destruct pol; cbn; auto.
    + destruct (lo st <? (if pol then uh1 else uh0)); [|cbn [req_next]; auto].
      match goal with |- context [match ?a with _ => _ end] => destruct a as [(lh, uh)|] end; [|exact Logic.I].
      destruct (uh <=? lo st); [|cbn; auto]. destruct (retain_edges _ e). cbn; auto.
    + destruct (hlo st <? lh); [|cbn [req_next]; auto]. destruct (lo st <? lh); [cbn; auto|cbn [req_next]; auto].
    + destruct (Nat.max uh0 uh1 <? hhi st); cbn; apply (P_start _ e); reflexivity.
    + apply (H None); try reflexivity; auto.
Qed.
End Walk.

Lemma polls_kid f u : polls (frame_req f) u -> In u (kids f).
Proof.
  destruct f as [s lim pc|prev s pc|s pc]; cbn [SearchModel.frame_req].
  - destruct pc; cbn [main_req polls]; try tauto. destruct (closed st || _); cbn; tauto.
  - destruct pc; cbn [imp_req polls]; try tauto.
    + destruct (hi pst <? hi st); cbn; tauto.
    + destruct (lo st <? lo pst); cbn; tauto.
    + destruct todo as [|(i, j) todo]; [cbn; tauto|]. destruct (apply_comparator s i j) as (t, ch). destruct ch; [|cbn; tauto].
      destruct (canon chash t) as [t'|]; [|cbn; tauto]. unfold add_edge_req. destruct (find_target t' (targets e) 0); cbn; tauto.
    + destruct (m0 <- list_min (map hi (edge_states e));; u8_succ m0) as [ub|]; [|cbn; tauto]. destruct (ub <? hi st); cbn; tauto.
    + destruct (m0 <- list_min (map lo (edge_states e));; u8_succ m0) as [ub|]; [|cbn; tauto]. destruct (lo st <? ub); cbn; tauto.
    + unfold kids. cbn [frame_edges]. destruct np as [ids fin nr b| |i ids b|ids b t]; cbn [next_req].
      * destruct ids as [|id ids]; [cbn; tauto|]. destruct (nth_error (targets e) id) as [x|] eqn:N; [|cbn; tauto]. destruct (tg_run x) as [v|] eqn:R; [|cbn; tauto].
        cbn. intros <-. eapply running_kid; eauto.
      * cbn; tauto.
      * destruct ids as [|id ids]; [cbn; tauto|]. destruct (nth_error (targets e) id) as [x|] eqn:N; [|cbn; tauto]. destruct (tg_run x) as [v|] eqn:R. destruct (i =? 0); cbn; tauto.
        destruct (closed (tg_state x)); cbn; tauto.
      * cbn; tauto.
  - destruct pc; cbn [huff_req polls]; try tauto.
    + destruct todo as [|(pol, c0) todo]; [cbn; tauto|]. destruct (prune_canon chash s pol c0) as [t|]; [|cbn; tauto].
      unfold add_edge_req. destruct (find_target t (targets e) 0); cbn; tauto.
    + destruct (lo st <? (if pol then uh1 else uh0)); [|cbn; tauto].
      match goal with |- context [match ?a with _ => _ end] => destruct a as [(lh, uh)|] end; [|cbn; tauto].
      destruct (uh <=? lo st); [|cbn; tauto]. destruct (retain_edges _ e). cbn; tauto.
    + destruct (hlo st <? lh); [|cbn; tauto]. destruct (lo st <? lh); cbn; tauto.
    + destruct (Nat.max uh0 uh1 <? hhi st); cbn; tauto.
    + unfold kids. cbn [frame_edges]. destruct np as [ids fin nr b| |i ids b|ids b t]; cbn [next_req].
      * destruct ids as [|id ids]; [cbn; tauto|]. destruct (nth_error (targets e) id) as [x|] eqn:N; [|cbn; tauto]. destruct (tg_run x) as [v|] eqn:R; [|cbn; tauto].
        cbn. intros <-. eapply running_kid; eauto.
      * cbn; tauto.
      * destruct ids as [|id ids]; [cbn; tauto|]. destruct (nth_error (targets e) id) as [x|] eqn:N; [|cbn; tauto]. destruct (tg_run x) as [v|] eqn:R. destruct (i =? 0); cbn; tauto.
        destruct (closed (tg_state x)); cbn; tauto.
      * cbn; tauto.
Qed.

(* ---- the children that a task has polled ---- *)
Lemma polled_more c s s' t e id : (forall u, sc_awaiter s u = Some t -> sc_awaiter s' u = Some t) -> polled c s t e id -> polled c s' t e id.
Proof. intros H P x u N R. destruct (P x u N R). auto. Qed.
Lemma polled_targets c s t e e' id : targets e' = targets e -> polled c s t e id -> polled c s t e' id.
Proof. intros E P x u N R. rewrite E in N. eauto. Qed.
Lemma own_seen c s t f c1 k : access c (frame_req f) = ADone c1 k -> parked f \/ seen c s t f ->
  ctl_all (seen c (fst (react c t (frame_req f) s)) t) k.
Proof.
  intros Ea H0. apply (req_next_done (seen c (fst (react c t (frame_req f) s)) t) c (fun _ => True) (frame_req f) c1 k); auto.
  assert (St : forall s' e, forall id, In id (active e) -> ~ In id (active e) -> polled c s' t e id) by (intros; contradiction).
  apply walk.
  - intros g E. unfold seen. now rewrite E.
  - intros g e E. unfold seen. rewrite E. unfold next_start. apply St.
  - intros order e np go done En -> Go Dn.
    assert (G : forall s' e' np', match np' with NPoll ids _ _ _ => forall id, In id (active e') -> ~ In id ids -> polled c s' t e' id
        | NPend => forall id, In id (active e') -> polled c s' t e' id | _ => True end -> seen c s' t (go e' np')).
    { intros s' e' np' H. unfold seen. rewrite Go. destruct np'; auto. }
    assert (D : forall s' k, ctl_all (fun g => frame_next g = None) k -> ctl_all (seen c s' t) k).
    { intros s' k0. destruct k0 as [g|g g'|v|]; cbn; auto. unfold seen. now intros ->. intros (A & B). unfold seen. now rewrite A, B. }
    destruct np as [ids fin nr b| |i ids b|ids b u].
    + assert (S : forall id, In id (active e) -> ~ In id ids -> polled c s t e id).
      { destruct H0 as [H0|H0]. unfold parked in H0. rewrite En in H0. destruct H0. unfold seen in H0. now rewrite En in H0. }
      destruct ids as [|id ids]; cbn [next_req].
      * cbn [req_next react fst]. destruct (retain_closed e) as [e'|] eqn:Er; [|exact Logic.I].
        destruct (closed_cost (fun _ => mkState 0 0 0 0) (fun _ => None) 0 e e' Er) as (_ & _ & Et & Ac).
        destruct (fin || _); [now apply D|]. destruct (b && (0 <? nr)); cbn [ctl_all]; apply G; auto.
        intros id Hi. apply (polled_targets c s t e); auto. apply S; auto. now apply Ac.
      * destruct (nth_error (targets e) id) as [x|] eqn:Nx; [|exact Logic.I]. destruct (tg_run x) as [u|] eqn:Rx; cbn [req_next ctl_all react fst].
        -- intros y Ny. rewrite Ny. destruct (tk_result y) as [v|] eqn:Ry; cbn [ctl_all]; apply G.
           ++ intros i Hi Ni. cbn [set_target active] in Hi. intros x' u' Nx' Rx'. unfold set_target in Nx'. rewrite Nx in Nx'. cbn [targets] in Nx'.
              destruct (Nat.eq_dec i id) as [->|Di]. { rewrite nth_error_upd_eq in Nx' by (eapply nth_error_lt; eauto). injection Nx' as <-. discriminate. }
              rewrite nth_error_upd_neq in Nx' by auto. apply (S i Hi) with (x := x'); auto. intros [<-|Hx]; auto.
           ++ intros i Hi Ni. destruct (Nat.eq_dec i id) as [->|Di].
              ** intros x' u' Nx' Rx'. rewrite Nx in Nx'. injection Nx' as <-. rewrite Rx in Rx'. injection Rx' as <-. cbn [set_awaiter sc_awaiter]. rewrite set_at_eq.
                 split; auto. unfold res_of. now rewrite Ny.
              ** apply (polled_more c s). { intros v Hv. cbn [set_awaiter sc_awaiter]. unfold set_at. destruct (v =? u); auto. }
                 apply S; auto. intros [<-|Hx]; auto.
        -- apply G. intros i Hi Ni. destruct (Nat.eq_dec i id) as [->|Di]. { intros x' u' Nx' Rx'. congruence. } apply S; auto. intros [<-|Hx]; auto.
    + cbn [next_req req_next ctl_all react fst]. apply G. exact Logic.I.
    + destruct ids as [|id ids]; cbn [next_req]. { cbn [req_next ctl_all react fst]. apply G. apply St. }
      destruct (nth_error (targets e) id) as [x|] eqn:Nx; [|exact Logic.I]. destruct (tg_run x).
      * destruct (i =? 0); cbn [req_next ctl_all]; intros; apply G; exact Logic.I.
      * destruct (closed (tg_state x)) eqn:Ec; [exact Logic.I|]. cbn [req_next]. intros u. cbn [ctl_all]. apply G. destruct (i =? 0); exact Logic.I.
    + cbn [next_req req_next ctl_all]. intros _. apply G. exact Logic.I.
Qed.

(* ---- the other tasks ---- *)
Lemma outer_effect c s c1 s1 a1 pl t c' s2 a2 : Inv c -> Effect c s c1 s1 a1 pl t ->
  (forall v, v <> t -> sc_flag s2 v = sc_flag s1 v) -> QI (is_scheduled c') s2 -> sc_waits s2 = sc_waits s1 -> g_sent c' = g_sent c1 ->
  wakers_kept s1 s2 a2 ->
  (forall u, res_of c' u = res_of c u \/ forall p, sc_awaiter s1 u = Some p -> In (AWake p) a2) ->
  (forall u, u <> t -> nth_error (g_tasks c') u = nth_error (g_tasks c1) u) ->
  (forall u y', u <> t -> nth_error (g_tasks c1) u = Some y' ->
    (exists y, nth_error (g_tasks c) u = Some y /\ evolve y y') \/
    nth_error (g_tasks c) u = None /\ tk_cancel y' = false /\ tk_sched y' = false /\ exists p q, tk_stack y' = [FImp p q ILook]) ->
  (forall v y f rest u, v <> t -> nth_error (g_tasks c) v = Some y -> tk_stack y = f :: rest -> In u (kids f) -> ~ pl u) ->
  Outer c s c' s2 (a1 ++ a2) t.
Proof.
  intros I [E1 E2 E3 E4 E5 E6] F Q W Sn Wk Rs Tk Tn Kd. constructor; auto.
  - intros v D. rewrite F by auto. apply E1.
  - intros v y f rest D N E.
    assert (P : forall e id, frame_edges f = e -> polled c s v e id -> polled c' s2 v e id \/ In (AWake v) (a1 ++ a2)).
    { intros e id Ee P. destruct (nth_error (targets e) id) as [x|] eqn:Nx; [|left; intros x u Nx' _; congruence].
      destruct (tg_run x) as [u|] eqn:Rx; [|left; intros x' u Nx' Rx'; congruence]. destruct (P x u Nx Rx) as (Au & Ru).
      assert (Ku : In u (kids f)). { unfold kids. rewrite Ee. eapply running_kid; eauto. }
      destruct (E3 u) as [A|[A|(A & _)]]; [|right; apply in_or_app; auto|exfalso; eapply Kd; eauto].
      rewrite Au in A. destruct (Wk u) as [B|B]; [|right; apply in_or_app; right; now apply B].
      destruct (Rs u) as [C|C]; [|right; apply in_or_app; right; now apply C].
      left. intros x' u' Nx' Rx'. rewrite Nx in Nx'. injection Nx' as <-. rewrite Rx in Rx'. injection Rx' as <-. split; congruence. }
    split; intros H.
    + apply watched_next in H. destruct (frame_next f) as [(e, np)|] eqn:En.
      * destruct np; try contradiction. destruct (all_or (polled c' s2 v e) (In (AWake v) (a1 ++ a2)) (active e)) as [X|X]; auto.
        intros id Hi. apply P; auto. now apply (next_edges f e NPend). left. apply watched_next. now rewrite En.
      * destruct f as [s0 l pc|prev s0 pc|s0 pc]; try contradiction; destruct pc; try contradiction. left; exact Logic.I.
        destruct H as (H1 & H2). destruct (E4 id v H2) as [X|X]; [|right; apply in_or_app; auto].
        destruct (in_dec Nat.eq_dec id (g_sent c1)) as [Y|Y]. destruct (E5 id Y) as [Z|Z]; [contradiction|]. right. apply in_or_app. auto.
        left. cbn [watched]. rewrite Sn, W. auto.
    + unfold seen in *. destruct (frame_next f) as [(e, [ids fin nr b| | |])|] eqn:En; auto.
      * destruct (all_or (fun id => ~ In id ids -> polled c' s2 v e id) (In (AWake v) (a1 ++ a2)) (active e)) as [X|X]; auto.
        intros id Hi. destruct (in_dec Nat.eq_dec id ids) as [Y|Y]. left; contradiction. destruct (P e id (next_edges f e _ En) (H id Hi Y)); auto.
      * destruct (all_or (polled c' s2 v e) (In (AWake v) (a1 ++ a2)) (active e)) as [X|X]; auto.
        intros id Hi. apply P; auto. now apply (next_edges f e NPend).
  - intros u y y' D N N' En C. rewrite Tk in N' by auto. specialize (E6 u y y' N N' En C). destruct (tk_sched y). now rewrite F. apply in_or_app. auto.
  - intros u y' D N'. rewrite Tk in N' by auto. auto.
Qed.
End Step.
