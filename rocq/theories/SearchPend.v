(* A task that waits in improve_next waits for a child that was scheduled. *)
From Coq Require Import List Arith Bool Lia Permutation.
Import ListNotations.
From Verif Require Import Spec Vec Net Graded Bits Util CountProofs OutputSetModel OutputSetProofs PruneProofs PackProofs HuffmanModel HuffmanProofs CanonModel TreeModel StatesModel StatesProofs StatesBounds SearchModel SearchFair SearchFacts SearchInv SearchEdges SearchStep SearchFrames SearchGlobal SearchRun SearchSafe SearchOrder SearchWaits SearchMain SearchClosed SearchSlack SearchGood SearchQuiet SearchReach SearchNext SearchHuff SearchLive SearchReady SearchCost SearchSpend SearchWork IndexProofs.

Definition sched_in (c : Config) (u : nat) : Prop := exists y, nth_error (g_tasks c) u = Some y /\ tk_sched y = true.
Definition has_sched (c : Config) (e : Edges) : Prop :=
  exists id x u, In id (active e) /\ nth_error (targets e) id = Some x /\ tg_run x = Some u /\ sched_in c u.
Definition np_sched (c : Config) (e : Edges) (np : NextPc) : Prop :=
  match np with
  | NPoll _ false nr _ => 0 < nr -> has_sched c e
  | NPend => has_sched c e
  | _ => True
  end.
Definition pend_frame (c : Config) (f : Frame) : Prop :=
  match f with
  | FImp _ _ (INext _ _ e np) | FHuff _ (HNext _ _ _ _ _ e np) => np_sched c e np
  | _ => True
  end.

(* what a step keeps of a task *)
Definition keeps (x x' : Task) : Prop :=
  tk_prev x' = tk_prev x /\ tk_set x' = tk_set x /\ (tk_sched x = true -> tk_sched x' = true) /\ (tk_cancel x = true -> tk_cancel x' = true) /\
  (forall v, tk_result x = Some v -> tk_result x' = Some v).
Lemma keeps_refl x : keeps x x.
Proof. unfold keeps; tauto. Qed.
Lemma keeps_trans a b c : keeps a b -> keeps b c -> keeps a c.
Proof. unfold keeps. intros (A1 & A2 & A3 & A4 & A5) (B1 & B2 & B3 & B4 & B5). repeat split; auto; congruence. Qed.

Section Pend.
Variables chash mhash : list nat -> nat.
Notation Inv := (Inv chash mhash).
Notation Ready := (Ready chash mhash).
Notation frame_req := (frame_req chash).
Notation frame_ok := (frame_ok chash mhash).
Notation edges_ok := (edges_ok mhash).
Notation access := (access mhash).
Notation task_step := (task_step chash mhash).
Notation drop_frame := (drop_frame mhash).
Notation sys_step := (sys_step chash mhash).
Notation moves := (moves chash mhash).
Notation search_run := (search_run chash mhash).

Lemma access_sent c r c1 k : access c r = ADone c1 k -> incl (g_sent c) (g_sent c1).
Proof.
  intros Ea. destruct r; cbn [SearchModel.access] in Ea; try discriminate; intros z Hz.
  - destruct (sm_get mhash (g_map c) s); [|discriminate]. now injection Ea as <- _.
  - destruct (sm_set mhash (g_map c) s st); [|discriminate]. now injection Ea as <- _.
  - destruct (sm_get_lock mhash (g_map c) s (g_next c)) as [[id|m]|]; try discriminate; now injection Ea as <- _.
  - destruct (sm_unlock mhash (g_map c) s); [|discriminate]. injection Ea as <- _. now right.
  - destruct (existsb (Nat.eqb id) (g_sent c)); [|discriminate]. now injection Ea as <- _.
  - destruct (nth_error (g_tasks c) t) as [y|]; [|discriminate]. destruct (tk_result y). now injection Ea as <- _.
    destruct (tk_cancel y); [discriminate|]. now injection Ea as <- _.
  - now injection Ea as <- _.
  - now injection Ea as <- _.
  - injection Ea as <- _. destruct (cancel_all_shared ts c) as (_ & _ & ->). auto.
  - now injection Ea as <- _.
Qed.
Lemma evolve_keeps y y1 : evolve y y1 -> keeps y y1.
Proof. intros (A & B & C & D & E & F). repeat split; auto. congruence. Qed.
Lemma no_result c t x f rest : Inv c -> nth_error (g_tasks c) t = Some x -> tk_stack x = f :: rest -> tk_result x = None.
Proof.
  intros I N E. destruct (tk_result x) as [v|] eqn:Ev; auto. destruct (inv_core _ _ c I _ (nth_error_In _ _ (nth_cores c t x N))) as (_ & _ & H).
  destruct (H v Ev) as (_ & H'). cbn in H'. congruence.
Qed.

(* a step and the tasks that are there *)
Lemma step_tasks c c' : Inv c -> sys_step c c' ->
  (forall t x, nth_error (g_tasks c) t = Some x -> exists x', nth_error (g_tasks c') t = Some x' /\ keeps x x' /\ (moves c t c' \/ tk_stack x' = tk_stack x)) /\
  incl (g_sent c) (g_sent c').
Proof.
  intros I H. destruct H as [c t c' H|c t x N P|c t c' H].
  - pose proof H as HM. unfold SearchModel.task_step in H. destruct (nth_error (g_tasks c) t) as [x|] eqn:N; [|discriminate]. destruct (negb (tk_sched x)); [discriminate|].
    destruct (tk_stack x) as [|f rest] eqn:E; [discriminate|].
    destruct (access c (frame_req f)) as [| |c1 k] eqn:Ea; try discriminate.
    split. 2: { destruct (run_ctl_map c1 t rest k c' H) as (_ & _ & ->). eapply access_sent; eauto. }
    assert (X : exists g, c' = with_task c1 t g /\ (forall z, tk_result z = None -> keeps z (g z))).
    { destruct k as [f'|f' g|v|]; cbn [run_ctl] in H; try discriminate.
      - injection H as <-. eexists. split; [reflexivity|]. intros z _. unfold keeps; cbn; tauto.
      - injection H as <-. eexists. split; [reflexivity|]. intros z _. unfold keeps; cbn; tauto.
      - destruct rest as [|f0 r].
        + injection H as <-. eexists. split; [reflexivity|]. intros z Hz. unfold keeps; cbn. repeat split; auto. congruence.
        + destruct (resume f0 v); [|discriminate]. injection H as <-. eexists. split; [reflexivity|]. intros z _. unfold keeps; cbn; tauto. }
    destruct X as (g & -> & Kg). intros u y Ny. destruct (access_old chash mhash c _ c1 k Ea u y Ny) as (y1 & Ny1 & Ev). rewrite with_task_nth, Ny1.
    destruct (Nat.eqb_spec u t) as [->|D]; cbn [option_map].
    + exists (g y1). split; auto. split; [|left; now left]. apply (keeps_trans y y1). now apply evolve_keeps. apply Kg.
      rewrite N in Ny. injection Ny as <-. destruct Ev as (_ & _ & _ & -> & _). eapply no_result; eauto.
    + exists y1. split; auto. split. now apply evolve_keeps. right. apply Ev.
  - split. 2: { intros z Hz. exact Hz. } intros u y Ny. rewrite with_task_nth, Ny. destruct (u =? t); cbn [option_map]; eexists; (split; [reflexivity|]); split; auto using keeps_refl.
    unfold keeps; cbn; tauto.
  - pose proof H as HM. unfold SearchModel.drop_frame in H. destruct (nth_error (g_tasks c) t) as [x|] eqn:N; [|discriminate]. destruct (negb (tk_cancel x)); [discriminate|].
    destruct (tk_stack x) as [|f rest] eqn:E; [discriminate|].
    assert (X : g_tasks c' = g_tasks (with_task (cancel_all (all_running (frame_edges f)) c) t (set_stack rest)) /\ incl (g_sent c) (g_sent c')).
    { destruct (cancel_all_shared (all_running (frame_edges f)) c) as (_ & _ & Es). destruct (held f) as [(s, id)|].
      - match type of H with context [sm_unlock ?h ?m ?x] => destruct (sm_unlock h m x) eqn:El; [|discriminate] end. injection H as <-. cbn [g_tasks g_sent].
        split; auto. cbn [with_task g_sent]. rewrite Es. intros z Hz. now right.
      - injection H as <-. split; auto. cbn [with_task g_sent]. rewrite Es. intros z Hz. exact Hz. }
    destruct X as (X & Y). split; auto. intros u y Ny. destruct (cancel_all_evolve chash mhash (all_running (frame_edges f)) c u y Ny) as (y1 & Ny1 & Ev & _).
    rewrite X, with_task_nth, Ny1. destruct (Nat.eqb_spec u t) as [->|D]; cbn [option_map].
    + eexists. split; [reflexivity|]. split; [|left; now right]. apply (keeps_trans y y1). now apply evolve_keeps. unfold keeps; cbn; tauto.
    + exists y1. split; auto. split. now apply evolve_keeps. right. apply Ev.
Qed.

(* ---- the invariant ---- *)
Definition req_pend (c : Config) (r : Req) : Prop :=
  let P := ctl_all (pend_frame c) in
  match r with
  | RGet s k => forall st, P (k st)
  | RSet s st k => P k
  | RLock s got busy => (forall id, P (got id)) /\ forall id, P (busy id)
  | RUnlock s id k => P k
  | RWait id k => P k
  | RPoll u k => forall y, nth_error (g_tasks c) u = Some y -> P (k (tk_result y) (tk_sched y))
  | RSpawn prev s pend k => forall u, P (k u)
  | RSchedule u k => P k
  | RCancel ts k => P k
  | RTau k => P k
  | RNone => True
  end.
Lemma next_req_pend c m goal order e np go done : edges_ok m goal e -> np_in e np -> np_sched c e np ->
  (forall e' np', np_sched c e' np' -> pend_frame c (go e' np')) -> (forall e', ctl_all (pend_frame c) (done e')) ->
  req_pend c (next_req order e np go done).
Proof.
  intros (T & _) N S G D. destruct np as [ids fin nr b| |i ids b|ids b t]; cbn [next_req np_in] in *.
  - destruct ids as [|id ids].
    + cbn [req_pend]. destruct (retain_closed e) as [e'|] eqn:Er; [|exact Logic.I]. destruct fin; cbn [orb]; auto. destruct (active e') eqn:Ea; auto.
      destruct (b && (0 <? nr)) eqn:Eb; cbn [ctl_all]; apply G; [|exact Logic.I]. apply andb_true_iff in Eb. destruct Eb as (_ & Eb). apply Nat.ltb_lt in Eb.
      destruct (S Eb) as (id & x & u & Hi & Nx & Rx & Hs). destruct (closed_cost (fun _ => mkState 0 0 0 0) (fun _ => None) 0 e e' Er) as (_ & _ & Et & Ac).
      exists id, x, u. rewrite Et. split; auto. apply Ac. split; auto. rewrite (target_at_nth e id x Nx).
      destruct (T x (nth_error_In _ _ Nx)) as (_ & _ & Cl & _). destruct (closed (tg_state x)); auto. rewrite (Cl eq_refl) in Rx. discriminate.
    + assert (Hi : In id (active e)) by (apply N; now left).
      destruct (nth_error (targets e) id) as [x|] eqn:Nx; [|exact Logic.I]. destruct (tg_run x) as [u|] eqn:Rx; cbn [req_pend ctl_all].
      * intros y Ny. destruct (tk_result y) as [v|]; cbn [ctl_all]; apply G; [exact Logic.I|]. cbn [np_sched] in *. destruct fin; auto.
        destruct (tk_sched y) eqn:Sy; auto. intros _. exists id, x, u. repeat split; auto. exists y. auto.
      * apply G. exact S.
  - cbn [req_pend ctl_all]. apply G. exact Logic.I.
  - destruct ids as [|id ids]. { cbn [req_pend ctl_all]. apply G; cbn [np_sched]. lia. }
    destruct (nth_error (targets e) id) as [x|] eqn:Nx; [|exact Logic.I]. destruct (tg_run x).
    + destruct (i =? 0); cbn [req_pend ctl_all]; apply G; exact Logic.I.
    + destruct (closed (tg_state x)) eqn:Ec; [exact Logic.I|]. cbn [req_pend]. intros u. cbn [ctl_all].
      apply G. destruct (i =? 0); exact Logic.I.
  - cbn [req_pend ctl_all]. apply G. exact Logic.I.
Qed.
Lemma add_edge_pend c e t k : (forall e' id, ctl_all (pend_frame c) (k e' id)) -> req_pend c (add_edge_req e t k).
Proof. intros H. unfold add_edge_req. destruct (find_target t (targets e) 0); cbn [req_pend]; auto. intros st. destruct (push_target e t st). auto. Qed.
Lemma after_check_pend c prev s lk st : ctl_all (pend_frame c) (after_check chash prev s lk st).
Proof.
  assert (AE : ctl_all (pend_frame c) (after_extremal prev s lk st)) by (unfold after_extremal; destruct (lo st <? hhi st); cbn; auto).
  unfold after_check. destruct (extremal_channels s false) as [|c0 [|c1 l]], (extremal_channels s true) as [|d0 [|d1 l']]; auto;
    match goal with |- context [prune_canon ?a ?b ?c ?d] => destruct (prune_canon a b c d); cbn; auto end.
Qed.
Lemma start_pend c e : np_sched c e (next_start e).
Proof. cbn. lia. Qed.
Lemma frame_req_pend c m goal f : frame_ok m goal f -> ready_frame f -> pend_frame c f -> req_pend c (frame_req f).
Proof.
  intros F S Pd. destruct f as [s lim pc|prev s pc|s pc]; cbn [SearchModel.frame_req].
  - destruct pc; cbn [main_req req_pend]; try exact Logic.I; intros; try exact Logic.I. destruct (closed st || _); cbn; auto.
  - destruct F as (K & F). destruct S as (Sc & S).
    destruct pc; cbn [imp_req]; try exact Logic.I.
    + cbn [req_pend]. intros st. destruct (negb _); [exact Logic.I|]. destruct (closed st); exact Logic.I.
    + cbn [req_pend]. split; intros; exact Logic.I.
    + cbn [req_pend]. intros st. destruct (negb _). exact Logic.I. destruct (closed st). exact Logic.I. apply after_check_pend.
    + cbn [req_pend]. intros. exact Logic.I.
    + destruct (hi pst <? hi st); cbn [req_pend]; [match goal with |- ctl_all _ (if ?a then _ else _) => destruct a end|]; exact Logic.I.
    + destruct (lo st <? lo pst); cbn; auto.
    + destruct todo as [|(i, j) todo]; [exact Logic.I|]. destruct (apply_comparator s i j) as (t, ch) eqn:Ea. destruct ch; [|exact Logic.I].
      destruct (canon chash t) as [t'|] eqn:Et; [|exact Logic.I]. apply add_edge_pend. intros e' id. exact Logic.I.
    + destruct (m0 <- list_min (map hi (edge_states e));; u8_succ m0) as [ub|] eqn:Eu; [|exact Logic.I].
      destruct (ub <? hi st); cbn [req_pend]; [match goal with |- ctl_all _ (if ?a then _ else _) => destruct a end|]; exact Logic.I.
    + destruct (m0 <- list_min (map lo (edge_states e));; u8_succ m0) as [ub|]; [|exact Logic.I].
      destruct (lo st <? ub). exact Logic.I. apply start_pend.
    + cbn [req_pend]. intros. exact Logic.I.
    + destruct F as (_ & (EO & _) & _). apply (next_req_pend c m goal); auto; intros; exact Logic.I.
  - destruct F as (K & Wk & F).
    assert (HW : forall st ids0 ids1 uh0 uh1 e, ctl_all (pend_frame c) (huff_while s st ids0 ids1 uh0 uh1 e)).
    { intros st ids0 ids1 uh0 uh1 e. unfold huff_while. destruct (lo st <? hhi st); exact Logic.I. }
    assert (HA : forall st ids0 ids1 uh0 uh1 e pol, ctl_all (pend_frame c) (huff_after s st ids0 ids1 uh0 uh1 e pol)).
    { intros st ids0 ids1 uh0 uh1 e pol. unfold huff_after. destruct pol; exact Logic.I. }
    destruct pc; cbn [huff_req]; try exact Logic.I.
    + cbn [req_pend]. intros st. destruct (hhi st <=? lo st); exact Logic.I.
    + destruct todo as [|(pol, c0) todo]; [apply HW|].
      destruct (prune_canon chash s pol c0) as [t|] eqn:Et; [|exact Logic.I]. apply add_edge_pend. intros e' id. destruct pol; exact Logic.I.
    + destruct (lo st <? (if pol then uh1 else uh0)); [|apply HA].
      match goal with |- context [match ?a with _ => _ end] => destruct a as [(lh, uh)|] end; [|exact Logic.I].
      destruct (uh <=? lo st); [|exact Logic.I]. destruct (retain_edges _ e). exact Logic.I.
    + destruct (hlo st <? lh); [|apply HA]. destruct (lo st <? lh); [exact Logic.I|apply HA].
    + destruct (Nat.max uh0 uh1 <? hhi st); apply start_pend.
    + destruct F as ((_ & EO & _) & _). apply (next_req_pend c m goal); auto.
Qed.
Lemma access_pend c r c1 k : req_pend c r -> access c r = ADone c1 k -> ctl_all (pend_frame c) k.
Proof.
  intros P Ea. destruct r; cbn [SearchModel.access req_pend] in *; try discriminate.
  - destruct (sm_get mhash (g_map c) s); [|discriminate]. now injection Ea as _ <-.
  - destruct (sm_set mhash (g_map c) s st); [|discriminate]. now injection Ea as _ <-.
  - destruct P as (P1 & P2). destruct (sm_get_lock mhash (g_map c) s (g_next c)) as [[id|m]|]; try discriminate; now injection Ea as _ <-.
  - destruct (sm_unlock mhash (g_map c) s); [|discriminate]. now injection Ea as _ <-.
  - destruct (existsb (Nat.eqb id) (g_sent c)); [|discriminate]. now injection Ea as _ <-.
  - destruct (nth_error (g_tasks c) t) as [y|] eqn:Ny; [|discriminate]. specialize (P y eq_refl). destruct (tk_result y). now injection Ea as _ <-.
    destruct (tk_cancel y); [discriminate|]. now injection Ea as _ <-.
  - now injection Ea as _ <-.
  - now injection Ea as _ <-.
  - now injection Ea as _ <-.
  - now injection Ea as _ <-.
Qed.

Definition Pend (c : Config) : Prop := forall f, In f (frames (cores c)) -> pend_frame c f.
Lemma pend_later c c' f : (forall t x, nth_error (g_tasks c) t = Some x -> exists x', nth_error (g_tasks c') t = Some x' /\ keeps x x') -> pend_frame c f -> pend_frame c' f.
Proof.
  intros H. assert (HS : forall e, has_sched c e -> has_sched c' e).
  { intros e (id & x & u & Hi & Nx & Rx & (y & Ny & Sy)). destruct (H u y Ny) as (y' & Ny' & (_ & _ & Ks & _)). exists id, x, u. repeat split; auto. exists y'. auto. }
  assert (HN : forall e np, np_sched c e np -> np_sched c' e np). { intros e [ids [] nr b| |i ids b|ids b t]; cbn; auto. }
  destruct f as [s lim pc|prev s pc|s pc]; auto; destruct pc; auto; apply HN.
Qed.
Lemma resume_pend c f v f' : resume f v = Some f' -> pend_frame c f'.
Proof.
  destruct f as [s lim pc|prev s pc|s pc]; try discriminate; destruct pc; try discriminate; cbn [resume]; try (destruct (lo st <? lo v)); intros H; injection H as <-; exact Logic.I.
Qed.
Lemma pend_step c c' : Ready c -> Pend c -> sys_step c c' -> Pend c'.
Proof.
  intros R P H. pose proof (gd_inv _ _ c (rd_good _ _ c R)) as I. destruct (step_tasks c c' I H) as (Ht & _).
  assert (L : forall f, pend_frame c f -> pend_frame c' f).
  { intros f. apply pend_later. intros t x N. destruct (Ht t x N) as (x' & N' & K & _). eauto. }
  assert (O : forall c1 t g, (forall u y1, nth_error (g_tasks c1) u = Some y1 -> forall f, In f (tk_stack y1) -> pend_frame c f) ->
     (forall x1, nth_error (g_tasks c1) t = Some x1 -> forall f, In f (tk_stack (g x1)) -> pend_frame c f) ->
     g_tasks c' = g_tasks (with_task c1 t g) -> Pend c').
  { intros c1 t g H1 H2 Et f Hf. apply L. apply frames_In in Hf. destruct Hf as (u & y & Ny & Hy). rewrite Et, with_task_nth in Ny.
    destruct (Nat.eqb_spec u t) as [->|D]; [|eapply H1; eauto]. destruct (nth_error (g_tasks c1) t) as [x1|] eqn:N1; [|discriminate]. cbn in Ny. injection Ny as <-.
    eapply H2; eauto. }
  assert (Old : forall u y, nth_error (g_tasks c) u = Some y -> forall f, In f (tk_stack y) -> pend_frame c f).
  { intros u y Ny f Hf. apply P. now apply (frames_nth c u y). }
  destruct H as [c t c' H|c t x N Pn|c t c' H].
  - unfold SearchModel.task_step in H. destruct (nth_error (g_tasks c) t) as [x|] eqn:N; [|discriminate]. destruct (negb (tk_sched x)); [discriminate|].
    destruct (tk_stack x) as [|f rest] eqn:E; [discriminate|].
    destruct (access c (frame_req f)) as [| |c1 k] eqn:Ea; try discriminate.
    assert (Hf : In f (frames (cores c))). { apply (frames_nth c t x); auto. rewrite E. now left. }
    pose proof (access_pend c _ c1 k (frame_req_pend c _ _ f (inv_frame_ok chash mhash c f I Hf) (proj2 (rd_frames _ _ c R f Hf)) (P f Hf)) Ea) as Ck.
    assert (Rs : forall g, In g rest -> pend_frame c g). { intros g Hg. apply (Old t x N). rewrite E. now right. }
    assert (H1 : forall u y1, nth_error (g_tasks c1) u = Some y1 -> forall f, In f (tk_stack y1) -> pend_frame c f).
    { intros u y1 Ny1 f0 Hf0. destruct (access_new chash mhash c _ c1 k Ea u y1 Ny1) as [(y & Ny & (_ & _ & Es & _))|(p & s & pe & k' & _ & _ & ->)].
      rewrite Es in Hf0. eapply Old; eauto. destruct Hf0 as [<-|[]]. exact Logic.I. }
    destruct k as [f'|f' g|v|]; cbn [run_ctl] in H; try discriminate.
    + injection H as <-. apply (O c1 t _ H1) with (2 := eq_refl). intros x1 _ f0 [<-|Hf0]; auto.
    + injection H as <-. destruct Ck as (C1 & C2). apply (O c1 t _ H1) with (2 := eq_refl). intros x1 _ f0 [<-|[<-|Hf0]]; auto.
    + destruct rest as [|g r].
      * injection H as <-. apply (O c1 t _ H1) with (2 := eq_refl). intros x1 _ f0 [].
      * destruct (resume g v) as [f'|] eqn:Er; [|discriminate]. injection H as <-. apply (O c1 t _ H1) with (2 := eq_refl). intros x1 _ f0 [<-|Hf0].
        now apply (resume_pend c g v). apply Rs. now right.
  - apply (O c t set_sched Old) with (2 := eq_refl). intros x1 N1 f0 Hf0. now apply (Old t x1).
  - unfold SearchModel.drop_frame in H. destruct (nth_error (g_tasks c) t) as [x|] eqn:N; [|discriminate]. destruct (negb (tk_cancel x)); [discriminate|].
    destruct (tk_stack x) as [|f rest] eqn:E; [discriminate|].
    assert (X : g_tasks c' = g_tasks (with_task (cancel_all (all_running (frame_edges f)) c) t (set_stack rest))).
    { destruct (held f) as [(s, id)|]; [|now injection H as <-].
      match type of H with context [sm_unlock ?h ?m ?x] => destruct (sm_unlock h m x) eqn:El; [|discriminate] end. now injection H as <-. }
    apply (O (cancel_all (all_running (frame_edges f)) c) t (set_stack rest)) with (3 := X).
    + intros u y1 Ny1 f0 Hf0. assert (Lu : u < length (g_tasks c)). { rewrite <- (cancel_all_length (all_running (frame_edges f)) c). eapply nth_error_lt; eauto. }
      destruct (nth_error (g_tasks c) u) as [y|] eqn:Ny; [|apply nth_error_None in Ny; lia].
      destruct (cancel_all_evolve chash mhash (all_running (frame_edges f)) c u y Ny) as (y2 & Ny2 & (_ & _ & Es & _) & _). rewrite Ny1 in Ny2. injection Ny2 as <-.
      rewrite Es in Hf0. eapply Old; eauto.
    + intros x1 _ f0 Hf0. apply (Old t x N). rewrite E. now right.
Qed.
Lemma run_pend threads initial limit c : okset initial -> search_run threads initial limit c -> Pend c.
Proof.
  intros K H. induction H as [c H|c c' H IH Hs].
  - unfold search_start in H. destruct (canon chash initial) as [i|]; [|discriminate]. cbn in H. injection H as <-.
    intros f Hf. cbn in Hf. destruct Hf as [<-|[]]. exact Logic.I.
  - apply (pend_step c); auto. now apply (run_ready chash mhash threads initial limit).
Qed.
End Pend.
