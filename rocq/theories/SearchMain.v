(* The main loop is the bottom of task 0, and of no other task; task 0 is never cancelled. *)
From Coq Require Import List Arith Bool Lia Permutation Relations.
Import ListNotations.
From Verif Require Import Spec Vec Net Graded Bits Util OutputSetModel OutputSetProofs PruneProofs PackProofs HuffmanModel HuffmanProofs CanonModel TreeModel StatesModel StatesProofs StatesBounds SearchModel SearchFacts SearchInv SearchEdges SearchStep SearchFrames SearchGlobal SearchRun SearchSafe SearchOrder SearchWaits.

Section Main.
Variables chash mhash : list nat -> nat.
Notation Inv := (Inv chash mhash).
Notation frame_req := (frame_req chash).
Notation frame_ok := (frame_ok chash mhash).
Notation stack_ok := (stack_ok chash mhash).
Notation access := (access mhash).
Notation task_step := (task_step chash mhash).
Notation sys_step := (sys_step chash mhash).
Notation search_run := (search_run chash mhash).

Definition Kind := option (OutputSet * option nat).
Definition kind (f : Frame) : Kind := match f with FMain s l _ => Some (s, l) | _ => None end.
Definition ctl_kind (K : Kind) (k : Ctl) : Prop :=
  match k with
  | CGo f => kind f = K
  | CCall f g => kind f = K /\ kind g = None
  | CReturn _ => K = None
  | CPanic => True
  end.
Definition req_kind (K : Kind) (r : Req) : Prop :=
  match r with
  | RGet s k => forall st, ctl_kind K (k st)
  | RSet s st k => ctl_kind K k
  | RLock s got busy => (forall id, ctl_kind K (got id)) /\ forall id, ctl_kind K (busy id)
  | RUnlock s id k => ctl_kind K k
  | RWait id k => ctl_kind K k
  | RPoll u k => forall v b, ctl_kind K (k v b)
  | RSpawn prev s pend k => forall u, ctl_kind K (k u)
  | RSchedule u k => ctl_kind K k
  | RCancel ts k => ctl_kind K k
  | RTau k => ctl_kind K k
  | RNone => True
  end.

Lemma next_req_kind K order e np go done : (forall e' np', kind (go e' np') = K) -> (forall e', ctl_kind K (done e')) ->
  req_kind K (next_req order e np go done).
Proof.
  intros G D. destruct np as [ids finished nr block| |index ids block|ids block t]; cbn [next_req].
  - destruct ids as [|id ids].
    + cbn [req_kind]. destruct (retain_closed e); [|exact Logic.I]. destruct (finished || _); auto. destruct (block && _); apply G.
    + destruct (nth_error (targets e) id) as [x|]; [|exact Logic.I]. destruct (tg_run x); cbn [req_kind]; [|apply G].
      intros [v|] b; apply G.
  - apply G.
  - destruct ids as [|id ids]. apply G. destruct (nth_error (targets e) id) as [x|]; [|exact Logic.I]. destruct (tg_run x).
    + destruct (index =? 0); apply G.
    + destruct (closed (tg_state x)); [exact Logic.I|]. cbn [req_kind]. intros u. apply G.
  - apply G.
Qed.

Lemma add_edge_kind K e t k : (forall e' id, ctl_kind K (k e' id)) -> req_kind K (add_edge_req e t k).
Proof. intros H. unfold add_edge_req. destruct (find_target t (targets e) 0); cbn [req_kind]; auto. intros st. destruct (push_target e t st). auto. Qed.

Lemma after_check_kind prev s lk st : ctl_kind None (after_check chash prev s lk st).
Proof.
  assert (AE : ctl_kind None (after_extremal prev s lk st)) by (unfold after_extremal; destruct (lo st <? hhi st); cbn; auto).
  unfold after_check. destruct (extremal_channels s false) as [|c0 [|c1 l]], (extremal_channels s true) as [|d0 [|d1 l']]; auto;
    match goal with |- context [prune_canon ?a ?b ?c ?d] => destruct (prune_canon a b c d); cbn; auto end.
Qed.

Lemma frame_req_kind f : req_kind (kind f) (frame_req f).
Proof.
  destruct f as [s lim pc|prev s pc|s pc]; cbn [SearchModel.frame_req kind].
  - destruct pc; cbn [main_req req_kind]; try exact Logic.I. intros; reflexivity. destruct (closed st || _); cbn; auto.
  - destruct pc; cbn [imp_req]; try exact Logic.I; try (cbn [req_kind ctl_kind]; auto; fail).
    + cbn [req_kind]. intros st. destruct (negb _); [reflexivity|]. destruct (closed st); reflexivity.
    + cbn [req_kind]. intros st. destruct (negb _); [reflexivity|]. destruct (closed st); [reflexivity|]. apply after_check_kind.
    + destruct (hi pst <? hi st); cbn [req_kind]; [destruct (closed _)|]; reflexivity.
    + destruct (lo st <? lo pst); cbn [req_kind ctl_kind]; auto.
    + destruct todo as [|(i, j) todo]; [reflexivity|]. destruct (apply_comparator s i j) as (t, ch). destruct ch; [|reflexivity].
      destruct (canon chash t); [|exact Logic.I]. apply add_edge_kind. reflexivity.
    + destruct (m <- list_min (map hi (edge_states e));; u8_succ m) as [ub|]; [|exact Logic.I].
      destruct (ub <? hi st); cbn [req_kind]; [destruct (closed _)|]; reflexivity.
    + destruct (m <- list_min (map lo (edge_states e));; u8_succ m) as [ub|]; [|exact Logic.I].
      destruct (lo st <? ub); cbn [req_kind]; reflexivity.
    + apply next_req_kind; reflexivity.
  - assert (HW : forall st ids0 ids1 uh0 uh1 e, ctl_kind None (huff_while s st ids0 ids1 uh0 uh1 e)).
    { intros. unfold huff_while. destruct (lo st <? hhi st); reflexivity. }
    assert (HA : forall st ids0 ids1 uh0 uh1 e pol, ctl_kind None (huff_after s st ids0 ids1 uh0 uh1 e pol)).
    { intros. unfold huff_after. destruct pol; reflexivity. }
    destruct pc; cbn [huff_req]; try exact Logic.I; try (cbn [req_kind]; auto; fail).
    + cbn [req_kind]. intros st. destruct (hhi st <=? lo st); reflexivity.
    + destruct todo as [|(pol, c) todo]; [apply HW|]. destruct (prune_canon chash s pol c); [|exact Logic.I].
      apply add_edge_kind. intros e' id. destruct pol; reflexivity.
    + destruct (lo st <? (if pol then uh1 else uh0)); [|apply HA].
      match goal with |- context [match ?a with _ => _ end] => destruct a as [(lh, uh)|] end; [|exact Logic.I].
      destruct (uh <=? lo st); [|reflexivity]. destruct (retain_edges _ e). reflexivity.
    + destruct (hlo st <? lh); [|apply HA]. destruct (lo st <? lh); [reflexivity|apply HA].
    + destruct (Nat.max uh0 uh1 <? hhi st); reflexivity.
    + apply next_req_kind; [reflexivity|]. intros e'. apply HW.
    + reflexivity.
Qed.

Lemma resume_kind f v f' : resume f v = Some f' -> kind f' = kind f.
Proof.
  destruct f as [s lim pc|prev s pc|s pc]; try discriminate; destruct pc; try discriminate; cbn [resume].
  - intros H. injection H as <-. auto.
  - intros H. injection H as <-. auto.
  - destruct (lo st <? lo v); intros H; injection H as <-; auto.
Qed.

(* the stack of task t *)
Definition kinds_ok (K : Kind) (t : nat) (l : list Frame) : Prop :=
  if t =? 0 then exists k, map kind l = repeat None k ++ [K] else forall f, In f l -> kind f = None.
Definition main_inv (K : Kind) (ts : list Task) : Prop :=
  (exists x, nth_error ts 0 = Some x /\ tk_cancel x = false) /\
  forall t x, nth_error ts t = Some x -> kinds_ok K t (tk_stack x).

Lemma kinds_go K t f f' l : kinds_ok K t (f :: l) -> kind f' = kind f -> kinds_ok K t (f' :: l).
Proof.
  unfold kinds_ok. destruct (t =? 0).
  - intros (k & H) E. exists k. cbn [map] in *. now rewrite E.
  - intros H E g [<-|Hg]. rewrite E. apply H. now left. apply H. now right.
Qed.
Lemma kinds_call K t g l : kinds_ok K t l -> kind g = None -> kinds_ok K t (g :: l).
Proof.
  unfold kinds_ok. destruct (t =? 0).
  - intros (k & H) E. exists (S k). cbn [map repeat app]. now rewrite E, H.
  - intros H E h [<-|Hg]; auto.
Qed.
Lemma kinds_pop K t f l : K <> None -> kinds_ok K t (f :: l) -> kind f = None -> kinds_ok K t l.
Proof.
  unfold kinds_ok. intros NK. destruct (t =? 0).
  - intros (k & H) E. cbn [map] in H. rewrite E in H. destruct k as [|k]; simpl in H. injection H as H. congruence.
    injection H as H. eauto.
  - intros H E g Hg. apply H. now right.
Qed.

Lemma access_kind K c r c1 k : req_kind K r -> access c r = ADone c1 k -> ctl_kind K k /\
  (forall t x1, nth_error (g_tasks c1) t = Some x1 ->
     (exists x, nth_error (g_tasks c) t = Some x /\ tk_stack x1 = tk_stack x) \/
     (t = length (g_tasks c) /\ exists prev s, tk_stack x1 = [FImp prev s ILook])).
Proof.
  intros R H. assert (SAME : forall t x1, nth_error (g_tasks c) t = Some x1 -> exists x, nth_error (g_tasks c) t = Some x /\ tk_stack x1 = tk_stack x) by eauto.
  destruct r; cbn [SearchModel.access req_kind] in *; try discriminate.
  - destruct (sm_get mhash (g_map c) s); [|discriminate]. injection H as <- <-. split; auto.
  - destruct (sm_set mhash (g_map c) s st); [|discriminate]. injection H as <- <-. split; auto.
  - destruct (sm_get_lock mhash (g_map c) s (g_next c)) as [[id|m]|]; try discriminate; injection H as <- <-; split; try apply R; auto.
  - destruct (sm_unlock mhash (g_map c) s); [|discriminate]. injection H as <- <-. split; auto.
  - destruct (existsb (Nat.eqb id) (g_sent c)); [|discriminate]. injection H as <- <-. split; auto.
  - destruct (nth_error (g_tasks c) t) as [y|]; [|discriminate]. destruct (tk_result y). injection H as <- <-. split; auto.
    destruct (tk_cancel y); [discriminate|]. injection H as <- <-. split; auto.
  - injection H as <- <-. split; auto. cbn [g_tasks]. intros t x1 N. destruct (Nat.lt_ge_cases t (length (g_tasks c))) as [L|L].
    + rewrite nth_error_app1 in N by auto. auto.
    + right. rewrite nth_error_app2 in N by auto. destruct (t - length (g_tasks c)) as [|d] eqn:D; [|destruct d; discriminate].
      cbn in N. injection N as <-. split. lia. cbn. eauto.
  - injection H as <- <-. split; auto. intros u x1 N. left. rewrite with_task_nth in N. destruct (u =? t).
    + destruct (nth_error (g_tasks c) u) as [x|]; [|discriminate]. cbn in N. injection N as <-. eauto.
    + destruct (nth_error (g_tasks c) u) as [x|]; [|discriminate]. eauto.
  - injection H as <- <-. split; auto. intros u x1 N. left. pose proof (cancel_all_core ts c) as E.
    assert (X : nth_error (cores (cancel_all ts c)) u = Some (core x1)) by now apply nth_cores. rewrite E in X. unfold cores in X.
    rewrite nth_error_map in X. destruct (nth_error (g_tasks c) u) as [x|]; [|discriminate]. exists x. split; auto.
    cbn in X. injection X. auto.
  - injection H as <- <-. split; auto.
Qed.

(* handles that are dropped belong to the frame *)
Lemma next_req_cancel order e np go done ts k : next_req order e np go done = RCancel ts k -> False.
Proof.
  destruct np as [[|id ids] finished nr block| |index [|id ids] block|ids block t]; cbn [next_req]; try discriminate.
  - destruct (nth_error (targets e) id) as [x|]; [|discriminate]. destruct (tg_run x); discriminate.
  - destruct (nth_error (targets e) id) as [x|]; [|discriminate]. destruct (tg_run x). destruct (index =? 0); discriminate.
    destruct (closed (tg_state x)); discriminate.
Qed.
Lemma add_edge_cancel e t k ts k' : add_edge_req e t k = RCancel ts k' -> False.
Proof. unfold add_edge_req. destruct (find_target t (targets e) 0); discriminate. Qed.
Lemma running_of_incl e id : incl (running_of e id) (all_running e).
Proof.
  intros t H. unfold running_of in H. destruct (nth_error (targets e) id) as [x|] eqn:N; [|destruct H].
  destruct (tg_run x) as [u|] eqn:E; [|destruct H]. destruct H as [<-|[]]. apply (In_running e x); auto. eapply nth_error_In; eauto.
Qed.
Lemma cancel_kids f ts k : frame_req f = RCancel ts k -> incl ts (kids f).
Proof.
  intros H. destruct f as [s lim pc|prev s pc|s pc]; cbn [SearchModel.frame_req] in H.
  - destruct pc; cbn [main_req] in H; try discriminate. destruct (closed st || _); discriminate.
  - destruct pc; cbn [imp_req] in H; try discriminate.
    + destruct (hi pst <? hi st); discriminate.
    + destruct (lo st <? lo pst); discriminate.
    + destruct todo as [|(i, j) todo]; [discriminate|]. destruct (apply_comparator s i j) as (t, ch). destruct ch; [|discriminate].
      destruct (canon chash t); [|discriminate]. now apply add_edge_cancel in H.
    + destruct (m <- list_min (map hi (edge_states e));; u8_succ m) as [ub|]; [|discriminate]. destruct (ub <? hi st); discriminate.
    + destruct (m <- list_min (map lo (edge_states e));; u8_succ m) as [ub|]; [|discriminate]. destruct (lo st <? ub); discriminate.
    + now apply next_req_cancel in H.
    + injection H as <- _. apply incl_refl.
  - destruct pc; cbn [huff_req] in H; try discriminate.
    + destruct todo as [|(pol, c) todo]; [discriminate|]. destruct (prune_canon chash s pol c); [|discriminate]. now apply add_edge_cancel in H.
    + destruct (lo st <? (if pol then uh1 else uh0)); [|discriminate].
      match type of H with context [match ?a with _ => _ end] => destruct a as [(lh, uh)|] end; [|discriminate].
      destruct (uh <=? lo st); [|discriminate]. unfold retain_edges in H. injection H as <- _.
      intros t Ht. apply in_flat_map in Ht. destruct Ht as (id & _ & Ht). apply (running_of_incl e id t Ht).
    + destruct (hlo st <? lh); [|discriminate]. destruct (lo st <? lh); discriminate.
    + destruct (Nat.max uh0 uh1 <? hhi st); discriminate.
    + now apply next_req_cancel in H.
    + injection H as <- _. apply incl_refl.
Qed.

Lemma kids_pos c f u : Inv c -> In f (frames (cores c)) -> In u (kids f) -> 0 < u.
Proof. intros I H Hu. apply (inv_kid _ _ c I). apply in_flat_map. eauto. Qed.

Lemma access_main c f c1 k : Inv c -> In f (frames (cores c)) -> access c (frame_req f) = ADone c1 k ->
  (exists x, nth_error (g_tasks c) 0 = Some x /\ tk_cancel x = false) -> exists x, nth_error (g_tasks c1) 0 = Some x /\ tk_cancel x = false.
Proof.
  intros I Hf H M. pose proof (cancel_kids f) as CK. destruct (frame_req f) as [s g|s st g|s got busy|s id g|id g|t g|prev s pend g|t g|ts g|g|]; cbn [SearchModel.access] in *; try discriminate.
  - destruct (sm_get mhash (g_map c) s); [|discriminate]. injection H as <- <-. auto.
  - destruct (sm_set mhash (g_map c) s st); [|discriminate]. injection H as <- <-. auto.
  - destruct (sm_get_lock mhash (g_map c) s (g_next c)) as [[id|m]|]; try discriminate; injection H as <- <-; auto.
  - destruct (sm_unlock mhash (g_map c) s); [|discriminate]. injection H as <- <-. auto.
  - destruct (existsb (Nat.eqb id) (g_sent c)); [|discriminate]. injection H as <- <-. auto.
  - destruct (nth_error (g_tasks c) t) as [y|]; [|discriminate]. destruct (tk_result y). injection H as <- <-. auto.
    destruct (tk_cancel y); [discriminate|]. injection H as <- <-. auto.
  - injection H as <- <-. destruct M as (x & N & Cx). exists x. split; auto. cbn [g_tasks]. rewrite nth_error_app1; auto. now apply nth_error_lt in N.
  - injection H as <- <-. destruct M as (x & N & Cx). rewrite with_task_nth, N. destruct (0 =? t); cbn; eauto.
  - injection H as <- <-. specialize (CK ts g eq_refl). rewrite cancel_all_nth; auto. intros H0. apply CK in H0. apply (kids_pos c f 0 I Hf) in H0. lia.
  - injection H as <- <-. auto.
Qed.

Lemma with_main K c t g ns : main_inv K (g_tasks c) -> (forall x, tk_cancel (g x) = tk_cancel x) -> (forall x, tk_stack (g x) = ns) -> kinds_ok K t ns ->
  main_inv K (g_tasks (with_task c t g)).
Proof.
  intros ((x0 & N0 & C0) & A) Hc Hs Hn. split.
  - rewrite with_task_nth, N0. destruct (0 =? t); cbn; [exists (g x0); rewrite Hc|exists x0]; auto.
  - intros u x N. rewrite with_task_nth in N. destruct (Nat.eqb_spec u t) as [->|Ne].
    + destruct (nth_error (g_tasks c) t) as [y|]; [|discriminate]. cbn in N. injection N as <-. now rewrite Hs.
    + destruct (nth_error (g_tasks c) u) as [y|] eqn:E; [|discriminate]. cbn in N. injection N as <-. auto.
Qed.

Lemma main_step K c c' : K <> None -> Inv c -> main_inv K (g_tasks c) -> sys_step c c' -> main_inv K (g_tasks c').
Proof.
  intros NK I M H. destruct H as [c t c' H|c t x N P|c t c' H].
  - unfold SearchModel.task_step in H. destruct (nth_error (g_tasks c) t) as [x|] eqn:N; [|discriminate]. destruct (negb (tk_sched x)); [discriminate|].
    destruct (tk_stack x) as [|f rest] eqn:E; [discriminate|].
    assert (Hf : In f (frames (cores c))). { apply (frames_nth c t x); auto. rewrite E. now left. }
    destruct (access c (frame_req f)) as [| |c1 k] eqn:Ea; try discriminate.
    pose proof M as (M0 & A). pose proof (A t x N) as Kt. rewrite E in Kt.
    destruct (access_kind (kind f) c (frame_req f) c1 k (frame_req_kind f) Ea) as (Ck & Fr).
    assert (M1 : main_inv K (g_tasks c1)).
    { split. apply (access_main c f c1 k); auto. intros u x1 N1. destruct (Fr u x1 N1) as [(y & Ny & ->)|(-> & prev & s & ->)]. apply (A u y Ny).
      unfold kinds_ok. destruct (Nat.eqb_spec (length (g_tasks c)) 0) as [Z|_]. apply nth_error_lt in N. lia.
      intros g [<-|[]]. auto. }
    destruct k as [f'|f' g|v|]; cbn [run_ctl ctl_kind] in *; try discriminate.
    + injection H as <-. apply (with_main K c1 t _ (f' :: rest)); auto. now apply (kinds_go K t f).
    + injection H as <-. destruct Ck as (C1 & C2). apply (with_main K c1 t _ (g :: f' :: rest)); auto. apply kinds_call; auto. now apply (kinds_go K t f).
    + pose proof (kinds_pop K t f rest NK Kt Ck) as Kr. destruct rest as [|f0 r].
      * injection H as <-. apply (with_main K c1 t _ []); auto.
      * destruct (resume f0 v) as [f'|] eqn:Er; [|discriminate]. injection H as <-. apply (with_main K c1 t _ (f' :: r)); auto.
        apply (kinds_go K t f0); auto. now apply (resume_kind f0 v).
  - destruct M as ((x0 & N0 & C0) & A). split.
    + rewrite with_task_nth, N0. destruct (0 =? t); cbn; eauto.
    + intros u y Ny. rewrite with_task_nth in Ny. destruct (nth_error (g_tasks c) u) as [z|] eqn:Ez; [|destruct (u =? t); discriminate].
      specialize (A u z Ez). destruct (u =? t); cbn in Ny; injection Ny as <-; auto.
  - unfold drop_frame in H. destruct (nth_error (g_tasks c) t) as [x|] eqn:N; [|discriminate]. destruct (negb (tk_cancel x)) eqn:Cx; [discriminate|].
    apply negb_false_iff in Cx. destruct (tk_stack x) as [|f rest] eqn:E; [discriminate|].
    assert (Hf : In f (frames (cores c))). { apply (frames_nth c t x); auto. rewrite E. now left. }
    destruct M as ((x0 & N0 & C0) & A). assert (t <> 0) by (intros ->; congruence).
    set (c0 := cancel_all (all_running (frame_edges f)) c) in *. set (c1 := with_task c0 t (set_stack rest)) in *.
    assert (M1 : main_inv K (g_tasks c1)).
    { apply (with_main K c0 t _ rest); auto.
      - split.
        + exists x0. split; auto. unfold c0. rewrite cancel_all_nth; auto. intros Z0. apply (kids_pos c f 0 I Hf) in Z0. lia.
        + intros u y Ny. assert (X : nth_error (cores c0) u = Some (core y)) by now apply nth_cores. unfold c0 in X. rewrite cancel_all_core in X.
          unfold cores in X. rewrite nth_error_map in X. destruct (nth_error (g_tasks c) u) as [z|] eqn:Ez; [|discriminate].
          cbn in X. injection X as _ _ Es _. rewrite <- Es. apply (A u z Ez).
      - specialize (A t x N). rewrite E in A. unfold kinds_ok in *. destruct (Nat.eqb_spec t 0); [congruence|]. intros g Hg. apply A. now right. }
    destruct (held f) as [(s, id)|]. 2:{ now injection H as <-. }
    destruct (sm_unlock mhash (g_map c1) s); [|discriminate]. injection H as <-. exact M1.
Qed.

Theorem run_main threads initial limit c : okset initial -> search_run threads initial limit c ->
  main_inv (Some (canon_of chash initial, limit)) (g_tasks c).
Proof.
  intros Ki H. induction H as [c H|c c' H IH Hs].
  - unfold search_start in H. rewrite (canon_canon_of chash initial Ki) in H. cbn in H. injection H as <-. cbn [g_tasks]. split.
    + eexists. split. reflexivity. auto.
    + intros [|t] x N; [|destruct t; discriminate]. cbn in N. injection N as <-. exists 0. auto.
  - apply (main_step _ c c'); auto. congruence. eapply run_inv; eauto.
Qed.

(* ---- no cycle of waiting tasks ---- *)
Lemma kid_goal c f u : Inv c -> In f (frames (cores c)) -> In u (kids f) -> small_frame f ->
  exists y, nth_error (g_tasks c) u = Some y /\ smaller (tk_set y) (fset f).
Proof.
  intros I Hf Hu S. pose proof (inv_frame_ok chash mhash c f I Hf) as F.
  apply running_In in Hu. destruct Hu as (x & Hx & Er).
  assert (EO : edges_ok mhash (g_map c) (goal_in (cores c)) (frame_edges f)).
  { clear - F. assert (Z : forall m g, edges_ok mhash m g no_edges). { intros. split; [intros x []|]. split. constructor. intros id []. }
    destruct f as [s lim pc|prev s pc|s pc]; cbn [frame_edges]; auto.
    - destruct F as (_ & F). destruct pc; auto; try apply F; unfold SearchInv.succ_edges in F; tauto.
    - destruct F as (_ & _ & F). destruct pc; auto; unfold SearchInv.huff_edges in F; tauto. }
  destruct EO as (T & _). destruct (T x Hx) as (_ & _ & _ & G). specialize (G u Er). unfold goal_in, cores in G. rewrite nth_error_map in G.
  destruct (nth_error (g_tasks c) u) as [y|]; [|discriminate]. cbn in G. injection G as _ Es. exists y. split; auto. rewrite Es. apply S.
  unfold sets. now apply in_map.
Qed.

Lemma NoDup_map_eq {A B} (f : A -> B) l : NoDup (map f l) -> forall x y, In x l -> In y l -> f x = f y -> x = y.
Proof.
  induction l as [|a l IH]; intros N x y Hx Hy E; [destruct Hx|]. cbn in N. apply NoDup_cons_iff in N. destruct N as (N1 & N2).
  destruct Hx as [->|Hx], Hy as [->|Hy]; auto.
  - exfalso. apply N1. rewrite E. now apply in_map.
  - exfalso. apply N1. rewrite <- E. now apply in_map.
Qed.

Lemma waits_rank c A B : Inv c -> all_frames small_frame c -> (exists K, main_inv K (g_tasks c)) -> waits_for c A B ->
  exists xa xb, nth_error (g_tasks c) A = Some xa /\ nth_error (g_tasks c) B = Some xb /\ rank_lt xb xa.
Proof.
  intros I SF (K & _ & Mn) (xa & fa & ra & xb & Na & Ea & Nb & Eb & H). exists xa, xb. split; auto. split; auto.
  assert (Ha : In fa (frames (cores c))). { apply (frames_nth c A xa); auto. rewrite Ea. now left. }
  destruct (tk_stack xb) as [|fb rb] eqn:Sb; [congruence|]. exists (fset fb), (fset fa).
  unfold top, is_waiting. rewrite Sb, Ea. split; auto. split; auto.
  destruct (inv_core _ _ c I _ (nth_error_In _ _ (nth_cores c B xb Nb))) as (_ & Stb & _). cbn [core c_stack c_root] in Stb. rewrite Sb in Stb.
  destruct (stack_order chash mhash _ _ _ _ _ Stb) as (O1 & O2).
  destruct H as [(s & prev & id & fb' & Ef & Hin & Hh)|Hk].
  - destruct (held fb') as [(s', id')|] eqn:Hd; [|discriminate]. injection Hh as ->. subst fa. cbn [fset waits].
    assert (Hb : In (s', id) (flat_map hl (frames (cores c)))).
    { apply in_flat_map. exists fb'. split. apply (frames_nth c B xb); auto. now rewrite Sb. unfold hl. rewrite Hd. now left. }
    assert (s' = s).
    { destruct (inv_lock _ _ c I) as (_ & Nd & _ & Fr & _). destruct (inv_wait _ _ c I (s, id)) as [H|H].
      - apply in_flat_map. exists (FImp prev s (IWait id)). split; auto. now left.
      - exfalso. apply (proj2 (Fr s' id Hb) H).
      - assert (X : (s', id) = (s, id)) by (apply (NoDup_map_eq snd _ Nd); auto). congruence. }
    subst s'. pose proof (held_fset _ _ _ Hd) as Hs. destruct Hin as [<-|Hin].
    + right. split; auto. split; [|auto]. destruct (waits fb) eqn:Wb; auto. rewrite (waits_held fb) in Hd by congruence. discriminate.
    + destruct (waits fb) as [|i wl] eqn:Wb.
      * destruct (O1 fb' Hin) as [L|L]; [left; now rewrite <- Hs|right]. split. congruence. auto.
      * left. apply (O2 ltac:(congruence) fb' s id); auto.
  - left. destruct (kid_goal c fa B I Ha Hk (SF fa Ha)) as (y & Ny & Sy). rewrite Nb in Ny. injection Ny as <-.
    assert (B <> 0). { pose proof (kids_pos c fa B I Ha Hk). lia. }
    assert (L : le_set (fset fb) (tk_set xb)).
    { apply (root_top chash mhash (g_map c) (goal_in (cores c)) (tk_prev xb, tk_set xb) fb rb); auto.
      intros s lim pc Hin. specialize (Mn B xb Nb). unfold kinds_ok in Mn. destruct (Nat.eqb_spec B 0); [congruence|].
      rewrite Sb in Mn. specialize (Mn _ Hin). discriminate. }
    destruct L as [L| ->]; auto. eapply smaller_trans; eauto.
Qed.
End Main.
