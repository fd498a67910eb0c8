(* What tasks wait for: sets below the sets they hold, in the order of SearchOrder. *)
From Coq Require Import List Arith Bool Lia Permutation Relations.
Import ListNotations.
From Verif Require Import Spec Vec Net Graded Bits Util OutputSetModel OutputSetProofs PruneProofs PackProofs HuffmanModel HuffmanProofs CanonModel TreeModel StatesModel StatesProofs StatesBounds SearchModel SearchFacts SearchInv SearchEdges SearchStep SearchFrames SearchGlobal SearchRun SearchSafe SearchOrder.

Section Waits.
Variables chash mhash : list nat -> nat.
Notation Inv := (Inv chash mhash).
Notation frame_req := (frame_req chash).
Notation frame_ok := (frame_ok chash mhash).
Notation stack_ok := (stack_ok chash mhash).
Notation access := (access mhash).
Notation task_step := (task_step chash mhash).
Notation sys_step := (sys_step chash mhash).
Notation search_run := (search_run chash mhash).

(* ---- invariants that concern single frames ---- *)
Section Local.
Variable Q : Frame -> Prop.
Definition ctl_all (k : Ctl) : Prop := match k with CGo f => Q f | CCall f g => Q f /\ Q g | _ => True end.
Definition req_all (r : Req) : Prop :=
  match r with
  | RGet s k => forall st, ctl_all (k st)
  | RSet s st k => ctl_all k
  | RLock s got busy => (forall id, ctl_all (got id)) /\ forall id, ctl_all (busy id)
  | RUnlock s id k => ctl_all k
  | RWait id k => ctl_all k
  | RPoll u k => forall v b, ctl_all (k v b)
  | RSpawn prev s pend k => Q (FImp prev s ILook) /\ forall u, ctl_all (k u)
  | RSchedule u k => ctl_all k
  | RCancel ts k => ctl_all k
  | RTau k => ctl_all k
  | RNone => True
  end.
Definition all_frames (c : Config) : Prop := forall f, In f (frames (cores c)) -> Q f.
Hypothesis Q_req : forall m goal f, map_inv chash mhash m -> frame_ok m goal f -> Q f -> req_all (frame_req f).
Hypothesis Q_resume : forall f v f', resume f v = Some f' -> Q f -> Q f'.

Lemma frames_nth c t x f : nth_error (g_tasks c) t = Some x -> In f (tk_stack x) -> In f (frames (cores c)).
Proof.
  intros N H. unfold frames. apply in_flat_map. exists (core x). split; auto. apply nth_cores in N. eapply nth_error_In; eauto.
Qed.
Lemma frames_In c f : In f (frames (cores c)) -> exists t x, nth_error (g_tasks c) t = Some x /\ In f (tk_stack x).
Proof.
  unfold frames, cores. intros H. apply in_flat_map in H. destruct H as (y & Hy & H). apply in_map_iff in Hy. destruct Hy as (x & <- & Hx).
  apply In_nth_error in Hx. destruct Hx as (t & Hx). exists t, x. auto.
Qed.
Lemma inv_frame_ok c f : Inv c -> In f (frames (cores c)) -> frame_ok (g_map c) (goal_in (cores c)) f.
Proof.
  intros I H. unfold frames in H. apply in_flat_map in H. destruct H as (x & Hx & H).
  destruct (inv_core _ _ c I x Hx) as (_ & S & _). eapply stack_frame_ok; eauto.
Qed.

Lemma access_all c r c1 k : req_all r -> access c r = ADone c1 k -> ctl_all k /\
  (forall f, In f (frames (cores c1)) -> In f (frames (cores c)) \/ Q f).
Proof.
  intros R H. destruct r; cbn [SearchModel.access req_all] in *; try discriminate.
  all: try (injection H as <- <-; split; [solve [apply R|auto]|auto]; fail).
  - destruct (sm_get mhash (g_map c) s); [|discriminate]. injection H as <- <-. split; auto.
  - destruct (sm_set mhash (g_map c) s st); [|discriminate]. injection H as <- <-. split; auto.
  - destruct (sm_get_lock mhash (g_map c) s (g_next c)) as [[id|m]|]; try discriminate; injection H as <- <-; split; try apply R; auto.
  - destruct (sm_unlock mhash (g_map c) s); [|discriminate]. injection H as <- <-. split; auto.
  - destruct (existsb (Nat.eqb id) (g_sent c)); [|discriminate]. injection H as <- <-. split; auto.
  - destruct (nth_error (g_tasks c) t) as [y|]; [|discriminate]. destruct (tk_result y). injection H as <- <-. split; auto.
    destruct (tk_cancel y); [discriminate|]. injection H as <- <-. split; auto.
  - injection H as <- <-. destruct R as (R1 & R2). split; auto. intros f. unfold cores, frames. cbn [g_tasks]. rewrite map_app, flat_map_app, in_app_iff.
    intros [Hf|Hf]; auto. simpl in Hf. destruct Hf as [<-|[]]. auto.
  - injection H as <- <-. split; auto. intros f. rewrite (with_task_core c t set_sched) by auto. auto.
  - injection H as <- <-. split; auto. intros f. rewrite cancel_all_core. auto.
Qed.

Lemma set_frames c t g f : In f (frames (cores (with_task c t g))) -> In f (frames (cores c)) \/
  exists x, nth_error (g_tasks c) t = Some x /\ In f (tk_stack (g x)).
Proof.
  intros H. apply frames_In in H. destruct H as (u & y & N & H). rewrite with_task_nth in N.
  destruct (Nat.eqb_spec u t) as [->|Ne].
  - destruct (nth_error (g_tasks c) t) as [x|] eqn:E; [|discriminate]. cbn in N. injection N as <-. right. eauto.
  - left. destruct (nth_error (g_tasks c) u) eqn:E; [|discriminate]. cbn in N. injection N as <-. eapply frames_nth; eauto.
Qed.

Lemma step_all c c' : Inv c -> all_frames c -> sys_step c c' -> all_frames c'.
Proof.
  intros I A H. destruct H as [c t c' H|c t x N P|c t c' H].
  - unfold SearchModel.task_step in H. destruct (nth_error (g_tasks c) t) as [x|] eqn:N; [|discriminate]. destruct (negb (tk_sched x)); [discriminate|].
    destruct (tk_stack x) as [|f rest] eqn:E; [discriminate|].
    assert (IF : forall g, In g (f :: rest) -> In g (frames (cores c))). { intros g Hg. apply (frames_nth c t x); auto. now rewrite E. }
    destruct (access c (frame_req f)) as [| |c1 k] eqn:Ea; try discriminate.
    destruct (access_all c (frame_req f) c1 k) as (K & F); auto.
    { apply (Q_req (g_map c) (goal_in (cores c))). apply I. apply inv_frame_ok; auto. apply IF. now left. apply A, IF. now left. }
    assert (F' : all_frames c1). { intros g Hg. destruct (F g Hg); auto. }
    destruct k as [f'|f' g|v|]; cbn [run_ctl ctl_all] in *; try discriminate.
    + injection H as <-. intros h Hh. apply set_frames in Hh. destruct Hh as [Hh|(y & _ & Hh)]; auto. cbn in Hh.
      destruct Hh as [<-|Hh]; auto. apply A, IF. now right.
    + injection H as <-. intros h Hh. apply set_frames in Hh. destruct Hh as [Hh|(y & _ & Hh)]; auto. cbn in Hh.
      destruct Hh as [<-|[<-|Hh]]; try apply K. apply A, IF. now right.
    + destruct rest as [|f0 r].
      * injection H as <-. intros h Hh. apply set_frames in Hh. destruct Hh as [Hh|(y & _ & Hh)]; auto. destruct Hh.
      * destruct (resume f0 v) as [f'|] eqn:Er; [|discriminate]. injection H as <-. intros h Hh. apply set_frames in Hh.
        destruct Hh as [Hh|(y & _ & Hh)]; auto. cbn in Hh. destruct Hh as [<-|Hh].
        -- apply (Q_resume f0 v); auto. apply A, IF. simpl. auto.
        -- apply A, IF. simpl. auto.
  - intros f Hf. rewrite (with_task_core c t set_sched) in Hf by auto. auto.
  - unfold drop_frame in H. destruct (nth_error (g_tasks c) t) as [x|] eqn:N; [|discriminate]. destruct (negb (tk_cancel x)); [discriminate|].
    destruct (tk_stack x) as [|f rest] eqn:E; [discriminate|].
    set (c0 := cancel_all (all_running (frame_edges f)) c) in *. set (c1 := with_task c0 t (set_stack rest)) in *.
    assert (A1 : all_frames c1).
    { intros g Hg. apply set_frames in Hg. destruct Hg as [Hg|(y & _ & Hg)]. unfold c0 in Hg. rewrite cancel_all_core in Hg. auto.
      cbn in Hg. apply A. apply (frames_nth c t x); auto. rewrite E. now right. }
    destruct (held f) as [(s, id)|]. 2:{ now injection H as <-. }
    destruct (sm_unlock mhash (g_map c1) s); [|discriminate]. injection H as <-. exact A1.
Qed.
End Local.

(* ---- the edges of a frame lead to smaller sets ---- *)
Definition fset (f : Frame) : OutputSet := match f with FMain s _ _ => s | FImp _ s _ => s | FHuff s _ => s end.
Definition below (s : OutputSet) (e : Edges) : Prop := forall t, In t (sets e) -> smaller t s.
Definition small_frame (f : Frame) : Prop := below (fset f) (frame_edges f).

Lemma succs_smaller s t : okset s -> In t (succs chash s) -> smaller t s.
Proof.
  intros K H. destruct (succs_spec chash s t K H) as (Kt & Ct & c & Hc & Nr & inv & p & P & Iso).
  apply (successor_smaller s t c inv p); auto. apply K. apply Kt.
Qed.
Lemma prunes_smaller s pol t : okset s -> In t (prunes chash s pol) -> smaller t s.
Proof. intros K H. destruct (prunes_okset chash s pol t K H) as (_ & C). left. lia. Qed.

Lemma below_same s e e' : sets e' = sets e -> below s e -> below s e'.
Proof. unfold below. intros ->. auto. Qed.
Lemma below_targets s e e' : targets e' = targets e -> below s e -> below s e'.
Proof. intros H. apply below_same. unfold sets. now rewrite H. Qed.
Lemma below_none s : below s no_edges.
Proof. intros t []. Qed.
Lemma below_push s e t st e' id : smaller t s -> below s e -> push_target e t st = (e', id) -> below s e'.
Proof.
  intros H B E. unfold push_target in E. injection E as <- _. intros x Hx. unfold sets in Hx. cbn [targets] in Hx.
  rewrite map_app, in_app_iff in Hx. destruct Hx as [Hx|[<-|[]]]; auto.
Qed.

Lemma next_req_small s order e np go done : below s e ->
  (forall e' np', below s e' -> small_frame (go e' np')) -> (forall e', below s e' -> ctl_all small_frame (done e')) ->
  req_all small_frame (next_req order e np go done).
Proof.
  intros B G D. assert (SA : forall o e', below s e' -> below s (sort_active o e')). { intros o e'. now apply below_targets. }
  destruct np as [ids finished nr block| |index ids block|ids block t]; cbn [next_req].
  - destruct ids as [|id ids].
    + cbn [req_all]. unfold retain_closed. destruct (forallb _ _); [|exact Logic.I].
      set (e' := mkEdges _ _). assert (B' : below s e') by (now apply (below_targets s e)).
      destruct (finished || _); auto. destruct (block && _); apply G; auto.
    + destruct (nth_error (targets e) id) as [x|]; [|exact Logic.I]. destruct (tg_run x); cbn [req_all]; [|apply G; auto].
      intros [v|] b; apply G; auto. apply (below_same s e); auto. now apply set_target_sets.
  - apply G. auto.
  - destruct ids as [|id ids]. apply G; auto. destruct (nth_error (targets e) id) as [x|] eqn:Nx; [|exact Logic.I]. destruct (tg_run x).
    + destruct (index =? 0); apply G; auto.
    + destruct (closed (tg_state x)); [exact Logic.I|]. cbn [req_all]. split. apply below_none. intros u.
      apply G. apply (below_same s e); auto. now apply set_target_sets.
  - apply G; auto.
Qed.

Lemma add_edge_small s e t k : below s e -> smaller t s -> (forall e' id, below s e' -> ctl_all small_frame (k e' id)) ->
  req_all small_frame (add_edge_req e t k).
Proof.
  intros B T H. unfold add_edge_req. destruct (find_target t (targets e) 0); cbn [req_all]; auto. intros st.
  destruct (push_target e t st) as (e', id) eqn:E. apply H. eapply below_push; eauto.
Qed.

Lemma after_check_small prev s lk st : ctl_all small_frame (after_check chash prev s lk st).
Proof.
  assert (AE : ctl_all small_frame (after_extremal prev s lk st)).
  { unfold after_extremal. destruct (lo st <? hhi st); cbn; [split|]; apply below_none. }
  unfold after_check. destruct (extremal_channels s false) as [|c0 [|c1 l]], (extremal_channels s true) as [|d0 [|d1 l']]; auto;
    match goal with |- context [prune_canon ?a ?b ?c ?d] => destruct (prune_canon a b c d); [apply below_none|exact Logic.I] end.
Qed.

Lemma small_req m goal f : map_inv chash mhash m -> frame_ok m goal f -> small_frame f -> req_all small_frame (frame_req f).
Proof.
  intros IM F S. destruct f as [s lim pc|prev s pc|s pc]; cbn [SearchModel.frame_req].
  - destruct pc; cbn [main_req req_all]; try exact Logic.I; intros; try apply below_none. destruct (closed st || _); cbn; [|split]; apply below_none.
  - assert (N : forall pc', frame_edges (FImp prev s pc') = no_edges -> small_frame (FImp prev s pc')).
    { intros pc' E. unfold small_frame. rewrite E. apply below_none. }
    destruct F as (K & F).
    destruct pc; cbn [imp_req]; try exact Logic.I.
    + cbn [req_all]. intros st. destruct (negb _); [exact Logic.I|]. destruct (closed st); [exact Logic.I|]. now apply N.
    + cbn [req_all]. split; intros; now apply N.
    + cbn [req_all ctl_all]. now apply N.
    + cbn [req_all]. intros st. destruct (negb _). now apply N. destruct (closed st). now apply N. apply after_check_small.
    + cbn [req_all]. intros. now apply N.
    + destruct (hi pst <? hi st); cbn [req_all ctl_all]; [destruct (closed _)|]; now apply N.
    + destruct (lo st <? lo pst); cbn [req_all ctl_all]; [|split]; apply below_none.
    + destruct todo as [|(i, j) todo]; [exact S|]. destruct (apply_comparator s i j) as (t, ch) eqn:Ea. destruct ch; [|exact S].
      destruct (canon chash t) as [t'|] eqn:Et; [|exact Logic.I]. apply (add_edge_small s).
      * exact S.
      * apply succs_smaller; auto. destruct F as (_ & _ & done & Ep & _). unfold succs. apply in_flat_map. exists (i, j).
        split. rewrite Ep. apply in_app_iff. right. now left. unfold succ1. cbn [fst snd]. rewrite Ea. left. unfold canon_of. now rewrite Et.
      * intros e' id B. exact B.
    + destruct (m0 <- list_min (map hi (edge_states e));; u8_succ m0) as [ub|]; [|exact Logic.I].
      destruct (ub <? hi st); cbn [req_all]; [destruct (closed _)|]; exact S.
    + destruct (m0 <- list_min (map lo (edge_states e));; u8_succ m0) as [ub|]; [|exact Logic.I].
      destruct (lo st <? ub); cbn [req_all]; exact S.
    + cbn [req_all]. intros st'. exact S.
    + exact S.
    + apply (next_req_small s). exact S. intros e' np' B. exact B. intros e' B. exact B.
    + cbn [req_all]. now apply N.
  - destruct F as (K & Wk & F).
    assert (HW : forall st ids0 ids1 uh0 uh1 e, below s e -> ctl_all small_frame (huff_while s st ids0 ids1 uh0 uh1 e)).
    { intros st ids0 ids1 uh0 uh1 e B. unfold huff_while. destruct (lo st <? hhi st); exact B. }
    assert (HA : forall st ids0 ids1 uh0 uh1 e pol, below s e -> ctl_all small_frame (huff_after s st ids0 ids1 uh0 uh1 e pol)).
    { intros st ids0 ids1 uh0 uh1 e pol B. unfold huff_after. destruct pol; exact B. }
    destruct pc; cbn [huff_req]; try exact Logic.I.
    + cbn [req_all]. intros st. destruct (hhi st <=? lo st). exact Logic.I. apply below_none.
    + destruct todo as [|(pol, c) todo]; [apply HW, S|]. destruct (prune_canon chash s pol c) as [t|] eqn:Et; [|exact Logic.I].
      apply (add_edge_small s).
      * exact S.
      * apply (prunes_smaller s pol); auto. unfold prunes. apply in_map_iff. exists c. split. unfold prune_of. now rewrite Et.
        destruct F as (_ & _ & d0 & r0 & d1 & r1 & E0 & E1 & Et' & _).
        assert (X : In (pol, c) (map (pair false) r0 ++ map (pair true) r1)) by (rewrite <- Et'; now left).
        apply in_app_iff in X. destruct X as [X|X]; apply in_map_iff in X; destruct X as (c' & Ec & X); injection Ec as <- <-.
        rewrite E0. apply in_app_iff. auto. rewrite E1. apply in_app_iff. auto.
      * intros e' id B. destruct pol; exact B.
    + destruct (lo st <? (if pol then uh1 else uh0)); [|apply HA, S].
      match goal with |- context [match ?a with _ => _ end] => destruct a as [(lh, uh)|] end; [|exact Logic.I].
      destruct (uh <=? lo st); [|exact S]. destruct (retain_edges _ e) as (e', dr) eqn:Er. cbn [req_all ctl_all].
      unfold retain_edges in Er. injection Er as <- _. unfold small_frame. cbn [frame_edges fset].
      match goal with |- context [fold_left ?a ?b ?c] => change (fold_left a b c) with (stops b c) end.
      intros t Ht. rewrite stops_sets in Ht. apply S, Ht.
    + destruct (hlo st <? lh); [|apply HA, S]. destruct (lo st <? lh); [exact S|apply HA, S].
    + destruct (Nat.max uh0 uh1 <? hhi st); exact S.
    + apply (next_req_small s). exact S. intros e' np' B. exact B. intros e' B. apply HW, B.
Qed.

Lemma small_resume f v f' : resume f v = Some f' -> small_frame f -> small_frame f'.
Proof.
  destruct f as [s lim pc|prev s pc|s pc]; try discriminate; destruct pc; try discriminate; cbn [resume].
  - intros H _. injection H as <-. apply below_none.
  - intros H _. injection H as <-. apply below_none.
  - destruct (lo st <? lo v); intros H _; injection H as <-; apply below_none.
Qed.

Lemma run_small threads initial limit c : okset initial -> search_run threads initial limit c -> all_frames small_frame c.
Proof.
  intros K H. induction H as [c H|c c' H IH Hs].
  - unfold search_start in H. destruct (canon chash initial) as [i|]; [|discriminate]. cbn in H. injection H as <-.
    intros f Hf. cbn in Hf. destruct Hf as [<-|[]]. apply below_none.
  - apply (step_all small_frame small_req small_resume c c'); auto. eapply run_inv; eauto.
Qed.

(* ---- waiting ---- *)
(* task A waits for task B: A waits for a lock that B holds, or A has B as a running improvement of one
   of its edges (and B is not finished) *)
Definition waits_for (c : Config) (A B : nat) : Prop :=
  exists xa fa ra xb, nth_error (g_tasks c) A = Some xa /\ tk_stack xa = fa :: ra /\
    nth_error (g_tasks c) B = Some xb /\ tk_stack xb <> [] /\
    ((exists s prev id fb, fa = FImp prev s (IWait id) /\ In fb (tk_stack xb) /\ option_map snd (held fb) = Some id) \/
     In B (all_running (frame_edges fa))).

(* every frame of a stack works on a set that is at least as small as those below; a frame that waits
   for a lock is above frames that hold strictly larger sets *)
Definition le_set (t s : OutputSet) : Prop := smaller t s \/ t = s.
Lemma le_trans a b c : le_set a b -> le_set b c -> le_set a c.
Proof. unfold le_set. intros [H| ->]; auto. intros [H'| <-]; auto. left. eapply smaller_trans; eauto. Qed.

Lemma single_smaller s p : okset s -> single chash s p -> smaller p s.
Proof.
  intros K (pol & c & E & ->). apply (prunes_smaller s pol); auto. unfold prunes. apply in_map. rewrite E. now left.
Qed.

Lemma stack_order m goal root f l : stack_ok m goal root (f :: l) ->
  (forall g, In g l -> le_set (fset f) (fset g)) /\ (waits f <> [] -> forall g s id, In g l -> held g = Some (s, id) -> smaller (fset f) s).
Proof.
  revert f. induction l as [|g l IH]; intros f S.
  - split. intros g []. intros _ g s id [].
  - destruct S as (Ff & Fi & S). pose proof S as (Fg & _). destruct (IH g S) as (I1 & I2). cbn [hd_error] in Fi.
    assert (X : (fset f = fset g /\ (held g = None \/ waits f = []) /\ (held g = None -> l = [])) \/ smaller (fset f) (fset g)).
    { destruct g as [s lim pc|prev s pc|s pc], f as [s' lim' pc'|prev' s' pc'|s' pc']; cbn [fits] in Fi; try (destruct pc; tauto).
      - destruct pc; try tauto. left. cbn [fset held]. split; auto. split; auto. intros _. destruct S as (_ & Fi' & _).
        destruct l as [|h l]; auto. cbn in Fi'. destruct h as [a b pc1|a b pc1|a pc1]; try tauto; destruct pc1; tauto.
      - destruct pc; try tauto. right. cbn [fset]. subst s'. destruct Fg as (K & _ & Sg). now apply single_smaller.
      - destruct pc; try tauto. left. cbn [fset held]. destruct Fi as (-> & _). split; auto. split; auto. discriminate. }
    destruct X as [(E & Hh & Hl)|X].
    + split.
      * intros h [<-|Hh']; [right; auto|]. rewrite E. auto.
      * intros Wf h s id [<-|Hh'] Hd. destruct Hh; congruence. destruct Hh as [Hh|Hh]; [|congruence]. rewrite (Hl Hh) in Hh'. destruct Hh'.
    + split.
      * intros h [<-|Hh']; [left; auto|]. apply (le_trans _ (fset g)). now left. auto.
      * intros _ h s id Hh' Hd. assert (Eh : fset h = s). { destruct h as [|? ? pc|]; try discriminate; destruct pc; try discriminate; cbn in Hd; injection Hd as <- _; auto. }
        destruct Hh' as [<-|Hh']. now rewrite <- Eh. destruct (I1 h Hh') as [Y|Y]; rewrite <- Eh. eapply smaller_trans; eauto. now rewrite <- Y.
Qed.

(* the rank of a task *)
Definition top (x : Task) : option OutputSet := option_map fset (hd_error (tk_stack x)).
Definition is_waiting (x : Task) : bool := match tk_stack x with f :: _ => match waits f with [] => false | _ => true end | [] => false end.
Definition rank_lt (y x : Task) : Prop :=
  exists t s, top y = Some t /\ top x = Some s /\ (smaller t s \/ t = s /\ is_waiting y = false /\ is_waiting x = true).

Lemma rank_trans a b c : rank_lt a b -> rank_lt b c -> rank_lt a c.
Proof.
  intros (t & s & A & B & H) (s' & u & C & D & H'). rewrite B in C. injection C as <-. exists t, u. split; auto. split; auto.
  destruct H as [H|(-> & H1 & H2)], H' as [H'|(<- & H3 & H4)]; auto; try congruence. left. eapply smaller_trans; eauto.
Qed.
Lemma rank_irrefl a : ~ rank_lt a a.
Proof.
  intros (t & s & A & B & H). rewrite A in B. injection B as ->. destruct H as [H|(_ & H1 & H2)]. apply (smaller_irrefl _ H). congruence.
Qed.

Lemma held_fset f s id : held f = Some (s, id) -> fset f = s.
Proof. destruct f as [|? ? pc|]; try discriminate; destruct pc; try discriminate; cbn; intros H; now injection H. Qed.
Lemma waits_held f : waits f <> [] -> held f = None.
Proof. destruct f as [|? ? pc|]; auto; destruct pc; auto; cbn; congruence. Qed.

(* the root of a task is the set of its bottom frame; its top frame works on a smaller or equal set *)
Lemma root_top m goal root f l : stack_ok m goal root (f :: l) -> (forall s lim pc, ~ In (FMain s lim pc) (f :: l)) -> le_set (fset f) (snd root).
Proof.
  intros S NM. destruct (stack_order _ _ _ _ _ S) as (O & _). revert f S NM O. induction l as [|g l IH]; intros f S NM O.
  - destruct S as (_ & Fi & _). destruct f as [s lim pc|prev s pc|s pc]; cbn in Fi.
    + exfalso. apply (NM s lim pc). now left.
    + right. now rewrite Fi.
    + destruct Fi.
  - apply (le_trans _ (fset g)). apply O. now left. destruct S as (_ & _ & S). apply IH; auto.
    + intros s lim pc H. apply (NM s lim pc). now right.
    + now destruct (stack_order _ _ _ _ _ S).
Qed.
End Waits.
