(* Every access of a frame that does not change the map spends some of the work of SearchCost, except
   going round in one of the waiting loops. *)
From Coq Require Import List Arith Bool Lia Permutation.
Import ListNotations.
From Verif Require Import Spec Vec Net Graded Bits Util CountProofs OutputSetModel OutputSetProofs PruneProofs PackProofs HuffmanModel HuffmanProofs CanonModel TreeModel StatesModel StatesProofs StatesBounds SearchModel SearchFacts SearchInv SearchEdges SearchStep SearchFrames SearchGlobal SearchRun SearchSafe SearchOrder SearchWaits SearchMain SearchClosed SearchSlack SearchGood SearchQuiet SearchReach SearchNext SearchHuff SearchReady SearchCost IndexProofs.

(* the steps of improve_next that spend nothing *)
Inductive nspin (order : option nat) : Edges -> NextPc -> Edges -> NextPc -> Prop :=
| ns_poll e id ids fin nr nr' b : nspin order e (NPoll (id :: ids) fin nr b) e (NPoll ids fin nr' b)
| ns_pend e e' nr b : targets e' = targets e -> active e' <> [] -> nspin order e (NPoll [] false nr b) e' NPend
| ns_sort e e' nr b : targets e' = targets e -> active e' <> [] ->
    nspin order e (NPoll [] false nr b) (sort_active order e') (NSpawn 0 (active (sort_active order e')) true)
| ns_resume e : nspin order e NPend (sort_active order e) (NSpawn 0 (active (sort_active order e)) true)
| ns_again e i b : nspin order e (NSpawn i [] b) e (NPoll (active e) false 0 b)
| ns_next e i id ids b : nspin order e (NSpawn i (id :: ids) b) e (NSpawn (S i) ids b).

Inductive spin : Frame -> Frame -> Prop :=
| sp_look prev s : spin (FImp prev s ILook) (FImp prev s ILock)
| sp_lock prev s id : spin (FImp prev s ILock) (FImp prev s (IWait id))
| sp_wait prev s id : spin (FImp prev s (IWait id)) (FImp prev s ILook)
| sp_imp prev s lk st e np e' np' : nspin (Some (lo st)) e np e' np' -> spin (FImp prev s (INext lk st e np)) (FImp prev s (INext lk st e' np'))
| sp_huff s st ids0 ids1 uh0 uh1 e np e' np' : nspin None e np e' np' ->
    spin (FHuff s (HNext st ids0 ids1 uh0 uh1 e np)) (FHuff s (HNext st ids0 ids1 uh0 uh1 e' np')).

Section Spend.
Variable cu : OutputSet -> State.
Variable res : nat -> option State.
Notation frame_cost := (frame_cost cu res).
Notation edges_cost := (edges_cost cu res).
Notation next_cost := (next_cost cu res).
Notation wait_cost := (wait_cost cu res).
Notation target_cost := (target_cost cu res).

(* more is the work of a task that is spawned *)
Definition ctl_spends (more : nat) (f : Frame) (k : Ctl) : Prop :=
  match k with
  | CGo f' => prev_of f' = prev_of f /\ (frame_cost f' + more < frame_cost f \/ more = 0 /\ frame_cost f' <= frame_cost f /\ spin f f')
  | CCall g h => prev_of g = prev_of f /\ frame_cost h + wait_cost (prev_of h) g + more < frame_cost f
  | CReturn v => more = 0 /\ forall q, prev_of f = Some q -> v <> q
  | CPanic => True
  end.
Definition req_spends (f : Frame) (r : Req) : Prop :=
  match r with
  | RGet s k => ctl_spends 0 f (k (cu s))
  | RSet s st k => True
  | RLock s got busy => (forall id, ctl_spends 0 f (got id)) /\ forall id, ctl_spends 0 f (busy id)
  | RUnlock s id k => ctl_spends 0 f k
  | RWait id k => ctl_spends 0 f k
  | RPoll u k => forall b, ctl_spends 0 f (k (res u) b)
  | RSpawn prev s pend k => forall u, res u = None -> ctl_spends (full s + 1) f (k u)
  | RSchedule u k => ctl_spends 0 f k
  | RCancel ts k => ctl_spends 0 f k
  | RTau k => ctl_spends 0 f k
  | RNone => True
  end.

Section Next.
Variable order : option nat.
Variable mk : Edges -> NextPc -> Frame.
Variable done : Edges -> Ctl.
Variable b : nat.
Hypothesis Hcost : forall e np, frame_cost (mk e np) = next_cost b e np.
Hypothesis Hprev : forall e np e' np', prev_of (mk e' np') = prev_of (mk e np).
Hypothesis Hspin : forall e np e' np', nspin order e np e' np' -> spin (mk e np) (mk e' np').
Hypothesis Hdone : forall e np e', edges_cost b e' + 30 < next_cost b e np -> ctl_spends 0 (mk e np) (done e').

Lemma go_spin e np e' np' : nspin order e np e' np' -> next_cost b e' np' <= next_cost b e np -> ctl_spends 0 (mk e np) (CGo (mk e' np')).
Proof. intros N L. cbn [ctl_spends]. split. apply Hprev. right. rewrite !Hcost. auto. Qed.
Lemma go_less more e np e' np' : next_cost b e' np' + more < next_cost b e np -> ctl_spends more (mk e np) (CGo (mk e' np')).
Proof. intros L. cbn [ctl_spends]. split. apply Hprev. left. now rewrite !Hcost. Qed.

Lemma next_spends mhash m goal e np : edges_ok mhash m goal e -> np_in e np -> (forall x, In x (targets e) -> full (tg_set x) + 1 <= b) ->
  req_spends (mk e np) (next_req order e np mk done).
Proof.
  intros (T & ND & A) N Hb. destruct np as [ids fin nr bl| |i ids bl|ids bl t]; cbn [next_req np_in] in *.
  - destruct ids as [|id ids].
    + cbn [req_spends]. destruct (retain_closed e) as [e'|] eqn:Er; [|exact Logic.I].
      destruct (closed_cost cu res b e e' Er) as (Ec & Eo & Et & Ea).
      destruct fin; cbn [orb]. apply Hdone. unfold SearchCost.next_cost. lia.
      destruct (active e') as [|a l] eqn:Eact.
      * apply Hdone. unfold SearchCost.next_cost. destruct (openb e) eqn:Eop; [|lia]. exfalso. apply openb_true in Eo.
        destruct Eo as (id & H & _). rewrite Eact in H. destruct H.
      * assert (NE : active e' <> []) by (rewrite Eact; discriminate).
        destruct (bl && _); apply go_spin; try (now constructor); unfold SearchCost.next_cost; rewrite ?edges_cost_sort, ?openb_sort, Eo; lia.
    + assert (Hi : In id (active e)) by (apply N; now left).
      destruct (nth_error (targets e) id) as [x|] eqn:Nx; [|exact Logic.I]. destruct (tg_run x) as [u|] eqn:Rx.
      * cbn [req_spends]. intros sc. destruct (res u) as [v|] eqn:Ru.
        -- apply go_less. rewrite Nat.add_0_r. unfold SearchCost.next_cost.
           pose proof (set_cost cu res b e id x (fun x => mkTarget (tg_set x) v (tg_len x) None) ND Hi Nx) as H.
           unfold SearchCost.target_cost at 1 2 in H. rewrite Rx in H. unfold busy_cost in H. rewrite Ru in H. cbn [tg_run tg_state tg_set] in H.
           destruct fin; [|destruct (openb e)]; lia.
        -- apply go_spin. constructor. unfold SearchCost.next_cost. destruct fin; lia.
      * cbn [req_spends]. apply go_spin. constructor. unfold SearchCost.next_cost. destruct fin; lia.
  - cbn [req_spends]. apply go_spin. constructor. unfold SearchCost.next_cost. rewrite edges_cost_sort, openb_sort. lia.
  - destruct ids as [|id ids]. { cbn [req_spends]. apply go_spin. constructor. unfold SearchCost.next_cost. lia. }
    assert (Hi : In id (active e)) by (apply N; now left).
    destruct (nth_error (targets e) id) as [x|] eqn:Nx; [|exact Logic.I]. destruct (tg_run x) as [u|] eqn:Rx.
    + destruct (i =? 0); cbn [req_spends]; apply go_spin; try constructor; unfold SearchCost.next_cost; lia.
    + destruct (closed (tg_state x)) eqn:Cx; [exact Logic.I|]. cbn [req_spends]. intros u Ru. apply go_less.
      pose proof (set_cost cu res b e id x (fun x => mkTarget (tg_set x) (tg_state x) (tg_len x) (Some u)) ND Hi Nx) as H.
      unfold SearchCost.target_cost at 1 2 in H. rewrite Rx in H. unfold busy_cost, idle_cost in H. cbn [tg_run tg_state tg_set] in H. rewrite Ru, Cx in H.
      unfold SearchCost.next_cost. pose proof (Hb x (nth_error_In _ _ Nx)) as Hx.
      destruct (i =? 0); rewrite (openb_run res); destruct (openb e), (fresh cu (tg_state x) (tg_set x)); lia.
  - cbn [req_spends]. apply go_less. unfold SearchCost.next_cost. destruct (openb e); lia.
Qed.
End Next.
End Spend.

Section Frames.
Variables chash mhash : list nat -> nat.
Notation cur := (cur mhash).
Notation map_inv := (map_inv chash mhash).
Notation frame_req := (frame_req chash).
Notation frame_ok := (frame_ok chash mhash).
Notation edges_ok := (edges_ok mhash).
Variable m : StateMap.
Variable goal : Goal.
Variable res : nat -> option State.
Hypothesis IM : map_inv m.
Hypothesis HB : hbounds mhash m.
Notation cu := (cur m).
Notation frame_cost := (frame_cost cu res).
Notation edges_cost := (edges_cost cu res).
Notation ctl_spends := (ctl_spends cu res).
Notation req_spends := (req_spends cu res).

Lemma add_spends s e t k f : edges_ok m goal e -> (forall e' id, edges_cost (room s) e' <= edges_cost (room s) e + (room s + 5) -> ctl_spends 0 f (k e' id)) ->
  req_spends f (add_edge_req e t k).
Proof.
  intros (_ & _ & A) H. unfold add_edge_req. destruct (find_target t (targets e) 0) as [id|]; cbn [SearchSpend.req_spends]. apply H. lia.
  destruct (push_target e t (cu t)) as (e', id) eqn:E. apply H. pose proof (push_cost cu res (room s) e t e' id A E). lia.
Qed.
Lemma targets_room s e : below s e -> edges_ok m goal e -> forall x, In x (targets e) -> full (tg_set x) + 1 <= room s.
Proof.
  intros B (T & _) x Hx. apply full_room. apply (T x Hx). apply B. unfold sets. now apply in_map.
Qed.
Lemma fresh_cur p : fresh cu (cu p) p = true.
Proof. apply state_eqb_eq. reflexivity. Qed.

Lemma frame_spends f : frame_ok m goal f -> cr_frame f -> small_frame f -> req_spends f (frame_req f).
Proof.
  intros F (Cv & S) B. unfold small_frame in B. destruct f as [s lim pc|prev s pc|s pc]; cbn [SearchModel.frame_req].
  - destruct pc; cbn [main_req SearchSpend.req_spends]; try exact Logic.I.
    + cbn [SearchSpend.ctl_spends SearchCost.frame_cost]. rewrite fresh_cur. split; auto. left. lia.
    + destruct (closed st || _).
      * cbn [SearchSpend.req_spends SearchSpend.ctl_spends SearchCost.frame_cost]. split; auto. left. destruct (fresh cu st s); lia.
      * cbn [SearchSpend.req_spends SearchSpend.ctl_spends SearchCost.frame_cost wait_cost prev_of]. split; auto. destruct (fresh cu st s); lia.
  - destruct F as (K & F). destruct S as (Sc & S). cbn [fset frame_edges] in B.
    assert (RET : forall v, closed v = true \/ v <> prev -> ctl_spends 0 (FImp prev s pc) (CReturn v)).
    { intros v H. split; auto. intros q Eq. injection Eq as <-. destruct H as [H|H]; auto. intros ->. congruence. }
    assert (L : forall pc', frame_cost (FImp prev s pc') < frame_cost (FImp prev s pc) -> ctl_spends 0 (FImp prev s pc) (CGo (FImp prev s pc'))).
    { intros pc' H. split; auto. left. lia. }
    destruct pc; cbn [imp_req]; try exact Logic.I.
    + cbn [SearchSpend.req_spends]. destruct (state_eqb (cu s) prev) eqn:Ee; cbn [negb].
      2: { apply RET. right. intros E. rewrite E, (proj2 (state_eqb_eq _ _) eq_refl) in Ee. discriminate. }
      destruct (closed (cu s)) eqn:Ec. apply RET. now left. split; auto. right. split; auto. split; auto. constructor.
    + cbn [SearchSpend.req_spends]. split; intros id. apply L. cbn. unfold full. lia. split; auto. right. split; auto. split; auto. constructor.
    + cbn [SearchSpend.req_spends]. split; auto. right. split; auto. split; auto. constructor.
    + cbn [SearchSpend.req_spends]. destruct (negb _). apply L; cbn; lia. destruct (closed (cu s)). apply L; cbn; lia.
      assert (AE : ctl_spends 0 (FImp prev s (ICheck lk)) (after_extremal prev s lk (cu s))).
      { unfold after_extremal. destruct (lo (cu s) <? hhi (cu s)).
        - cbn [SearchSpend.ctl_spends prev_of SearchCost.frame_cost wait_cost]. split; auto. lia.
        - apply L. cbn [SearchCost.frame_cost]. unfold SearchCost.edges_cost. cbn [active no_edges sumf fold_right].
          pose proof (pairs_length (channels s) (proj1 (proj2 K))). nia. }
      unfold after_check. destruct (extremal_channels s false) as [|c0 [|c1 l]], (extremal_channels s true) as [|d0 [|d1 l']]; auto;
        match goal with |- context [prune_canon ?a ?b ?c ?d] => destruct (prune_canon a b c d); [|exact Logic.I] end; apply L; cbn [SearchCost.frame_cost]; lia.
    + cbn [SearchSpend.req_spends]. apply L. cbn [SearchCost.frame_cost]. rewrite fresh_cur. lia.
    + destruct (hi pst <? hi st). exact Logic.I. apply L. cbn [SearchCost.frame_cost]. destruct (fresh cu pst p); lia.
    + destruct (lo st <? lo pst). exact Logic.I. cbn [SearchSpend.req_spends SearchSpend.ctl_spends prev_of SearchCost.frame_cost wait_cost]. split; auto.
      destruct F as (_ & Sg & _). assert (Kp : okset p).
      { destruct Sg as (pol & c & E & ->). eapply prunes_okset; eauto. unfold prunes. apply in_map. rewrite E. simpl. auto. }
      pose proof (full_room p s Kp (single_smaller chash s p K Sg)). destruct (fresh cu pst p); lia.
    + destruct F as (_ & EO & _). destruct todo as [|(i, j) todo]. apply L. cbn [SearchCost.frame_cost length]. lia.
      destruct (apply_comparator s i j) as (t, ch). destruct ch. 2: { apply L. cbn [SearchCost.frame_cost length]. lia. }
      destruct (canon chash t) as [t'|]; [|exact Logic.I]. apply (add_spends s e t' _ _); auto. intros e' id H. apply L. cbn [SearchCost.frame_cost length]. lia.
    + destruct (m0 <- list_min (map hi (edge_states e));; u8_succ m0) as [ub|]; [|exact Logic.I]. destruct (ub <? hi st). exact Logic.I. apply L. cbn [SearchCost.frame_cost]. lia.
    + destruct (m0 <- list_min (map lo (edge_states e));; u8_succ m0) as [lb|] eqn:El; [|exact Logic.I].
      destruct (Nat.ltb_spec (lo st) lb) as [H|H]; apply L; cbn [SearchCost.frame_cost]. lia.
      unfold next_start, SearchCost.next_cost. replace (openb e) with true; [lia|]. symmetry.
      destruct F as ((Wk & Ec & _ & Cl) & _). apply Nat.eqb_neq in Cl. pose proof (state_order chash mhash m s IM K) as O. rewrite Ec in O.
      destruct (list_min (map lo (edge_states e))) as [v|] eqn:Ev; [|discriminate]. cbv beta iota in El. unfold u8_succ in El.
      destruct (v + 1 <=? 255); [|discriminate]. injection El as <-.
      destruct (list_min_spec (map lo (edge_states e))) as (v' & Ev' & Iv & _). { intros E0. rewrite E0 in Ev. discriminate. }
      rewrite Ev in Ev'. injection Ev' as <-. unfold edge_states in Iv. rewrite map_map in Iv. apply in_map_iff in Iv. destruct Iv as (x & Ex & Hx).
      specialize (S x Hx). apply In_nth_error in Hx. destruct Hx as (id & Nx). apply openb_true. exists id. rewrite (target_at_nth e id x Nx).
      assert (Cx : closed (tg_state x) = false) by (apply Nat.eqb_neq; lia). split; auto.
      destruct (Cv id) as [|Y]; auto. apply in_seq. apply nth_error_lt in Nx. lia. rewrite (target_at_nth e id x Nx), Cx in Y. discriminate.
    + cbn [SearchSpend.req_spends]. apply L. cbn [SearchCost.frame_cost]. lia.
    + destruct F as (_ & (EO & _) & _). cbn [ready_frame] in S.
      apply (next_spends cu res (Some (lo st)) (fun e' np' => FImp prev s (INext lk st e' np')) (fun e' => CGo (FImp prev s (IUpper lk st e'))) (room s)) with (mhash := mhash) (m := m) (goal := goal); auto.
      * intros; now constructor.
      * intros e0 np0 e' H. split; auto. left. cbn [SearchCost.frame_cost]. lia.
      * now apply targets_room.
    + cbn [SearchSpend.req_spends]. apply L. cbn [SearchCost.frame_cost]. lia.
    + cbn [SearchSpend.req_spends]. destruct F as (_ & _ & F). apply RET. auto.
  - destruct F as (K & Wk & F). cbn [fset frame_edges] in B.
    assert (L : forall pc', frame_cost (FHuff s pc') < frame_cost (FHuff s pc) -> ctl_spends 0 (FHuff s pc) (CGo (FHuff s pc'))).
    { intros pc' H. split; auto. left. lia. }
    assert (HW : forall pc0 st ids0 ids1 uh0 uh1 e, edges_cost (room s) e + 30 < frame_cost (FHuff s pc0) -> ctl_spends 0 (FHuff s pc0) (huff_while s st ids0 ids1 uh0 uh1 e)).
    { intros pc0 st ids0 ids1 uh0 uh1 e H. unfold huff_while. destruct (lo st <? hhi st); (split; [auto|left]); cbn [SearchCost.frame_cost] in *; lia. }
    destruct pc; cbn [huff_req]; try exact Logic.I.
    + cbn [SearchSpend.req_spends]. destruct (hhi _ <=? lo _). split; [auto|intros q Eq; discriminate]. apply L. cbn [SearchCost.frame_cost].
      rewrite app_length, !map_length. unfold SearchCost.edges_cost. cbn [active no_edges sumf fold_right].
      pose proof (extremal_length s false). pose proof (extremal_length s true). pose proof (proj1 (proj2 K)). nia.
    + destruct F as (_ & EO & _). destruct todo as [|(pol, c) todo]. apply HW. cbn [SearchCost.frame_cost length]. lia.
      destruct (prune_canon chash s pol c) as [t|]; [|exact Logic.I].
      apply (add_spends s e t _ _); auto. intros e' id H. destruct pol; apply L; cbn [SearchCost.frame_cost length]; lia.
    + assert (HA : ctl_spends 0 (FHuff s (HPol st ids0 ids1 uh0 uh1 e pol)) (huff_after s st ids0 ids1 uh0 uh1 e pol)).
      { unfold huff_after. destruct pol; apply L; cbn [SearchCost.frame_cost]; lia. }
      destruct (lo st <? (if pol then uh1 else uh0)); [|exact HA].
      match goal with |- context [match ?a with _ => _ end] => destruct a as [(lh, uh)|] end; [|exact Logic.I].
      destruct (uh <=? lo st).
      * destruct (retain_edges _ e) as (e', dr) eqn:Er. pose proof (retain_cost cu res (room s) _ e e' dr Er). apply L. cbn [SearchCost.frame_cost]. destruct pol; lia.
      * apply L. cbn [SearchCost.frame_cost]. destruct pol; lia.
    + destruct (hlo st <? lh). destruct (lo st <? lh); exact Logic.I. unfold huff_after. destruct pol; apply L; cbn [SearchCost.frame_cost]; lia.
    + destruct (Nat.ltb_spec (Nat.max uh0 uh1) (hhi st)) as [H|H]. exact Logic.I. apply L. cbn [SearchCost.frame_cost].
      unfold next_start, SearchCost.next_cost. replace (openb e) with true; [lia|]. symmetry. cbn in S. destruct S as (S & S0 & S1).
      destruct F as (Ec & _). destruct (HB s K) as (HB1 & _). rewrite Ec in HB1.
      assert (O : exists ids, open_on e ids).
      { destruct (Nat.lt_ge_cases (lo st) uh0) as [H0|H0]. destruct (S0 H0) as [O|O]; [eauto|lia].
        destruct (Nat.lt_ge_cases (lo st) uh1) as [H1|H1]. destruct (S1 H1) as [O|O]; [eauto|lia]. lia. }
      destruct O as (ids & id & _ & Ha & Hc). apply openb_true. eauto.
    + destruct F as ((_ & EO & _) & _). cbn [ready_frame] in S.
      apply (next_spends cu res None (fun e' np' => FHuff s (HNext st ids0 ids1 uh0 uh1 e' np')) (fun e' => huff_while s st ids0 ids1 uh0 uh1 e') (room s)) with (mhash := mhash) (m := m) (goal := goal); auto.
      * intros; now constructor.
      * now apply targets_room.
    + cbn [SearchSpend.req_spends]. split; auto. intros q Eq. discriminate.
Qed.
End Frames.
