(* How much a task can do before the map changes: an amount of work that no step increases unless it
   changes the map, and that only going round in a waiting loop leaves as it is. *)
From Coq Require Import List Arith Bool Lia Permutation.
Import ListNotations.
From Verif Require Import Spec Vec Net Graded Bits Util CountProofs OutputSetModel OutputSetProofs PruneProofs PackProofs HuffmanModel HuffmanProofs CanonModel TreeModel StatesModel StatesProofs StatesBounds SearchModel SearchFacts SearchInv SearchEdges SearchStep SearchFrames SearchGlobal SearchRun SearchSafe SearchOrder SearchWaits SearchMain SearchClosed SearchSlack SearchGood SearchQuiet SearchReach SearchNext SearchHuff SearchReady IndexProofs.

(* ---- room: enough for a call of improve on any smaller set ---- *)
Definition smallerb (t s : OutputSet) : bool :=
  (channels t <? channels s) ||
  ((channels t =? channels s) && ((os_len t <? os_len s) || ((os_len t =? os_len s) && (mixed t <? mixed s)))).
Lemma smallerb_spec t s : smallerb t s = true <-> smaller t s.
Proof.
  unfold smallerb, smaller. rewrite orb_true_iff, andb_true_iff, orb_true_iff, andb_true_iff, !Nat.ltb_lt, !Nat.eqb_eq. tauto.
Qed.
Definition rank (s : OutputSet) : nat := length (filter (fun p => smallerb p s) universe).

Lemma filter_length_le {A} (p q : A -> bool) l : (forall x, p x = true -> q x = true) -> length (filter p l) <= length (filter q l).
Proof.
  intros H. induction l as [|a l IH]; auto. cbn [filter]. destruct (p a) eqn:Ep. rewrite (H a Ep). cbn. lia. destruct (q a); cbn; lia.
Qed.
Lemma filter_length_lt {A} (p q : A -> bool) l a : (forall x, p x = true -> q x = true) -> In a l -> p a = false -> q a = true ->
  length (filter p l) < length (filter q l).
Proof.
  intros H Ha Pa Qa. induction l as [|b l IH]; [destruct Ha|]. cbn [filter]. destruct Ha as [->|Ha].
  - rewrite Pa, Qa. cbn [length]. pose proof (filter_length_le p q l H). lia.
  - specialize (IH Ha). destruct (p b) eqn:Ep. rewrite (H b Ep). cbn [length]. lia. destruct (q b); cbn [length]; lia.
Qed.
Lemma rank_lt_smaller p s : okset p -> smaller p s -> rank p < rank s.
Proof.
  intros (W & C & _) L. apply (filter_length_lt _ _ _ p).
  - intros x H. apply smallerb_spec in H. apply smallerb_spec. eapply smaller_trans; eauto.
  - apply universe_In. auto.
  - destruct (smallerb p p) eqn:E; auto. apply smallerb_spec in E. now apply smaller_irrefl in E.
  - now apply smallerb_spec.
Qed.

Fixpoint bb (r : nat) : nat := match r with 0 => 0 | S r => 100 * bb r + 1001 end.
Lemma bb_mono a b : a <= b -> bb a <= bb b.
Proof. induction 1 as [|b H IH]; auto. cbn [bb]. lia. Qed.
Definition room (s : OutputSet) : nat := bb (rank s).
(* the work of a call of improve that has not started *)
Definition full (s : OutputSet) : nat := 100 * room s + 1000.
Lemma full_room p s : okset p -> smaller p s -> full p + 1 <= room s.
Proof.
  intros K L. pose proof (rank_lt_smaller p s K L) as H. unfold full, room. pose proof (bb_mono (S (rank p)) (rank s) H) as B. cbn [bb] in B. lia.
Qed.
Global Opaque room.

Lemma pairs_length n : n <= 11 -> length (pairs n) <= 55.
Proof. intros H. do 12 (destruct n as [|n]; [vm_compute; lia|]). lia. Qed.

(* ---- sums ---- *)
Lemma sumf_cons {A} (g : A -> nat) a l : sumf g (a :: l) = g a + sumf g l.
Proof. reflexivity. Qed.
Lemma sumf_app {A} (g : A -> nat) l l' : sumf g (l ++ l') = sumf g l + sumf g l'.
Proof. induction l as [|a l IH]; auto. cbn [app]. rewrite !sumf_cons, IH. lia. Qed.
Lemma sumf_filter_le {A} (g : A -> nat) (p : A -> bool) l : sumf g (filter p l) <= sumf g l.
Proof. induction l as [|a l IH]; auto. cbn [filter]. destruct (p a); rewrite ?sumf_cons; lia. Qed.
Lemma sumf_change (g h : nat -> nat) l a : NoDup l -> In a l -> (forall b, b <> a -> h b = g b) -> sumf h l + g a = sumf g l + h a.
Proof.
  intros N Ha H. induction N as [|b l Hb N IH]; [destruct Ha|]. rewrite !sumf_cons. destruct Ha as [->|Ha].
  - assert (E : sumf h l = sumf g l). { apply sumf_ext. intros c Hc. apply H. intros ->. contradiction. } lia.
  - specialize (IH Ha). rewrite (H b). lia. intros ->. contradiction.
Qed.

Section Cost.
Variable cu : OutputSet -> State.        (* the state of the map *)
Variable res : nat -> option State.      (* the results of the finished tasks *)

Definition fresh (v : State) (p : OutputSet) : bool := state_eqb v (cu p).
(* an edge without a running task *)
Definition idle_cost (b : nat) (v : State) (p : OutputSet) : nat :=
  if closed v then 0 else if fresh v p then b + 5 else 2 * b + 100.
(* an edge with a running task *)
Definition busy_cost (b : nat) (v : State) (p : OutputSet) (u : nat) : nat :=
  match res u with
  | Some r => 50 + idle_cost b r p
  | None => if fresh v p then 0 else b + 55
  end.
Definition target_cost (b : nat) (x : Target) : nat :=
  match tg_run x with
  | None => idle_cost b (tg_state x) (tg_set x)
  | Some u => busy_cost b (tg_state x) (tg_set x) u
  end.
Definition edges_cost (b : nat) (e : Edges) : nat := sumf (fun id => target_cost b (target_at e id)) (active e).
Definition openb (e : Edges) : bool := existsb (fun id => negb (closed (tg_state (target_at e id)))) (active e).
Definition next_cost (b : nat) (e : Edges) (np : NextPc) : nat :=
  edges_cost b e +
  match np with
  | NPoll _ true _ _ => 40
  | NSched _ _ _ => if openb e then 11 else 41
  | _ => if openb e then 10 else 40
  end.

(* the work of a frame that runs *)
Definition frame_cost (f : Frame) : nat :=
  match f with
  | FMain s _ pc =>
      match pc with
      | MGet => full s + 10
      | MCheck st => if fresh st s then full s + 4 else 2 * full s + 20
      | MCall | MDone _ => 1
      end
  | FImp _ s pc =>
      let b := room s in
      match pc with
      | ILook | ILock | IWait _ => full s
      | ICheck _ => 100 * b + 999
      | IPrGet _ _ _ => b + 10
      | IPrUpper _ _ p pst => if fresh pst p then b + 5 else 2 * b + 20
      | IPrLower _ _ p pst => if fresh pst p then b + 4 else 2 * b + 19
      | IPrCall _ _ _ | IHuff _ _ => 1
      | IEdge _ _ todo e => length todo * (b + 6) + edges_cost b e + 31
      | IUpper _ _ e => edges_cost b e + 30
      | ILower _ _ e => edges_cost b e + 29
      | ILowGet _ _ _ _ => 8
      | ILowSet _ _ _ _ => 7
      | INext _ _ e np => next_cost b e np
      | IRet _ _ _ => 3
      | IUnlock _ _ => 2
      end
  | FHuff s pc =>
      let b := room s in
      match pc with
      | HGet => 22 * (b + 6) + 60
      | HEdge _ todo _ _ e => length todo * (b + 6) + edges_cost b e + 31
      | HPol _ _ _ _ _ e pol => edges_cost b e + (if pol then 26 else 30)
      | HPolSet _ _ _ _ _ e pol _ => edges_cost b e + (if pol then 24 else 28)
      | HMax _ _ _ _ _ e => edges_cost b e + 22
      | HNext _ _ _ _ _ e np => next_cost b e np
      | HRet _ _ => 3
      end
  end.
(* the work of a frame that waits for a callee; q is the argument prev of the callee *)
Definition wait_cost (q : option State) (f : Frame) : nat :=
  match f, q with
  | FMain s _ MCall, Some q => if fresh q s then 1 else full s + 5
  | FImp _ s (IPrCall _ _ p), Some q => if fresh q p then 1 else room s + 6
  | FImp _ s (IHuff _ _), _ => 55 * (room s + 6) + 32
  | _, _ => frame_cost f
  end.
Fixpoint below_cost (q : option State) (l : list Frame) : nat :=
  match l with [] => 0 | f :: r => wait_cost q f + below_cost (prev_of f) r end.
Definition stack_cost (l : list Frame) : nat :=
  match l with [] => 0 | f :: r => frame_cost f + below_cost (prev_of f) r end.
Definition task_cost (x : Task) : nat := stack_cost (tk_stack x) + (if tk_sched x then 0 else 1).

Lemma frame_cost_pos f : 1 <= frame_cost f.
Proof.
  destruct f as [s l pc|prev s pc|s pc]; cbn [frame_cost]; unfold full, next_cost.
  - destruct pc; try lia. destruct (fresh st s); lia.
  - destruct pc; try lia. destruct (fresh pst p); lia. destruct (fresh pst p); lia.
    destruct np as [ids [] nr bl| |i ids bl|ids bl t]; try destruct (openb e); lia.
  - destruct pc; try lia. destruct pol; lia. destruct pol; lia. destruct np as [ids [] nr bl| |i ids bl|ids bl t]; try destruct (openb e); lia.
Qed.

(* dropping a frame *)
Lemma drop_cost f r : stack_cost r < stack_cost (f :: r).
Proof.
  cbn [stack_cost]. pose proof (frame_cost_pos f). destruct r as [|g r]; cbn [stack_cost below_cost]. lia.
  assert (frame_cost g <= wait_cost (prev_of f) g); [|lia].
  destruct g as [s l []|prev s []|s pc]; cbn [wait_cost]; auto; destruct (prev_of f); auto; try (destruct (fresh _ _)); cbn [frame_cost]; lia.
Qed.

(* ---- the edges ---- *)
Lemma openb_true e : openb e = true <-> exists id, In id (active e) /\ closed (tg_state (target_at e id)) = false.
Proof.
  unfold openb. rewrite existsb_exists. split; intros (id & H & C); exists id; split; auto; now apply negb_true_iff.
Qed.
Lemma openb_same e e' : (forall id, In id (active e) <-> In id (active e')) -> (forall id, tg_state (target_at e' id) = tg_state (target_at e id)) -> openb e' = openb e.
Proof.
  intros A T. apply eq_true_iff_eq. rewrite !openb_true. split; intros (id & H & C); exists id. rewrite <- T. split; auto. now apply A.
  rewrite T. split; auto. now apply A.
Qed.
Lemma target_at_targets e e' : targets e' = targets e -> forall id, target_at e' id = target_at e id.
Proof. intros E id. unfold target_at. now rewrite E. Qed.
Lemma edges_cost_sort b order e : edges_cost b (sort_active order e) = edges_cost b e.
Proof.
  unfold edges_cost. cbn [sort_active active]. rewrite (sumf_perm _ _ _ (isort_perm' _ (active e))). reflexivity.
Qed.
Lemma openb_sort order e : openb (sort_active order e) = openb e.
Proof. apply openb_same; auto. intros id. symmetry. apply sort_active_In'. Qed.

Lemma closed_cost b e e' : retain_closed e = Some e' -> edges_cost b e' <= edges_cost b e /\ openb e' = openb e /\
  targets e' = targets e /\ (forall id, In id (active e') <-> In id (active e) /\ closed (tg_state (target_at e id)) = false).
Proof.
  unfold retain_closed. destruct (forallb _ (active e)); [|discriminate]. intros E. injection E as <-. unfold edges_cost.
  assert (A : forall id, In id (filter (fun id => negb (closed (tg_state (target_at e id)))) (active e)) <-> In id (active e) /\ closed (tg_state (target_at e id)) = false).
  { intros id. rewrite filter_In, negb_true_iff. tauto. }
  split. apply sumf_filter_le. split; [|split; auto].
  apply eq_true_iff_eq. rewrite !openb_true. cbn [active]. split.
  - intros (id & H & C). apply A in H. exists id. tauto.
  - intros (id & H & C). exists id. rewrite A. auto.
Qed.

Lemma stops_at D : forall e id, ~ In id D -> target_at (stops D e) id = target_at e id.
Proof.
  unfold stops. induction D as [|d D IH]; intros e id H; cbn [fold_left]; auto. rewrite IH by (intros X; apply H; now right).
  rewrite set_target_at. destruct (Nat.eqb_spec id d) as [->|]; auto. exfalso. apply H. now left.
Qed.
Lemma retain_cost b keep e e' dr : retain_edges keep e = (e', dr) -> edges_cost b e' <= edges_cost b e.
Proof.
  unfold retain_edges. intros E. injection E as <- _.
  fold (stops (filter (fun id => negb (keep id)) (active e)) (mkEdges (targets e) (filter keep (active e)))).
  unfold edges_cost. rewrite stops_active. cbn [active]. etransitivity; [|apply (sumf_filter_le _ keep)]. apply Nat.eq_le_incl, sumf_ext.
  intros id H. rewrite stops_at; auto. intros X. apply filter_In in H, X. destruct H as (_ & H), X as (_ & X). rewrite H in X. discriminate.
Qed.

Lemma push_cost b e t e' id : (forall i, In i (active e) -> i < length (targets e)) -> push_target e t (cu t) = (e', id) ->
  edges_cost b e' <= edges_cost b e + b + 5.
Proof.
  intros A E. unfold push_target in E. injection E as <- _. unfold edges_cost. cbn [active].
  assert (O : sumf (fun id => target_cost b (target_at (mkEdges (targets e ++ [mkTarget t (cu t) (os_len t) None]) (if closed (cu t) then active e else active e ++ [length (targets e)])) id)) (active e)
            = sumf (fun id => target_cost b (target_at e id)) (active e)).
  { apply sumf_ext. intros i Hi. unfold target_at. cbn [targets]. rewrite app_nth1; auto. }
  destruct (closed (cu t)) eqn:Ec. rewrite O. lia. rewrite sumf_app, O. rewrite sumf_cons. cbn [sumf fold_right].
  unfold target_at. cbn [targets]. rewrite app_nth2, Nat.sub_diag by auto. cbn [nth]. unfold target_cost, idle_cost, fresh. cbn [tg_run tg_state tg_set].
  rewrite Ec, (proj2 (state_eqb_eq _ _) eq_refl). lia.
Qed.

Lemma set_cost b e id x h : NoDup (active e) -> In id (active e) -> nth_error (targets e) id = Some x ->
  edges_cost b (set_target e id h) + target_cost b x = edges_cost b e + target_cost b (h x).
Proof.
  intros N Hi Nx. unfold edges_cost. cbn [set_target active]. fold (set_target e id h).
  pose proof (sumf_change (fun i => target_cost b (target_at e i)) (fun i => target_cost b (target_at (set_target e id h) i)) (active e) id N Hi) as H.
  cbv beta in H. rewrite (set_target_at e id h id), Nat.eqb_refl, (proj2 (Nat.ltb_lt _ _) (nth_error_lt _ _ _ Nx)) in H. cbn [andb] in H.
  rewrite (target_at_nth e id x Nx) in H. apply H. intros i D. rewrite set_target_at. destruct (Nat.eqb_spec i id); auto. contradiction.
Qed.
Lemma openb_run e id u : openb (set_target e id (fun x => mkTarget (tg_set x) (tg_state x) (tg_len x) (Some u))) = openb e.
Proof. apply openb_same. intros; cbn [set_target active]; tauto. intros i. rewrite set_target_at. destruct (Nat.eqb_spec i id) as [->|]; auto. destruct (id <? _); auto. Qed.
End Cost.
