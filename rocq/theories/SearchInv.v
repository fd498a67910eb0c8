(* The invariant of the search: what each frame of a task may rely on. *)
From Coq Require Import List Arith Bool Lia Permutation.
Import ListNotations.
From Verif Require Import Spec Vec Net Graded Bits Util OutputSetModel OutputSetProofs PruneProofs PackProofs HuffmanModel HuffmanProofs CanonModel TreeModel StatesModel StatesProofs StatesBounds SearchModel SearchFacts.

Definition opt_list {A} (o : option A) : list A := match o with Some a => [a] | None => [] end.

(* sets on which improve does anything *)
Definition work (s : OutputSet) : Prop := is_sorted s = false /\ 3 <= channels s.

Lemma work_okk s : okset s -> work s -> okk s.
Proof. intros (W & M & _) (_ & H). split; auto. Qed.

Lemma os_eqb_eq a b : wf a -> wf b -> os_eqb a b = true -> a = b.
Proof.
  unfold os_eqb. intros Wa Wb E. apply (list_eqb_spec Bool.eqb Bool.eqb_true_iff) in E. destruct a as [ca ba], b as [cb bb].
  unfold wf in *. simpl in *. subst bb. f_equal. apply (Nat.pow_inj_r 2); lia.
Qed.

Lemma os_eqb_refl a : os_eqb a a = true.
Proof. unfold os_eqb. now apply (list_eqb_spec Bool.eqb Bool.eqb_true_iff). Qed.

Lemma state_eqb_eq a b : state_eqb a b = true <-> a = b.
Proof.
  destruct a, b. unfold state_eqb. simpl. rewrite !andb_true_iff, !Nat.eqb_eq. split; [|intros E; now injection E].
  intros (((-> & ->) & ->) & ->). auto.
Qed.

Section Inv.
Variables chash mhash : list nat -> nat.
Notation cur := (cur mhash).
Notation succs := (succs chash).
Notation succ1 := (succ1 chash).
Notation prunes := (prunes chash).
Notation prune_of := (prune_of chash).

(* why a lower bound holds, in terms of the bounds of other sets in the map *)
Definition justL (m : StateMap) (s : OutputSet) (b : nat) : Prop :=
  b = 0 \/
  (is_sorted s = false /\
   (b <= 1 \/
    (exists pol r, max_plus_1_huffman (map (fun p => lo (cur m p)) (prunes s pol)) = Some r /\ b <= r) \/
    (forall t, In t (succs s) -> b <= lo (cur m t) + 1))).
Definition justU (m : StateMap) (s : OutputSet) (u : nat) : Prop :=
  hi (default_state s) <= u \/
  (exists pol c, extremal_channels s pol = [c] /\ hi (cur m (prune_of s pol c)) <= u) \/
  (exists t, In t (succs s) /\ hi (cur m t) + 1 <= u).

Record map_inv (m : StateMap) : Prop := {
  mi_ok : sm_ok mhash m;
  mi_valid : forall s, okset s -> valid_state s (cur m s);
  mi_small : forall s, okset s -> hi (cur m s) <= 35;
  mi_justL : forall s, okset s -> justL m s (lo (cur m s));
  mi_justU : forall s, okset s -> justU m s (hi (cur m s));
  mi_stored : forall s st, wf s -> stored mhash m s = Some st -> okset s /\ work s
}.

(* the map of a later moment *)
Definition tight (m m' : StateMap) : Prop :=
  forall s, okset s -> lo (cur m s) <= lo (cur m' s) /\ hi (cur m' s) <= hi (cur m s).

Lemma tight_refl m : tight m m.
Proof. intros s _. auto. Qed.
Lemma tight_trans m m1 m2 : tight m m1 -> tight m1 m2 -> tight m m2.
Proof. intros H H' s K. destruct (H s K), (H' s K). lia. Qed.

(* v was the state of s at some earlier moment *)
Definition past (m : StateMap) (s : OutputSet) (v : State) : Prop :=
  lo v <= lo (cur m s) /\ hi (cur m s) <= hi v /\ hi v <= 35.

(* the part of map_inv that says that the bounds are right and small *)
Definition map_sound (m : StateMap) : Prop := forall s, okset s -> valid_state s (cur m s) /\ hi (cur m s) <= 35.
Lemma map_inv_sound m : map_inv m -> map_sound m.
Proof. intros I s K. split. now apply mi_valid. now apply mi_small. Qed.
Lemma sound_lo m s : map_sound m -> okset s -> lo (cur m s) <= 35.
Proof. intros I K. destruct (I s K) as ((L & U) & H). pose proof (lower_upper _ _ _ _ L U). lia. Qed.

Lemma past_cur m s : map_inv m -> okset s -> past m s (cur m s).
Proof. intros I K. split; auto. split; auto. now apply mi_small. Qed.

Lemma past_tight m m' s v : okset s -> tight m m' -> past m s v -> past m' s v.
Proof. intros K T (A & B & C). destruct (T s K). unfold past. lia. Qed.

Lemma past_lo_le m s v : map_inv m -> okset s -> past m s v -> lo v <= 35.
Proof.
  intros I K (A & B & C). destruct (mi_valid m I s K) as (L & U). pose proof (lower_upper _ _ _ _ L U).
  pose proof (mi_small m I s K). lia.
Qed.

Lemma huffman_tight m m' s pol r : map_sound m' -> tight m m' -> okset s ->
  max_plus_1_huffman (map (fun p => lo (cur m p)) (prunes s pol)) = Some r ->
  exists r', max_plus_1_huffman (map (fun p => lo (cur m' p)) (prunes s pol)) = Some r' /\ r <= r'.
Proof.
  intros I T K E. destruct (huffman_total_small (map (fun p => lo (cur m' p)) (prunes s pol))) as (r' & E').
  - rewrite map_length. unfold SearchFacts.prunes. rewrite map_length. etransitivity. apply extremal_length. apply K.
  - intros v Hv. apply in_map_iff in Hv. destruct Hv as (p & <- & Hp). destruct (prunes_okset chash s pol p K Hp) as (Kp & _).
    now apply sound_lo.
  - exists r'. split; auto. apply (huffman_mono (fun p => lo (cur m p)) (fun p => lo (cur m' p)) (prunes s pol)); auto.
    intros p Hp. destruct (prunes_okset chash s pol p K Hp) as (Kp & _). apply T, Kp.
Qed.

Lemma justL_tight m m' s b : map_sound m' -> tight m m' -> okset s -> justL m s b -> justL m' s b.
Proof.
  intros I T K [->|(N & H)]; [left; auto|right]. split; auto. destruct H as [H|[(pol & r & E & H)|H]]; auto.
  - right. left. destruct (huffman_tight m m' s pol r I T K E) as (r' & E' & H'). exists pol, r'. split; auto. lia.
  - right. right. intros t Ht. specialize (H t Ht). destruct (succs_spec chash s t K Ht) as (Kt & _). destruct (T t Kt). lia.
Qed.

Lemma justU_tight m m' s u : tight m m' -> okset s -> justU m s u -> justU m' s u.
Proof.
  intros T K [H|[(pol & c & E & H)|(t & Ht & H)]]; [left; auto|right; left|right; right].
  - exists pol, c. split; auto. assert (I : In (prune_of s pol c) (prunes s pol)).
    { unfold SearchFacts.prunes. apply in_map. rewrite E. simpl. auto. }
    destruct (prunes_okset chash s pol _ K I) as (Kp & _). destruct (T _ Kp). lia.
  - exists t. split; auto. destruct (succs_spec chash s t K Ht) as (Kt & _). destruct (T t Kt). lia.
Qed.

(* a justified lower bound is a lower bound *)
Lemma justL_sound m s b : map_inv m -> okset s -> justL m s b -> lower_bound (channels s) (vs s) b.
Proof.
  intros I K [->|(N & H)]. apply lower_bound_0.
  assert (NO : ~ one_per_weight (vs s)). { intros O. apply is_sorted_spec in O; [|apply K]. congruence. }
  destruct H as [H|[(pol & r & E & H)|H]].
  - apply (lower_bound_le _ _ 1); auto. now apply lower_bound_1.
  - apply (lower_bound_le _ _ r); auto.
    apply (prune_lower chash s pol (fun p => lo (cur m p))); auto.
    + apply extremal_nonempty; auto. unfold is_sorted in N. destruct (Nat.ltb_spec (channels s) 2); [discriminate|lia].
    + intros p Hp. destruct (prunes_okset chash s pol p K Hp) as (Kp & Cp). replace (channels s - 1) with (channels p) by lia.
      apply (mi_valid m I p Kp).
  - apply (succ_lower chash); auto. intros t Ht. specialize (H t Ht). destruct (succs_spec chash s t K Ht) as (Kt & Ct & _).
    apply (lower_bound_le _ _ (lo (cur m t))). lia. rewrite <- Ct. apply (mi_valid m I t Kt).
Qed.

Lemma justU_sound m s u : map_inv m -> okset s -> justU m s u -> upper_bound (channels s) (vs s) u.
Proof.
  intros I K [H|[(pol & c & E & H)|(t & Ht & H)]].
  - apply (upper_bound_le _ _ (hi (default_state s))); auto. apply default_state_valid. apply K. destruct K as (_ & M & _). lia.
  - apply (prune_single_upper chash s pol c); auto. assert (Ip : In (prune_of s pol c) (prunes s pol)).
    { unfold SearchFacts.prunes. apply in_map. rewrite E. simpl. auto. }
    destruct (prunes_okset chash s pol _ K Ip) as (Kp & Cp). replace (channels s - 1) with (channels (prune_of s pol c)) by lia.
    apply (upper_bound_le _ _ (hi (cur m (prune_of s pol c)))); auto. apply (mi_valid m I _ Kp).
  - destruct (succs_spec chash s t K Ht) as (Kt & Ct & _).
    apply (upper_bound_le _ _ (S (hi (cur m t)))). lia. apply (succ_upper chash s t); auto. rewrite <- Ct. apply (mi_valid m I t Kt).
Qed.

(* sets that are not closed are not sorted and have at least three channels *)
Lemma unclosed_work m s : map_inv m -> okset s -> closed (cur m s) = false -> work s.
Proof.
  intros I K. unfold StatesBounds.cur. destruct (stored mhash m s) as [st|] eqn:E.
  - intros _. apply (mi_stored m I s st); auto. apply K.
  - unfold default_state, work. destruct (is_sorted s). discriminate. destruct (Nat.leb_spec (channels s) 2). discriminate. auto.
Qed.

(* ---- edges ---- *)
Definition Goal := nat -> option (State * OutputSet).

Definition target_ok (m : StateMap) (goal : Goal) (x : Target) : Prop :=
  okset (tg_set x) /\ past m (tg_set x) (tg_state x) /\ (closed (tg_state x) = true -> tg_run x = None) /\
  (forall t, tg_run x = Some t -> goal t = Some (tg_state x, tg_set x)).
Definition edges_ok (m : StateMap) (goal : Goal) (e : Edges) : Prop :=
  (forall x, In x (targets e) -> target_ok m goal x) /\
  NoDup (active e) /\ (forall id, In id (active e) -> id < length (targets e)).
Definition sets (e : Edges) : list OutputSet := map tg_set (targets e).
Definition open_ids (e : Edges) (l : list nat) : Prop :=
  forall id, In id l -> id < length (targets e) /\ closed (tg_state (target_at e id)) = false.
Definition np_ok (e : Edges) (np : NextPc) : Prop :=
  match np with
  | NPoll ids _ _ _ => forall id, In id ids -> id < length (targets e)
  | NPend => open_ids e (active e)
  | NSpawn _ ids _ => open_ids e ids
  | NSched ids _ _ => open_ids e ids
  end.

(* ---- frames ---- *)
Definition single (s p : OutputSet) : Prop := exists pol c, extremal_channels s pol = [c] /\ p = prune_of s pol c.

Definition base (m : StateMap) (prev : State) (s : OutputSet) (st : State) : Prop :=
  work s /\ cur m s = st /\ lo st = lo prev /\ closed st = false.

Definition succ_edges (m : StateMap) (goal : Goal) (s : OutputSet) (e : Edges) : Prop :=
  edges_ok m goal e /\ forall t, In t (sets e) <-> In t (succs s).

Definition imp_ok (m : StateMap) (goal : Goal) (prev : State) (s : OutputSet) (pc : ImpPc) : Prop :=
  okset s /\
  match pc with
  | ILook => True
  | ILock | IWait _ | ICheck _ => work s
  | IPrGet _ st p | IPrCall _ st p => base m prev s st /\ single s p
  | IPrUpper _ st p pst | IPrLower _ st p pst => base m prev s st /\ single s p /\ past m p pst
  | IHuff _ st => work s /\ lo st = lo prev /\ closed st = false
  | IEdge _ st todo e => base m prev s st /\ edges_ok m goal e /\
      exists done, pairs (channels s) = done ++ todo /\ forall t, In t (sets e) <-> In t (flat_map (succ1 s) done)
  | IUpper _ st e | ILower _ st e => base m prev s st /\ succ_edges m goal s e
  | ILowGet _ st b e => base m prev s st /\ succ_edges m goal s e /\ lo st < b /\
      forall t, In t (succs s) -> b <= lo (cur m t) + 1
  | ILowSet _ st new e => base m prev s st /\ succ_edges m goal s e /\ lo st < lo new /\ new = mkState (lo new) (hi st) (hlo st) (hhi st) /\
      forall t, In t (succs s) -> lo new <= lo (cur m t) + 1
  | INext _ st e np => base m prev s st /\ succ_edges m goal s e /\ np_ok e np
  | IRet _ v e => work s /\ cur m s = v /\ (closed v = true \/ lo prev < lo v) /\ edges_ok m goal e
  | IUnlock _ v => work s /\ cur m s = v /\ (closed v = true \/ v <> prev)
  end.

Definition ids_ok (e : Edges) (ids : list nat) (l : list OutputSet) : Prop :=
  map (fun id => tg_set (target_at e id)) ids = l /\ forall id, In id ids -> id < length (targets e).

Definition huff_edges (m : StateMap) (goal : Goal) (s : OutputSet) (st : State) (ids0 ids1 : list nat) (e : Edges) : Prop :=
  cur m s = st /\ edges_ok m goal e /\ ids_ok e ids0 (prunes s false) /\ ids_ok e ids1 (prunes s true).

Definition huff_ok (m : StateMap) (goal : Goal) (s : OutputSet) (pc : HuffPc) : Prop :=
  okset s /\ work s /\
  match pc with
  | HGet => True
  | HEdge st todo ids0 ids1 e => cur m s = st /\ edges_ok m goal e /\
      exists d0 r0 d1 r1, extremal_channels s false = d0 ++ r0 /\ extremal_channels s true = d1 ++ r1 /\
        todo = map (pair false) r0 ++ map (pair true) r1 /\
        ids_ok e ids0 (map (prune_of s false) d0) /\ ids_ok e ids1 (map (prune_of s true) d1)
  | HPol st ids0 ids1 _ _ e _ => huff_edges m goal s st ids0 ids1 e
  | HPolSet st ids0 ids1 _ _ e _ lh => huff_edges m goal s st ids0 ids1 e /\
      exists pol r, max_plus_1_huffman (map (fun p => lo (cur m p)) (prunes s pol)) = Some r /\ lh <= r
  | HMax st ids0 ids1 _ _ e => huff_edges m goal s st ids0 ids1 e
  | HNext st ids0 ids1 _ _ e np => huff_edges m goal s st ids0 ids1 e /\ np_ok e np
  | HRet v e => cur m s = v /\ edges_ok m goal e
  end.

Definition main_ok (m : StateMap) (s : OutputSet) (limit : option nat) (pc : MainPc) : Prop :=
  okset s /\
  match pc with
  | MGet | MCall => True
  | MCheck st => past m s st
  | MDone k => exists st, past m s st /\ k = lo st /\ (closed st = true \/ exists l, limit = Some l /\ l <= k)
  end.

Definition frame_ok (m : StateMap) (goal : Goal) (f : Frame) : Prop :=
  match f with
  | FMain s limit pc => main_ok m s limit pc
  | FImp prev s pc => imp_ok m goal prev s pc
  | FHuff s pc => huff_ok m goal s pc
  end.

(* improve_huffman in relation to the state st0 its caller saw *)
Definition same_bounds (a b : State) : Prop := lo a = lo b /\ hi a = hi b.
Definition huff_rel (m : StateMap) (s : OutputSet) (st0 : State) (pc : HuffPc) : Prop :=
  match pc with
  | HGet => cur m s = st0
  | HEdge st _ _ _ _ | HPol st _ _ _ _ _ _ | HPolSet st _ _ _ _ _ _ _ | HMax st _ _ _ _ _ | HNext st _ _ _ _ _ _ => same_bounds st st0
  | HRet v _ => lo st0 < lo v \/ same_bounds v st0
  end.

(* f is a possible callee of below; root is the pair (previous state, set) the task was spawned with *)
Definition fits (m : StateMap) (root : State * OutputSet) (below : option Frame) (f : Frame) : Prop :=
  match below, f with
  | None, FImp prev s _ => root = (prev, s)
  | None, FMain _ _ _ => True
  | Some (FMain s _ MCall), FImp _ s' _ => s' = s
  | Some (FImp _ _ (IPrCall _ _ p)), FImp _ s' _ => s' = p
  | Some (FImp _ s (IHuff _ st0)), FHuff s' pc => s' = s /\ huff_rel m s st0 pc
  | _, _ => False
  end.

Fixpoint stack_ok (m : StateMap) (goal : Goal) (root : State * OutputSet) (l : list Frame) : Prop :=
  match l with
  | [] => True
  | f :: rest => frame_ok m goal f /\ fits m root (hd_error rest) f /\ stack_ok m goal root rest
  end.

Definition result_ok (m : StateMap) (root : State * OutputSet) (v : State) : Prop :=
  past m (snd root) v /\ (closed v = true \/ v <> fst root).

(* the set whose entry in the map f makes a statement about *)
Definition own (f : Frame) : option OutputSet :=
  match f with
  | FMain _ _ _ => None
  | FImp _ s ILook | FImp _ s ILock | FImp _ s (IWait _) | FImp _ s (IHuff _ _) => None
  | FImp _ s _ => Some s
  | FHuff s _ => Some s
  end.

Definition kids (f : Frame) : list nat := all_running (frame_edges f).

Definition later_goal (goal goal' : Goal) : Prop := forall t g, goal t = Some g -> goal' t = Some g.

Lemma edges_ok_later m m' goal goal' e : tight m m' -> later_goal goal goal' -> edges_ok m goal e -> edges_ok m' goal' e.
Proof.
  intros T L (H & A). split; auto. intros x Hx. destruct (H x Hx) as (K & P & C & G).
  split; auto. split. now apply (past_tight m). auto.
Qed.

Lemma frame_ok_later m m' goal goal' f : map_inv m' -> tight m m' -> later_goal goal goal' ->
  (forall s, own f = Some s -> cur m' s = cur m s) -> frame_ok m goal f -> frame_ok m' goal' f.
Proof.
  intros I T L O. pose proof (edges_ok_later m m' goal goal') as EE.
  assert (LB : forall s b, okset s -> (forall t, In t (succs s) -> b <= lo (cur m t) + 1) ->
            (forall t, In t (succs s) -> b <= lo (cur m' t) + 1)).
  { intros s b K H t Ht. specialize (H t Ht). destruct (succs_spec chash s t K Ht) as (Kt & _). destruct (T t Kt). lia. }
  assert (SP : forall s p, okset s -> single s p -> okset p).
  { intros s p K (pol & c & E & ->). eapply prunes_okset; eauto. unfold SearchFacts.prunes. apply in_map. rewrite E. simpl. auto. }
  destruct f as [s limit pc|prev s pc|s pc]; simpl.
  - intros (K & H). split; auto. destruct pc; auto. now apply (past_tight m).
    destruct H as (st & P & H). exists st. split; auto. now apply (past_tight m).
  - intros (K & H). split; auto.
    assert (B : own (FImp prev s pc) = Some s -> forall st, base m prev s st -> base m' prev s st).
    { intros Ow st (Wk & C & R). split; auto. split; auto. rewrite <- C. auto. }
    assert (SE : forall e, succ_edges m goal s e -> succ_edges m' goal' s e).
    { intros e (A & R). split; eauto. }
    destruct pc; try exact H; try specialize (B eq_refl).
    all: try solve [destruct H as (H & R); auto].
    + destruct H as (H1 & H2 & H3). split; auto. split; auto. apply (past_tight m); eauto.
    + destruct H as (H1 & H2 & H3). split; auto. split; auto. apply (past_tight m); eauto.
    + destruct H as (H1 & H2 & H3). split; auto.
    + destruct H as (H1 & H2 & H3 & H4). split; auto. split; auto. split; auto. eauto.
    + destruct H as (H1 & H2 & H3 & H4 & H5). split; auto. split; auto. split; auto. split; eauto.
    + destruct H as (H1 & H2 & H3). split; auto.
    + destruct H as (H1 & H2 & H3 & H4). split; auto. split; [|auto]. rewrite <- H2. auto.
    + destruct H as (H1 & H2 & H3). split; auto. split; [|auto]. rewrite <- H2. auto.
  - intros (K & Wk & H). split; auto. split; auto.
    assert (HE : forall st ids0 ids1 e, huff_edges m goal s st ids0 ids1 e -> huff_edges m' goal' s st ids0 ids1 e).
    { intros st ids0 ids1 e (A & B & C). split. rewrite <- A; auto. split; eauto. }
    destruct pc; auto.
    + destruct H as (A & B & C). split. rewrite <- A; auto. split; eauto.
    + destruct H as (A & pl & r & E & Hr). split; auto. destruct (huffman_tight m m' s pl r (map_inv_sound m' I) T K E) as (r' & E' & H').
      exists pl, r'. split; auto. lia.
    + destruct H as (A & B). split; auto.
    + destruct H as (A & B). split; eauto. rewrite <- A; auto.
Qed.

Lemma fits_later m m' root below f : (forall s, own f = Some s -> cur m' s = cur m s) ->
  fits m root below f -> fits m' root below f.
Proof.
  intros O. destruct below as [[s l pc|prev s pc|s pc]|], f as [s' l' pc'|prev' s' pc'|s' pc']; simpl; auto.
  destruct pc; auto. intros (-> & H). split; auto. destruct pc'; auto. simpl in *. rewrite <- H. auto.
Qed.

Lemma stack_ok_later m m' goal goal' root l : map_inv m' -> tight m m' -> later_goal goal goal' ->
  (forall f s, In f l -> own f = Some s -> cur m' s = cur m s) -> stack_ok m goal root l -> stack_ok m' goal' root l.
Proof.
  intros I T L. induction l as [|f l IH]; simpl; auto. intros O (A & B & C). split; [|split].
  - apply (frame_ok_later m m' goal goal'); auto. intros s. apply O. auto.
  - apply (fits_later m m'); auto. intros s. apply O. auto.
  - apply IH; auto. intros g s Hg. apply O. auto.
Qed.

Lemma result_ok_later m m' root v : okset (snd root) -> tight m m' -> result_ok m root v -> result_ok m' root v.
Proof. intros K T (A & B). split; auto. now apply (past_tight m). Qed.
End Inv.
