(* Reachability by quiet runs, unless the map can be improved. *)
From Coq Require Import List Arith Bool Lia Permutation.
Import ListNotations.
From Verif Require Import Spec Vec Net Graded Bits Util CountProofs OutputSetModel OutputSetProofs PruneProofs PackProofs HuffmanModel HuffmanProofs CanonModel TreeModel StatesModel StatesProofs StatesBounds SearchModel SearchFacts SearchInv SearchEdges SearchStep SearchFrames SearchGlobal SearchRun SearchSafe SearchOrder SearchWaits SearchMain SearchClosed SearchSlack SearchGood SearchQuiet.

(* which tasks may move: those whose innermost frame is about a smaller set, and task t also with s *)
Definition PA (s : OutputSet) (v : nat) (x : OutputSet) : Prop := le_set x s.
Definition PH (t : nat) (s : OutputSet) (v : nat) (x : OutputSet) : Prop := smaller x s \/ v = t /\ x = s.
Lemma PH_PA t s v x : PH t s v x -> PA s v x.
Proof. intros [H|(_ & H)]; [left|right]; auto. Qed.
Lemma PA_PH t s p v x : smaller p s -> PA p v x -> PH t s v x.
Proof. intros H [K|K]; left. eapply smaller_trans; eauto. now subst. Qed.
Lemma PH_PH t s p v x : le_set p s -> PH t p v x -> PH t s v x.
Proof. intros [H|H] [K|(K1 & K2)]; subst; try (left; now auto); try (right; now auto). left. eapply smaller_trans; eauto. Qed.

Section Reach.
Variables chash mhash : list nat -> nat.
Notation cur := (cur mhash).
Notation map_inv := (map_inv chash mhash).
Notation Inv := (Inv chash mhash).
Notation Good := (Good chash mhash).
Notation frame_req := (frame_req chash).
Notation frame_ok := (frame_ok chash mhash).
Notation stack_ok := (stack_ok chash mhash).
Notation fits := (fits mhash).
Notation edges_ok := (edges_ok mhash).
Notation access := (access mhash).
Notation task_step := (task_step chash mhash).
Notation drop_frame := (drop_frame mhash).
Notation sys_step := (sys_step chash mhash).
Notation sys_steps := (sys_steps chash mhash).
Notation quiet := (quiet chash mhash).
Notation search_run := (search_run chash mhash).
Notation lock_of := (lock_of mhash).
Notation potential := (potential mhash).

Definition lowerable (c : Config) : Prop := exists c', sys_steps c c' /\ potential (g_map c') < potential (g_map c).
Definition Reach (P : nat -> OutputSet -> Prop) (c : Config) (Q : Config -> Prop) : Prop :=
  lowerable c \/ exists c', quiet P c c' /\ Good c' /\ Q c'.

Lemma reach_ret P c (Q : Config -> Prop) : Good c -> Q c -> Reach P c Q.
Proof. intros G H. right. exists c. split; auto. apply quiet_refl. Qed.
Lemma reach_quiet P c c' Q : quiet P c c' -> Reach P c' Q -> Reach P c Q.
Proof.
  intros H [(c2 & S & L)|(c2 & H2 & G & Hq)].
  - left. exists c2. split. eapply steps_trans; eauto. apply H. now rewrite (quiet_potential chash mhash P c c' H) in L.
  - right. exists c2. split; auto. eapply quiet_trans; eauto.
Qed.
Lemma reach_bind P c (Q Q' : Config -> Prop) : Reach P c Q -> (forall c', quiet P c c' -> Good c' -> Q c' -> Reach P c' Q') -> Reach P c Q'.
Proof. intros [L|(c' & H & G & Hq)] K. now left. apply (reach_quiet P c c'); auto. Qed.
Lemma reach_mono (P P' : nat -> OutputSet -> Prop) c (Q Q' : Config -> Prop) : (forall v x, P v x -> P' v x) -> (forall c', Q c' -> Q' c') -> Reach P c Q -> Reach P' c Q'.
Proof. intros H H' [L|(c' & A & G & B)]. now left. right. exists c'. split; auto. eapply quiet_mono; eauto. Qed.

Section Steps.
Variable P : nat -> OutputSet -> Prop.
Variables (c : Config) (t : nat) (f : Frame) (rest : list Frame) (Q : Config -> Prop).
Hypothesis G : Good c.
Hypothesis A : at_frame c t f rest.
Hypothesis HP : P t (fset f).

Lemma reach_step : access c (frame_req f) <> ABlocked ->
  (forall c1 k c', access c (frame_req f) = ADone c1 k -> quiet P c c' -> Good c' -> ends k rest c' t ->
    g_map c' = g_map c1 -> g_sent c' = g_sent c1 -> (forall u, u <> t -> nth_error (g_tasks c') u = nth_error (g_tasks c1) u) -> Reach P c' Q) ->
  Reach P c Q.
Proof.
  intros NB H. destruct (advance chash mhash P c t f rest G A HP) as [(c' & S & L)|[B|(c1 & k & c' & Ea & Hq & G' & He & _ & M & Sn & O)]].
  - left. exists c'. split; auto. now apply steps_one.
  - contradiction.
  - apply (reach_quiet P c c'); auto. apply (H c1 k c'); auto.
Qed.

Lemma the_req_ok : req_ok chash mhash (g_map c) (goal_in (cores c)) (let x := match nth_error (g_tasks c) t with Some x => x | None => mkTask (mkState 0 0 0 0) (mkOutputSet 0 []) [] false false false None end in (tk_prev x, tk_set x)) rest f (frame_req f).
Proof.
  destruct A as (x & N & S & E). rewrite N. cbv zeta. pose proof (good_inv _ _ c G) as I.
  destruct (stack_split chash mhash c t x f rest I N E) as (Fo & Fi & Sk). apply (frame_req_ok chash mhash); auto. apply (inv_map _ _ c I).
Qed.

Lemma step_tau k : frame_req f = RTau k -> (forall c', quiet P c c' -> Good c' -> ends k rest c' t -> Reach P c' Q) -> Reach P c Q.
Proof.
  intros R H. apply reach_step; rewrite R; cbn [SearchModel.access]. discriminate. intros c1 k' c' E. injection E as <- <-. auto.
Qed.
Lemma step_get s k : frame_req f = RGet s k -> (forall c', quiet P c c' -> Good c' -> ends (k (cur (g_map c) s)) rest c' t -> Reach P c' Q) -> Reach P c Q.
Proof.
  intros R H. pose proof the_req_ok as RO. rewrite R in RO. destruct RO as (K & _).
  assert (E : access c (RGet s k) = ADone c (k (cur (g_map c) s))).
  { cbn [SearchModel.access]. rewrite (sm_get_cur mhash _ s (mi_ok _ _ _ (inv_map _ _ c (good_inv _ _ c G))) (proj1 K)). auto. }
  apply reach_step; rewrite R, E. discriminate. intros c1 k' c' E'. injection E' as <- <-. auto.
Qed.
Lemma step_set s st k : frame_req f = RSet s st k -> Reach P c Q.
Proof.
  intros R. destruct (advance chash mhash P c t f rest G A HP) as [(c' & S & L)|[B|(c1 & k' & c' & Ea & Hq & G' & He & D & _)]].
  - left. exists c'. split; auto. now apply steps_one.
  - rewrite R in B. cbn [SearchModel.access] in B. destruct (sm_set mhash (g_map c) s st); discriminate.
  - now destruct (D s st k).
Qed.
Lemma step_cancel ts k : frame_req f = RCancel ts k -> (forall c', quiet P c c' -> Good c' -> ends k rest c' t -> Reach P c' Q) -> Reach P c Q.
Proof.
  intros R H. apply reach_step; rewrite R; cbn [SearchModel.access]. discriminate. intros c1 k' c' E. injection E as <- <-. auto.
Qed.
Lemma step_sched u k : frame_req f = RSchedule u k -> (forall c', quiet P c c' -> Good c' -> ends k rest c' t ->
    (u <> t -> forall y, nth_error (g_tasks c) u = Some y -> exists y', nth_error (g_tasks c') u = Some y' /\ tk_sched y' = true) -> Reach P c' Q) -> Reach P c Q.
Proof.
  intros R H. apply reach_step; rewrite R; cbn [SearchModel.access]. discriminate. intros c1 k' c' E Hq G' He M Sn O. injection E as <- <-.
  apply H; auto. intros D y N. rewrite (O u D), with_task_nth, Nat.eqb_refl, N. cbn. eauto.
Qed.
Lemma step_spawn prev s pend k : frame_req f = RSpawn prev s pend k -> (forall c' u, quiet P c c' -> Good c' -> ends (k u) rest c' t ->
    u <> t -> nth_error (g_tasks c) u = None -> nth_error (g_tasks c') u = Some (mkTask prev s [FImp prev s ILook] false pend false None) -> Reach P c' Q) -> Reach P c Q.
Proof.
  intros R H. apply reach_step; rewrite R; cbn [SearchModel.access]. discriminate. intros c1 k' c' E Hq G' He M Sn O. injection E as <- <-.
  assert (D : length (g_tasks c) <> t). { destruct A as (x & N & _). apply nth_error_lt in N. lia. }
  apply (H c' (length (g_tasks c))); auto.
  - now apply nth_error_None.
  - rewrite (O _ D). cbn [g_tasks]. rewrite nth_error_app2, Nat.sub_diag by auto. reflexivity.
Qed.
Lemma step_poll u k : frame_req f = RPoll u k -> (forall c' y, nth_error (g_tasks c) u = Some y -> quiet P c c' -> Good c' -> ends (k (tk_result y) (tk_sched y)) rest c' t -> Reach P c' Q) -> Reach P c Q.
Proof.
  intros R H. pose proof the_req_ok as RO. rewrite R in RO. destruct RO as (Ku & _).
  destruct A as (x & N & S & E). pose proof (good_inv _ _ c G) as I.
  assert (K : In u (flat_map kids (frames (cores c)))).
  { apply in_flat_map. exists f. split; auto. apply (frames_nth c t x); auto. rewrite E. now left. }
  destruct (inv_kid _ _ c I) as (_ & IK). destruct (IK u K) as (_ & y & Ny & Cy).
  assert (Ea : access c (RPoll u k) = ADone c (k (tk_result y) (tk_sched y))).
  { cbn [SearchModel.access]. rewrite Ny. destruct (tk_result y); auto. now rewrite Cy. }
  apply reach_step; rewrite R, Ea. discriminate. intros c1 k' c' E' Hq G' He M Sn O. injection E' as <- <-. now apply (H c' y).
Qed.
Lemma step_lock s got busy : frame_req f = RLock s got busy ->
  (lock_of (g_map c) s = None -> forall c' lk, quiet P c c' -> Good c' -> ends (got lk) rest c' t -> Reach P c' Q) ->
  (forall c' id, lock_of (g_map c) s = Some id -> quiet P c c' -> Good c' -> ends (busy id) rest c' t -> Reach P c' Q) -> Reach P c Q.
Proof.
  intros R H1 H2. pose proof the_req_ok as RO. rewrite R in RO. destruct RO as (K & Wk & _). pose proof (good_inv _ _ c G) as I.
  pose proof (sm_get_lock_spec mhash (g_map c) s (g_next c) (mi_ok _ _ _ (inv_map _ _ c I)) (work_okk _ K Wk)) as L.
  destruct (lock_of (g_map c) s) as [id|] eqn:El.
  - apply reach_step; rewrite R; cbn [SearchModel.access]; rewrite L. discriminate. intros c1 k' c' E' Hq G' He M Sn O. injection E' as <- <-. now apply (H2 c' id).
  - destruct L as (m' & L & _). apply reach_step; rewrite R; cbn [SearchModel.access]; rewrite L. discriminate.
    intros c1 k' c' E' Hq G' He M Sn O. injection E' as <- <-. now apply (H1 eq_refl c' (g_next c)).
Qed.
Lemma step_unlock s id k : frame_req f = RUnlock s id k -> (forall c', quiet P c c' -> Good c' -> ends k rest c' t ->
    In id (g_sent c') -> lock_of (g_map c') s = None -> Reach P c' Q) -> Reach P c Q.
Proof.
  intros R H. pose proof the_req_ok as RO. rewrite R in RO. destruct RO as (_ & K & Wk & _). pose proof (good_inv _ _ c G) as I.
  destruct (sm_unlock_spec mhash (g_map c) s (mi_ok _ _ _ (inv_map _ _ c I)) (work_okk _ K Wk)) as (m' & L & _ & _ & Lo).
  apply reach_step; rewrite R; cbn [SearchModel.access]; rewrite L. discriminate.
  intros c1 k' c' E' Hq G' He M Sn O. injection E' as <- <-. apply H; auto. rewrite Sn. now left. rewrite M. cbn [g_map].
  rewrite Lo by apply K. destruct (os_eq_dec s s); [auto|contradiction].
Qed.
Lemma step_wait id k : frame_req f = RWait id k -> In id (g_sent c) -> (forall c', quiet P c c' -> Good c' -> ends k rest c' t -> Reach P c' Q) -> Reach P c Q.
Proof.
  intros R Hi H. assert (Ea : access c (RWait id k) = ADone c k).
  { cbn [SearchModel.access]. replace (existsb (Nat.eqb id) (g_sent c)) with true; auto. symmetry. apply existsb_exists. exists id. split; auto. apply Nat.eqb_refl. }
  apply reach_step; rewrite R, Ea. discriminate. intros c1 k' c' E'. injection E' as <- <-. auto.
Qed.
End Steps.

(* ---- a frame has returned ---- *)
Definition popped (t : nat) (prev : option State) (s : OutputSet) (rest : list Frame) (c : Config) : Prop :=
  exists v, v = cur (g_map c) s /\ (forall p, prev = Some p -> closed v = true \/ v <> p) /\ ends (CReturn v) rest c t.

(* ---- measure for improve_next ---- *)
Definition wt (c : Config) (x : Target) : nat :=
  let here v := if state_eqb v (cur (g_map c) (tg_set x)) then 0 else 2 in
  match tg_run x with
  | None => here (tg_state x)
  | Some u => match nth_error (g_tasks c) u with
              | Some y => match tk_result y with Some r => S (here r) | None => here (tg_state x) end
              | None => here (tg_state x)
              end
  end.
Definition W (c : Config) (e : Edges) : nat := sumf (wt c) (targets e).

Lemma sumf_le {A} (g h : A -> nat) l : (forall x, In x l -> g x <= h x) -> sumf g l <= sumf h l.
Proof.
  induction l as [|a l IH]; intros H; auto. unfold sumf in *. cbn [fold_right]. specialize (IH (fun x Hx => H x (or_intror Hx))).
  specialize (H a (or_introl eq_refl)). lia.
Qed.

Lemma kid_task c goal e x u : goal = goal_in (cores c) -> edges_ok (g_map c) goal e -> In x (targets e) -> tg_run x = Some u ->
  exists y, nth_error (g_tasks c) u = Some y /\ tk_prev y = tg_state x /\ tk_set y = tg_set x /\ closed (tg_state x) = false.
Proof.
  intros -> (T & _) Hx Hr. destruct (T x Hx) as (_ & _ & Cl & Gl). specialize (Gl u Hr). unfold goal_in, cores in Gl. rewrite nth_error_map in Gl.
  destruct (nth_error (g_tasks c) u) as [y|]; [|discriminate]. cbn in Gl. injection Gl as E1 E2. exists y. split; auto. split; auto. split; auto.
  destruct (closed (tg_state x)); auto. rewrite (Cl eq_refl) in Hr. discriminate.
Qed.

Lemma W_quiet P c c' e : Good c' -> quiet P c c' -> edges_ok (g_map c) (goal_in (cores c)) e -> W c' e <= W c e.
Proof.
  intros G Q EO. apply sumf_le. intros x Hx. unfold wt. rewrite (quiet_cur chash mhash P c c' _ Q).
  destruct (tg_run x) as [u|] eqn:Er; auto. destruct (kid_task c _ e x u eq_refl EO Hx Er) as (y & Ny & E1 & E2 & E3). rewrite Ny.
  destruct (q_task _ _ _ _ _ Q u y Ny) as (y' & Ny' & A1 & A2 & A3 & A4 & A5 & A6). rewrite Ny'.
  destruct (tk_result y) as [r|] eqn:Ey. now rewrite (A4 r eq_refl).
  destruct (tk_result y') as [r'|] eqn:Ey'; auto. rewrite E2 in A5. rewrite <- (A5 eq_refl r' eq_refl). rewrite (proj2 (state_eqb_eq r' r') eq_refl).
  destruct (state_eqb (tg_state x) r') eqn:Es; auto. exfalso. apply state_eqb_eq in Es.
  pose proof (inv_core _ _ c' (good_inv _ _ c' G) (core y') (nth_error_In _ _ (nth_cores c' u y' Ny'))) as (_ & _ & H).
  destruct (H r' Ey') as ((_ & [H1|H1]) & _); cbn in H1; congruence.
Qed.

Lemma sumf_upd {A} (g : A -> nat) l : forall i x v, nth_error l i = Some x -> sumf g (upd l i v) + g x = sumf g l + g v.
Proof.
  intros i x v N. destruct (upd_split l i x v N) as (l1 & l2 & -> & _ & ->). clear. unfold sumf. induction l1 as [|a l1 IH]; cbn [app fold_right]; lia.
Qed.

Lemma W_set c e id x h : nth_error (targets e) id = Some x -> W c (set_target e id h) + wt c x = W c e + wt c (h x).
Proof. intros N. unfold W, set_target. cbn [targets]. rewrite N. now apply sumf_upd. Qed.
End Reach.
