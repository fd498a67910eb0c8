(* Every fair execution of the search ends. *)
From Coq Require Import List Arith Bool Lia Permutation.
Import ListNotations.
From Verif Require Import Spec Vec Net Graded Bits Util CountProofs OutputSetModel OutputSetProofs PruneProofs PackProofs HuffmanModel HuffmanProofs CanonModel TreeModel StatesModel StatesProofs StatesBounds SearchModel SearchFair SearchFacts SearchInv SearchEdges SearchStep SearchFrames SearchGlobal SearchRun SearchSafe SearchOrder SearchWaits SearchMain SearchClosed SearchSlack SearchGood SearchQuiet SearchReach SearchNext SearchHuff SearchLive SearchReady SearchCost SearchSpend SearchWork SearchPend IndexProofs.

(* the frames that can always go on *)
Definition free (g : Frame) : Prop :=
  match g with
  | FMain _ _ MCall | FMain _ _ (MDone _) => False
  | FImp _ _ (IWait _) | FImp _ _ (IPrCall _ _ _) | FImp _ _ (IHuff _ _) | FImp _ _ (INext _ _ _ NPend) => False
  | FHuff _ (HNext _ _ _ _ _ _ NPend) => False
  | _ => True
  end.
Definition req_free (r : Req) : Prop := match r with RWait _ _ | RNone => False | _ => True end.
Definition is_done (g : Frame) : Prop := match g with FMain _ _ (MDone _) => True | _ => False end.
(* the task may be run or dropped *)
Definition may_go (x : Task) : Prop := tk_cancel x = true \/ tk_sched x = true.

Lemma next_req_free order e np go done : req_free (next_req order e np go done).
Proof.
  destruct np as [[|id ids] fin nr b| |i [|id ids] b|ids b t]; cbn; auto.
  - destruct (nth_error (targets e) id) as [x|]; cbn; auto. destruct (tg_run x); cbn; auto.
  - destruct (nth_error (targets e) id) as [x|]; cbn; auto. destruct (tg_run x). destruct (i =? 0); cbn; auto. destruct (closed (tg_state x)); cbn; auto.
Qed.
Lemma add_edge_free e t k : req_free (add_edge_req e t k).
Proof. unfold add_edge_req. destruct (find_target _ _ _); cbn; auto. Qed.

Section Ends.
Variables chash mhash : list nat -> nat.
Notation cur := (cur mhash).
Notation Inv := (Inv chash mhash).
Notation Good := (Good chash mhash).
Notation Ready := (Ready chash mhash).
Notation frame_req := (frame_req chash).
Notation frame_ok := (frame_ok chash mhash).
Notation edges_ok := (edges_ok mhash).
Notation access := (access mhash).
Notation task_step := (task_step chash mhash).
Notation drop_frame := (drop_frame mhash).
Notation sys_step := (sys_step chash mhash).
Notation moves := (moves chash mhash).
Notation enabled := (enabled chash mhash).
Notation less := (less mhash).
Notation leq := (leq mhash).
Notation lock_of := (lock_of mhash).

Lemma free_req g : free g -> req_free (frame_req g).
Proof.
  destruct g as [s lim pc|prev s pc|s pc]; cbn [SearchModel.frame_req].
  - destruct pc; cbn; auto. destruct (closed st || _); cbn; auto.
  - destruct pc; cbn [imp_req]; try (cbn; tauto); intros F.
    + destruct (hi pst <? hi st); exact Logic.I.
    + destruct (lo st <? lo pst); exact Logic.I.
    + destruct todo as [|(i, j) todo]; [exact Logic.I|]. destruct (apply_comparator s i j) as (t, ch). destruct ch; [|exact Logic.I].
      destruct (canon chash t); [|exact Logic.I]. apply add_edge_free.
    + destruct (m <- list_min (map hi (edge_states e));; u8_succ m) as [ub|]; [|exact Logic.I]. destruct (ub <? hi st); exact Logic.I.
    + destruct (m <- list_min (map lo (edge_states e));; u8_succ m) as [ub|]; [|exact Logic.I]. destruct (lo st <? ub); exact Logic.I.
    + apply next_req_free.
  - destruct pc; cbn [huff_req]; try (cbn; tauto); intros F.
    + destruct todo as [|(pol, c0) todo]; [exact Logic.I|]. destruct (prune_canon chash s pol c0); [|exact Logic.I]. apply add_edge_free.
    + destruct (lo st <? (if pol then uh1 else uh0)); [|exact Logic.I].
      match goal with |- context [match ?a with _ => _ end] => destruct a as [(lh, uh)|] end; [|exact Logic.I].
      destruct (uh <=? lo st); [|exact Logic.I]. destruct (retain_edges _ e). exact Logic.I.
    + destruct (hlo st <? lh); [|exact Logic.I]. destruct (lo st <? lh); exact Logic.I.
    + destruct (Nat.max uh0 uh1 <? hhi st); exact Logic.I.
    + apply next_req_free.
Qed.
Lemma req_free_go c r : req_free r -> access c r <> ABlocked.
Proof.
  destruct r; cbn [req_free SearchModel.access]; try tauto; intros _.
  - destruct (sm_get mhash (g_map c) s); discriminate.
  - destruct (sm_set mhash (g_map c) s st); discriminate.
  - destruct (sm_get_lock mhash (g_map c) s (g_next c)) as [[]|]; discriminate.
  - destruct (sm_unlock mhash (g_map c) s); discriminate.
  - destruct (nth_error (g_tasks c) t) as [y|]; [|discriminate]. destruct (tk_result y); [discriminate|]. destruct (tk_cancel y); discriminate.
  - discriminate.
  - discriminate.
  - discriminate.
  - discriminate.
Qed.

Definition can (c : Config) (x : Task) (g : Frame) : Prop :=
  tk_cancel x = true \/ tk_sched x = true /\ awake c g /\ access c (frame_req g) <> ABlocked.
Lemma free_can c x g : may_go x -> free g -> can c x g.
Proof.
  intros [H|H] F; [left; auto|right]. split; auto. split. 2: apply req_free_go; now apply free_req.
  destruct g as [s l pc|prev s pc|s pc]; try exact Logic.I; destruct pc; try exact Logic.I; destruct np; try exact Logic.I; destruct F.
Qed.
Lemma can_enabled c t x g rest : Ready c -> nth_error (g_tasks c) t = Some x -> tk_stack x = g :: rest -> can c x g -> enabled c t.
Proof.
  intros R N E H. pose proof (gd_inv _ _ c (rd_good _ _ c R)) as I. destruct H as [H|(S & A & B)].
  - right. pose proof (drop_inv chash mhash c t I) as D. unfold SearchModel.drop_frame in *. rewrite N, H, E in *. cbn [negb] in *. cbv zeta in *.
    destruct (held g) as [(s, id)|]; [|eauto]. destruct (sm_unlock mhash _ s); [eauto|destruct D].
  - left. pose proof (task_step_inv chash mhash c t I) as D. exists x, g, rest.
    assert (X : exists c', task_step c t = Stepped c').
    { unfold SearchModel.task_step in *. rewrite N, S, E in *. cbn [negb] in *. destruct (access c (frame_req g)) as [| |c1 k]; [congruence|destruct D|].
      destruct k as [f'|f' g'|v|]; cbn [run_ctl] in *; eauto. destruct rest as [|f0 r]; eauto. destruct (resume f0 v); eauto. destruct D. destruct D. }
    destruct X as (c' & X). exists c'. auto.
Qed.
Lemma can_keeps c c' x x' g : (forall u y, nth_error (g_tasks c) u = Some y -> exists y', nth_error (g_tasks c') u = Some y' /\ keeps y y') ->
  incl (g_sent c) (g_sent c') -> keeps x x' -> can c x g -> can c' x' g.
Proof.
  intros Ht Hs (K1 & K2 & K3 & K4 & K5) [H|(S & A & B)]; [left; auto|right]. split; auto. split.
  - assert (X : forall e, (exists id x u y, In id (active e) /\ nth_error (targets e) id = Some x /\ tg_run x = Some u /\ nth_error (g_tasks c) u = Some y /\ tk_result y <> None) ->
      (exists id x u y, In id (active e) /\ nth_error (targets e) id = Some x /\ tg_run x = Some u /\ nth_error (g_tasks c') u = Some y /\ tk_result y <> None)).
    { intros e (id & z & u & y & Hi & Nz & Rz & Ny & Hy). destruct (Ht u y Ny) as (y' & Ny' & (_ & _ & _ & _ & Kr)). exists id, z, u, y'. repeat split; auto.
      destruct (tk_result y) as [v|]; [|congruence]. rewrite (Kr v eq_refl). discriminate. }
    destruct g as [s l pc|prev s pc|s pc]; try exact Logic.I; destruct pc; try exact Logic.I; destruct np; try exact Logic.I; now apply X.
  - assert (X : req_free (frame_req g) \/ ~ req_free (frame_req g)) by (destruct (frame_req g); cbn; tauto).
    destruct X as [X|X]. now apply req_free_go. destruct (frame_req g); cbn [req_free] in X; try tauto; cbn [SearchModel.access] in *.
    destruct (existsb (Nat.eqb id) (g_sent c)) eqn:Ex; [|congruence]. replace (existsb (Nat.eqb id) (g_sent c')) with true. discriminate.
    symmetry. apply existsb_exists. apply existsb_exists in Ex. destruct Ex as (z & Hz & Ez). exists z. auto.
Qed.

Variable run : nat -> Config.
Hypothesis HR : forall i, Ready (run i).
Hypothesis HP : forall i, Pend (run i).
Hypothesis HX : execution chash mhash run.
Hypothesis HF : fair chash mhash run.

Lemma inv_at i : Inv (run i).
Proof. apply (gd_inv _ _ _ (rd_good _ _ _ (HR i))). Qed.
Lemma exec_leq i j : i <= j -> leq (run j) (run i).
Proof.
  induction 1 as [|j H IH]. apply leq_refl. destruct (HX j) as [E|S]. now rewrite E. apply (leq_trans mhash _ (run j)); auto. now apply (sys_leq chash mhash).
Qed.
Lemma exec_keeps i j : i <= j -> forall t x, nth_error (g_tasks (run i)) t = Some x -> exists x', nth_error (g_tasks (run j)) t = Some x' /\ keeps x x'.
Proof.
  induction 1 as [|j H IH]; intros t x N. exists x. split; auto using keeps_refl. destruct (IH t x N) as (x' & N' & K).
  destruct (HX j) as [E|S]. rewrite E. eauto. destruct (step_tasks chash mhash _ _ (inv_at j) S) as (Ht & _). destruct (Ht t x' N') as (x'' & N'' & K' & _).
  exists x''. split; auto. eapply keeps_trans; eauto.
Qed.
Lemma exec_res i j u v : i <= j -> res_of (run i) u = Some v -> res_of (run j) u = Some v.
Proof.
  intros H. unfold res_of. destruct (nth_error (g_tasks (run i)) u) as [y|] eqn:N; [|discriminate]. intros E.
  destruct (exec_keeps i j H u y N) as (y' & -> & (_ & _ & _ & _ & Kr)). auto.
Qed.
Lemma exec_sched i j u : i <= j -> sched_in (run i) u -> sched_in (run j) u.
Proof. intros H (y & N & S). destruct (exec_keeps i j H u y N) as (y' & N' & (_ & _ & Ks & _)). exists y'. auto. Qed.

Definition Dec (i : nat) : Prop := exists j, i < j /\ less (run j) (run i).
Lemma dec_later i j : i <= j -> Dec j -> Dec i.
Proof. intros H (k & Hk & L). exists k. split. lia. apply (less_trans' mhash _ (run j)); auto. now apply exec_leq. Qed.
Lemma step_dec i j : i <= j -> less (run (S j)) (run j) -> Dec i.
Proof. intros H L. apply (dec_later i j); auto. exists (S j). split; auto. Qed.

Lemma wait_move n : forall i t x g rest, nth_error (g_tasks (run i)) t = Some x -> tk_stack x = g :: rest -> can (run i) x g ->
  (exists j, i <= j /\ j <= i + n /\ (moves (run j) t (run (S j)) \/ ~ enabled (run j) t)) ->
  exists j x', i <= j /\ nth_error (g_tasks (run j)) t = Some x' /\ tk_stack x' = g :: rest /\ keeps x x' /\ moves (run j) t (run (S j)).
Proof.
  induction n as [|n IH]; intros i t x g rest N E C (j & J1 & J2 & J3).
  - assert (j = i) by lia. subst j. destruct J3 as [J3|J3]. exists i, x. auto using keeps_refl. exfalso. apply J3. eapply can_enabled; eauto.
  - destruct (Nat.eq_dec j i) as [->|D].
    { destruct J3 as [J3|J3]. exists i, x. auto using keeps_refl. exfalso. apply J3. eapply can_enabled; eauto. }
    assert (J : exists j, S i <= j /\ j <= S i + n /\ (moves (run j) t (run (S j)) \/ ~ enabled (run j) t)) by (exists j; repeat split; auto; lia).
    destruct (HX i) as [Eq|S].
    + destruct (IH (S i) t x g rest) as (j' & x' & H1 & H2 & H3 & H4 & H5); auto; try (now rewrite Eq). exists j', x'. repeat split; auto; try lia; apply H4.
    + destruct (step_tasks chash mhash _ _ (inv_at i) S) as (Ht & Hs). destruct (Ht t x N) as (x1 & N1 & K1 & [M|Es]). exists i, x. auto using keeps_refl.
      destruct (IH (Datatypes.S i) t x1 g rest) as (j' & x' & H1 & H2 & H3 & H4 & H5); auto. congruence.
      { apply (can_keeps (run i)) with (x := x); auto. intros u y Ny. destruct (Ht u y Ny) as (y' & Ny' & Ky & _). eauto. }
      exists j', x'. split. lia. split; auto. split; auto. split; auto. eapply keeps_trans; eauto.
Qed.

Lemma progress i t x g rest : nth_error (g_tasks (run i)) t = Some x -> tk_stack x = g :: rest -> can (run i) x g ->
  Dec i \/ exists j x' x'' c1 g', i <= j /\ nth_error (g_tasks (run j)) t = Some x' /\ tk_stack x' = g :: rest /\ keeps x x' /\
    access (run j) (frame_req g) = ADone c1 (CGo g') /\ spin g g' /\ run (S j) = with_task c1 t (set_stack (g' :: rest)) /\
    nth_error (g_tasks (run (S j))) t = Some x'' /\ tk_stack x'' = g' :: rest /\ keeps x x''.
Proof.
  intros N E C. destruct (HF t i) as (j0 & J0 & J1).
  destruct (wait_move (j0 - i) i t x g rest N E C) as (j & x' & H1 & H2 & H3 & H4 & H5). { exists j0. repeat split; auto. lia. }
  destruct H5 as [H5|H5]. 2: { left. apply (step_dec i j); auto. eapply drop_less; eauto. }
  unfold SearchModel.task_step in H5. rewrite H2 in H5. destruct (tk_sched x') eqn:Sx; [|discriminate]. cbn [negb] in H5. rewrite H3 in H5.
  destruct (access (run j) (frame_req g)) as [| |c1 k] eqn:Ea; try discriminate.
  destruct (own_step chash mhash (run j) t x' g rest c1 k (run (S j)) (HR j) H2 Sx H3 Ea H5) as [L|(_ & g' & -> & Sp)].
  left. now apply (step_dec i j). right. cbn [run_ctl] in H5. injection H5 as H5.
  destruct (access_old chash mhash (run j) _ c1 _ Ea t x' H2) as (x1 & N1 & Ev).
  exists j, x', (set_stack (g' :: rest) x1), c1, g'. repeat (split; [now auto|]). split. { rewrite <- H5, with_task_nth, Nat.eqb_refl, N1. reflexivity. }
  split; auto. apply (keeps_trans x x'); auto. apply (keeps_trans x' x1). now apply evolve_keeps. unfold keeps; cbn; tauto.
Qed.
Lemma may_keeps x x' : keeps x x' -> may_go x -> may_go x'.
Proof. intros (_ & _ & A & B & _) [H|H]; [left|right]; auto. Qed.

Definition Prog (p : OutputSet) : Prop := forall i t x g rest, nth_error (g_tasks (run i)) t = Some x -> tk_stack x = g :: rest -> fset g = p ->
  may_go x -> ~ is_done g -> Dec i.

Section Set_.
Variable s : OutputSet.
Hypothesis IH : forall p, smaller p s -> Prog p.

Lemma kid_dec i t x g rest u : nth_error (g_tasks (run i)) t = Some x -> tk_stack x = g :: rest -> fset g = s -> In u (kids g) ->
  sched_in (run i) u -> res_of (run i) u = None -> Dec i.
Proof.
  intros N E Fs Hu Su Ru. pose proof (rd_good _ _ _ (HR i)) as G. pose proof (gd_inv _ _ _ G) as I.
  assert (Sx : tk_sched x = true).
  { destruct (gd_tasks _ _ _ G t x N) as (T1 & _). destruct (tk_sched x); auto. destruct (T1 eq_refl) as [T|(p & q & T)]; rewrite E in T; [discriminate|].
    injection T as -> _. destruct Hu. }
  destruct (kid_facts chash mhash s (run i) t g rest u G) as (Pu & Du & y & Ny & Cy & Sm); auto. { exists x. auto. }
  unfold res_of in Ru. rewrite Ny in Ru. destruct Su as (y' & Ny' & Sy). rewrite Ny in Ny'. injection Ny' as <-.
  destruct (gd_tasks _ _ _ G u y Ny) as (_ & _ & T3). destruct (tk_stack y) as [|h r] eqn:Ey. { exfalso. now apply T3. }
  pose proof (task_stack_ok chash mhash (run i) u y G Ny) as SO. rewrite Ey in SO.
  assert (NM : forall f, In f (h :: r) -> kind f = None).
  { destruct (gd_main _ _ _ G) as (K & HK & _ & Mk). specialize (Mk u y Ny). unfold kinds_ok in Mk. destruct (Nat.eqb_spec u 0) as [->|_]; [lia|].
    now rewrite Ey in Mk. }
  apply root_top in SO. 2: { intros s0 lim pc H. specialize (NM _ H). discriminate. }
  apply (IH (fset h)) with (t := u) (x := y) (g := h) (rest := r); auto.
  - cbn [snd] in SO. destruct SO as [SO| ->]; auto. eapply smaller_trans; eauto.
  - now right.
  - specialize (NM h (or_introl eq_refl)). destruct h; [discriminate| |]; cbn; tauto.
Qed.

Section Next.
Variable order : option nat.
Variable mk : Edges -> NextPc -> Frame.
Variable done : Edges -> Ctl.
Variable t : nat.
Variable rest : list Frame.
Hypothesis Hreq : forall e np, frame_req (mk e np) = next_req order e np mk done.
Hypothesis Hspin : forall e np g, spin (mk e np) g -> exists e' np', g = mk e' np' /\ nspin order e np e' np'.
Hypothesis Hinj : forall e np e' np', mk e np = mk e' np' -> e = e' /\ np = np'.
Hypothesis Hset : forall e np, fset (mk e np) = s.
Hypothesis Hedges : forall e np, frame_edges (mk e np) = e.
Hypothesis Hnp : forall e np, ready_frame (mk e np) -> np_in e np.
Hypothesis Hpend : forall c e np, pend_frame c (mk e np) -> np_sched c e np.
Hypothesis Hfree : forall e np, np <> NPend -> free (mk e np).
Hypothesis Hawake : forall c e, (exists id x u y, In id (active e) /\ nth_error (targets e) id = Some x /\ tg_run x = Some u /\
    nth_error (g_tasks c) u = Some y /\ tk_result y <> None) -> awake c (mk e NPend).

Definition head (i : nat) (e : Edges) (np : NextPc) : Prop :=
  exists x, nth_error (g_tasks (run i)) t = Some x /\ tk_stack x = mk e np :: rest /\ may_go x.
Definition fdone (i : nat) (e : Edges) (id : nat) : Prop :=
  exists x u v, nth_error (targets e) id = Some x /\ tg_run x = Some u /\ res_of (run i) u = Some v.

Lemma fdone_later i j e id : i <= j -> fdone i e id -> fdone j e id.
Proof. intros H (x & u & v & A & B & C). exists x, u, v. repeat split; auto. now apply (exec_res i j). Qed.
Lemma head_frame i e np : head i e np -> In (mk e np) (frames (cores (run i))).
Proof. intros (x & N & E & _). apply (frames_nth (run i) t x); auto. rewrite E. now left. Qed.
Lemma head_edges i e np : head i e np -> edges_ok (g_map (run i)) (goal_in (cores (run i))) e.
Proof.
  intros (x & N & E & _). rewrite <- (Hedges e np). apply (frame_edges_ok chash mhash).
  pose proof (task_stack_ok chash mhash (run i) t x (rd_good _ _ _ (HR i)) N) as SO. rewrite E in SO. apply SO.
Qed.
Lemma head_in i e np : head i e np -> np_in e np.
Proof. intros H. apply Hnp. apply (rd_frames _ _ _ (HR i)). now apply head_frame. Qed.
Lemma head_kid i e np id x u : head i e np -> nth_error (targets e) id = Some x -> tg_run x = Some u ->
  In u (kids (mk e np)) /\ exists y, nth_error (g_tasks (run i)) u = Some y.
Proof.
  intros H N R. assert (K : In u (kids (mk e np))). { unfold kids. rewrite Hedges. apply (In_running e x u); auto. now apply nth_error_In in N. }
  split; auto. destruct (inv_kid _ _ _ (inv_at i)) as (_ & IK). destruct (IK u) as (_ & y & Ny & _). { apply in_flat_map. exists (mk e np). split; auto. now apply (head_frame i). }
  eauto.
Qed.
Lemma head_kid_dec i e np id x u : head i e np -> nth_error (targets e) id = Some x -> tg_run x = Some u -> sched_in (run i) u -> res_of (run i) u = None -> Dec i.
Proof.
  intros H N R S Ru. destruct (head_kid i e np id x u H N R) as (K & _). destruct H as (y & Ny & Ey & _). apply (kid_dec i t y (mk e np) rest u); auto.
Qed.

Lemma advance i e np : head i e np -> (np <> NPend \/ awake (run i) (mk e np)) ->
  Dec i \/ exists j c1 e' np', i <= j /\ head j e np /\ access (run j) (next_req order e np mk done) = ADone c1 (CGo (mk e' np')) /\ nspin order e np e' np' /\
    run (S j) = with_task c1 t (set_stack (mk e' np' :: rest)) /\ head (S j) e' np'.
Proof.
  intros (x & N & E & M) D.
  assert (C : can (run i) x (mk e np)).
  { destruct D as [D|D]. now apply free_can; auto. destruct M as [M|M]; [now left|right]. split; auto. split; auto. apply req_free_go. rewrite Hreq. apply next_req_free. }
  destruct (progress i t x (mk e np) rest N E C) as [H|(j & x' & x'' & c1 & g' & H1 & H2 & H3 & H4 & H5 & H6 & H7 & H8 & H9 & H10)]; [now left|right].
  destruct (Hspin e np g' H6) as (e' & np' & -> & Sp). exists j, c1, e', np'. rewrite Hreq in H5. repeat (split; [now auto|]).
  split. { exists x'. repeat split; auto. eapply may_keeps; eauto. } repeat (split; [now auto|]). exists x''. repeat split; auto. eapply may_keeps; eauto.
Qed.

Lemma poll_result e ids : forall i fin nr b id0, head i e (NPoll ids fin nr b) -> In id0 ids -> fdone i e id0 -> Dec i.
Proof.
  induction ids as [|id ids IHl]; intros i fin nr b id0 H Hi F. destruct Hi.
  destruct (advance i e _ H) as [D|(j & c1 & e' & np' & Hj & Hh & Ea & Sp & Er & Hn)]; auto. left; discriminate.
  inversion Sp; subst. destruct (Nat.eq_dec id id0) as [->|Ne].
  - exfalso. destruct (fdone_later i j _ _ Hj F) as (x & u & v & Nx & Rx & Rv). unfold res_of in Rv. cbn [next_req] in Ea. rewrite Nx, Rx in Ea. cbn [SearchModel.access] in Ea.
    destruct (nth_error (g_tasks (run j)) u) as [y|]; [|discriminate]. rewrite Rv in Ea. injection Ea as _ Ea. apply Hinj in Ea. destruct Ea as (Ea & _).
    pose proof Nx as Nx2. rewrite <- Ea in Nx2. unfold set_target in Nx2. rewrite Nx in Nx2. cbn [targets] in Nx2. rewrite SearchEdges.nth_error_upd_eq in Nx2 by (apply nth_error_Some; congruence).
    injection Nx2 as Nx2. apply (f_equal tg_run) in Nx2. cbn in Nx2. congruence.
  - destruct Hi as [Hi|Hi]; [congruence|]. apply (dec_later i (S j)). lia. apply (IHl (S j) fin nr' b id0); auto. apply (fdone_later i); auto.
Qed.
Lemma spawn_result e ids : forall i k b id0, head i e (NSpawn k ids b) -> In id0 (active e) -> fdone i e id0 -> Dec i.
Proof.
  induction ids as [|id ids IHl]; intros i k b id0 H Hi F.
  - destruct (advance i e _ H) as [D|(j & c1 & e' & np' & Hj & Hh & Ea & Sp & Er & Hn)]; auto. left; discriminate.
    inversion Sp; subst. apply (dec_later i (S j)). lia. apply (poll_result e' (active e') (S j) false 0 b id0); auto. apply (fdone_later i); auto.
  - destruct (advance i e _ H) as [D|(j & c1 & e' & np' & Hj & Hh & Ea & Sp & Er & Hn)]; auto. left; discriminate.
    inversion Sp; subst. apply (dec_later i (S j)). lia. apply (IHl (S j) (S k) b id0); auto. apply (fdone_later i); auto.
Qed.
Lemma spawn_first i e id ids b : head i e (NSpawn 0 (id :: ids) b) -> Dec i.
Proof.
  intros H. destruct (advance i e _ H) as [D|(j & c1 & e' & np' & Hj & Hh & Ea & Sp & Er & Hn)]; auto. left; discriminate.
  inversion Sp; subst. pose proof (head_in j _ _ Hh) as Hin. cbn [np_in] in Hin. specialize (Hin id (or_introl eq_refl)).
  destruct (head_edges j _ _ Hh) as (_ & _ & Lt). specialize (Lt id Hin). destruct (nth_error (targets e') id) as [x|] eqn:Nx. 2: { apply nth_error_None in Nx. lia. }
  cbn [next_req] in Ea. rewrite Nx in Ea. cbv zeta in Ea. destruct (tg_run x) as [u|] eqn:Rx.
  - cbn [Nat.eqb SearchModel.access] in Ea. injection Ea as Ec. destruct (head_kid j e' _ id x u Hh Nx Rx) as (_ & y & Ny).
    assert (Su : sched_in (run (S j)) u).
    { rewrite Er, <- Ec. unfold sched_in. rewrite !with_task_nth. rewrite Nat.eqb_refl, Ny. cbn [option_map]. destruct (u =? t); cbn [option_map]; eexists; split; reflexivity. }
    apply (dec_later i (S j)). lia. destruct (res_of (run (S j)) u) as [v|] eqn:Rv.
    + apply (spawn_result e' ids (S j) 1 b id); auto. exists x, u, v. auto.
    + apply (head_kid_dec (S j) e' (NSpawn 1 ids b) id x u); auto.
  - exfalso. destruct (closed (tg_state x)). discriminate. cbn [SearchModel.access Nat.eqb] in Ea. injection Ea as _ Ea. apply Hinj in Ea. destruct Ea as (_ & Ea). discriminate.
Qed.
Lemma spawn_zero i e b : active e <> [] -> head i e (NSpawn 0 (active e) b) -> Dec i.
Proof. intros A H. destruct (active e) as [|id ids]. congruence. now apply (spawn_first i e id ids b). Qed.
Lemma sort_nonempty e : active e <> [] -> active (sort_active order e) <> [].
Proof.
  intros A H. destruct (active e) as [|id ids] eqn:E. congruence. assert (X : In id (active (sort_active order e))). { apply sort_active_In'. rewrite E. now left. }
  rewrite H in X. destruct X.
Qed.
Lemma pend_dec i e : head i e NPend -> Dec i.
Proof.
  intros H. pose proof (HP i _ (head_frame i e _ H)) as P. apply Hpend in P. destruct P as (id & x & u & Hi & Nx & Rx & Su).
  destruct (res_of (run i) u) as [v|] eqn:Rv. 2: { apply (head_kid_dec i e NPend id x u); auto. }
  destruct (advance i e _ H) as [D|(j & c1 & e' & np' & Hj & Hh & Ea & Sp & Er & Hn)]; auto.
  { right. apply Hawake. unfold res_of in Rv. destruct (nth_error (g_tasks (run i)) u) as [y|] eqn:Ny; [|discriminate]. exists id, x, u, y. repeat split; auto. congruence. }
  inversion Sp; subst. apply (dec_later i (S j)). lia. eapply spawn_zero; [|exact Hn]. apply sort_nonempty. intros E. rewrite E in Hi. destruct Hi.
Qed.
Lemma poll_dec e ids : forall i fin nr b, head i e (NPoll ids fin nr b) -> Dec i.
Proof.
  induction ids as [|id ids IHl]; intros i fin nr b H;
    (destruct (advance i e _ H) as [D|(j & c1 & e' & np' & Hj & Hh & Ea & Sp & Er & Hn)]; auto; [left; discriminate|]); apply (dec_later i (S j)); try lia; inversion Sp; subst.
  - now apply (pend_dec (S j) e').
  - eapply spawn_zero; [|exact Hn]. now apply sort_nonempty.
  - eapply IHl; eauto.
Qed.
Lemma spawn_dec e ids : forall i k b, head i e (NSpawn k ids b) -> Dec i.
Proof.
  induction ids as [|id ids IHl]; intros i k b H;
    (destruct (advance i e _ H) as [D|(j & c1 & e' & np' & Hj & Hh & Ea & Sp & Er & Hn)]; auto; [left; discriminate|]); apply (dec_later i (S j)); try lia; inversion Sp; subst.
  - eapply poll_dec; eauto.
  - eapply IHl; eauto.
Qed.
Lemma next_dec i e np : head i e np -> Dec i.
Proof.
  destruct np as [ids fin nr b| |k ids b|ids b u]; intros H. eapply poll_dec; eauto. eapply pend_dec; eauto. eapply spawn_dec; eauto.
  destruct (advance i e _ H) as [D|(j & c1 & e' & np' & Hj & Hh & Ea & Sp & Er & Hn)]; auto. left; discriminate. inversion Sp.
Qed.
End Next.

(* the frames that do not wait for a lock *)
Definition busy (g : Frame) : Prop := match g with FImp _ _ ILook | FImp _ _ ILock | FImp _ _ (IWait _) => False | _ => True end.
Lemma held_busy g p : held g = Some p -> busy g.
Proof. destruct g as [s0 l pc|prev s0 pc|s0 pc]; cbn; auto. destruct pc; cbn; auto; discriminate. Qed.

Lemma top_can i t x g rest : nth_error (g_tasks (run i)) t = Some x -> tk_stack x = g :: rest -> may_go x ->
  (tk_cancel x = true \/ live g -> can (run i) x g) -> can (run i) x g.
Proof.
  intros N E M H. apply H. destruct (tk_cancel x) eqn:C; auto. right. destruct (gd_tasks _ _ _ (rd_good _ _ _ (HR i)) t x N) as (_ & T & _). eapply T; eauto.
Qed.

Lemma busy_dec i t x g rest : nth_error (g_tasks (run i)) t = Some x -> tk_stack x = g :: rest -> fset g = s -> may_go x -> busy g -> ~ is_done g -> Dec i.
Proof.
  intros N E Fs M B ND.
  assert (X : (exists prev lk st e np, g = FImp prev s (INext lk st e np)) \/ (exists st ids0 ids1 uh0 uh1 e np, g = FHuff s (HNext st ids0 ids1 uh0 uh1 e np)) \/
    ((forall g', ~ spin g g') /\ (free g \/ ~ live g))).
  { destruct g as [s0 l pc|prev s0 pc|s0 pc]; cbn [fset] in Fs; subst s0.
    - right. right. split. intros g' Hs; inversion Hs. destruct pc; cbn in *; tauto.
    - destruct pc; cbn in B; try tauto; try (right; right; split; [intros g' Hs; inversion Hs|cbn; tauto]). left. eauto 8.
    - destruct pc; try (right; right; split; [intros g' Hs; inversion Hs|cbn; tauto]). right. left. eauto 10. }
  destruct X as [(prev & lk & st & e & np & ->)|[(st & ids0 & ids1 & uh0 & uh1 & e & np & ->)|(Ns & L)]].
  - eapply next_dec with (order := Some (lo st)) (mk := fun e np => FImp prev s (INext lk st e np)) (t := t) (rest := rest) (e := e) (np := np).
    all: try reflexivity.
    + intros e0 np0 g H. inversion H; subst. eauto.
    + intros e0 np0 e1 np1 H. now injection H.
    + intros e0 np0 (_ & H). exact H.
    + intros c e0 np0 H. exact H.
    + intros e0 np0 H. destruct np0; cbn; auto.
    + intros c e0 H. exact H.
    + exists x. auto.
  - eapply next_dec with (order := None) (mk := fun e np => FHuff s (HNext st ids0 ids1 uh0 uh1 e np)) (t := t) (rest := rest) (e := e) (np := np).
    all: try reflexivity.
    + intros e0 np0 g H. inversion H; subst. eauto.
    + intros e0 np0 e1 np1 H. now injection H.
    + intros e0 np0 H. exact H.
    + intros c e0 np0 H. exact H.
    + intros e0 np0 H. destruct np0; cbn; auto.
    + intros c e0 H. exact H.
    + exists x. auto.
  - assert (C : can (run i) x g).
    { apply (top_can i t x g rest); auto. intros [H|H]; [now left|]. destruct L as [L|L]; [|contradiction]. now apply free_can. }
    destruct (progress i t x g rest N E C) as [H|(j & x' & x'' & c1 & g' & H1 & H2 & H3 & H4 & H5 & H6 & H7 & H8 & H9 & H10)]; auto. exfalso. now apply (Ns g').
Qed.

Lemma holder_dec i id : In (s, id) (flat_map hl (frames (cores (run i)))) -> Dec i.
Proof.
  intros Hl. pose proof (rd_good _ _ _ (HR i)) as G. apply in_flat_map in Hl. destruct Hl as (h & Hf & Hh). unfold hl in Hh. destruct (held h) as [p|] eqn:Eh; [|destruct Hh].
  destruct Hh as [->|[]]. destruct (frames_In (run i) h Hf) as (w & x & N & Hi). apply in_split in Hi. destruct Hi as (above & below & E).
  pose proof (held_fset h s id Eh) as Es.
  assert (M : may_go x).
  { destruct (tk_sched x) eqn:Sx; [now right|]. exfalso. destruct (gd_tasks _ _ _ G w x N) as (T1 & _). destruct (T1 Sx) as [T|(p & q & T)]; rewrite E in T.
    destruct above; discriminate. destruct above as [|a above]; cbn in T. injection T as -> _. discriminate. injection T as _ T. destruct above; discriminate. }
  pose proof (task_stack_ok chash mhash (run i) w x G N) as SO. rewrite E in SO. destruct above as [|f above]; cbn [app] in *.
  - apply (busy_dec i w x h below); auto. eapply held_busy; eauto. destruct h; cbn; auto; discriminate.
  - assert (Hin : In h (above ++ h :: below)) by (apply in_or_app; right; now left).
    destruct f as [s0 l pc|prev0 s0 pc|s0 pc].
    + exfalso. destruct SO as (_ & Fi & _). destruct above as [|a above]; cbn [app hd_error fits] in Fi.
      * destruct h as [a b pc1|a b pc1|a pc1]; try tauto; destruct pc1; tauto.
      * destruct a as [a b pc1|a b pc1|a pc1]; try tauto; destruct pc1; tauto.
    + pose proof (imp_above chash mhash _ _ _ _ _ _ _ _ _ _ SO Hin Eh) as Sm.
      apply (IH s0 Sm i w x _ _ N E); auto.
    + pose proof (stack_order chash mhash _ _ _ _ _ SO) as (O & _). specialize (O h Hin). cbn [fset] in O. rewrite Es in O. destruct O as [O|O].
      * apply (IH s0 O i w x _ _ N E); auto.
      * apply (busy_dec i w x _ _ N E); auto; exact Logic.I.
Qed.

Section Wait.
Variable prev : State.
Variable t : nat.
Variable rest : list Frame.
Definition at_pc (i : nat) (pc : ImpPc) : Prop := exists x, nth_error (g_tasks (run i)) t = Some x /\ tk_stack x = FImp prev s pc :: rest /\ may_go x.

Lemma lock_dec i : at_pc i ILock -> Dec i.
Proof.
  intros (x & N & E & M).
  destruct (progress i t x _ rest N E (free_can _ _ (FImp prev s ILock) M Logic.I)) as [H|(j & x' & x'' & c1 & g' & H1 & H2 & H3 & H4 & H5 & H6 & H7 & H8 & H9 & H10)]; auto.
  pose proof (task_stack_ok chash mhash (run j) t x' (rd_good _ _ _ (HR j)) H2) as SO. rewrite H3 in SO. destruct SO as ((K & Wk) & _).
  cbn [SearchModel.frame_req imp_req SearchModel.access] in H5.
  pose proof (sm_get_lock_spec mhash (g_map (run j)) s (g_next (run j)) (mi_ok _ _ _ (inv_map _ _ _ (inv_at j))) (work_okk _ K Wk)) as L.
  destruct (lock_of (g_map (run j)) s) as [id|] eqn:El.
  - apply (dec_later i j); auto. apply (holder_dec j id). destruct (inv_lock _ _ _ (inv_at j)) as (_ & _ & B & _). apply B; auto. apply K.
  - exfalso. destruct L as (m' & L & _). rewrite L in H5. injection H5 as _ H5. subst g'. inversion H6.
Qed.
Lemma look_dec i : at_pc i ILook -> Dec i.
Proof.
  intros (x & N & E & M).
  destruct (progress i t x _ rest N E (free_can _ _ (FImp prev s ILook) M Logic.I)) as [H|(j & x' & x'' & c1 & g' & H1 & H2 & H3 & H4 & H5 & H6 & H7 & H8 & H9 & H10)]; auto.
  apply (dec_later i (S j)). lia. inversion H6; subst. apply lock_dec. exists x''. repeat split; auto. eapply may_keeps; eauto.
Qed.
Lemma wait_dec i id : at_pc i (IWait id) -> Dec i.
Proof.
  intros (x & N & E & M). destruct (inv_wait _ _ _ (inv_at i) (s, id)) as [H|H].
  - apply in_flat_map. exists (FImp prev s (IWait id)). split. apply (frames_nth _ t x); auto. rewrite E. now left. now left.
  - assert (C : can (run i) x (FImp prev s (IWait id))).
    { destruct M as [M|M]; [now left|right]. split; auto. split. exact Logic.I. cbn [SearchModel.frame_req imp_req SearchModel.access].
      replace (existsb (Nat.eqb id) (g_sent (run i))) with true. discriminate. symmetry. apply existsb_exists. exists id. split; auto. apply Nat.eqb_refl. }
    destruct (progress i t x _ rest N E C) as [D|(j & x' & x'' & c1 & g' & H1 & H2 & H3 & H4 & H5 & H6 & H7 & H8 & H9 & H10)]; auto.
    apply (dec_later i (S j)). lia. inversion H6; subst. apply look_dec. exists x''. repeat split; auto. eapply may_keeps; eauto.
  - now apply (holder_dec i id).
Qed.
End Wait.

Lemma set_prog : Prog s.
Proof.
  intros i t x g rest N E Fs M ND. assert (B : busy g \/ ~ busy g) by (destruct g as [| ? ? pc|]; [left|destruct pc|left]; cbn; tauto).
  destruct B as [B|B]. now apply (busy_dec i t x g rest). destruct g as [s0 l pc|prev s0 pc|s0 pc]; cbn in B; try tauto. cbn in Fs. subst s0. destruct pc; try tauto.
  - apply (look_dec prev t rest). exists x. auto.
  - apply (lock_dec prev t rest). exists x. auto.
  - apply (wait_dec prev t rest i id). exists x. auto.
Qed.
End Set_.

Lemma prog s : Prog s.
Proof. induction s as [s IH] using (well_founded_induction smaller_wf). apply set_prog. auto. Qed.

Lemma main_dec i : Dec i \/ exists k, search_result (run i) k.
Proof.
  pose proof (rd_good _ _ _ (HR i)) as G. destruct (gd_main _ _ _ G) as (K & HK & (x & N & C) & Mk). specialize (Mk 0 x N). unfold kinds_ok in Mk. cbn [Nat.eqb] in Mk. destruct Mk as (k & Mk).
  destruct (gd_tasks _ _ _ G 0 x N) as (T1 & T2 & T3). destruct (tk_stack x) as [|g rest] eqn:E. { destruct k; discriminate. }
  assert (Sx : tk_sched x = true).
  { destruct (tk_sched x); auto. destruct (T1 eq_refl) as [T|(p & q & T)]; [discriminate|]. injection T as -> ->. cbn in Mk. destruct k as [|[|k]]; cbn in Mk; try discriminate. injection Mk as Mk. congruence. }
  assert (D : is_done g \/ ~ is_done g) by (destruct g as [? ? pc| |]; [destruct pc| |]; cbn; tauto).
  destruct D as [D|D]. 2: { left. apply (prog (fset g) i 0 x g rest); auto. now right. }
  right. destruct g as [s l pc| |]; try destruct D. destruct pc; try destruct D. exists k0. unfold search_result. exists x, s, l. split; auto. rewrite E. f_equal.
  cbn [map] in Mk. destruct k as [|k]; cbn in Mk. injection Mk as _ Mk. now destruct rest. injection Mk as Mk _. discriminate.
Qed.

Theorem ends : forall i, exists j k, i <= j /\ search_result (run j) k.
Proof.
  intros i. remember (run i) as c eqn:E. revert i E. induction c as [c IH] using (well_founded_induction (less_wf mhash)). intros i ->.
  destruct (main_dec i) as [(j & Hj & L)|(k & H)]. 2: { exists i, k. auto. }
  destruct (IH (run j) L j eq_refl) as (j' & k & A & B). exists j', k. split; auto. lia.
Qed.
End Ends.
