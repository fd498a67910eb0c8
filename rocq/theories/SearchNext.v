(* improve_next returns, unless the map can be improved. *)
From Coq Require Import List Arith Bool Lia Permutation.
Import ListNotations.
From Verif Require Import Spec Vec Net Graded Bits Util CountProofs OutputSetModel OutputSetProofs PruneProofs PackProofs HuffmanModel HuffmanProofs CanonModel TreeModel StatesModel StatesProofs StatesBounds SearchModel SearchFacts SearchInv SearchEdges SearchStep SearchFrames SearchGlobal SearchRun SearchSafe SearchOrder SearchWaits SearchMain SearchClosed SearchSlack SearchGood SearchQuiet SearchReach.

Definition prev_of (f : Frame) : option State := match f with FImp prev _ _ => Some prev | _ => None end.

Section Next.
Variables chash mhash : list nat -> nat.
Notation cur := (cur mhash).
Notation map_inv := (map_inv chash mhash).
Notation Inv := (Inv chash mhash).
Notation Good := (Good chash mhash).
Notation frame_req := (frame_req chash).
Notation frame_ok := (frame_ok chash mhash).
Notation stack_ok := (stack_ok chash mhash).
Notation edges_ok := (edges_ok mhash).
Notation quiet := (quiet chash mhash).
Notation Reach := (Reach chash mhash).
Notation popped := (popped mhash).
Notation W := (W mhash).
Notation wt := (wt mhash).

(* innermost frames about p return *)
Definition Pops (p : OutputSet) : Prop := forall c v f rest, Good c -> at_frame c v f rest -> live f -> fset f = p -> kind f = None ->
  Reach (PA p) c (popped v (prev_of f) p rest).

Variable s : OutputSet.
Hypothesis IH : forall p, smaller p s -> Pops p.

Lemma at_frame_In c t f rest : at_frame c t f rest -> In f (frames (cores c)).
Proof. intros (x & N & _ & E). apply (frames_nth c t x); auto. rewrite E. now left. Qed.

Lemma kid_facts c t f rest u : Good c -> at_frame c t f rest -> fset f = s -> In u (kids f) ->
  0 < u /\ u <> t /\ exists y, nth_error (g_tasks c) u = Some y /\ tk_cancel y = false /\ smaller (tk_set y) s.
Proof.
  intros G A Fs Hu. pose proof (good_inv _ _ c G) as I. pose proof (at_frame_In c t f rest A) as Hf.
  destruct (kid_goal chash mhash c f u I Hf Hu (gd_small _ _ c G f Hf)) as (y & Ny & Sm). rewrite Fs in Sm.
  destruct (inv_kid _ _ c I) as (_ & IK). destruct (IK u) as (Pu & y' & Ny' & Cy). { apply in_flat_map. eauto. }
  rewrite Ny in Ny'. injection Ny' as <-. split; auto. split; [|eauto].
  intros ->. destruct A as (x & N & _ & E). rewrite Ny in N. injection N as <-.
  pose proof (inv_core _ _ c I (core y) (nth_error_In _ _ (nth_cores c t y Ny))) as (_ & Sk & _). cbn [c_stack core c_root] in Sk. rewrite E in Sk.
  apply root_top in Sk.
  - cbn in Sk. rewrite Fs in Sk. apply (smaller_irrefl s). destruct Sk as [Sk|Sk]. eapply smaller_trans; eauto. now rewrite <- Sk in Sm.
  - destruct (gd_main _ _ c G) as (K & HK & _ & Mk). specialize (Mk t y Ny). unfold kinds_ok in Mk. destruct (Nat.eqb_spec t 0) as [->|_]; [lia|].
    rewrite E in Mk. intros s0 lim pc H. specialize (Mk _ H). discriminate.
Qed.

(* a scheduled child is finished *)
Lemma child_run t f rest u : fset f = s -> In u (kids f) ->
  forall n c y, Good c -> at_frame c t f rest -> nth_error (g_tasks c) u = Some y -> tk_sched y = true -> length (tk_stack y) <= n ->
  Reach (PH t s) c (fun c' => at_frame c' t f rest /\ exists y r, nth_error (g_tasks c') u = Some y /\ tk_result y = Some r).
Proof.
  intros Fs Hu. induction n as [|n IHn]; intros c y G A Ny Sy Ln; destruct (kid_facts c t f rest u G A Fs Hu) as (Pu & Du & y' & Ny' & Cy & Sm);
    rewrite Ny in Ny'; injection Ny' as <-; destruct (gd_tasks _ _ c G u y Ny) as (_ & T2 & T3).
  - destruct (tk_stack y) as [|f0 r0] eqn:E; [|cbn in Ln; lia]. specialize (T3 Cy eq_refl). apply reach_ret; auto. split; auto.
    destruct (tk_result y) as [r|] eqn:Er; [eauto|contradiction].
  - destruct (tk_stack y) as [|f0 r0] eqn:E.
    { specialize (T3 Cy eq_refl). apply reach_ret; auto. split; auto. destruct (tk_result y) as [r|] eqn:Er; [eauto|contradiction]. }
    specialize (T2 Cy f0 r0 eq_refl). pose proof (good_inv _ _ c G) as I.
    destruct (gd_main _ _ c G) as (K & HK & _ & Mk). specialize (Mk u y Ny). unfold kinds_ok in Mk. destruct (Nat.eqb_spec u 0) as [->|_]; [lia|].
    rewrite E in Mk.
    pose proof (inv_core _ _ c I (core y) (nth_error_In _ _ (nth_cores c u y Ny))) as (_ & Sk & _). cbn [c_stack core c_root] in Sk. rewrite E in Sk.
    apply root_top in Sk. 2: { intros s0 lim pc H. specialize (Mk _ H). discriminate. }
    cbn [snd] in Sk. assert (Sp : smaller (fset f0) s). { destruct Sk as [Sk|Sk]. eapply smaller_trans; eauto. now rewrite Sk. }
    assert (Au : at_frame c u f0 r0) by (exists y; auto).
    destruct (IH (fset f0) Sp c u f0 r0 G Au T2 eq_refl (Mk f0 (or_introl eq_refl))) as [L|(c' & Hq & G' & (v & Hv & _ & He))]; [now left|].
    assert (A' : at_frame c' t f rest).
    { apply (quiet_at chash mhash (PA (fset f0)) c); auto. rewrite Fs. intros [H|H]. apply (smaller_irrefl s). eapply smaller_trans; eauto. apply (smaller_irrefl s). now rewrite H at 1. }
    apply (reach_quiet chash mhash _ c c'). { apply (quiet_mono chash mhash (PA (fset f0))); auto. intros v' x'. now apply PA_PH. }
    destruct r0 as [|g r0]; cbn [ends] in He.
    + destruct He as (x & Nx & Hr & _). apply reach_ret; auto. split; auto. eauto.
    + destruct He as (f' & _ & (x & Nx & Sx & Ex)). apply (IHn c' x); auto. rewrite Ex. cbn [length] in *. lia.
Qed.

(* ---- the loop of improve_next ---- *)
Variable order : option nat.
Variable mk : Edges -> NextPc -> Frame.
Variable done : Edges -> Ctl.
Hypothesis Hreq : forall e np, frame_req (mk e np) = next_req order e np mk done.
Hypothesis Hset : forall e np, fset (mk e np) = s.
Hypothesis Hedges : forall e np, frame_edges (mk e np) = e.
Hypothesis Hok : forall m goal e np, frame_ok m goal (mk e np) -> edges_ok m goal e /\ np_ok e np.
Variable t : nat.
Variable rest : list Frame.

Notation at_next c e np := (at_frame c t (mk e np) rest).
Definition left_with (w : nat) (c : Config) : Prop := exists e, ends (done e) rest c t /\ W c e < w.

Lemma HPm e np : PH t s t (fset (mk e np)).
Proof. right. rewrite Hset. auto. Qed.
Hint Resolve HPm : core.

Lemma at_ok c e np : Good c -> at_next c e np -> edges_ok (g_map c) (goal_in (cores c)) e /\ np_ok e np.
Proof. intros G A. apply Hok. apply (inv_frame_ok chash mhash); auto. now apply good_inv. now apply (at_frame_In c t _ rest). Qed.

Lemma at_less c c' e np w : Good c -> at_next c e np -> quiet (PH t s) c c' -> Good c' -> W c e < w -> W c' e < w.
Proof. intros G A Q G' L. destruct (at_ok c e np G A) as (EO & _). pose proof (W_quiet chash mhash _ c c' e G' Q EO). lia. Qed.

Lemma W_targets c e e' : targets e' = targets e -> W c e' = W c e.
Proof. unfold SearchReach.W. now intros ->. Qed.

Lemma poll_less c e id x u y r : nth_error (targets e) id = Some x -> tg_run x = Some u -> nth_error (g_tasks c) u = Some y -> tk_result y = Some r ->
  W c (set_target e id (fun x => mkTarget (tg_set x) r (tg_len x) None)) < W c e.
Proof.
  intros N Hr Ny Hy. pose proof (W_set mhash c e id x (fun x => mkTarget (tg_set x) r (tg_len x) None) N) as E.
  assert (E1 : wt c x = S (wt c (mkTarget (tg_set x) r (tg_len x) None))).
  { unfold SearchReach.wt. rewrite Hr, Ny, Hy. cbn [tg_run tg_set tg_state]. auto. }
  lia.
Qed.

Lemma result_quiet c c' u y r : quiet (PH t s) c c' -> nth_error (g_tasks c) u = Some y -> tk_result y = Some r ->
  exists y', nth_error (g_tasks c') u = Some y' /\ tk_result y' = Some r.
Proof. intros Q N R. destruct (q_task _ _ _ _ _ Q u y N) as (y' & N' & _ & _ & _ & A4 & _). eauto. Qed.

(* something was polled *)
Lemma poll_finished : forall ids c e nr b w, Good c -> at_next c e (NPoll ids true nr b) -> W c e < w -> Reach (PH t s) c (left_with w).
Proof.
  induction ids as [|id ids IHi]; intros c e nr b w G A L; match type of A with at_frame _ _ ?g _ => match g with mk ?e0 ?np0 => pose proof (Hreq e0 np0) as R end end; destruct (at_ok _ _ _ G A) as (EO & _).
  - cbn [next_req] in R. eapply step_tau; eauto. intros c' Q G' He. destruct (retain_closed_spec mhash _ _ e EO) as (e' & Er & Et & _).
    pose proof (at_less _ _ _ _ _ G A Q G' L). rewrite Er in He. cbn [orb] in He. apply reach_ret; auto. exists e'. split; auto. now rewrite (W_targets c' e e').
  - cbn [next_req] in R. destruct (nth_error (targets e) id) as [x|] eqn:Nx.
    2: { eapply step_tau; eauto. intros c' Q G' []. }
    destruct (tg_run x) as [u|] eqn:Rx.
    + eapply step_poll; eauto. intros c' y Ny Q G' He. pose proof (at_less _ _ _ _ _ G A Q G' L) as L'.
      destruct (tk_result y) as [r|] eqn:Ry; cbn [ends] in He; (eapply IHi; [exact G'|exact He|]); auto.
      destruct (result_quiet c c' u y r Q Ny Ry) as (y' & Ny' & Ry'). pose proof (poll_less c' e id x u y' r Nx Rx Ny' Ry'). lia.
    + eapply step_tau; eauto. intros c' Q G' He. pose proof (at_less _ _ _ _ _ G A Q G' L) as L'. eapply IHi; [exact G'|exact He|auto].
Qed.

(* some running child of these targets is finished *)
Definition fin_in (c : Config) (e : Edges) (ids : list nat) : Prop :=
  exists id x u y r, In id ids /\ nth_error (targets e) id = Some x /\ tg_run x = Some u /\ nth_error (g_tasks c) u = Some y /\ tk_result y = Some r.
Lemma fin_quiet c c' e ids : quiet (PH t s) c c' -> fin_in c e ids -> fin_in c' e ids.
Proof.
  intros Q (id & x & u & y & r & H1 & H2 & H3 & H4 & H5). destruct (result_quiet c c' u y r Q H4 H5) as (y' & A & B).
  exists id, x, u, y', r. auto.
Qed.

Lemma at_le c c' e np w : Good c -> at_next c e np -> quiet (PH t s) c c' -> Good c' -> W c e <= w -> W c' e <= w.
Proof. intros G A Q G' L. destruct (at_ok c e np G A) as (EO & _). pose proof (W_quiet chash mhash _ c c' e G' Q EO). lia. Qed.

Lemma poll_some : forall ids c e fin nr b w, Good c -> at_next c e (NPoll ids fin nr b) -> W c e <= w -> fin_in c e ids -> Reach (PH t s) c (left_with w).
Proof.
  induction ids as [|id ids IHi]; intros c e fin nr b w G A L F; match type of A with at_frame _ _ ?g _ => match g with mk ?e0 ?np0 => pose proof (Hreq e0 np0) as R end end; destruct (at_ok _ _ _ G A) as (EO & _).
  - destruct F as (? & ? & ? & ? & ? & [] & _).
  - cbn [next_req] in R. destruct (nth_error (targets e) id) as [x|] eqn:Nx.
    2: { eapply step_tau; eauto. intros c' Q G' []. }
    destruct (tg_run x) as [u|] eqn:Rx.
    + eapply step_poll; eauto. intros c' y Ny Q G' He. pose proof (at_le _ _ _ _ _ G A Q G' L) as L'.
      destruct (tk_result y) as [r|] eqn:Ry; cbn [ends] in He.
      * eapply poll_finished; [exact G'|exact He|]. destruct (result_quiet c c' u y r Q Ny Ry) as (y' & Ny' & Ry').
        pose proof (poll_less c' e id x u y' r Nx Rx Ny' Ry'). lia.
      * eapply IHi; [exact G'|exact He|auto|]. apply (fin_quiet c); auto. destruct F as (id' & x' & u' & y' & r' & [<-|H1] & H2 & H3 & H4 & H5).
        -- exfalso. rewrite Nx in H2. injection H2 as <-. rewrite Rx in H3. injection H3 as <-. rewrite Ny in H4. injection H4 as <-. congruence.
        -- exists id', x', u', y', r'. auto.
    + eapply step_tau; eauto. intros c' Q G' He. pose proof (at_le _ _ _ _ _ G A Q G' L) as L'. eapply IHi; [exact G'|exact He|auto|].
      apply (fin_quiet c); auto. destruct F as (id' & x' & u' & y' & r' & [<-|H1] & H2 & H3 & H4 & H5).
      * exfalso. rewrite Nx in H2. injection H2 as <-. congruence.
      * exists id', x', u', y', r'. auto.
Qed.

Lemma spawn_le c e id x u y : nth_error (targets e) id = Some x -> tg_run x = None -> nth_error (g_tasks c) u = Some y -> tk_result y = None ->
  W c (set_target e id (fun x => mkTarget (tg_set x) (tg_state x) (tg_len x) (Some u))) = W c e.
Proof.
  intros N Hr Ny Hy. pose proof (W_set mhash c e id x (fun x => mkTarget (tg_set x) (tg_state x) (tg_len x) (Some u)) N) as E.
  assert (E1 : wt c x = wt c (mkTarget (tg_set x) (tg_state x) (tg_len x) (Some u))).
  { unfold SearchReach.wt. rewrite Hr. cbn [tg_run tg_set tg_state]. now rewrite Ny, Hy. }
  lia.
Qed.
Lemma set_run_nth e id h j : j <> id -> nth_error (targets (set_target e id h)) j = nth_error (targets e) j.
Proof. intros D. unfold set_target. cbn [targets]. destruct (nth_error (targets e) id); auto. now apply nth_error_upd_neq. Qed.
Lemma set_run_same e id h x : nth_error (targets e) id = Some x -> nth_error (targets (set_target e id h)) id = Some (h x).
Proof. intros N. unfold set_target. cbn [targets]. rewrite N. apply nth_error_upd_eq. now apply nth_error_lt in N. Qed.

Lemma spawn_some : forall ids i c e b w, Good c -> at_next c e (NSpawn (S i) ids b) -> W c e <= w -> fin_in c e (active e) -> Reach (PH t s) c (left_with w).
Proof.
  induction ids as [|id ids IHi]; intros i c e b w G A L F; match type of A with at_frame _ _ ?g _ => match g with mk ?e0 ?np0 => pose proof (Hreq e0 np0) as R end end; destruct (at_ok _ _ _ G A) as (EO & _).
  - cbn [next_req] in R. eapply step_tau; eauto. intros c' Q G' He. eapply poll_some; [exact G'|exact He| |]. { exact (at_le _ _ _ _ _ G A Q G' L). } now apply (fin_quiet c).
  - cbn [next_req] in R. destruct (nth_error (targets e) id) as [x|] eqn:Nx.
    2: { eapply step_tau; eauto. intros c' Q G' []. }
    destruct (tg_run x) as [u|] eqn:Rx.
    + cbn [Nat.eqb] in R. eapply step_tau; eauto. intros c' Q G' He. eapply IHi; [exact G'|exact He| |]. { exact (at_le _ _ _ _ _ G A Q G' L). } now apply (fin_quiet c).
    + destruct (closed (tg_state x)). { eapply step_tau; eauto. intros c' Q G' []. }
      cbn [Nat.eqb] in R. eapply step_spawn; eauto. intros c' u Q G' He Du Nu Nu'. eapply IHi; [exact G'|exact He| |].
      * rewrite (spawn_le c' e id x u _ Nx Rx Nu' eq_refl). { exact (at_le _ _ _ _ _ G A Q G' L). }
      * apply (fin_quiet c c') in F; auto. destruct F as (id' & x' & u' & y' & r' & H1 & H2 & H3 & H4 & H5).
        exists id', x', u', y', r'. split; auto. split; auto. rewrite set_run_nth; auto. intros ->. rewrite Nx in H2. injection H2 as <-. congruence.
Qed.

Lemma spawn_head ids id x u y c e b w : Good c -> at_next c e (NSpawn 1 ids b) -> In id (active e) -> nth_error (targets e) id = Some x -> tg_run x = Some u ->
  nth_error (g_tasks c) u = Some y -> tk_sched y = true -> W c e <= w -> Reach (PH t s) c (left_with w).
Proof.
  intros G A Hi Nx Rx Ny Sy L.
  apply (reach_bind chash mhash _ c (fun c' => at_next c' e (NSpawn 1 ids b) /\ exists y r, nth_error (g_tasks c') u = Some y /\ tk_result y = Some r)).
  - apply (child_run t (mk e (NSpawn 1 ids b)) rest u (Hset _ _)) with (n := length (tk_stack y)) (y := y); auto.
    unfold kids. rewrite Hedges. apply (In_running e x); auto. now apply nth_error_In in Nx.
  - intros c' Q G' (A' & y' & r & Ny' & Ry'). eapply spawn_some; [exact G'|exact A'| |]. { exact (at_le _ _ _ _ _ G A Q G' L). } exists id, x, u, y', r. auto.
Qed.

Lemma spawn_first ids id c e b w : Good c -> at_next c e (NSpawn 0 (id :: ids) b) -> In id (active e) -> W c e <= w -> Reach (PH t s) c (left_with w).
Proof.
  intros G A Hi L. pose proof (Hreq e (NSpawn 0 (id :: ids) b)) as R. cbn [next_req] in R. destruct (nth_error (targets e) id) as [x|] eqn:Nx.
  2: { eapply step_tau; eauto. intros c' Q G' []. }
  destruct (tg_run x) as [u|] eqn:Rx; cbn [Nat.eqb negb andb] in R.
  - assert (Ku : In u (kids (mk e (NSpawn 0 (id :: ids) b)))). { unfold kids. rewrite Hedges. apply (In_running e x); auto. now apply nth_error_In in Nx. }
    destruct (kid_facts c t _ rest u G A (Hset _ _) Ku) as (_ & Du & y & Ny & _).
    eapply step_sched; eauto. intros c' Q G' He Hs. destruct (Hs Du y Ny) as (y' & Ny' & Sy'). cbn [ends] in He.
    apply (spawn_head ids id x u y' c' e b w); auto. { exact (at_le _ _ _ _ _ G A Q G' L). }
  - destruct (closed (tg_state x)). { eapply step_tau; eauto. intros c' Q G' []. }
    eapply step_spawn; eauto. intros c' u Q G' He Du Nu Nu'. cbn [ends] in He. set (e' := set_target e id _) in *.
    assert (L' : W c' e' <= w). { unfold e'. rewrite (spawn_le c' e id x u _ Nx Rx Nu' eq_refl). { exact (at_le _ _ _ _ _ G A Q G' L). } }
    pose proof (Hreq e' (NSched ids false u)) as R'. cbn [next_req] in R'. eapply step_sched; eauto. intros c2 Q2 G2 He2 Hs2.
    destruct (Hs2 Du _ Nu') as (y' & Ny' & Sy'). cbn [ends] in He2.
    apply (spawn_head ids id (mkTarget (tg_set x) (tg_state x) (tg_len x) (Some u)) u y' c2 e' false w); auto.
    + unfold e'. now rewrite (set_run_same e id _ x).
    + apply (at_le c' c2 e' (NSched ids false u)); auto.
Qed.

Lemma sort_active_In e id : In id (active e) <-> In id (active (sort_active order e)).
Proof.
  cbn [sort_active active]. match goal with |- _ <-> In _ (isort ?l _) => pose proof (isort_perm l (active e)) as P end.
  split; apply Permutation_in; auto. now apply Permutation_sym.
Qed.

Lemma spawn_all c e w : Good c -> active e <> [] -> at_next c (sort_active order e) (NSpawn 0 (active (sort_active order e)) true) -> W c e <= w -> Reach (PH t s) c (left_with w).
Proof.
  intros G Ha A L. destruct (active (sort_active order e)) as [|id ids] eqn:E.
  - exfalso. destruct (active e) as [|id l] eqn:E'; [contradiction|]. assert (H : In id (active e)) by (rewrite E'; now left). apply sort_active_In in H. rewrite E in H. destruct H.
  - apply (spawn_first ids id c (sort_active order e) true w); auto. rewrite E. now left.
Qed.

Lemma pend_some c e w : Good c -> active e <> [] -> at_next c e NPend -> W c e <= w -> Reach (PH t s) c (left_with w).
Proof.
  intros G Ha A L. pose proof (Hreq e NPend) as R. cbn [next_req] in R. eapply step_tau; eauto. intros c' Q G' He. cbn [ends] in He.
  eapply spawn_all; eauto. { exact (at_le _ _ _ _ _ G A Q G' L). }
Qed.

(* improve_next with an edge that can be improved *)
Lemma poll_open : forall ids c e nr b w, Good c -> at_next c e (NPoll ids false nr b) -> W c e <= w ->
  (exists id x, In id (active e) /\ nth_error (targets e) id = Some x /\ closed (tg_state x) = false) -> Reach (PH t s) c (left_with w).
Proof.
  induction ids as [|id ids IHi]; intros c e nr b w G A L Ho; match type of A with at_frame _ _ ?g _ => match g with mk ?e0 ?np0 => pose proof (Hreq e0 np0) as R end end; destruct (at_ok _ _ _ G A) as (EO & _).
  - cbn [next_req] in R. destruct (retain_closed_spec mhash _ _ e EO) as (e' & Er & Et & _). rewrite Er in R. cbn [orb] in R.
    assert (Ha : active e' <> []).
    { destruct Ho as (id & x & H1 & H2 & H3). unfold retain_closed in Er. destruct (forallb _ _); [|discriminate]. injection Er as <-. cbn [active].
      assert (H : In id (filter (fun id => negb (closed (tg_state (target_at e id)))) (active e))).
      { apply filter_In. split; auto. rewrite (target_at_nth e id x H2), H3. auto. }
      intros H0. rewrite H0 in H. destruct H. }
    destruct (active e') as [|a l] eqn:Ea; [contradiction|].
    eapply step_tau; eauto. intros c' Q G' He. pose proof (at_le _ _ _ _ _ G A Q G' L) as L'. rewrite <- (W_targets c' e e' Et) in L'.
    destruct (b && (0 <? nr)); cbn [ends] in He.
    + apply (pend_some c' e'); auto. now rewrite Ea.
    + apply (spawn_all c' e'); auto. now rewrite Ea.
  - cbn [next_req] in R. destruct (nth_error (targets e) id) as [x|] eqn:Nx.
    2: { eapply step_tau; eauto. intros c' Q G' []. }
    destruct (tg_run x) as [u|] eqn:Rx.
    + eapply step_poll; eauto. intros c' y Ny Q G' He. pose proof (at_le _ _ _ _ _ G A Q G' L) as L'.
      destruct (tk_result y) as [r|] eqn:Ry; cbn [ends] in He.
      * eapply poll_finished; [exact G'|exact He|]. destruct (result_quiet c c' u y r Q Ny Ry) as (y' & Ny' & Ry').
        pose proof (poll_less c' e id x u y' r Nx Rx Ny' Ry'). lia.
      * eapply IHi; [exact G'|exact He|auto|auto].
    + eapply step_tau; eauto. intros c' Q G' He. pose proof (at_le _ _ _ _ _ G A Q G' L) as L'. eapply IHi; [exact G'|exact He|auto|auto].
Qed.

(* improve_next at any place *)
Lemma poll_any : forall ids c e fin nr b w, Good c -> at_next c e (NPoll ids fin nr b) -> W c e < w -> Reach (PH t s) c (left_with w).
Proof.
  induction ids as [|id ids IHi]; intros c e fin nr b w G A L; match type of A with at_frame _ _ ?g _ => match g with mk ?e0 ?np0 => pose proof (Hreq e0 np0) as R end end; destruct (at_ok _ _ _ G A) as (EO & _).
  - cbn [next_req] in R. destruct (retain_closed_spec mhash _ _ e EO) as (e' & Er & Et & _). rewrite Er in R.
    eapply step_tau; eauto. intros c' Q G' He. pose proof (at_less _ _ _ _ _ G A Q G' L) as L'. rewrite <- (W_targets c' e e' Et) in L'.
    destruct (active e') as [|a l] eqn:Ea.
    + rewrite orb_true_r in He. apply reach_ret; auto. exists e'. auto.
    + destruct fin; cbn [orb] in He. { apply reach_ret; auto. exists e'. auto. }
      destruct (b && (0 <? nr)); cbn [ends] in He.
      * apply (pend_some c' e'); auto. now rewrite Ea. lia.
      * apply (spawn_all c' e'); auto. now rewrite Ea. lia.
  - cbn [next_req] in R. destruct (nth_error (targets e) id) as [x|] eqn:Nx.
    2: { eapply step_tau; eauto. intros c' Q G' []. }
    destruct (tg_run x) as [u|] eqn:Rx.
    + eapply step_poll; eauto. intros c' y Ny Q G' He. pose proof (at_less _ _ _ _ _ G A Q G' L) as L'.
      destruct (tk_result y) as [r|] eqn:Ry; cbn [ends] in He; (eapply IHi; [exact G'|exact He|]); auto.
      destruct (result_quiet c c' u y r Q Ny Ry) as (y' & Ny' & Ry'). pose proof (poll_less c' e id x u y' r Nx Rx Ny' Ry'). lia.
    + eapply step_tau; eauto. intros c' Q G' He. pose proof (at_less _ _ _ _ _ G A Q G' L) as L'. eapply IHi; [exact G'|exact He|auto].
Qed.

Lemma spawn_any : forall ids i c e b w, Good c -> at_next c e (NSpawn i ids b) -> W c e < w -> Reach (PH t s) c (left_with w).
Proof.
  induction ids as [|id ids IHi]; intros i c e b w G A L; match type of A with at_frame _ _ ?g _ => match g with mk ?e0 ?np0 => pose proof (Hreq e0 np0) as R end end; destruct (at_ok _ _ _ G A) as (EO & _).
  - assert (R' : frame_req (mk e (NSpawn i [] b)) = RTau (CGo (mk e (NPoll (active e) false 0 b)))) by (rewrite R; destruct i; reflexivity).
    eapply step_tau; eauto. intros c' Q G' He. eapply poll_any; [exact G'|exact He|]. { exact (at_less _ _ _ _ _ G A Q G' L). }
  - cbn [next_req] in R. destruct (nth_error (targets e) id) as [x|] eqn:Nx.
    2: { eapply step_tau; eauto. intros c' Q G' []. }
    destruct (tg_run x) as [u|] eqn:Rx.
    + destruct (i =? 0).
      * eapply step_sched; eauto. intros c' Q G' He _. eapply IHi; [exact G'|exact He|]. { exact (at_less _ _ _ _ _ G A Q G' L). }
      * eapply step_tau; eauto. intros c' Q G' He. eapply IHi; [exact G'|exact He|]. { exact (at_less _ _ _ _ _ G A Q G' L). }
    + destruct (closed (tg_state x)). { eapply step_tau; eauto. intros c' Q G' []. }
      eapply step_spawn; eauto. intros c' u Q G' He Du Nu Nu'. cbn [ends] in He.
      match type of He with at_frame _ _ (mk ?e0 _) _ => assert (L' : W c' e0 < w) end.
      { rewrite (spawn_le c' e id x u _ Nx Rx Nu' eq_refl). { exact (at_less _ _ _ _ _ G A Q G' L). } }
      destruct (i =? 0); [|eapply IHi; [exact G'|exact He|exact L']].
      match type of He with at_frame _ _ (mk ?e0 ?np0) _ => pose proof (Hreq e0 np0) as R' end. cbn [next_req] in R'.
      eapply step_sched; eauto. intros c2 Q2 G2 He2 _. eapply IHi; [exact G2|exact He2|]. exact (at_less _ _ _ _ _ G' He Q2 G2 L').
Qed.

Lemma next_any c e np w : Good c -> at_next c e np -> W c e < w -> Reach (PH t s) c (left_with w).
Proof.
  intros G A L. destruct np as [ids fin nr b| |i ids b|ids b u].
  - eapply poll_any; eauto.
  - pose proof (Hreq e NPend) as R. cbn [next_req] in R. eapply step_tau; eauto. intros c' Q G' He. cbn [ends] in He.
    eapply spawn_any; [exact G'|exact He|]. rewrite (W_targets c' e (sort_active order e)) by reflexivity. { exact (at_less _ _ _ _ _ G A Q G' L). }
  - eapply spawn_any; eauto.
  - pose proof (Hreq e (NSched ids b u)) as R. cbn [next_req] in R. eapply step_sched; eauto. intros c' Q G' He _. cbn [ends] in He.
    eapply spawn_any; [exact G'|exact He|]. { exact (at_less _ _ _ _ _ G A Q G' L). }
Qed.
End Next.
