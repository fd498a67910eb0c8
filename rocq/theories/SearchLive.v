(* Every search can be completed. *)
From Coq Require Import List Arith Bool Lia Permutation.
Import ListNotations.
From Verif Require Import Spec Vec Net Graded Bits Util CountProofs OutputSetModel OutputSetProofs PruneProofs PackProofs HuffmanModel HuffmanProofs CanonModel TreeModel StatesModel StatesProofs StatesBounds SearchModel SearchFacts SearchInv SearchEdges SearchStep SearchFrames SearchGlobal SearchRun SearchSafe SearchOrder SearchWaits SearchMain SearchClosed SearchSlack SearchGood SearchQuiet SearchReach SearchNext SearchHuff SearchHold.

Lemma resume_held f v f' : resume f v = Some f' -> held f' = held f.
Proof.
  destruct f as [s lim pc|prev s pc|s pc]; try discriminate; destruct pc; try discriminate; cbn [resume].
  - intros H. now injection H as <-.
  - intros H. now injection H as <-.
  - destruct (_ <? _); intros H; now injection H as <-.
Qed.

Section Live.
Variables chash mhash : list nat -> nat.
Notation cur := (cur mhash).
Notation Good := (Good chash mhash).
Notation Inv := (Inv chash mhash).
Notation frame_req := (frame_req chash).
Notation frame_ok := (frame_ok chash mhash).
Notation stack_ok := (stack_ok chash mhash).
Notation access := (access mhash).
Notation Reach := (Reach chash mhash).
Notation quiet := (quiet chash mhash).
Notation popped := (popped mhash).
Notation Pops := (Pops chash mhash).
Notation lock_of := (lock_of mhash).
Notation sys_steps := (sys_steps chash mhash).
Notation potential := (potential mhash).
Notation search_run := (search_run chash mhash).

(* a frame of improve is about a set strictly smaller than those of the locks held below it *)
Lemma imp_above m goal root prev s' pc l g s id : stack_ok m goal root (FImp prev s' pc :: l) -> In g l -> held g = Some (s, id) -> smaller s' s.
Proof.
  intros (_ & Fi & S) Hg Hh. destruct l as [|g0 l]; [destruct Hg|]. cbn [hd_error] in Fi. pose proof (held_fset g s id Hh) as Es.
  destruct (stack_order chash mhash m goal root g0 l S) as (O & _).
  destruct g0 as [s0 lim pc0|prev0 s0 pc0|s0 pc0]; cbn [fits] in Fi; [| |tauto].
  - exfalso. destruct S as (_ & Fi' & _). destruct Hg as [<-|Hg]; [discriminate|]. destruct l as [|h l]; [destruct Hg|]. cbn in Fi'. destruct h as [a b pc1|a b pc1|a pc1]; try tauto; destruct pc1; tauto.
  - destruct pc0; try tauto. subst s'. destruct S as ((K & _ & Sg) & _). pose proof (single_smaller chash _ _ K Sg) as Sm.
    destruct Hg as [<-|Hg]. { now rewrite <- Es. } destruct (O g Hg) as [Y|Y]; rewrite <- Es. eapply smaller_trans; eauto. now rewrite <- Y.
Qed.

Lemma task_stack_ok c t x : Good c -> nth_error (g_tasks c) t = Some x -> stack_ok (g_map c) (goal_in (cores c)) (tk_prev x, tk_set x) (tk_stack x).
Proof. intros G N. pose proof (inv_core _ _ c (good_inv _ _ c G) (core x) (nth_error_In _ _ (nth_cores c t x N))) as (_ & S & _). exact S. Qed.

Section Steps2.
Variable P : nat -> OutputSet -> Prop.
Variables (c : Config) (t : nat) (f : Frame) (rest : list Frame) (Q : Config -> Prop).
Hypothesis G : Good c.
Hypothesis A : at_frame c t f rest.
Hypothesis HP : P t (fset f).

Lemma step_get_map s k : frame_req f = RGet s k -> okset s -> (forall c', quiet P c c' -> Good c' -> ends (k (cur (g_map c) s)) rest c' t -> g_map c' = g_map c -> Reach P c' Q) -> Reach P c Q.
Proof.
  intros R K H. assert (E : access c (RGet s k) = ADone c (k (cur (g_map c) s))).
  { cbn [SearchModel.access]. rewrite (sm_get_cur mhash _ s (mi_ok _ _ _ (inv_map _ _ c (good_inv _ _ c G))) (proj1 K)). auto. }
  apply (reach_step chash mhash P c t f rest Q G A HP); rewrite R, E. discriminate. intros c1 k' c' E'. injection E' as <- <-. auto.
Qed.
Lemma step_wait_map id k : frame_req f = RWait id k -> In id (g_sent c) -> (forall c', quiet P c c' -> Good c' -> ends k rest c' t -> g_map c' = g_map c -> Reach P c' Q) -> Reach P c Q.
Proof.
  intros R Hi H. assert (Ea : access c (RWait id k) = ADone c k).
  { cbn [SearchModel.access]. replace (existsb (Nat.eqb id) (g_sent c)) with true; auto. symmetry. apply existsb_exists. exists id. split; auto. apply Nat.eqb_refl. }
  apply (reach_step chash mhash P c t f rest Q G A HP); rewrite R, Ea. discriminate. intros c1 k' c' E'. injection E' as <- <-. auto.
Qed.
Lemma step_lock_map s got busy : frame_req f = RLock s got busy -> okset s -> work s ->
  (lock_of (g_map c) s = None -> forall c' lk, quiet P c c' -> Good c' -> ends (got lk) rest c' t -> Reach P c' Q) ->
  (forall c' id, lock_of (g_map c) s = Some id -> quiet P c c' -> Good c' -> ends (busy id) rest c' t -> g_map c' = g_map c -> Reach P c' Q) -> Reach P c Q.
Proof.
  intros R K Wk H1 H2. pose proof (good_inv _ _ c G) as I.
  pose proof (sm_get_lock_spec mhash (g_map c) s (g_next c) (mi_ok _ _ _ (inv_map _ _ c I)) (work_okk _ K Wk)) as L.
  destruct (lock_of (g_map c) s) as [id|] eqn:El.
  - apply (reach_step chash mhash P c t f rest Q G A HP); rewrite R; cbn [SearchModel.access]; rewrite L. discriminate.
    intros c1 k' c' E' Hq G' He M Sn O. injection E' as <- <-. now apply (H2 c' id).
  - destruct L as (m' & L & _). apply (reach_step chash mhash P c t f rest Q G A HP); rewrite R; cbn [SearchModel.access]; rewrite L. discriminate.
    intros c1 k' c' E' Hq G' He M Sn O. injection E' as <- <-. now apply (H1 eq_refl c' (g_next c)).
Qed.
End Steps2.

Section Set_.
Variable s : OutputSet.
Hypothesis IH : forall p, smaller p s -> Pops p.

(* the holder of the lock of s gives it back *)
Lemma hold_run w id : forall n c x above h below, Good c -> nth_error (g_tasks c) w = Some x -> tk_stack x = above ++ h :: below -> length above <= n ->
  held h = Some (s, id) -> Reach (PH w s) c (fun c' => In id (g_sent c') /\ lock_of (g_map c') s = None).
Proof.
  induction n as [n IHn] using (well_founded_induction lt_wf). intros c x above h below G N E Ln Hh.
  pose proof (held_fset h s id Hh) as Es. pose proof (task_stack_ok c w x G N) as SO. rewrite E in SO.
  assert (Le : forall f a, above = f :: a -> le_set (fset f) s).
  { intros f a ->. cbn [app] in SO. apply stack_order in SO. rewrite <- Es. apply SO. apply in_or_app. right. now left. }
  destruct (tk_cancel x) eqn:Cx.
  - destruct above as [|f above].
    + destruct (quiet_drop chash mhash (PH w s) c w x h below G N Cx E) as (c' & Q & G' & _ & H). { right. auto. }
      right. exists c'. auto.
    + cbn [app] in E. destruct (quiet_drop chash mhash (PH w s) c w x f (above ++ h :: below) G N Cx E) as (c' & Q & G' & (x' & N' & E') & _).
      { destruct (Le f above eq_refl) as [H|H]; [left|right]; auto. }
      apply (reach_quiet chash mhash _ c c' _ Q). cbn [length] in Ln. apply (IHn (length above)) with (x := x') (above := above) (h := h) (below := below); auto.
  - destruct (gd_tasks _ _ c G w x N) as (T1 & T2 & _). specialize (T2 Cx).
    assert (Sx : tk_sched x = true).
    { destruct (tk_sched x); auto. exfalso. destruct (T1 eq_refl) as [T|(p & q & T)]; rewrite E in T. now destruct above. 
      destruct above as [|a [|b above]]; try discriminate. injection T as -> _. discriminate. }
    destruct above as [|f above]; cbn [app] in E.
    + specialize (T2 h below E). destruct h as [|prev s' pc|]; try discriminate. cbn [fset] in Es. subst s'.
      assert (A : at_frame c w (FImp prev s pc) below) by (exists x; auto).
      apply (reach_mono chash mhash (PH w s) _ c (released mhash s w below prev id)); auto. intros c' R. apply R.
      apply (go_held chash mhash s IH w below prev id c pc); auto.
    + specialize (T2 f _ E). assert (A : at_frame c w f (above ++ h :: below)) by (exists x; auto).
      assert (Kf : kind f = None).
      { destruct SO as (_ & Fi & _). destruct f as [s0 l0 pc0| |]; auto. exfalso. destruct (above ++ h :: below) as [|g0 l1] eqn:Eg; [now destruct above|]. cbn in Fi. destruct g0 as [? ? pc1|? ? pc1|? pc1]; try tauto; destruct pc1; tauto. }
      assert (Cont : Reach (PH w s) c (popped w (prev_of f) (fset f) (above ++ h :: below))).
      { destruct (Le f above eq_refl) as [Sm|Eq].
        - eapply reach_mono; [| |apply (IH (fset f) Sm c w f (above ++ h :: below)); auto]; auto. intros u y. now apply PA_PH.
        - destruct f as [|prev s' pc|s' pc]; cbn [fset] in *. discriminate.
          + exfalso. cbn [app] in SO. apply (smaller_irrefl s). rewrite Eq in SO. eapply imp_above; [exact SO| |exact Hh]. apply in_or_app. right. now left.
          + subst s'. now apply (go_huff chash mhash s IH w (above ++ h :: below) c pc). }
      eapply reach_bind; [exact Cont|]. intros c' Q G' (v & _ & _ & He). cbn [length] in Ln.
      destruct above as [|g above]; cbn [app ends] in He; destruct He as (f' & Rf & (x' & N' & _ & E')).
      * cbn [length] in Ln. apply (IHn 0) with (x := x') (above := []) (h := f') (below := below); auto; try lia. now rewrite (resume_held h v f' Rf).
      * cbn [length] in Ln. apply (IHn (S (length above))) with (x := x') (above := f' :: above) (h := h) (below := below); auto.
Qed.

Variable t : nat.
Variable rest : list Frame.
Variable prev : State.
Notation at_i c pc := (at_frame c t (FImp prev s pc) rest).
Notation Goes c := (Reach (PA s) c (popped t (Some prev) s rest)).

Lemma PAi pc : PA s t (fset (FImp prev s pc)).
Proof. right. auto. Qed.
Hint Resolve PAi : core.

Lemma held_goes lk c pc : Good c -> at_i c pc -> live (FImp prev s pc) -> held (FImp prev s pc) = Some (s, lk) -> Goes c.
Proof.
  intros G A L H. apply (reach_mono chash mhash (PH t s) _ c (released mhash s t rest prev lk)). intros v x. apply PH_PA. intros c' R. apply R.
  now apply (go_held chash mhash s IH t rest prev lk c pc).
Qed.

(* the value seen by the first lookup *)
Lemma look_return c c' : quiet (PA s) c c' -> Good c' ->
  ends (if negb (state_eqb (cur (g_map c) s) prev) then CReturn (cur (g_map c) s) else if closed (cur (g_map c) s) then CReturn (cur (g_map c) s) else CGo (FImp prev s ILock)) rest c' t ->
  popped t (Some prev) s rest c' \/ at_i c' ILock.
Proof.
  intros Q G' He. assert (E : cur (g_map c) s = cur (g_map c') s) by (symmetry; now apply (quiet_cur chash mhash (PA s))).
  destruct (state_eqb (cur (g_map c) s) prev) eqn:Es; cbn [negb] in He.
  - destruct (closed (cur (g_map c) s)) eqn:Ec; [left|right; auto]. eexists. split; [exact E|]. split; auto.
  - left. eexists. split; [exact E|]. split; auto. intros p H. injection H as <-. right. intros H. apply state_eqb_eq in H. congruence.
Qed.

Lemma look_free c : Good c -> at_i c ILook -> lock_of (g_map c) s = None -> Goes c.
Proof.
  intros G A F. pose proof (at_frame_ok _ _ _ _ _ _ G A) as (K & _).
  eapply step_get_map; [exact G|exact A|auto|reflexivity|exact K|]. intros c1 Q1 G1 He1 M1. destruct (look_return c c1 Q1 G1 He1) as [H|H]. now apply reach_ret.
  pose proof (at_frame_ok _ _ _ _ _ _ G1 H) as (_ & Wk).
  eapply step_lock_map; [exact G1|exact H|auto|reflexivity|exact K|exact Wk| |].
  - intros _ c2 lk Q2 G2 He2. cbn [ends] in He2. apply (held_goes lk c2 (ICheck lk)); auto. exact Logic.I.
  - intros c2 id El. rewrite M1 in El. congruence.
Qed.

Lemma wait_held c id : Good c -> at_i c (IWait id) -> In (s, id) (flat_map hl (frames (cores c))) -> Goes c.
Proof.
  intros G A Hl. apply in_flat_map in Hl. destruct Hl as (h & Hf & Hh). unfold hl in Hh. destruct (held h) as [p|] eqn:Eh; [|destruct Hh]. destruct Hh as [->|[]].
  destruct (frames_In c h Hf) as (w & x & N & Hi). apply in_split in Hi. destruct Hi as (above & below & E).
  assert (D : t <> w).
  { intros ->. destruct A as (x' & N' & _ & E'). rewrite N in N'. injection N' as <-. pose proof (task_stack_ok c w x G N) as SO. rewrite E' in SO.
    apply (smaller_irrefl s). eapply (imp_above _ _ _ _ _ _ _ h); [exact SO| |exact Eh]. rewrite E' in E. destruct above as [|a above]; cbn [app] in E.
    - injection E as <- _. discriminate.
    - injection E as _ ->. apply in_or_app. right. now left. }
  destruct (hold_run w id (length above) c x above h below G N E (le_n _) Eh) as [H|(c1 & Q1 & G1 & Hs & Hn)]; [now left|].
  assert (A1 : at_i c1 (IWait id)). { apply (quiet_at chash mhash (PH w s) c); auto. cbn [fset]. intros [H|(H & _)]. now apply (smaller_irrefl s). contradiction. }
  apply (reach_quiet chash mhash _ c c1). { apply (quiet_mono chash mhash (PH w s)); auto. intros u y. apply PH_PA. }
  eapply step_wait_map; [exact G1|exact A1|auto|reflexivity|exact Hs|]. intros c2 Q2 G2 He2 M2. cbn [ends] in He2. apply look_free; auto. now rewrite M2.
Qed.

Lemma lock_any c : Good c -> at_i c ILock -> Goes c.
Proof.
  intros G A. pose proof (at_frame_ok _ _ _ _ _ _ G A) as (K & Wk).
  eapply step_lock_map; [exact G|exact A|auto|reflexivity|exact K|exact Wk| |].
  - intros _ c2 lk Q2 G2 He2. cbn [ends] in He2. apply (held_goes lk c2 (ICheck lk)); auto. exact Logic.I.
  - intros c2 id El Q2 G2 He2 M2. cbn [ends] in He2. apply (wait_held c2 id); auto.
    destruct (inv_lock _ _ c2 (good_inv _ _ c2 G2)) as (_ & _ & B & _). apply B. apply K. now rewrite M2.
Qed.
Lemma look_any c : Good c -> at_i c ILook -> Goes c.
Proof.
  intros G A. pose proof (at_frame_ok _ _ _ _ _ _ G A) as (K & _).
  eapply step_get_map; [exact G|exact A|auto|reflexivity|exact K|]. intros c1 Q1 G1 He1 M1. destruct (look_return c c1 Q1 G1 He1) as [H|H]. now apply reach_ret. now apply lock_any.
Qed.
Lemma wait_any c id : Good c -> at_i c (IWait id) -> Goes c.
Proof.
  intros G A. destruct (inv_wait _ _ c (good_inv _ _ c G) (s, id)) as [H|H].
  - apply in_flat_map. exists (FImp prev s (IWait id)). split. now apply (at_frame_In c t _ rest). now left.
  - eapply step_wait; [exact G|exact A|auto|reflexivity|exact H|]. intros c1 Q1 G1 He1. now apply look_any.
  - now apply (wait_held c id).
Qed.
Lemma imp_any c pc : Good c -> at_i c pc -> live (FImp prev s pc) -> Goes c.
Proof.
  intros G A L. destruct (held (FImp prev s pc)) as [(s', lk)|] eqn:Eh.
  - apply (held_goes lk c pc); auto. rewrite Eh. pose proof (held_fset _ _ _ Eh) as E. cbn [fset] in E. now subst s'.
  - destruct pc; try discriminate. now apply look_any. now apply lock_any. eapply wait_any; eauto.
Qed.
End Set_.

Theorem pops_all p : Pops p.
Proof.
  induction p as [s IH] using (well_founded_induction smaller_wf). intros c v f rest G A L Fs K. destruct f as [|prev s' pc|s' pc]; cbn [fset] in Fs; [discriminate| |]; subst s'.
  - now apply (imp_any s IH v rest prev c pc).
  - cbn [prev_of]. apply (reach_mono chash mhash (PH v s) _ c (popped v None s rest)); auto. intros u y. apply PH_PA. now apply (go_huff chash mhash s IH v rest c pc).
Qed.

(* ---- the main task ---- *)
Definition any (v : nat) (x : OutputSet) : Prop := True.
Definition finished (c : Config) : Prop := exists k, search_result c k.
Notation at_m c s limit pc := (at_frame c 0 (FMain s limit pc) []).

Lemma main_done c s limit k : Good c -> at_m c s limit (MDone k) -> Reach any c finished.
Proof. intros G (x & N & _ & E). apply reach_ret; auto. exists k, x, s, limit. auto. Qed.

Lemma main_call c s limit st : Good c -> at_frame c 0 (FImp st s ILook) [FMain s limit MCall] ->
  Reach any c (fun c' => exists v, at_m c' s limit (MCheck v) /\ v = cur (g_map c') s /\ (closed v = true \/ v <> st)).
Proof.
  intros G A. eapply reach_bind. { eapply reach_mono; [| |apply (pops_all s c 0 _ _ G A Logic.I eq_refl eq_refl)]. intros; exact Logic.I. intros c' H. exact H. }
  intros c' Q G' (v & Ev & D & He). cbn [ends resume] in He. destruct He as (f' & Ef & A'). injection Ef as <-. apply reach_ret; auto.
  exists v. split; auto.
Qed.
Lemma main_check_cur c s limit v : Good c -> at_m c s limit (MCheck v) -> v = cur (g_map c) s -> Reach any c finished.
Proof.
  intros G A Ev. destruct (closed v || match limit with Some l => l <=? lo v | None => false end) eqn:E.
  - eapply step_tau; [exact G|exact A|exact Logic.I| |]. { cbn [SearchModel.frame_req main_req]. rewrite E. reflexivity. } intros c1 Q1 G1 He1. eapply main_done; eauto.
  - eapply step_tau; [exact G|exact A|exact Logic.I| |]. { cbn [SearchModel.frame_req main_req]. rewrite E. reflexivity. } intros c1 Q1 G1 He1. cbn [ends] in He1.
    eapply reach_bind. eapply main_call; eauto. intros c2 Q2 G2 (v2 & A2 & Ev2 & D). exfalso.
    assert (X : v2 = v). { rewrite Ev, Ev2, (quiet_cur chash mhash _ c1 c2 s Q2). apply (quiet_cur chash mhash _ c c1 s Q1). }
    destruct D as [D|D]; [|contradiction]. rewrite X in D. rewrite D in E. discriminate.
Qed.
Lemma main_check c s limit v : Good c -> at_m c s limit (MCheck v) -> Reach any c finished.
Proof.
  intros G A. destruct (closed v || match limit with Some l => l <=? lo v | None => false end) eqn:E.
  - eapply step_tau; [exact G|exact A|exact Logic.I| |]. { cbn [SearchModel.frame_req main_req]. rewrite E. reflexivity. } intros c1 Q1 G1 He1. eapply main_done; eauto.
  - eapply step_tau; [exact G|exact A|exact Logic.I| |]. { cbn [SearchModel.frame_req main_req]. rewrite E. reflexivity. } intros c1 Q1 G1 He1. cbn [ends] in He1.
    eapply reach_bind. eapply main_call; eauto. intros c2 Q2 G2 (v2 & A2 & Ev2 & _). eapply main_check_cur; eauto.
Qed.
Lemma main_any c s limit pc : Good c -> at_m c s limit pc -> live (FMain s limit pc) -> Reach any c finished.
Proof.
  intros G A L. destruct pc; [| |destruct L|].
  - eapply step_get; [exact G|exact A|exact Logic.I|reflexivity|]. intros c1 Q1 G1 He1. eapply main_check; eauto.
  - eapply main_check; eauto.
  - eapply main_done; eauto.
Qed.

Lemma main_stack n : forall c x, Good c -> nth_error (g_tasks c) 0 = Some x -> length (tk_stack x) <= n -> Reach any c finished.
Proof.
  induction n as [|n IHn]; intros c x G N Ln; destruct (gd_main _ _ c G) as (K & HK & (x0 & N0 & Cx) & Mk); rewrite N in N0; injection N0 as <-;
    specialize (Mk 0 x N); unfold kinds_ok in Mk; cbn [Nat.eqb] in Mk; destruct Mk as (k & Mk).
  - exfalso. destruct (tk_stack x); [|cbn in Ln; lia]. cbn in Mk. now destruct k.
  - destruct (gd_tasks _ _ c G 0 x N) as (T1 & T2 & _). specialize (T2 Cx).
    destruct (tk_stack x) as [|f rest] eqn:E. { cbn in Mk. now destruct k. } specialize (T2 f rest eq_refl).
    assert (Sx : tk_sched x = true).
    { destruct (tk_sched x); auto. exfalso. destruct (T1 eq_refl) as [T|(p & q & T)]. discriminate. injection T as -> ->. cbn in Mk.
      destruct k as [|k]; cbn in Mk. injection Mk as <-. contradiction. injection Mk as Mk. now destruct k. }
    assert (A : at_frame c 0 f rest) by (exists x; auto).
    destruct k as [|k]; cbn in Mk.
    + injection Mk as <- Er. destruct rest; [|discriminate]. destruct f as [s limit pc| |]; [|now destruct HK|now destruct HK]. now apply (main_any c s limit pc).
    + injection Mk as Kf Er. eapply reach_bind. { eapply reach_mono; [| |apply (pops_all (fset f) c 0 f rest); auto]. intros; exact Logic.I. intros c' H. exact H. }
      intros c' Q G' (v & _ & _ & He). destruct rest as [|g rest]. { cbn in Er. now destruct k. }
      cbn [ends] in He. destruct He as (f' & _ & (x' & N' & _ & E')). apply (IHn c' x'); auto. rewrite E'. cbn [length] in *. lia.
Qed.

Lemma good_finish n : forall c, Good c -> potential (g_map c) <= n -> exists c' k, sys_steps c c' /\ search_result c' k.
Proof.
  induction n as [n IHn] using (well_founded_induction lt_wf). intros c G L.
  destruct (gd_main _ _ c G) as (K & HK & (x & N & Cx) & _).
  destruct (main_stack (length (tk_stack x)) c x G N (le_n _)) as [(c' & S & L')|(c' & Q & G' & (k & R))].
  - destruct (IHn (potential (g_map c'))) with (c := c') as (c2 & k & S2 & R2); auto. lia. now apply (steps_good chash mhash c c').
    exists c2, k. split; auto. eapply steps_trans; eauto.
  - exists c', k. split; auto. apply Q.
Qed.

Theorem search_finish threads initial limit c : okset initial -> search_run threads initial limit c ->
  exists c' k, sys_steps c c' /\ search_run threads initial limit c' /\ search_result c' k.
Proof.
  intros K R. destruct (good_finish (potential (g_map c)) c) as (c' & k & S & H); auto. now apply (run_good chash mhash threads initial limit).
  exists c', k. split; auto. split; auto. now apply (steps_run chash mhash threads initial limit c).
Qed.
End Live.
