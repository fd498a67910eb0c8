(* If every worker thread goes on then every poll ends, or there is progress. *)
From Coq Require Import List Arith Bool Lia Permutation.
Import ListNotations.
From Verif Require Import Spec Vec Net Graded Bits Util CountProofs OutputSetModel OutputSetProofs PruneProofs PackProofs HuffmanModel HuffmanProofs CanonModel TreeModel StatesModel StatesProofs StatesBounds SearchModel SearchFair SearchFacts SearchInv SearchEdges SearchStep SearchFrames SearchGlobal SearchRun SearchSafe SearchOrder SearchWaits SearchMain SearchClosed SearchSlack SearchGood SearchQuiet SearchReach SearchNext SearchHuff SearchLive SearchReady SearchCost SearchSpend SearchWork SearchPend PipeProofs SearchEnds ExecModel ExecFacts ExecInv ExecStep ExecRun ExecOther.

(* the task is going to be run again after its poll *)
Definition marked (x : Exec) (t : nat) : Prop := sc_flag (ex_sched x) t = TRunning true \/ is_cancelled (ex_conf x) t = true.
(* the record of worker w, and what does not change of the task of its job while the worker makes no step *)
Definition held_by (w : nat) (k : Worker) (t : nat) (st : list Frame) (g : list nat) (m : Prop) (x : Exec) : Prop :=
  nth_error (ex_workers x) w = Some k /\ g_sent (ex_conf x) = g /\ (job_task (wk_job k) = Some t -> stack_of (ex_conf x) t = st /\ (m -> marked x t)).

Section Live.
Variables chash mhash : list nat -> nat.
Notation Inv := (Inv chash mhash).
Notation Ready := (Ready chash mhash).
Notation frame_req := (frame_req chash).
Notation access := (access mhash).
Notation task_step := (task_step chash mhash).
Notation drop_frame := (drop_frame mhash).
Notation sys_step := (sys_step chash mhash).
Notation work_step := (work_step chash mhash).
Notation exec_step := (exec_step chash mhash).
Notation poll_step := (poll_step chash mhash).
Notation drop_step := (drop_step mhash).
Notation other := (other chash mhash).
Notation less := (less mhash).
Notation leq := (leq mhash).

Variable X : nat -> Exec.
Hypothesis HT : exec_trace chash mhash X.
(* every worker that runs a task makes a step again, and as long as some worker is free the queue is served or empty at
   some time; both follow if every worker thread goes on, but need not say that every free worker is served *)
Hypothesis HB : forall w i k, nth_error (ex_workers (X i)) w = Some k -> k <> mkWorker [] JNone ->
  exists j, i <= j /\ (work_step (X j) w = Some (X (S j)) \/ work_step (X j) w = None).
Hypothesis HQ : forall w i, nth_error (ex_workers (X i)) w = Some (mkWorker [] JNone) ->
  exists j, i <= j /\ (sc_queue (ex_sched (X j)) = [] \/
    exists w', nth_error (ex_workers (X j)) w' = Some (mkWorker [] JNone) /\ work_step (X j) w' = Some (X (S j))).
Hypothesis HE : forall i, EI (X i).
Hypothesis HR : forall i, Ready (ex_conf (X i)).

Definition conf_at (i : nat) : Config := ex_conf (X i).
Notation run := conf_at.
Notation Dec := (Dec mhash run).
Lemma conf_ready i : Ready (run i).
Proof. apply HR. Qed.
Lemma conf_exec : execution chash mhash run.
Proof. intros i. destruct (HT i) as [E|S]. left. unfold conf_at. now rewrite E. now apply exec_conf. Qed.
Lemma later i j : i <= j -> Dec j -> Dec i.
Proof. apply (dec_later chash mhash run conf_ready conf_exec). Qed.
Lemma dec_step i j : i <= j -> less (run (S j)) (run j) -> Dec i.
Proof. apply (step_dec chash mhash run conf_ready conf_exec). Qed.

Definition turned (j w : nat) : Prop := work_step (X j) w = Some (X (S j)) \/ work_step (X j) w = None.
Lemma until_turn w (P : Exec -> Prop) (G : nat -> Prop) : (forall i j, i <= j -> G j -> G i) -> (forall j, other w (X j) (X (S j)) -> P (X j) -> P (X (S j)) \/ G j) ->
  forall n i, P (X i) -> (exists J, i <= J /\ J <= i + n /\ turned J w) -> G i \/ exists j, i <= j /\ P (X j) /\ turned j w.
Proof.
  intros GL H. induction n as [|n IH]; intros i Pi (J & L1 & L2 & T).
  - assert (J = i) as -> by lia. right. exists i. auto.
  - destruct (Nat.eq_dec J i) as [->|D]. right. exists i. auto.
    destruct (step_who chash mhash w (X i) (X (S i)) (HT i)) as [S|O]. { right. exists i. split; auto. split; auto. now left. }
    destruct (H i O Pi) as [Pn|L]; [|now left].
    destruct (IH (S i) Pn) as [Dn|(j & Lj & Pj & Tj)]. { exists J. repeat split; auto; lia. } left. apply (GL i (S i)); auto. right. exists j. split; auto. lia.
Qed.
Lemma held_other w k t st g m j : other w (X j) (X (S j)) -> held_by w k t st g m (X j) -> held_by w k t st g m (X (S j)) \/ less (run (S j)) (run j).
Proof.
  intros O (N & Eg & T). destruct (other_keeps chash mhash w (X j) (X (S j)) k t (HR j) (HE j) O N) as (N' & K). pose proof (other_step chash mhash w _ _ O) as St.
  assert (Sn : less (run (S j)) (run j) \/ g_sent (run (S j)) = g_sent (run j)).
  { destruct (conf_exec j) as [E|S]. right. now rewrite E. apply (sent_less chash mhash); auto. apply HR. }
  destruct Sn as [L|Sn]; auto. left. split; auto. split. unfold conf_at in Sn. congruence. intros J. destruct (K J) as (K1 & K2), (T J) as (T1 & T2). split. congruence.
  intros M. destruct (T2 M) as [Z|Z]; [left; auto|right]. destruct St as [->|St]; auto. now apply (cancelled_keeps chash mhash (X j) (X (S j)) t (HR j) St).
Qed.
Lemma held_turn w k t st g m i : k <> mkWorker [] JNone -> held_by w k t st g m (X i) -> Dec i \/ exists j, i <= j /\ held_by w k t st g m (X j) /\ turned j w.
Proof.
  intros K H. destruct (HB w i k) as (J & LJ & T); auto. { now destruct H as (N & _). }
  apply (until_turn w (held_by w k t st g m) (SearchEnds.Dec mhash run)) with (n := J - i); auto. apply later.
  intros j O Hj. destruct (held_other w k t st g m j O Hj) as [Z|Z]; auto. right. now apply (dec_step j j). exists J. repeat split; auto. lia.
Qed.
Lemma held_steps w k t st g m i : held_by w k t st g m (X i) -> k <> mkWorker [] JNone -> Dec i \/ exists j, i <= j /\ held_by w k t st g m (X j) /\ work_step (X j) w = Some (X (S j)).
Proof.
  intros H D. destruct (held_turn w k t st g m i D H) as [Z|(j & L & Hj & [T|T])]; auto. right. exists j. auto.
  destruct (work_none chash mhash (X j) w k (HR j) (proj1 Hj) T). contradiction.
Qed.
Lemma wake_marked c s v t : sc_flag s t = TRunning true -> sc_flag (wake c v s) t = TRunning true.
Proof.
  intros F. unfold wake. destruct (nth_error (g_tasks c) v) as [y|]; auto. destruct (ended y); auto. destruct (sc_flag s v) as [| |a] eqn:Fl; auto.
  - rewrite push_flag. destruct (Nat.eqb_spec t v) as [->|]; auto. congruence.
  - cbn [set_flag sc_flag]. destruct (Nat.eq_dec t v) as [->|]. apply set_at_eq. now rewrite set_at_neq.
Qed.
Lemma less_drop j t c s ws c' s' acts ws' : X j = mkExec c s ws -> X (S j) = mkExec c' s' ws' -> drop_step c s t = DStep c' s' acts -> less (run (S j)) (run j).
Proof.
  intros E E' D. unfold conf_at. rewrite E, E'. cbn [ex_conf]. destruct (drop_steps mhash c s t c' s' acts D) as (x & f & rest & _ & _ & Hd & _).
  apply (drop_less chash mhash c t c'); auto. pose proof (HR j) as R. now rewrite E in R.
Qed.
Lemma todo_empties w t st g m job : forall todo i, held_by w (mkWorker todo job) t st g m (X i) -> Dec i \/ exists j, i <= j /\ held_by w (mkWorker [] job) t st g m (X j).
Proof.
  induction todo as [|a todo IH]; intros i H. right. exists i. auto.
  destruct (held_steps w _ t st g m i H ltac:(discriminate)) as [Z|(j & L & (N & Eg & T) & S)]; auto.
  assert (Next : held_by w (mkWorker todo job) t st g m (X (Datatypes.S j)) -> Dec i \/ exists j, i <= j /\ held_by w (mkWorker [] job) t st g m (X j)).
  { intros Hn. destruct (IH _ Hn) as [Z|(j' & L' & H')]. left. apply (later i (Datatypes.S j)); auto. right. exists j'. split; auto. lia. }
  destruct (X j) as [c s ws] eqn:Ej. cbn [ex_conf ex_sched ex_workers ExecModel.work_step] in *. rewrite N in S. pose proof (nth_error_lt _ _ _ N) as Lw. destruct a as [v|u].
  - injection S as S. apply Next. rewrite <- S. split; [|split]; cbn [ex_conf ex_sched ex_workers]; auto. now apply nth_error_upd_eq.
    intros J. destruct (T J) as (T1 & T2). split; auto. intros M. destruct (T2 M) as [Z|Z]; [left|right; auto]. cbn [ex_sched] in *. now apply wake_marked.
  - assert (Skip : Some (mkExec c s (upd ws w (mkWorker todo job))) = Some (X (Datatypes.S j)) -> Dec i \/ exists j, i <= j /\ held_by w (mkWorker [] job) t st g m (X j)).
    { intros Z. injection Z as Z. apply Next. rewrite <- Z. split; [|split]; cbn [ex_conf ex_sched ex_workers]; auto. now apply nth_error_upd_eq. }
    destruct (is_scheduled c u); auto. destruct (drop_step c s u) as [| |c' s' acts] eqn:D; auto. discriminate.
    injection S as S. left. apply (dec_step i j L). eapply less_drop; eauto.
Qed.

(* ---- a poll ends ---- *)
Section Poll.
Variables (w t : nat) (g : list nat).
Definition off (i : nat) : Prop := exists j k, i <= j /\ nth_error (ex_workers (X j)) w = Some k /\ (wk_job k = JNone \/ wk_job k = JPark t).
Definition polling (i : nat) (fresh : bool) (st : list Frame) : Prop := exists todo, held_by w (mkWorker todo (JPoll t fresh)) t st g False (X i).
Definition over (i : nat) : Prop := Dec i \/ off i.
Lemma over_later i j : i <= j -> over j -> over i.
Proof. intros L [D|(j' & k & L' & H)]. left. now apply (later i j). right. exists j', k. split; auto. lia. Qed.

Lemma poll_next i fresh st : polling i fresh st -> over i \/ exists j f rest f' c1, i <= j /\ st = f :: rest /\ at_pend f && negb fresh = false /\ g_sent (run j) = g /\
  In f (frames (cores (run j))) /\ access (run j) (frame_req f) = ADone c1 (CGo f') /\ spin f f' /\ run (S j) = with_task c1 t (set_stack (f' :: rest)) /\ polling (S j) false (f' :: rest).
Proof.
  intros (todo & H). destruct (todo_empties w t st g False (JPoll t fresh) todo i H) as [D|(j0 & L0 & H0)]. left. now left.
  destruct (held_steps w _ t st g False j0 H0 ltac:(discriminate)) as [D|(j & L & (N & Eg & T) & S)]. left. left. now apply (later i j0).
  destruct (T eq_refl) as (Es & _). clear T.
  assert (Off : forall k', nth_error (ex_workers (X (Datatypes.S j))) w = Some k' -> (wk_job k' = JNone \/ wk_job k' = JPark t) -> over i).
  { intros k' Hk J. right. exists (Datatypes.S j), k'. split; auto. lia. }
  pose proof (HR j) as R. pose proof (HE j) as E. unfold conf_at. destruct (X j) as [c s ws] eqn:Ej. cbn [ex_conf ex_sched ex_workers ExecModel.work_step] in *. rewrite N in S. pose proof (nth_error_lt _ _ _ N) as Lw.
  destruct (poll_step c s t fresh) as [((c', s'), k)|] eqn:Ep; [|discriminate]. injection S as S.
  assert (Nk : nth_error (ex_workers (X (Datatypes.S j))) w = Some k). { rewrite <- S. now apply nth_error_upd_eq. }
  unfold ExecModel.poll_step in Ep. rewrite Es in Ep. destruct st as [|f rest]. { injection Ep as <- <- <-. left. eapply Off; eauto. }
  destruct (at_pend f && negb fresh) eqn:Ap. { injection Ep as <- <- <-. left. eapply Off; eauto. }
  destruct (task_step c t) as [| |c2] eqn:Ts; [|discriminate|]. { injection Ep as <- <- <-. left. eapply Off; eauto. }
  assert (Ec : c' = c2). { destruct (react c t (frame_req f) s) as (s1, a1). destruct (stack_of c2 t). destruct (notify t (set_flag t TIdle s1)) as (s2, a2). now injection Ep as <- _ _. now injection Ep as <- _ _. }
  subst c2. pose proof Ts as Ts'. unfold SearchModel.task_step in Ts. destruct (nth_error (g_tasks c) t) as [x|] eqn:Nx; [|discriminate].
  rewrite (stack_of_nth c t x Nx) in Es. rewrite Es in Ts. destruct (tk_sched x) eqn:Sx; [|discriminate]. cbn [negb] in Ts.
  destruct (access c (frame_req f)) as [| |c1 q] eqn:Ea; try discriminate.
  destruct (own_step chash mhash c t x f rest c1 q c' R Nx Sx Es Ea Ts) as [Ls|(_ & f' & -> & Sp)].
  - left. left. apply (dec_step i j). lia. unfold conf_at. rewrite Ej, <- S. exact Ls.
  - right. destruct (access_old chash mhash c _ c1 _ Ea t x Nx) as (x1 & N1 & _). cbn [run_ctl] in Ts. injection Ts as Ts.
    assert (Nt : nth_error (g_tasks c') t = Some (set_stack (f' :: rest) x1)). { rewrite <- Ts, with_task_nth, Nat.eqb_refl, N1. reflexivity. }
    rewrite (stack_of_nth c' t _ Nt) in Ep. cbn [set_stack tk_stack] in Ep. destruct (react c t (frame_req f) s) as (s1, a1). injection Ep as <- <-.
    exists j, f, rest, f', c1. rewrite Ej, <- S. cbn [ex_conf]. split; [lia|]. split; auto. split; auto. split; auto. split. { apply (frames_nth c t x); auto. rewrite Es. now left. }
    split; auto. split; auto. split. now rewrite <- Ts. exists a1. rewrite <- S. split; [|split]; cbn [ex_conf ex_sched ex_workers].
    + now apply nth_error_upd_eq.
    + rewrite <- Ts. cbn [with_task g_sent]. rewrite (spin_sent chash mhash c f f' c1 Ea Sp). auto.
    + intros _. split. now rewrite (stack_of_nth c' t _ Nt). intros [].
Qed.

Section Next.
Variables (order : option nat) (mk : Edges -> NextPc -> Frame) (done : Edges -> Ctl) (rest : list Frame).
Hypothesis Hreq : forall e np, frame_req (mk e np) = next_req order e np mk done.
Hypothesis Hspin : forall e np f, spin (mk e np) f -> exists e' np', f = mk e' np' /\ nspin order e np e' np'.
Hypothesis Hinj : forall e np e' np', mk e np = mk e' np' -> e = e' /\ np = np'.
Hypothesis Hdone : forall e e' np', done e <> CGo (mk e' np').
Hypothesis Hpend : forall e, at_pend (mk e NPend) = true.
Hypothesis Hedges : forall e np, frame_edges (mk e np) = e.

Lemma next_step i fresh e np : polling i fresh (mk e np :: rest) -> over i \/ exists j e' np' c1, i <= j /\ at_pend (mk e np) && negb fresh = false /\ In (mk e np) (frames (cores (run j))) /\
  access (run j) (next_req order e np mk done) = ADone c1 (CGo (mk e' np')) /\ nspin order e np e' np' /\ run (S j) = with_task c1 t (set_stack (mk e' np' :: rest)) /\ polling (S j) false (mk e' np' :: rest).
Proof.
  intros P. destruct (poll_next i fresh _ P) as [O|(j & f & r & f' & c1 & L & E & Ap & _ & Hf & Ea & Sp & Er & Pn)]; auto. injection E as <- <-. right.
  destruct (Hspin e np f' Sp) as (e' & np' & -> & Ns). exists j, e', np', c1. rewrite <- Hreq. auto 10.
Qed.
Lemma next_pend i e : polling i false (mk e NPend :: rest) -> over i.
Proof. intros P. destruct (next_step i false e NPend P) as [O|(j & e' & np' & c1 & _ & Ap & _)]; auto. rewrite Hpend in Ap. discriminate. Qed.

Section Good.
Variables (e : Edges) (id0 u : nat) (x0 : Target).
Hypothesis N0 : nth_error (targets e) id0 = Some x0.
Hypothesis R0 : tg_run x0 = Some u.
Lemma sched_later i j : i <= j -> sched_in (run i) u -> sched_in (run j) u.
Proof. apply (exec_sched chash mhash run conf_ready conf_exec). Qed.
Lemma good_poll : forall ids nr i, polling i false (mk e (NPoll ids false nr true) :: rest) -> (0 < nr \/ In id0 ids /\ sched_in (run i) u) -> over i.
Proof.
  induction ids as [|id ids IH]; intros nr i P H; (destruct (next_step i false e _ P) as [O|(j & e' & np' & c1 & L & _ & Hf & Ea & Ns & Er & Pn)]; auto); apply (over_later i (S j)); try lia.
  - destruct H as [H|([] & _)]. cbn [next_req SearchModel.access] in Ea. injection Ea as _ Ea. destruct (retain_closed e) as [e1|]; [|discriminate].
    cbn [orb] in Ea. destruct (active e1); [now apply Hdone in Ea|]. cbn [andb] in Ea. destruct (Nat.ltb_spec 0 nr) as [_|Z]; [|lia]. injection Ea as Ea. apply Hinj in Ea. destruct Ea as (<- & <-).
    now apply (next_pend (S j) e1).
  - cbn [next_req] in Ea. destruct (nth_error (targets e) id) as [x|] eqn:Nx; [|discriminate]. destruct (tg_run x) as [v|] eqn:Rx.
    + cbn [SearchModel.access] in Ea. destruct (nth_error (g_tasks (run j)) v) as [y|] eqn:Ny; [|discriminate]. destruct (tk_result y) as [r|].
      { injection Ea as _ Ea. apply Hinj in Ea. destruct Ea as (_ & <-). inversion Ns. }
      destruct (tk_cancel y); [discriminate|]. injection Ea as _ Ea. apply Hinj in Ea. destruct Ea as (<- & <-). apply (IH _ (S j) Pn).
      destruct (tk_sched y) eqn:Sy; [left; lia|]. destruct H as [H|([->|H] & Su)]; [left; auto| |right; split; auto; apply (sched_later i); auto; lia].
      exfalso. rewrite N0 in Nx. injection Nx as <-. rewrite R0 in Rx. injection Rx as <-. destruct (sched_later i j L Su) as (y' & Ny' & Sy'). congruence.
    + cbn [SearchModel.access] in Ea. injection Ea as _ Ea. apply Hinj in Ea. destruct Ea as (<- & <-). apply (IH _ (S j) Pn).
      destruct H as [H|([->|H] & Su)]; [left; auto|congruence|right; split; auto; apply (sched_later i); auto; lia].
Qed.
Lemma good_spawn : In id0 (active e) -> forall ids n i, polling i false (mk e (NSpawn (S n) ids true) :: rest) -> sched_in (run i) u -> over i.
Proof.
  intros Hi. induction ids as [|id ids IH]; intros n i P H; (destruct (next_step i false e _ P) as [O|(j & e' & np' & c1 & L & _ & Hf & Ea & Ns & Er & Pn)]; auto); apply (over_later i (S j)); try lia.
  - inversion Ns; subst e' np'. apply (good_poll _ _ _ Pn). right. split; auto. apply (sched_later i); auto; lia.
  - inversion Ns; subst e' np'. apply (IH (S n) (S j) Pn). apply (sched_later i); auto; lia.
Qed.
End Good.
Lemma good_spawn0 e ids i : ids <> [] -> incl ids (active e) -> polling i false (mk e (NSpawn 0 ids true) :: rest) -> over i.
Proof.
  intros Hn Hi P. destruct ids as [|id ids]; [congruence|]. destruct (next_step i false e _ P) as [O|(j & e' & np' & c1 & L & _ & Hf & Ea & Ns & Er & Pn)]; auto. apply (over_later i (S j)). lia.
  inversion Ns; subst. cbn [next_req] in Ea. destruct (nth_error (targets e') id) as [x|] eqn:Nx; [|discriminate]. destruct (tg_run x) as [u|] eqn:Rx.
  - cbn [Nat.eqb SearchModel.access] in Ea. injection Ea as Ec. apply (good_spawn e' id u x Nx Rx (Hi id (or_introl eq_refl)) ids 0 (S j) Pn).
    assert (Hu : exists y, nth_error (g_tasks (run j)) u = Some y).
    { destruct (inv_kid _ _ _ (gd_inv _ _ _ (rd_good _ _ _ (HR j)))) as (_ & IK). destruct (IK u) as (_ & y & Ny & _); eauto. apply in_flat_map. exists (mk e' (NSpawn 0 (id :: ids) true)). split; auto.
      unfold kids. rewrite Hedges. apply (In_running e' x u); auto. now apply nth_error_In in Nx. }
    destruct Hu as (y & Ny). rewrite Er, <- Ec. unfold sched_in. rewrite !with_task_nth. rewrite Nat.eqb_refl, Ny. cbn [option_map]. destruct (u =? t); cbn [option_map]; eexists; split; reflexivity.
  - destruct (closed (tg_state x)); [discriminate|]. cbn [Nat.eqb andb negb SearchModel.access] in Ea. injection Ea as _ Ea. apply Hinj in Ea. destruct Ea; discriminate.
Qed.
Lemma sort_some e : active e <> [] -> active (sort_active order e) <> [].
Proof.
  intros A H. destruct (active e) as [|id ids] eqn:E. congruence. assert (Z : In id (active (sort_active order e))). { apply sort_active_In'. rewrite E. now left. }
  rewrite H in Z. destruct Z.
Qed.
Lemma any_poll e : forall ids fin nr b i fresh, polling i fresh (mk e (NPoll ids fin nr b) :: rest) -> over i.
Proof.
  induction ids as [|id ids IH]; intros fin nr b i fresh P; (destruct (next_step i fresh e _ P) as [O|(j & e' & np' & c1 & L & _ & Hf & Ea & Ns & Er & Pn)]; auto); apply (over_later i (S j)); try lia.
  - inversion Ns; subst.
    + now apply (next_pend (S j) e').
    + eapply good_spawn0; [| |exact Pn]. now apply sort_some. apply incl_refl.
  - inversion Ns; subst e' np'. eapply IH; eauto.
Qed.
Lemma any_spawn e : forall ids n b i fresh, polling i fresh (mk e (NSpawn n ids b) :: rest) -> over i.
Proof.
  induction ids as [|id ids IH]; intros n b i fresh P; (destruct (next_step i fresh e _ P) as [O|(j & e' & np' & c1 & L & _ & Hf & Ea & Ns & Er & Pn)]; auto); apply (over_later i (S j)); try lia.
  - inversion Ns; subst e' np'. eapply any_poll; eauto.
  - inversion Ns; subst e' np'. eapply IH; eauto.
Qed.
Lemma any_next e np i fresh : polling i fresh (mk e np :: rest) -> over i.
Proof.
  intros P. destruct np as [ids fin nr b| |k ids b|ids b v].
  - eapply any_poll; eauto.
  - destruct (next_step i fresh e _ P) as [O|(j & e' & np' & c1 & L & _ & Hf & Ea & Ns & Er & Pn)]; auto. apply (over_later i (S j)); try lia. inversion Ns; subst e' np'. eapply any_spawn; eauto.
  - eapply any_spawn; eauto.
  - destruct (next_step i fresh e _ P) as [O|(j & e' & np' & c1 & L & _ & Hf & Ea & Ns & Er & Pn)]; auto. inversion Ns.
Qed.
End Next.

(* the loop that waits for a lock *)
Section Lock.
Variables (prev : State) (s : OutputSet) (rest : list Frame).
Lemma unsent_over id i fresh : ~ In id g -> polling i fresh (FImp prev s (IWait id) :: rest) -> over i.
Proof.
  intros Hn P. destruct (poll_next i fresh _ P) as [O|(j & f & r & f' & c1 & L & E & _ & Eg & _ & Ea & _)]; auto. injection E as <- <-. exfalso. apply Hn.
  cbn [SearchModel.frame_req imp_req SearchModel.access] in Ea. destruct (existsb (Nat.eqb id) (g_sent (run j))) eqn:Ex; [|discriminate].
  apply existsb_exists in Ex. destruct Ex as (id' & H & E'). apply Nat.eqb_eq in E'. subst id'. now rewrite <- Eg.
Qed.
Lemma lock_over i fresh : polling i fresh (FImp prev s ILock :: rest) -> over i.
Proof.
  intros P. destruct (poll_next i fresh _ P) as [O|(j & f & r & f' & c1 & L & E & _ & Eg & Hf & Ea & Sp & Er & Pn)]; auto. injection E as <- <-. apply (over_later i (S j)). lia.
  inversion Sp; subst. cbn [SearchModel.frame_req imp_req SearchModel.access] in Ea. pose proof (inv_frame_ok chash mhash _ _ (gd_inv _ _ _ (rd_good _ _ _ (HR j))) Hf) as (K & Wk).
  pose proof (sm_get_lock_spec mhash (g_map (run j)) s (g_next (run j)) (mi_ok _ _ _ (inv_map _ _ _ (gd_inv _ _ _ (rd_good _ _ _ (HR j))))) (work_okk _ K Wk)) as LS.
  destruct (inv_lock _ _ _ (gd_inv _ _ _ (rd_good _ _ _ (HR j)))) as (A & A' & B & C & D).
  destruct (lock_of mhash (g_map (run j)) s) as [id0|] eqn:El.
  - rewrite LS in Ea. injection Ea as Ec Ei. subst id0. apply (unsent_over id (S j) false); auto. intros Hs.
    apply (C s id). apply B; auto. apply K. unfold conf_at in Eg. now rewrite Eg.
  - destruct LS as (m' & LS & _). rewrite LS in Ea. injection Ea as _ Ea. discriminate.
Qed.
Lemma look_over i fresh : polling i fresh (FImp prev s ILook :: rest) -> over i.
Proof.
  intros P. destruct (poll_next i fresh _ P) as [O|(j & f & r & f' & c1 & L & E & _ & Eg & Hf & Ea & Sp & Er & Pn)]; auto. injection E as <- <-. apply (over_later i (S j)). lia.
  inversion Sp; subst. eapply lock_over; eauto.
Qed.
End Lock.
Lemma poll_over i fresh st : polling i fresh st -> over i.
Proof.
  intros P. destruct (poll_next i fresh _ P) as [O|(j & f & r & f' & c1 & L & -> & _ & _ & Hf & Ea & Sp & _ & Pn)]; auto. inversion Sp; subst.
  - apply (over_later i (S j)). lia. eapply lock_over; eauto.
  - eapply lock_over; eauto.
  - apply (over_later i (S j)). lia. eapply look_over; eauto.
  - eapply any_next with (order := Some (lo st)) (mk := fun e np => FImp prev s (INext lk st e np)) (e := e) (np := np) (rest := r); [..|exact P]; try reflexivity.
    + intros e0 np0 g0 H0. inversion H0; subst. eauto.
    + intros e0 np0 e1 np1 H0. now injection H0.
    + discriminate.
  - eapply any_next with (order := None) (mk := fun e np => FHuff s (HNext st ids0 ids1 uh0 uh1 e np)) (e := e) (np := np) (rest := r); [..|exact P]; try reflexivity.
    + intros e0 np0 g0 H0. inversion H0; subst. eauto.
    + intros e0 np0 e1 np1 H0. now injection H0.
    + intros e0 e1 np1. unfold huff_while. destruct (lo st <? hhi st); discriminate.
Qed.
End Poll.

(* ---- every worker becomes free ---- *)
Definition free_at (w j : nat) : Prop := nth_error (ex_workers (X j)) w = Some (mkWorker [] JNone).
Definition frees (w i : nat) : Prop := Dec i \/ exists j, i <= j /\ free_at w j.
Lemma frees_later w i j : i <= j -> frees w j -> frees w i.
Proof. intros L [D|(j' & L' & H)]. left. now apply (later i j). right. exists j'. split; auto. lia. Qed.
Lemma hold_now w k t (m : Prop) i : nth_error (ex_workers (X i)) w = Some k -> (m -> marked (X i) t) -> held_by w k t (stack_of (run i) t) (g_sent (run i)) m (X i).
Proof. intros N M. split; auto. Qed.
Lemma frees_none w todo i : nth_error (ex_workers (X i)) w = Some (mkWorker todo JNone) -> frees w i.
Proof.
  intros N. destruct (todo_empties w 0 _ _ False JNone todo i (hold_now w _ 0 False i N ltac:(tauto))) as [D|(j & L & (Nj & _))]. now left. right. exists j. auto.
Qed.
Lemma frees_drop w t todo i : nth_error (ex_workers (X i)) w = Some (mkWorker todo (JDrop t)) -> frees w i.
Proof.
  intros N. destruct (todo_empties w 0 _ _ False (JDrop t) todo i (hold_now w _ 0 False i N ltac:(tauto))) as [D|(j0 & L0 & H0)]. now left.
  destruct (held_steps w _ _ _ _ _ j0 H0 ltac:(discriminate)) as [D|(j & L & (Nj & _) & S)]. left. now apply (later i j0).
  destruct (X j) as [c s ws] eqn:Ej. cbn [ex_conf ex_sched ex_workers ExecModel.work_step] in *. rewrite Nj in S. pose proof (nth_error_lt _ _ _ Nj) as Lw.
  destruct (drop_step c s t) as [| |c' s' acts] eqn:D; [|discriminate|]; injection S as S.
  - right. exists (Datatypes.S j). split. lia. unfold free_at. rewrite <- S. now apply nth_error_upd_eq.
  - left. apply (dec_step i j). lia. eapply less_drop; eauto.
Qed.
Lemma frees_park w t todo i : nth_error (ex_workers (X i)) w = Some (mkWorker todo (JPark t)) -> frees w i.
Proof.
  intros N. destruct (todo_empties w 0 _ _ False (JPark t) todo i (hold_now w _ 0 False i N ltac:(tauto))) as [D|(j0 & L0 & H0)]. now left.
  destruct (held_steps w _ _ _ _ _ j0 H0 ltac:(discriminate)) as [D|(j & L & (Nj & _) & S)]. left. now apply (later i j0).
  destruct (X j) as [c s ws] eqn:Ej. cbn [ex_conf ex_sched ex_workers ExecModel.work_step] in *. rewrite Nj in S. pose proof (nth_error_lt _ _ _ Nj) as Lw.
  unfold park_step in S. destruct (is_cancelled c t).
  - injection S as S. apply (frees_later w i (Datatypes.S j)). lia. apply (frees_drop w t []). rewrite <- S. now apply nth_error_upd_eq.
  - assert (Z : nth_error (ex_workers (X (Datatypes.S j))) w = Some (mkWorker [] JNone)). { destruct (sc_flag s t) as [| |[|]]; injection S as S; rewrite <- S; now apply nth_error_upd_eq. }
    right. exists (Datatypes.S j). split; auto. lia.
Qed.
Lemma worker_free w i : w < length (ex_workers (X i)) -> frees w i.
Proof.
  intros L. destruct (nth_error (ex_workers (X i)) w) as [[todo job]|] eqn:N. 2: { apply nth_error_None in N. lia. }
  destruct job as [|t fresh|t|t]. eapply frees_none; eauto. 2: eapply frees_park; eauto. 2: eapply frees_drop; eauto.
  destruct (poll_over w t (g_sent (run i)) i fresh (stack_of (run i) t)) as [D|(j & k & Lj & Nj & J)].
  - exists todo. apply hold_now; auto. tauto.
  - now left.
  - apply (frees_later w i j Lj). destruct k as [todo' job']. cbn [wk_job] in J. destruct J as [->| ->]. eapply frees_none; eauto. eapply frees_park; eauto.
Qed.

(* ---- a task that may go on is not left out for ever, or there is progress ---- *)
Definition good (t i : nat) : Prop := Dec i \/ exists j, i <= j /\ (moves chash mhash (run j) t (run (S j)) \/ ~ enabled chash mhash (run j) t).
Lemma good_later t i j : i <= j -> good t j -> good t i.
Proof. intros L [D|(j' & L' & H)]. left. now apply (later i j). right. exists j'. split; auto. lia. Qed.
Lemma good_moves t j : moves chash mhash (run j) t (run (S j)) -> good t j.
Proof. intros H. right. exists j. auto. Qed.
Lemma good_off t j : ~ enabled chash mhash (run j) t -> good t j.
Proof. intros H. right. exists j. auto. Qed.
Lemma empty_disabled c t : stack_of c t = [] -> ~ enabled chash mhash c t.
Proof.
  intros E [(x & f & rest & c' & N & Es & _)|(c' & D)]. rewrite (stack_of_nth c t x N) in E. congruence.
  destruct (drop_open mhash c t c' D) as (x & f & rest & N & _ & Es & _). rewrite (stack_of_nth c t x N) in E. congruence.
Qed.
Lemma blocked_disabled c t : (forall c', task_step c t <> Stepped c') -> is_cancelled c t = false -> ~ enabled chash mhash c t.
Proof.
  intros B C [(x & f & rest & c' & N & Es & _ & H)|(c' & D)]. now apply (B c').
  destruct (drop_open mhash c t c' D) as (x & f & rest & N & Cx & Es & _). unfold is_cancelled in C. rewrite N in C. congruence.
Qed.

(* the worker of t stops running t after a poll *)
Definition parks (w t j : nat) : Prop :=
  is_cancelled (run j) t = false /\ is_cancelled (run (S j)) t = false /\
  (marked (X j) t -> In t (sc_queue (ex_sched (X (S j))))) /\ (~ marked (X j) t -> sc_flag (ex_sched (X (S j))) t = TIdle).
Lemma job_step w t k j : nth_error (ex_workers (X j)) w = Some k -> job_task (wk_job k) = Some t ->
  good t j \/ (exists k', nth_error (ex_workers (X (S j))) w = Some k' /\ job_task (wk_job k') = Some t /\ (marked (X j) t -> marked (X (S j)) t)) \/ parks w t j.
Proof.
  intros N J. destruct (step_who chash mhash w (X j) (X (S j)) (HT j)) as [S|O].
  2: { destruct (held_other w k t _ _ (marked (X j) t) j O (hold_now w k t (marked (X j) t) j N ltac:(auto))) as [(N' & _ & H)|L].
       right. left. exists k. split; auto. split; auto. apply (H J). left. left. now apply (dec_step j j). }
  pose proof (HR j) as R. pose proof (HE j) as E. unfold parks, conf_at. destruct (X j) as [c s ws] eqn:Ej. cbn [ex_conf ex_sched ex_workers ExecModel.work_step] in *. rewrite N in S. pose proof (nth_error_lt _ _ _ N) as Lw.
  assert (Rj : run j = c) by (unfold conf_at; now rewrite Ej).
  assert (Go : forall s' k', Some (mkExec c s' (upd ws w k')) = Some (X (Datatypes.S j)) -> job_task (wk_job k') = Some t -> (sc_flag s t = TRunning true -> sc_flag s' t = TRunning true) ->
    good t j \/ (exists k', nth_error (ex_workers (X (Datatypes.S j))) w = Some k' /\ job_task (wk_job k') = Some t /\ (marked (mkExec c s ws) t -> marked (X (Datatypes.S j)) t)) \/ parks w t j).
  { intros s' k' Z J' M. injection Z as Z. rewrite <- Z. right. left. exists k'. split. now apply nth_error_upd_eq. split; auto. intros [F|C]; [left|right]; auto. }
  destruct k as [[|[v|u] todo] job].
  - destruct job as [|t' fresh|t'|t']; cbn [wk_job job_task] in J; [discriminate| | |]; injection J as ->.
    + destruct (poll_step c s t fresh) as [((c', s'), k)|] eqn:Ep; [|discriminate].
      unfold ExecModel.poll_step in Ep. destruct (stack_of c t) as [|f rest] eqn:Es. { left. apply good_off. rewrite Rj. now apply empty_disabled. }
      destruct (at_pend f && negb fresh). { injection Ep as <- <- <-. destruct (Go _ _ S eq_refl) as [Z|[Z|Z]]; auto. right. right. unfold parks, conf_at in Z. rewrite Ej in Z. cbn [ex_conf ex_sched] in Z. exact Z. }
      destruct (task_step c t) as [| |c2] eqn:Ts; [|discriminate|].
      { injection Ep as <- <- <-. destruct (Go _ _ S eq_refl) as [Z|[Z|Z]]; auto. unfold wait_on. now destruct (frame_req f). right. right. unfold parks, conf_at in Z. rewrite Ej in Z. cbn [ex_conf ex_sched] in Z. exact Z. }
      assert (Ec : c' = c2). { destruct (react c t (frame_req f) s) as (s1, a1). destruct (stack_of c2 t). destruct (notify t (set_flag t TIdle s1)) as (s2, a2). now injection Ep as <- _ _. now injection Ep as <- _ _. }
      subst c2. left. apply good_moves. left. rewrite Rj. unfold conf_at. injection S as <-. exact Ts.
    + unfold park_step in S. destruct (is_cancelled c t) eqn:C.
      { destruct (Go _ _ S eq_refl) as [Z|[Z|Z]]; auto. right. right. unfold parks, conf_at in Z. rewrite Ej in Z. cbn [ex_conf ex_sched] in Z. destruct Z as (Z & _). congruence. }
      right. right. split; auto. destruct (sc_flag s t) as [| |[|]] eqn:F; injection S as <-; cbn [ex_conf ex_sched]; (split; [auto|]; split; intros M).
      all: try (destruct M as [M|M]; cbn [ex_sched ex_conf] in M; congruence).
      all: try (cbn [set_flag sc_flag]; apply set_at_eq).
      * apply in_or_app. right. now left.
      * exfalso. apply M. now left.
    + destruct (drop_step c s t) as [| |c' s' acts] eqn:D; [|discriminate|].
      * left. apply good_off. rewrite Rj. destruct (stack_of c t) as [|f rest] eqn:Es. now apply empty_disabled. exfalso.
        unfold stack_of in Es. destruct (nth_error (g_tasks c) t) as [y|] eqn:Ny; [|discriminate]. destruct (tk_cancel y) eqn:Cy.
        { rewrite (drop_ends mhash c s t y Ny D Cy) in Es. discriminate. }
        destruct E as [_ _ K]. destruct (K t y f rest Ny Es) as (_ & K2). destruct (K2 Cy) as (_ & _ & _ & _ & _ & K3). apply (K3 w). eexists. split; [exact N|reflexivity].
      * injection S as S. left. apply good_moves. right. destruct (drop_steps mhash c s t c' s' acts D) as (y & f & rest & _ & _ & Hd & _). rewrite Rj. unfold conf_at. now rewrite <- S.
  - destruct (Go _ _ S J) as [Z|[Z|Z]]; auto. apply wake_marked. right. right. unfold parks, conf_at in Z. rewrite Ej in Z. cbn [ex_conf ex_sched] in Z. exact Z.
  - assert (Skip : Some (mkExec c s (upd ws w (mkWorker todo job))) = Some (X (Datatypes.S j)) -> good t j \/ (exists k', nth_error (ex_workers (X (Datatypes.S j))) w = Some k' /\ job_task (wk_job k') = Some t /\ (marked (mkExec c s ws) t -> marked (X (Datatypes.S j)) t)) \/ parks w t j).
    { intros Z. apply (Go _ _ Z J). auto. }
    unfold parks, conf_at in Skip. rewrite Ej in Skip. cbn [ex_conf ex_sched] in Skip. destruct (is_scheduled c u); auto. destruct (drop_step c s u) as [| |c' s' acts] eqn:D; auto. discriminate.
    injection S as S. left. left. apply (dec_step j j); auto. eapply less_drop; eauto.
Qed.

Lemma job_ends w t i k : nth_error (ex_workers (X i)) w = Some k -> job_task (wk_job k) = Some t ->
  good t i \/ exists j, i <= j /\ parks w t j /\ (marked (X i) t -> marked (X j) t).
Proof.
  intros N J. destruct (worker_free w i (nth_error_lt _ _ _ N)) as [D|(e & Le & Fe)]. left. now left.
  remember (e - i) as n eqn:En. revert i k N J Le En. induction n as [|n IH]; intros i k N J Le En.
  - assert (e = i) as -> by lia. unfold free_at in Fe. rewrite Fe in N. injection N as <-. discriminate.
  - destruct (job_step w t k i N J) as [Z|[(k' & N' & J' & M)|Z]]; auto. 2: { right. exists i. auto. }
    destruct (IH (S i) k' N' J') as [Z|(j & Lj & Pj & Mj)]; try lia. left. apply (good_later t i (S i)); auto. right. exists j. split; [lia|]. auto.
Qed.
Lemma cancelled_later t i j : i <= j -> is_cancelled (run i) t = true -> is_cancelled (run j) t = true.
Proof.
  induction 1 as [|j L IH]; auto. intros C. specialize (IH C). unfold conf_at in *. destruct (HT j) as [->|St]; auto. apply (cancelled_keeps chash mhash (X j) (X (S j)) t (HR j) St IH).
Qed.
Lemma job_cancelled w t i k : nth_error (ex_workers (X i)) w = Some k -> job_task (wk_job k) = Some t -> is_cancelled (run i) t = true -> good t i.
Proof.
  intros N J C. destruct (job_ends w t i k N J) as [Z|(j & L & (P & _) & _)]; auto. rewrite (cancelled_later t i j L C) in P. discriminate.
Qed.
Lemma job_drops w t i todo : nth_error (ex_workers (X i)) w = Some (mkWorker todo (JDrop t)) -> good t i.
Proof.
  intros N. destruct (stack_of (run i) t) as [|f rest] eqn:Es. { apply good_off. now apply empty_disabled. }
  apply (job_cancelled w t i _ N eq_refl). unfold is_cancelled. unfold stack_of in Es. destruct (nth_error (g_tasks (run i)) t) as [y|] eqn:Ny; [|discriminate].
  destruct (tk_cancel y) eqn:C; auto. exfalso. destruct (HE i) as [_ _ K]. destruct (K t y f rest Ny Es) as (_ & K2). destruct (K2 C) as (_ & _ & _ & _ & _ & K3). apply (K3 w). eexists. split; [exact N|reflexivity].
Qed.
Lemma job_begins w t i todo : nth_error (ex_workers (X i)) w = Some (mkWorker todo (JPoll t true)) -> good t i.
Proof.
  intros N. destruct (todo_empties w t _ _ False (JPoll t true) todo i (hold_now w _ t False i N ltac:(tauto))) as [D|(j0 & L0 & H0)]. now left.
  destruct (held_steps w _ _ _ _ _ j0 H0 ltac:(discriminate)) as [D|(j & L & (Nj & _) & S)]. left. now apply (later i j0).
  apply (good_later t i j). lia.
  destruct (X j) as [c s ws] eqn:Ej. cbn [ex_conf ex_sched ex_workers ExecModel.work_step] in *. rewrite Nj in S. pose proof (nth_error_lt _ _ _ Nj) as Lw.
  assert (Rj : run j = c) by (unfold conf_at; now rewrite Ej).
  destruct (poll_step c s t true) as [((c', s'), k)|] eqn:Ep; [|discriminate]. injection S as S.
  unfold ExecModel.poll_step in Ep. destruct (stack_of c t) as [|f rest] eqn:Es. { apply good_off. rewrite Rj. now apply empty_disabled. }
  rewrite andb_false_r in Ep. destruct (task_step c t) as [| |c2] eqn:Ts; [|discriminate|].
  - destruct (is_cancelled c t) eqn:C.
    + apply (good_later t j (Datatypes.S j)). lia. injection Ep as <- <- <-. apply (job_cancelled w t (Datatypes.S j) (mkWorker [] (JPark t))). rewrite <- S. now apply nth_error_upd_eq. reflexivity.
      apply (cancelled_later t j). lia. now rewrite Rj.
    + apply good_off. rewrite Rj. apply blocked_disabled; auto. intros c'0. congruence.
  - assert (Ec : c' = c2). { destruct (react c t (frame_req f) s) as (s1, a1). destruct (stack_of c2 t). destruct (notify t (set_flag t TIdle s1)) as (s2, a2). now injection Ep as <- _ _. now injection Ep as <- _ _. }
    subst c2. apply good_moves. left. rewrite Rj. unfold conf_at. now rewrite <- S.
Qed.
Lemma taken_good w t i (b : bool) : nth_error (ex_workers (X i)) w = Some (mkWorker [] (if b then JDrop t else JPoll t true)) -> good t i.
Proof. destruct b. apply job_drops. apply job_begins. Qed.

Hypothesis HW : forall i, ex_workers (X i) <> [].
Definition all_good (t : nat) (l : list nat) : Prop := forall q i, sc_queue (ex_sched (X i)) = l ++ t :: q -> good t i.
Lemma queue_one t l : match l with [] => True | _ :: l' => all_good t l' end -> all_good t l.
Proof.
  intros IH q i Q.
  assert (Tk : forall j q w h (q0 : list nat), sc_queue (ex_sched (X j)) = l ++ t :: q -> sc_queue (ex_sched (X j)) = h :: q0 -> sc_queue (ex_sched (X (S j))) = q0 ->
    nth_error (ex_workers (X (S j))) w = Some (mkWorker [] (if is_cancelled (ex_conf (X j)) h then JDrop h else JPoll h true)) -> good t j).
  { clear i q Q. intros j q w h q0 Q Q0 Q1 N. apply (good_later t j (S j)). lia. rewrite Q in Q0. destruct l as [|h' l']; cbn [app] in Q0; injection Q0 as -> Q0.
    eapply taken_good; eauto. apply (IH q). now rewrite Q1. }
  assert (St : forall j q, sc_queue (ex_sched (X j)) = l ++ t :: q -> (exists q', sc_queue (ex_sched (X (S j))) = l ++ t :: q') \/ good t j).
  { clear i q Q. intros j q Q. destruct (HT j) as [->|S]; [eauto|]. destruct (exec_queue chash mhash _ _ S) as [(q' & E)|(w & h & q' & E & E' & _ & _ & N)].
    left. rewrite E, Q. exists (q ++ q'). now rewrite <- app_assoc. right. eapply Tk; eauto. }
  assert (Wk : forall n, good t i \/ exists q', sc_queue (ex_sched (X (n + i))) = l ++ t :: q').
  { induction n as [|n [Z|(q' & Z)]]; auto. right. eauto. destruct (St (n + i) q' Z) as [Y|Y]; auto. left. apply (good_later t i (n + i)); auto. lia. }
  assert (L0 : 0 < length (ex_workers (X i))). { pose proof (HW i) as W. destruct (ex_workers (X i)); [congruence|cbn; lia]. }
  destruct (worker_free 0 i L0) as [D|(j0 & L & F)]. now left.
  destruct (Wk (j0 - i)) as [Z|(q' & Q')]; auto. replace (j0 - i + i) with j0 in Q' by lia. apply (good_later t i j0 L).
  destruct (HQ 0 j0 F) as (j & Lj & H).
  assert (Qj : good t j0 \/ exists q, sc_queue (ex_sched (X j)) = l ++ t :: q).
  { clear H. induction Lj as [|j Lj [Z|(q1 & Z)]]; eauto. destruct (St j q1 Z) as [Y|Y]; auto. left. now apply (good_later t j0 j). }
  destruct Qj as [Z|(q1 & Qj)]; auto. apply (good_later t j0 j Lj). destruct H as [H|(w' & Nj & T)].
  - rewrite H in Qj. destruct l; discriminate.
  - destruct (X j) as [c s ws] eqn:Ej. cbn [ex_conf ex_sched ex_workers ExecModel.work_step] in *. rewrite Nj in T. destruct (sc_queue s) as [|h q0] eqn:Eq. { destruct l; discriminate. }
    injection T as T. apply (Tk j q1 w' h q0); rewrite ?Ej; cbn [ex_sched]; auto. congruence. rewrite <- T. reflexivity. rewrite <- T. cbn [ex_workers ex_conf]. apply nth_error_upd_eq. eapply nth_error_lt; eauto.
Qed.
Lemma queue_good t i : In t (sc_queue (ex_sched (X i))) -> good t i.
Proof.
  assert (A : forall l, all_good t l). { induction l as [|h l IH]; apply queue_one; auto. }
  intros H. apply in_split in H. destruct H as (l & q & E). eapply A; eauto.
Qed.
Lemma job_marked w t i k : nth_error (ex_workers (X i)) w = Some k -> job_task (wk_job k) = Some t -> marked (X i) t -> good t i.
Proof.
  intros N J M. destruct (job_ends w t i k N J) as [Z|(j & L & (_ & _ & Q & _) & Mj)]; auto. apply (good_later t i (S j)). lia. apply queue_good. auto.
Qed.
Lemma run_marked t i : running (ex_sched (X i)) t -> marked (X i) t -> good t i.
Proof. intros R M. destruct (HE i) as [_ (_ & F & _) _]. destruct (F t R) as (w & k & N & J). eapply job_marked; eauto. Qed.

Lemma sched_cancelled t i : is_cancelled (run i) t = true -> is_scheduled (run i) t = true -> good t i.
Proof.
  intros C S. destruct (stack_of (run i) t) as [|f rest] eqn:Es. { apply good_off. now apply empty_disabled. }
  pose proof C as C'. unfold is_cancelled in C'. unfold stack_of in Es. destruct (nth_error (g_tasks (run i)) t) as [y|] eqn:Ny; [|discriminate].
  destruct (HE i) as [(_ & Q & _) _ K]. destruct (K t y f rest Ny Es) as (K1 & _). destruct (K1 C') as (Fi & _). destruct (sc_flag (ex_sched (X i)) t) as [| |a] eqn:F; [congruence| |].
  - apply queue_good. apply Q. auto.
  - apply run_marked. exists a; auto. now right.
Qed.
Lemma adrop_good t r job w : forall l i, nth_error (ex_workers (X i)) w = Some (mkWorker (l ++ ADrop t :: r) job) -> is_cancelled (run i) t = true -> good t i.
Proof.
  induction l as [|a l IH]; intros i N C; (destruct (held_steps w _ _ _ _ _ i (hold_now w _ 0 False i N ltac:(tauto)) ltac:(discriminate)) as [D|(j & L & (Nj & _) & S)]; [now left|]);
    apply (good_later t i j L); pose proof (cancelled_later t i j L C) as Cj; pose proof (cancelled_later t i (Datatypes.S j) ltac:(lia) C) as Cn;
    destruct (X j) as [c s ws] eqn:Ej; cbn [ex_conf ex_sched ex_workers ExecModel.work_step app] in *; rewrite Nj in S; pose proof (nth_error_lt _ _ _ Nj) as Lw; (assert (Rj : run j = c) by (unfold conf_at; now rewrite Ej)).
  - destruct (is_scheduled c t) eqn:Sc. { apply sched_cancelled; auto. now rewrite Rj. }
    destruct (drop_step c s t) as [| |c' s' acts] eqn:D; [|discriminate|].
    + apply good_off. rewrite Rj in *. apply empty_disabled. unfold is_cancelled in Cj. destruct (nth_error (g_tasks c) t) as [y|] eqn:Ny; [|discriminate]. rewrite (stack_of_nth c t y Ny). eapply drop_ends; eauto.
    + injection S as S. apply good_moves. right. destruct (drop_steps mhash c s t c' s' acts D) as (y & f & rest & _ & _ & Hd & _). rewrite Rj. unfold conf_at. rewrite <- S. exact Hd.
  - assert (Go : forall s', Some (mkExec c s' (upd ws w (mkWorker (l ++ ADrop t :: r) job))) = Some (X (Datatypes.S j)) -> good t j).
    { intros s' Z. injection Z as Z. apply (good_later t j (Datatypes.S j)). lia. apply IH; auto. rewrite <- Z. now apply nth_error_upd_eq. }
    destruct a as [v|u]. eapply Go; eauto. destruct (is_scheduled c u); [eapply Go; eauto|]. destruct (drop_step c s u) as [| |c' s' acts] eqn:D; [eapply Go; eauto|discriminate|].
    injection S as S. left. apply (dec_step j j); auto. eapply less_drop; eauto.
Qed.
Lemma cancel_good t i : is_cancelled (run i) t = true -> good t i.
Proof.
  intros C. destruct (is_scheduled (run i) t) eqn:S. now apply sched_cancelled. destruct (stack_of (run i) t) as [|f rest] eqn:Es. { apply good_off. now apply empty_disabled. }
  pose proof C as C'. unfold is_cancelled in C'. unfold is_scheduled in S. unfold stack_of in Es. destruct (nth_error (g_tasks (run i)) t) as [y|] eqn:Ny; [|discriminate].
  destruct (HE i) as [_ _ K]. destruct (K t y f rest Ny Es) as (K1 & _). destruct (K1 C') as (_ & A). destruct (A S) as (w & [todo job] & N & H). cbn [wk_todo] in H.
  apply in_split in H. destruct H as (l & r & ->). eapply adrop_good; eauto.
Qed.
Lemma queued_good t i : sc_flag (ex_sched (X i)) t = TQueued -> good t i.
Proof.
  intros F. destruct (is_cancelled (run i) t) eqn:C. now apply cancel_good. destruct (is_scheduled (run i) t) eqn:S.
  - apply queue_good. destruct (HE i) as [(_ & Q & _) _ _]. apply Q. auto.
  - apply good_off. apply blocked_disabled; auto. intros c' H. unfold SearchModel.task_step in H. unfold is_scheduled in S. destruct (nth_error (g_tasks (run i)) t) as [y|]; [|discriminate].
    rewrite S in H. cbn [negb] in H. discriminate.
Qed.
Lemma wake_good t r job w : forall l i, nth_error (ex_workers (X i)) w = Some (mkWorker (l ++ AWake t :: r) job) -> good t i.
Proof.
  induction l as [|a l IH]; intros i N; (destruct (held_steps w _ _ _ _ _ i (hold_now w _ 0 False i N ltac:(tauto)) ltac:(discriminate)) as [D|(j & L & (Nj & _) & S)]; [now left|]);
    apply (good_later t i j L).
  - destruct (stack_of (run j) t) as [|f rest] eqn:Es. { apply good_off. now apply empty_disabled. } destruct (is_cancelled (run j) t) eqn:C. { now apply cancel_good. }
    destruct (sc_flag (ex_sched (X j)) t) as [| |b] eqn:F; [|now apply queued_good|].
    all: pose proof (gd_inv _ _ _ (rd_good _ _ _ (HR j))) as I; apply (good_later t j (Datatypes.S j)); [lia|]; unfold conf_at in Es, C; destruct (X j) as [c s ws] eqn:Ej; cbn [ex_conf ex_sched ex_workers ExecModel.work_step app] in *; rewrite Nj in S; injection S as S.
    all: unfold stack_of in Es; unfold is_cancelled in C; unfold wake in S; destruct (nth_error (g_tasks c) t) as [y|] eqn:Ny; [|discriminate]; unfold ended in S; rewrite C, (no_result chash mhash c t y f rest I Ny Es), F in S; cbn [orb] in S.
    + apply queue_good. rewrite <- S. cbn [ex_sched push sc_queue]. apply in_or_app. right. now left.
    + assert (Z : sc_flag (ex_sched (X (Datatypes.S j))) t = TRunning true). { rewrite <- S. cbn [ex_sched set_flag sc_flag]. apply set_at_eq. } apply run_marked. exists true; auto. now left.
  - destruct (X j) as [c s ws] eqn:Ej; cbn [ex_conf ex_sched ex_workers ExecModel.work_step app] in *; rewrite Nj in S; pose proof (nth_error_lt _ _ _ Nj) as Lw.
    assert (Go : forall s', Some (mkExec c s' (upd ws w (mkWorker (l ++ AWake t :: r) job))) = Some (X (Datatypes.S j)) -> good t j).
    { intros s' Z. injection Z as Z. apply (good_later t j (Datatypes.S j)). lia. apply IH; auto. rewrite <- Z. now apply nth_error_upd_eq. }
    destruct a as [v|u]. eapply Go; eauto. destruct (is_scheduled c u); [eapply Go; eauto|]. destruct (drop_step c s u) as [| |c' s' acts] eqn:D; [eapply Go; eauto|discriminate|].
    injection S as S. left. apply (dec_step j j); auto. eapply less_drop; eauto.
Qed.
Lemma idle_good t i : sc_flag (ex_sched (X i)) t = TIdle -> good t i.
Proof.
  intros F. destruct (stack_of (run i) t) as [|f rest] eqn:Es. { apply good_off. now apply empty_disabled. } destruct (is_cancelled (run i) t) eqn:C. { now apply cancel_good. }
  pose proof C as C'. unfold is_cancelled in C'. unfold stack_of in Es. destruct (nth_error (g_tasks (run i)) t) as [y|] eqn:Ny; [|discriminate].
  destruct (HE i) as [_ _ K]. destruct (K t y f rest Ny Es) as (_ & K2). destruct (K2 C') as (K3 & _). destruct (K3 F) as (_ & [(w & [todo job] & N & H)|Wt]).
  - cbn [wk_todo] in H. apply in_split in H. destruct H as (l & r & ->). eapply wake_good; eauto.
  - apply good_off. intros [(x & f' & rest' & c' & N & E & A & H)|(c' & D)].
    + rewrite Ny in N. injection N as <-. rewrite Es in E. injection E as <- <-. exact (watched_not_awake chash mhash _ _ t y f rest Ny Es Wt A c' H).
    + destruct (drop_open mhash _ t c' D) as (x & f' & rest' & N & Cx & _). rewrite Ny in N. injection N as <-. congruence.
Qed.
Lemma all_tasks_good t i : good t i.
Proof.
  destruct (sc_flag (ex_sched (X i)) t) as [| |a] eqn:F. now apply idle_good. now apply queued_good.
  destruct (HE i) as [_ (_ & B & _) _]. destruct (B t) as (w & k & N & J). { exists a; auto. }
  destruct (job_ends w t i k N J) as [Z|(j & L & (C & _ & Q & Id) & M)]; auto. apply (good_later t i (S j)). lia.
  destruct (sc_flag (ex_sched (X j)) t) as [| |[|]] eqn:Fj.
  - apply idle_good. apply Id. intros [M'|M']; [congruence|unfold conf_at in C; congruence].
  - apply idle_good. apply Id. intros [M'|M']; [congruence|unfold conf_at in C; congruence].
  - apply queue_good. apply Q. now left.
  - apply idle_good. apply Id. intros [M'|M']; [congruence|unfold conf_at in C; congruence].
Qed.
Theorem conf_fair : fair chash mhash run.
Proof.
  intros t i. remember (run i) as c eqn:E. revert i E. induction c as [c IH] using (well_founded_induction (less_wf mhash)). intros i E.
  destruct (all_tasks_good t i) as [(j & L & Ls)|H]; auto. rewrite <- E in Ls. destruct (IH _ Ls j eq_refl) as (k & Lk & H). exists k. split; auto. lia.
Qed.
End Live.

(* both hypotheses follow if every worker thread goes on *)
Section Go.
Variables chash mhash : list nat -> nat.
Variable X : nat -> Exec.
Hypothesis HT : exec_trace chash mhash X.
Hypothesis HG : workers_go chash mhash X.
Hypothesis HE : forall i, EI (X i).
Hypothesis HR : forall i, Ready chash mhash (ex_conf (X i)).
Lemma go_busy w i k : nth_error (ex_workers (X i)) w = Some k -> k <> mkWorker [] JNone ->
  exists j, i <= j /\ (work_step chash mhash (X j) w = Some (X (S j)) \/ work_step chash mhash (X j) w = None).
Proof. intros N _. apply HG. eapply nth_error_lt; eauto. Qed.
Lemma go_queue w i : nth_error (ex_workers (X i)) w = Some (mkWorker [] JNone) ->
  exists j, i <= j /\ (sc_queue (ex_sched (X j)) = [] \/
    exists w', nth_error (ex_workers (X j)) w' = Some (mkWorker [] JNone) /\ work_step chash mhash (X j) w' = Some (X (S j))).
Proof.
  intros N. destruct (HG w i) as (J & LJ & T). { eapply nth_error_lt; eauto. }
  remember (J - i) as n eqn:En. revert i N LJ En. induction n as [|n IH]; intros i N LJ En.
  - assert (J = i) as -> by lia. exists i. split; auto. destruct T as [T|T]. right. exists w. auto. left. now destruct (work_none chash mhash (X i) w _ (HR i) N T).
  - destruct (step_who chash mhash w (X i) (X (S i)) (HT i)) as [S|O]. { exists i. split; auto. right. exists w. auto. }
    destruct (other_keeps chash mhash w (X i) (X (S i)) _ 0 (HR i) (HE i) O N) as (N' & _).
    destruct (IH (S i) N') as (j & Lj & H); try lia. exists j. split; auto. lia.
Qed.
End Go.
