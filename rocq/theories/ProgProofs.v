(* Every step of the program of ProgModel is a step of the checked search and a step of the executor, or none of them. *)
From Coq Require Import List Arith Bool Lia Permutation.
Import ListNotations.
From Verif Require Import Spec Vec Net Graded Bits Util OutputSetModel OutputSetProofs PruneProofs PackProofs HuffmanModel HuffmanProofs CanonModel TreeModel StatesModel StatesProofs StatesBounds.
From Verif Require Import MachineModel MachineProofs CanonMachModel StatesMachModel StatesMachProofs PoolModel PoolProofs.
From Verif Require Import SearchModel SearchFacts SearchInv SearchEdges SearchStep SearchFrames SearchGlobal SearchRun SearchSafe SearchWaits SearchMachModel SearchMachReq SearchMachProofs SearchMachRun.
From Verif Require Import ExecModel ExecFacts ExecInv ProgModel.
Local Notation is_waiting := PoolModel.is_waiting.

(* the search of SearchModel and the executor of ExecModel inside the program *)
Definition conf_of (c : Mach) : Config := mkConfig (erase_states (m_states c)) (length (locks (m_states c))) (sent (m_states c)) (m_tasks c).
Definition job_of (pl : Place) : Job :=
  match pl with PlPoll t fresh => JPoll t fresh | PlPark t => JPark t | PlDrop t => JDrop t | _ => JNone end.
Definition proj (k : PWorker) : Worker := mkWorker (pw_todo k) (job_of (pw_place k)).
Definition exec_of (x : Prog) : Exec := mkExec (conf_of (pr_mach x)) (pr_sched x) (map proj (pr_workers x)).

(* ---- lists ---- *)
Lemma map_upd {A B} (f : A -> B) l i a : map f (upd l i a) = upd (map f l) i (f a).
Proof. revert i. induction l as [|x l IH]; intros [|i]; cbn; auto. now rewrite IH. Qed.
Lemma upd_nth {A} (l : list A) i a : nth_error l i = Some a -> upd l i a = l.
Proof. revert i. induction l as [|x l IH]; intros [|i]; cbn; try discriminate. intros H. now injection H as ->. intros H. now rewrite IH. Qed.

Lemma key_cmp_eq k l : key_cmp k l = Eq -> k = l.
Proof.
  destruct k as [[[a b] c] i], l as [[[a' b'] c'] i']. unfold key_cmp, prio_cmp, then_cmp. cbn [fst snd].
  destruct (a ?= a') eqn:Ea; try discriminate. destruct (b ?= b') eqn:Eb; try discriminate. destruct (c ?= c') eqn:Ec; try discriminate.
  destruct (i ?= i') eqn:Ei; try discriminate. apply Nat.compare_eq_iff in Ea, Eb, Ec, Ei. congruence.
Qed.
Lemma key_cmp_refl k : key_cmp k k = Eq.
Proof. destruct k as [[[a b] c] i]. unfold key_cmp, prio_cmp, then_cmp. cbn [fst snd]. now rewrite !Nat.compare_refl. Qed.
Lemma entry_eqb_eq a b : entry_eqb a b = true <-> a = b.
Proof.
  unfold entry_eqb. split.
  - destruct (key_cmp (fst a) (fst b)) eqn:E; try discriminate. intros H. apply key_cmp_eq in E. apply Nat.eqb_eq in H. destruct a, b. cbn in *. congruence.
  - intros ->. rewrite key_cmp_refl. apply Nat.eqb_refl.
Qed.
Lemma unsend_some e : forall l r, unsend e l = Some r -> exists a b, l = a ++ e :: b /\ r = a ++ b.
Proof.
  induction l as [|x l IH]; cbn; intros r H; [discriminate|]. destruct (entry_eqb x e) eqn:E.
  - apply entry_eqb_eq in E. subst x. injection H as ->. exists [], r. auto.
  - destruct (unsend e l) as [r'|]; [|discriminate]. injection H as <-. destruct (IH r' eq_refl) as (a & b & -> & ->). exists (x :: a), b. auto.
Qed.
Lemma unsend_in e : forall l, In e l -> unsend e l <> None.
Proof.
  induction l as [|x l IH]; cbn; [easy|]. intros [->|H].
  - replace (entry_eqb e e) with true by (symmetry; now apply entry_eqb_eq). discriminate.
  - destruct (entry_eqb x e); [discriminate|]. specialize (IH H). destruct (unsend e l); [discriminate|congruence].
Qed.

(* the entries the workers are about to send *)
Definition opt {A} (o : option A) : list A := match o with Some a => [a] | None => [] end.
Definition sends (ws : list PWorker) : list Entry := flat_map (fun k => opt (pw_send k)) ws.
Lemma sends_nth ws w k : nth_error ws w = Some k -> exists R, Permutation (sends ws) (opt (pw_send k) ++ R) /\
  forall k', Permutation (sends (upd ws w k')) (opt (pw_send k') ++ R).
Proof.
  revert w. induction ws as [|x ws IH]; intros [|w]; cbn [nth_error]; try discriminate.
  - intros H. injection H as ->. exists (sends ws). split; [|intros k']; reflexivity.
  - intros H. destruct (IH w H) as (R & P & Q). exists (opt (pw_send x) ++ R). split; [|intros k']; unfold sends in *; cbn [flat_map upd].
    + rewrite P. rewrite !app_assoc. apply Permutation_app_tail. apply Permutation_app_comm.
    + rewrite Q. rewrite !app_assoc. apply Permutation_app_tail. apply Permutation_app_comm.
Qed.

(* who holds the lock of Pending *)
Definition lock_ok (p : Pool) (ws : list PWorker) : Prop :=
  match worker p with
  | WFree => forall w k, nth_error ws w = Some k -> pw_place k <> PlHold
  | _ => exists w, w < length ws /\ forall v k, nth_error ws v = Some k -> (pw_place k = PlHold <-> v = w)
  end.
(* a worker that waits for the lock, has it or waits for a task has nothing else to do *)
Definition quiet_place (pl : Place) : Prop := match pl with PlLock | PlHold | PlRecv => True | _ => False end.
Definition place_ok (k : PWorker) : Prop := quiet_place (pw_place k) -> pw_send k = None /\ pw_todo k = [].

Lemma lock_same p p' ws w k k' : worker p' = worker p -> nth_error ws w = Some k -> pw_place k <> PlHold -> pw_place k' <> PlHold ->
  lock_ok p ws -> lock_ok p' (upd ws w k').
Proof.
  intros E N H H' L. unfold lock_ok in *. rewrite E. pose proof (nth_error_lt _ _ _ N) as Lw.
  assert (A : (forall v x, nth_error ws v = Some x -> pw_place x <> PlHold) -> forall v x, nth_error (upd ws w k') v = Some x -> pw_place x <> PlHold).
  { intros B v x Hx. destruct (Nat.eq_dec v w) as [->|D]. rewrite nth_error_upd_eq in Hx by auto. now injection Hx as <-. rewrite nth_error_upd_neq in Hx by auto. eauto. }
  destruct (worker p); [exact (A L)|..]; destruct L as (h & Lh & L); exists h; rewrite upd_length; (split; [auto|]); intros v x Hx;
    (destruct (Nat.eq_dec v w) as [->|D];
     [rewrite nth_error_upd_eq in Hx by auto; injection Hx as <-; specialize (L w k N); split; [intros Z; congruence|intros ->; exfalso; apply H; now apply L]
     |rewrite nth_error_upd_neq in Hx by auto; eauto]).
Qed.
Lemma lock_holder p ws w k : lock_ok p ws -> nth_error ws w = Some k -> pw_place k = PlHold ->
  worker p <> WFree /\ forall v x, nth_error ws v = Some x -> pw_place x = PlHold -> v = w.
Proof.
  intros L N H. unfold lock_ok in L. destruct (worker p); [exfalso; now apply (L w k N)|..]; (split; [discriminate|]); destruct L as (h & _ & L); intros v x Hx Hp; apply (L v x Hx) in Hp; apply (L w k N) in H; congruence.
Qed.
Lemma lock_set p' ws w k' : w < length ws -> (forall v x, nth_error ws v = Some x -> pw_place x = PlHold -> v = w) ->
  (worker p' = WFree -> pw_place k' <> PlHold) -> (worker p' <> WFree -> pw_place k' = PlHold) -> lock_ok p' (upd ws w k').
Proof.
  intros Lw U A B. unfold lock_ok.
  assert (F : worker p' <> WFree -> exists h, h < length (upd ws w k') /\ forall v k, nth_error (upd ws w k') v = Some k -> (pw_place k = PlHold <-> v = h)).
  { intros D. exists w. rewrite upd_length. split; auto. intros v x Hx. destruct (Nat.eq_dec v w) as [->|Nv].
    - rewrite nth_error_upd_eq in Hx by auto. injection Hx as <-. split; auto.
    - rewrite nth_error_upd_neq in Hx by auto. split; [eauto|congruence]. }
  destruct (worker p') eqn:E; try (now apply F). intros v x Hx. destruct (Nat.eq_dec v w) as [->|Nv].
  - rewrite nth_error_upd_eq in Hx by auto. injection Hx as <-. auto.
  - rewrite nth_error_upd_neq in Hx by auto. intros Z. apply Nv. eauto.
Qed.

(* ---- the executor's functions read only the tasks ---- *)
Lemma cancel_tasks c c' p u : g_tasks c = g_tasks c' -> cancel c p u = cancel c' p u.
Proof. intros E. unfold cancel. now rewrite E. Qed.
Lemma cancels_tasks c c' : g_tasks c = g_tasks c' -> forall ts p, fold_left (cancel c) ts p = fold_left (cancel c') ts p.
Proof. intros E. induction ts as [|u ts IH]; intros p; cbn [fold_left]; auto. now rewrite (cancel_tasks c c' p u E). Qed.
Lemma react_tasks c c' t r s : g_tasks c = g_tasks c' -> react c t r s = react c' t r s.
Proof. intros E. destruct r; cbn [react]; auto; try (now rewrite E). now apply cancels_tasks. Qed.
Lemma dropped_tasks c c' f s : g_tasks c = g_tasks c' -> dropped c f s = dropped c' f s.
Proof. intros E. unfold dropped. now rewrite (cancels_tasks c c' E). Qed.
Lemma wake_tasks c c' t s : g_tasks c = g_tasks c' -> wake c t s = wake c' t s.
Proof. intros E. unfold wake. now rewrite E. Qed.

(* ---- what tasks change of the pool ---- *)
Definition pool_kept (p p' : Pool) : Prop := worker p' = worker p /\ queue p' = queue p /\ sending p' = sending p.
Lemma kept_refl p : pool_kept p p.
Proof. repeat split. Qed.
Lemma kept_trans p q r : pool_kept p q -> pool_kept q r -> pool_kept p r.
Proof. intros (A & B & C) (D & E & F). repeat split; congruence. Qed.
Lemma drop_schedule_kept c u c' : drop_schedule c u = Some c' -> pool_kept (m_pool c) (m_pool c').
Proof.
  unfold drop_schedule. destruct (rd _ _); [|discriminate]. destruct (sub_u _ _); [|discriminate]. destruct (wr _ _ _); [|discriminate].
  intros H. injection H as <-. repeat split.
Qed.
Lemma drop_all_kept ts : forall c c', drop_all ts c = Some c' -> pool_kept (m_pool c) (m_pool c').
Proof.
  induction ts as [|u ts IH]; intros c c'; unfold drop_all in *; cbn [fold_opt].
  - intros H. injection H as <-. apply kept_refl.
  - unfold drop_running at 1. destruct (drop_schedule (with_mtask c u set_cancel) u) as [m|] eqn:E; [|discriminate]. intros H.
    apply drop_schedule_kept in E. cbn [with_mtask m_pool] in E. eapply kept_trans; eauto.
Qed.
Lemma drop_frame_kept c t c' evs : drop_frame_m c t = MStepped c' evs -> pool_kept (m_pool c) (m_pool c').
Proof.
  unfold drop_frame_m. destruct (nth_error (m_tasks c) t) as [x|]; [|discriminate]. destruct (negb _); [discriminate|].
  destruct (tk_stack x) as [|f rest]; [discriminate|]. destruct (drop_all _ c) as [c0|] eqn:E; [|discriminate]. apply drop_all_kept in E.
  cbv zeta. destruct (SearchModel.held f) as [(s, id)|].
  - destruct (states_unlock _ id) as [m|]; [|discriminate]. intros H. injection H as <- <-. exact E.
  - intros H. injection H as <- <-. exact E.
Qed.

Section Sim.
Variables chash mhash : list nat -> nat.
Notation frame_req := (SearchModel.frame_req chash).
Notation frame_req_c := (SearchMachModel.frame_req_c chash).
Notation task_step_m := (SearchMachModel.task_step_m chash mhash).
Notation task_step := (SearchModel.task_step chash mhash).
Notation drop_frame := (SearchModel.drop_frame mhash).
Notation access_m := (SearchMachModel.access_m mhash).
Notation mach_step := (SearchMachModel.mach_step chash mhash).
Notation mach_run := (SearchMachModel.mach_run chash mhash).
Notation Inv := (SearchGlobal.Inv chash mhash).
Notation Rel := (SearchMachProofs.Rel mhash).
Notation prog_step := (ProgModel.prog_step chash mhash).
Notation work_step := (ExecModel.work_step chash mhash).
Notation exec_step := (ExecModel.exec_step chash mhash).
Notation poll_step := (ExecModel.poll_step chash mhash).
Notation drop_step := (ExecModel.drop_step mhash).
Notation poll_prog := (ProgModel.poll_prog chash mhash).

Lemma rel_conf mc c : Rel mc c -> c = conf_of mc.
Proof. intros [[A B C D T _ _ _ _] _ _ _ _]. unfold conf_of. destruct c as [m n s ts]. cbn [g_map g_next g_sent g_tasks] in *. congruence. Qed.
Lemma rel_sched mc u x : Rel mc (conf_of mc) -> nth_error (m_tasks mc) u = Some x -> is_waiting (m_pool mc) u = negb (tk_sched x).
Proof. intros [R0 _ _ _ _] H. now apply (r_wait _ _ R0). Qed.
Lemma rel_is_scheduled mc u x : Rel mc (conf_of mc) -> nth_error (m_tasks mc) u = Some x -> negb (is_waiting (m_pool mc) u) = is_scheduled (conf_of mc) u.
Proof. intros R H. rewrite (rel_sched mc u x R H), negb_involutive. unfold is_scheduled. cbn [conf_of g_tasks]. now rewrite H. Qed.

(* the entry of a spawn *)
Lemma access_sends mc t r mc1 evs k : access_m mc t r = MADone mc1 evs k ->
  worker (m_pool mc1) = worker (m_pool mc) /\ queue (m_pool mc1) = queue (m_pool mc) /\
  sending (m_pool mc1) = opt (entry_sent r mc1) ++ sending (m_pool mc).
Proof.
  assert (K : forall q r0, pool_kept q (m_pool r0) -> worker (m_pool r0) = worker q /\ queue (m_pool r0) = queue q /\ sending (m_pool r0) = [] ++ sending q).
  { intros q r0 (A & B & C). auto. }
  destruct r as [r|prev s prio k0]; cbn [SearchMachModel.access_m entry_sent opt].
  - intros H. apply K. revert H. destruct r as [s k0|s st k0|s got busy|s id k0|id k0|u k0|prev s pend k0|u k0|ts k0|k0|].
    + destruct (states_get _ _ _); [|discriminate]. intros H. injection H as <- <- <-. apply kept_refl.
    + destruct (states_set _ _ _ _); [|discriminate]. intros H. injection H as <- <- <-. apply kept_refl.
    + destruct (states_lock _ _ _) as [([i|i], m)|]; [| |discriminate]; intros H; injection H as <- <- <-; apply kept_refl.
    + destruct (states_unlock _ _); [|discriminate]. intros H. injection H as <- <- <-. apply kept_refl.
    + destruct (states_await _ _) as [[|]|]; try discriminate. intros H. injection H as <- <- <-. apply kept_refl.
    + destruct (nth_error (m_tasks mc) u) as [y|]; [|discriminate]. destruct (tk_result y).
      * destruct (drop_schedule mc u) as [m|] eqn:E; [|discriminate]. intros H. injection H as <- <- <-. now apply (drop_schedule_kept mc u).
      * destruct (tk_cancel y); [discriminate|]. intros H. injection H as <- <- <-. apply kept_refl.
    + discriminate.
    + unfold schedule. destruct (negb _); [discriminate|]. destruct (is_waiting _ _); intros H; injection H as <- <- <-; repeat split.
    + destruct (drop_all ts mc) as [m|] eqn:E; [|discriminate]. intros H. injection H as <- <- <-. now apply (drop_all_kept ts).
    + intros H. injection H as <- <- <-. apply kept_refl.
    + discriminate.
  - unfold spawn. destruct (rd (m_levels mc) t) as [lv|]; [|discriminate].
    destruct prio as [(len, b)|]; intros H; injection H as <- <- <-; cbn [m_pool set_sending set_cells worker queue sending hd_error opt app]; auto.
Qed.
Lemma task_sends mc t mc1 evs x f rest : nth_error (m_tasks mc) t = Some x -> tk_stack x = f :: rest -> task_step_m mc t = MStepped mc1 evs ->
  worker (m_pool mc1) = worker (m_pool mc) /\ queue (m_pool mc1) = queue (m_pool mc) /\
  sending (m_pool mc1) = opt (entry_sent (frame_req_c f) mc1) ++ sending (m_pool mc).
Proof.
  intros N E. unfold SearchMachModel.task_step_m. rewrite N, E. destruct (is_waiting _ _); [discriminate|].
  destruct (access_m mc t _) as [| |c1 ev k] eqn:A; try discriminate. apply access_sends in A.
  assert (G : forall g, entry_sent (frame_req_c f) (with_mtask c1 t g) = entry_sent (frame_req_c f) c1) by (intros g; unfold entry_sent; reflexivity).
  destruct k as [f'|f' g|v|]; cbn [run_ctl_m]; try discriminate.
  - intros H. injection H as <- <-. rewrite G. exact A.
  - intros H. injection H as <- <-. rewrite G. exact A.
  - destruct rest as [|f2 r].
    + intros H. injection H as <- <-. rewrite G. exact A.
    + destruct (resume f2 v); [|discriminate]. intros H. injection H as <- <-. rewrite G. exact A.
Qed.

(* ---- requests ---- *)
Lemma react_same mc t f s : Inv (conf_of mc) -> In f (frames (cores (conf_of mc))) ->
  react_m mc t (frame_req_c f) s = react (conf_of mc) t (frame_req f) s /\ wait_on_m t (frame_req_c f) s = wait_on t (frame_req f) s.
Proof.
  intros I F. pose proof (frame_same chash mhash _ _ _ (inv_frame_ok chash mhash _ _ I F)) as S. unfold react_m, wait_on_m.
  destruct (frame_req_c f) as [r|prev s' prio k].
  - destruct S as (_ & S). assert (E : react (tasks_only mc) t r s = react (conf_of mc) t r s) by now apply react_tasks. rewrite E.
    destruct r, (frame_req f); cbn [req_same] in S; try discriminate; try (injection S; intros; subst); try (split; reflexivity).
  - cbn [mreq_same] in S. rewrite S. split; reflexivity.
Qed.

Lemma poll_sim mc s t fresh : Inv (conf_of mc) -> Rel mc (conf_of mc) ->
  match poll_prog mc s t fresh with
  | None => False
  | Some (mc', evs, s', k) =>
      poll_step (conf_of mc) s t fresh = Some (conf_of mc', s', proj k) /\ Rel mc' (conf_of mc') /\ ~ quiet_place (pw_place k) /\
      worker (m_pool mc') = worker (m_pool mc) /\ queue (m_pool mc') = queue (m_pool mc) /\
      sending (m_pool mc') = opt (pw_send k) ++ sending (m_pool mc) /\
      (mc' = mc /\ evs = [] \/ mach_step mc evs mc')
  end.
Proof.
  intros I R. unfold ProgModel.poll_prog, ExecModel.poll_step.
  change (stack_of (tasks_only mc) t) with (stack_of (conf_of mc) t). destruct (stack_of (conf_of mc) t) as [|f rest] eqn:Es.
  { split; [reflexivity|]. split; auto. split; [intros []|]. auto 10. }
  destruct (at_pend f && negb fresh). { split; [reflexivity|]. split; auto. split; [intros []|]. auto 10. }
  assert (N : exists x, nth_error (m_tasks mc) t = Some x /\ tk_stack x = f :: rest).
  { unfold stack_of in Es. cbn [conf_of g_tasks] in Es. destruct (nth_error (m_tasks mc) t) as [x|]; [|discriminate]. eauto. }
  destruct N as (x & N & Ex).
  assert (F : In f (frames (cores (conf_of mc)))).
  { apply in_flat_map. exists (core x). split. { unfold cores. apply in_map. cbn [conf_of g_tasks]. eapply nth_error_In; eauto. } cbn [core c_stack]. rewrite Ex. now left. }
  destruct (react_same mc t f s I F) as (Er & Ew).
  pose proof (task_sim chash mhash mc (conf_of mc) t I R) as T. destruct (task_step_m mc t) as [| |mc' evs] eqn:Et; [| exact T |].
  - rewrite T, Ew. split; [reflexivity|]. split; auto. split; [intros []|]. auto 10.
  - destruct T as (c' & T & R' & _). pose proof (rel_conf mc' c' R') as Ec; subst c'. rewrite T, Er. change (stack_of (tasks_only mc') t) with (stack_of (conf_of mc') t).
    destruct (task_sends mc t mc' evs x f rest N Ex Et) as (A & B & C). destruct (react (conf_of mc) t (frame_req f) s) as (s1, a1).
    assert (M : mach_step mc evs mc') by (now apply MachTask with t).
    destruct (stack_of (conf_of mc') t).
    + destruct (notify t (set_flag t TIdle s1)) as (s2, a2). split; [reflexivity|]. split; auto. split; [intros []|]. auto 10.
    + split; [reflexivity|]. split; auto. split; [intros []|]. auto 10.
Qed.

Lemma drop_prog_sim mc s t : Inv (conf_of mc) -> Rel mc (conf_of mc) ->
  match drop_prog mc s t with
  | PDPanic => False
  | PDEnd => drop_step (conf_of mc) s t = DEnd
  | PDStep mc' evs s' acts => drop_step (conf_of mc) s t = DStep (conf_of mc') s' acts /\ Rel mc' (conf_of mc') /\
      pool_kept (m_pool mc) (m_pool mc') /\ mach_step mc evs mc'
  end.
Proof.
  intros I R. unfold drop_prog, ExecModel.drop_step. change (stack_of (tasks_only mc) t) with (stack_of (conf_of mc) t).
  pose proof (drop_sim chash mhash mc (conf_of mc) t I R) as D. destruct (drop_frame_m mc t) as [| |mc' evs] eqn:Ed.
  - destruct (stack_of (conf_of mc) t); rewrite D; reflexivity.
  - destruct D.
  - destruct D as (c' & D & R' & _). pose proof (rel_conf mc' c' R') as Ec; subst c'. rewrite D. destruct (stack_of (conf_of mc) t) as [|f r]; auto.
    rewrite (dropped_tasks (tasks_only mc) (conf_of mc) f s eq_refl). destruct (dropped (conf_of mc) f s) as (s', acts). split; [reflexivity|]. split; auto.
    split. eapply drop_frame_kept; eauto. now apply MachDrop with t.
Qed.

(* ---- the lock ---- *)
Lemma lock_step_ok p : worker_step p (fst (lock_step p)) (snd (lock_step p)).
Proof.
  assert (F : forall p', cells p' = cells p -> ids p' = ids p -> sending p' = sending p -> forall ev, pstep p ev p' -> worker_step p ev p').
  { intros p' A B C ev S. split; auto. }
  unfold lock_step. destruct (worker p) as [|l n|k [|e r] m l n|k e r m l n| |e] eqn:W; cbn [fst snd].
  - apply F; try reflexivity. now apply WLock.
  - destruct (chan p) as [|e r] eqn:C; cbn [fst snd].
    + apply F; try reflexivity. now apply (WEmpty p l n).
    + destruct (Nat.ltb_spec (length (queue p)) (next_gc p)); cbn [fst snd].
      * rewrite <- W. apply F; try reflexivity. now apply (WRecv p l n e r).
      * apply F; try reflexivity. now apply (WRecvGc p l n e r).
  - apply F; try reflexivity. now apply (WGcDone p k m l n).
  - apply F; try reflexivity. destruct (alive p (snd e)) eqn:A. now apply (WGcAlive p k e r m l n). now apply (WGcDead p k e r m l n).
  - apply F; try reflexivity. now apply (WGcTest p k e r m l n).
  - destruct (queue p) as [|e r] eqn:Q; cbn [fst snd].
    + apply F; try reflexivity. now apply WTakeNone.
    + apply F; try reflexivity. destruct (alive p (snd e)) eqn:A. now apply (WTakeAlive p e r). now apply (WTakeDead p e r).
  - destruct (is_waiting p (snd e)) eqn:A; cbn [fst snd].
    + split. now apply (WTakeStart p e). split; auto. split; auto. right. now exists e.
    + apply F; try reflexivity. now apply (WTakeRefuse p e).
Qed.

(* what is kept of the executor when a worker with the lock makes a step *)
Lemma lock_sim mc ev p' : Rel mc (conf_of mc) -> lock_step (m_pool mc) = (ev, p') -> let mc' := taken ev (with_pool mc p') in
  Rel mc' (conf_of mc') /\ mach_step mc [ev] mc' /\
  match ev with
  | EvTaken e => exists y, nth_error (m_tasks mc) (snd e) = Some y /\ tk_pend y = true /\ tk_sched y = false /\ conf_of mc' = with_task (conf_of mc) (snd e) set_sched
  | _ => conf_of mc' = conf_of mc
  end.
Proof.
  intros R E mc'. pose proof (lock_step_ok (m_pool mc)) as W. rewrite E in W. cbn [fst snd] in W.
  destruct (work_sim mhash mc (conf_of mc) ev p' R W) as (c' & R' & X). pose proof (rel_conf _ _ R') as Ec. fold mc' in R', Ec. rewrite Ec in R'.
  split; auto. split. { now apply MachWork. }
  destruct ev as [|e|t|t| |e]; try reflexivity.
  destruct W as (S & _). inversion S as [| | | | | | | | | | | | | | | | |q e1 Hw Hwt E1 E2 E3| |]; subst.
  assert (A : exists y, nth_error (m_tasks mc) (snd e) = Some y /\ tk_pend y = true).
  { destruct R as [R0 _ _ _ _]. destruct (r_entry _ _ R0 e) as (y & lv & N & P & _). { unfold all, inside. rewrite Hw. cbn [PoolProofs.held]. rewrite !in_app_iff. simpl. auto. }
    exists y. auto. }
  destruct A as (y & N & P). exists y. split; auto. split; auto. split.
  - pose proof (rel_sched mc (snd e) y R N) as Q. rewrite Hwt in Q. destruct (tk_sched y); auto; discriminate.
  - unfold mc', conf_of, with_task. cbn [taken with_mtask with_pool m_tasks m_states g_tasks g_map g_next g_sent]. destruct (nth_error (m_tasks mc) (snd e)); reflexivity.
Qed.

(* ---- all steps ---- *)
Record PI (x : Prog) : Prop := {
  pi_rel : Rel (pr_mach x) (conf_of (pr_mach x));
  pi_sends : Permutation (sends (pr_workers x)) (sending (m_pool (pr_mach x)));
  pi_lock : lock_ok (m_pool (pr_mach x)) (pr_workers x);
  pi_place : forall w k, nth_error (pr_workers x) w = Some k -> place_ok k }.

(* what a step of worker k is for the executor *)
Definition seen_as (x : Prog) (w : nat) (k : PWorker) (x' : Prog) : Prop :=
  match k with
  | mkPWorker (Some _) _ _ => exec_of x' = exec_of x
  | mkPWorker None [] PlTop | mkPWorker None [] PlRecv =>
      match sc_queue (pr_sched x) with
      | [] => exec_of x' = exec_of x
      | _ => work_step (exec_of x) w = Some (exec_of x')
      end
  | mkPWorker None [] PlLock => exec_of x' = exec_of x
  | mkPWorker None [] PlHold => exec_of x' = exec_of x \/ exec_step (exec_of x) (exec_of x')
  | _ => work_step (exec_of x) w = Some (exec_of x')
  end.
(* the pool as seen by the worker with the lock *)
Definition lock_kept (x x' : Prog) : Prop :=
  worker (m_pool (pr_mach x')) = worker (m_pool (pr_mach x)) /\ queue (m_pool (pr_mach x')) = queue (m_pool (pr_mach x)).

Lemma upd_proj x w k k' : nth_error (pr_workers x) w = Some k -> proj k' = proj k -> map proj (upd (pr_workers x) w k') = map proj (pr_workers x).
Proof. intros N E. rewrite map_upd, E. apply upd_nth. rewrite nth_error_map, N. reflexivity. Qed.

Theorem prog_sim x w k : Inv (conf_of (pr_mach x)) -> PI x -> nth_error (pr_workers x) w = Some k ->
  match prog_step x w with
  | PPanic => False
  | PWait => k = mkPWorker None [] PlLock /\ worker (m_pool (pr_mach x)) <> WFree
  | PDone x' evs => PI x' /\ seen_as x w k x' /\ (exists k', pr_workers x' = upd (pr_workers x) w k') /\
      (pr_mach x' = pr_mach x /\ evs = [] \/ mach_step (pr_mach x) evs (pr_mach x')) /\
      (pw_place k <> PlLock -> pw_place k <> PlHold -> lock_kept x x')
  end.
Proof.
  destruct x as [c s ws]. cbn [pr_mach pr_sched pr_workers]. intros I [R SD LK PO] N. cbn [pr_mach pr_sched pr_workers] in *.
  pose proof (nth_error_lt _ _ _ N) as Lw. assert (Nw : nth_error (map proj ws) w = Some (proj k)) by (rewrite nth_error_map, N; reflexivity).
  destruct (sends_nth ws w k N) as (Q & P1 & P2).
  assert (PLACE : forall k', place_ok k' -> forall v y, nth_error (upd ws w k') v = Some y -> place_ok y).
  { intros k' H v y Hv. destruct (Nat.eq_dec v w) as [->|D]. rewrite nth_error_upd_eq in Hv by auto. now injection Hv as <-. rewrite nth_error_upd_neq in Hv by auto. eauto. }
  (* a step that keeps the lock and the entries to be sent, by a worker without the lock *)
  assert (MK : forall c' s' k', Rel c' (conf_of c') -> worker (m_pool c') = worker (m_pool c) ->
    Permutation (opt (pw_send k') ++ Q) (sending (m_pool c')) -> pw_place k <> PlHold -> pw_place k' <> PlHold -> place_ok k' -> PI (mkProg c' s' (upd ws w k'))).
  { intros c' s' k' R' W S H H' Pk. constructor; cbn [pr_mach pr_workers]; auto.
    - rewrite P2. exact S.
    - apply (lock_same (m_pool c) (m_pool c') ws w k k'); auto.
    - now apply PLACE. }
  assert (S0 : Permutation (opt (pw_send k) ++ Q) (sending (m_pool c))) by (now rewrite <- P1).
  cbn [ProgModel.prog_step]. rewrite N. destruct k as [[e|] todo pl].
  - (* send *)
    assert (In e (sending (m_pool c))) as He. { apply (Permutation_in _ S0). cbn. auto. }
    pose proof (unsend_in e _ He) as U. destruct (unsend e (sending (m_pool c))) as [l|] eqn:Eu; [|congruence]. clear U.
    destruct (unsend_some e _ _ Eu) as (a & b & Ea & ->).
    assert (Np : pw_place (mkPWorker (Some e) todo pl) <> PlHold). { intros Z. destruct (PO w _ N) as (Z1 & _); [rewrite Z; exact Logic.I|discriminate]. }
    assert (Pk : place_ok (mkPWorker None todo pl)). { intros Z. destruct (PO w _ N Z) as (Z1 & Z2). split; auto. }
    split; [apply MK; auto|].
    + apply send_sim; auto.
    + cbn [with_pool m_pool set_chan sending]. apply (Permutation_cons_app_inv _ _ (a := e)). rewrite Ea in S0. exact S0.
    + split. { cbn [seen_as]. unfold exec_of. cbn [pr_mach pr_sched pr_workers]. f_equal. apply (upd_proj (mkProg c s ws) w (mkPWorker (Some e) todo pl)); auto. }
      split; [eexists; reflexivity|]. split. { right. apply (MachSend chash mhash c a e b); auto. } intros _ _. split; reflexivity.
  - destruct todo as [|[t|u] todo].
    + destruct pl as [| | | |t fresh|t|t].
      * (* try_recv *)
        destruct (sc_queue s) as [|t q] eqn:Eq.
        -- split; [apply MK; auto; try discriminate; intros _; auto|]. cbn [seen_as pr_sched]. rewrite Eq. split. { unfold exec_of. cbn [pr_mach pr_sched pr_workers]. f_equal. apply (upd_proj (mkProg c s ws) w (mkPWorker None [] PlTop)); auto. }
           split; [eexists; reflexivity|]. split. { left. auto. } intros _ _. split; reflexivity.
        -- split. { apply MK; auto; try discriminate; cbn [take_prog snd pw_place pw_send]; destruct (is_cancelled _ _); try discriminate; intros []. }
           cbn [seen_as pr_sched]. rewrite Eq. split. { cbn [ExecModel.work_step exec_of pr_mach pr_sched pr_workers]. rewrite Nw. cbn [proj pw_todo pw_place job_of]. rewrite Eq. unfold exec_of. cbn [pr_mach pr_sched pr_workers].
             rewrite map_upd. change (is_cancelled (tasks_only c) t) with (is_cancelled (conf_of c) t). now destruct (is_cancelled (conf_of c) t). }
           split; [eexists; reflexivity|]. split. { left. auto. } intros _ _. split; reflexivity.
      * (* the lock *)
        destruct (worker (m_pool c)) eqn:W; try (split; [reflexivity|discriminate]).
        destruct (lock_step (m_pool c)) as (ev, p) eqn:El. destruct (lock_sim c ev p R El) as (R' & M & C). unfold lock_step in El. rewrite W in El. injection El as <- <-. cbn [taken] in *.
        split.
        { constructor; cbn [pr_mach pr_workers]; auto.
          - rewrite P2. exact S0.
          - apply lock_set; auto; try discriminate. unfold lock_ok in LK. rewrite W in LK. intros v y Hv Hp. exfalso. now apply (LK v y).
          - apply PLACE. intros _. auto. }
        cbn [seen_as]. split. { unfold exec_of. cbn [pr_mach pr_sched pr_workers]. f_equal. apply (upd_proj (mkProg c s ws) w (mkPWorker None [] PlLock)); auto. }
        split; [eexists; reflexivity|]. split; [auto|]. intros Z. now destruct Z.
      * (* with the lock *)
        destruct (lock_step (m_pool c)) as (ev, p) eqn:El. destruct (lock_sim c ev p R El) as (R' & M & C).
        assert (PP : m_pool (taken ev (with_pool c p)) = p) by (destruct ev; reflexivity).
        destruct (lock_holder (m_pool c) ws w _ LK N eq_refl) as (Wf & Un).
        assert (Sn : sending p = sending (m_pool c)). { pose proof (lock_step_ok (m_pool c)) as Z. rewrite El in Z. now destruct Z as (_ & _ & Z & _). }
        assert (Pr : proj (mkPWorker None [] (after_lock ev p)) = proj (mkPWorker None [] PlHold)). { unfold after_lock. destruct (worker p); auto. now destruct ev. }
        split.
        { constructor; cbn [pr_mach pr_workers]; auto; rewrite ?PP.
          - rewrite P2, Sn. exact S0.
          - apply lock_set; auto; cbn [pw_place]; unfold after_lock; destruct (worker p); try congruence; destruct ev; discriminate.
          - apply PLACE. intros _. auto. }
        cbn [seen_as]. split.
        { pose proof (upd_proj (mkProg c s ws) w _ _ N Pr : map proj (upd ws w _) = map proj ws) as UP.
          destruct ev as [|e|t|t| |e]; try (left; unfold exec_of; cbn [pr_mach pr_sched pr_workers]; rewrite C, UP; reflexivity).
          right. destruct C as (y & Ny & Py & Sy & C). unfold exec_of. cbn [pr_mach pr_sched pr_workers].
          rewrite UP, C. eapply ExPool; eauto. }
        split; [eexists; reflexivity|]. split; [auto|]. intros _ Z. now destruct Z.
      * (* recv *)
        destruct (sc_queue s) as [|t q] eqn:Eq.
        -- split; [apply MK; auto; try discriminate; intros []|]. cbn [seen_as pr_sched]. rewrite Eq. split. { unfold exec_of. cbn [pr_mach pr_sched pr_workers]. f_equal. apply (upd_proj (mkProg c s ws) w (mkPWorker None [] PlRecv)); auto. }
           split; [eexists; reflexivity|]. split. { left. auto. } intros _ _. split; reflexivity.
        -- split. { apply MK; auto; try discriminate; cbn [take_prog snd pw_place pw_send]; destruct (is_cancelled _ _); try discriminate; intros []. }
           cbn [seen_as pr_sched]. rewrite Eq. split. { cbn [ExecModel.work_step exec_of pr_mach pr_sched pr_workers]. rewrite Nw. cbn [proj pw_todo pw_place job_of]. rewrite Eq. unfold exec_of. cbn [pr_mach pr_sched pr_workers].
             rewrite map_upd. change (is_cancelled (tasks_only c) t) with (is_cancelled (conf_of c) t). now destruct (is_cancelled (conf_of c) t). }
           split; [eexists; reflexivity|]. split. { left. auto. } intros _ _. split; reflexivity.
      * (* poll *)
        pose proof (poll_sim c s t fresh I R) as PS. destruct (poll_prog c s t fresh) as [(((c', evs), s'), k')|]; [|destruct PS].
        destruct PS as (E1 & R' & Nq & W & Qe & Se & M). split.
        { apply MK; auto; try discriminate.
          - rewrite Se. apply Permutation_app_head. exact S0.
          - intros Z. apply Nq. rewrite Z. exact Logic.I.
          - intros Z. destruct (Nq Z). }
        cbn [seen_as]. split. { cbn [ExecModel.work_step exec_of pr_mach pr_sched pr_workers]. rewrite Nw. cbn [proj pw_todo pw_place job_of]. rewrite E1. unfold exec_of. cbn [pr_mach pr_sched pr_workers]. now rewrite map_upd. }
        split; [eexists; reflexivity|]. split; [auto|]. intros _ _. split; auto.
      * (* park *)
        unfold park_prog. change (is_cancelled (tasks_only c) t) with (is_cancelled (conf_of c) t).
        assert (WS : forall s' k', park_step (conf_of c) s t = (s', proj k') -> work_step (exec_of (mkProg c s ws)) w = Some (exec_of (mkProg c s' (upd ws w k')))).
        { intros s' k' Z. cbn [ExecModel.work_step exec_of pr_mach pr_sched pr_workers]. rewrite Nw. cbn [proj pw_todo pw_place job_of]. rewrite Z. unfold exec_of. cbn [pr_mach pr_sched pr_workers]. now rewrite map_upd. }
        assert (FIN : forall s' k', park_step (conf_of c) s t = (s', proj k') -> pw_send k' = None -> ~ quiet_place (pw_place k') ->
          PI (mkProg c s' (upd ws w k')) /\ seen_as (mkProg c s ws) w (mkPWorker None [] (PlPark t)) (mkProg c s' (upd ws w k')) /\
          (exists k'0, upd ws w k' = upd ws w k'0) /\ (c = c /\ @nil Event = [] \/ mach_step c [] c) /\
          (PlPark t <> PlLock -> PlPark t <> PlHold -> lock_kept (mkProg c s ws) (mkProg c s' (upd ws w k')))).
        { intros s' k' Z Z1 Z2. split. { apply MK; auto; try discriminate. now rewrite Z1. intros Z3. apply Z2. rewrite Z3. exact Logic.I. intros Z3. destruct (Z2 Z3). }
          cbn [seen_as]. split. now apply WS. split; [eexists; reflexivity|]. split. left; auto. intros _ _. split; reflexivity. }
        unfold park_step in FIN. destruct (is_cancelled (conf_of c) t).
        -- cbn [fst snd pr_mach pr_workers pw_place]. apply FIN; auto.
        -- destruct (sc_flag s t) as [| |[|]]; cbn [pr_mach pr_workers pw_place]; apply FIN; auto.
      * (* drop *)
        pose proof (drop_prog_sim c s t I R) as D. destruct (drop_prog c s t) as [| |c' evs s' acts].
        -- split. { apply MK; auto; try discriminate. intros []. }
           cbn [seen_as]. split. { cbn [ExecModel.work_step exec_of pr_mach pr_sched pr_workers]. rewrite Nw. cbn [proj pw_todo pw_place job_of]. rewrite D. unfold exec_of. cbn [pr_mach pr_sched pr_workers]. now rewrite map_upd. }
           split; [eexists; reflexivity|]. split. { left. auto. } intros _ _. split; reflexivity.
        -- exact D.
        -- destruct D as (D & R' & (K1 & K2 & K3) & M). split. { apply MK; auto; try discriminate. now rewrite K3. intros []. }
           cbn [seen_as]. split. { cbn [ExecModel.work_step exec_of pr_mach pr_sched pr_workers]. rewrite Nw. cbn [proj pw_todo pw_place job_of]. rewrite D. unfold exec_of. cbn [pr_mach pr_sched pr_workers]. now rewrite map_upd. }
           split; [eexists; reflexivity|]. split; [auto|]. intros _ _. split; auto.
    + (* wake *)
      assert (Np : ~ quiet_place pl). { intros Z. destruct (PO w _ N Z) as (_ & Z2). discriminate. }
      assert (Np1 : forall sd td, pw_place (mkPWorker sd td pl) <> PlHold). { intros sd td Z. apply Np. cbn in Z. rewrite Z. exact Logic.I. }
      split. { apply MK; auto. intros Z. destruct (Np Z). }
      cbn [seen_as]. split. { assert (Z : work_step (exec_of (mkProg c s ws)) w = Some (exec_of (mkProg c (wake (tasks_only c) t s) (upd ws w (mkPWorker None todo pl))))).
        { cbn [ExecModel.work_step exec_of pr_mach pr_sched pr_workers]. rewrite Nw. cbn [proj pw_todo pw_place]. unfold exec_of. cbn [pr_mach pr_sched pr_workers]. rewrite map_upd. rewrite (wake_tasks (tasks_only c) (conf_of c) t s eq_refl). reflexivity. }
        destruct pl; exact Z. }
      split; [eexists; reflexivity|]. split. { left. auto. } intros _ _. split; reflexivity.
    + (* drop of a task *)
      assert (Np : ~ quiet_place pl). { intros Z. destruct (PO w _ N Z) as (_ & Z2). discriminate. }
      assert (Np1 : forall sd td, pw_place (mkPWorker sd td pl) <> PlHold). { intros sd td Z. apply Np. cbn in Z. rewrite Z. exact Logic.I. }
      pose proof (drop_prog_sim c s u I R) as D.
      assert (SK : is_scheduled (conf_of c) u = true \/ drop_step (conf_of c) s u = DEnd ->
        PI (mkProg c s (upd ws w (mkPWorker None todo pl))) /\ seen_as (mkProg c s ws) w (mkPWorker None (ADrop u :: todo) pl) (mkProg c s (upd ws w (mkPWorker None todo pl))) /\
        (exists k', upd ws w (mkPWorker None todo pl) = upd ws w k') /\ (c = c /\ @nil Event = [] \/ mach_step c [] c) /\
        (pl <> PlLock -> pl <> PlHold -> lock_kept (mkProg c s ws) (mkProg c s (upd ws w (mkPWorker None todo pl))))).
      { intros H. split. { apply MK; auto. intros Z. destruct (Np Z). }
        assert (Z : work_step (exec_of (mkProg c s ws)) w = Some (exec_of (mkProg c s (upd ws w (mkPWorker None todo pl))))).
        { cbn [ExecModel.work_step exec_of pr_mach pr_sched pr_workers]. rewrite Nw. cbn [proj pw_todo pw_place]. unfold exec_of. cbn [pr_mach pr_sched pr_workers]. rewrite map_upd. destruct H as [-> | ->]; auto. now destruct (is_scheduled (conf_of c) u). }
        split. { cbn [seen_as]. destruct pl; exact Z. } split; [eexists; reflexivity|]. split. left; auto. intros _ _. split; reflexivity. }
      destruct (nth_error (m_tasks c) u) as [y|] eqn:Ny.
      2: { assert (Z : drop_prog c s u = PDEnd). { unfold drop_prog, stack_of, tasks_only, drop_frame_m. cbn [g_tasks]. rewrite Ny. reflexivity. }
           rewrite Z in *. destruct (negb (is_waiting (m_pool c) u)); apply SK; auto. }
      rewrite (rel_is_scheduled c u y R Ny). destruct (is_scheduled (conf_of c) u) eqn:Is; [apply SK; auto|].
      destruct (drop_prog c s u) as [| |c' evs s' acts]; [apply SK; auto|exact D|].
      destruct D as (D & R' & (K1 & K2 & K3) & M). split. { apply MK; auto. now rewrite K3. intros Z. destruct (Np Z). }
      split. { assert (Z : work_step (exec_of (mkProg c s ws)) w = Some (exec_of (mkProg c' s' (upd ws w (mkPWorker None (acts ++ ADrop u :: todo) pl))))).
        { cbn [ExecModel.work_step exec_of pr_mach pr_sched pr_workers]. rewrite Nw. cbn [proj pw_todo pw_place]. unfold exec_of. cbn [pr_mach pr_sched pr_workers]. rewrite map_upd, Is, D. reflexivity. }
        cbn [seen_as]. destruct pl; exact Z. }
      split; [eexists; reflexivity|]. split; [auto|]. intros _ _. split; auto.
Qed.
End Sim.
