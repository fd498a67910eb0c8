(* C43: the workers and the wake-ups of src/thread_pool.rs never leave a task behind. *)
From Coq Require Import List Arith Bool Lia.
Import ListNotations.
From Verif Require Import Spec Vec Net Graded Bits Util OutputSetModel OutputSetProofs PruneProofs PackProofs CountProofs HuffmanModel HuffmanProofs CanonModel TreeModel StatesModel StatesProofs StatesBounds SearchModel SearchFair SearchFacts SearchInv SearchGood SearchReady SearchPend SearchEnds ExecModel ExecFacts ExecInv ExecRun PropSearch PropLive PropFair.

(* ---- C43 ---- *)

(* The steps of the workers are steps of the search: all that is proved of the search holds on the workers. *)
Theorem C43_workers_run_search : forall chash mhash workers threads initial limit x,
  ExecModel.exec_run chash mhash workers threads initial limit x -> search_run chash mhash threads initial limit (ex_conf x).
Proof. exact exec_search. Qed.
Print Assumptions C43_workers_run_search.

(* A task that can go on is in the queue, or is the task of a worker, or some worker is about to wake or to drop it. *)
Theorem C43_no_lost_wakeup : forall chash mhash workers threads initial limit x t,
  start_ok initial -> ExecModel.exec_run chash mhash workers threads initial limit x -> enabled chash mhash (ex_conf x) t ->
  In t (sc_queue (ex_sched x)) \/
  exists w k, nth_error (ex_workers x) w = Some k /\ (job_task (wk_job k) = Some t \/ In (AWake t) (wk_todo k) \/ In (ADrop t) (wk_todo k)).
Proof.
  intros chash mhash workers threads initial limit x t K R E. destruct (exec_EI chash mhash workers threads initial limit x (start_okset _ K) R) as (X & _).
  now apply (enabled_cared chash mhash).
Qed.
Print Assumptions C43_no_lost_wakeup.

(* A task is never run by two workers, is never twice in the queue, and is not in the queue while a worker has it. *)
Theorem C43_one_worker_per_task : forall chash mhash workers threads initial limit x,
  start_ok initial -> ExecModel.exec_run chash mhash workers threads initial limit x ->
  NoDup (sc_queue (ex_sched x)) /\
  (forall w w' k k' t, nth_error (ex_workers x) w = Some k -> nth_error (ex_workers x) w' = Some k' ->
     job_task (wk_job k) = Some t -> job_task (wk_job k') = Some t -> w = w') /\
  (forall w k t, nth_error (ex_workers x) w = Some k -> job_task (wk_job k) = Some t -> ~ In t (sc_queue (ex_sched x))).
Proof.
  intros chash mhash workers threads initial limit x K R. destruct (exec_EI chash mhash workers threads initial limit x (start_okset _ K) R) as ([(Q1 & Q2 & Q3) (F1 & F2 & F3) _] & _).
  split; auto. split.
  - intros w w' k k' t N N' J J'. apply (F3 w w' t); [exists k|exists k']; auto.
  - intros w k t N J H. destruct (F1 w t) as (a & Fa). exists k; auto. apply Q2 in H. destruct H as (H & _). congruence.
Qed.
Print Assumptions C43_one_worker_per_task.

(* A worker that cannot make a step is idle and the queue is empty: no worker panics. *)
Theorem C43_workers_never_panic : forall chash mhash workers threads initial limit x w k,
  start_ok initial -> ExecModel.exec_run chash mhash workers threads initial limit x ->
  nth_error (ex_workers x) w = Some k -> work_step chash mhash x w = None -> k = mkWorker [] JNone /\ sc_queue (ex_sched x) = [].
Proof.
  intros chash mhash workers threads initial limit x w k K R N H. destruct (exec_EI chash mhash workers threads initial limit x (start_okset _ K) R) as (_ & G).
  now apply (work_none chash mhash x w k).
Qed.
Print Assumptions C43_workers_never_panic.

(* The workers come to rest only when the main loop has ended: otherwise one of them can make a step. *)
Theorem C43_pool_never_stuck : forall chash mhash workers threads initial limit x,
  start_ok initial -> 0 < workers -> ExecModel.exec_run chash mhash workers threads initial limit x ->
  (forall w, w < workers -> work_step chash mhash x w = None) -> exists k, search_result (ex_conf x) k.
Proof.
  intros chash mhash workers threads initial limit x K W R H. destruct (exec_EI chash mhash workers threads initial limit x (start_okset _ K) R) as (X & G).
  pose proof (run_length chash mhash workers threads initial limit x R) as L.
  assert (D : forall t, ~ enabled chash mhash (ex_conf x) t).
  { apply (idle_disabled chash mhash x X G). intros E. rewrite E in L. cbn in L. lia.
    intros w. destruct (Nat.lt_ge_cases w workers) as [Lw|Lw]; auto. destruct x as [c s ws]. cbn [work_step ex_workers] in *.
    replace (nth_error ws w) with (@None Worker). reflexivity. symmetry. apply nth_error_None. lia. }
  destruct (C41_fair_search_ends chash mhash threads initial limit (fun _ => ex_conf x) K) as (i & k & Z).
  - now apply (exec_search chash mhash workers).
  - intros i. now left.
  - intros t i. exists i. auto.
  - now exists k.
Qed.
Print Assumptions C43_pool_never_stuck.

(* a run: the workers make their steps in turn *)
Definition robin_step chash mhash (W : nat) (x : Exec) (i : nat) : Exec := match work_step chash mhash x (i mod W) with Some y => y | None => x end.
Fixpoint robin chash mhash (W : nat) (x : Exec) (i : nat) : Exec :=
  match i with 0 => x | S i => robin_step chash mhash W (robin chash mhash W x i) i end.
Lemma robin_run chash mhash W workers threads initial limit x i : ExecModel.exec_run chash mhash workers threads initial limit x ->
  ExecModel.exec_run chash mhash workers threads initial limit (robin chash mhash W x i).
Proof.
  intros H. induction i as [|i IH]; cbn; auto. unfold robin_step. destruct (work_step chash mhash _ (i mod W)) as [y|] eqn:E; auto.
  eapply ex_next; eauto. eapply ExWork; eauto.
Qed.
Definition exec_example (n i : nat) : Exec :=
  match search_start h0 1 (all_values n) None with
  | Some c => robin h0 h0 2 (exec_start 2 c) i
  | None => mkExec (mkConfig (sm_default 1) 0 [] []) (mkSched (fun _ => TIdle) [] (fun _ => None) []) []
  end.
Lemma exec_example_run n i : n <= 11 -> ExecModel.exec_run h0 h0 2 1 (all_values n) None (exec_example n i).
Proof.
  intros Hn. unfold exec_example. pose proof (canon_canon_of h0 _ (start_okset _ (all_values_start n Hn))) as E.
  unfold search_start. rewrite E. cbn. apply robin_run. apply ex_start. unfold search_start. now rewrite E.
Qed.

(* Four channels, two workers: the child of task 0 has just ended on worker 1; task 0 can go on, it is neither in the
   queue nor on a worker, but worker 1 is about to wake it. *)
Definition exec_view (x : Exec) : list nat * list (list Act * Job) * option bool :=
  (sc_queue (ex_sched x), map (fun k => (wk_todo k, wk_job k)) (ex_workers x),
   match nth_error (g_tasks (ex_conf x)) 0 with
   | Some y => match tk_stack y with f :: _ => Some (awakeb (ex_conf x) f) | [] => None end
   | None => None
   end).
Example C43_case_wake : exec_view (exec_example 4 116) = ([], [([], JNone); ([AWake 0], JNone)], Some true).
Proof. vm_compute. reflexivity. Qed.
Example C43_case_run : ExecModel.exec_run h0 h0 2 1 (all_values 4) None (exec_example 4 116).
Proof. apply exec_example_run. lia. Qed.
Definition can_step (x : Exec) (t : nat) : bool := match task_step h0 h0 (ex_conf x) t with Stepped _ => true | _ => false end.
Example C43_case_steps : can_step (exec_example 4 116) 0 = true.
Proof. vm_compute. reflexivity. Qed.
(* the workers come to rest with the optimum, 5 *)
Example C43_case_rest : (forallb (fun w => match work_step h0 h0 (exec_example 4 190) w with None => true | _ => false end) [0; 1],
  match nth_error (g_tasks (ex_conf (exec_example 4 190))) 0 with Some y => match tk_stack y with [FMain _ _ (MDone k)] => Some k | _ => None end | None => None end) = (true, Some 5).
Proof. vm_compute. reflexivity. Qed.
