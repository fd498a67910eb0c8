(* The scope of the thread pool around the search: the thread that called search waits for the main task, drops the pool
   and waits until every worker thread has ended (tp: src/thread_pool.rs, search: src/search.rs).

   A worker ends when recv_timeout reports that the run queue is empty and has no sender left (tp 196-199).  The senders
   are the one of the pool (tp 130), which drop(pool) drops (tp 214), and one in the schedule closure of every task that
   was spawned (tp 90, 101-105), which lives as long as there is a reference to the task: its Task, its handle or a waker.

   Simplifications:
   - the main task is finished when its future is at its end; block_on (search 70) takes its result and drops its handle
     in one step with drop(pool);
   - the wakers of a task that are left with other tasks or with the channels of locks count as long as the future of the
     task is there; such a waker is dropped together with the task it is left with, or by its future;
   - the info task (search 47-56) is left out, as in ProgModel.  It holds a sender until it is cancelled at the end of
     in_scope and its future is dropped. *)
From Coq Require Import List Arith Bool.
Import ListNotations.
From Verif Require Import Spec Util OutputSetModel StatesModel StatesMachModel PoolModel SearchModel SearchMachModel ExecModel ProgModel.

(* the thread that called search: in in_scope (tp 212, search 46-71), joining the workers (tp 206-210) with the result of
   in_scope, or back in search (search 71) *)
Inductive Main := MIn | MJoin (k : nat) | MBack (k : nat).

(* the program with the worker threads that have ended (tp 198) and the main thread *)
Record Scope := mkScope { sp_prog : Prog; sp_gone : list bool; sp_main : Main }.

(* a worker has a Task or a waker in its hands (tp 148, 194) *)
Definition in_hand (k : PWorker) : bool :=
  match pw_todo k, pw_place k with
  | [], (PlTop | PlLock | PlHold | PlRecv) => false
  | _, _ => true
  end.
(* tp 164, 184: the worker with the lock has a reference to the cell of a Task *)
Definition cell_in_hand (p : Pool) : bool :=
  match worker p with
  | WGcHold _ e _ _ _ _ | WTakeHold e => is_waiting p (snd e)
  | _ => false
  end.
(* tp 102: there is a task that was not freed *)
Definition some_task (x : Prog) : bool :=
  negb (match sc_queue (pr_sched x) with [] => true | _ => false end)                    (* a Task in the run queue *)
  || existsb in_hand (pr_workers x)
  || cell_in_hand (m_pool (pr_mach x))
  || existsb (fun c => waiting c && (0 <? owners c)) (cells (m_pool (pr_mach x)))        (* a Task in its Schedule *)
  || existsb (fun y => existsb (fun f => negb (match all_running (frame_edges f) with [] => true | _ => false end)) (tk_stack y))
             (m_tasks (pr_mach x))                                                       (* a handle in a future *)
  || existsb (fun y => negb (match tk_stack y with [] => true | _ => false end)) (tl (m_tasks (pr_mach x))). (* a future *)

(* search 62, 69: the result of the main task *)
Definition main_result (c : Mach) : option nat :=
  match nth_error (m_tasks c) 0 with
  | Some y => match tk_stack y with [FMain _ _ (MDone k)] => Some k | _ => None end
  | None => None
  end.

(* tp 214: the pool was dropped *)
Definition pool_dropped (m : Main) : bool := match m with MIn => false | _ => true end.

(* the result of a step of a worker, see PStep (thread_pool.rs:146-202) *)
Inductive SStep := SWait | SPanic | SDone (x : Scope) (evs : list Event).

Section Scope.
Variable chash : list nat -> nat.   (* FxHasher in canonicalize *)
Variable mhash : list nat -> nat.   (* FxHasher in StateMap *)

(* one step of worker w (tp 146-202): as in ProgModel, but recv_timeout (tp 192) may report that no sender is left; then
   the thread ends (tp 197-199) *)
Definition worker_step (x : Scope) (w : nat) : SStep :=
  let '(mkScope p gone m) := x in
  if nth w gone true then SWait else
  match nth_error (pr_workers p) w with
  | Some (mkPWorker None [] PlRecv) =>
      if pool_dropped m && negb (some_task p) then SDone (mkScope p (upd gone w true) m) []
      else match prog_step chash mhash p w with
           | PWait => SWait
           | PPanic => SPanic
           | PDone p' evs => SDone (mkScope p' gone m) evs
           end
  | _ => match prog_step chash mhash p w with
         | PWait => SWait
         | PPanic => SPanic
         | PDone p' evs => SDone (mkScope p' gone m) evs
         end
  end.

(* a step of the thread that called search: block_on returns and the pool is dropped (search 70, tp 212-214); all workers
   are joined and scope returns (tp 206-210, 216) *)
Definition main_step (x : Scope) : option Scope :=
  let '(mkScope p gone m) := x in
  match m with
  | MIn => match main_result (pr_mach p) with Some k => Some (mkScope p gone (MJoin k)) | None => None end
  | MJoin k => if forallb (fun b => b) gone then Some (mkScope p gone (MBack k)) else None
  | MBack _ => None
  end.

(* the steps of the program (tp 124-217) *)
Inductive scope_step (x : Scope) (x' : Scope) : Prop :=
| ByWorker w evs : worker_step x w = SDone x' evs -> scope_step x x'
| ByMain : main_step x = Some x' -> scope_step x x'.

(* tp 124-204, search 31-46 *)
Definition scope_start (workers threads : nat) (initial : OutputSet) (limit : option nat) : option Scope :=
  match prog_start chash workers threads initial limit with
  | Some (p, _) => Some (mkScope p (repeat false workers) MIn)
  | None => None
  end.

(* what can happen (search 31-71) *)
Inductive scope_run (workers threads : nat) (initial : OutputSet) (limit : option nat) : Scope -> Prop :=
| scope_run_start x : scope_start workers threads initial limit = Some x -> scope_run workers threads initial limit x
| scope_run_step x x' : scope_run workers threads initial limit x -> scope_step x x' -> scope_run workers threads initial limit x'.

(* an execution (tp 124-217); it may stay in a state *)
Definition scope_trace (X : nat -> Scope) : Prop := forall i, X (S i) = X i \/ scope_step (X i) (X (S i)).

(* every thread goes on: no worker is left out for ever while it need not wait for the lock and has not ended (tp 146), and
   the thread that called search is not left out for ever while it need not wait (tp 206-216) *)
Definition scope_goes (X : nat -> Scope) : Prop :=
  (forall w i, w < length (pr_workers (sp_prog (X i))) ->
     exists j, i <= j /\ ((exists evs, worker_step (X j) w = SDone (X (S j)) evs) \/ worker_step (X j) w = SWait)) /\
  (forall i, exists j, i <= j /\ (main_step (X j) = Some (X (S j)) \/ main_step (X j) = None)).

(* the next step of worker w reads the pool: spawn_delayed reads self.queue (tp 90) and add_pending self.pending_id and
   self.pending_queue (tp 117, 120), called by a task that the worker polls *)
Definition uses_pool (x : Scope) (w : nat) : bool :=
  negb (nth w (sp_gone x) true) &&
  match nth_error (pr_workers (sp_prog x)) w with
  | Some (mkPWorker (Some _) _ _) => true
  | Some (mkPWorker None [] (PlPoll t fresh)) =>
      match stack_of (tasks_only (pr_mach (sp_prog x))) t with
      | [] => false
      | f :: _ => negb (at_pend f && negb fresh) && match frame_req_c chash f with MSpawn _ _ _ _ => true | MPlain _ => false end
      end
  | _ => false
  end.
End Scope.
