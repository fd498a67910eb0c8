(* Model of the executor under the search: the worker threads of src/thread_pool.rs, the run queue, the
   header of a task of async_task, and the wakers (tp: src/thread_pool.rs, search: src/search.rs,
   states: src/search/states.rs).  The accesses of the tasks are those of SearchModel; this file adds
   which task a worker runs, when a run of a task stops, and what makes a task run again.

   The crates async_task 3.0, futures 0.3 and crossbeam-channel are not part of /repo and are modelled by
   their documented behaviour:
   - a task of async_task has the bits SCHEDULED, RUNNING, COMPLETED and CLOSED; run() polls the future or,
     if CLOSED, drops it; a wake sets SCHEDULED and hands the task to the schedule closure (tp 102-104),
     unless it is RUNNING, then run() does so afterwards;
   - poll of a JoinHandle leaves the waker of the caller with the task and returns the result if there is
     one; a finished task calls the waker; cancel() sets CLOSED and schedules the task unless it is SCHEDULED
     or RUNNING, so that its future gets dropped;
   - a poll of a Shared<oneshot::Receiver> that has to wait leaves the waker of the caller, and send() calls
     all wakers;
   - the channel is a first-in-first-out queue.
   A change of a header is one step, as it is one compare-and-swap in async_task.  Calls of wakers are
   separate steps, made by the worker after the access that causes them; so a task may be woken late, and
   any other worker may step in between.
   Not modelled: the order in which pending tasks are chosen (C35), the info task (search 47-56), the end of
   the workers when the pool is dropped (tp 196-199, 206-214), block_on of the main task (search 70). *)
From Coq Require Import List Arith Bool.
Import ListNotations.
From Verif Require Import Spec Util OutputSetModel HuffmanModel CanonModel TreeModel StatesModel SearchModel.

(* the bits SCHEDULED and RUNNING of a task (async_task, created by tp 99-107 with SCHEDULED set, so a task whose Task
   is still in its Schedule (tp 37-40) is TQueued too); again: SCHEDULED was set while RUNNING.  COMPLETED is
   tk_result, CLOSED is tk_cancel. *)
Inductive Flag := TIdle | TQueued | TRunning (again : bool).

(* what a worker still has to do inside the current access: call the waker of task t, or drop the Task of t
   that was left in its Schedule (tp 37-40; search 404 and the drop of targets) *)
Inductive Act := AWake (t : nat) | ADrop (t : nat).

(* what a worker runs (tp 147-149, 193-195): poll of the future of t, where fresh says that the poll has just
   started; the end of run() after the poll returned Pending; or the drop of the future of t *)
Inductive Job := JNone | JPoll (t : nat) (fresh : bool) | JPark (t : nat) | JDrop (t : nat).

(* a worker thread (tp 141-203) *)
Record Worker := mkWorker { wk_todo : list Act; wk_job : Job }.

(* the run queue (tp 125), the headers of the tasks, the waker left with each task by a poll of its handle
   (tp 57-65), the wakers left with the lock channels (states 116) as pairs of channel and task *)
Record Sched := mkSched { sc_flag : nat -> Flag; sc_queue : list nat; sc_awaiter : nat -> option nat; sc_waits : list (nat * nat) }.

(* the whole program: search and executor (thread_pool.rs:124-204) *)
Record Exec := mkExec { ex_conf : Config; ex_sched : Sched; ex_workers : list Worker }.

(* an assignment to an entry of the headers (async_task, see thread_pool.rs:99-107) *)
Definition set_at {A} (f : nat -> A) (t : nat) (a : A) : nat -> A := fun u => if u =? t then a else f u.
(* an assignment to the header of t (async_task, see thread_pool.rs:99-107) *)
Definition set_flag (t : nat) (a : Flag) (s : Sched) : Sched := mkSched (set_at (sc_flag s) t a) (sc_queue s) (sc_awaiter s) (sc_waits s).
(* an assignment to the waker left with t (async_task, see thread_pool.rs:60-64) *)
Definition set_awaiter (t : nat) (a : option nat) (s : Sched) : Sched := mkSched (sc_flag s) (sc_queue s) (set_at (sc_awaiter s) t a) (sc_waits s).

(* tp 102-104 the schedule closure *)
Definition push (t : nat) (s : Sched) : Sched :=
  mkSched (set_at (sc_flag s) t TQueued) (sc_queue s ++ [t]) (sc_awaiter s) (sc_waits s).

(* the bits COMPLETED or CLOSED of a task, and whether its Task was taken from its Schedule (tp 43-50) *)
Definition ended (y : Task) : bool := tk_cancel y || match tk_result y with Some _ => true | None => false end.
(* tp 52-54 is_scheduled *)
Definition is_scheduled (c : Config) (t : nat) : bool := match nth_error (g_tasks c) t with Some y => tk_sched y | None => false end.
(* the bit CLOSED (tp 67-71) *)
Definition is_cancelled (c : Config) (t : nat) : bool := match nth_error (g_tasks c) t with Some y => tk_cancel y | None => false end.

(* a call of the waker of t (async_task) (see thread_pool.rs:102-104) *)
Definition wake (c : Config) (t : nat) (s : Sched) : Sched :=
  match nth_error (g_tasks c) t with
  | None => s
  | Some y =>
      if ended y then s else
      match sc_flag s t with
      | TIdle => push t s
      | TQueued => s
      | TRunning _ => set_flag t (TRunning true) s
      end
  end.

(* the waker left with u is taken, to be called (async_task) (see thread_pool.rs:60-64) *)
Definition notify (u : nat) (s : Sched) : Sched * list Act :=
  match sc_awaiter s u with
  | Some p => (set_awaiter u None s, [AWake p])
  | None => (s, [])
  end.

(* tp 67-71: cancel() of the handle of u, and the drop of its Schedule, where c is the configuration before *)
Definition cancel (c : Config) (p : Sched * list Act) (u : nat) : Sched * list Act :=
  match nth_error (g_tasks c) u with
  | None => p
  | Some y =>
      if ended y then p else
      let '(s, acts) := p in
      let s1 := if tk_sched y then match sc_flag s u with TIdle => push u s | _ => s end else s in
      let '(s2, a2) := notify u s1 in
      (s2, acts ++ a2 ++ (if tk_sched y then [] else [ADrop u]))
  end.

(* states 165: send() *)
Definition send (id : nat) (s : Sched) : Sched * list Act :=
  (mkSched (sc_flag s) (sc_queue s) (sc_awaiter s) (filter (fun w => negb (fst w =? id)) (sc_waits s)),
   map (fun w => AWake (snd w)) (filter (fun w => fst w =? id) (sc_waits s))).

(* what the access r of task t does to the executor, c being the configuration before it:
   states 162-169 unlock, search 431 poll, search 505 schedule, search 404 and the drops of targets *)
Definition react (c : Config) (t : nat) (r : Req) (s : Sched) : Sched * list Act :=
  match r with
  | RUnlock _ id _ => send id s
  | RPoll u _ => (match nth_error (g_tasks c) u with
                  | Some y => match tk_result y with Some _ => s | None => set_awaiter u (Some t) s end
                  | None => s
                  end, [])
  | RSchedule u _ => (match nth_error (g_tasks c) u with
                      | Some y => if tk_sched y then s else push u s
                      | None => s
                      end, [])
  | RCancel ts _ => fold_left (cancel c) ts (s, [])
  | _ => (s, [])
  end.

(* the same for the drop of the frame f of a future: the handles of its edges, then its lock (search.rs:134, 283, 361) *)
Definition dropped (c : Config) (f : Frame) (s : Sched) : Sched * list Act :=
  let '(s1, a1) := fold_left (cancel c) (all_running (frame_edges f)) (s, []) in
  match held f with
  | None => (s1, a1)
  | Some (_, id) => let '(s2, a2) := send id s1 in (s2, a1 ++ a2)
  end.

(* the frames of task t (search.rs:46-71, 113-124) *)
Definition stack_of (c : Config) (t : nat) : list Frame := match nth_error (g_tasks c) t with Some y => tk_stack y | None => [] end.

(* search 455: pending!() makes the poll return Pending once *)
Definition at_pend (f : Frame) : bool :=
  match f with
  | FImp _ _ (INext _ _ _ NPend) | FHuff _ (HNext _ _ _ _ _ _ NPend) => true
  | _ => false
  end.

(* states 116: the waker left with the channel of the lock *)
Definition wait_on (t : nat) (r : Req) (s : Sched) : Sched :=
  match r with
  | RWait id _ => mkSched (sc_flag s) (sc_queue s) (sc_awaiter s) (sc_waits s ++ [(id, t)])
  | _ => s
  end.

(* the result of a step of a drop: there is nothing left to drop, it panics, or it steps (outcome of drop_step) (thread_pool.rs:67-71) *)
Inductive Drop := DEnd | DPanic | DStep (c : Config) (s : Sched) (acts : list Act).

Section Exec.
Variable chash : list nat -> nat.   (* FxHasher in canonicalize *)
Variable mhash : list nat -> nat.   (* FxHasher in StateMap *)

(* a poll of the future of t goes on until it has to wait or is finished (async_task run(), tp 147-149, 193-195) *)
Definition poll_step (c : Config) (s : Sched) (t : nat) (fresh : bool) : option (Config * Sched * Worker) :=
  match stack_of c t with
  | [] => Some (c, set_flag t TIdle s, mkWorker [] JNone)
  | f :: _ =>
      if at_pend f && negb fresh then Some (c, s, mkWorker [] (JPark t))
      else match task_step chash mhash c t with
           | Blocked => Some (c, wait_on t (frame_req chash f) s, mkWorker [] (JPark t))
           | Panicked => None
           | Stepped c' =>
               let '(s1, a1) := react c t (frame_req chash f) s in
               match stack_of c' t with
               | [] => let '(s2, a2) := notify t (set_flag t TIdle s1) in Some (c', s2, mkWorker (a1 ++ a2) JNone)
               | _ :: _ => Some (c', s1, mkWorker a1 (JPoll t false))
               end
           end
  end.

(* the end of run() after the poll returned Pending (async_task) (see thread_pool.rs:148, 194) *)
Definition park_step (c : Config) (s : Sched) (t : nat) : Sched * Worker :=
  if is_cancelled c t then (s, mkWorker [] (JDrop t))
  else match sc_flag s t with
       | TRunning true => (push t s, mkWorker [] JNone)
       | _ => (set_flag t TIdle s, mkWorker [] JNone)
       end.

(* the drop of the future of t (async_task run() and drop of a Task): its frames are dropped one after the other (thread_pool.rs:148, 194) *)
Definition drop_step (c : Config) (s : Sched) (t : nat) : Drop :=
  match stack_of c t, drop_frame mhash c t with
  | f :: _, Stepped c' => let '(s', acts) := dropped c f s in DStep c' s' acts
  | _, Panicked => DPanic
  | _, _ => DEnd
  end.

(* one step of worker w (tp 146-202); None if it has nothing to do (or panics) *)
Definition work_step (x : Exec) (w : nat) : option Exec :=
  let '(mkExec c s ws) := x in
  match nth_error ws w with
  | None => None
  | Some (mkWorker (AWake t :: todo) job) => Some (mkExec c (wake c t s) (upd ws w (mkWorker todo job)))
  | Some (mkWorker (ADrop u :: todo) job) =>
      if is_scheduled c u then Some (mkExec c s (upd ws w (mkWorker todo job)))
      else match drop_step c s u with
           | DPanic => None
           | DEnd => Some (mkExec c s (upd ws w (mkWorker todo job)))
           | DStep c' s' acts => Some (mkExec c' s' (upd ws w (mkWorker (acts ++ ADrop u :: todo) job)))
           end
  | Some (mkWorker [] JNone) =>
      match sc_queue s with
      | [] => None
      | t :: q => Some (mkExec c (mkSched (set_at (sc_flag s) t (TRunning false)) q (sc_awaiter s) (sc_waits s))
                          (upd ws w (mkWorker [] (if is_cancelled c t then JDrop t else JPoll t true))))
      end
  | Some (mkWorker [] (JPoll t fresh)) =>
      match poll_step c s t fresh with
      | Some (c', s', k) => Some (mkExec c' s' (upd ws w k))
      | None => None
      end
  | Some (mkWorker [] (JPark t)) => let '(s', k) := park_step c s t in Some (mkExec c s' (upd ws w k))
  | Some (mkWorker [] (JDrop t)) =>
      match drop_step c s t with
      | DPanic => None
      | DEnd => Some (mkExec c (set_flag t TIdle s) (upd ws w (mkWorker [] JNone)))
      | DStep c' s' acts => Some (mkExec c' s' (upd ws w (mkWorker acts (JDrop t))))
      end
  end.

(* all steps: a step of a worker, or (tp 182-189) some worker schedules a task handed to add_pending; that happens while
   that worker has no task, but is allowed at any time here *)
Inductive exec_step : Exec -> Exec -> Prop :=
| ExWork x w x' : work_step x w = Some x' -> exec_step x x'
| ExPool c s ws t y : nth_error (g_tasks c) t = Some y -> tk_pend y = true -> tk_sched y = false ->
    exec_step (mkExec c s ws) (mkExec (with_task c t set_sched) (push t s) ws).

(* tp 124-204, search 58-67: the pool with its workers, the main task in the queue *)
Definition exec_start (workers : nat) (c : Config) : Exec :=
  mkExec c (mkSched (fun _ => TQueued) [0] (fun _ => None) []) (repeat (mkWorker [] JNone) workers).

(* the states that can occur (thread_pool.rs:124-204) *)
Inductive exec_run (workers threads : nat) (initial : OutputSet) (limit : option nat) : Exec -> Prop :=
| ex_start c : search_start chash threads initial limit = Some c -> exec_run workers threads initial limit (exec_start workers c)
| ex_next x x' : exec_run workers threads initial limit x -> exec_step x x' -> exec_run workers threads initial limit x'.

(* an execution; it may stay in a state (thread_pool.rs:124-204) *)
Definition exec_trace (X : nat -> Exec) : Prop := forall i, X (S i) = X i \/ exec_step (X i) (X (S i)).

(* every worker thread goes on (tp 146: the loop of the workers): no worker that has something to do is left out for ever.
   Nothing is said about the tasks. *)
Definition workers_go (X : nat -> Exec) : Prop :=
  forall w i, w < length (ex_workers (X i)) -> exists j, i <= j /\ (work_step (X j) w = Some (X (S j)) \/ work_step (X j) w = None).
End Exec.
