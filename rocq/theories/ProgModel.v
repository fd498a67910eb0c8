(* The whole search as one program: the worker threads of src/thread_pool.rs with every place of their loop, the run
   queue, the wakers and the headers of the tasks of ExecModel, and the checked search with its map and its pending
   queue of SearchMachModel (tp: src/thread_pool.rs, search: src/search.rs, states: src/search/states.rs).

   A worker takes tasks from the run queue as long as there are any (tp 147-149), waits for the lock of Pending
   (tp 152), sorts the entries of the pending channel into the map and starts the first task of the map that can be
   started (tp 154-189), and otherwise waits for a task for a while (tp 192-201).  A step is one access to shared data,
   or one change of the header of a task, made by one worker.  Nothing else makes steps.

   The simplifications are those of SearchMachModel and ExecModel, in particular:
   - when a Schedule is dropped whose Task was not taken, the worker that drops it drops the Task (ADrop), also if
     another worker has a reference to the cell just then (tp 164, 184);
   - the end of the workers when the pool is dropped (tp 196-199, 206-214), the info task (search 47-56) and block_on
     (search 70) are left out;
   - the lock of Pending is given to any worker that waits for it. *)
From Coq Require Import List Arith Bool.
Import ListNotations.
From Verif Require Import Spec Util OutputSetModel StatesModel StatesMachModel PoolModel SearchModel SearchMachModel ExecModel.

(* the places of the loop of a worker (tp 146-202) *)
Inductive Place :=
| PlTop                               (* 147 try_recv *)
| PlLock                              (* 152 *)
| PlHold                              (* 154-190, with the lock; the field worker of the pool says where *)
| PlRecv                              (* 192 *)
| PlPoll (t : nat) (fresh : bool)     (* 148, 194: run() polls the future of t, see ExecModel.Job *)
| PlPark (t : nat)                    (* run() after the poll returned Pending *)
| PlDrop (t : nat).                   (* run() drops the future of t *)

(* a worker (tp 141-203): the entry it is about to send in add_pending (tp 116-122), what it still has to do inside the
   current access (ExecModel.Act), and its place *)
Record PWorker := mkPWorker { pw_send : option Entry; pw_todo : list Act; pw_place : Place }.

(* the whole program: the checked search with its pool, the run queue, headers and wakers, the workers (tp 124-204) *)
Record Prog := mkProg { pr_mach : Mach; pr_sched : Sched; pr_workers : list PWorker }.

(* the tasks as a configuration: the functions of ExecModel about headers and wakers (async_task) read only the tasks (see thread_pool.rs:99-107) *)
Definition tasks_only (c : Mach) : Config := mkConfig (mkStateMap [] []) 0 [] (m_tasks c).

(* PoolModel.Entry is compared: the entries of add_pending have different numbers (tp 117) *)
Definition entry_eqb (a b : Entry) : bool := match key_cmp (fst a) (fst b) with Eq => snd a =? snd b | _ => false end.

(* tp 120-121: the entry is sent; the list of the entries about to be sent (PoolModel) loses it *)
Fixpoint unsend (e : Entry) (l : list Entry) : option (list Entry) :=
  match l with
  | [] => None
  | x :: r => if entry_eqb x e then Some r
              else match unsend e r with Some r' => Some (x :: r') | None => None end
  end.

(* tp 154-190: one step of the worker that has the lock, as in PoolModel.pstep, but as a function *)
Definition lock_step (p : Pool) : Event * Pool :=
  match worker p with
  | WFree => (EvLock, set_worker p (chan p) (queue p) (next_gc p) (WDrain (length (chan p) * 2) 0))
  | WDrain l n =>
      match chan p with
      | [] => (EvNone, set_worker p [] (queue p) (next_gc p) WTake)
      | e :: r => if length (queue p) <? next_gc p
                  then (EvNone, do_insert (set_worker p r (queue p) (next_gc p) (worker p)) (queue p) (next_gc p) e l n)
                  else (EvNone, set_worker p r [] (next_gc p) (WGc [] (queue p) e l n))
      end
  | WGc k [] m l n => (EvNone, do_insert p k (Nat.max (length k) 5000 * 2) m l n)
  | WGc k (e :: r) m l n =>
      (EvNone, set_worker p (chan p) (queue p) (next_gc p) (if alive p (snd e) then WGcHold k e r m l n else WGc k r m l n))
  | WGcHold k e r m l n =>
      (EvNone, set_worker p (chan p) (queue p) (next_gc p) (WGc (if is_waiting p (snd e) then k ++ [e] else k) r m l n))
  | WTake =>
      match queue p with
      | [] => (EvNone, set_worker p (chan p) [] (next_gc p) WFree)
      | e :: r => (EvNone, set_worker p (chan p) r (next_gc p) (if alive p (snd e) then WTakeHold e else WTake))
      end
  | WTakeHold e =>
      if is_waiting p (snd e) then (EvTaken e, start p (snd e) WFree)
      else (EvRefused (snd e), set_worker p (chan p) (queue p) (next_gc p) WTake)
  end.

(* tp 186, 190: where the worker is after a step with the lock *)
Definition after_lock (ev : Event) (p : Pool) : Place :=
  match worker p with
  | WFree => match ev with EvTaken _ => PlTop | _ => PlRecv end
  | _ => PlHold
  end.

(* what a request of a task does to the headers and wakers, see ExecModel.react (states.rs:162-169, search.rs:404, 431, 505) *)
Definition react_m (c : Mach) (t : nat) (r : MReq) (s : Sched) : Sched * list Act :=
  match r with MPlain r => react (tasks_only c) t r s | MSpawn _ _ _ _ => (s, []) end.

(* states 116: the waker left with the channel of a lock, see ExecModel.wait_on *)
Definition wait_on_m (t : nat) (r : MReq) (s : Sched) : Sched :=
  match r with MPlain r => wait_on t r s | MSpawn _ _ _ _ => s end.

(* tp 117: the entry that add_pending of this request is about to send *)
Definition entry_sent (r : MReq) (c : Mach) : option Entry :=
  match r with MSpawn _ _ (Some _) _ => hd_error (sending (m_pool c)) | _ => None end.

(* the result of a step of a worker: it has to wait, a check fails, or it steps, which the pool shows as events (thread_pool.rs:146-202) *)
Inductive PStep := PWait | PPanic | PDone (x : Prog) (evs : list Event).

Section Prog.
Variable chash : list nat -> nat.   (* FxHasher in canonicalize *)
Variable mhash : list nat -> nat.   (* FxHasher in StateMap *)

(* a poll of the future of t (async_task run(), tp 148, 194), see ExecModel.poll_step *)
Definition poll_prog (c : Mach) (s : Sched) (t : nat) (fresh : bool) : option (Mach * list Event * Sched * PWorker) :=
  match stack_of (tasks_only c) t with
  | [] => Some (c, [], set_flag t TIdle s, mkPWorker None [] PlTop)
  | f :: _ =>
      let r := frame_req_c chash f in
      if at_pend f && negb fresh then Some (c, [], s, mkPWorker None [] (PlPark t))
      else match task_step_m chash mhash c t with
           | MBlocked => Some (c, [], wait_on_m t r s, mkPWorker None [] (PlPark t))
           | MPanicked => None
           | MStepped c' evs =>
               let '(s1, a1) := react_m c t r s in
               match stack_of (tasks_only c') t with
               | [] => let '(s2, a2) := notify t (set_flag t TIdle s1) in
                       Some (c', evs, s2, mkPWorker (entry_sent r c') (a1 ++ a2) PlTop)
               | _ :: _ => Some (c', evs, s1, mkPWorker (entry_sent r c') a1 (PlPoll t false))
               end
           end
  end.

(* the end of run() after the poll returned Pending (async_task), see ExecModel.park_step (thread_pool.rs:148, 194) *)
Definition park_prog (c : Mach) (s : Sched) (t : nat) : Sched * PWorker :=
  if is_cancelled (tasks_only c) t then (s, mkPWorker None [] (PlDrop t))
  else match sc_flag s t with
       | TRunning true => (push t s, mkPWorker None [] PlTop)
       | _ => (set_flag t TIdle s, mkPWorker None [] PlTop)
       end.

(* the result of one step of the drop of a future (async_task), see ExecModel.Drop (thread_pool.rs:148, 194) *)
Inductive PDrop := PDEnd | PDPanic | PDStep (c : Mach) (evs : list Event) (s : Sched) (acts : list Act).

(* the drop of the future of t (async_task run() and drop of a Task): its frames are dropped one after the other (thread_pool.rs:148, 194) *)
Definition drop_prog (c : Mach) (s : Sched) (t : nat) : PDrop :=
  match stack_of (tasks_only c) t, drop_frame_m c t with
  | f :: _, MStepped c' evs => let '(s', acts) := dropped (tasks_only c) f s in PDStep c' evs s' acts
  | _, MPanicked => PDPanic
  | _, _ => PDEnd
  end.

(* tp 147-149, 192-195: a task from the run queue *)
Definition take_prog (c : Mach) (s : Sched) (t : nat) (q : list nat) : Sched * PWorker :=
  (mkSched (set_at (sc_flag s) t (TRunning false)) q (sc_awaiter s) (sc_waits s),
   mkPWorker None [] (if is_cancelled (tasks_only c) t then PlDrop t else PlPoll t true)).

(* one step of worker w (tp 146-202) *)
Definition prog_step (x : Prog) (w : nat) : PStep :=
  let '(mkProg c s ws) := x in
  match nth_error ws w with
  | None => PWait
  | Some (mkPWorker (Some e) todo pl) =>
      match unsend e (sending (m_pool c)) with
      | None => PPanic
      | Some l => PDone (mkProg (with_pool c (set_chan (m_pool c) l (chan (m_pool c) ++ [e]))) s (upd ws w (mkPWorker None todo pl)))
                        [EvAdded e]
      end
  | Some (mkPWorker None (AWake t :: todo) pl) =>
      PDone (mkProg c (wake (tasks_only c) t s) (upd ws w (mkPWorker None todo pl))) []
  | Some (mkPWorker None (ADrop u :: todo) pl) =>
      if negb (is_waiting (m_pool c) u) then PDone (mkProg c s (upd ws w (mkPWorker None todo pl))) []
      else match drop_prog c s u with
           | PDPanic => PPanic
           | PDEnd => PDone (mkProg c s (upd ws w (mkPWorker None todo pl))) []
           | PDStep c' evs s' acts => PDone (mkProg c' s' (upd ws w (mkPWorker None (acts ++ ADrop u :: todo) pl))) evs
           end
  | Some (mkPWorker None [] PlTop) =>
      match sc_queue s with
      | [] => PDone (mkProg c s (upd ws w (mkPWorker None [] PlLock))) []
      | t :: q => let '(s', k) := take_prog c s t q in PDone (mkProg c s' (upd ws w k)) []
      end
  | Some (mkPWorker None [] PlLock) =>
      match worker (m_pool c) with
      | WFree => let '(ev, p) := lock_step (m_pool c) in
                 PDone (mkProg (with_pool c p) s (upd ws w (mkPWorker None [] PlHold))) [ev]
      | _ => PWait
      end
  | Some (mkPWorker None [] PlHold) =>
      let '(ev, p) := lock_step (m_pool c) in
      PDone (mkProg (taken ev (with_pool c p)) (match ev with EvTaken e => push (snd e) s | _ => s end)
                    (upd ws w (mkPWorker None [] (after_lock ev p)))) [ev]
  | Some (mkPWorker None [] PlRecv) =>
      match sc_queue s with
      | [] => PDone (mkProg c s (upd ws w (mkPWorker None [] PlTop))) []
      | t :: q => let '(s', k) := take_prog c s t q in PDone (mkProg c s' (upd ws w k)) []
      end
  | Some (mkPWorker None [] (PlPoll t fresh)) =>
      match poll_prog c s t fresh with
      | Some (c', evs, s', k) => PDone (mkProg c' s' (upd ws w k)) evs
      | None => PPanic
      end
  | Some (mkPWorker None [] (PlPark t)) => let '(s', k) := park_prog c s t in PDone (mkProg c s' (upd ws w k)) []
  | Some (mkPWorker None [] (PlDrop t)) =>
      match drop_prog c s t with
      | PDPanic => PPanic
      | PDEnd => PDone (mkProg c (set_flag t TIdle s) (upd ws w (mkPWorker None [] PlTop))) []
      | PDStep c' evs s' acts => PDone (mkProg c' s' (upd ws w (mkPWorker None acts (PlDrop t)))) evs
      end
  end.

(* tp 124-204, search 31-67: the pool with its workers at the start of their loop, the main task in the queue *)
Definition prog_start (workers threads : nat) (initial : OutputSet) (limit : option nat) : option (Prog * list Event) :=
  match mach_start chash threads initial limit with
  | Some (c, evs) => Some (mkProg c (mkSched (fun _ => TQueued) [0] (fun _ => None) []) (repeat (mkPWorker None [] PlTop) workers), evs)
  | None => None
  end.

(* what can happen: the events of the pool so far and the state of the program (search 31-78) *)
Inductive prog_run (workers threads : nat) (initial : OutputSet) (limit : option nat) : list Event -> Prog -> Prop :=
| prog_run_start x evs : prog_start workers threads initial limit = Some (x, evs) -> prog_run workers threads initial limit evs x
| prog_run_step tr x w x' evs : prog_run workers threads initial limit tr x -> prog_step x w = PDone x' evs ->
    prog_run workers threads initial limit (tr ++ evs) x'.

(* an execution (tp 141-204); it may stay in a state *)
Definition prog_trace (X : nat -> Prog) : Prop := forall i, X (S i) = X i \/ exists w evs, prog_step (X i) w = PDone (X (S i)) evs.

(* every worker thread goes on (tp 146): no worker is left out for ever while it need not wait for the lock.  A worker that
   waits for the lock may be overtaken any number of times. *)
Definition threads_go (X : nat -> Prog) : Prop :=
  forall w i, w < length (pr_workers (X i)) ->
    exists j, i <= j /\ ((exists evs, prog_step (X j) w = PDone (X (S j)) evs) \/ prog_step (X j) w = PWait).

(* search 62, 69: the main loop ended with k *)
Definition prog_result (x : Prog) (k : nat) : Prop := mach_result (pr_mach x) k.
End Prog.
