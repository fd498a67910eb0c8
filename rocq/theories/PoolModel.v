(* Model of the pending queue of src/thread_pool.rs (line numbers without a file name refer to it).

   The shared data are the cells behind Schedule (38-41), the channel of pending entries, the counter
   pending_id, the run queue and the map Pending (20-24).  A step is one access to shared data.  The
   threads that use the pool take the steps that start with E in any order; the workers take the steps
   that start with W.  A worker holds the write lock of Pending from 152 to 191, so at most one worker
   is between these lines, and one variable says where.

   Simplifications.  What a task does and the run queue's order are left out: the run queue is the list
   of the tasks sent to it.  Channel errors during tear down, the u64 overflow of pending_id and
   poisoned locks are left out.  Prio is the type used by src/search.rs:28. *)
From Coq Require Import List Arith Bool Lia.
Import ListNotations.
From Verif Require Import Spec.

(* src/search.rs:28 type Prio; the keys (Prio, usize) of the map (23) *)
Definition Prio := (nat * nat * nat)%type.
(* thread_pool.rs:23 the keys of the map *)
Definition Key := (Prio * nat)%type.

(* the derived orders of the tuples (thread_pool.rs:23) *)
Definition then_cmp (c d : comparison) : comparison := match c with Eq => d | _ => c end.
(* Ord of (usize, usize, u8) *)
Definition prio_cmp (p q : Prio) : comparison :=
  let '(a, b, c) := p in let '(a', b', c') := q in
  then_cmp (a ?= a') (then_cmp (b ?= b') (c ?= c')).
(* Ord of (Prio, usize) (thread_pool.rs:23, search.rs:28) *)
Definition key_cmp (k l : Key) : comparison := then_cmp (prio_cmp (fst k) (fst l)) (snd k ?= snd l).

(* an entry of the channel and of the map (23, 29): a key and a weak reference to the cell of a task *)
Definition Entry := (Key * nat)%type.

(* 175 BTreeMap::insert, the map as the list of its entries in order *)
Fixpoint map_insert (e : Entry) (q : list Entry) : list Entry :=
  match q with
  | [] => [e]
  | x :: r => match key_cmp (fst e) (fst x) with
              | Lt => e :: q
              | Eq => e :: r
              | Gt => x :: map_insert e r
              end
  end.

(* 39-41 the cell of a task: whether task is still there, and how many Schedule share it *)
Record Cell := mkCell { waiting : bool; owners : nat }.

(* where the worker that holds the lock of Pending is (thread_pool.rs:152-190) *)
Inductive Worker :=
| WFree                                                        (* nobody holds it *)
| WDrain (limit counter : nat)                                 (* 157 *)
| WGc (kept todo : list Entry) (msg : Entry) (limit counter : nat)       (* 161-170, the filter *)
| WGcHold (kept : list Entry) (e : Entry) (todo : list Entry) (msg : Entry) (limit counter : nat) (* 165 *)
| WTake                                                        (* 182 *)
| WTakeHold (e : Entry).                                       (* 185 *)

(* 20-31 the shared data *)
Record Pool := mkPool {
  cells : list Cell;
  ids : nat;                   (* pending_id *)
  sending : list Entry;        (* add_pending between 117 and 121 *)
  chan : list Entry;           (* pending_queue *)
  queue : list Entry;          (* pending.queue *)
  next_gc : nat;
  runq : list nat;             (* queue *)
  worker : Worker }.

(* 131-144 *)
Definition pool_new : Pool := mkPool [] 0 [] [] [] 0 [] WFree.

(* what a step shows (thread_pool.rs:42-55, 116-122, 152-190) *)
Inductive Event :=
| EvNone
| EvAdded (e : Entry)                (* an entry was sent to the pending channel *)
| EvStarted (t : nat)                (* a call of schedule returned true *)
| EvRefused (t : nat)                (* a call of schedule returned false *)
| EvLock                             (* a worker took the lock of Pending *)
| EvTaken (e : Entry).               (* a worker started the task of e; schedule returned true *)

(* the fields changed by the steps (thread_pool.rs:37-50) *)
Definition set_cells (p : Pool) c := mkPool c (ids p) (sending p) (chan p) (queue p) (next_gc p) (runq p) (worker p).
(* sending and pending_id (thread_pool.rs:117, 120) *)
Definition set_sending (p : Pool) i s := mkPool (cells p) i s (chan p) (queue p) (next_gc p) (runq p) (worker p).
(* the channel (thread_pool.rs:120, 157) *)
Definition set_chan (p : Pool) s c := mkPool (cells p) (ids p) s c (queue p) (next_gc p) (runq p) (worker p).
(* what a worker with the lock changes (thread_pool.rs:152-190) *)
Definition set_worker (p : Pool) c q n w := mkPool (cells p) (ids p) (sending p) c q n (runq p) w.
(* 45, 102 take and send to the run queue *)
Definition start (p : Pool) (t : nat) (w : Worker) : Pool :=
  mkPool (match nth_error (cells p) t with Some c => upd (cells p) t (mkCell false (owners c)) | None => cells p end)
    (ids p) (sending p) (chan p) (queue p) (next_gc p) (runq p ++ [t]) w.

(* 163, 184 upgrade succeeds; a worker that already holds a reference upgrades no other *)
Definition alive (p : Pool) (t : nat) : bool := match nth_error (cells p) t with Some c => 0 <? owners c | None => false end.
(* 53 not is_scheduled; 44 the test of schedule *)
Definition is_waiting (p : Pool) (t : nat) : bool := match nth_error (cells p) t with Some c => waiting c | None => false end.

(* 175-179 insert the entry and count *)
Definition do_insert (p : Pool) (q : list Entry) (gc : nat) (msg : Entry) (limit counter : nat) : Pool :=
  set_worker p (chan p) (map_insert msg q) gc
    (if limit <=? S counter then WTake else WDrain limit (S counter)).

(* one step (thread_pool.rs:42-55, 83-122, 152-190) *)
Inductive pstep : Pool -> Event -> Pool -> Prop :=
(* 83-114 spawn_delayed (spawn, 74-81, calls schedule afterwards) *)
| ESpawn p : pstep p EvNone (set_cells p (cells p ++ [mkCell true 1]))
(* 37 derive(Clone) *)
| EClone p t c : nth_error (cells p) t = Some c -> 0 < owners c ->
    pstep p EvNone (set_cells p (upd (cells p) t (mkCell (waiting c) (S (owners c)))))
(* a Schedule is dropped *)
| EDrop p t c : nth_error (cells p) t = Some c -> 0 < owners c ->
    pstep p EvNone (set_cells p (upd (cells p) t (mkCell (waiting c) (owners c - 1))))
(* 43-50 schedule by the owner of a Schedule *)
| EStart p t : alive p t = true -> is_waiting p t = true -> pstep p (EvStarted t) (start p t (worker p))
| ERefuse p t : alive p t = true -> is_waiting p t = false -> pstep p (EvRefused t) p
(* 116-122 add_pending *)
| EId p prio t : alive p t = true -> pstep p EvNone (set_sending p (S (ids p)) (((prio, ids p), t) :: sending p))
| ESend p a e b : sending p = a ++ e :: b -> pstep p (EvAdded e) (set_chan p (a ++ b) (chan p ++ [e]))
(* 152-156 *)
| WLock p : worker p = WFree -> pstep p EvLock (set_worker p (chan p) (queue p) (next_gc p) (WDrain (length (chan p) * 2) 0))
(* 157 the channel is empty *)
| WEmpty p l n : worker p = WDrain l n -> chan p = [] -> pstep p EvNone (set_worker p [] (queue p) (next_gc p) WTake)
(* 157-158, 175-179 without garbage collection *)
| WRecv p l n e r : worker p = WDrain l n -> chan p = e :: r -> length (queue p) < next_gc p ->
    pstep p EvNone (do_insert (set_worker p r (queue p) (next_gc p) (worker p)) (queue p) (next_gc p) e l n)
(* 157-159 with garbage collection *)
| WRecvGc p l n e r : worker p = WDrain l n -> chan p = e :: r -> next_gc p <= length (queue p) ->
    pstep p EvNone (set_worker p r [] (next_gc p) (WGc [] (queue p) e l n))
(* 163, 167 *)
| WGcDead p k e r m l n : worker p = WGc k (e :: r) m l n -> alive p (snd e) = false ->
    pstep p EvNone (set_worker p (chan p) (queue p) (next_gc p) (WGc k r m l n))
(* 163 *)
| WGcAlive p k e r m l n : worker p = WGc k (e :: r) m l n -> alive p (snd e) = true ->
    pstep p EvNone (set_worker p (chan p) (queue p) (next_gc p) (WGcHold k e r m l n))
(* 164 *)
| WGcTest p k e r m l n : worker p = WGcHold k e r m l n ->
    pstep p EvNone (set_worker p (chan p) (queue p) (next_gc p) (WGc (if is_waiting p (snd e) then k ++ [e] else k) r m l n))
(* 161, 172-179 *)
| WGcDone p k m l n : worker p = WGc k [] m l n ->
    pstep p EvNone (do_insert p k (Nat.max (length k) 5000 * 2) m l n)
(* 182-184 *)
| WTakeDead p e r : worker p = WTake -> queue p = e :: r -> alive p (snd e) = false ->
    pstep p EvNone (set_worker p (chan p) r (next_gc p) WTake)
| WTakeAlive p e r : worker p = WTake -> queue p = e :: r -> alive p (snd e) = true ->
    pstep p EvNone (set_worker p (chan p) r (next_gc p) (WTakeHold e))
(* 185-187 *)
| WTakeStart p e : worker p = WTakeHold e -> is_waiting p (snd e) = true -> pstep p (EvTaken e) (start p (snd e) WFree)
| WTakeRefuse p e : worker p = WTakeHold e -> is_waiting p (snd e) = false ->
    pstep p (EvRefused (snd e)) (set_worker p (chan p) (queue p) (next_gc p) WTake)
(* 182, 191 the map is empty *)
| WTakeNone p : worker p = WTake -> queue p = [] -> pstep p EvNone (set_worker p (chan p) [] (next_gc p) WFree).

(* an execution from the start, with what it showed (thread_pool.rs:83-204) *)
Inductive prun : list Event -> Pool -> Prop :=
| prun_new : prun [] pool_new
| prun_step tr p ev p' : prun tr p -> pstep p ev p' -> prun (tr ++ [ev]) p'.
