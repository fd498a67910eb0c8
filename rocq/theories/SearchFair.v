(* Fair executions of the search of SearchModel: which tasks may go on, and which executions never leave
   such a task out for ever. *)
From Coq Require Import List Arith Bool.
Import ListNotations.
From Verif Require Import OutputSetModel StatesModel SearchModel.

Section Fair.
Variables chash mhash : list nat -> nat.   (* FxHasher in canonicalize and in StateMap *)

(* search.rs:455 pending!(): the task is polled again after a waker it left with a handle was called;
   the handles were polled at search.rs:431, and a handle (thread_pool.rs:57-65, the JoinHandle of
   async_task) calls its waker when its task is finished.
   A frame at another place does not need a waker, or needs the one of a lock, which is part of
   task_step (RWait). *)
Definition awake (c : Config) (f : Frame) : Prop :=
  match f with
  | FImp _ _ (INext _ _ e NPend) | FHuff _ (HNext _ _ _ _ _ e NPend) =>
      exists id x u y, In id (active e) /\ nth_error (targets e) id = Some x /\ tg_run x = Some u /\
        nth_error (g_tasks c) u = Some y /\ tk_result y <> None
  | _ => True
  end.

(* thread_pool.rs:147-149, 193-195: the task may be run by a worker, or it was cancelled
   (thread_pool.rs:67-71) and its future is to be dropped *)
Definition enabled (c : Config) (t : nat) : Prop :=
  (exists x f rest c', nth_error (g_tasks c) t = Some x /\ tk_stack x = f :: rest /\ awake c f /\ task_step chash mhash c t = Stepped c') \/
  (exists c', drop_frame mhash c t = Stepped c').

(* thread_pool.rs:147-149, 193-195: a step of task t *)
Definition moves (c : Config) (t : nat) (c' : Config) : Prop :=
  task_step chash mhash c t = Stepped c' \/ drop_frame mhash c t = Stepped c'.

(* an execution (search.rs:31-78); it may stay in a configuration, in particular after its last step *)
Definition execution (run : nat -> Config) : Prop :=
  forall i, run (S i) = run i \/ sys_step chash mhash (run i) (run (S i)).

(* no task may go on from some time on without ever making a step (thread_pool.rs:137-200, the loop of the workers) *)
Definition fair (run : nat -> Config) : Prop :=
  forall t i, exists j, i <= j /\ (moves (run j) t (run (S j)) \/ ~ enabled (run j) t).
End Fair.
