(* A search that is killed while it writes its log (src/search.rs:80-107). *)
From Coq Require Import List Arith Bool.
Import ListNotations.
From Verif Require Import Spec Util OutputSetModel StatesModel FileModel LogModel.

(* search.rs:80-107 the files when dump_states is stopped at any time.  Every file has a BufWriter of its own, which writes when
   its buffer is full or at the end, so some files may already be complete while others are still empty: each file is as
   before (it has not been created yet), or the beginning of what it is after a complete run. *)
Definition stopped_dump (m : StateMap) (fs0 fs : Fs) : Prop :=
  forall name, fs name = fs0 name \/ exists k data, dump_states m fs0 name = Some data /\ fs name = Some (firstn k data).
