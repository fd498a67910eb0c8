(* Model of the search command, src/bin/sortnetopt.rs:101-114 (line numbers without a file name refer to it).

   The parsing of the command line and the log lines are left out.  A panic is None.  The flag debug says
   whether the program was built with debug assertions and overflow checks (not in a release build). *)
From Coq Require Import List Arith Bool.
Import ListNotations.
From Verif Require Import Spec Util OutputSetModel TreeModel StatesModel SearchModel.

(* 106-107 chunks(2) and the accesses pair[0], pair[1]; the last chunk of a list of odd length has no pair[1] *)
Fixpoint chunks2 (l : list nat) : option (list (nat * nat)) :=
  match l with
  | [] => Some []
  | [_] => None
  | a :: b :: r => c <- chunks2 r ;; Some ((a, b) :: c)
  end.

(* the debug assertions of src/output_set.rs:569-571 *)
Definition pair_valid (n : nat) (ab : nat * nat) : bool := negb (fst ab =? snd ab) && (fst ab <? n) && (snd ab <? n).

(* 107 apply_comparator (src/output_set.rs:568-597); in a release build the shifts of src/output_set.rs:573-574
   use the shift distance modulo 64, in a debug build the assertions come first *)
Definition apply_pair (debug : bool) (s : OutputSet) (ab : nat * nat) : option OutputSet :=
  if debug then
    if pair_valid (channels s) ab then Some (fst (apply_comparator s (fst ab) (snd ab))) else None
  else Some (fst (apply_comparator s (fst ab mod 64) (snd ab mod 64))).

(* 104-108 and src/search.rs:40: the set the search starts with.  to_owned_bvec panics if the bitmap does not fit
   into an array for MAX_CHANNELS channels. *)
Definition cmd_initial (debug : bool) (n : nat) (prefix : list nat) : option OutputSet :=
  pairs <- chunks2 prefix ;;
  s <- fold_opt (apply_pair debug) pairs (all_values n) ;;
  if n <=? MAX_CHANNELS then Some s else None.

(* 101-114 cmd_search logs the result k *)
Definition cmd_search (chash mhash : list nat -> nat) (debug : bool) (threads n : nat) (limit : option nat) (prefix : list nat) (k : nat) : Prop :=
  exists initial c, cmd_initial debug n prefix = Some initial /\
    search_run chash mhash threads initial limit c /\ search_result c k.
