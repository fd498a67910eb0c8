(* What the index of index.rs is meant to store and answer, independent of trees, ranges and abstractions. *)
From Coq Require Import List Arith Bool Lia Permutation.
Import ListNotations.
From Verif Require Import Spec OutputSetModel OutputSetProofs IndexModel.

(* w = (complemented, permutation) shows that the value stored for c is also a bound for l.  A lower bound of c
   is one of l when c subsumes l; an upper bound of c is one of l when l subsumes c. *)
Definition valid (d : Dir) (c l : OutputSet) (w : bool * list nat) : Prop :=
  is_perm (channels c) (snd w) /\
  match d with
  | Lower => fst w = false /\ subsumes_by false (snd w) (vs c) (vs l)
  | LowerInvert => subsumes_by (fst w) (snd w) (vs c) (vs l)
  | Upper => fst w = false /\ subsumes_by false (snd w) (vs l) (vs c)
  end.

Definition covers (d : Dir) (c l : OutputSet) : Prop := exists w, valid d c l w.

(* v is at least as good as w *)
Definition better (d : Dir) (v w : nat) : Prop := match d with Upper => v <= w | _ => w <= v end.

(* the best value among the entries of L that apply to s *)
Definition best_for (d : Dir) (L : list (OutputSet * nat)) (s : OutputSet) (r : option nat) : Prop :=
  match r with
  | None => forall c v, In (c, v) L -> ~ covers d c s
  | Some b => (exists c, In (c, b) L /\ covers d c s) /\ (forall c v, In (c, v) L -> covers d c s -> better d b v)
  end.

(* the entry (c, w) says nothing that (s, v) does not say *)
Definition dominated (d : Dir) (s : OutputSet) (v : nat) (x : OutputSet * nat) : Prop :=
  covers d s (fst x) /\ better d v (snd x).

(* the entries, as seen through for_each *)
Definition contents (ix : Index) : option (list (OutputSet * nat)) :=
  option_map (map (fun x : OutputSet * list nat * nat => (fst (fst x), snd x))) (for_each ix).

(* the number of entries of the set s *)
Definition occurrences (s : OutputSet) (M : list (OutputSet * nat)) : nat := length (filter (fun x => os_eqb (fst x) s) M).

(* an index built by any sequence of insertions of sets of the right size, with their abstractions; H is what was
   inserted.  checked says that only insert_with_abstraction was used.  After unchecked insertions the index may
   hold a set twice, then insert_with_abstraction of that set can panic (C13_duplicates_panic). *)
Inductive reachable (d : Dir) (n : nat) : bool -> list (OutputSet * nat) -> Index -> Prop :=
| R_new checked : reachable d n checked [] (index_new d n)
| R_unchecked H ix s v ix' : reachable d n false H ix -> wf s -> channels s = n ->
    insert_new_unchecked ix s (abstraction s) v = Some ix' -> reachable d n false ((s, v) :: H) ix'
| R_insert checked H ix s v ix' r : reachable d n checked H ix -> wf s -> channels s = n ->
    (checked = true \/ exists M, contents ix = Some M /\ occurrences s M <= 1) ->
    insert ix s (abstraction s) v = Some (ix', r) -> reachable d n checked ((s, v) :: H) ix'.
