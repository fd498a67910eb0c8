(* Model of the gnp command, src/bin/sortnetopt.rs:136-186 (line numbers without a file name refer to it).

   The order in which a HashSet is drained depends on its hash function and its history; here it is an
   argument that may be different for every drain.  The graphviz output (178-184) is in DotModel.v.  A panic and
   a lack of fuel are None.  The result is what is logged at 174. *)
From Coq Require Import List Arith Bool.
Import ListNotations.
From Verif Require Import Spec Util OutputSetModel CanonModel TreeModel IndexModel SearchModel.

(* 161 HashSet::insert, the elements in the order of their insertion *)
Definition hs_insert (x : OutputSet) (l : list OutputSet) : list OutputSet :=
  if existsb (fun y => os_eqb y x) l then l else l ++ [x].

Section Gnp.
Variable chash : list nat -> nat.                                       (* FxHasher in canonicalize *)
Variable drain : nat -> nat -> list OutputSet -> list OutputSet.        (* the order of the drain of 166 in a layer, by the number of the layer and of the set *)

(* 158-162 the loop body *)
Definition gnp_try (s : OutputSet) (acc : list OutputSet) (ij : nat * nat) : option (list OutputSet) :=
  let '(t, changed) := apply_comparator s (fst ij) (snd ij) in
  if changed then (r <- canonicalize chash t false ;; Some (hs_insert (fst r) acc)) else Some acc.

(* 156-164 the set next_output_sets after the loops over i and j *)
Definition gnp_nexts (n : nat) (s : OutputSet) : option (list OutputSet) := fold_opt (gnp_try s) (pairs n) [].

(* 167-168 the loop body *)
Definition gnp_insert (next : Index) (t : OutputSet) : option Index :=
  r <- insert next t (abstraction t) 0 ;; Some (fst r).

(* 155-170 the closure; the number of the set is counted for drain *)
Definition gnp_set (n count : nat) (acc : nat * Index) (s : OutputSet) : option (nat * Index) :=
  l <- gnp_nexts n s ;;
  next <- fold_opt gnp_insert (drain count (fst acc) l) (snd acc) ;;
  Some (S (fst acc), next).

(* 151-170 *)
Definition gnp_layer (n count : nat) (layer : Index) : option Index :=
  sets <- for_each layer ;;
  r <- fold_opt (gnp_set n count) (map (fun x => fst (fst x)) sets) (0, index_new Lower n) ;;
  Some (snd r).

(* 150-185; the result is the list of layer_count and next_layer.len() *)
Fixpoint gnp_loop (fuel n count : nat) (layer : Index) : option (list (nat * nat)) :=
  if index_is_empty layer then Some [] else
  match fuel with
  | 0 => None
  | S f => next <- gnp_layer n count layer ;; rest <- gnp_loop f n (S count) next ;; Some ((S count, index_len next) :: rest)
  end.

(* 136-186 cmd_gnp *)
Definition cmd_gnp (fuel n : nat) : option (list (nat * nat)) :=
  if n <=? MAX_CHANNELS then
    r <- insert (index_new Lower n) (all_values n) (abstraction (all_values n)) 0 ;;
    gnp_loop fuel n 0 (fst r)
  else None.
End Gnp.
