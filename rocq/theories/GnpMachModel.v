(* The gnp command once more, src/bin/sortnetopt.rs:136-186 (line numbers without a file name refer to it), on the parts of the
   checked models: the sets are those of MachineModel (an index out of range, a vector that is too small and a failing assertion
   are None), canonicalize is the one of CanonMachModel, and the index is the one of FlatModel and IndexMachModel, with its flat
   vectors and its shared bitmap.  Simplifications: as in GnpModel.v. *)
From Coq Require Import List Arith Bool.
Import ListNotations.
From Verif Require Import Spec Util OutputSetModel CanonModel TreeModel IndexModel SearchModel FlatModel MachineModel CanonMachModel IndexMachModel GnpModel.

Section Gnp.
Variable chash : list nat -> nat.                                       (* FxHasher in canonicalize (src/output_set/canon.rs) *)
Variable drain : nat -> nat -> list OutputSet -> list OutputSet.        (* the order of the drain of 166, as in GnpModel.v *)

(* 158-162 the loop body *)
Definition gnp_try_m (s : OutputSet) (acc : list OutputSet) (ij : nat * nat) : option (list OutputSet) :=
  r <- apply_comparator_c s (fst ij) (snd ij) ;;
  let '(t, changed) := r in
  if changed then (r <- mach_canonicalize chash t false ;; Some (hs_insert (fst r) acc)) else Some acc.

(* 156-164 the set next_output_sets after the loops over i and j *)
Definition gnp_nexts_m (n : nat) (s : OutputSet) : option (list OutputSet) := fold_opt (gnp_try_m s) (pairs n) [].

(* 167-168 the loop body *)
Definition gnp_insert_m (next : FIndex) (t : OutputSet) : option FIndex :=
  ab <- abstraction_c t ;; r <- mx_insert next t ab 0 ;; Some (fst r).

(* 155-170 the closure; the number of the set is counted for drain *)
Definition gnp_set_m (n count : nat) (acc : nat * FIndex) (s : OutputSet) : option (nat * FIndex) :=
  l <- gnp_nexts_m n s ;;
  next <- fold_opt gnp_insert_m (drain count (fst acc) l) (snd acc) ;;
  Some (S (fst acc), next).

(* 151-170 *)
Definition gnp_layer_m (n count : nat) (layer : FIndex) : option FIndex :=
  sets <- mx_for_each layer ;;
  r <- fold_opt (gnp_set_m n count) (map (fun x => fst (fst x)) sets) (0, fx_new Lower n) ;;
  Some (snd r).

(* 150-185; the result is the list of layer_count and next_layer.len() *)
Fixpoint gnp_loop_m (fuel n count : nat) (layer : FIndex) : option (list (nat * nat)) :=
  if fx_is_empty layer then Some [] else
  match fuel with
  | 0 => None
  | S f => next <- gnp_layer_m n count layer ;; rest <- gnp_loop_m f n (S count) next ;; Some ((S count, fx_len next) :: rest)
  end.

(* 136-186 cmd_gnp *)
Definition cmd_gnp_m (fuel n : nat) : option (list (nat * nat)) :=
  if n <=? MAX_CHANNELS then
    initial <- all_values_c n ;;
    ab <- abstraction_c initial ;;
    r <- mx_insert (fx_new Lower n) initial ab 0 ;;
    gnp_loop_m fuel n 0 (fst r)
  else None.
End Gnp.
