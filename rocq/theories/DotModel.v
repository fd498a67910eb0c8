(* The drawing of an index (src/output_set/index.rs:614-621, src/output_set/index/tree.rs:479-501) and the gnp command with the option
   that draws every layer (src/bin/sortnetopt.rs:136-186). *)
From Coq Require Import String List Arith Bool.
Import ListNotations.
From Verif Require Import Util OutputSetModel TreeModel IndexModel GnpModel FileModel.

(* tree.rs:488-489 writeln!, the line for one edge *)
Definition dot_line (tree id child : nat) : text :=
  str "  n" ++ show tree ++ str "_" ++ show id ++ str " -> n" ++ show tree ++ str "_" ++ show child ++ str ";" ++ [10].

(* tree.rs:481-500 the loop of dump_dot; a point is unreachable! (496-498).  Simplified: the text is returned instead of written,
   and no error of the writer. *)
Fixpoint tree_dump_f (fuel : nat) (t : Tree) (tree : nat) (st : TState) : option text :=
  match st with
  | TDone => Some []
  | TNode id =>
      match fuel with
      | 0 => None
      | S f =>
          nd <- nth_error (t_nodes t) id ;;
          match n_links nd with
          | Inner c0 c1 =>
              st' <- traversal_enter t true id ;;
              rest <- tree_dump_f f t tree st' ;;
              Some (dot_line tree id c0 ++ dot_line tree id c1 ++ rest)
          | Leaf _ _ =>
              st' <- traversal_skip t true id ;;
              tree_dump_f f t tree st'
          end
      end
  | TPoint _ _ => None
  end.
(* tree.rs:479-501 dump_dot of a tree, with fuel for every node *)
Definition tree_dump_dot (t : Tree) (tree : nat) : option text := tree_dump_f (length (t_nodes t)) t tree (traversal_root t).

(* index.rs:616-618 the loop over the trees with their numbers *)
Fixpoint trees_dump (tree : nat) (ts : list Tree) : option text :=
  match ts with
  | [] => Some []
  | t :: ts => out <- tree_dump_dot t tree ;; rest <- trees_dump (S tree) ts ;; Some (out ++ rest)
  end.
(* index.rs:614-621 dump_dot of an index *)
Definition dump_dot (ix : Index) : option text :=
  body <- trees_dump 0 (ix_trees ix) ;; Some (str "digraph {" ++ [10] ++ body ++ str "}" ++ [10]).

(* sortnetopt.rs:181 the format! of the name *)
Definition layer_name (count : nat) : text := str "_layer_" ++ show count ++ str ".dot".

Section GnpDot.
Variable chash : list nat -> nat.                                       (* as in GnpModel.v *)
Variable drain : nat -> nat -> list OutputSet -> list OutputSet.

(* sortnetopt.rs:150-185 with dump_index; the result is what is logged, as in GnpModel.v, and the names and contents of the files
   that are created at 181 *)
Fixpoint gnp_dot_loop (fuel n count : nat) (layer : Index) : option (list (nat * nat) * list (text * text)) :=
  if index_is_empty layer then Some ([], []) else
  match fuel with
  | 0 => None
  | S f =>
      next <- gnp_layer chash drain n count layer ;;
      dot <- dump_dot next ;;
      rest <- gnp_dot_loop f n (S count) next ;;
      Some ((S count, index_len next) :: fst rest, (layer_name (S count), dot) :: snd rest)
  end.

(* sortnetopt.rs:136-186 cmd_gnp with dump_index *)
Definition cmd_gnp_dot (fuel n : nat) : option (list (nat * nat) * list (text * text)) :=
  if n <=? MAX_CHANNELS then
    r <- insert (index_new Lower n) (all_values n) (abstraction (all_values n)) 0 ;;
    gnp_dot_loop fuel n 0 (fst r)
  else None.
End GnpDot.
