(* Model of /repo/src/huffman.rs. *)
From Coq Require Import List Arith Bool Lia.
Import ListNotations.
From Verif Require Import Util.

(* u8::MAX *)
Definition U8_MAX : nat := 255.

(* src/huffman.rs:6-13 the while loop.  The BinaryHeap<Reverse<u8>> is represented by the ascending list
   of its elements: pop removes the head, push inserts in order.  None is the overflow of the u8
   addition in line 8 (a panic in debug builds) or exhausted fuel. *)
Fixpoint huffman_loop (fuel : nat) (heap : list nat) : option nat :=
  match fuel with
  | 0 => None
  | S f =>
      match heap with
      | [] => Some 0
      | [first] => Some first
      | first :: second :: rest =>
          let v := Nat.max first second + 1 in
          if U8_MAX <? v then None else huffman_loop f (insert_sorted Nat.leb v rest)
      end
  end.

(* src/huffman.rs:3-14 max_plus_1_huffman *)
Definition max_plus_1_huffman (values : list nat) : option nat :=
  huffman_loop (S (length values)) (isort Nat.leb values).
