(* Independent specification.  Nothing in this file refers to the model of the code.

   The numbers the program prints are sizes of comparator networks, so the specification is the
   textbook one: 0/1 vectors, comparators, networks, sorting, and the least number of comparators
   that still have to be appended to a set of vectors.                                           *)
From Coq Require Import List Arith Bool Lia Permutation.
Import ListNotations.

(* ---------- 0/1 vectors ---------- *)

Definition vec := list bool.

Definition bit (x : vec) (i : nat) : bool := nth i x false.

(* number of ones *)
Fixpoint weight (x : vec) : nat :=
  match x with
  | [] => 0
  | b :: r => (if b then 1 else 0) + weight r
  end.

Fixpoint upd {A : Type} (l : list A) (i : nat) (v : A) : list A :=
  match l, i with
  | [], _ => []
  | _ :: r, 0 => v :: r
  | a :: r, S k => a :: upd r k v
  end.

(* ---------- comparators and networks ---------- *)

(* [(lo, hi)]: the smaller value leaves on channel lo, the larger one on channel hi. Both directions
   are allowed. *)
Definition comparator : Type := nat * nat.

Definition cmp_ok (n : nat) (c : comparator) : Prop :=
  fst c < n /\ snd c < n /\ fst c <> snd c.

Definition exch (c : comparator) (x : vec) : vec :=
  let a := bit x (fst c) in
  let b := bit x (snd c) in
  upd (upd x (fst c) (a && b)) (snd c) (a || b).

Definition network := list comparator.

Definition net_ok (n : nat) (net : network) : Prop := Forall (cmp_ok n) net.

Definition run (net : network) (x : vec) : vec := fold_left (fun y c => exch c y) net x.

Definition sorted (x : vec) : Prop :=
  forall i j, i <= j -> j < length x -> bit x i = true -> bit x j = true.

(* A network on n channels that sorts every 0/1 input. *)
Definition sorts01 (n : nat) (net : network) : Prop :=
  net_ok n net /\ forall x, length x = n -> sorted (run net x).

(* The same for inputs that are arbitrary numbers. *)
Definition exchN (c : comparator) (x : list nat) : list nat :=
  let a := nth (fst c) x 0 in
  let b := nth (snd c) x 0 in
  upd (upd x (fst c) (Nat.min a b)) (snd c) (Nat.max a b).

Definition runN (net : network) (x : list nat) : list nat := fold_left (fun y c => exchN c y) net x.

Definition sortedN (x : list nat) : Prop :=
  forall i j, i <= j -> j < length x -> nth i x 0 <= nth j x 0.

Definition sorting_network (n : nat) (net : network) : Prop :=
  net_ok n net /\ forall x, length x = n -> sortedN (runN net x).

(* k is the least number of comparators of a sorting network on n channels. *)
Definition minimal_size (n k : nat) : Prop :=
  (exists net, sorting_network n net /\ length net = k) /\
  (forall net, sorting_network n net -> k <= length net).

(* ---------- sets of vectors ---------- *)

Definition vset := vec -> Prop.

Definition all_inputs (n : nat) : vset := fun x => length x = n.

Definition image (f : vec -> vec) (V : vset) : vset := fun y => exists x, V x /\ y = f x.

Definition subset (V W : vset) : Prop := forall x, V x -> W x.

Definition same_set (V W : vset) : Prop := forall x, V x <-> W x.

(* At most one vector of each weight: the outputs are sorted up to naming the channels. *)
Definition one_per_weight (V : vset) : Prop :=
  forall x y, V x -> V y -> weight x = weight y -> x = y.

Definition finishes (n : nat) (V : vset) (net : network) : Prop :=
  net_ok n net /\ one_per_weight (image (run net) V).

(* Every way of finishing V uses at least k comparators. *)
Definition lower_bound (n : nat) (V : vset) (k : nat) : Prop :=
  forall net, finishes n V net -> k <= length net.

(* V can be finished with at most k comparators. *)
Definition upper_bound (n : nat) (V : vset) (k : nat) : Prop :=
  exists net, finishes n V net /\ length net <= k.

Definition optimum (n : nat) (V : vset) (k : nat) : Prop :=
  lower_bound n V k /\ upper_bound n V k.

(* ---------- symmetries ---------- *)

Definition is_perm (n : nat) (p : list nat) : Prop := Permutation p (seq 0 n).

(* channel i of the result is channel p[i] of the argument *)
Definition permute (p : list nat) (x : vec) : vec := map (bit x) p.

Definition complement (x : vec) : vec := map negb x.

Definition complement_if (b : bool) (x : vec) : vec := if b then complement x else x.

(* V is carried into W by a relabelling of the channels (and complement, if inv). *)
Definition subsumes_by (inv : bool) (p : list nat) (V W : vset) : Prop :=
  forall x, V x -> W (permute p (complement_if inv x)).

Definition isomorphic_by (inv : bool) (p : list nat) (V W : vset) : Prop :=
  same_set W (image (fun x => permute p (complement_if inv x)) V).

(* The sets that can arise from all 0/1 inputs by comparators, relabelling and complement. *)
Inductive derived (n : nat) : vset -> Prop :=
| derived_all V : same_set V (all_inputs n) -> derived n V
| derived_exch V W c : derived n V -> cmp_ok n c -> same_set W (image (exch c) V) -> derived n W
| derived_sym V W inv p : derived n V -> is_perm n p -> isomorphic_by inv p V W -> derived n W.

(* ---------- deleting a channel ---------- *)

Fixpoint del {A : Type} (i : nat) (x : list A) : list A :=
  match x, i with
  | [], _ => []
  | _ :: r, 0 => r
  | a :: r, S k => a :: del k r
  end.

(* ---------- extremal members and what is reachable from them ---------- *)

(* the vector with value (negb pol) on channel c and pol everywhere else *)
Definition lone (n : nat) (pol : bool) (c : nat) : vec := upd (repeat pol n) c (negb pol).

(* reachable from x0 by flipping coordinates one at a time from pol to (negb pol) without leaving V *)
Inductive flip_reach (V : vset) (pol : bool) (x0 : vec) : vec -> Prop :=
| flip_start : V x0 -> flip_reach V pol x0 x0
| flip_step x i : flip_reach V pol x0 x -> i < length x -> bit x i = pol ->
    V (upd x i (negb pol)) -> flip_reach V pol x0 (upd x i (negb pol)).

(* ---------- cardinality ---------- *)

(* V has exactly k elements *)
Definition card (V : vset) (k : nat) : Prop :=
  exists l, NoDup l /\ (forall x, In x l <-> V x) /\ length l = k.

(* ---------- binary trees for the Huffman property ---------- *)

Inductive tree : Type :=
| Leaf (v : nat)
| Node (l r : tree).

Fixpoint leaves (t : tree) : list nat :=
  match t with
  | Leaf v => [v]
  | Node l r => leaves l ++ leaves r
  end.

(* max over the leaves of (depth of the leaf + its value) *)
Fixpoint cost (t : tree) : nat :=
  match t with
  | Leaf v => v
  | Node l r => S (Nat.max (cost l) (cost r))
  end.
