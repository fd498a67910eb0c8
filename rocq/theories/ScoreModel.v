(* src/output_set/canon.rs: the score of a candidate as the code stores it, with the complement of a
   machine word.  CanonModel.v keeps max_partition_size and reverses the order on it instead.

   Simplification.  The complement is taken where the score is read (canon.rs:17-23) and not where it is
   stored (canon.rs:40).  The only reader is prune_using_fingerprints, and it runs only after
   initialize_partitions or refine, which end with sort_partition on every candidate of the layer; so the
   score of canon.rs:135 (Default) is never read.  The other steps are those of CanonModel.v. *)
From Coq Require Import List Arith Bool ZArith.
Import ListNotations.
From Verif Require Import Spec Util OutputSetModel SubsumeModel CanonModel.

(* src/output_set/canon.rs:40 "!max_partition_size" of a usize of 64 bits *)
Definition not64 (x : nat) : Z := (Z.lnot (Z.of_nat x) mod 2 ^ 64)%Z.

(* src/output_set/canon.rs:17-23, 40 score: the tuple read by the comparisons *)
Definition score64 (c : Cand) : nat * Z * list nat :=
  (fst (c_score c), not64 (snd (c_score c)), c_fp c).

(* src/output_set/canon.rs:230, 237 the order of the tuples (usize, usize, &[u64]) *)
Definition tuple_cmp (a b : nat * Z * list nat) : comparison :=
  match Nat.compare (fst (fst a)) (fst (fst b)) with
  | Eq => match Z.compare (snd (fst a)) (snd (fst b)) with
          | Eq => list_cmp Nat.compare (snd a) (snd b)
          | c => c
          end
  | c => c
  end.

(* min_by with "data[b].score().cmp(&data[a].score())": the second is taken when the comparison of the
   first with it gives Greater (src/output_set/canon.rs:226-231) *)
Definition best_score64 (c : Cand) (l : list Cand) : Cand :=
  fold_left (fun m x => match tuple_cmp (score64 x) (score64 m) with Gt => x | _ => m end) l c.

(* src/output_set/canon.rs:224-244 prune_using_fingerprints *)
Definition prune_using_fingerprints64 (z : Canonicalize) : option Canonicalize :=
  match z_layer z with
  | [] => None
  | c :: r =>
      let m := best_score64 c r in
      Some (mkCanonicalize (z_used z) (z_fixed z)
        (filter (fun x => match tuple_cmp (score64 x) (score64 m) with Eq => true | _ => false end) (z_layer z)))
  end.

(* src/output_set/canon.rs:167-185 the loop *)
Fixpoint canon_loop64 (hash : list nat -> nat) (fuel : nat) (z : Canonicalize) : option Canonicalize :=
  match fuel with
  | 0 => None
  | S f =>
      bind (prune_using_fingerprints64 z) (fun z1 =>
      bind (move_singletons (S (z_used z)) false z1) (fun r =>
      bind (if fst r then prune hash true (snd r) else Some (snd r)) (fun z2 =>
      if z_fixed z2 =? z_used z2 then Some z2 else
      bind (individualize hash z2) (fun z3 =>
      bind (prune hash false z3) (fun z4 =>
      if z_fixed z4 =? z_used z4 then Some z4 else
      bind (refine hash z4) (canon_loop64 hash f))))))
  end.

(* src/output_set/canon.rs:163-190 canonicalize; None: layer[0] of an empty layer *)
Definition canon_run64 (hash : list nat -> nat) (z : Canonicalize) : option Cand :=
  bind (if 0 <? z_used z
        then bind (initialize_partitions z) (canon_loop64 hash (S (z_used z)))
        else Some z)
       (fun z' => match z_layer z' with [] => None | c :: _ => Some c end).

(* src/output_set.rs:627-639 canonicalize *)
Definition canonicalize64 (hash : list nat -> nat) (s : OutputSet) (inversion : bool)
  : option (OutputSet * (bool * list nat)) :=
  if channels s =? 0 then Some (s, (false, seq 0 0)) else
  option_map (fun c => (c_set c, (c_invert c, c_perm c))) (canon_run64 hash (canon_new s inversion)).
