(* Model of /repo/checker/snocheck/src/Verified/Checker.hs, the checker run by "snocheck -v".

   Haskell Int and Integer wrappers: [Int] (a newtype of Integer) is Z, [Nat] is nat.  The checker is a
   lazy pure program; where it would raise (nth past the end of a list, the_elem of a non-singleton,
   the Nothing) the model continues with a default value.  A run of the checker that prints an answer
   raises nowhere in what it evaluates, and then the model computes the same answer, so the model
   accepts at least the certificates the program accepts. *)
From Coq Require Import List Arith Bool Lia ZArith.
Import ListNotations.
From Verif Require Import Spec.

(* checker/snocheck/src/Verified/Checker.hs:75 *)
Inductive Vect_trie : Type :=
| VtEmpty
| VtNode (here : bool) (lo hi : Vect_trie).

(* checker/snocheck/src/Verified/Checker.hs:79 ProofWitness step_id invert perm *)
Record Proof_witness : Type := ProofWitness {
  witness_step_id : Z; witness_invert : bool; witness_perm : list Z }.

(* checker/snocheck/src/Verified/Checker.hs:81-82 *)
Inductive Proof_step_witnesses : Type :=
| HuffmanWitnesses (pol : bool) (ws : list (option Proof_witness))
| SuccessorWitnesses (ws : list (option Proof_witness)).

(* checker/snocheck/src/Verified/Checker.hs:84 *)
Record Proof_step : Type := ProofStep {
  step_width : Z; step_vect_list : list (list bool); step_bound : Z; step_witnesses : Proof_step_witnesses }.

(* checker/snocheck/src/Verified/Checker.hs:86 *)
Record Proof_cert : Type := ProofCert { cert_length : Z; cert_step : Z -> Proof_step }.

(* checker/snocheck/src/Verified/Checker.hs:112-114 nth; False past the end, where Haskell raises *)
Definition hs_nth (xs : list bool) (n : nat) : bool := nth n xs false.

(* checker/snocheck/src/Verified/Checker.hs:116-117 upt *)
Definition upt (i j : nat) : list nat := seq i (j - i).

(* checker/snocheck/src/Verified/Checker.hs:119-121 fold *)
Fixpoint hs_fold {A B} (f : A -> B -> B) (l : list A) (s : B) : B :=
  match l with
  | [] => s
  | x :: xs => hs_fold f xs (f x s)
  end.

(* checker/snocheck/src/Verified/Checker.hs:126-128 member *)
Fixpoint hs_member (l : list nat) (y : nat) : bool :=
  match l with
  | [] => false
  | x :: xs => (x =? y) || hs_member xs y
  end.

(* checker/snocheck/src/Verified/Checker.hs:140-142 distinct *)
Fixpoint distinct (l : list nat) : bool :=
  match l with
  | [] => true
  | x :: xs => negb (hs_member xs x) && distinct xs
  end.

(* checker/snocheck/src/Verified/Checker.hs:148-156 list_vt_extend *)
Fixpoint list_vt_extend (t : Vect_trie) (el_prefix : list bool -> list bool) (suffix : list (list bool))
  : list (list bool) :=
  match t with
  | VtEmpty => suffix
  | VtNode true lo hi =>
      el_prefix [] ::
        list_vt_extend lo (fun a => el_prefix (false :: a))
          (list_vt_extend hi (fun a => el_prefix (true :: a)) suffix)
  | VtNode false lo hi =>
      list_vt_extend lo (fun a => el_prefix (false :: a))
        (list_vt_extend hi (fun a => el_prefix (true :: a)) suffix)
  end.

(* checker/snocheck/src/Verified/Checker.hs:158-159 list_vt *)
Definition list_vt (a : Vect_trie) : list (list bool) := list_vt_extend a (fun x => x) [].

(* checker/snocheck/src/Verified/Checker.hs:161-164 vt_singleton *)
Fixpoint vt_singleton (x : list bool) : Vect_trie :=
  match x with
  | [] => VtNode true VtEmpty VtEmpty
  | false :: xs => VtNode false (vt_singleton xs) VtEmpty
  | true :: xs => VtNode false VtEmpty (vt_singleton xs)
  end.

(* checker/snocheck/src/Verified/Checker.hs:166-171 vt_union *)
Fixpoint vt_union (a b : Vect_trie) : Vect_trie :=
  match a, b with
  | VtEmpty, _ => b
  | _, VtEmpty => a
  | VtNode x a_lo a_hi, VtNode y b_lo b_hi => VtNode (x || y) (vt_union a_lo b_lo) (vt_union a_hi b_hi)
  end.

(* checker/snocheck/src/Verified/Checker.hs:173-174 vt_list *)
Definition vt_list (ls : list (list bool)) : Vect_trie :=
  hs_fold (fun x t => vt_union (vt_singleton x) t) ls VtEmpty.

(* checker/snocheck/src/Verified/Checker.hs:180-184 list_update *)
Fixpoint list_update (xs : list bool) (i : nat) (y : bool) : list bool :=
  match xs, i with
  | [], _ => []
  | _ :: r, 0 => y :: r
  | x :: r, S k => x :: list_update r k y
  end.

(* checker/snocheck/src/Verified/Checker.hs:213-216 length_vt *)
Fixpoint length_vt (t : Vect_trie) : nat :=
  match t with
  | VtEmpty => 0
  | VtNode true lo hi => S (length_vt lo + length_vt hi)
  | VtNode false lo hi => length_vt lo + length_vt hi
  end.

(* checker/snocheck/src/Verified/Checker.hs:218-219 is_unsorted_vt *)
Definition is_unsorted_vt (n : nat) (a : Vect_trie) : bool := S n <? length_vt a.

(* checker/snocheck/src/Verified/Checker.hs:221-230 is_subset_vt *)
Fixpoint is_subset_vt (a b : Vect_trie) : bool :=
  match a, b with
  | VtEmpty, _ => true
  | VtNode true _ _, VtEmpty => false
  | VtNode false a_lo a_hi, VtEmpty => is_subset_vt a_lo VtEmpty && is_subset_vt a_hi VtEmpty
  | VtNode true _ _, VtNode false _ _ => false
  | VtNode _ a_lo a_hi, VtNode _ b_lo b_hi => is_subset_vt a_lo b_lo && is_subset_vt a_hi b_hi
  end.

(* checker/snocheck/src/Verified/Checker.hs:232-233 permute_list_vect *)
Definition permute_list_vect (ps : list nat) (xs : list bool) : list bool := map (hs_nth xs) ps.

(* checker/snocheck/src/Verified/Checker.hs:235-236 permute_vt *)
Definition permute_vt (ps : list nat) (a : Vect_trie) : Vect_trie :=
  vt_list (map (permute_list_vect ps) (list_vt a)).

(* checker/snocheck/src/Verified/Checker.hs:238-239 invert_vt *)
Definition invert_vt (z : bool) (a : Vect_trie) : Vect_trie :=
  if z then vt_list (map (map negb) (list_vt a)) else a.

(* checker/snocheck/src/Verified/Checker.hs:241-262 get_bound *)
Definition get_bound (proof_steps : Z -> Proof_step) (step_limit : Z) (w : option Proof_witness)
           (width : nat) (a : Vect_trie) : option nat :=
  match w with
  | None => Some (if is_unsorted_vt width a then 1 else 0)
  | Some witness =>
      let witness_id := witness_step_id witness in
      let perm := map Z.to_nat (witness_perm witness) in
      let step := proof_steps witness_id in
      let b_list := step_vect_list step in
      let b := vt_list b_list in
      let ba := permute_vt perm (invert_vt (witness_invert witness) b) in
      if negb ((0 <=? witness_id)%Z && (witness_id <? step_limit)%Z)
         || (negb (forallb (fun i => (0 <=? i) && (i <? width)) perm)
         || (negb (length perm =? width)
         || (negb (distinct perm)
         || (negb (forallb (fun xs : list bool => length xs =? width) b_list)
         || negb (is_subset_vt ba a)))))
      then None else Some (Z.to_nat (step_bound step))
  end.

(* checker/snocheck/src/Verified/Checker.hs:264-266 ocmp_list *)
Definition ocmp_list (n : nat) : list (nat * nat) :=
  flat_map (fun i => map (fun j => (j, i)) (upt 0 i)) (upt 0 n).

(* checker/snocheck/src/Verified/Checker.hs:280-285 is_redundant_cmp_vt *)
Definition is_redundant_cmp_vt (c : nat * nat) (a : Vect_trie) : bool :=
  let vs := list_vt a in
  negb (negb (forallb (fun x => negb (hs_nth x (fst c) && negb (hs_nth x (snd c)))) vs) &&
        negb (forallb (fun x => negb (negb (hs_nth x (fst c)) && hs_nth x (snd c))) vs)).

(* checker/snocheck/src/Verified/Checker.hs:287-292 apply_cmp_list *)
Definition apply_cmp_list (c : nat * nat) (xs : list bool) : list bool :=
  let xa := hs_nth xs (fst c) in
  let xb := hs_nth xs (snd c) in
  list_update (list_update xs (fst c) (xa && xb)) (snd c) (xa || xb).

(* checker/snocheck/src/Verified/Checker.hs:294-297 list_all2 *)
Fixpoint list_all2 {A B} (p : A -> B -> bool) (xs : list A) (ys : list B) : bool :=
  match xs, ys with
  | x :: xs, y :: ys => p x y && list_all2 p xs ys
  | [], [] => true
  | _, _ => false
  end.

(* checker/snocheck/src/Verified/Checker.hs:299-323 check_successors *)
Definition check_successors (proof_steps : Z -> Proof_step) (step_limit : Z) (step : Proof_step) : bool :=
  match step_witnesses step with
  | HuffmanWitnesses _ _ => false
  | SuccessorWitnesses witnesses =>
      let width := Z.to_nat (step_width step) in
      let bound := Z.to_nat (step_bound step) in
      let ocmps := ocmp_list width in
      let a_list := step_vect_list step in
      let a := vt_list a_list in
      let nrcmps := filter (fun c => negb (is_redundant_cmp_vt c a)) ocmps in
      let bs := map (fun c => vt_list (map (apply_cmp_list c) a_list)) nrcmps in
      negb (bound =? 0) &&
      is_unsorted_vt width a &&
      (length nrcmps =? length witnesses) &&
      forallb (fun xs : list bool => length xs =? width) a_list &&
      list_all2 (fun b w => match get_bound proof_steps step_limit w width b with
                            | None => false
                            | Some ba => bound <=? S ba
                            end) bs witnesses
  end.

(* checker/snocheck/src/Verified/Checker.hs:325-326 sucmax *)
Definition sucmax (a b : nat) : nat := S (Nat.max a b).

(* checker/snocheck/src/Verified/Checker.hs:328-331 sucmax_huffman_step_sorted_list; a multiset is the list of its elements *)
Definition sucmax_huffman_step_sorted_list (l : list nat) : list nat :=
  match l with
  | a1 :: a2 :: r => sucmax a1 a2 :: r
  | [] => []
  | [v] => [v]
  end.

(* checker/snocheck/src/Verified/Checker.hs:364-374 part, at key type Nat with the identity key *)
Fixpoint part (pivot : nat) (l : list nat) : list nat * (list nat * list nat) :=
  match l with
  | [] => ([], ([], []))
  | x :: xs =>
      let '(lts, (eqs, gts)) := part pivot xs in
      if x <? pivot then (x :: lts, (eqs, gts))
      else if pivot <? x then (lts, (eqs, x :: gts))
      else (lts, (x :: eqs, gts))
  end.

(* checker/snocheck/src/Verified/Checker.hs:379-393 sort_key (quicksort); fuel: the length of the list *)
Fixpoint sort_key (fuel : nat) (xs : list nat) : list nat :=
  match fuel with
  | 0 => []
  | S f =>
      match xs with
      | [] => []
      | [_] => xs
      | [x; y] => if x <=? y then xs else [y; x]
      | _ :: _ :: _ :: _ =>
          let '(lts, (eqs, gts)) := part (nth (length xs / 2) xs 0) xs in
          sort_key f lts ++ eqs ++ sort_key f gts
      end
  end.

(* checker/snocheck/src/Verified/Checker.hs:395-396 sorted_list_of_multiset *)
Definition sorted_list_of_multiset (l : list nat) : list nat := sort_key (S (length l)) l.

(* checker/snocheck/src/Verified/Checker.hs:410-417 sucmax_value_bound_huffman; None for the empty multiset, where mina of
   the empty set raises; fuel: the number of elements *)
Fixpoint sucmax_value_bound_huffman_f (fuel : nat) (a : list nat) : option nat :=
  match fuel with
  | 0 => None
  | S f =>
      if length a =? 0 then None
      else if length a - 1 =? 0 then hd_error a
      else sucmax_value_bound_huffman_f f (sucmax_huffman_step_sorted_list (sorted_list_of_multiset a))
  end.
(* checker/snocheck/src/Verified/Checker.hs:410-417, with fuel *)
Definition sucmax_value_bound_huffman (a : list nat) : option nat :=
  sucmax_value_bound_huffman_f (S (length a)) a.

(* checker/snocheck/src/Verified/Checker.hs:419-423 is_member_vt *)
Fixpoint is_member_vt (x : list bool) (t : Vect_trie) {struct t} : bool :=
  match t, x with
  | VtEmpty, _ => false
  | VtNode a _ _, [] => a
  | VtNode _ lo _, false :: xs => is_member_vt xs lo
  | VtNode _ _ hi, true :: xs => is_member_vt xs hi
  end.

(* checker/snocheck/src/Verified/Checker.hs:425-430 extremal_channels_vt *)
Definition extremal_channels_vt (a : Vect_trie) (n : nat) (pol : bool) : list nat :=
  filter (fun i => is_member_vt (map (fun j => negb (eqb (j =? i) pol)) (upt 0 n)) a) (upt 0 n).

(* checker/snocheck/src/Verified/Checker.hs:432-441 prune_extremal_vt *)
Fixpoint prune_extremal_vt (pol : bool) (i : nat) (t : Vect_trie) {struct t} : Vect_trie :=
  match t with
  | VtEmpty => VtEmpty
  | VtNode here lo hi =>
      match i with
      | 0 => if pol then lo else hi
      | S k => VtNode here (prune_extremal_vt pol k lo) (prune_extremal_vt pol k hi)
      end
  end.

(* checker/snocheck/src/Verified/Checker.hs:271-272 the; 0 for Nothing, where Haskell raises *)
Definition the (x : option nat) : nat := match x with Some v => v | None => 0 end.

(* checker/snocheck/src/Verified/Checker.hs:443-467 check_huffman (pred 0 loops in Haskell, but is not evaluated before the
   test that the width is not 0) *)
Definition check_huffman (proof_steps : Z -> Proof_step) (step_limit : Z) (step : Proof_step) : bool :=
  match step_witnesses step with
  | SuccessorWitnesses _ => false
  | HuffmanWitnesses pol witnesses =>
      let width := Z.to_nat (step_width step) in
      let widtha := Nat.pred width in
      let bound := Z.to_nat (step_bound step) in
      let a_list := step_vect_list step in
      let a := vt_list a_list in
      let extremal_channels := extremal_channels_vt a width pol in
      let bs := map (fun c => prune_extremal_vt pol c a) extremal_channels in
      let bounds := map (fun e => get_bound proof_steps step_limit (snd e) widtha (fst e))
                        (combine bs witnesses) in
      let huffman_bound := sucmax_value_bound_huffman (map the bounds) in
      negb (width =? 0) &&
      forallb (fun xs : list bool => length xs =? width) a_list &&
      negb (match witnesses with [] => true | _ => false end) &&
      (length extremal_channels =? length witnesses) &&
      forallb (fun b => match b with None => false | Some _ => true end) bounds &&
      match huffman_bound with Some h => bound <=? h | None => false end
  end.

(* checker/snocheck/src/Verified/Checker.hs:469-474 check_step *)
Definition check_step (proof_steps : Z -> Proof_step) (step_limit : Z) (step : Proof_step) : bool :=
  match step_witnesses step with
  | HuffmanWitnesses _ _ => check_huffman proof_steps step_limit step
  | SuccessorWitnesses _ => check_successors proof_steps step_limit step
  end.

(* checker/snocheck/src/Verified/Checker.hs:485-486 all_interval_nat; fuel: j - i *)
Fixpoint all_interval_nat_f (fuel : nat) (p : nat -> bool) (i j : nat) : bool :=
  match fuel with
  | 0 => j <=? i
  | S f => (j <=? i) || (p i && all_interval_nat_f f p (S i) j)
  end.
(* checker/snocheck/src/Verified/Checker.hs:485-486, with fuel *)
Definition all_interval_nat (p : nat -> bool) (i j : nat) : bool := all_interval_nat_f (j - i) p i j.

(* checker/snocheck/src/Verified/Checker.hs:488-496 par_range_all; the sparks of "par" have no effect on the value; fuel n *)
Fixpoint par_range_all_f (fuel : nat) (f : nat -> bool) (lo n : nat) : bool :=
  if n <? 1000 then all_interval_nat f lo (lo + n)
  else match fuel with
       | 0 => false
       | S k =>
           let na := n / 2 in
           let a := par_range_all_f k f lo na in
           let b := par_range_all_f k f (lo + na) (n - na) in
           a && b
       end.
(* checker/snocheck/src/Verified/Checker.hs:488-496, with fuel *)
Definition par_range_all (f : nat -> bool) (lo n : nat) : bool := par_range_all_f n f lo n.

(* checker/snocheck/src/Verified/Checker.hs:498-506 check_proof *)
Definition check_proof (cert : Proof_cert) : bool :=
  let steps := cert_step cert in
  let n := cert_length cert in
  (0 <=? n)%Z &&
  par_range_all (fun i => check_step steps (Z.of_nat i) (steps (Z.of_nat i))) 0 (Z.to_nat n).

(* checker/snocheck/src/Verified/Checker.hs:514-520 check_proof_get_bound *)
Definition check_proof_get_bound (cert : Proof_cert) : option (Z * Z) :=
  if check_proof cert && (0 <? cert_length cert)%Z
  then let last_step := cert_step cert (cert_length cert - 1)%Z in
       Some (step_width last_step, step_bound last_step)
  else None.
