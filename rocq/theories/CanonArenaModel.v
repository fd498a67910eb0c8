(* src/output_set/canon.rs again, with the arena: the candidates of a layer are indices into the vectors
   bitmaps and data, slots that are not used any more are kept in free_list and used again by alloc!.
   What happens to the contents of one slot is taken from CanonModel.

   Simplifications.  A slot is read and written as a whole (bitmap and data), where the code reads and
   writes the parts it needs; writing back an unchanged part has no effect.  The scratch fields buffer and
   temp are local values.  free_list is a stack whose top is the head of the list.  None stands for a panic
   (also of a slice index) or for running out of fuel. *)
From Coq Require Import List Arith Bool.
Import ListNotations.
From Verif Require Import Spec Util OutputSetModel SubsumeModel CanonModel TreeModel.

(* the same for a pair *)
Notation "' p <- a ;; b" := (match a with Some p => b | None => None end) (at level 61, p pattern, a at next level, right associativity).

(* canon.rs:8-14 CandidateData *)
Record Data := mkData {
  d_perm : list nat;
  d_invert : bool;
  d_fp : list nat;
  d_part : list (nat * nat);
  d_score : nat * nat
}.

(* canon.rs:44-56 Canonicalize; bitmap_len is 1 << channels (118) *)
Record Arena := mkArena {
  r_channels : nat;
  r_used : nat;
  r_bitmaps : list bool;
  r_data : list Data;
  r_free : list nat;
  r_layer : list nat;
  r_next : list nat;
  r_fixed : nat
}.
Definition bitmap_len (r : Arena) : nat := 2 ^ r_channels r.   (* 118 *)

(* assignments to the fields (44-56) *)
Definition with_slots (r : Arena) (b : list bool) (d : list Data) : Arena :=
  mkArena (r_channels r) (r_used r) b d (r_free r) (r_layer r) (r_next r) (r_fixed r).
(* assignments to free_list, layer and next_layer (canon.rs:50-52) *)
Definition with_lists (r : Arena) (fr l n : list nat) : Arena :=
  mkArena (r_channels r) (r_used r) (r_bitmaps r) (r_data r) fr l n (r_fixed r).
Definition next_fixed (r : Arena) : Arena :=   (* 272, 387 *)
  mkArena (r_channels r) (r_used r) (r_bitmaps r) (r_data r) (r_free r) (r_layer r) (r_next r) (S (r_fixed r)).

(* 69-78 get! *)
Definition get_set (r : Arena) (i : nat) : option OutputSet :=
  let len := bitmap_len r in
  if (i + 1) * len <=? length (r_bitmaps r)
  then Some (mkOutputSet (r_channels r) (firstn len (skipn (i * len) (r_bitmaps r))))
  else None.
(* a slot: get!(index) and data[index] (canon.rs:9-14, 69-78) *)
Definition to_cand (s : OutputSet) (d : Data) : Cand := mkCand s (d_perm d) (d_invert d) (d_fp d) (d_part d) (d_score d).
(* canon.rs:9-14 the data of a candidate *)
Definition data_of (c : Cand) : Data := mkData (c_perm c) (c_invert c) (c_fp c) (c_part c) (c_score c).
(* canon.rs:69-78 get!(index), and data[index] *)
Definition load (r : Arena) (i : nat) : option Cand :=
  s <- get_set r i;; d <- nth_error (r_data r) i;; Some (to_cand s d).
(* 58-67 get_mut! and copy_from_slice (101-102), data[index] = ... *)
Definition store (r : Arena) (i : nat) (c : Cand) : option Arena :=
  let len := bitmap_len r in
  if ((i + 1) * len <=? length (r_bitmaps r)) && (length (bitmap (c_set c)) =? len) && (i <? length (r_data r))
  then Some (with_slots r (firstn (i * len) (r_bitmaps r) ++ bitmap (c_set c) ++ skipn ((i + 1) * len) (r_bitmaps r))
                        (upd (r_data r) i (data_of c)))
  else None.
(* 95-113 alloc! *)
Definition alloc (r : Arena) (c : Cand) : option (nat * Arena) :=
  match r_free r with
  | i :: fr => r' <- store (with_lists r fr (r_layer r) (r_next r)) i c;; Some (i, r')
  | [] => Some (length (r_data r), with_slots r (r_bitmaps r ++ bitmap (c_set c)) (r_data r ++ [data_of c]))
  end.

(* 116-161 new *)
Definition arena_new (s : OutputSet) (inversion : bool) : option Arena :=
  let n := channels s in
  let '(used, s', p) := fold_left move_unconstrained (rev (seq 0 n)) (n, s, seq 0 n) in
  '(identity, r) <- alloc (mkArena n used [] [] [] [] [] 0) (mkCand s' p false [] [] (0, 0));;
  let r := with_lists r (r_free r) (r_layer r ++ [identity]) (r_next r) in
  if inversion then
    '(inverted, r) <- alloc r (mkCand s' p true [] [] (0, 0));;
    c <- load r inverted;;
    r <- store r inverted (mkCand (invert (c_set c)) (c_perm c) (c_invert c) (c_fp c) (c_part c) (c_score c));;
    a <- get_set r inverted;; b <- get_set r identity;;
    if os_eqb a b then Some (with_lists r (inverted :: r_free r) (r_layer r) (r_next r))
    else Some (with_lists r (r_free r) (r_layer r ++ [inverted]) (r_next r))
  else Some r.

(* 193, 317, 391 for &index in self.layer.iter(): the slot is changed *)
Definition change_slot (f : Cand -> option Cand) (r : Arena) (i : nat) : option Arena :=
  c <- load r i;; c' <- f c;; store r i c'.
(* canon.rs:193, 318, 391 the loops over the layer *)
Definition change_layer (f : Cand -> option Cand) (r : Arena) : option Arena := fold_opt (change_slot f) (r_layer r) r.

(* 192-222 initialize_partitions *)
Definition arena_initialize (r : Arena) : option Arena := change_layer (initialize_cand (r_used r)) r.

(* 236-243, 291-298, 327-334 self.layer.retain(...): the indices that are not kept go to free_list *)
Definition retain (keep : nat -> bool) (r : Arena) : Arena :=
  with_lists r (rev (filter (fun i => negb (keep i)) (r_layer r)) ++ r_free r) (filter keep (r_layer r)) (r_next r).

(* 226-231 min_by with the reversed comparison *)
Definition best_index (r : Arena) (i : nat) (l : list nat) : option nat :=
  fold_opt (fun m x => a <- load r m;; b <- load r x;; Some match score_cmp a b with Lt => x | _ => m end) l i.
(* 224-244 prune_using_fingerprints *)
Definition arena_prune_fp (r : Arena) : option Arena :=
  match r_layer r with
  | [] => None
  | i :: l =>
      m <- best_index r i l;; c <- load r m;;
      _ <- map_opt (load r) (r_layer r);;
      Some (retain (fun x => match load r x with
                             | Some d => match score_cmp d c with Eq => true | _ => false end
                             | None => false
                             end) r)
  end.

(* 246-274 move_singleton *)
Fixpoint arena_move (l : list nat) (r : Arena) : option (bool * Arena) :=
  match l with
  | [] => Some (true, next_fixed r)
  | i :: l' =>
      c <- load r i;;
      match rev (c_part c) with
      | [] => Some (false, r)
      | e :: _ =>
          match is_single (fst e) with
          | None => None
          | Some false => Some (false, r)
          | Some true => r' <- store r i (move_cand (r_fixed r) (ctz (fst e)) c);; arena_move l' r'
          end
      end
  end.
(* canon.rs:246-274 move_singleton: the loop over the layer, then 272 fixed += 1 *)
Definition arena_move_singleton (r : Arena) : option (bool * Arena) := arena_move (r_layer r) r.
(* 170-172 *)
Fixpoint arena_move_singletons (fuel : nat) (prune : bool) (r : Arena) : option (bool * Arena) :=
  match fuel with
  | 0 => None
  | S f => '(b, r') <- arena_move_singleton r;;
           if b then arena_move_singletons f true r' else Some (prune, r')
  end.

(* 285-289 min_by_key: the first minimum *)
Definition min_index (r : Arena) (i : nat) (l : list nat) : option nat :=
  fold_opt (fun m x => a <- load r m;; b <- load r x;; Some (if set_leb a b then m else x)) l i.
(* 302 sort_by_key (stable) on the sets of the slots; the slots exist *)
Definition index_leb (r : Arena) (i j : nat) : bool :=
  match load r i, load r j with Some a, Some b => set_leb a b | _, _ => true end.
(* 303-310 dedup_by: test is compared with the last index that was kept; result: the indices kept after
   it, and the free list *)
Fixpoint dedup_index (r : Arena) (repr : nat) (l : list nat) (fr : list nat) : option (list nat * list nat) :=
  match l with
  | [] => Some ([], fr)
  | test :: l' =>
      a <- load r test;; b <- load r repr;;
      if os_eqb (c_set a) (c_set b) then dedup_index r repr l' (test :: fr)
      else '(k, fr') <- dedup_index r test l' fr;; Some (test :: k, fr')
  end.
(* 276-335 prune *)
Definition arena_prune (hash : list nat -> nat) (recompute : bool) (r : Arena) : option Arena :=
  if length (r_layer r) =? 1 then Some r else
  _ <- map_opt (load r) (r_layer r);;
  if r_fixed r =? r_used r then
    match r_layer r with
    | [] => None
    | i :: l => m <- min_index r i l;; Some (retain (fun x => x =? m) r)
    end
  else
    '(l, fr) <- match isort (index_leb r) (r_layer r) with
                | [] => Some ([], r_free r)
                | i :: l => '(k, fr) <- dedup_index r i l (r_free r);; Some (i :: k, fr)
                end;;
    let r1 := with_lists r fr l (r_next r) in
    if (length l =? 1) || negb recompute then Some r1 else
    r2 <- change_layer (set_fp0 hash (r_fixed r)) r1;;
    cs <- map_opt (load r2) (r_layer r2);;
    let m := fold_left Nat.max (map (fun c => nth 0 (c_fp c) 0) cs) 0 in
    Some (retain (fun x => match load r2 x with Some c => nth 0 (c_fp c) 0 =? m | None => false end) r2).

(* 344-378 one channel of the last part of slot index *)
Definition arena_individualize_channel (hash : list nat -> nat) (index : nat) (st : nat * Arena) (source : nat) : option (nat * Arena) :=
  let '(max, r) := st in
  c <- load r index;;
  let temp := swap_channels (c_set c) source (r_fixed r) in
  let fingerprint := low_channels_fingerprint hash temp (S (r_fixed r)) in
  if fingerprint <? max then Some st else
  let r1 := if max <? fingerprint then with_lists r (rev (r_next r) ++ r_free r) (r_layer r) [] else r in
  match rev (c_part c) with
  | [] => None
  | last :: _ =>
      '(i, r2) <- alloc r1 (individual_cand (r_fixed r) source c last);;
      Some (fingerprint, with_lists r2 (r_free r2) (r_layer r2) (r_next r2 ++ [i]))
  end.
(* 339-381 the loop over the drained layer *)
Definition arena_individualize_slot (hash : list nat -> nat) (st : nat * Arena) (index : nat) : option (nat * Arena) :=
  c <- load (snd st) index;;
  match rev (c_part c) with
  | [] => None
  | last :: _ =>
      '(max, r) <- fold_opt (arena_individualize_channel hash index) (mask_bits (fst last) (fst last)) st;;
      Some (max, with_lists r (index :: r_free r) (r_layer r) (r_next r))
  end.
(* 337-388 individualize *)
Definition arena_individualize (hash : list nat -> nat) (r : Arena) : option Arena :=
  '(_, r') <- fold_opt (arena_individualize_slot hash) (r_layer r) (0, with_lists r (r_free r) [] (r_next r));;
  Some (next_fixed (with_lists r' (r_free r') (r_next r') (r_layer r'))).

(* 390-440 refine *)
Definition arena_refine (hash : list nat -> nat) (r : Arena) : option Arena := change_layer (refine_cand hash (r_fixed r)) r.

(* 167-185 the loop *)
Fixpoint arena_loop (hash : list nat -> nat) (fuel : nat) (r : Arena) : option Arena :=
  match fuel with
  | 0 => None
  | S f =>
      r1 <- arena_prune_fp r;;
      '(b, r2) <- arena_move_singletons (S (r_used r)) false r1;;
      r3 <- (if b then arena_prune hash true r2 else Some r2);;
      if r_fixed r3 =? r_used r3 then Some r3 else
      r4 <- arena_individualize hash r3;;
      r5 <- arena_prune hash false r4;;
      if r_fixed r5 =? r_used r5 then Some r5 else
      r6 <- arena_refine hash r5;;
      arena_loop hash f r6
  end.
(* 163-187: the arena when the loop is left *)
Definition arena_final (hash : list nat -> nat) (r : Arena) : option Arena :=
  if 0 <? r_used r then r1 <- arena_initialize r;; arena_loop hash (S (r_used r)) r1 else Some r.
(* 163-190 canonicalize and output_set.rs:627-639 *)
Definition arena_canonicalize (hash : list nat -> nat) (s : OutputSet) (inversion : bool) : option (OutputSet * (bool * list nat)) :=
  if channels s =? 0 then Some (s, (false, seq 0 0)) else
  r0 <- arena_new s inversion;;
  r <- arena_final hash r0;;
  match r_layer r with
  | [] => None
  | i :: _ => c <- load r i;; Some (c_set c, (c_invert c, c_perm c))
  end.
