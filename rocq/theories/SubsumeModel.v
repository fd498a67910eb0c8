(* Model of /repo/src/output_set/subsume.rs and OutputSet::subsumes_permuted.
   Masks are natural numbers (u16 in Rust; there are at most MAX_CHANNELS = 11 bits).  None stands for
   a panic: the underflow of "mask - 1" for mask = 0, a failing debug_assert, a failing unwrap; or for
   fuel running out. Out-of-range reads of perms and matching give 0; in the theorems there are none. *)
From Coq Require Import List Arith Bool Lia.
Import ListNotations.
From Verif Require Import Spec Util OutputSetModel.

(* [T; 2] indexed by side: side 0 is false, side 1 is true, 1 - side is negb *)
Definition sel {A} (side : bool) (p : A * A) : A := if side then snd p else fst p.
(* x[side] = a (src/output_set/subsume.rs:138, 154, 213) *)
Definition put {A} (side : bool) (p : A * A) (a : A) : A * A := if side then (fst p, a) else (a, snd p).

(* src/output_set/subsume.rs:5-14 *)
Inductive UndoAction : Type :=
| UMatching (chs : nat * nat)
| USwap (target_channel : nat) (source_channels : nat * nat).

(* src/output_set/subsume.rs:16-24.  The scratch field buffer is not modelled.  The undo stack has its
   top first. *)
Record Subsume : Type := mkSubsume {
  s_channels : nat;
  s_sets : OutputSet * OutputSet;
  s_perms : list nat * list nat;
  s_matching : list nat * list nat;
  s_undo : list UndoAction;
  s_fixed : nat }.

(* src/output_set/subsume.rs:27-42 new; None is the failing assert_eq of line 28 *)
Definition subsume_new (sets : OutputSet * OutputSet) : option Subsume :=
  if channels (fst sets) =? channels (snd sets) then
    let n := channels (fst sets) in
    let full := repeat (2 ^ n - 1) n in
    Some (mkSubsume n sets (seq 0 n, seq 0 n) (full, full) [] 0)
  else None.

(* u16::trailing_zeros (of a non-zero mask) *)
Fixpoint ctz_f (fuel m : nat) : nat :=
  match fuel with
  | 0 => 0
  | S f => if Nat.odd m then 0 else S (ctz_f f (Nat.div2 m))
  end.
(* trailing_zeros (src/output_set/subsume.rs:144, 156, 175, 203, 287), with fuel *)
Definition ctz (m : nat) : nat := ctz_f m m.

(* "mask & (mask - 1) == 0"; None is the underflow *)
Definition is_single (m : nat) : option bool :=
  if m =? 0 then None else Some (Nat.land m (m - 1) =? 0).

(* mask & !(1 << c) *)
Definition mask_without (m c : nat) : nat := Nat.ldiff m (2 ^ c).

(* self.matching[side][channel] (src/output_set/subsume.rs:122, 129, 142, 148, 171, 190, 200, 285) *)
Definition mask_of (st : Subsume) (side : bool) (c : nat) : nat := nth c (sel side (s_matching st)) 0.

(* self.matching[side][channel] = m (src/output_set/subsume.rs:101-102, 138) *)
Definition set_mask (st : Subsume) (side : bool) (c m : nat) : Subsume :=
  mkSubsume (s_channels st) (s_sets st) (s_perms st)
            (put side (s_matching st) (upd (sel side (s_matching st)) c m)) (s_undo st) (s_fixed st).

(* self.undo_stack.push(a) (src/output_set/subsume.rs:135, 293) *)
Definition push_undo (st : Subsume) (a : UndoAction) : Subsume :=
  mkSubsume (s_channels st) (s_sets st) (s_perms st) (s_matching st) (a :: s_undo st) (s_fixed st).

(* perm.swap(a, b) (src/output_set/subsume.rs:114, 300) *)
Definition swap_list (p : list nat) (a b : nat) : list nat := upd (upd p a (nth b p 0)) b (nth a p 0).

(* the swaps of lines 298-301 and 109-115, one side *)
Definition swap_side (st : Subsume) (side : bool) (target source : nat) : Subsume :=
  mkSubsume (s_channels st)
            (put side (s_sets st) (swap_channels (sel side (s_sets st)) target source))
            (put side (s_perms st) (swap_list (sel side (s_perms st)) target source))
            (s_matching st) (s_undo st) (s_fixed st).

(* src/output_set/subsume.rs:92, 303 assignment to fixed_channels *)
Definition set_fixed (st : Subsume) (k : nat) : Subsume :=
  mkSubsume (s_channels st) (s_sets st) (s_perms st) (s_matching st) (s_undo st) k.

(* src/output_set/subsume.rs:96-103 *)
Definition restore_edge (st : Subsume) (chs : nat * nat) (side_a : bool) : Subsume :=
  let side_b := negb side_a in
  let channel_a := sel side_a chs in
  let channel_b := sel side_b chs in
  let st1 := set_mask st side_a channel_a (Nat.lor (mask_of st side_a channel_a) (2 ^ channel_b)) in
  set_mask st1 side_b channel_b (Nat.lor (mask_of st1 side_b channel_b) (2 ^ channel_a)).

(* src/output_set/subsume.rs:94-117 *)
Definition undo_action (st : Subsume) (a : UndoAction) : Subsume :=
  match a with
  | UMatching chs => restore_edge (restore_edge st chs false) chs true
  | USwap target src => swap_side (swap_side st false target (fst src)) true target (snd src)
  end.

(* src/output_set/subsume.rs:91-119 rollback: drain(depth..).rev() is the part of the stack above depth,
   top first *)
Definition rollback (st : Subsume) (depth fixed_channels : nat) : Subsume :=
  let k := length (s_undo st) - depth in
  let st1 := fold_left undo_action (firstn k (s_undo st)) (set_fixed st fixed_channels) in
  mkSubsume (s_channels st1) (s_sets st1) (s_perms st1) (s_matching st1) (skipn k (s_undo st)) (s_fixed st1).

(* src/output_set/subsume.rs:121-123 get_matching *)
Definition get_matching (st : Subsume) (chs : nat * nat) : bool :=
  negb (Nat.land (mask_of st false (fst chs)) (2 ^ snd chs) =? 0).

(* src/output_set/subsume.rs:146-162 (with side) and 170-180 (with side = 0): remove every partner of
   channel [other] on side 1 - side except [keep].  [rm] is remove_matching. *)
Fixpoint clear_others (rm : Subsume -> nat * nat -> option (bool * Subsume)) (fuel : nat)
  (side : bool) (other keep : nat) (st : Subsume) : option (bool * Subsume) :=
  match fuel with
  | 0 => None
  | S f =>
      let other_mask := mask_without (mask_of st (negb side) other) keep in
      if other_mask =? 0 then Some (true, st)
      else
        let target_channel := ctz other_mask in
        let channels_rec := put side (put (negb side) (0, 0) other) target_channel in
        match rm st channels_rec with
        | None => None
        | Some (false, st1) => Some (false, st1)
        | Some (true, st1) => clear_others rm f side other keep st1
        end
  end.

(* src/output_set/subsume.rs:142-163 the second loop of remove_matching, one side *)
Definition propagate_side (rm : Subsume -> nat * nat -> option (bool * Subsume)) (fuel : nat)
  (chs : nat * nat) (side : bool) (st : Subsume) : option (bool * Subsume) :=
  let mask := mask_of st side (sel side chs) in
  match is_single mask with
  | None => None
  | Some false => Some (true, st)
  | Some true => clear_others rm fuel side (ctz mask) (sel side chs) st
  end.

(* src/output_set/subsume.rs:135-139 *)
Definition drop_edge (st : Subsume) (chs : nat * nat) : Subsume :=
  let st0 := push_undo st (UMatching chs) in
  let st1 := set_mask st0 false (fst chs) (mask_without (mask_of st0 false (fst chs)) (snd chs)) in
  set_mask st1 true (snd chs) (mask_without (mask_of st1 true (snd chs)) (fst chs)).

(* src/output_set/subsume.rs:125-167 remove_matching *)
Fixpoint remove_matching (fuel : nat) (st : Subsume) (chs : nat * nat) : option (bool * Subsume) :=
  match fuel with
  | 0 => None
  | S f =>
      if negb (get_matching st chs) then None
      else
        match is_single (mask_of st false (fst chs)) with
        | None => None
        | Some true => Some (false, st)
        | Some false =>
            match is_single (mask_of st true (snd chs)) with
            | None => None
            | Some true => Some (false, st)
            | Some false =>
                match propagate_side (remove_matching f) f chs false (drop_edge st chs) with
                | None => None
                | Some (false, st2) => Some (false, st2)
                | Some (true, st2) => propagate_side (remove_matching f) f chs true st2
                end
            end
        end
  end.

(* fuel for remove_matching: more than the number of edges (src/output_set/subsume.rs:125-167) *)
Definition rm_fuel (st : Subsume) : nat := S (s_channels st * s_channels st).

(* src/output_set/subsume.rs:169-182 isolate_matching *)
Definition isolate_matching (st : Subsume) (chs : nat * nat) : option (bool * Subsume) :=
  clear_others (remove_matching (rm_fuel st)) (rm_fuel st) false (snd chs) (fst chs) st.

(* lexicographic minimum of tuples (derived Ord), the first argument winning ties as in Ord::min (src/output_set/subsume.rs:192, 207) *)
Definition choice_min (a b : nat * nat * nat) : nat * nat * nat :=
  let '(w, s, c) := a in
  let '(w', s', c') := b in
  if w' <? w then b else if w <? w' then a
  else if s' <? s then b else if s <? s' then a
  else if c' <? c then b else a.

(* src/output_set/subsume.rs:202-208 the bits of the mask, lowest first; fuel: the mask itself *)
Fixpoint mask_bits (fuel mask : nat) : list nat :=
  match fuel with
  | 0 => []
  | S f => if mask =? 0 then [] else ctz mask :: mask_bits f (Nat.land mask (mask - 1))
  end.

(* src/output_set/subsume.rs:184-217 select_guess *)
Definition select_guess (st : Subsume) : nat * nat :=
  let cands side :=
    map (fun channel => let mc := nth channel (sel side (s_perms st)) 0 in
                        (count_ones (mask_of st side mc), Nat.b2n side, mc))
        (seq (s_fixed st) (s_channels st - s_fixed st)) in
  let '(_, min_side, min_channel) :=
    fold_left choice_min (cands false ++ cands true) (MAX_CHANNELS + 1, 0, 0) in
  let side := min_side =? 1 in
  let mask := mask_of st side min_channel in
  let '(_, _, min_other) :=
    fold_left choice_min
      (map (fun mc => (count_ones (mask_of st (negb side) mc), 0, mc)) (mask_bits mask mask))
      (MAX_CHANNELS + 1, 0, 0) in
  put side (put (negb side) (0, 0) min_other) min_channel.

(* src/output_set/subsume.rs:260-263 *)
Definition abstraction_exceeds (lo hi : list nat) : bool :=
  existsb (fun e : nat * nat => snd e <? fst e) (combine lo hi).

(* src/output_set/subsume.rs:250-272 the two nested loops with the break of the outer one, as one loop
   over the pairs in the same order *)
Fixpoint filter_loop (st : Subsume) (pairs : list ((nat * list nat) * (nat * list nat)))
  : option (bool * Subsume) :=
  match pairs with
  | [] => Some (true, st)
  | ((channel_lo, buffer_lo), (channel_hi, buffer_hi)) :: r =>
      let chs := (nth channel_lo (fst (s_perms st)) 0, nth channel_hi (snd (s_perms st)) 0) in
      if get_matching st chs then
        if abstraction_exceeds buffer_lo buffer_hi then
          match remove_matching (rm_fuel st) st chs with
          | None => None
          | Some (false, st1) => Some (false, st1)
          | Some (true, st1) => filter_loop st1 r
          end
        else filter_loop st r
      else filter_loop st r
  end.

(* src/output_set/subsume.rs:219-278 filter_matching *)
Definition filter_matching (st : Subsume) : option (bool * Subsume) :=
  let buffers side :=
    map (fun channel => (channel, low_channels_channel_abstraction (sel side (s_sets st)) (s_fixed st) channel))
        (seq (s_fixed st) (s_channels st - s_fixed st)) in
  filter_loop st (list_prod (buffers false) (buffers true)).

(* iter().position(|&x| x == v) (src/output_set/subsume.rs:288-291) *)
Fixpoint position (l : list nat) (v : nat) : option nat :=
  match l with
  | [] => None
  | a :: r => if a =? v then Some 0 else option_map S (position r v)
  end.

(* src/output_set/subsume.rs:283-306 the loop of move_unique *)
Fixpoint move_unique_loop (st : Subsume) (moved : bool) (los : list nat) : option (bool * Subsume) :=
  match los with
  | [] => Some (moved, st)
  | channel_lo :: r =>
      let mask := mask_of st false (nth channel_lo (fst (s_perms st)) 0) in
      match is_single mask with
      | None => None
      | Some false => move_unique_loop st moved r
      | Some true =>
          match position (snd (s_perms st)) (ctz mask) with
          | None => None
          | Some channel_hi =>
              let st1 := push_undo st (USwap (s_fixed st) (channel_lo, channel_hi)) in
              let st2 := swap_side st1 false (s_fixed st1) channel_lo in
              let st3 := swap_side st2 true (s_fixed st2) channel_hi in
              move_unique_loop (set_fixed st3 (s_fixed st3 + 1)) true r
          end
      end
  end.

(* src/output_set/subsume.rs:280-308 move_unique *)
Definition move_unique (st : Subsume) : option (bool * Subsume) :=
  move_unique_loop st false (seq (s_fixed st) (s_channels st - s_fixed st)).

(* src/output_set/subsume.rs:49-53 *)
Definition result_perm (st : Subsume) : list nat :=
  fold_left (fun perm i => upd perm (nth i (snd (s_perms st)) 0) (nth i (fst (s_perms st)) 0))
            (seq 0 (s_channels st)) (seq 0 (s_channels st)).

(* src/output_set/subsume.rs:44-89 search: every pass through the inner or outer loop and every
   recursive call uses one unit of fuel *)
Fixpoint search (fuel : nat) (st : Subsume) : option (option (list nat) * Subsume) :=
  match fuel with
  | 0 => None
  | S f =>
      if s_fixed st =? s_channels st then
        if subsumes_unpermuted (fst (s_sets st)) (snd (s_sets st)) then Some (Some (result_perm st), st)
        else Some (None, st)
      else
        match filter_matching st with
        | None => None
        | Some (false, st1) => Some (None, st1)
        | Some (true, st1) =>
            match move_unique st1 with
            | None => None
            | Some (true, st2) => search f st2
            | Some (false, st2) =>
                let guess := select_guess st2 in
                let stack_depth := length (s_undo st2) in
                let fixed_channels := s_fixed st2 in
                let after_guess (st3 : Subsume) :=
                  match remove_matching (rm_fuel st3) (rollback st3 stack_depth fixed_channels) guess with
                  | None => None
                  | Some (false, st4) => Some (None, st4)
                  | Some (true, st4) =>
                      match move_unique st4 with
                      | None => None
                      | Some (_, st5) => search f st5
                      end
                  end in
                match isolate_matching st2 guess with
                | None => None
                | Some (false, st3) => after_guess st3
                | Some (true, st3) =>
                    match move_unique st3 with
                    | None => None
                    | Some (_, st4) =>
                        match search f st4 with
                        | None => None
                        | Some (Some result, st5) =>
                            Some (Some result, rollback st5 stack_depth fixed_channels)
                        | Some (None, st5) => after_guess st5
                        end
                    end
                end
            end
        end
  end.

(* enough fuel for search (SubsumeProofs): (number of edges + 1) * (channels + 1) *)
Definition search_fuel (n : nat) : nat := (n * n + 1) * (n + 1).

(* src/output_set.rs:377-379 subsumes_permuted *)
Definition subsumes_permuted (s other : OutputSet) : option (option (list nat)) :=
  match subsume_new (s, other) with
  | None => None
  | Some st => option_map fst (search (search_fuel (s_channels st)) st)
  end.
