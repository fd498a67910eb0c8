(* src/output_set/subsume.rs once more with the checks of MachineModel.v: an index out of range, a
   subtraction below zero, a shift of a u16 by 16 or more, a CVec that is full, a slice split behind its end
   are None.  The scratch vector "buffer" of the struct is part of the state: filter_matching resizes it,
   keeps its old contents and cuts it into the slices that the abstractions are written to.
   SubsumeModel.v is the same program without these checks and without the buffer. *)
From Coq Require Import List Arith Bool Lia.
Import ListNotations.
From Verif Require Import Spec Util OutputSetModel SubsumeModel MachineModel.

Local Notation "x <- a ;; b" := (match a with Some x => b | None => None end)
  (at level 61, a at next level, right associativity).

(* 1u16 << c, with the overflow check of a debug build (src/output_set/subsume.rs:31, 101, 102, 122) *)
Definition shl16 (c : nat) : option nat := if c <? 16 then Some (2 ^ c) else None.

(* mask & !(1 << c) (src/output_set/subsume.rs:138, 148, 171) *)
Definition without_c (m c : nat) : option nat := b <- shl16 c ;; Some (Nat.ldiff m b).

(* src/output_set/subsume.rs:16-24: the struct with its field buffer *)
Record SubsumeB : Type := mkSubsumeB { b_st : Subsume; b_buffer : list nat }.

(* src/output_set/subsume.rs:27-42 new *)
Definition subsume_new_c (sets : OutputSet * OutputSet) : option SubsumeB :=
  if channels (fst sets) =? channels (snd sets) then
    let n := channels (fst sets) in
    identity_perm <- collect CVEC (seq 0 n) ;;
    top <- shl16 n ;;
    all_mask <- sub_u top 1 ;;
    full_matching <- collect CVEC (repeat all_mask n) ;;
    Some (mkSubsumeB (mkSubsume n sets (identity_perm, identity_perm) (full_matching, full_matching) [] 0) [])
  else None.

(* self.matching[side][channel] (subsume.rs:122, 129, 142, 148, 171, 190, 200, 285) *)
Definition mask_c (st : Subsume) (side : bool) (c : nat) : option nat := rd (sel side (s_matching st)) c.

(* self.matching[side][channel] = m (subsume.rs:101-102, 138) *)
Definition set_mask_c (st : Subsume) (side : bool) (c m : nat) : option Subsume :=
  l <- wr (sel side (s_matching st)) c m ;;
  Some (mkSubsume (s_channels st) (s_sets st) (s_perms st) (put side (s_matching st) l) (s_undo st) (s_fixed st)).

(* perm.swap(a, b) (subsume.rs:114, 300) *)
Definition swap_list_c (p : list nat) (a b : nat) : option (list nat) :=
  x <- rd p a ;; y <- rd p b ;; p1 <- wr p a y ;; wr p1 b x.

(* src/output_set/subsume.rs:109-115 and 298-301, one side *)
Definition swap_side_c (st : Subsume) (side : bool) (target source : nat) : option Subsume :=
  s <- swap_channels_c (sel side (s_sets st)) target source ;;
  p <- swap_list_c (sel side (s_perms st)) target source ;;
  Some (mkSubsume (s_channels st) (put side (s_sets st) s) (put side (s_perms st) p)
                  (s_matching st) (s_undo st) (s_fixed st)).

(* src/output_set/subsume.rs:96-103 *)
Definition restore_edge_c (st : Subsume) (chs : nat * nat) (side_a : bool) : option Subsume :=
  let side_b := negb side_a in
  let channel_a := sel side_a chs in
  let channel_b := sel side_b chs in
  ma <- mask_c st side_a channel_a ;; bb <- shl16 channel_b ;;
  st1 <- set_mask_c st side_a channel_a (Nat.lor ma bb) ;;
  mb <- mask_c st1 side_b channel_b ;; ba <- shl16 channel_a ;;
  set_mask_c st1 side_b channel_b (Nat.lor mb ba).

(* src/output_set/subsume.rs:94-117 *)
Definition undo_action_c (st : Subsume) (a : UndoAction) : option Subsume :=
  match a with
  | UMatching chs => st1 <- restore_edge_c st chs false ;; restore_edge_c st1 chs true
  | USwap target src => st1 <- swap_side_c st false target (fst src) ;; swap_side_c st1 true target (snd src)
  end.

(* src/output_set/subsume.rs:91-119 rollback; drain(depth..) panics when depth is behind the end *)
Definition rollback_c (st : Subsume) (depth fixed_channels : nat) : option Subsume :=
  k <- sub_u (length (s_undo st)) depth ;;
  st1 <- fold_opt undo_action_c (firstn k (s_undo st)) (set_fixed st fixed_channels) ;;
  Some (mkSubsume (s_channels st1) (s_sets st1) (s_perms st1) (s_matching st1) (skipn k (s_undo st)) (s_fixed st1)).

(* src/output_set/subsume.rs:121-123 get_matching *)
Definition get_matching_c (st : Subsume) (chs : nat * nat) : option bool :=
  m <- mask_c st false (fst chs) ;; b <- shl16 (snd chs) ;; Some (negb (Nat.land m b =? 0)).

(* src/output_set/subsume.rs:146-162 and 170-180 *)
Fixpoint clear_others_c (rm : Subsume -> nat * nat -> option (bool * Subsume)) (fuel : nat)
  (side : bool) (other keep : nat) (st : Subsume) : option (bool * Subsume) :=
  match fuel with
  | 0 => None
  | S f =>
      m <- mask_c st (negb side) other ;;
      other_mask <- without_c m keep ;;
      if other_mask =? 0 then Some (true, st)
      else
        let target_channel := ctz other_mask in
        let channels_rec := put side (put (negb side) (0, 0) other) target_channel in
        match rm st channels_rec with
        | None => None
        | Some (false, st1) => Some (false, st1)
        | Some (true, st1) => clear_others_c rm f side other keep st1
        end
  end.

(* src/output_set/subsume.rs:142-163 *)
Definition propagate_side_c (rm : Subsume -> nat * nat -> option (bool * Subsume)) (fuel : nat)
  (chs : nat * nat) (side : bool) (st : Subsume) : option (bool * Subsume) :=
  mask <- mask_c st side (sel side chs) ;;
  match is_single mask with
  | None => None
  | Some false => Some (true, st)
  | Some true => clear_others_c rm fuel side (ctz mask) (sel side chs) st
  end.

(* src/output_set/subsume.rs:135-139 *)
Definition drop_edge_c (st : Subsume) (chs : nat * nat) : option Subsume :=
  let st0 := push_undo st (UMatching chs) in
  m0 <- mask_c st0 false (fst chs) ;; w0 <- without_c m0 (snd chs) ;;
  st1 <- set_mask_c st0 false (fst chs) w0 ;;
  m1 <- mask_c st1 true (snd chs) ;; w1 <- without_c m1 (fst chs) ;;
  set_mask_c st1 true (snd chs) w1.

(* src/output_set/subsume.rs:125-167 remove_matching *)
Fixpoint remove_matching_c (fuel : nat) (st : Subsume) (chs : nat * nat) : option (bool * Subsume) :=
  match fuel with
  | 0 => None
  | S f =>
      present <- get_matching_c st chs ;;
      if negb present then None
      else
        m0 <- mask_c st false (fst chs) ;;
        match is_single m0 with
        | None => None
        | Some true => Some (false, st)
        | Some false =>
            m1 <- mask_c st true (snd chs) ;;
            match is_single m1 with
            | None => None
            | Some true => Some (false, st)
            | Some false =>
                st1 <- drop_edge_c st chs ;;
                match propagate_side_c (remove_matching_c f) f chs false st1 with
                | None => None
                | Some (false, st2) => Some (false, st2)
                | Some (true, st2) => propagate_side_c (remove_matching_c f) f chs true st2
                end
            end
        end
  end.

(* src/output_set/subsume.rs:169-182 isolate_matching *)
Definition isolate_matching_c (st : Subsume) (chs : nat * nat) : option (bool * Subsume) :=
  clear_others_c (remove_matching_c (rm_fuel st)) (rm_fuel st) false (snd chs) (fst chs) st.

(* src/output_set/subsume.rs:184-217 select_guess *)
Definition select_guess_c (st : Subsume) : option (nat * nat) :=
  let scan side best :=
    fold_opt (fun best channel =>
                matching_channel <- rd (sel side (s_perms st)) channel ;;
                m <- mask_c st side matching_channel ;;
                Some (choice_min best (count_ones m, Nat.b2n side, matching_channel)))
             (seq (s_fixed st) (s_channels st - s_fixed st)) best in
  best0 <- scan false (MAX_CHANNELS + 1, 0, 0) ;;
  best <- scan true best0 ;;
  let '(_, min_side, min_channel) := best in
  let side := min_side =? 1 in
  mask <- mask_c st side min_channel ;;
  other <- fold_opt (fun best matching_channel =>
                       m <- mask_c st (negb side) matching_channel ;;
                       Some (choice_min best (count_ones m, 0, matching_channel)))
                    (mask_bits mask mask) (MAX_CHANNELS + 1, 0, 0) ;;
  let '(_, _, min_other) := other in
  Some (put side (put (negb side) (0, 0) min_other) min_channel).

(* Vec::resize (subsume.rs:223) *)
Definition resize (l : list nat) (len v : nat) : list nat := firstn len l ++ repeat v (len - length l).

(* slice.split_at_mut(k) (subsume.rs:235) *)
Definition split_at_c {A} (l : list A) (k : nat) : option (list A * list A) :=
  if k <=? length l then Some (firstn k l, skipn k l) else None.

(* src/output_set/subsume.rs:233-245 the slices of one side; state: the slices of this side and the part of
   the buffer that is left *)
Definition fill_side_c (st : Subsume) (side : bool) (abstraction_len : nat) (rest : list nat)
  : option (list (list nat) * list nat) :=
  fold_opt (fun (acc : list (list nat) * list nat) channel =>
              p <- split_at_c (snd acc) abstraction_len ;;
              current <- low_channels_channel_abstraction_c (sel side (s_sets st)) (s_fixed st) channel (fst p) ;;
              buffers <- push CVEC (fst acc) current ;;
              Some (buffers, snd p))
           (seq (s_fixed st) (s_channels st - s_fixed st)) ([], rest).

(* src/output_set/subsume.rs:255-271 the inner loop for one channel of the first set; false: break 'outer *)
Fixpoint filter_inner_c (st : Subsume) (matching_lo : nat) (buffer_lo : list nat) (his : list (nat * list nat))
  : option (bool * Subsume) :=
  match his with
  | [] => Some (true, st)
  | (channel_hi, buffer_hi) :: r =>
      matching_hi <- rd (snd (s_perms st)) channel_hi ;;
      present <- get_matching_c st (matching_lo, matching_hi) ;;
      if present then
        if abstraction_exceeds buffer_lo buffer_hi then
          match remove_matching_c (rm_fuel st) st (matching_lo, matching_hi) with
          | None => None
          | Some (false, st1) => Some (false, st1)
          | Some (true, st1) => filter_inner_c st1 matching_lo buffer_lo r
          end
        else filter_inner_c st matching_lo buffer_lo r
      else filter_inner_c st matching_lo buffer_lo r
  end.

(* src/output_set/subsume.rs:250-272 the outer loop *)
Fixpoint filter_outer_c (st : Subsume) (los his : list (nat * list nat)) : option (bool * Subsume) :=
  match los with
  | [] => Some (true, st)
  | (channel_lo, buffer_lo) :: r =>
      matching_lo <- rd (fst (s_perms st)) channel_lo ;;
      match filter_inner_c st matching_lo buffer_lo his with
      | None => None
      | Some (false, st1) => Some (false, st1)
      | Some (true, st1) => filter_outer_c st1 r his
      end
  end.

(* src/output_set/subsume.rs:219-278 filter_matching: the vector is taken out of the struct (line 228), the
   slices point into it, and it is put back (276) with what was written *)
Definition filter_matching_c (z : SubsumeB) : option (bool * SubsumeB) :=
  let st := b_st z in
  abstraction_len <- low_channels_channel_abstraction_len_c (fst (s_sets st)) (s_fixed st) ;;
  free <- sub_u (s_channels st) (s_fixed st) ;;
  let buffer_vec := resize (b_buffer z) (abstraction_len * free * 2) 0 in
  r0 <- fill_side_c st false abstraction_len buffer_vec ;;
  r1 <- fill_side_c st true abstraction_len (snd r0) ;;
  let range := seq (s_fixed st) free in
  result <- filter_outer_c st (combine range (fst r0)) (combine range (fst r1)) ;;
  Some (fst result, mkSubsumeB (snd result) (concat (fst r0) ++ concat (fst r1) ++ snd r1)).

(* src/output_set/subsume.rs:283-306 the loop of move_unique *)
Fixpoint move_unique_loop_c (st : Subsume) (moved : bool) (los : list nat) : option (bool * Subsume) :=
  match los with
  | [] => Some (moved, st)
  | channel_lo :: r =>
      matching_channel_lo <- rd (fst (s_perms st)) channel_lo ;;
      mask <- mask_c st false matching_channel_lo ;;
      match is_single mask with
      | None => None
      | Some false => move_unique_loop_c st moved r
      | Some true =>
          match position (snd (s_perms st)) (ctz mask) with
          | None => None
          | Some channel_hi =>
              let st1 := push_undo st (USwap (s_fixed st) (channel_lo, channel_hi)) in
              st2 <- swap_side_c st1 false (s_fixed st1) channel_lo ;;
              st3 <- swap_side_c st2 true (s_fixed st2) channel_hi ;;
              move_unique_loop_c (set_fixed st3 (s_fixed st3 + 1)) true r
          end
      end
  end.

(* src/output_set/subsume.rs:280-308 move_unique *)
Definition move_unique_c (st : Subsume) : option (bool * Subsume) :=
  move_unique_loop_c st false (seq (s_fixed st) (s_channels st - s_fixed st)).

(* src/output_set/subsume.rs:49-53 *)
Definition result_perm_c (st : Subsume) : option (list nat) :=
  perm <- collect CVEC (seq 0 (s_channels st)) ;;
  fold_opt (fun perm i => a <- rd (snd (s_perms st)) i ;; b <- rd (fst (s_perms st)) i ;; wr perm a b)
           (seq 0 (s_channels st)) perm.

(* src/output_set/subsume.rs:44-89 search *)
Fixpoint search_c (fuel : nat) (z : SubsumeB) : option (option (list nat) * SubsumeB) :=
  match fuel with
  | 0 => None
  | S f =>
      let st := b_st z in
      if s_fixed st =? s_channels st then
        if subsumes_unpermuted (fst (s_sets st)) (snd (s_sets st))
        then perm <- result_perm_c st ;; Some (Some perm, z)
        else Some (None, z)
      else
        match filter_matching_c z with
        | None => None
        | Some (false, z1) => Some (None, z1)
        | Some (true, z1) =>
            match move_unique_c (b_st z1) with
            | None => None
            | Some (true, st2) => search_c f (mkSubsumeB st2 (b_buffer z1))
            | Some (false, st2) =>
                guess <- select_guess_c st2 ;;
                let stack_depth := length (s_undo st2) in
                let fixed_channels := s_fixed st2 in
                let after_guess (z3 : SubsumeB) :=
                  st <- rollback_c (b_st z3) stack_depth fixed_channels ;;
                  match remove_matching_c (rm_fuel (b_st z3)) st guess with
                  | None => None
                  | Some (false, st4) => Some (None, mkSubsumeB st4 (b_buffer z3))
                  | Some (true, st4) =>
                      match move_unique_c st4 with
                      | None => None
                      | Some (_, st5) => search_c f (mkSubsumeB st5 (b_buffer z3))
                      end
                  end in
                match isolate_matching_c st2 guess with
                | None => None
                | Some (false, st3) => after_guess (mkSubsumeB st3 (b_buffer z1))
                | Some (true, st3) =>
                    match move_unique_c st3 with
                    | None => None
                    | Some (_, st4) =>
                        match search_c f (mkSubsumeB st4 (b_buffer z1)) with
                        | None => None
                        | Some (Some result, z5) =>
                            st6 <- rollback_c (b_st z5) stack_depth fixed_channels ;;
                            Some (Some result, mkSubsumeB st6 (b_buffer z5))
                        | Some (None, z5) => after_guess z5
                        end
                    end
                end
            end
        end
  end.

(* src/output_set.rs:377-379 subsumes_permuted *)
Definition subsumes_permuted_c (s other : OutputSet) : option (option (list nat)) :=
  z <- subsume_new_c (s, other) ;; option_map fst (search_c (search_fuel (s_channels (b_st z))) z).
