(* src/output_set/canon.rs a third time, with the checks of MachineModel.v and with the scratch fields
   buffer and temp: an index out of range, a subtraction below zero, a shift of a u16 by 16 or more, a u16
   that overflows, a CVec that is full, copy_from_slice between different lengths are None.  Bitmaps and
   data are read and written separately, as in the code.
   What is taken over from CanonArenaModel.v: the layout of the arena and its lists (get!, alloc!, retain,
   the sorting and the choice of indices), all of it already checked.
   Simplifications.  The second component of partition_score is max_partition_size instead of its
   complement and the order is reversed on it, as in CanonModel.v.  usize and u64 are natural numbers. *)
From Coq Require Import List Arith Bool.
Import ListNotations.
From Verif Require Import Spec Util OutputSetModel SubsumeModel MachineModel SubsumeMachModel CanonModel TreeModel CanonArenaModel.

(* canon.rs:44-56 the struct with buffer (54) and temp (55) *)
Record CanonM := mkCanonM { m_arena : Arena; m_buffer : list nat; m_temp : OutputSet }.
(* assignment to a field of the arena (44-53), the scratch fields are kept *)
Definition with_arena (m : CanonM) (r : Arena) : CanonM := mkCanonM r (m_buffer m) (m_temp m).

(* n += 1 on u16, with the overflow check of a debug build (canon.rs:212, 427, 435) *)
Definition inc16 (n : nat) : option nat := if Nat.log2 (n + 1) <? 16 then Some (n + 1) else None.

(* output_set.rs:213-231 low_channels_fingerprint with the caller's vector; Vec::clear keeps nothing *)
Definition low_fingerprint_m (hash : list nat -> nat) (s : OutputSet) (low_channels : nat) (buffer : list nat)
  : option (nat * list nat) :=
  weights <- sub_u (channels s + 1) low_channels;;
  let low_indices := 2 ^ low_channels in
  low_mask <- sub_u low_indices 1;;
  let buffer := resize (firstn 0 buffer) (weights * low_indices) 0 in
  b <- fold_opt (fun buf (e : nat * bool) =>
              let low_index := Nat.land (fst e) low_mask in
              let high_weight := count_ones (Nat.ldiff (fst e) low_mask) in
              bump buf (high_weight + weights * low_index) (Nat.b2n (snd e)))
           (enumerate (bitmap s)) buffer;;
  Some (hash b, b).

(* output_set.rs:233-266 low_channels_channel_fingerprint with the caller's vector *)
Definition low_channel_fingerprint_m (hash : list nat -> nat) (s : OutputSet) (low_channels channel : nat) (buffer : list nat)
  : option (nat * list nat) :=
  if negb (low_channels <=? channel) then None else
  let bm := bitmap s in
  weights <- sub_u (channels s) low_channels;;
  let low_indices := 2 ^ low_channels in
  let mask := 2 ^ channel in
  low_mask <- sub_u low_indices 1;;
  let buffer := resize (firstn 0 buffer) (weights * low_indices) 0 in
  b <- strided_c (length bm) mask
    (fun buf index =>
       let low_index := Nat.land index low_mask in
       let high_weight := count_ones (Nat.ldiff index (Nat.lor low_mask mask)) in
       v <- rd bm index;;
       bump buf (high_weight + weights * low_index) (Nat.b2n v))
    buffer;;
  Some (hash b, b).

(* canon.rs:25-41 sort_partition *)
Definition sort_partition_m (d : Data) : option Data :=
  let p := isort part_leb (d_part d) in
  k <- take_singles (rev p);;
  e <- rd p 0;;
  Some (mkData (d_perm d) (d_invert d) (d_fp d) p (k, count_ones (fst e))).

(* canon.rs:58-67 get_mut!: the set of a slot is overwritten in place *)
Definition put_set (r : Arena) (i : nat) (s : OutputSet) : option Arena :=
  let len := bitmap_len r in
  if ((i + 1) * len <=? length (r_bitmaps r)) && (length (bitmap s) =? len)
  then Some (with_slots r (firstn (i * len) (r_bitmaps r) ++ bitmap s ++ skipn ((i + 1) * len) (r_bitmaps r)) (r_data r))
  else None.
(* canon.rs:205, 248, 321, 392 data[index] is changed in place *)
Definition put_data (r : Arena) (i : nat) (d : Data) : option Arena :=
  l <- wr (r_data r) i d;; Some (with_slots r (r_bitmaps r) l).

(* canon.rs:139-143 *)
Definition move_unconstrained_m (st : nat * OutputSet * list nat) (channel : nat) : option (nat * OutputSet * list nat) :=
  let '(used, s, p) := st in
  unconstrained <- is_channel_unconstrained_c s channel;;
  if unconstrained : bool then
    used' <- sub_u used 1;;
    s' <- swap_channels_c s channel used';;
    p' <- swap_list_c p channel used';;
    Some (used', s', p')
  else Some st.

(* canon.rs:116-161 new *)
Definition mach_new (s : OutputSet) (inversion : bool) : option CanonM :=
  let n := channels s in
  identity_perm <- collect CVEC (seq 0 n);;
  '(used, s', p) <- fold_opt move_unconstrained_m (rev (seq 0 n)) (n, s, identity_perm);;
  '(identity, r) <- alloc (mkArena n used [] [] [] [] [] 0) (to_cand s' (mkData p false [] [] (0, 0)));;
  let r := with_lists r (r_free r) (r_layer r ++ [identity]) (r_next r) in
  if inversion then
    '(inverted, r) <- alloc r (to_cand s' (mkData p true [] [] (0, 0)));;
    t <- get_set r inverted;;
    r <- put_set r inverted (invert t);;
    a <- get_set r inverted;; b <- get_set r identity;;
    if os_eqb a b then Some (mkCanonM (with_lists r (inverted :: r_free r) (r_layer r) (r_next r)) [] s)
    else Some (mkCanonM (with_lists r (r_free r) (r_layer r ++ [inverted]) (r_next r)) [] s)
  else Some (mkCanonM r [] s).

(* canon.rs:207-216 and 422-431: one pair of the loop.  State: partition, fingerprint, part_fingerprint,
   part_mask, part_id *)
Definition cut_step (st : list (nat * nat) * list nat * nat * nat * nat) (e : nat * nat)
  : option (list (nat * nat) * list nat * nat * nat * nat) :=
  let '(part, fp, part_fingerprint, part_mask, part_id) := st in
  let '(fingerprint, channel) := e in
  '(part, part_fingerprint, part_mask, part_id) <-
    (if part_fingerprint =? fingerprint then Some (part, part_fingerprint, part_mask, part_id)
     else p <- push CVEC part (part_mask, part_id);;
          id <- inc16 part_id;;
          Some (p, fingerprint, 0, id));;
  fp <- push CVEC fp fingerprint;;
  bit <- shl16 channel;;
  Some (part, fp, part_fingerprint, Nat.lor part_mask bit, part_id).

(* canon.rs:199-218 and 417-433: the pairs are sorted and cut; result: partition, fingerprint, part_id *)
Definition cut_m (part : list (nat * nat)) (fp : list nat) (id : nat) (fingerprints : list (nat * nat))
  : option (list (nat * nat) * list nat * nat) :=
  let fingerprints := isort pair_leb fingerprints in
  e <- rd fingerprints 0;;
  '(part, fp, _, part_mask, part_id) <- fold_opt cut_step fingerprints (part, fp, fst e, 0, id);;
  part <- push CVEC part (part_mask, part_id);;
  Some (part, fp, part_id).

(* canon.rs:193-221 one index of initialize_partitions *)
Definition mach_initialize_slot (m : CanonM) (i : nat) : option CanonM :=
  let r := m_arena m in
  s <- get_set r i;;
  l <- map_opt (fun channel => f <- channel_fingerprint_c s channel;; Some (f, channel)) (seq 0 (r_used r));;
  fingerprints <- collect CVEC l;;
  d <- rd (r_data r) i;;
  '(part, fp, _) <- cut_m (d_part d) (d_fp d) 0 fingerprints;;
  d' <- sort_partition_m (mkData (d_perm d) (d_invert d) fp part (d_score d));;
  r' <- put_data r i d';;
  Some (with_arena m r').
(* canon.rs:192-222 initialize_partitions *)
Definition mach_initialize (m : CanonM) : option CanonM := fold_opt mach_initialize_slot (r_layer (m_arena m)) m.

(* canon.rs:262-269 and 369-376 the parts when channel fixed goes to source *)
Definition swap_parts_m (source fixed : nat) (parts : list (nat * nat)) : option (list (nat * nat)) :=
  source_mask <- shl16 source;;
  fixed_mask <- shl16 fixed;;
  Some (map (fun e : nat * nat =>
    let fixed_present := negb (Nat.land (fst e) fixed_mask =? 0) in
    (Nat.lor (Nat.ldiff (fst e) fixed_mask) (source_mask * Nat.b2n fixed_present), snd e)) parts).

(* canon.rs:247-271 the loop of move_singleton *)
Fixpoint mach_move (l : list nat) (r : Arena) : option (bool * Arena) :=
  match l with
  | [] => Some (true, next_fixed r)
  | i :: l' =>
      d <- rd (r_data r) i;;
      match rev (d_part d) with
      | [] => Some (false, r)
      | e :: _ =>
          single <- is_single (fst e);;
          if single : bool then
            let source := ctz (fst e) in
            let part := removelast (d_part d) in
            r' <- (if source =? r_fixed r
                   then put_data r i (mkData (d_perm d) (d_invert d) (d_fp d) part (d_score d))
                   else s <- get_set r i;;
                        s' <- swap_channels_c s source (r_fixed r);;
                        r1 <- put_set r i s';;
                        perm <- swap_list_c (d_perm d) source (r_fixed r);;
                        part' <- swap_parts_m source (r_fixed r) part;;
                        put_data r1 i (mkData perm (d_invert d) (d_fp d) part' (d_score d)));;
            mach_move l' r'
          else Some (false, r)
      end
  end.
(* canon.rs:246-274 move_singleton *)
Definition mach_move_singleton (m : CanonM) : option (bool * CanonM) :=
  '(b, r) <- mach_move (r_layer (m_arena m)) (m_arena m);; Some (b, with_arena m r).
(* canon.rs:170-172 *)
Fixpoint mach_move_singletons (fuel : nat) (prune : bool) (m : CanonM) : option (bool * CanonM) :=
  match fuel with
  | 0 => None
  | S f => '(b, m') <- mach_move_singleton m;;
           if b : bool then mach_move_singletons f true m' else Some (prune, m')
  end.

(* canon.rs:224-244 prune_using_fingerprints *)
Definition mach_prune_fp (m : CanonM) : option CanonM := r <- arena_prune_fp (m_arena m);; Some (with_arena m r).

(* canon.rs:318-323 one index of the loop; state: max_fingerprint *)
Definition mach_recompute_slot (hash : list nat -> nat) (st : nat * CanonM) (i : nat) : option (nat * CanonM) :=
  let '(max, m) := st in
  let r := m_arena m in
  s <- get_set r i;;
  '(fingerprint, buffer) <- low_fingerprint_m hash s (r_fixed r) (m_buffer m);;
  d <- rd (r_data r) i;;
  fp <- wr (d_fp d) 0 fingerprint;;
  r' <- put_data r i (mkData (d_perm d) (d_invert d) fp (d_part d) (d_score d));;
  Some (Nat.max max fingerprint, mkCanonM r' buffer (m_temp m)).

(* canon.rs:276-335 prune *)
Definition mach_prune (hash : list nat -> nat) (recompute : bool) (m : CanonM) : option CanonM :=
  let r := m_arena m in
  if length (r_layer r) =? 1 then Some m else
  _ <- map_opt (load r) (r_layer r);;
  if r_fixed r =? r_used r then
    match r_layer r with
    | [] => None
    | i :: l => k <- min_index r i l;; Some (with_arena m (retain (fun x => x =? k) r))
    end
  else
    '(l, fr) <- match isort (index_leb r) (r_layer r) with
                | [] => Some ([], r_free r)
                | i :: l => '(k, fr) <- dedup_index r i l (r_free r);; Some (i :: k, fr)
                end;;
    let m1 := with_arena m (with_lists r fr l (r_next r)) in
    if (length l =? 1) || negb recompute then Some m1 else
    '(max, m2) <- fold_opt (mach_recompute_slot hash) l (0, m1);;
    fps <- map_opt (fun i => d <- rd (r_data (m_arena m2)) i;; rd (d_fp d) 0) l;;
    Some (with_arena m2 (retain (fun x => match rd (r_data (m_arena m2)) x with
                                          | Some d => nth 0 (d_fp d) 0 =? max
                                          | None => false
                                          end) (m_arena m2))).

(* canon.rs:343-379 one round of the loop; state: max_fingerprint *)
Definition mach_individualize_channel (hash : list nat -> nat) (index source : nat) (st : nat * CanonM) : option (nat * CanonM) :=
  let '(max, m) := st in
  let r := m_arena m in
  s <- get_set r index;;
  if negb (length (bitmap (m_temp m)) =? length (bitmap s)) then None else
  let temp := mkOutputSet (channels (m_temp m)) (bitmap s) in
  temp <- swap_channels_c temp source (r_fixed r);;
  '(fingerprint, buffer) <- low_fingerprint_m hash temp (r_fixed r + 1) (m_buffer m);;
  if fingerprint <? max then Some (max, mkCanonM r buffer temp) else
  let r1 := if max <? fingerprint then with_lists r (rev (r_next r) ++ r_free r) (r_layer r) [] else r in
  d <- rd (r_data r1) index;;
  perm <- swap_list_c (d_perm d) source (r_fixed r);;
  match rev (d_part d) with
  | [] => None
  | last :: _ =>
      bit <- shl16 source;;
      part <- swap_parts_m source (r_fixed r) (removelast (d_part d) ++ [(Nat.ldiff (fst last) bit, snd last)]);;
      '(i, r2) <- alloc r1 (to_cand temp (mkData perm (d_invert d) (d_fp d) part (d_score d)));;
      Some (fingerprint, mkCanonM (with_lists r2 (r_free r2) (r_layer r2) (r_next r2 ++ [i])) buffer temp)
  end.
(* canon.rs:342-380 while part_iter != 0; [step] is the body after line 344.  The loop runs at most 16 times *)
Fixpoint bits_loop {St} (step : nat -> St -> option St) (fuel part_iter : nat) (st : St) : option St :=
  if part_iter =? 0 then Some st else
  match fuel with
  | 0 => None
  | S f =>
      below <- sub_u part_iter 1;;
      st' <- step (ctz part_iter) st;;
      bits_loop step f (Nat.land part_iter below) st'
  end.
(* canon.rs:339-383 one index of the drained layer *)
Definition mach_individualize_slot (hash : list nat -> nat) (st : nat * CanonM) (index : nat) : option (nat * CanonM) :=
  d <- rd (r_data (m_arena (snd st))) index;;
  match rev (d_part d) with
  | [] => None
  | last :: _ =>
      '(max, m) <- bits_loop (mach_individualize_channel hash index) 16 (fst last) st;;
      let r := m_arena m in
      Some (max, with_arena m (with_lists r (index :: r_free r) (r_layer r) (r_next r)))
  end.
(* canon.rs:337-388 individualize *)
Definition mach_individualize (hash : list nat -> nat) (m : CanonM) : option CanonM :=
  let r := m_arena m in
  '(_, m') <- fold_opt (mach_individualize_slot hash) (r_layer r) (0, with_arena m (with_lists r (r_free r) [] (r_next r)));;
  let r' := m_arena m' in
  Some (with_arena m' (next_fixed (with_lists r' (r_free r') (r_next r') (r_layer r')))).

(* canon.rs:404-415 the body of the loop; state: fingerprints and the buffer *)
Definition refine_channel (hash : list nat -> nat) (s : OutputSet) (fixed channel : nat) (st : list (nat * nat) * list nat)
  : option (list (nat * nat) * list nat) :=
  let '(fingerprints, buffer) := st in
  '(f, buffer) <- low_channel_fingerprint_m hash s fixed channel buffer;;
  fingerprints <- push CVEC fingerprints (f, channel);;
  Some (fingerprints, buffer).
(* canon.rs:399-436 one part; state: partition, fingerprint, part_id, buffer *)
Definition refine_part (hash : list nat -> nat) (s : OutputSet) (fixed : nat)
  (st : list (nat * nat) * list nat * nat * list nat) (e : nat * nat)
  : option (list (nat * nat) * list nat * nat * list nat) :=
  let '(part, fp, part_id, buffer) := st in
  '(fingerprints, buffer) <- bits_loop (refine_channel hash s fixed) 16 (fst e) ([], buffer);;
  '(part, fp, part_id) <- cut_m part fp part_id fingerprints;;
  part_id <- inc16 part_id;;
  Some (part, fp, part_id, buffer).
(* canon.rs:391-439 one index of refine *)
Definition mach_refine_slot (hash : list nat -> nat) (m : CanonM) (i : nat) : option CanonM :=
  let r := m_arena m in
  d <- rd (r_data r) i;;
  s <- get_set r i;;
  '(part, fp, _, buffer) <- fold_opt (refine_part hash s (r_fixed r)) (d_part d) ([], [], 0, m_buffer m);;
  d' <- sort_partition_m (mkData (d_perm d) (d_invert d) fp part (d_score d));;
  r' <- put_data r i d';;
  Some (mkCanonM r' buffer (m_temp m)).
(* canon.rs:390-440 refine *)
Definition mach_refine (hash : list nat -> nat) (m : CanonM) : option CanonM := fold_opt (mach_refine_slot hash) (r_layer (m_arena m)) m.

(* canon.rs:167-185 the loop *)
Fixpoint mach_loop (hash : list nat -> nat) (fuel : nat) (m : CanonM) : option CanonM :=
  match fuel with
  | 0 => None
  | S f =>
      m1 <- mach_prune_fp m;;
      '(b, m2) <- mach_move_singletons (S (r_used (m_arena m))) false m1;;
      m3 <- (if b : bool then mach_prune hash true m2 else Some m2);;
      if r_fixed (m_arena m3) =? r_used (m_arena m3) then Some m3 else
      m4 <- mach_individualize hash m3;;
      m5 <- mach_prune hash false m4;;
      if r_fixed (m_arena m5) =? r_used (m_arena m5) then Some m5 else
      m6 <- mach_refine hash m5;;
      mach_loop hash f m6
  end.
(* canon.rs:163-187 *)
Definition mach_final (hash : list nat -> nat) (m : CanonM) : option CanonM :=
  if 0 <? r_used (m_arena m) then m1 <- mach_initialize m;; mach_loop hash (S (r_used (m_arena m))) m1 else Some m.
(* canon.rs:163-190 canonicalize and output_set.rs:627-639; the result is copied over the bitmap of self *)
Definition mach_canonicalize (hash : list nat -> nat) (s : OutputSet) (inversion : bool) : option (OutputSet * (bool * list nat)) :=
  if channels s =? 0 then p <- collect CVEC (seq 0 0);; Some (s, (false, p)) else
  m0 <- mach_new s inversion;;
  m <- mach_final hash m0;;
  i <- rd (r_layer (m_arena m)) 0;;
  t <- get_set (m_arena m) i;;
  d <- rd (r_data (m_arena m)) i;;
  if length (bitmap s) =? length (bitmap t)
  then Some (mkOutputSet (channels s) (bitmap t), (d_invert d, d_perm d))
  else None.
