(* The functions of src/output_set.rs once more, this time with the checks the machine makes: reading or
   writing a slice out of range, subtracting below zero, growing an ArrayVec beyond its capacity, an
   assertion that fails (debug assertions count) are None, and a cast to u16 keeps the low 16 bits.  The
   loops "while index < size" are loops with fuel, out of fuel is None as well.  OutputSetModel.v has the
   same functions as total functions without these checks; PropMachine.v proves that both agree on all
   sets of at most MAX_CHANNELS channels.
   Simplification: usize and u64 are natural numbers; the numbers here are indices, counts and lengths
   of vectors far below 2^32. *)
From Coq Require Import List Arith Bool Lia.
Import ListNotations.
From Verif Require Import Spec Util OutputSetModel.

Local Notation "x <- a ;; b" := (match a with Some x => b | None => None end)
  (at level 61, a at next level, right associativity).

(* slice[i] as a value (Rust's Index), as in src/output_set.rs:185, 199, 300 *)
Definition rd {A} (l : list A) (i : nat) : option A := nth_error l i.

(* slice[i] = v (Rust's IndexMut), as in src/output_set.rs:461, 532, 588 *)
Definition wr {A} (l : list A) (i : nat) (v : A) : option (list A) :=
  if i <? length l then Some (upd l i v) else None.

(* slice[i] += v, as in src/output_set.rs:151, 225, 302 *)
Definition bump (l : list nat) (i v : nat) : option (list nat) := old <- rd l i ;; wr l i (old + v).

(* a - b on usize, with the overflow check of a debug build, as in src/output_set.rs:88, 196, 242 *)
Definition sub_u (a b : nat) : option nat := if b <=? a then Some (a - b) else None.

(* v as u16, as in src/output_set.rs:462, 531, 544 *)
Definition as_u16 (v : nat) : nat := v mod 2 ^ 16.

(* collect::<ArrayVec<[T; cap]>>() (src/output_set.rs:79, 314, 684) and
   try_extend_from_slice(..).unwrap() on an empty ArrayVec (136, 473) *)
Definition collect {A} (cap : nat) (l : list A) : option (list A) :=
  if length l <=? cap then Some l else None.

(* ArrayVec::push, as in src/output_set.rs:452, 531, 544 *)
Definition push {A} (cap : nat) (l : list A) (v : A) : option (list A) :=
  if length l <? cap then Some (l ++ [v]) else None.

(* src/output_set.rs:15 *)
Definition MAX_PACKED_SIZE : nat := 2 ^ (MAX_CHANNELS - 3).

(* src/output_set.rs:18 the capacity of CVec, 19 of WVec, 20 of BVec, 21 of PVec, 22 of AVec *)
Definition CVEC : nat := MAX_CHANNELS.
(* src/output_set.rs:19 WVec *)
Definition WVEC : nat := MAX_CHANNELS + 1.
(* src/output_set.rs:20 BVec *)
Definition BVEC : nat := MAX_BITMAP_SIZE.
(* src/output_set.rs:21 PVec *)
Definition PVEC : nat := MAX_PACKED_SIZE.
(* src/output_set.rs:22 AVec *)
Definition AVEC : nat := 512.

(* "while index < size { body; index = (index + 1) | mask; }" of src/output_set.rs:181-189, 202-208,
   253-261, 294-306, 321-332, 350-365, 578-594, 611-620 *)
Fixpoint stride_loop {St} (fuel size mask : nat) (body : St -> nat -> option St) (index : nat) (st : St)
  : option St :=
  match fuel with
  | 0 => None
  | S f =>
      if index <? size then st' <- body st index ;; stride_loop f size mask body (Nat.lor (index + 1) mask) st'
      else Some st
  end.
(* the same loops (src/output_set.rs:181-189 and the others above), from the first index *)
Definition strided_c {St} (size mask : nat) (body : St -> nat -> option St) (st : St) : option St :=
  stride_loop (S size) size mask body mask st.

(* src/output_set.rs:67-81 all_values and all_values_bvec (the debug assertion, the capacity of BVec) *)
Definition all_values_c (n : nat) : option OutputSet :=
  if n <=? MAX_CHANNELS then Some (mkOutputSet n (repeat true (2 ^ n))) else None.
(* src/output_set.rs:75-81 all_values_bvec *)
Definition all_values_bvec_c (n : nat) : option OutputSet :=
  if n <=? MAX_CHANNELS then bm <- collect BVEC (repeat true (2 ^ n)) ;; Some (mkOutputSet n bm) else None.

(* src/output_set.rs:134-141 to_owned_bvec *)
Definition to_owned_bvec_c (s : OutputSet) : option OutputSet :=
  bm <- collect BVEC (bitmap s) ;; Some (mkOutputSet (channels s) bm).

(* src/output_set.rs:87-89 abstraction_len_for_channels *)
Definition abstraction_len_c (n : nat) : option nat :=
  k <- sub_u n 1 ;; Some (n * k * PAIR_ABSTRACTION_GROUPS).

(* src/output_set.rs:147-155 weight_histogram *)
Definition weight_histogram_c (s : OutputSet) : option (list nat) :=
  histogram <- collect WVEC (repeat 0 (channels s + 1)) ;;
  fold_opt (fun h (e : nat * bool) => bump h (count_ones (fst e)) (Nat.b2n (snd e)))
           (enumerate (bitmap s)) histogram.

(* src/output_set.rs:165-174 the loop of is_sorted *)
Fixpoint is_sorted_loop_c (l : list (nat * bool)) (already_present : list bool) : option bool :=
  match l with
  | [] => Some true
  | (index, present) :: r =>
      let weight := count_ones index in
      old <- rd already_present weight ;;
      if old && present then Some false
      else next <- wr already_present weight (old || present) ;; is_sorted_loop_c r next
  end.

(* src/output_set.rs:157-175 is_sorted *)
Definition is_sorted_c (s : OutputSet) : option bool :=
  if channels s <? 2 then Some true
  else already_present <- collect WVEC (repeat false (channels s + 1)) ;;
       is_sorted_loop_c (enumerate (bitmap s)) already_present.

(* src/output_set.rs:184-189 the loop of is_channel_unconstrained, with its early return *)
Fixpoint unconstrained_loop_c (fuel : nat) (bm : list bool) (mask index : nat) : option bool :=
  match fuel with
  | 0 => None
  | S f =>
      if index <? length bm then
        a <- rd bm index ;;
        b <- rd bm (Nat.lxor index mask) ;;
        if negb (Bool.eqb a b) then Some false
        else unconstrained_loop_c f bm mask (Nat.lor (index + 1) mask)
      else Some true
  end.

(* src/output_set.rs:177-192 is_channel_unconstrained *)
Definition is_channel_unconstrained_c (s : OutputSet) (channel : nat) : option bool :=
  unconstrained_loop_c (S (length (bitmap s))) (bitmap s) (2 ^ channel) (2 ^ channel).

(* src/output_set.rs:194-211 channel_fingerprint *)
Definition channel_fingerprint_c (s : OutputSet) (channel : nat) : option nat :=
  let bm := bitmap s in
  all_mask <- sub_u (length bm) 1 ;;
  let mask := 2 ^ channel in
  a <- rd bm mask ;;
  b <- rd bm (Nat.lxor mask all_mask) ;;
  strided_c (length bm) mask (fun f index => v <- rd bm index ;; Some (f + Nat.b2n v * 4))
            (Nat.b2n a + Nat.b2n b * 2).

(* src/output_set.rs:213-231 low_channels_fingerprint: the buffer that is hashed *)
Definition low_channels_fingerprint_buffer_c (s : OutputSet) (low_channels : nat) : option (list nat) :=
  weights <- sub_u (channels s + 1) low_channels ;;
  let low_indices := 2 ^ low_channels in
  low_mask <- sub_u low_indices 1 ;;
  fold_opt (fun buf (e : nat * bool) =>
              let low_index := Nat.land (fst e) low_mask in
              let high_weight := count_ones (Nat.ldiff (fst e) low_mask) in
              bump buf (high_weight + weights * low_index) (Nat.b2n (snd e)))
           (enumerate (bitmap s)) (repeat 0 (weights * low_indices)).

(* src/output_set.rs:233-266 low_channels_channel_fingerprint: the buffer that is hashed *)
Definition low_channels_channel_fingerprint_buffer_c (s : OutputSet) (low_channels channel : nat)
  : option (list nat) :=
  if negb (low_channels <=? channel) then None else
  let bm := bitmap s in
  weights <- sub_u (channels s) low_channels ;;
  let low_indices := 2 ^ low_channels in
  let mask := 2 ^ channel in
  low_mask <- sub_u low_indices 1 ;;
  strided_c (length bm) mask
    (fun buf index =>
       let low_index := Nat.land index low_mask in
       let high_weight := count_ones (Nat.ldiff index (Nat.lor low_mask mask)) in
       v <- rd bm index ;;
       bump buf (high_weight + weights * low_index) (Nat.b2n v))
    (repeat 0 (weights * low_indices)).

(* src/output_set.rs:268-272 low_channels_channel_abstraction_len *)
Definition low_channels_channel_abstraction_len_c (s : OutputSet) (low_channels : nat) : option nat :=
  weights <- sub_u (channels s) low_channels ;; Some (weights * 2 ^ low_channels * 3).

(* src/output_set.rs:274-307 low_channels_channel_abstraction; [buffer] is the caller's slice *)
Definition low_channels_channel_abstraction_c (s : OutputSet) (low_channels channel : nat)
  (buffer : list nat) : option (list nat) :=
  if negb (low_channels <=? channel) then None else
  let bm := bitmap s in
  weights <- sub_u (channels s) low_channels ;;
  let low_indices := 2 ^ low_channels in
  let mask := 2 ^ channel in
  low_mask <- sub_u low_indices 1 ;;
  strided_c (length bm) mask
    (fun buf index =>
       let low_index := Nat.land index low_mask in
       let high_weight := count_ones (Nat.ldiff index (Nat.lor low_mask mask)) in
       value_hi <- rd bm index ;;
       value_lo <- rd bm (Nat.lxor index mask) ;;
       buf0 <- bump buf (0 + 3 * (high_weight + weights * low_index)) (Nat.b2n value_lo) ;;
       buf1 <- bump buf0 (1 + 3 * (high_weight + weights * low_index)) (Nat.b2n value_hi) ;;
       bump buf1 (2 + 3 * (high_weight + weights * low_index)) (Nat.b2n (value_lo && value_hi)))
    (map (fun _ => 0) buffer).

(* src/output_set.rs:309-335 channel_abstraction *)
Definition channel_abstraction_c (s : OutputSet) (channel : nat) : option (list nat * list nat * list nat) :=
  let bm := bitmap s in
  zeros <- collect CVEC (repeat 0 (channels s)) ;;
  let mask := 2 ^ channel in
  strided_c (length bm) mask
    (fun (a : list nat * list nat * list nat) index =>
       let '(a0, a1, a2) := a in
       let weight := count_ones (Nat.ldiff index mask) in
       value_hi <- rd bm index ;;
       value_lo <- rd bm (Nat.lxor index mask) ;;
       b0 <- bump a0 weight (Nat.b2n value_lo) ;;
       b1 <- bump a1 weight (Nat.b2n value_hi) ;;
       b2 <- bump a2 weight (Nat.b2n (value_lo && value_hi)) ;;
       Some (b0, b1, b2))
    (zeros, zeros, zeros).

(* src/output_set.rs:337-368 channel_pair_abstraction; the array of four counts *)
Definition channel_pair_abstraction_c (s : OutputSet) (c0 c1 : nat) : option (list nat) :=
  let bm := bitmap s in
  let mask_0 := 2 ^ c0 in
  let mask_1 := 2 ^ c1 in
  let mask := Nat.lor mask_0 mask_1 in
  strided_c (length bm) mask
    (fun a index =>
       v0 <- rd bm index ;;
       v1 <- rd bm (Nat.lxor index mask_0) ;;
       v2 <- rd bm (Nat.lxor index mask_1) ;;
       v3 <- rd bm (Nat.lxor index mask) ;;
       a1 <- bump a 0 (Nat.b2n v0) ;;
       a2 <- bump a1 1 (Nat.b2n v1) ;;
       a3 <- bump a2 2 (Nat.b2n v2) ;;
       bump a3 3 (Nat.b2n v3))
    (repeat 0 PAIR_ABSTRACTION_GROUPS).

(* src/output_set.rs:418-424 packed_pvec *)
Definition packed_pvec_c (s : OutputSet) : option (list nat) :=
  result <- collect PVEC (repeat 0 (packed_len s)) ;; pack_into (bitmap s) result.

(* src/output_set.rs:442-454 the groups of one channel, before sorting *)
Definition channel_groups_c (s : OutputSet) (channel : nat) : option (list (list nat)) :=
  fold_opt (fun groups other_channel =>
              if other_channel =? channel then Some groups
              else values <- channel_pair_abstraction_c s channel other_channel ;;
                   map_opt (fun e : nat * list nat => push CVEC (snd e) (fst e)) (combine values groups))
           (seq 0 (channels s)) (repeat [] PAIR_ABSTRACTION_GROUPS).

(* src/output_set.rs:458-464 the writes of one channel *)
Definition write_groups_c (n channel : nat) (groups : list (list nat)) (a : list nat) : option (list nat) :=
  fold_opt (fun a (ge : nat * list nat) =>
     fold_opt (fun a (ie : nat * nat) =>
                 wr a (channel + n * (fst ge + PAIR_ABSTRACTION_GROUPS * fst ie)) (as_u16 (snd ie)))
              (enumerate (snd ge)) a)
    (enumerate groups) a.

(* src/output_set.rs:471-480 the transposition of one chunk, through a vector of 64 numbers *)
Definition transpose_chunk_c (n : nat) (chunk : list nat) : option (list nat) :=
  tmp <- collect 64 chunk ;;
  fold_opt (fun ch i =>
     fold_opt (fun ch j => v <- rd tmp (j + i * n) ;; wr ch (i + j * 4) v) (seq 0 n) ch)
    (seq 0 4) chunk.

(* slice.chunks_mut(k), which panics for k = 0 *)
Definition chunks_c {A} (k : nat) (l : list A) : option (list (list A)) :=
  if k =? 0 then None else Some (chunks k l).

(* src/output_set.rs:438-481 write_abstraction_into on the caller's slice *)
Definition write_abstraction_into_c (s : OutputSet) (target : list nat) : option (list nat) :=
  let n := channels s in
  len <- abstraction_len_c n ;;
  if negb (length target =? len) then None else
  a1 <- fold_opt (fun a channel =>
                    groups <- channel_groups_c s channel ;;
                    write_groups_c n channel (map (isort (fun a b => b <=? a)) groups) a)
                 (seq 0 n) target ;;
  cs <- chunks_c n a1 ;;
  let a2 := concat (map (isort Nat.leb) cs) in
  ds <- chunks_c (n * 4) a2 ;;
  es <- map_opt (transpose_chunk_c n) ds ;;
  Some (concat es).

(* src/output_set.rs:483-489 abstraction *)
Definition abstraction_c (s : OutputSet) : option (list nat) :=
  len <- abstraction_len_c (channels s) ;;
  result <- collect AVEC (repeat 0 len) ;;
  write_abstraction_into_c s result.

(* src/output_set.rs:491-498 channel_is_extremal *)
Definition channel_is_extremal_c (s : OutputSet) (polarity : bool) (channel : nat) : option bool :=
  let bm := bitmap s in
  all_mask <- sub_u (length bm) 1 ;;
  rd bm (Nat.lxor (2 ^ channel) (all_mask * Nat.b2n polarity)).

(* src/output_set.rs:536-548 the loop over the bits; the queue of u16 has its top last *)
Definition prune_inner_c (bm : list bool) (n mask_low mask_high flip new_flip index : nat)
  (st : list bool * list nat) : option (list bool * list nat) :=
  fold_opt (fun (st : list bool * list nat) b =>
              let '(target, queue) := st in
              let next := Nat.lor index (2 ^ b) in
              let next_target :=
                Nat.lxor (Nat.lor (Nat.land next mask_low) (Nat.land (Nat.shiftr next 1) mask_high)) new_flip in
              present <- rd bm (Nat.lxor next flip) ;;
              seen <- rd target next_target ;;
              if present && negb seen
              then target' <- wr target next_target true ;;
                   queue' <- push BVEC queue (as_u16 next) ;;
                   Some (target', queue')
              else Some st)
           (seq 0 n) st.

(* src/output_set.rs:534-549 while let Some(index) = queue.pop() *)
Fixpoint prune_loop_c (fuel : nat) (bm : list bool) (n mask_low mask_high flip new_flip : nat)
  (st : list bool * list nat) : option (list bool) :=
  match fuel with
  | 0 => None
  | S f =>
      match rev (snd st) with
      | [] => Some (fst st)
      | index :: queue =>
          st' <- prune_inner_c bm n mask_low mask_high flip new_flip index (fst st, rev queue) ;;
          prune_loop_c f bm n mask_low mask_high flip new_flip st'
      end
  end.

(* src/output_set.rs:500-550 prune_extremal_channel_into on the target set *)
Definition prune_extremal_channel_into_c (s : OutputSet) (polarity : bool) (channel : nat)
  (target : OutputSet) : option OutputSet :=
  if negb (channels target + 1 =? channels s) then None
  else
    let target_bitmap := map (fun _ => false) (bitmap target) in
    let bm := bitmap s in
    all_mask <- sub_u (length bm) 1 ;;
    let mask := 2 ^ channel in
    let flip := all_mask * Nat.b2n polarity in
    start <- rd bm (Nat.lxor mask flip) ;;
    if negb start then None
    else
      let new_all_mask := Nat.shiftr all_mask 1 in
      mask_low <- sub_u mask 1 ;;
      let mask_high := Nat.lxor new_all_mask mask_low in
      let new_flip := new_all_mask * Nat.b2n polarity in
      queue <- push BVEC [] (as_u16 mask) ;;
      target_bitmap1 <- wr target_bitmap new_flip true ;;
      t <- prune_loop_c (length bm + 1) bm (channels s) mask_low mask_high flip new_flip (target_bitmap1, queue) ;;
      Some (mkOutputSet (channels target) t).

(* src/output_set.rs:568-597 apply_comparator *)
Definition apply_comparator_c (s : OutputSet) (c0 c1 : nat) : option (OutputSet * bool) :=
  if negb (negb (c0 =? c1) && (c0 <? channels s) && (c1 <? channels s)) then None else
  let mask_0 := 2 ^ c0 in
  let mask_1 := 2 ^ c1 in
  st <- strided_c (length (bitmap s)) (Nat.lor mask_0 mask_1)
    (fun (st : list bool * bool * bool) index =>
       let '(bm, out_of_order_present, in_order_present) := st in
       out_of_order <- rd bm (Nat.lxor index mask_0) ;;
       bm1 <- wr bm (Nat.lxor index mask_0) false ;;
       in_order <- rd bm1 (Nat.lxor index mask_1) ;;
       bm2 <- wr bm1 (Nat.lxor index mask_1) (in_order || out_of_order) ;;
       Some (bm2, out_of_order_present || out_of_order, in_order_present || in_order))
    (bitmap s, false, false) ;;
  let '(bm, out_of_order_present, in_order_present) := st in
  Some (mkOutputSet (channels s) bm, out_of_order_present && in_order_present).

(* src/output_set.rs:599-621 swap_channels *)
Definition swap_channels_c (s : OutputSet) (c0 c1 : nat) : option OutputSet :=
  if negb ((c0 <? channels s) && (c1 <? channels s)) then None else
  if c0 =? c1 then Some s
  else
    let mask_0 := 2 ^ c0 in
    let mask_1 := 2 ^ c1 in
    bm <- strided_c (length (bitmap s)) (Nat.lor mask_0 mask_1)
      (fun bm index =>
         a <- rd bm (Nat.lxor index mask_0) ;;
         b <- rd bm (Nat.lxor index mask_1) ;;
         bm1 <- wr bm (Nat.lxor index mask_0) b ;;
         wr bm1 (Nat.lxor index mask_1) a)
      (bitmap s) ;;
    Some (mkOutputSet (channels s) bm).
