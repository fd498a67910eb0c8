(* Model of /repo/src/output_set.rs (except canonicalize and subsumes_permuted, see CanonModel.v and
   SubsumeModel.v).  Bitmaps are lists of booleans, indices and masks are natural numbers. Reading a
   bitmap out of range panics in Rust; the model returns a default there, and all theorems are about
   channels in range, for which every index used is below 2^channels. *)
From Coq Require Import List Arith Bool Lia.
Import ListNotations.
From Verif Require Import Spec Util.

(* src/output_set.rs:13 *)
Definition MAX_CHANNELS : nat := 11.

(* src/output_set.rs:14 *)
Definition MAX_BITMAP_SIZE : nat := 2 ^ MAX_CHANNELS.

(* src/output_set.rs:11 *)
Definition PAIR_ABSTRACTION_GROUPS : nat := 4.

(* src/output_set.rs:29-33 struct OutputSet; the Bitmap type parameter (owned, borrowed, ArrayVec) is
   erased. *)
Record OutputSet : Type := mkOutputSet { channels : nat; bitmap : list bool }.

(* src/output_set.rs:35-43 PartialEq: compares bitmaps only *)
Definition os_eqb (a b : OutputSet) : bool := list_eqb Bool.eqb (bitmap a) (bitmap b).

(* src/output_set.rs:47-64 PartialOrd/Ord: lexicographic on the bitmap, false < true *)
Definition os_cmp (a b : OutputSet) : comparison := list_cmp bool_cmp (bitmap a) (bitmap b).

(* src/output_set.rs:67-73 (and 75-81) all_values *)
Definition all_values (n : nat) : OutputSet := mkOutputSet n (repeat true (2 ^ n)).

(* src/output_set.rs:83-85 packed_len_for_channels *)
Definition packed_len_for_channels (n : nat) : nat := (2 ^ n + 7) / 8.

(* src/output_set.rs:87-89 abstraction_len_for_channels (n = 0 would underflow in Rust; truncated
   subtraction gives 0 here) *)
Definition abstraction_len_for_channels (n : nat) : nat := n * (n - 1) * PAIR_ABSTRACTION_GROUPS.

(* src/output_set.rs:143-145 len *)
Definition os_len (s : OutputSet) : nat :=
  fold_left (fun a present => a + Nat.b2n present) (bitmap s) 0.

(* usize::count_ones (src/output_set.rs:151, 166, 224, 258, 299, 325) *)
Fixpoint count_ones_f (fuel v : nat) : nat :=
  match fuel with
  | 0 => 0
  | S f => if v =? 0 then 0 else Nat.b2n (Nat.odd v) + count_ones_f f (Nat.div2 v)
  end.
(* usize::count_ones (src/output_set.rs:151, 166, 224, 258, 299, 325), with fuel *)
Definition count_ones (v : nat) : nat := count_ones_f v v.

(* iter().enumerate() (src/output_set.rs:150, 165, 222) *)
Definition enumerate {A} (l : list A) : list (nat * A) := combine (seq 0 (length l)) l.

(* src/output_set.rs:147-155 weight_histogram *)
Definition weight_histogram (s : OutputSet) : list nat :=
  fold_left (fun h (e : nat * bool) =>
               let w := count_ones (fst e) in upd h w (nth w h 0 + Nat.b2n (snd e)))
            (enumerate (bitmap s)) (repeat 0 (channels s + 1)).

(* src/output_set.rs:165-172 the loop of is_sorted, with its early exit *)
Fixpoint is_sorted_loop (l : list (nat * bool)) (already_present : list bool) : bool :=
  match l with
  | [] => true
  | (index, present) :: r =>
      let w := count_ones index in
      if nth w already_present false && present then false
      else is_sorted_loop r (upd already_present w (nth w already_present false || present))
  end.

(* src/output_set.rs:157-175 is_sorted *)
Definition is_sorted (s : OutputSet) : bool :=
  if channels s <? 2 then true
  else is_sorted_loop (enumerate (bitmap s)) (repeat false (channels s + 1)).

(* The loop "index = mask; while index < size { ...; index = (index + 1) | mask }" of
   src/output_set.rs:181-189, 202-208, 253-261, 294-306, 321-332, 350-365, 578-594, 611-620, as the list
   of the values taken by index.  Fuel: size steps (Bits/OutputSetProofs show it is enough). *)
Fixpoint strided_from (fuel size mask index : nat) : list nat :=
  match fuel with
  | 0 => []
  | S f => if index <? size then index :: strided_from f size mask (Nat.lor (index + 1) mask) else []
  end.
(* the same loops (src/output_set.rs:181-189 and the others above), from the first index *)
Definition strided (size mask : nat) : list nat := strided_from size size mask mask.

(* bitmap[i] (src/output_set.rs:185, 199-206, 259, 300-301, 326-327, 354-357, 497) *)
Definition bget (bm : list bool) (i : nat) : bool := nth i bm false.

(* src/output_set.rs:177-192 is_channel_unconstrained *)
Definition is_channel_unconstrained (s : OutputSet) (channel : nat) : bool :=
  let mask := 2 ^ channel in
  forallb (fun index => Bool.eqb (bget (bitmap s) index) (bget (bitmap s) (Nat.lxor index mask)))
          (strided (length (bitmap s)) mask).

(* src/output_set.rs:194-211 channel_fingerprint *)
Definition channel_fingerprint (s : OutputSet) (channel : nat) : nat :=
  let bm := bitmap s in
  let all_mask := length bm - 1 in
  let mask := 2 ^ channel in
  let f1 := Nat.b2n (bget bm mask) in
  let f2 := f1 + Nat.b2n (bget bm (Nat.lxor mask all_mask)) * 2 in
  fold_left (fun f index => f + Nat.b2n (bget bm index) * 4) (strided (length bm) mask) f2.

(* src/output_set.rs:213-231 low_channels_fingerprint.  [hash] stands for FxHasher on the buffer;
   it is an arbitrary function in all theorems. *)
Definition low_channels_fingerprint_buffer (s : OutputSet) (low_channels : nat) : list nat :=
  let weights := channels s + 1 - low_channels in
  let low_indices := 2 ^ low_channels in
  let low_mask := low_indices - 1 in
  fold_left (fun buf (e : nat * bool) =>
               let low_index := Nat.land (fst e) low_mask in
               let high_weight := count_ones (Nat.ldiff (fst e) low_mask) in
               let pos := high_weight + weights * low_index in
               upd buf pos (nth pos buf 0 + Nat.b2n (snd e)))
            (enumerate (bitmap s)) (repeat 0 (weights * low_indices)).
(* src/output_set.rs:213-231 low_channels_fingerprint: the buffer is hashed (228-230) *)
Definition low_channels_fingerprint (hash : list nat -> nat) (s : OutputSet) (low_channels : nat) : nat :=
  hash (low_channels_fingerprint_buffer s low_channels).

(* src/output_set.rs:233-266 low_channels_channel_fingerprint *)
Definition low_channels_channel_fingerprint_buffer (s : OutputSet) (low_channels channel : nat) : list nat :=
  let bm := bitmap s in
  let weights := channels s - low_channels in
  let low_indices := 2 ^ low_channels in
  let mask := 2 ^ channel in
  let low_mask := low_indices - 1 in
  fold_left (fun buf index =>
               let low_index := Nat.land index low_mask in
               let high_weight := count_ones (Nat.ldiff index (Nat.lor low_mask mask)) in
               let pos := high_weight + weights * low_index in
               upd buf pos (nth pos buf 0 + Nat.b2n (bget bm index)))
            (strided (length bm) mask) (repeat 0 (weights * low_indices)).
(* src/output_set.rs:233-266: the buffer is hashed (263-265) *)
Definition low_channels_channel_fingerprint (hash : list nat -> nat) (s : OutputSet)
  (low_channels channel : nat) : nat :=
  hash (low_channels_channel_fingerprint_buffer s low_channels channel).

(* src/output_set.rs:268-272 low_channels_channel_abstraction_len *)
Definition low_channels_channel_abstraction_len (s : OutputSet) (low_channels : nat) : nat :=
  (channels s - low_channels) * 2 ^ low_channels * 3.

(* buffer[pos] += v (src/output_set.rs:225, 259, 302-304) *)
Definition add_at (buf : list nat) (pos v : nat) : list nat := upd buf pos (nth pos buf 0 + v).

(* src/output_set.rs:274-307 low_channels_channel_abstraction; the caller's buffer has
   low_channels_channel_abstraction_len entries (all are zeroed first) *)
Definition low_channels_channel_abstraction (s : OutputSet) (low_channels channel : nat) : list nat :=
  let bm := bitmap s in
  let weights := channels s - low_channels in
  let low_indices := 2 ^ low_channels in
  let mask := 2 ^ channel in
  let low_mask := low_indices - 1 in
  fold_left (fun buf index =>
               let low_index := Nat.land index low_mask in
               let high_weight := count_ones (Nat.ldiff index (Nat.lor low_mask mask)) in
               let value_hi := bget bm index in
               let value_lo := bget bm (Nat.lxor index mask) in
               let pos := 3 * (high_weight + weights * low_index) in
               let buf0 := add_at buf (0 + pos) (Nat.b2n value_lo) in
               let buf1 := add_at buf0 (1 + pos) (Nat.b2n value_hi) in
               add_at buf1 (2 + pos) (Nat.b2n (value_lo && value_hi)))
            (strided (length bm) mask)
            (repeat 0 (low_channels_channel_abstraction_len s low_channels)).

(* src/output_set.rs:309-335 channel_abstraction *)
Definition channel_abstraction (s : OutputSet) (channel : nat) : list nat * list nat * list nat :=
  let bm := bitmap s in
  let weights := channels s in
  let mask := 2 ^ channel in
  fold_left (fun (a : list nat * list nat * list nat) index =>
               let '(a0, a1, a2) := a in
               let weight := count_ones (Nat.ldiff index mask) in
               let value_hi := bget bm index in
               let value_lo := bget bm (Nat.lxor index mask) in
               (add_at a0 weight (Nat.b2n value_lo), add_at a1 weight (Nat.b2n value_hi),
                add_at a2 weight (Nat.b2n (value_lo && value_hi))))
            (strided (length bm) mask) (repeat 0 weights, repeat 0 weights, repeat 0 weights).

(* src/output_set.rs:337-368 channel_pair_abstraction *)
Definition channel_pair_abstraction (s : OutputSet) (c0 c1 : nat) : list nat :=
  let bm := bitmap s in
  let mask_0 := 2 ^ c0 in
  let mask_1 := 2 ^ c1 in
  let mask := Nat.lor mask_0 mask_1 in
  fold_left (fun a index =>
               let v0 := bget bm index in
               let v1 := bget bm (Nat.lxor index mask_0) in
               let v2 := bget bm (Nat.lxor index mask_1) in
               let v3 := bget bm (Nat.lxor index mask) in
               [nth 0 a 0 + Nat.b2n v0; nth 1 a 0 + Nat.b2n v1;
                nth 2 a 0 + Nat.b2n v2; nth 3 a 0 + Nat.b2n v3])
            (strided (length bm) mask) [0; 0; 0; 0].

(* src/output_set.rs:370-375 subsumes_unpermuted *)
Definition subsumes_unpermuted (s other : OutputSet) : bool :=
  forallb (fun e : bool * bool => negb (fst e) || snd e) (combine (bitmap s) (bitmap other)).

(* src/output_set.rs:381-383 packed_len *)
Definition packed_len (s : OutputSet) : nat := (length (bitmap s) + 7) / 8.

(* src/output_set.rs:393-400, 407-414: one byte from up to eight booleans, missing ones are false *)
Definition byte_of (chunk : list bool) : nat :=
  fold_left (fun acc i => Nat.lor acc (Nat.shiftl (Nat.b2n (nth i chunk false)) i)) (seq 1 7)
            (Nat.b2n (nth 0 chunk false)).

(* src/output_set.rs:385-416 pack_into_slice on the bitmap and the target slice; None is the panic of
   the unwrap in line 406 *)
Fixpoint pack_into (bm : list bool) (slice : list nat) : option (list nat) :=
  match bm with
  | b0 :: b1 :: b2 :: b3 :: b4 :: b5 :: b6 :: b7 :: r =>
      match slice with
      | _ :: sr => match pack_into r sr with
                   | Some t => Some (byte_of [b0; b1; b2; b3; b4; b5; b6; b7] :: t)
                   | None => None
                   end
      | [] => if length bm mod 8 =? 0 then Some [] else None
      end
  | [] => Some slice
  | _ => match slice with
         | _ :: sr => Some (byte_of bm :: sr)
         | [] => None
         end
  end.

(* src/output_set.rs:418-432 packed_pvec / packed *)
Definition packed (s : OutputSet) : option (list nat) := pack_into (bitmap s) (repeat 0 (packed_len s)).

(* source_byte & (1 << i) != 0 *)
Definition byte_bit (byte i : nat) : bool := negb (Nat.land byte (Nat.shiftl 1 i) =? 0).

(* src/output_set.rs:641-667 unpack_from_slice on the bitmap to be overwritten and the source slice;
   None is the panic of the unwrap in line 662 *)
Fixpoint unpack_into (bm : list bool) (slice : list nat) : option (list bool) :=
  match bm with
  | _ :: _ :: _ :: _ :: _ :: _ :: _ :: _ :: r =>
      match slice with
      | s :: sr => match unpack_into r sr with
                   | Some t => Some (map (byte_bit s) (seq 0 8) ++ t)
                   | None => None
                   end
      | [] => if length bm mod 8 =? 0 then Some bm else None
      end
  | [] => Some []
  | _ => match slice with
         | s :: _ => Some (map (byte_bit s) (seq 0 (length bm)))
         | [] => None
         end
  end.

(* src/output_set.rs:91-95 from_packed *)
Definition from_packed (n : nat) (pk : list nat) : option OutputSet :=
  match unpack_into (bitmap (all_values n)) pk with
  | Some bm => Some (mkOutputSet n bm)
  | None => None
  end.

(* src/output_set.rs:442-457 the four descending-sorted groups of one channel *)
Definition channel_groups (s : OutputSet) (channel : nat) : list (list nat) :=
  let others := filter (fun o => negb (o =? channel)) (seq 0 (channels s)) in
  let pairs := map (fun o => channel_pair_abstraction s channel o) others in
  map (fun group => isort (fun a b => b <=? a) (map (fun a => nth group a 0) pairs))
      (seq 0 PAIR_ABSTRACTION_GROUPS).

(* src/output_set.rs:458-464 the writes of one channel into the abstraction array *)
Definition write_groups (n channel : nat) (groups : list (list nat)) (a : list nat) : list nat :=
  fold_left (fun a (ge : nat * list nat) =>
     fold_left (fun a (ie : nat * nat) =>
                  upd a (channel + n * (fst ge + PAIR_ABSTRACTION_GROUPS * fst ie)) (snd ie))
               (enumerate (snd ge)) a)
    (enumerate groups) a.

(* src/output_set.rs:471-480 the transposition of one chunk of 4*channels entries *)
Definition transpose_chunk (n : nat) (tmp : list nat) : list nat :=
  fold_left (fun ch i =>
     fold_left (fun ch j => upd ch (i + j * 4) (nth (j + i * n) tmp 0)) (seq 0 n) ch)
    (seq 0 4) tmp.

(* src/output_set.rs:438-481 write_abstraction_into and 483-489 abstraction.  The cast to u16 is
   omitted: values are at most 2^(n-2) <= 512. *)
Definition abstraction (s : OutputSet) : list nat :=
  let n := channels s in
  let a0 := repeat 0 (abstraction_len_for_channels n) in
  let a1 := fold_left (fun a channel => write_groups n channel (channel_groups s channel) a) (seq 0 n) a0 in
  let a2 := concat (map (isort Nat.leb) (chunks n a1)) in
  concat (map (transpose_chunk n) (chunks (n * 4) a2)).

(* src/output_set.rs:491-498 channel_is_extremal *)
Definition channel_is_extremal (s : OutputSet) (polarity : bool) (channel : nat) : bool :=
  let all_mask := length (bitmap s) - 1 in
  bget (bitmap s) (Nat.lxor (2 ^ channel) (all_mask * Nat.b2n polarity)).

(* src/output_set.rs:536-548 the inner loop over the bits for one popped index.  The state is the
   target bitmap and the queue (a stack, top first).  None: push on a full ArrayVec (line 544). *)
Definition prune_inner (bm : list bool) (n mask_low mask_high flip new_flip index : nat)
  (st : list bool * list nat) : option (list bool * list nat) :=
  fold_opt (fun (st : list bool * list nat) b =>
              let '(target, queue) := st in
              let next := Nat.lor index (2 ^ b) in
              let next_target :=
                Nat.lxor (Nat.lor (Nat.land next mask_low) (Nat.land (Nat.shiftr next 1) mask_high)) new_flip in
              if bget bm (Nat.lxor next flip) && negb (bget target next_target)
              then if MAX_BITMAP_SIZE <=? length queue then None
                   else Some (upd target next_target true, next :: queue)
              else Some st)
           (seq 0 n) st.

(* src/output_set.rs:534-549 while let Some(index) = queue.pop(); None: panic or out of fuel *)
Fixpoint prune_loop (fuel : nat) (bm : list bool) (n mask_low mask_high flip new_flip : nat)
  (st : list bool * list nat) : option (list bool) :=
  match fuel with
  | 0 => None
  | S f =>
      match snd st with
      | [] => Some (fst st)
      | index :: queue =>
          match prune_inner bm n mask_low mask_high flip new_flip index (fst st, queue) with
          | Some st' => prune_loop f bm n mask_low mask_high flip new_flip st'
          | None => None
          end
      end
  end.

(* src/output_set.rs:500-550 prune_extremal_channel_into; tchannels is the channel count of the target
   (its old contents are overwritten).  None: one of the two assertions (506, 522) or a full queue. *)
Definition prune_extremal_channel_into (s : OutputSet) (polarity : bool) (channel tchannels : nat)
  : option OutputSet :=
  if negb (tchannels + 1 =? channels s) then None
  else
    let bm := bitmap s in
    let all_mask := length bm - 1 in
    let mask := 2 ^ channel in
    let flip := all_mask * Nat.b2n polarity in
    if negb (bget bm (Nat.lxor mask flip)) then None
    else
      let new_all_mask := Nat.shiftr all_mask 1 in
      let mask_low := mask - 1 in
      let mask_high := Nat.lxor new_all_mask mask_low in
      let new_flip := new_all_mask * Nat.b2n polarity in
      let target := upd (repeat false (2 ^ tchannels)) new_flip true in
      match prune_loop (2 ^ channels s + 1) bm (channels s) mask_low mask_high flip new_flip (target, [mask]) with
      | Some t => Some (mkOutputSet tchannels t)
      | None => None
      end.

(* src/output_set.rs:588-593 the body of the loop of apply_comparator *)
Definition apply_comparator_body (mask_0 mask_1 : nat) (st : list bool * bool * bool) (index : nat)
  : list bool * bool * bool :=
  let '(bm, out_of_order_present, in_order_present) := st in
  let out_of_order := bget bm (Nat.lxor index mask_0) in
  let bm1 := upd bm (Nat.lxor index mask_0) false in
  let in_order := bget bm1 (Nat.lxor index mask_1) in
  (upd bm1 (Nat.lxor index mask_1) (in_order || out_of_order),
   out_of_order_present || out_of_order, in_order_present || in_order).

(* src/output_set.rs:568-597 apply_comparator *)
Definition apply_comparator (s : OutputSet) (c0 c1 : nat) : OutputSet * bool :=
  let mask_0 := 2 ^ c0 in
  let mask_1 := 2 ^ c1 in
  let '(bm, ooo, ino) :=
    fold_left (apply_comparator_body mask_0 mask_1)
              (strided (length (bitmap s)) (Nat.lor mask_0 mask_1)) (bitmap s, false, false) in
  (mkOutputSet (channels s) bm, ooo && ino).

(* slice.swap(i, j) (src/output_set.rs:618) *)
Definition swap_at (bm : list bool) (i j : nat) : list bool := upd (upd bm i (bget bm j)) j (bget bm i).

(* src/output_set.rs:599-621 swap_channels *)
Definition swap_channels (s : OutputSet) (c0 c1 : nat) : OutputSet :=
  if c0 =? c1 then s
  else
    let mask_0 := 2 ^ c0 in
    let mask_1 := 2 ^ c1 in
    mkOutputSet (channels s)
      (fold_left (fun bm index => swap_at bm (Nat.lxor index mask_0) (Nat.lxor index mask_1))
                 (strided (length (bitmap s)) (Nat.lor mask_0 mask_1)) (bitmap s)).

(* src/output_set.rs:623-625 invert *)
Definition invert (s : OutputSet) : OutputSet := mkOutputSet (channels s) (rev (bitmap s)).

(* src/output_set.rs:674-687 Perm *)
Record Perm : Type := mkPerm { perm_invert : bool; perm_list : list nat }.
(* src/output_set.rs:680-686 Perm::identity *)
Definition perm_identity (n : nat) : Perm := mkPerm false (seq 0 n).
