(* src/fix.rs: adding the bound bytes to a certificate in the old format. *)
From Coq Require Import String List Arith Bool Lia ZArith.
Import ListNotations.
From Verif Require Import Spec Util TreeModel OutputSetModel DecodeModel FileModel LogModel ProofGenModel.

(* src/fix.rs:14 the BTreeMap pruned_sets: its keys with the latest value first *)
Definition Pruned := list (nat * list nat * nat).
(* src/fix.rs:76 get *)
Definition pr_get (channels : nat) (packed : list nat) (m : Pruned) : option nat :=
  option_map snd (find (fun e => (fst (fst e) =? channels) && list_eqb Nat.eqb (snd (fst e)) packed) m).

(* src/fix.rs:18-35 one line of index.txt *)
Definition fix_line (fs : Fs) (m : Pruned) (line : text) : option Pruned :=
  channels <- line_channels line ;;
  bound <- line_bound line ;;
  file <- fs (with_extension line (str "pbin")) ;;
  data <- mmap file ;;
  packed_sets <- chunks (packed_len_for_channels channels) data ;;
  Some (fold_left (fun m packed => (channels, packed, bound) :: m) packed_sets m).

(* src/fix.rs:14-35 *)
Definition fix_load (fs : Fs) : option Pruned :=
  index <- fs index_name ;; fold_opt (fix_line fs) (lines index) [].

(* read_u32 and read_u64 of byteorder (src/fix.rs:46, 55-56): an error if there are not enough bytes left *)
Definition read_le (len : nat) (bytes : list nat) : option (Z * list nat) :=
  if length bytes <? len then None else Some (le_value (firstn len bytes), skipn len bytes).

(* src/fix.rs:54-65 the headers; additions that overflow panic (they wrap in a release build).  steps is the
   number of headers still to copy. *)
Fixpoint fix_headers (steps : nat) (step : Z) (bytes : list nat) : option (list Z * list nat * list nat) :=
  match steps with
  | 0 => Some ([], [], bytes)
  | S k =>
      r <- read_le 8 bytes ;;
      let '(offset, bytes) := r in
      r <- read_le 4 bytes ;;
      let '(len, bytes) := r in
      if (2 ^ 64 <=? offset + step)%Z || (2 ^ 32 <=? len + 1)%Z then None
      else
        r <- fix_headers k (step + 1) bytes ;;
        let '(lens, out, bytes) := r in
        Some (len :: lens, le_bytes 8 (offset + step) ++ le_bytes 4 (len + 1) ++ out, bytes)
  end.

(* src/fix.rs:67-82 the steps; take and read_to_end give fewer bytes at the end of the file *)
Fixpoint fix_steps (m : Pruned) (lens : list Z) (bytes : list nat) : option (list nat) :=
  match lens with
  | [] => Some []
  | len :: r =>
      let buffer := firstn (Z.to_nat len) bytes in
      match buffer with
      | [] => None
      | channels :: rest =>
          let plen := packed_len_for_channels channels in
          if length rest <? plen then None
          else
            bound <- pr_get channels (firstn plen rest) m ;;
            out <- fix_steps m r (skipn (Z.to_nat len) bytes) ;;
            Some (channels :: bound :: rest ++ out)
      end
  end.

Definition old_name : text := str "proof.old.bin".   (* src/fix.rs:37 *)
Definition new_name : text := str "proof.bin".       (* src/fix.rs:40, src/proof.rs:69 *)

(* src/fix.rs:13-83; the files after a panic are in CertModel.v (a panic after line 44 leaves an unfinished
   proof.bin) *)
Definition fix_proof (fs : Fs) : option Fs :=
  m <- fix_load fs ;;
  old <- fs old_name ;;
  match fs new_name with
  | Some _ => None
  | None =>
      r <- read_le 4 old ;;
      let '(count, bytes) := r in
      h <- fix_headers (Z.to_nat count) 0 bytes ;;
      let '(lens, headers, bytes) := h in
      body <- fix_steps m lens bytes ;;
      Some (fs_set fs new_name (Some (le_bytes 4 count ++ headers ++ body)))
  end.
