(* The file operations of src/proof.rs and src/fix.rs that write proof.bin, so that they can be stopped between two
   bytes.  BufWriter writes in blocks and, when it is dropped, the rest; a process that is killed leaves a prefix of
   the bytes, which is what stopping after some of the operations here gives. *)
From Coq Require Import String List Arith Bool Lia ZArith.
Import ListNotations.
From Verif Require Import Spec Util TreeModel OutputSetModel DecodeModel FileModel LogModel ProofGenModel FixModel.

(* the bytes of a file one after the other (src/proof.rs:70-72, 189-205, src/fix.rs:44-82; simplified: the blocks of
   BufWriter are single bytes) *)
Definition write_ops (name : text) (bytes : list nat) : list FsOp := map (fun b => Append name [b]) bytes.

(* src/proof.rs:23-73 what gen_proof does to the files; None: it panics before line 70, so that no file is changed *)
Definition gen_proof_ops (fuel : nat) (fs : Fs) : option (list FsOp) :=
  file <- gen_proof fuel fs ;; Some (Create new_name :: write_ops new_name file).

(* src/fix.rs:54-65 the headers: the bytes written, and the lengths and the rest of the input, or None after a panic.
   The addition in line 60 overflows before the offset is written, that in line 63 after it (they wrap in a
   release build). *)
Fixpoint fix_headers_w (steps : nat) (step : Z) (bytes : list nat) : list nat * option (list Z * list nat) :=
  match steps with
  | 0 => ([], Some ([], bytes))
  | S k =>
      match read_le 8 bytes with
      | None => ([], None)
      | Some (offset, bytes) =>
          match read_le 4 bytes with
          | None => ([], None)
          | Some (len, bytes) =>
              if (2 ^ 64 <=? offset + step)%Z then ([], None)
              else if (2 ^ 32 <=? len + 1)%Z then (le_bytes 8 (offset + step), None)
              else
                let (out, r) := fix_headers_w k (step + 1) bytes in
                (le_bytes 8 (offset + step) ++ le_bytes 4 (len + 1) ++ out,
                 match r with Some (lens, bytes) => Some (len :: lens, bytes) | None => None end)
          end
      end
  end.

(* src/fix.rs:67-82 the steps: the bytes written and whether the loop came to its end *)
Fixpoint fix_steps_w (m : Pruned) (lens : list Z) (bytes : list nat) : list nat * bool :=
  match lens with
  | [] => ([], true)
  | len :: r =>
      match firstn (Z.to_nat len) bytes with
      | [] => ([], false)
      | channels :: rest =>
          let plen := packed_len_for_channels channels in
          if length rest <? plen then ([], false)
          else
            match pr_get channels (firstn plen rest) m with
            | None => ([], false)
            | Some bound =>
                let (out, ok) := fix_steps_w m r (skipn (Z.to_nat len) bytes) in
                (channels :: bound :: rest ++ out, ok)
            end
      end
  end.

(* src/fix.rs:46-82 everything written into the new file and whether there was no panic *)
Definition fix_bytes (m : Pruned) (old : list nat) : list nat * bool :=
  match read_le 4 old with
  | None => ([], false)
  | Some (count, bytes) =>
      let (headers, r) := fix_headers_w (Z.to_nat count) 0 bytes in
      match r with
      | None => (le_bytes 4 count ++ headers, false)
      | Some (lens, bytes) =>
          let (body, ok) := fix_steps_w m lens bytes in (le_bytes 4 count ++ headers ++ body, ok)
      end
  end.

(* src/fix.rs:13-83 what fix_proof does to the files and whether it ends without a panic *)
Definition fix_ops (fs : Fs) : list FsOp * bool :=
  match fix_load fs, fs old_name, fs new_name with
  | Some m, Some old, None =>
      let (bytes, ok) := fix_bytes m old in (Create new_name :: write_ops new_name bytes, ok)
  | _, _, _ => ([], false)
  end.
