(* File names, decimal numbers, text lines and the files of one directory: the parts of the Rust standard library
   that src/search.rs, src/prune.rs, src/proof.rs and src/fix.rs use for their files.

   A text is the list of its bytes (all texts here are ASCII).  I/O errors are not modelled: creating, writing and
   renaming succeed; opening a file that does not exist is None (a panic). *)
From Coq Require Import String Ascii List Arith Bool Lia.
From Coq Require Decimal.
Import ListNotations.
From Verif Require Import Spec Util TreeModel.

(* str and file names as bytes (search.rs:95, prune.rs:118, proof.rs:28, fix.rs:18) *)
Definition text := list nat.

(* a string literal (search.rs:86, 95, prune.rs:41, 46, 116, proof.rs:26, 36, 69, fix.rs:16, 26, 37, 40) *)
Definition str (s : string) : text := map nat_of_ascii (list_ascii_of_string s).

(* Display of an unsigned number, used by format! at search.rs:95 *)
Fixpoint digits (d : Decimal.uint) : text :=
  match d with
  | Decimal.Nil => []
  | Decimal.D0 r => 48 :: digits r
  | Decimal.D1 r => 49 :: digits r
  | Decimal.D2 r => 50 :: digits r
  | Decimal.D3 r => 51 :: digits r
  | Decimal.D4 r => 52 :: digits r
  | Decimal.D5 r => 53 :: digits r
  | Decimal.D6 r => 54 :: digits r
  | Decimal.D7 r => 55 :: digits r
  | Decimal.D8 r => 56 :: digits r
  | Decimal.D9 r => 57 :: digits r
  end.
(* the digits of a number (search.rs:95) *)
Definition show (n : nat) : text := digits (Nat.to_uint n).

(* str::split with a character, used at prune.rs:120, proof.rs:30-32, fix.rs:20-22 *)
Fixpoint split_on (sep : nat) (s : text) : list text :=
  match s with
  | [] => [[]]
  | c :: r =>
      if c =? sep then [] :: split_on sep r
      else match split_on sep r with
           | [] => [[c]]
           | h :: t => (c :: h) :: t
           end
  end.

(* str::parse of an unsigned type, used at prune.rs:120, proof.rs:30-32, fix.rs:20-22: an optional plus sign, at
   least one digit, None on overflow.  max is the largest number of the type; for usize there is no limit in the
   model. *)
Fixpoint parse_digits (max : option nat) (acc : nat) (s : text) : option nat :=
  match s with
  | [] => Some acc
  | c :: r =>
      if (48 <=? c) && (c <=? 57) then
        let v := acc * 10 + (c - 48) in
        if match max with Some m => m <? v | None => false end then None else parse_digits max v r
      else None
  end.
(* str::parse with its check of the range (prune.rs:120, proof.rs:30-32, fix.rs:20-22) *)
Definition parse_number (max : option nat) (s : text) : option nat :=
  let s' := match s with 43 :: r => r | _ => s end in
  match s' with [] => None | _ => parse_digits max 0 s' end.
(* parse::<usize> (prune.rs:120, proof.rs:30, fix.rs:20) *)
Definition parse_usize : text -> option nat := parse_number None.
(* parse::<u8> (proof.rs:31-32, fix.rs:21-22) *)
Definition parse_u8 : text -> option nat := parse_number (Some 255).

(* BufRead::lines, used at prune.rs:118, proof.rs:28, fix.rs:18: the line ends "\n" and "\r\n" are removed, there is
   no empty line after the last line end *)
Definition strip_cr (s : text) : text :=
  match rev s with 13 :: r => rev r | _ => s end.
(* lines(), from the start of the text (prune.rs:118, proof.rs:28, fix.rs:18) *)
Definition lines (t : text) : list text :=
  let l := split_on 10 t in
  match rev l with
  | [] :: r => map strip_cr (rev r)
  | last :: r => map strip_cr (rev r) ++ [last]
  | [] => []
  end.

(* Path::with_extension on a file name, used at prune.rs:41, 46, proof.rs:36, fix.rs:26: what follows the last dot
   is replaced, unless that dot is the first character *)
Fixpoint rsplit_dot (s : text) : option (text * text) :=
  match s with
  | [] => None
  | c :: r =>
      match rsplit_dot r with
      | Some (a, b) => Some (c :: a, b)
      | None => if c =? 46 then Some ([], r) else None
      end
  end.
(* the name up to the last dot (prune.rs:41, 46, proof.rs:36, fix.rs:26) *)
Definition file_stem (name : text) : text :=
  match rsplit_dot name with
  | Some (c :: a, _) => c :: a
  | _ => name
  end.
(* with_extension (prune.rs:41, 46, proof.rs:36, fix.rs:26) *)
Definition with_extension (name ext : text) : text := file_stem name ++ [46] ++ ext.

(* the files of the directory, by name (search.rs:80-107, prune.rs:37-113) *)
Definition Fs := text -> option (list nat).
(* a change of one file (search.rs:86, 94-101, prune.rs:47, 98, 112) *)
Definition fs_set (fs : Fs) (name : text) (v : option (list nat)) : Fs :=
  fun x => if list_eqb Nat.eqb x name then v else fs x.

(* File::create (empties an existing file), write_all, rename (search.rs:86, 94-101, prune.rs:47, 98, 112) *)
Inductive FsOp :=
| Create (name : text)
| Append (name : text) (bytes : list nat)
| Rename (from to : text).
(* what one operation does (search.rs:86, 94-101, prune.rs:47, 98, 112) *)
Definition fs_do (fs : Fs) (op : FsOp) : Fs :=
  match op with
  | Create name => fs_set fs name (Some [])
  | Append name bytes => fs_set fs name (Some (match fs name with Some old => old | None => [] end ++ bytes))
  | Rename from to => fs_set (fs_set fs to (fs from)) from None
  end.
(* what several operations do (search.rs:86, 94-101, prune.rs:47, 98, 112) *)
Definition fs_run (ops : list FsOp) (fs : Fs) : Fs := fold_left fs_do ops fs.

(* MmapOptions::map of memmap 0.7 (prune.rs:39, proof.rs:39, fix.rs:29): an error on an empty file *)
Definition mmap (data : list nat) : option (list nat) := match data with [] => None | _ => Some data end.

(* slice::chunks (prune.rs:29, proof.rs:46, fix.rs:32); a panic if the chunk size is 0.  Fuel: the length. *)
Fixpoint chunks_f {A} (fuel stride : nat) (l : list A) : list (list A) :=
  match fuel with
  | 0 => []
  | S f => match l with
           | [] => []
           | _ => firstn stride l :: chunks_f f stride (skipn stride l)
           end
  end.
(* chunks(stride) (prune.rs:29, proof.rs:46, fix.rs:32) *)
Definition chunks {A} (stride : nat) (l : list A) : option (list (list A)) :=
  if stride =? 0 then None else Some (chunks_f (length l) stride l).
