(* dump_states (src/search.rs), src/prune.rs and src/proof.rs once more, on the parts of the other checked models:
   - the map that is dumped is the one of StatesMachModel;
   - the sets are unpacked, compared, pruned and given their abstraction by the functions of MachineModel, in which an
     index out of range, a vector that is too small and a failing assertion are None;
   - the index is the one of FlatModel and IndexMachModel, with its flat vectors and its shared bitmap;
   - the vectors of capacity MAX_CHANNELS (CVec; proof.rs:243), the subtraction channels() - 1 (proof.rs:261) and the
     conversions to u8 (proof.rs:151, 173) are there.
   Simplifications: as in LogModel.v and ProofGenModel.v. *)
From Coq Require Import String List Arith Bool Lia ZArith.
Import ListNotations.
From Verif Require Import Spec Util OutputSetModel HuffmanModel TreeModel IndexModel StatesModel FlatModel SearchModel FileModel LogModel DecodeModel ProofGenModel.
From Verif Require Import MachineModel IndexMachModel StatesMachModel.

(* ---- src/search.rs:80-107 dump_states ---- *)

(* search.rs:89-90: all items, map by map *)
Definition drained (m : States) : list (nat * list nat * State) := flat_map (fun x => fst (smap_drain x)) (states_into_shards m).

(* search.rs:80-107, on the files of the output directory *)
Definition dump_states_m (m : States) (fs : Fs) : Fs :=
  snd (fold_left dump_item (drained m) ([], fs_do fs (Create index_name))).

(* ---- src/prune.rs ---- *)

(* src/output_set.rs:91-95 from_packed, with the assertion of all_values *)
Definition from_packed_c (n : nat) (packed : list nat) : option OutputSet :=
  s <- all_values_c n ;; bm <- unpack_into (bitmap s) packed ;; Some (mkOutputSet n bm).

(* prune.rs:83-94 *)
Fixpoint filter_ids_m (channels stride : nat) (data : list nat) (x : FIndex) (ids : list nat) : option (list nat) :=
  match ids with
  | [] => Some []
  | id :: r =>
      packed <- get_packed stride data id ;;
      s <- from_packed_c channels packed ;;
      ab <- abstraction_c s ;;
      found <- mx_lookup x s ab ;;
      r' <- filter_ids_m channels stride data x r ;;
      Some (match found with None => id :: r' | Some _ => r' end)
  end.

(* prune.rs:96-106; the state is the index and the chunks written *)
Definition write_id_m (channels stride : nat) (data : list nat) (st : FIndex * list (list nat)) (id : nat)
  : option (FIndex * list (list nat)) :=
  packed <- get_packed stride data id ;;
  s <- from_packed_c channels packed ;;
  ab <- abstraction_c s ;;
  x <- fx_insert_new_unchecked (fst st) s ab 0 ;;
  Some (x, snd st ++ [packed]).

(* prune.rs:79-109 one group *)
Definition prune_group_m (channels stride : nat) (data : list nat) (st : FIndex * list (list nat)) (g : nat * list nat)
  : option (FIndex * list (list nat)) :=
  ids <- filter_ids_m channels stride data (fst st) (snd g) ;;
  fold_opt (write_id_m channels stride data) ids st.

(* prune.rs:49-109 the chunks that are written *)
Definition prune_data_m (channels : nat) (data : list nat) : option (list (list nat)) :=
  let stride := packed_len_for_channels channels in
  packed_sets <- chunks stride data ;;
  st <- fold_opt (prune_group_m channels stride data) (by_state_len packed_sets) (fx_new LowerInvert channels, []) ;;
  Some (snd st).

(* prune.rs:37-113 the changes to the files *)
Definition prune_ops_m (channels : nat) (input : text) (fs : Fs) : option (list FsOp) :=
  file <- fs input ;;
  data <- mmap file ;;
  let output := with_extension input (str "pbin") in
  match fs output with
  | Some _ => Some []
  | None =>
      let tmp := with_extension input (str "tmp") in
      written <- prune_data_m channels data ;;
      Some (Create tmp :: map (fun b => Append tmp [b]) (concat written) ++ [Rename tmp output])
  end.

(* prune.rs:118-124, with the changes to the files in order *)
Fixpoint prune_lines_m (ls : list text) (fs : Fs) : option (list FsOp) :=
  match ls with
  | [] => Some []
  | line :: r =>
      channels <- line_channels line ;;
      ops <- prune_ops_m channels line fs ;;
      rest <- prune_lines_m r (fs_run ops fs) ;;
      Some (ops ++ rest)
  end.

(* prune.rs:115-125 *)
Definition prune_all_ops_m (fs : Fs) : option (list FsOp) :=
  index <- fs index_name ;; prune_lines_m (lines index) fs.
(* prune.rs:115-125, all changes made *)
Definition prune_all_m (fs : Fs) : option Fs :=
  ops <- prune_all_ops_m fs ;; Some (fs_run ops fs).

(* any number of runs of prune_all (prune.rs:115-125), each of which may stop after any number of its operations *)
Inductive crashes_m : Fs -> Fs -> Prop :=
| crash_none_m fs : crashes_m fs fs
| crash_run_m fs fs1 ops k : crashes_m fs fs1 -> prune_all_ops_m fs1 = Some ops -> crashes_m fs (fs_run (firstn k ops) fs1).

(* ---- src/proof.rs ---- *)

(* the BTreeMap pruned_indexes (proof.rs:24, 41-43, 213), ascending *)
Definition FIndexes := list (nat * FIndex).
(* proof.rs:41-43, 213 entry and get *)
Fixpoint fxs_get (n : nat) (l : FIndexes) : option FIndex :=
  match l with
  | [] => None
  | (k, x) :: r => if k =? n then Some x else fxs_get n r
  end.
(* proof.rs:41-43, 53 the entry after the sets were inserted *)
Fixpoint fxs_put (n : nat) (x : FIndex) (l : FIndexes) : FIndexes :=
  match l with
  | [] => [(n, x)]
  | (k, y) :: r => if n <? k then (n, x) :: l else if n =? k then (k, x) :: r else (k, y) :: fxs_put n x r
  end.

(* proof.rs:46-53 *)
Definition load_set_m (channels bound : nat) (x : FIndex) (packed : list nat) : option FIndex :=
  s <- from_packed_c channels packed ;;
  ab <- abstraction_c s ;;
  fx_insert_new_unchecked x s ab bound.

(* proof.rs:28-54 one line *)
Definition load_line_m (fs : Fs) (xs : FIndexes) (line : text) : option FIndexes :=
  channels <- line_channels line ;;
  bound <- line_bound line ;;
  file <- fs (with_extension line (str "pbin")) ;;
  data <- mmap file ;;
  let x := match fxs_get channels xs with Some x => x | None => fx_new LowerInvert channels end in
  packed_sets <- chunks (packed_len_for_channels channels) data ;;
  x' <- fold_opt (load_set_m channels bound) packed_sets x ;;
  Some (fxs_put channels x' xs).

(* proof.rs:24-54 *)
Definition load_indexes_m (fs : Fs) : option FIndexes :=
  index <- fs index_name ;; fold_opt (load_line_m fs) (lines index) [].

(* proof.rs:97-105 the map output_sets *)
Definition collect_sets_m (xs : FIndexes) : option (list (OutputSet * nat)) :=
  fold_opt (fun l e => es <- mx_for_each (snd e) ;;
                       Some (fold_left (fun l x => set_put (fst (fst x)) (snd x) l) es l)) xs [].

Section Steps.
Variable xs : FIndexes.                 (* pruned_indexes *)
Variable sets : list (OutputSet * nat). (* output_sets *)

(* proof.rs:207-230 *)
Definition lookup_witness_m (target : OutputSet) : option (nat * option PWitness) :=
  subsuming <- match fxs_get (channels target) xs with
               | None => Some None
               | Some x => ab <- abstraction_c target ;; mx_lookup_subsuming x target ab
               end ;;
  match subsuming with
  | Some (bound, (invert, perm), s) =>
      _ <- set_get s sets ;;
      Some (bound, Some (invert, perm, s))
  | None => sorted <- is_sorted_c target ;; Some (if sorted : bool then 0 else 1, None)
  end.

(* proof.rs:232-240; && does not look at the set if the bound is not 1 *)
Definition trivial_step_m (bound : nat) (target : OutputSet) : option (option PStep) :=
  if bound =? 0 then Some (Some PTrivial)
  else if bound =? 1 then
    sorted <- is_sorted_c target ;; Some (if negb sorted then Some PNotSorted else None)
  else Some None.

(* proof.rs:243-251 the extremal channels of one polarity, in a CVec *)
Definition extremal_m (target : OutputSet) (pol : bool) : option (list nat) :=
  fold_opt (fun acc channel => b <- channel_is_extremal_c target pol channel ;;
                               if b : bool then push CVEC acc channel else Some acc)
           (seq 0 (channels target)) [].

(* proof.rs:260-267 one channel *)
Definition huffman_witness_m (target : OutputSet) (pol : bool) (channel : nat) : option (nat * option PWitness) :=
  n <- sub_u (channels target) 1 ;;
  pruned <- all_values_c n ;;
  pruned <- prune_extremal_channel_into_c target pol channel pruned ;;
  lookup_witness_m pruned.

(* proof.rs:256-278 the loop over the polarities, with their channels *)
Fixpoint huffman_pols_m (bound : nat) (target : OutputSet) (pols : list (bool * list nat)) : option (option PStep) :=
  match pols with
  | [] => Some None
  | (pol, chs) :: r =>
      ws <- map_opt (huffman_witness_m target pol) chs ;;
      huffman_bound <- max_plus_1_huffman (map fst ws) ;;
      if bound <=? huffman_bound then Some (Some (PHuffman pol (map snd ws)))
      else huffman_pols_m bound target r
  end.

(* proof.rs:242-279; sort_unstable_by_key on two elements keeps them in order if the keys are equal *)
Definition huffman_step_m (bound : nat) (target : OutputSet) : option (option PStep) :=
  c0 <- extremal_m target false ;;
  c1 <- extremal_m target true ;;
  huffman_pols_m bound target (if length c1 <? length c0 then [(true, c1); (false, c0)] else [(false, c0); (true, c1)]).

(* proof.rs:283-294 the loop over the comparators; Some None is "return None" *)
Fixpoint successor_loop_m (bound : nat) (target : OutputSet) (todo : list (nat * nat)) (acc : list (option PWitness))
  : option (option (list (option PWitness))) :=
  match todo with
  | [] => Some (Some acc)
  | (i, j) :: r =>
      sc <- apply_comparator_c target i j ;;
      if snd sc : bool then
        w <- lookup_witness_m (fst sc) ;;
        b <- u8_succ (fst w) ;;
        if b <? bound then Some None else successor_loop_m bound target r (acc ++ [snd w])
      else successor_loop_m bound target r acc
  end.

(* proof.rs:281-297 *)
Definition successor_step_m (bound : nat) (target : OutputSet) : option (option PStep) :=
  r <- successor_loop_m bound target (pairs (channels target)) [] ;;
  Some (option_map PSuccessors r).

(* proof.rs:130-137; the last None is the expect in line 137 *)
Definition find_step_m (bound : nat) (target : OutputSet) : option PStep :=
  t <- trivial_step_m bound target ;;
  match t with
  | Some st => Some st
  | None =>
      h <- huffman_step_m bound target ;;
      match h with
      | Some st => Some st
      | None => r <- successor_step_m bound target ;; r
      end
  end.

(* proof.rs:114-141 *)
Definition prove_all_m : option (list (OutputSet * PStep)) :=
  map_opt (fun e => st <- find_step_m (snd e) (fst e) ;; Some (fst e, st)) sets.
End Steps.

(* "as u8" (proof.rs:151, 173) *)
Definition as_u8 (v : nat) : nat := v mod 256.

(* proof.rs:172-174 and 176 the bytes of a witness; "as u32" keeps the low 32 bits *)
Definition witness_bytes_m (w : option (bool * list nat * nat)) : list nat :=
  match w with
  | Some (invert, perm, id) => Nat.b2n invert :: map as_u8 perm ++ le_bytes 4 (Z.of_nat id)
  | None => [2]
  end.

(* step_ids and step_data (proof.rs:92-93) *)
Definition Enc : Type := list (OutputSet * nat) * list (list nat).

Section Encode.
Variable sets : list (OutputSet * nat).     (* output_sets *)
Variable steps : list (OutputSet * PStep).

(* proof.rs:168-178 the loop over the witnesses; enc is the recursive call *)
Definition encode_witnesses_m (enc : Enc -> OutputSet -> option (Enc * option nat))
  (ws : list (option PWitness)) (z : Enc) (data : list nat) : option (Enc * list nat) :=
  fold_opt (fun st w =>
              let '(z, data) := st in
              match w with
              | None => Some (z, data ++ witness_bytes_m None)
              | Some (invert, perm, s) =>
                  r <- enc z s ;;
                  let '(z', id) := r in
                  Some (z', data ++ witness_bytes_m (option_map (fun i => (invert, perm, i)) id))
              end) ws (z, data).

(* proof.rs:143-187; fuel: the depth of the recursion *)
Fixpoint encode_proof_m (fuel : nat) (z : Enc) (target : OutputSet) : option (Enc * option nat) :=
  match fuel with
  | 0 => None
  | S f =>
      match set_get target (fst z) with
      | Some id => Some (z, Some id)
      | None =>
          bound <- set_get target sets ;;
          pk <- packed target ;;
          let header := [as_u8 (channels target); bound] ++ pk in
          step <- set_get target steps ;;
          match step with
          | PTrivial | PNotSorted => Some (z, None)
          | PHuffman _ witnesses | PSuccessors witnesses =>
              let kind := match step with PHuffman pol _ => Nat.b2n pol | _ => 2 end in
              r <- encode_witnesses_m (encode_proof_m f) witnesses z (header ++ [kind]) ;;
              let '((ids, datas), data) := r in
              let id := length datas in
              Some ((set_put target id ids, datas ++ [data]), Some id)
          end
      end
  end.
End Encode.

(* proof.rs:23-73 up to the contents of proof.bin *)
Definition gen_proof_m (fuel : nat) (fs : Fs) : option (list nat) :=
  xs <- load_indexes_m fs ;;
  n <- option_map fst (hd_error (rev xs)) ;;
  sets <- collect_sets_m xs ;;
  steps <- prove_all_m xs sets ;;
  top <- all_values_c n ;;
  r <- encode_proof_m sets steps fuel ([], []) top ;;
  Some (write_proof (snd (fst r))).
