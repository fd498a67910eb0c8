(* Model of src/proof.rs and src/fix.rs.  Files are as in FileModel.v; None is a panic (or, in encode_proof, exhausted
   fuel).

   Simplifications.  A HashMap or BTreeMap is the list of its entries; the order of a HashMap has no influence (its
   only iteration is the parallel map of 123-140, which collects into a HashMap).  Arc is erased.  Progress bar and
   log lines are left out.  Sets are compared by bitmap and channel count; PartialEq and Hash of the code look at the
   bitmap only, whose length gives the channel count. *)
From Coq Require Import String List Arith Bool Lia ZArith.
Import ListNotations.
From Verif Require Import Spec Util OutputSetModel HuffmanModel TreeModel IndexModel SearchModel FileModel LogModel DecodeModel.

(* proof.rs:81, 84: invert, permutation and set of a witness *)
Definition PWitness : Type := bool * list nat * OutputSet.

(* proof.rs:75-86 *)
Inductive PStep :=
| PTrivial
| PNotSorted
| PHuffman (pol : bool) (witnesses : list (option PWitness))
| PSuccessors (witnesses : list (option PWitness)).

(* get and insert of a map keyed by sets (proof.rs:102, 144, 149, 156, 182, 224) *)
Fixpoint set_get {V} (s : OutputSet) (l : list (OutputSet * V)) : option V :=
  match l with
  | [] => None
  | (k, v) :: r => if os_eqb k s then Some v else set_get s r
  end.
(* insert (proof.rs:102, 182) *)
Fixpoint set_put {V} (s : OutputSet) (v : V) (l : list (OutputSet * V)) : list (OutputSet * V) :=
  match l with
  | [] => [(s, v)]
  | (k, w) :: r => if os_eqb k s then (k, v) :: r else (k, w) :: set_put s v r
  end.

(* the BTreeMap pruned_indexes (proof.rs:24, 41-43, 213), ascending *)
Definition Indexes := list (nat * Index).
(* proof.rs:41-43, 213 entry and get *)
Fixpoint ixs_get (n : nat) (l : Indexes) : option Index :=
  match l with
  | [] => None
  | (k, ix) :: r => if k =? n then Some ix else ixs_get n r
  end.
(* proof.rs:41-43, 53 the entry after the sets were inserted *)
Fixpoint ixs_put (n : nat) (ix : Index) (l : Indexes) : Indexes :=
  match l with
  | [] => [(n, ix)]
  | (k, ix') :: r => if n <? k then (n, ix) :: l else if n =? k then (k, ix) :: r else (k, ix') :: ixs_put n ix r
  end.

(* proof.rs:30-32: channels and bound of a line of index.txt *)
Definition line_bound (line : text) : option nat :=
  p <- nth_error (split_on 95 line) 2 ;;
  q <- nth_error (split_on 46 p) 0 ;;
  parse_u8 q.

(* proof.rs:46-53 *)
Definition load_set (channels bound : nat) (ix : Index) (packed : list nat) : option Index :=
  s <- from_packed channels packed ;;
  insert_new_unchecked ix s (abstraction s) bound.

(* proof.rs:28-54 one line *)
Definition load_line (fs : Fs) (ixs : Indexes) (line : text) : option Indexes :=
  channels <- line_channels line ;;
  bound <- line_bound line ;;
  file <- fs (with_extension line (str "pbin")) ;;
  data <- mmap file ;;
  let ix := match ixs_get channels ixs with Some ix => ix | None => index_new LowerInvert channels end in
  packed_sets <- chunks (packed_len_for_channels channels) data ;;
  ix' <- fold_opt (load_set channels bound) packed_sets ix ;;
  Some (ixs_put channels ix' ixs).

(* proof.rs:24-54 *)
Definition load_indexes (fs : Fs) : option Indexes :=
  index <- fs index_name ;; fold_opt (load_line fs) (lines index) [].

(* proof.rs:88-94; the second component of the values of output_sets is the key itself *)
Record GenProof := mkGen {
  pruned_indexes : Indexes;
  output_sets : list (OutputSet * nat);
  steps : list (OutputSet * PStep);
  step_ids : list (OutputSet * nat);
  step_data : list (list nat) }.

(* proof.rs:97-112 *)
Definition gen_new (ixs : Indexes) : option GenProof :=
  sets <- fold_opt (fun l e => es <- for_each (snd e) ;;
                               Some (fold_left (fun l x => set_put (fst (fst x)) (snd x) l) es l)) ixs [] ;;
  Some (mkGen ixs sets [] [] []).

(* proof.rs:207-230 *)
Definition lookup_witness (g : GenProof) (target : OutputSet) : option (nat * option PWitness) :=
  subsuming <- match ixs_get (channels target) (pruned_indexes g) with
               | None => Some None
               | Some ix => lookup_subsuming ix target (abstraction target)
               end ;;
  match subsuming with
  | Some (bound, (invert, perm), s) =>
      _ <- set_get s (output_sets g) ;;
      Some (bound, Some (invert, perm, s))
  | None => Some (if is_sorted target then 0 else 1, None)
  end.

(* proof.rs:232-240 *)
Definition trivial_step (bound : nat) (target : OutputSet) : option PStep :=
  if bound =? 0 then Some PTrivial
  else if (bound =? 1) && negb (is_sorted target) then Some PNotSorted
  else None.

(* proof.rs:260-267 bounds and witnesses of one polarity *)
Definition huffman_witnesses (g : GenProof) (target : OutputSet) (pol : bool) : option (list (nat * option PWitness)) :=
  map_opt (fun channel => pruned <- prune_extremal_channel_into target pol channel (channels target - 1) ;;
                          lookup_witness g pruned)
          (extremal_channels target pol).

(* proof.rs:256-278 the loop over the polarities *)
Fixpoint huffman_pols (g : GenProof) (bound : nat) (target : OutputSet) (pols : list bool) : option (option PStep) :=
  match pols with
  | [] => Some None
  | pol :: r =>
      ws <- huffman_witnesses g target pol ;;
      huffman_bound <- max_plus_1_huffman (map fst ws) ;;
      if bound <=? huffman_bound then Some (Some (PHuffman pol (map snd ws)))
      else huffman_pols g bound target r
  end.

(* proof.rs:242-279; sort_unstable_by_key on two elements keeps them in order if the keys are equal *)
Definition huffman_step (g : GenProof) (bound : nat) (target : OutputSet) : option (option PStep) :=
  let len pol := length (extremal_channels target pol) in
  huffman_pols g bound target (if len true <? len false then [true; false] else [false; true]).

(* proof.rs:283-294 the loop over the comparators; Some None is "return None" *)
Fixpoint successor_loop (g : GenProof) (bound : nat) (target : OutputSet) (todo : list (nat * nat)) (acc : list (option PWitness))
  : option (option (list (option PWitness))) :=
  match todo with
  | [] => Some (Some acc)
  | (i, j) :: r =>
      let '(successor, changed) := apply_comparator target i j in
      if changed then
        w <- lookup_witness g successor ;;
        b <- u8_succ (fst w) ;;
        if b <? bound then Some None else successor_loop g bound target r (acc ++ [snd w])
      else successor_loop g bound target r acc
  end.

(* proof.rs:281-297 *)
Definition successor_step (g : GenProof) (bound : nat) (target : OutputSet) : option (option PStep) :=
  r <- successor_loop g bound target (pairs (channels target)) [] ;;
  Some (option_map PSuccessors r).

(* proof.rs:130-137; the last None is the expect in line 137 *)
Definition find_step (g : GenProof) (bound : nat) (target : OutputSet) : option PStep :=
  match trivial_step bound target with
  | Some st => Some st
  | None =>
      h <- huffman_step g bound target ;;
      match h with
      | Some st => Some st
      | None => r <- successor_step g bound target ;; r
      end
  end.

(* proof.rs:114-141 *)
Definition prove_all (g : GenProof) : option GenProof :=
  sts <- map_opt (fun e => st <- find_step g (snd e) (fst e) ;; Some (fst e, st)) (output_sets g) ;;
  Some (mkGen (pruned_indexes g) (output_sets g) sts (step_ids g) (step_data g)).

(* proof.rs:172-174 and 176 the bytes of a witness; "as u32" keeps the low 32 bits *)
Definition witness_bytes (w : option (bool * list nat * nat)) : list nat :=
  match w with
  | Some (invert, perm, id) => Nat.b2n invert :: perm ++ le_bytes 4 (Z.of_nat id)
  | None => [2]
  end.

(* proof.rs:168-178 the loop over the witnesses; enc is the recursive call *)
Definition encode_witnesses (enc : GenProof -> OutputSet -> option (GenProof * option nat))
  (ws : list (option PWitness)) (g : GenProof) (data : list nat) : option (GenProof * list nat) :=
  fold_opt (fun st w =>
              let '(g, data) := st in
              match w with
              | None => Some (g, data ++ witness_bytes None)
              | Some (invert, perm, s) =>
                  r <- enc g s ;;
                  let '(g', id) := r in
                  Some (g', data ++ witness_bytes (option_map (fun i => (invert, perm, i)) id))
              end) ws (g, data).

(* proof.rs:143-187; fuel: the depth of the recursion *)
Fixpoint encode_proof (fuel : nat) (g : GenProof) (target : OutputSet) : option (GenProof * option nat) :=
  match fuel with
  | 0 => None
  | S f =>
      match set_get target (step_ids g) with
      | Some id => Some (g, Some id)
      | None =>
          bound <- set_get target (output_sets g) ;;
          pk <- packed target ;;
          let header := [channels target; bound] ++ pk in
          step <- set_get target (steps g) ;;
          match step with
          | PTrivial | PNotSorted => Some (g, None)
          | PHuffman _ witnesses | PSuccessors witnesses =>
              let kind := match step with PHuffman pol _ => Nat.b2n pol | _ => 2 end in
              r <- encode_witnesses (encode_proof f) witnesses g (header ++ [kind]) ;;
              let '(g', data) := r in
              let id := length (step_data g') in
              Some (mkGen (pruned_indexes g') (output_sets g') (steps g') (set_put target id (step_ids g')) (step_data g' ++ [data]),
                    Some id)
          end
      end
  end.

(* proof.rs:60 the last key *)
Definition max_channels (ixs : Indexes) : option nat := option_map fst (hd_error (rev ixs)).

(* proof.rs:23-73 up to the contents of proof.bin *)
Definition gen_proof (fuel : nat) (fs : Fs) : option (list nat) :=
  ixs <- load_indexes fs ;;
  n <- max_channels ixs ;;
  g <- gen_new ixs ;;
  g <- prove_all g ;;
  r <- encode_proof fuel g (all_values n) ;;
  Some (write_proof (step_data (fst r))).
