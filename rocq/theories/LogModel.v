(* Model of dump_states (src/search.rs) and of src/prune.rs.  Files are as in FileModel.v; None is a panic.

   Simplifications.  A BufWriter writes at once.  create_dir (search.rs:81-84) and the progress bar and log lines are
   left out.  The parallel filter of prune.rs:84-94 only reads the index, and collect keeps the order, so it is the
   sequential filter. *)
From Coq Require Import String List Arith Bool Lia.
Import ListNotations.
From Verif Require Import Spec Util OutputSetModel TreeModel IndexModel StatesModel FileModel.

(* ---- src/search.rs:80-107 dump_states ---- *)

(* search.rs:95 *)
Definition group_name (g : nat * nat) : text :=
  str "group_" ++ show (fst g) ++ str "_" ++ show (snd g) ++ str ".bin".

(* search.rs:86 *)
Definition index_name : text := str "index.txt".

(* Eq of the key (usize, u8) of group_files (search.rs:88, 92) *)
Definition group_eqb (a b : nat * nat) : bool := (fst a =? fst b) && (snd a =? snd b).

(* search.rs:91-103 one item; the state is the keys of group_files and the files *)
Definition dump_item (d : list (nat * nat) * Fs) (item : nat * list nat * State) : list (nat * nat) * Fs :=
  let '(keys, fs) := d in
  let '(channels, packed, state) := item in
  let group := (channels, lo state) in
  if existsb (group_eqb group) keys then (keys, fs_do fs (Append (group_name group) packed))
  else (group :: keys,
        fs_run [Append index_name (group_name group ++ [10]); Create (group_name group); Append (group_name group) packed] fs).

(* search.rs:80-107, on the files of the output directory *)
Definition dump_states (m : StateMap) (fs : Fs) : Fs :=
  snd (fold_left dump_item (flat_map drain_packed (into_shards m)) ([], fs_do fs (Create index_name))).

(* ---- src/prune.rs ---- *)

(* prune.rs:56-59 *)
Definition state_len (packed : list nat) : nat := fold_left Nat.add (map count_ones packed) 0.

(* prune.rs:61-64 entry, or_insert_with and push; a BTreeMap as the list of its entries in order *)
Fixpoint bt_push (k id : nat) (b : list (nat * list nat)) : list (nat * list nat) :=
  match b with
  | [] => [(k, [id])]
  | (k', ids) :: r =>
      if k <? k' then (k, [id]) :: b
      else if k =? k' then (k', ids ++ [id]) :: r
      else (k', ids) :: bt_push k id r
  end.

(* prune.rs:55-67 *)
Definition by_state_len (packed_sets : list (list nat)) : list (nat * list nat) :=
  fold_left (fun b e => bt_push (state_len (snd e)) (fst e) b) (combine (seq 0 (length packed_sets)) packed_sets) [].

(* prune.rs:32-34 get_packed; a slice past the end panics *)
Definition get_packed (stride : nat) (data : list nat) (index : nat) : option (list nat) :=
  let r := firstn stride (skipn (stride * index) data) in
  if length r =? stride then Some r else None.

(* prune.rs:87-93, 97-99 the set with number id *)
Definition get_set (channels stride : nat) (data : list nat) (id : nat) : option OutputSet :=
  packed <- get_packed stride data id ;; from_packed channels packed.

(* prune.rs:83-94 *)
Fixpoint filter_ids (channels stride : nat) (data : list nat) (ix : Index) (ids : list nat) : option (list nat) :=
  match ids with
  | [] => Some []
  | id :: r =>
      s <- get_set channels stride data id ;;
      found <- lookup ix s (abstraction s) ;;
      r' <- filter_ids channels stride data ix r ;;
      Some (match found with None => id :: r' | Some _ => r' end)
  end.

(* prune.rs:96-106; the state is the index and the chunks written *)
Definition write_id (channels stride : nat) (data : list nat) (st : Index * list (list nat)) (id : nat)
  : option (Index * list (list nat)) :=
  packed <- get_packed stride data id ;;
  s <- from_packed channels packed ;;
  ix <- insert_new_unchecked (fst st) s (abstraction s) 0 ;;
  Some (ix, snd st ++ [packed]).

(* prune.rs:79-109 one group *)
Definition prune_group (channels stride : nat) (data : list nat) (st : Index * list (list nat)) (g : nat * list nat)
  : option (Index * list (list nat)) :=
  ids <- filter_ids channels stride data (fst st) (snd g) ;;
  fold_opt (write_id channels stride data) ids st.

(* prune.rs:49-109 the chunks that are written *)
Definition prune_data (channels : nat) (data : list nat) : option (list (list nat)) :=
  let stride := packed_len_for_channels channels in
  packed_sets <- chunks stride data ;;
  st <- fold_opt (prune_group channels stride data) (by_state_len packed_sets) (index_new LowerInvert channels, []) ;;
  Some (snd st).

(* prune.rs:37-113 the changes to the files; writing is byte by byte, so that a crash can come between any two *)
Definition prune_ops (channels : nat) (input : text) (fs : Fs) : option (list FsOp) :=
  file <- fs input ;;
  data <- mmap file ;;
  let output := with_extension input (str "pbin") in
  match fs output with
  | Some _ => Some []
  | None =>
      let tmp := with_extension input (str "tmp") in
      written <- prune_data channels data ;;
      Some (Create tmp :: map (fun b => Append tmp [b]) (concat written) ++ [Rename tmp output])
  end.
(* prune.rs:37-113, all changes made *)
Definition prune (channels : nat) (input : text) (fs : Fs) : option Fs :=
  ops <- prune_ops channels input fs ;; Some (fs_run ops fs).

(* prune.rs:120 *)
Definition line_channels (line : text) : option nat :=
  p <- nth_error (split_on 95 line) 1 ;; parse_usize p.

(* prune.rs:118-124, with the changes to the files in order *)
Fixpoint prune_lines (ls : list text) (fs : Fs) : option (list FsOp) :=
  match ls with
  | [] => Some []
  | line :: r =>
      channels <- line_channels line ;;
      ops <- prune_ops channels line fs ;;
      rest <- prune_lines r (fs_run ops fs) ;;
      Some (ops ++ rest)
  end.

(* prune.rs:115-125 *)
Definition prune_all_ops (fs : Fs) : option (list FsOp) :=
  index <- fs index_name ;; prune_lines (lines index) fs.
(* prune.rs:115-125, all changes made *)
Definition prune_all (fs : Fs) : option Fs :=
  ops <- prune_all_ops fs ;; Some (fs_run ops fs).
