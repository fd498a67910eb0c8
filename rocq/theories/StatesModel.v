(* Model of src/search/states.rs (line numbers below refer to it).

   Simplifications.  A BTreeMap is the list of its entries in increasing key order.  The nine maps of an
   OutputSetMap are a list of nine maps, the one for c channels at position c - 3; for 9, 10 and 11
   channels Rust groups the key bytes into blocks of 32, which changes neither equality nor order.
   The RwLock of a shard makes each get, set, get_lock and unlock one atomic step and is otherwise
   erased.  A oneshot channel is a number.  FxHasher is an arbitrary function of the packed bytes.
   None stands for a panic. *)
From Coq Require Import List Arith Bool Lia.
Import ListNotations.
From Verif Require Import Spec Util OutputSetModel TreeModel.

(* 17-21 struct State: bounds = [lo; hi], huffman_bounds = [hlo; hhi] *)
Record State := mkState { lo : nat; hi : nat; hlo : nat; hhi : nat }.

(* 17 derive(PartialEq) *)
Definition state_eqb (a b : State) : bool :=
  (lo a =? lo b) && (hi a =? hi b) && (hlo a =? hlo b) && (hhi a =? hhi b).

(* Ord on the key arrays of 172-180: lexicographic *)
Definition key_cmp (a b : list nat) : comparison := list_cmp Nat.compare a b.

(* BTreeMap (used at 172-180) as its entries in increasing key order *)
Definition BTree (T : Type) := list (list nat * T).

(* BTreeMap::get (291-331) *)
Fixpoint bt_get {T} (k : list nat) (m : BTree T) : option T :=
  match m with
  | [] => None
  | (k', v) :: r => match key_cmp k k' with
                    | Lt => None
                    | Eq => Some v
                    | Gt => bt_get k r
                    end
  end.

(* BTreeMap::insert (341-374) *)
Fixpoint bt_insert {T} (k : list nat) (v : T) (m : BTree T) : BTree T :=
  match m with
  | [] => [(k, v)]
  | (k', v') :: r => match key_cmp k k' with
                     | Lt => (k, v) :: m
                     | Eq => (k, v) :: r
                     | Gt => (k', v') :: bt_insert k v r
                     end
  end.

(* BTreeMap::remove (386-405) *)
Fixpoint bt_remove {T} (k : list nat) (m : BTree T) : BTree T :=
  match m with
  | [] => []
  | (k', v') :: r => match key_cmp k k' with
                     | Lt => m
                     | Eq => r
                     | Gt => (k', v') :: bt_remove k r
                     end
  end.

(* 171-181 struct OutputSetMap *)
Definition OutputSetMap (T : Type) := list (BTree T).

(* 183-197 default *)
Definition osm_empty {T} : OutputSetMap T := repeat [] 9.

(* 200-210 len *)
Definition osm_len {T} (m : OutputSetMap T) : nat := fold_left (fun a b => a + length b) m 0.

(* 212-287 drain_packed: the items in the order of the iterator (the map left behind is empty) *)
Definition drain_packed {T} (m : OutputSetMap T) : list (nat * list nat * T) :=
  flat_map (fun e : nat * BTree T => map (fun kv => (fst e + 3, fst kv, snd kv)) (snd e)) (enumerate m).

(* array_ref!(packed, 0, 1 << (channels - 3)); panics if packed is too short *)
Definition array_ref (packed : list nat) (len : nat) : option (list nat) :=
  if length packed <? len then None else Some (firstn len packed).

(* 289-337 get_with_packed *)
Definition get_with_packed {T} (m : OutputSetMap T) (channels : nat) (packed : list nat) : option (option T) :=
  if (3 <=? channels) && (channels <=? 11) then
    k <- array_ref packed (2 ^ (channels - 3));;
    b <- nth_error m (channels - 3);;
    Some (bt_get k b)
  else Some None.

(* 339-381 set_with_packed *)
Definition set_with_packed {T} (m : OutputSetMap T) (channels : nat) (packed : list nat) (v : T)
  : option (OutputSetMap T) :=
  if (3 <=? channels) && (channels <=? 11) then
    k <- array_ref packed (2 ^ (channels - 3));;
    b <- nth_error m (channels - 3);;
    Some (upd m (channels - 3) (bt_insert k v b))
  else None.

(* 383-410 remove_with_packed *)
Definition remove_with_packed {T} (m : OutputSetMap T) (channels : nat) (packed : list nat)
  : option (OutputSetMap T) :=
  if (3 <=? channels) && (channels <=? 11) then
    k <- array_ref packed (2 ^ (channels - 3));;
    b <- nth_error m (channels - 3);;
    Some (upd m (channels - 3) (bt_remove k b))
  else None.

(* 23-26 struct StateMap *)
Record StateMap := mkStateMap { state_shards : list (OutputSetMap State); lock_shards : list (OutputSetMap nat) }.

(* usize::next_power_of_two (31) *)
Definition next_power_of_two (n : nat) : nat := 2 ^ Nat.log2_up n.

(* 28-38 default; threads is num_cpus::get() *)
Definition sm_default (threads : nat) : StateMap :=
  let shards := next_power_of_two (threads * threads * 8) in
  mkStateMap (repeat osm_empty shards) (repeat osm_empty shards).

(* 41-46 len *)
Definition sm_len (m : StateMap) : nat := fold_left (fun a b => a + osm_len b) (state_shards m) 0.

(* 51-54, 94-97, 109-112: hash the packed bytes and mask *)
Definition shard_of (hash : list nat -> nat) (shards : nat) (packed : list nat) : nat :=
  Nat.land (hash packed) (shards - 1).

(* 73 *)
Definition known_bounds : list nat := [0; 0; 1; 3; 5; 9; 12; 16; 19; 25; 29; 35].

(* 63-87 the state of a set that is not in the map *)
Definition default_state (s : OutputSet) : State :=
  if is_sorted s then mkState 0 0 0 0
  else if channels s <=? 2 then mkState 1 1 1 1
  else
    let quadratic_bound := channels s * (channels s - 1) / 2 in
    let bound := match nth_error known_bounds (channels s) with
                 | Some b => b
                 | None => quadratic_bound mod 256
                 end in
    mkState 1 bound 1 bound.

(* 48-89 get *)
Definition sm_get (hash : list nat -> nat) (m : StateMap) (s : OutputSet) : option State :=
  pk <- packed s;;
  shard <- nth_error (state_shards m) (shard_of hash (length (state_shards m)) pk);;
  r <- get_with_packed shard (channels s) pk;;
  Some (match r with Some st => st | None => default_state s end).

(* 91-104 set *)
Definition sm_set (hash : list nat -> nat) (m : StateMap) (s : OutputSet) (st : State) : option StateMap :=
  pk <- packed s;;
  let i := shard_of hash (length (state_shards m)) pk in
  shard <- nth_error (state_shards m) i;;
  shard' <- set_with_packed shard (channels s) pk st;;
  Some (mkStateMap (upd (state_shards m) i shard') (lock_shards m)).

(* 113 and 129-144 get_lock: inl is Ok(existing receiver), inr is Err(sender) with the lock entered in
   the map; id is the channel that oneshot::channel() makes *)
Definition sm_get_lock (hash : list nat -> nat) (m : StateMap) (s : OutputSet) (id : nat)
  : option (nat + StateMap) :=
  pk <- packed s;;
  let i := shard_of hash (length (lock_shards m)) pk in
  shard <- nth_error (lock_shards m) i;;
  r <- get_with_packed shard (channels s) pk;;
  match r with
  | Some existing => Some (inl existing)
  | None => shard' <- set_with_packed shard (channels s) pk id;;
            Some (inr (mkStateMap (state_shards m) (upd (lock_shards m) i shard')))
  end.

(* 162-169 StateLock::drop, the part that changes the map; the StateLock carries channels, packed and
   shard of its set (118-124), which are recomputed here *)
Definition sm_unlock (hash : list nat -> nat) (m : StateMap) (s : OutputSet) : option StateMap :=
  pk <- packed s;;
  let i := shard_of hash (length (lock_shards m)) pk in
  shard <- nth_error (lock_shards m) i;;
  shard' <- remove_with_packed shard (channels s) pk;;
  Some (mkStateMap (state_shards m) (upd (lock_shards m) i shard')).

(* 146-151 into_shards *)
Definition into_shards (m : StateMap) : list (OutputSetMap State) := state_shards m.
