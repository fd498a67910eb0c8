(* Model of src/search/states.rs (line numbers without a file name refer to it) with the types of the code:
   the nine maps of an OutputSetMap are nine fields, the keys for 9, 10 and 11 channels are arrays of blocks of
   32 bytes, a StateLock keeps its channels, packed bytes and shard, and a oneshot channel has a sender and
   receivers.  Index and capacity checks, subtractions and unwraps return None if they fail.

   Simplifications.  A BTreeMap is the list of its entries in increasing key order.  The RwLock of a shard
   makes each get, set, get_lock and drop of a StateLock one atomic step and is otherwise erased.  The
   StateLock values of the program are kept in a table under the numbers of their channels.  FxHasher is an
   arbitrary function of the packed bytes. *)
From Coq Require Import List Arith Bool Lia.
Import ListNotations.
From Verif Require Import Spec Util OutputSetModel TreeModel MachineModel StatesModel.

(* the keys of 178-180: blocks of 32 bytes *)
Definition Blocks := list (list nat).

(* the transmute of 318, 322, 326 (get), 363, 367, 371 (set), 396, 399, 402 (remove): k blocks of 32 bytes *)
Fixpoint blocks (k : nat) (packed : list nat) : Blocks :=
  match k with
  | 0 => []
  | S k => firstn 32 packed :: blocks k (skipn 32 packed)
  end.

(* the transmute back of 247, 260, 273 *)
Definition unblock (b : Blocks) : list nat := concat b.

(* Ord on the key arrays of 178-180: lexicographic, block by block *)
Definition block_cmp (a b : Blocks) : comparison := list_cmp key_cmp a b.

(* BTreeMap (used at 172-180) as its entries in increasing key order *)
Definition GTree (K T : Type) := list (K * T).

(* BTreeMap::get (291-331) *)
Fixpoint gt_get {K T} (cmp : K -> K -> comparison) (k : K) (m : GTree K T) : option T :=
  match m with
  | [] => None
  | (k', v) :: r => match cmp k k' with Lt => None | Eq => Some v | Gt => gt_get cmp k r end
  end.

(* BTreeMap::insert (341-374) *)
Fixpoint gt_insert {K T} (cmp : K -> K -> comparison) (k : K) (v : T) (m : GTree K T) : GTree K T :=
  match m with
  | [] => [(k, v)]
  | (k', v') :: r => match cmp k k' with
                     | Lt => (k, v) :: m
                     | Eq => (k, v) :: r
                     | Gt => (k', v') :: gt_insert cmp k v r
                     end
  end.

(* BTreeMap::remove (386-405) *)
Fixpoint gt_remove {K T} (cmp : K -> K -> comparison) (k : K) (m : GTree K T) : GTree K T :=
  match m with
  | [] => []
  | (k', v') :: r => match cmp k k' with
                     | Lt => m
                     | Eq => r
                     | Gt => (k', v') :: gt_remove cmp k r
                     end
  end.

(* 171-181 struct OutputSetMap *)
Record SetMap (T : Type) := mkSetMap {
  states_3 : GTree (list nat) T;
  states_4 : GTree (list nat) T;
  states_5 : GTree (list nat) T;
  states_6 : GTree (list nat) T;
  states_7 : GTree (list nat) T;
  states_8 : GTree (list nat) T;
  states_9 : GTree Blocks T;
  states_10 : GTree Blocks T;
  states_11 : GTree Blocks T }.
Arguments mkSetMap {T}.
Arguments states_3 {T}. Arguments states_4 {T}. Arguments states_5 {T}.
Arguments states_6 {T}. Arguments states_7 {T}. Arguments states_8 {T}.
Arguments states_9 {T}. Arguments states_10 {T}. Arguments states_11 {T}.

(* 183-197 default *)
Definition smap_empty {T} : SetMap T := mkSetMap [] [] [] [] [] [] [] [] [].

(* 200-210 len *)
Definition smap_len {T} (m : SetMap T) : nat :=
  length (states_3 m) + length (states_4 m) + length (states_5 m) + length (states_6 m) + length (states_7 m)
  + length (states_8 m) + length (states_9 m) + length (states_10 m) + length (states_11 m).

(* 212-287 drain_packed: the items in the order of the iterator and the map left behind *)
Definition smap_drain {T} (m : SetMap T) : list (nat * list nat * T) * SetMap T :=
  let bytes c (e : list nat * T) := (c, fst e, snd e) in
  let words c (e : Blocks * T) := (c, unblock (fst e), snd e) in
  (map (bytes 3) (states_3 m) ++ map (bytes 4) (states_4 m) ++ map (bytes 5) (states_5 m)
   ++ map (bytes 6) (states_6 m) ++ map (bytes 7) (states_7 m) ++ map (bytes 8) (states_8 m)
   ++ map (words 9) (states_9 m) ++ map (words 10) (states_10 m) ++ map (words 11) (states_11 m),
   smap_empty).

(* array_ref!(packed, 0, len); panics if packed is too short (used in 293-402) *)
Definition bytes_ref (len : nat) (packed : list nat) : option (list nat) := array_ref packed len.
(* array_ref! and transmute (318, 322, 326, 363, 367, 371, 396, 399, 402); the transmute only exists between
   arrays of the same number of bytes *)
Definition blocks_ref (k : nat) (packed : list nat) : option Blocks :=
  a <- array_ref packed (32 * k);; Some (blocks k a).

(* 289-337 get_with_packed *)
Definition smap_get {T} (m : SetMap T) (channels : nat) (packed : list nat) : option (option T) :=
  match channels with
  | 3 => k <- bytes_ref 1 packed;; Some (gt_get key_cmp k (states_3 m))
  | 4 => k <- bytes_ref 2 packed;; Some (gt_get key_cmp k (states_4 m))
  | 5 => k <- bytes_ref 4 packed;; Some (gt_get key_cmp k (states_5 m))
  | 6 => k <- bytes_ref 8 packed;; Some (gt_get key_cmp k (states_6 m))
  | 7 => k <- bytes_ref 16 packed;; Some (gt_get key_cmp k (states_7 m))
  | 8 => k <- bytes_ref 32 packed;; Some (gt_get key_cmp k (states_8 m))
  | 9 => k <- blocks_ref 2 packed;; Some (gt_get block_cmp k (states_9 m))
  | 10 => k <- blocks_ref 4 packed;; Some (gt_get block_cmp k (states_10 m))
  | 11 => k <- blocks_ref 8 packed;; Some (gt_get block_cmp k (states_11 m))
  | _ => Some None
  end.

(* assignments to the fields (172-180) *)
Definition with_3 {T} (m : SetMap T) b := mkSetMap b (states_4 m) (states_5 m) (states_6 m) (states_7 m) (states_8 m) (states_9 m) (states_10 m) (states_11 m).
(* assignment to states_4_channels (states.rs:172-180) *)
Definition with_4 {T} (m : SetMap T) b := mkSetMap (states_3 m) b (states_5 m) (states_6 m) (states_7 m) (states_8 m) (states_9 m) (states_10 m) (states_11 m).
(* assignment to states_5_channels (states.rs:172-180) *)
Definition with_5 {T} (m : SetMap T) b := mkSetMap (states_3 m) (states_4 m) b (states_6 m) (states_7 m) (states_8 m) (states_9 m) (states_10 m) (states_11 m).
(* assignment to states_6_channels (states.rs:172-180) *)
Definition with_6 {T} (m : SetMap T) b := mkSetMap (states_3 m) (states_4 m) (states_5 m) b (states_7 m) (states_8 m) (states_9 m) (states_10 m) (states_11 m).
(* assignment to states_7_channels (states.rs:172-180) *)
Definition with_7 {T} (m : SetMap T) b := mkSetMap (states_3 m) (states_4 m) (states_5 m) (states_6 m) b (states_8 m) (states_9 m) (states_10 m) (states_11 m).
(* assignment to states_8_channels (states.rs:172-180) *)
Definition with_8 {T} (m : SetMap T) b := mkSetMap (states_3 m) (states_4 m) (states_5 m) (states_6 m) (states_7 m) b (states_9 m) (states_10 m) (states_11 m).
(* assignment to states_9_channels (states.rs:172-180) *)
Definition with_9 {T} (m : SetMap T) b := mkSetMap (states_3 m) (states_4 m) (states_5 m) (states_6 m) (states_7 m) (states_8 m) b (states_10 m) (states_11 m).
(* assignment to states_10_channels (states.rs:172-180) *)
Definition with_10 {T} (m : SetMap T) b := mkSetMap (states_3 m) (states_4 m) (states_5 m) (states_6 m) (states_7 m) (states_8 m) (states_9 m) b (states_11 m).
(* assignment to states_11_channels (states.rs:172-180) *)
Definition with_11 {T} (m : SetMap T) b := mkSetMap (states_3 m) (states_4 m) (states_5 m) (states_6 m) (states_7 m) (states_8 m) (states_9 m) (states_10 m) b.

(* 339-381 set_with_packed, with the assertion of 340 and the unreachable!() of 374 *)
Definition smap_set {T} (m : SetMap T) (channels : nat) (packed : list nat) (v : T) : option (SetMap T) :=
  if negb (2 <? channels) then None else
  match channels with
  | 3 => k <- bytes_ref 1 packed;; Some (with_3 m (gt_insert key_cmp k v (states_3 m)))
  | 4 => k <- bytes_ref 2 packed;; Some (with_4 m (gt_insert key_cmp k v (states_4 m)))
  | 5 => k <- bytes_ref 4 packed;; Some (with_5 m (gt_insert key_cmp k v (states_5 m)))
  | 6 => k <- bytes_ref 8 packed;; Some (with_6 m (gt_insert key_cmp k v (states_6 m)))
  | 7 => k <- bytes_ref 16 packed;; Some (with_7 m (gt_insert key_cmp k v (states_7 m)))
  | 8 => k <- bytes_ref 32 packed;; Some (with_8 m (gt_insert key_cmp k v (states_8 m)))
  | 9 => k <- blocks_ref 2 packed;; Some (with_9 m (gt_insert block_cmp k v (states_9 m)))
  | 10 => k <- blocks_ref 4 packed;; Some (with_10 m (gt_insert block_cmp k v (states_10 m)))
  | 11 => k <- blocks_ref 8 packed;; Some (with_11 m (gt_insert block_cmp k v (states_11 m)))
  | _ => None
  end.

(* 383-410 remove_with_packed, with the assertion of 384 and the unreachable!() of 403 *)
Definition smap_remove {T} (m : SetMap T) (channels : nat) (packed : list nat) : option (SetMap T) :=
  if negb (2 <? channels) then None else
  match channels with
  | 3 => k <- bytes_ref 1 packed;; Some (with_3 m (gt_remove key_cmp k (states_3 m)))
  | 4 => k <- bytes_ref 2 packed;; Some (with_4 m (gt_remove key_cmp k (states_4 m)))
  | 5 => k <- bytes_ref 4 packed;; Some (with_5 m (gt_remove key_cmp k (states_5 m)))
  | 6 => k <- bytes_ref 8 packed;; Some (with_6 m (gt_remove key_cmp k (states_6 m)))
  | 7 => k <- bytes_ref 16 packed;; Some (with_7 m (gt_remove key_cmp k (states_7 m)))
  | 8 => k <- bytes_ref 32 packed;; Some (with_8 m (gt_remove key_cmp k (states_8 m)))
  | 9 => k <- blocks_ref 2 packed;; Some (with_9 m (gt_remove block_cmp k (states_9 m)))
  | 10 => k <- blocks_ref 4 packed;; Some (with_10 m (gt_remove block_cmp k (states_10 m)))
  | 11 => k <- blocks_ref 8 packed;; Some (with_11 m (gt_remove block_cmp k (states_11 m)))
  | _ => None
  end.

(* 154-160 struct StateLock; the reference to the states is left out *)
Record StateLock := mkStateLock { sl_unlock : option nat; sl_channels : nat; sl_packed : list nat; sl_shard : nat }.

(* 23-26 struct StateMap; locks are the StateLock values made so far, the one with channel id at position id
   (oneshot::channel() of 140 numbers the channels), sent are the channels that were sent to (166) *)
Record States := mkStates { st_shards : list (SetMap State); lk_shards : list (SetMap nat); locks : list StateLock; sent : list nat }.

(* 28-38 default; threads is num_cpus::get() *)
Definition states_default (threads : nat) : States :=
  let shards := next_power_of_two (threads * threads * 8) in
  mkStates (repeat smap_empty shards) (repeat smap_empty shards) [] [].

(* 41-46 len *)
Definition states_len (m : States) : nat := fold_left Nat.add (map smap_len (st_shards m)) 0.

(* 51-54, 94-97, 109-112: hash the packed bytes and mask; the subtraction is checked *)
Definition shard_c (hash : list nat -> nat) (shards : nat) (packed : list nat) : option nat :=
  mask <- sub_u shards 1;; Some (Nat.land (hash packed) mask).

(* 63-87 the state of a set that is not in the map *)
Definition default_state_c (s : OutputSet) : option State :=
  sorted <- is_sorted_c s;;
  if sorted then Some (mkState 0 0 0 0)
  else if channels s <=? 2 then Some (mkState 1 1 1 1)
  else
    c1 <- sub_u (channels s) 1;;
    let quadratic_bound := channels s * c1 / 2 in
    let bound := match nth_error known_bounds (channels s) with
                 | Some b => b
                 | None => quadratic_bound mod 256
                 end in
    Some (mkState 1 bound 1 bound).

(* 48-89 get *)
Definition states_get (hash : list nat -> nat) (m : States) (s : OutputSet) : option State :=
  packed <- packed_pvec_c s;;
  shard <- shard_c hash (length (st_shards m)) packed;;
  map <- rd (st_shards m) shard;;
  r <- smap_get map (channels s) packed;;
  match r with
  | Some result => Some result
  | None => default_state_c s
  end.

(* 91-104 set; the set is packed twice *)
Definition states_set (hash : list nat -> nat) (m : States) (s : OutputSet) (st : State) : option States :=
  packed <- packed_pvec_c s;;
  shard <- shard_c hash (length (st_shards m)) packed;;
  map <- rd (st_shards m) shard;;
  packed2 <- packed_pvec_c s;;
  map' <- smap_set map (channels s) packed2 st;;
  shards <- wr (st_shards m) shard map';;
  Some (mkStates shards (lk_shards m) (locks m) (sent m)).

(* 106-127 lock up to the await of 116, with 129-144 get_lock: inl is the receiver to wait for, inr the number
   of the new channel, whose StateLock is entered in the table *)
Definition states_lock (hash : list nat -> nat) (m : States) (s : OutputSet) : option ((nat + nat) * States) :=
  packed <- packed s;;
  shard <- shard_c hash (length (lk_shards m)) packed;;
  map <- rd (lk_shards m) shard;;
  r <- smap_get map (channels s) packed;;
  match r with
  | Some existing => Some (inl existing, m)
  | None =>
      let id := length (locks m) in
      map' <- smap_set map (channels s) packed id;;
      shards <- wr (lk_shards m) shard map';;
      Some (inr id, mkStates (st_shards m) shards
                      (locks m ++ [mkStateLock (Some id) (channels s) packed shard]) (sent m))
  end.

(* the receivers in the maps (25), which keep a channel open *)
Definition receivers (m : States) : list nat := flat_map (fun sm => map snd (fst (smap_drain sm))) (lk_shards m).

(* 162-169 StateLock::drop for the lock with channel id: unlock.take().unwrap(), then send, which fails if
   all receivers are gone (only those in the maps are counted here), then the removal *)
Definition states_unlock (m : States) (id : nat) : option States :=
  lock <- rd (locks m) id;;
  ch <- sl_unlock lock;;
  map <- rd (lk_shards m) (sl_shard lock);;
  if negb (existsb (Nat.eqb ch) (receivers m)) then None else
  map' <- smap_remove map (sl_channels lock) (sl_packed lock);;
  shards <- wr (lk_shards m) (sl_shard lock) map';;
  locks' <- wr (locks m) id (mkStateLock None (sl_channels lock) (sl_packed lock) (sl_shard lock));;
  Some (mkStates (st_shards m) shards locks' (ch :: sent m)).

(* 116 lock.await.unwrap(): Some true if the lock was released, Some false if the task has to wait, None if
   the sender is gone without a send *)
Definition states_await (m : States) (id : nat) : option bool :=
  if existsb (Nat.eqb id) (sent m) then Some true
  else lock <- rd (locks m) id;; match sl_unlock lock with Some _ => Some false | None => None end.

(* 146-151 into_shards *)
Definition states_into_shards (m : States) : list (SetMap State) := st_shards m.
