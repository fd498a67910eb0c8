(* The state map with the types of the code (StatesMachModel.v) does what StatesModel.v does, and no check fails. *)
From Coq Require Import List Arith Bool Lia.
Import ListNotations.
From Verif Require Import Spec Vec Util OutputSetModel OutputSetProofs PackProofs TreeModel MachineModel MachineProofs
  StatesModel StatesProofs StatesBounds StatesMachModel.

(* ---- blocks ---- *)
Definition shaped (k : nat) (b : Blocks) : Prop := length b = k /\ Forall (fun x => length x = 32) b.

Lemma list_cmp_app a : forall b x y, length x = length y ->
  list_cmp Nat.compare (x ++ a) (y ++ b) = match list_cmp Nat.compare x y with Eq => list_cmp Nat.compare a b | c => c end.
Proof.
  intros b x. induction x as [|u x IH]; intros [|v y]; cbn [length app list_cmp]; intros L; try discriminate; auto.
  destruct (u ?= v); auto.
Qed.

Lemma block_cmp_bytes k : forall a b, shaped k a -> shaped k b -> block_cmp a b = key_cmp (unblock a) (unblock b).
Proof.
  induction k as [|k IH]; intros a b (La & Fa) (Lb & Fb).
  - destruct a; [|discriminate]. destruct b; [|discriminate]. reflexivity.
  - destruct a as [|x a]; [discriminate|]. destruct b as [|y b]; [discriminate|].
    pose proof (Forall_inv Fa) as Xa. pose proof (Forall_inv Fb) as Xb. cbv beta in Xa, Xb.
    assert (length a = k) as La' by (cbn [length] in La; lia). assert (length b = k) as Lb' by (cbn [length] in Lb; lia).
    specialize (IH a b (conj La' (Forall_inv_tail Fa)) (conj Lb' (Forall_inv_tail Fb))).
    unfold block_cmp, unblock, key_cmp in *. cbn [concat list_cmp]. rewrite list_cmp_app by congruence.
    destruct (list_cmp Nat.compare x y); auto.
Qed.

Lemma blocks_shaped k : forall l, length l = 32 * k -> shaped k (blocks k l) /\ unblock (blocks k l) = l.
Proof.
  induction k as [|k IH]; intros l L.
  - destruct l; [|rewrite Nat.mul_0_r in L; discriminate]. repeat split. constructor.
  - destruct (IH (skipn 32 l)) as ((A & B) & C). { rewrite skipn_length. lia. }
    change (blocks (S k) l) with (firstn 32 l :: blocks k (skipn 32 l)). split; [split|].
    + cbn [length]. now rewrite A.
    + constructor; auto. rewrite firstn_length. lia.
    + unfold unblock in *. cbn [concat]. rewrite C. apply firstn_skipn.
Qed.

Lemma array_ref_length p len a : array_ref p len = Some a -> length a = len.
Proof.
  unfold array_ref. destruct (Nat.ltb_spec (length p) len); [discriminate|]. intros E. injection E as <-.
  rewrite firstn_length. lia.
Qed.

(* ---- one map ---- *)
Definition bytes_map {T} (m : GTree (list nat) T) : BTree T := m.
Definition unblock_map {T} (m : GTree Blocks T) : BTree T := map (fun e => (unblock (fst e), snd e)) m.
Definition shaped_map {T} (k : nat) (m : GTree Blocks T) : Prop := forall b v, In (b, v) m -> shaped k b.

Lemma gt_get_bytes {T} k (m : GTree (list nat) T) : gt_get key_cmp k m = bt_get k m.
Proof. induction m as [|(x, v) r IH]; cbn [gt_get bt_get]; auto. destruct (key_cmp k x); auto. Qed.
Lemma gt_insert_bytes {T} k v (m : GTree (list nat) T) : gt_insert key_cmp k v m = bt_insert k v m.
Proof. induction m as [|(x, w) r IH]; cbn [gt_insert bt_insert]; auto. destruct (key_cmp k x); auto. now rewrite IH. Qed.
Lemma gt_remove_bytes {T} k (m : GTree (list nat) T) : gt_remove key_cmp k m = bt_remove k m.
Proof. induction m as [|(x, w) r IH]; cbn [gt_remove bt_remove]; auto. destruct (key_cmp k x); auto. now rewrite IH. Qed.

Lemma shaped_tl {T} n e (m : GTree Blocks T) : shaped_map n (e :: m) -> shaped_map n m.
Proof. intros H b v I. apply (H b v). now right. Qed.

Lemma gt_get_blocks {T} n k (m : GTree Blocks T) : shaped n k -> shaped_map n m ->
  gt_get block_cmp k m = bt_get (unblock k) (unblock_map m).
Proof.
  intros K. induction m as [|(x, v) r IH]; intros M; auto. unfold unblock_map in *. cbn [gt_get map bt_get fst snd].
  rewrite (block_cmp_bytes n k x K (M x v (or_introl eq_refl))). rewrite IH by (eapply shaped_tl; eauto). reflexivity.
Qed.

Lemma gt_insert_blocks {T} n k v (m : GTree Blocks T) : shaped n k -> shaped_map n m ->
  unblock_map (gt_insert block_cmp k v m) = bt_insert (unblock k) v (unblock_map m) /\ shaped_map n (gt_insert block_cmp k v m).
Proof.
  intros K. induction m as [|(x, w) r IH]; intros M.
  - split; auto. intros b y [E|[]]. injection E as <- <-. exact K.
  - specialize (IH (shaped_tl _ _ _ M)) as (IH1 & IH2). pose proof (M x w (or_introl eq_refl)) as X.
    unfold unblock_map in *. cbn [gt_insert map bt_insert fst snd].
    rewrite (block_cmp_bytes n k x K X). destruct (key_cmp (unblock k) (unblock x)) eqn:E; cbn [map fst snd].
    + split; auto. intros b y [E'|I]; [injection E' as <- <-; exact K|]. apply (M b y). now right.
    + split; auto. intros b y [E'|I]; [injection E' as <- <-; exact K|]. now apply (M b y).
    + rewrite IH1. split; auto. intros b y [E'|I]; [injection E' as <- <-; exact X|]. now apply (IH2 b y).
Qed.

Lemma gt_remove_blocks {T} n k (m : GTree Blocks T) : shaped n k -> shaped_map n m ->
  unblock_map (gt_remove block_cmp k m) = bt_remove (unblock k) (unblock_map m) /\ shaped_map n (gt_remove block_cmp k m).
Proof.
  intros K. induction m as [|(x, w) r IH]; intros M.
  - split; auto.
  - specialize (IH (shaped_tl _ _ _ M)) as (IH1 & IH2). pose proof (M x w (or_introl eq_refl)) as X.
    unfold unblock_map in *. cbn [gt_remove map bt_remove fst snd].
    rewrite (block_cmp_bytes n k x K X). destruct (key_cmp (unblock k) (unblock x)) eqn:E; cbn [map fst snd].
    + split; auto. eapply shaped_tl; eauto.
    + split; auto.
    + rewrite IH1. split; auto. intros b y [E'|I]; [injection E' as <- <-; exact X|]. now apply (IH2 b y).
Qed.

(* ---- the nine maps ---- *)
Definition erase {T} (m : SetMap T) : OutputSetMap T :=
  [states_3 m; states_4 m; states_5 m; states_6 m; states_7 m; states_8 m;
   unblock_map (states_9 m); unblock_map (states_10 m); unblock_map (states_11 m)].
Definition smap_ok {T} (m : SetMap T) : Prop :=
  shaped_map 2 (states_9 m) /\ shaped_map 4 (states_10 m) /\ shaped_map 8 (states_11 m).

Lemma blocks_ref_spec k p : match array_ref p (32 * k) with
  | Some a => exists b, blocks_ref k p = Some b /\ shaped k b /\ unblock b = a
  | None => blocks_ref k p = None
  end.
Proof.
  unfold blocks_ref. destruct (array_ref p (32 * k)) as [a|] eqn:E; auto.
  destruct (blocks_shaped k a (array_ref_length _ _ _ E)). eauto.
Qed.

Lemma smap_empty_ok {T} : smap_ok (@smap_empty T) /\ erase (@smap_empty T) = osm_empty.
Proof. split; [split; [|split]; intros b v []|reflexivity]. Qed.

Lemma smap_get_erase {T} (m : SetMap T) c p : smap_ok m -> smap_get m c p = get_with_packed (erase m) c p.
Proof.
  intros (S9 & S10 & S11). unfold get_with_packed.
  destruct c as [|[|[|[|[|[|[|[|[|[|[|[|c]]]]]]]]]]]]; try reflexivity.
  - change ((3 <=? 3) && (3 <=? 11)) with true. cbv iota. change (2 ^ (3 - 3)) with 1. unfold smap_get, bytes_ref.
    destruct (array_ref p 1); auto. cbn [nth_error Nat.sub erase]. now rewrite gt_get_bytes.
  - change ((3 <=? 4) && (4 <=? 11)) with true. cbv iota. change (2 ^ (4 - 3)) with 2. unfold smap_get, bytes_ref.
    destruct (array_ref p 2); auto. cbn [nth_error Nat.sub erase]. now rewrite gt_get_bytes.
  - change ((3 <=? 5) && (5 <=? 11)) with true. cbv iota. change (2 ^ (5 - 3)) with 4. unfold smap_get, bytes_ref.
    destruct (array_ref p 4); auto. cbn [nth_error Nat.sub erase]. now rewrite gt_get_bytes.
  - change ((3 <=? 6) && (6 <=? 11)) with true. cbv iota. change (2 ^ (6 - 3)) with 8. unfold smap_get, bytes_ref.
    destruct (array_ref p 8); auto. cbn [nth_error Nat.sub erase]. now rewrite gt_get_bytes.
  - change ((3 <=? 7) && (7 <=? 11)) with true. cbv iota. change (2 ^ (7 - 3)) with 16. unfold smap_get, bytes_ref.
    destruct (array_ref p 16); auto. cbn [nth_error Nat.sub erase]. now rewrite gt_get_bytes.
  - change ((3 <=? 8) && (8 <=? 11)) with true. cbv iota. change (2 ^ (8 - 3)) with 32. unfold smap_get, bytes_ref.
    destruct (array_ref p 32); auto. cbn [nth_error Nat.sub erase]. now rewrite gt_get_bytes.
  - change ((3 <=? 9) && (9 <=? 11)) with true. cbv iota. change (2 ^ (9 - 3)) with (32 * 2). unfold smap_get.
    pose proof (blocks_ref_spec 2 p) as B. destruct (array_ref p (32 * 2)).
    + destruct B as (b & -> & K & <-). cbn [nth_error Nat.sub erase]. now rewrite (gt_get_blocks 2).
    + now rewrite B.
  - change ((3 <=? 10) && (10 <=? 11)) with true. cbv iota. change (2 ^ (10 - 3)) with (32 * 4). unfold smap_get.
    pose proof (blocks_ref_spec 4 p) as B. destruct (array_ref p (32 * 4)).
    + destruct B as (b & -> & K & <-). cbn [nth_error Nat.sub erase]. now rewrite (gt_get_blocks 4).
    + now rewrite B.
  - change ((3 <=? 11) && (11 <=? 11)) with true. cbv iota. change (2 ^ (11 - 3)) with (32 * 8). unfold smap_get.
    pose proof (blocks_ref_spec 8 p) as B. destruct (array_ref p (32 * 8)).
    + destruct B as (b & -> & K & <-). cbn [nth_error Nat.sub erase]. now rewrite (gt_get_blocks 8).
    + now rewrite B.
Qed.

(* the results of set and remove: both fail, or both go on with related maps *)
Definition same_map {T} (a : option (SetMap T)) (b : option (OutputSetMap T)) : Prop :=
  match a, b with
  | Some m, Some om => smap_ok m /\ erase m = om
  | None, None => True
  | _, _ => False
  end.

Lemma smap_set_erase {T} (m : SetMap T) c p v : smap_ok m -> same_map (smap_set m c p v) (set_with_packed (erase m) c p v).
Proof.
  intros (S9 & S10 & S11). unfold set_with_packed, smap_set.
  destruct c as [|[|[|[|[|[|[|[|[|[|[|[|c]]]]]]]]]]]]; try exact Logic.I.
  - change ((3 <=? 3) && (3 <=? 11)) with true. change (negb (2 <? 3)) with false. cbv iota. change (2 ^ (3 - 3)) with 1.
    unfold bytes_ref. destruct (array_ref p 1); [|exact Logic.I]. cbn [nth_error Nat.sub erase]. split; [split; [|split]; assumption|].
    unfold with_3, erase. cbn. now rewrite gt_insert_bytes.
  - change ((3 <=? 4) && (4 <=? 11)) with true. change (negb (2 <? 4)) with false. cbv iota. change (2 ^ (4 - 3)) with 2.
    unfold bytes_ref. destruct (array_ref p 2); [|exact Logic.I]. cbn [nth_error Nat.sub erase]. split; [split; [|split]; assumption|].
    unfold with_4, erase. cbn. now rewrite gt_insert_bytes.
  - change ((3 <=? 5) && (5 <=? 11)) with true. change (negb (2 <? 5)) with false. cbv iota. change (2 ^ (5 - 3)) with 4.
    unfold bytes_ref. destruct (array_ref p 4); [|exact Logic.I]. cbn [nth_error Nat.sub erase]. split; [split; [|split]; assumption|].
    unfold with_5, erase. cbn. now rewrite gt_insert_bytes.
  - change ((3 <=? 6) && (6 <=? 11)) with true. change (negb (2 <? 6)) with false. cbv iota. change (2 ^ (6 - 3)) with 8.
    unfold bytes_ref. destruct (array_ref p 8); [|exact Logic.I]. cbn [nth_error Nat.sub erase]. split; [split; [|split]; assumption|].
    unfold with_6, erase. cbn. now rewrite gt_insert_bytes.
  - change ((3 <=? 7) && (7 <=? 11)) with true. change (negb (2 <? 7)) with false. cbv iota. change (2 ^ (7 - 3)) with 16.
    unfold bytes_ref. destruct (array_ref p 16); [|exact Logic.I]. cbn [nth_error Nat.sub erase]. split; [split; [|split]; assumption|].
    unfold with_7, erase. cbn. now rewrite gt_insert_bytes.
  - change ((3 <=? 8) && (8 <=? 11)) with true. change (negb (2 <? 8)) with false. cbv iota. change (2 ^ (8 - 3)) with 32.
    unfold bytes_ref. destruct (array_ref p 32); [|exact Logic.I]. cbn [nth_error Nat.sub erase]. split; [split; [|split]; assumption|].
    unfold with_8, erase. cbn. now rewrite gt_insert_bytes.
  - change ((3 <=? 9) && (9 <=? 11)) with true. change (negb (2 <? 9)) with false. cbv iota. change (2 ^ (9 - 3)) with (32 * 2).
    pose proof (blocks_ref_spec 2 p) as B. destruct (array_ref p (32 * 2)); [|now rewrite B].
    destruct B as (b & -> & K & <-). cbn [nth_error Nat.sub erase].
    destruct (gt_insert_blocks 2 b v (states_9 m) K S9) as (E & F). split; [split; [|split]; assumption|].
    unfold with_9, erase. cbn [states_3 states_4 states_5 states_6 states_7 states_8 states_9 states_10 states_11]. now rewrite E.
  - change ((3 <=? 10) && (10 <=? 11)) with true. change (negb (2 <? 10)) with false. cbv iota. change (2 ^ (10 - 3)) with (32 * 4).
    pose proof (blocks_ref_spec 4 p) as B. destruct (array_ref p (32 * 4)); [|now rewrite B].
    destruct B as (b & -> & K & <-). cbn [nth_error Nat.sub erase].
    destruct (gt_insert_blocks 4 b v (states_10 m) K S10) as (E & F). split; [split; [|split]; assumption|].
    unfold with_10, erase. cbn [states_3 states_4 states_5 states_6 states_7 states_8 states_9 states_10 states_11]. now rewrite E.
  - change ((3 <=? 11) && (11 <=? 11)) with true. change (negb (2 <? 11)) with false. cbv iota. change (2 ^ (11 - 3)) with (32 * 8).
    pose proof (blocks_ref_spec 8 p) as B. destruct (array_ref p (32 * 8)); [|now rewrite B].
    destruct B as (b & -> & K & <-). cbn [nth_error Nat.sub erase].
    destruct (gt_insert_blocks 8 b v (states_11 m) K S11) as (E & F). split; [split; [|split]; assumption|].
    unfold with_11, erase. cbn [states_3 states_4 states_5 states_6 states_7 states_8 states_9 states_10 states_11]. now rewrite E.
Qed.

Lemma smap_remove_erase {T} (m : SetMap T) c p : smap_ok m -> same_map (smap_remove m c p) (remove_with_packed (erase m) c p).
Proof.
  intros (S9 & S10 & S11). unfold remove_with_packed, smap_remove.
  destruct c as [|[|[|[|[|[|[|[|[|[|[|[|c]]]]]]]]]]]]; try exact Logic.I.
  - change ((3 <=? 3) && (3 <=? 11)) with true. change (negb (2 <? 3)) with false. cbv iota. change (2 ^ (3 - 3)) with 1.
    unfold bytes_ref. destruct (array_ref p 1); [|exact Logic.I]. cbn [nth_error Nat.sub erase]. split; [split; [|split]; assumption|].
    unfold with_3, erase. cbn. now rewrite gt_remove_bytes.
  - change ((3 <=? 4) && (4 <=? 11)) with true. change (negb (2 <? 4)) with false. cbv iota. change (2 ^ (4 - 3)) with 2.
    unfold bytes_ref. destruct (array_ref p 2); [|exact Logic.I]. cbn [nth_error Nat.sub erase]. split; [split; [|split]; assumption|].
    unfold with_4, erase. cbn. now rewrite gt_remove_bytes.
  - change ((3 <=? 5) && (5 <=? 11)) with true. change (negb (2 <? 5)) with false. cbv iota. change (2 ^ (5 - 3)) with 4.
    unfold bytes_ref. destruct (array_ref p 4); [|exact Logic.I]. cbn [nth_error Nat.sub erase]. split; [split; [|split]; assumption|].
    unfold with_5, erase. cbn. now rewrite gt_remove_bytes.
  - change ((3 <=? 6) && (6 <=? 11)) with true. change (negb (2 <? 6)) with false. cbv iota. change (2 ^ (6 - 3)) with 8.
    unfold bytes_ref. destruct (array_ref p 8); [|exact Logic.I]. cbn [nth_error Nat.sub erase]. split; [split; [|split]; assumption|].
    unfold with_6, erase. cbn. now rewrite gt_remove_bytes.
  - change ((3 <=? 7) && (7 <=? 11)) with true. change (negb (2 <? 7)) with false. cbv iota. change (2 ^ (7 - 3)) with 16.
    unfold bytes_ref. destruct (array_ref p 16); [|exact Logic.I]. cbn [nth_error Nat.sub erase]. split; [split; [|split]; assumption|].
    unfold with_7, erase. cbn. now rewrite gt_remove_bytes.
  - change ((3 <=? 8) && (8 <=? 11)) with true. change (negb (2 <? 8)) with false. cbv iota. change (2 ^ (8 - 3)) with 32.
    unfold bytes_ref. destruct (array_ref p 32); [|exact Logic.I]. cbn [nth_error Nat.sub erase]. split; [split; [|split]; assumption|].
    unfold with_8, erase. cbn. now rewrite gt_remove_bytes.
  - change ((3 <=? 9) && (9 <=? 11)) with true. change (negb (2 <? 9)) with false. cbv iota. change (2 ^ (9 - 3)) with (32 * 2).
    pose proof (blocks_ref_spec 2 p) as B. destruct (array_ref p (32 * 2)); [|now rewrite B].
    destruct B as (b & -> & K & <-). cbn [nth_error Nat.sub erase].
    destruct (gt_remove_blocks 2 b (states_9 m) K S9) as (E & F). split; [split; [|split]; assumption|].
    unfold with_9, erase. cbn [states_3 states_4 states_5 states_6 states_7 states_8 states_9 states_10 states_11]. now rewrite E.
  - change ((3 <=? 10) && (10 <=? 11)) with true. change (negb (2 <? 10)) with false. cbv iota. change (2 ^ (10 - 3)) with (32 * 4).
    pose proof (blocks_ref_spec 4 p) as B. destruct (array_ref p (32 * 4)); [|now rewrite B].
    destruct B as (b & -> & K & <-). cbn [nth_error Nat.sub erase].
    destruct (gt_remove_blocks 4 b (states_10 m) K S10) as (E & F). split; [split; [|split]; assumption|].
    unfold with_10, erase. cbn [states_3 states_4 states_5 states_6 states_7 states_8 states_9 states_10 states_11]. now rewrite E.
  - change ((3 <=? 11) && (11 <=? 11)) with true. change (negb (2 <? 11)) with false. cbv iota. change (2 ^ (11 - 3)) with (32 * 8).
    pose proof (blocks_ref_spec 8 p) as B. destruct (array_ref p (32 * 8)); [|now rewrite B].
    destruct B as (b & -> & K & <-). cbn [nth_error Nat.sub erase].
    destruct (gt_remove_blocks 8 b (states_11 m) K S11) as (E & F). split; [split; [|split]; assumption|].
    unfold with_11, erase. cbn [states_3 states_4 states_5 states_6 states_7 states_8 states_9 states_10 states_11]. now rewrite E.
Qed.

Lemma smap_len_erase {T} (m : SetMap T) : smap_len m = osm_len (erase m).
Proof. unfold smap_len, osm_len, erase. cbn [fold_left]. unfold unblock_map. now rewrite !map_length. Qed.

Lemma smap_drain_erase {T} (m : SetMap T) : smap_drain m = (drain_packed (erase m), smap_empty).
Proof.
  unfold smap_drain, drain_packed, erase, enumerate. f_equal. cbn [length seq combine flat_map fst snd Nat.add].
  rewrite app_nil_r. unfold unblock_map. now rewrite !map_map.
Qed.

(* ---- all shards ---- *)
Definition erase_states (m : States) : StateMap := mkStateMap (map erase (st_shards m)) (map erase (lk_shards m)).
Definition maps_ok (m : States) : Prop :=
  (forall x, In x (st_shards m) -> smap_ok x) /\ (forall x, In x (lk_shards m) -> smap_ok x).

Lemma states_default_ok threads : maps_ok (states_default threads) /\ erase_states (states_default threads) = sm_default threads.
Proof.
  split.
  - split; intros x I; apply repeat_spec in I; subst x; apply smap_empty_ok.
  - unfold erase_states, states_default, sm_default. cbn [st_shards lk_shards].
    assert (G : forall T k, map erase (repeat (@smap_empty T) k) = repeat osm_empty k).
    { intros T k. induction k as [|k IH]; auto. cbn [repeat map]. rewrite IH. f_equal. }
    now rewrite !G.
Qed.

Lemma shard_c_spec hash k p : 0 < k -> shard_c hash k p = Some (shard_of hash k p).
Proof. intros H. unfold shard_c, sub_u, shard_of. destruct (Nat.leb_spec 1 k); [reflexivity|lia]. Qed.

Lemma default_state_same s : wf s -> channels s <= MAX_CHANNELS -> default_state_c s = Some (default_state s).
Proof.
  intros W C. unfold default_state_c, default_state. rewrite is_sorted_ok by auto. cbv beta iota. destruct (is_sorted s); auto.
  destruct (Nat.leb_spec (channels s) 2); auto. unfold sub_u. destruct (Nat.leb_spec 1 (channels s)); [reflexivity|lia].
Qed.

Lemma rd_shard {T} (l : list (SetMap T)) i : i < length l -> (forall x, In x l -> smap_ok x) ->
  exists x, rd l i = Some x /\ smap_ok x /\ nth_error (map erase l) i = Some (erase x).
Proof.
  intros H O. unfold rd. destruct (nth_error l i) as [x|] eqn:E.
  - exists x. split; auto. split; [apply O; eapply nth_error_In; eauto|]. now apply map_nth_error.
  - apply nth_error_None in E. lia.
Qed.

Lemma upd_map {A B} (f : A -> B) l : forall i x, map f (upd l i x) = upd (map f l) i (f x).
Proof. induction l as [|a l IH]; intros [|i] x; cbn; auto. now rewrite IH. Qed.

Lemma In_upd {A} (l : list A) : forall i x y, In y (upd l i x) -> y = x \/ In y l.
Proof.
  induction l as [|a l IH]; intros [|i] x y; cbn; auto. { intros [H|H]; auto. }
  intros [H|H]; auto. destruct (IH i x y H); auto.
Qed.

Lemma wr_lt {A} (l : list A) i x : i < length l -> wr l i x = Some (upd l i x).
Proof. intros H. unfold wr. destruct (Nat.ltb_spec i (length l)); [reflexivity|lia]. Qed.

Section Same.
Variable hash : list nat -> nat.

Lemma lengths m : sm_ok hash (erase_states m) -> 0 < length (st_shards m) /\ 0 < length (lk_shards m).
Proof. intros ((A & _) & (B & _)). unfold erase_states in A, B; cbn [state_shards lock_shards] in A, B. rewrite map_length in A, B. auto. Qed.

Lemma states_get_same m s : maps_ok m -> sm_ok hash (erase_states m) -> wf s -> channels s <= MAX_CHANNELS ->
  states_get hash m s = sm_get hash (erase_states m) s.
Proof.
  intros (O & _) K W C. destruct (lengths m K) as (L & _). unfold states_get, sm_get. rewrite packed_pvec_ok by auto.
  destruct (packed s) as [p|]; auto. rewrite shard_c_spec by auto. cbn [erase_states state_shards]. rewrite map_length.
  destruct (rd_shard (st_shards m) (shard_of hash (length (st_shards m)) p) (shard_lt hash _ p L) O) as (x & -> & X & ->).
  rewrite (smap_get_erase x) by auto. destruct (get_with_packed (erase x) (channels s) p) as [[st|]|]; auto.
  now apply default_state_same.
Qed.

Lemma states_set_same m s st : maps_ok m -> sm_ok hash (erase_states m) -> okk s ->
  exists m', states_set hash m s st = Some m' /\ sm_set hash (erase_states m) s st = Some (erase_states m') /\ maps_ok m' /\
    lk_shards m' = lk_shards m /\ locks m' = locks m /\ sent m' = sent m.
Proof.
  intros (O & OL) K Hs. destruct (lengths m K) as (L & _). destruct (sm_set_spec hash (erase_states m) s st K Hs) as (M & E & _ & _ & _).
  revert E. unfold states_set, sm_set. destruct Hs as (W & _ & C). rewrite packed_pvec_ok by auto.
  destruct (packed s) as [p|]; [|discriminate]. rewrite shard_c_spec by auto. unfold erase_states; cbn [state_shards lock_shards]. rewrite map_length.
  pose proof (shard_lt hash _ p L) as Hi. set (i := shard_of hash (length (st_shards m)) p) in *.
  destruct (rd_shard (st_shards m) i Hi O) as (x & -> & X & ->).
  pose proof (smap_set_erase x (channels s) p st X) as S. unfold same_map in S.
  destruct (set_with_packed (erase x) (channels s) p st) as [om|]; [|discriminate].
  destruct (smap_set x (channels s) p st) as [x'|]; [|contradiction]. destruct S as (X' & <-). rewrite wr_lt by auto.
  intros E. eexists. split; [reflexivity|]. unfold erase_states; cbn [state_shards lock_shards st_shards lk_shards locks sent]. rewrite upd_map.
  split; [reflexivity|]. split; auto. split; auto. cbn [st_shards]. intros y I. apply In_upd in I. destruct I as [->|I]; auto.
Qed.

(* the locks that are out: L pairs their sets with their channels *)
Definition held_inv (M : StateMap) (next : nat) (snt : list nat) (L : list (OutputSet * nat)) : Prop :=
  NoDup (map fst L) /\ NoDup (map snd L) /\
  (forall s id, wf s -> lock_of hash M s = Some id <-> In (s, id) L) /\
  (forall s id, In (s, id) L -> id < next /\ ~ In id snt) /\
  (forall id, In id snt -> id < next).

Definition lock_for (m : States) (s : OutputSet) (id : nat) : StateLock :=
  mkStateLock (Some id) (channels s) (pk s) (shard_of hash (length (lk_shards m)) (pk s)).
Definition table_ok (m : States) (L : list (OutputSet * nat)) : Prop :=
  (forall s id, In (s, id) L -> okk s /\ nth_error (locks m) id = Some (lock_for m s id)) /\
  (forall id, id < length (locks m) -> In id (map snd L) \/ In id (sent m)).

Lemma states_lock_same m s : maps_ok m -> sm_ok hash (erase_states m) -> okk s ->
  match lock_of hash (erase_states m) s with
  | Some id => states_lock hash m s = Some (inl id, m) /\ sm_get_lock hash (erase_states m) s (length (locks m)) = Some (inl id)
  | None => exists m', states_lock hash m s = Some (inr (length (locks m)), m') /\
      sm_get_lock hash (erase_states m) s (length (locks m)) = Some (inr (erase_states m')) /\ maps_ok m' /\
      st_shards m' = st_shards m /\ length (lk_shards m') = length (lk_shards m) /\
      locks m' = locks m ++ [lock_for m s (length (locks m))] /\ sent m' = sent m
  end.
Proof.
  intros (O & OL) K Hs. destruct (lengths m K) as (_ & L). pose proof (sm_get_lock_spec hash (erase_states m) s (length (locks m)) K Hs) as G.
  assert (E : match lock_of hash (erase_states m) s with
              | Some id => sm_get_lock hash (erase_states m) s (length (locks m)) = Some (inl id)
              | None => exists M, sm_get_lock hash (erase_states m) s (length (locks m)) = Some (inr M)
              end).
  { destruct (lock_of _ _ _); auto. destruct G as (M & G & _). eauto. }
  clear G. destruct (lock_of hash (erase_states m) s) as [id|].
  - revert E. unfold states_lock, sm_get_lock. destruct (packed s) as [p|]; [|discriminate]. rewrite shard_c_spec by auto.
    unfold erase_states; cbn [state_shards lock_shards]. rewrite map_length.
    pose proof (shard_lt hash _ p L) as Hi. set (i := shard_of hash (length (lk_shards m)) p) in *.
    destruct (rd_shard (lk_shards m) i Hi OL) as (x & -> & X & ->). rewrite (smap_get_erase x) by auto.
    destruct (get_with_packed (erase x) (channels s) p) as [[j|]|]; [|destruct (set_with_packed _ _ _ _); discriminate|discriminate].
    intros E. split; auto. now injection E as ->.
  - destruct E as (M & E). revert E.  unfold states_lock, sm_get_lock. rewrite (packed_pk s) by apply Hs.
    rewrite shard_c_spec by auto. unfold erase_states; cbn [state_shards lock_shards]. rewrite map_length.
    pose proof (shard_lt hash _ (pk s) L) as Hi. set (i := shard_of hash (length (lk_shards m)) (pk s)) in *.
    destruct (rd_shard (lk_shards m) i Hi OL) as (x & -> & X & ->). rewrite (smap_get_erase x) by auto.
    destruct (get_with_packed (erase x) (channels s) (pk s)) as [[j|]|]; try discriminate.
    pose proof (smap_set_erase x (channels s) (pk s) (length (locks m)) X) as S. unfold same_map in S.
    destruct (set_with_packed (erase x) (channels s) (pk s) (length (locks m))) as [om|]; [|discriminate].
    destruct (smap_set x (channels s) (pk s) (length (locks m))) as [x'|]; [|contradiction]. destruct S as (X' & <-). rewrite wr_lt by auto.
    intros _. eexists. split; [reflexivity|]. unfold erase_states; cbn [state_shards lock_shards st_shards lk_shards locks sent]. rewrite upd_map.
    split; [reflexivity|]. split; [|split; [reflexivity|split; [|split; reflexivity]]].
    + split; auto. cbn [lk_shards]. intros y I. apply In_upd in I. destruct I as [->|I]; auto.
    + apply upd_length.
Qed.

Lemma receivers_erase m : receivers m = map snd (drain_all (map erase (lk_shards m))).
Proof.
  unfold receivers, drain_all. induction (lk_shards m) as [|x l IH]; auto. cbn [flat_map map].
  rewrite IH, map_app, smap_drain_erase. reflexivity.
Qed.

Lemma states_unlock_same m L s id : maps_ok m -> sm_ok hash (erase_states m) ->
  held_inv (erase_states m) (length (locks m)) (sent m) L -> table_ok m L -> In (s, id) L ->
  exists m', states_unlock m id = Some m' /\ sm_unlock hash (erase_states m) s = Some (erase_states m') /\ maps_ok m' /\
    st_shards m' = st_shards m /\ length (lk_shards m') = length (lk_shards m) /\
    locks m' = upd (locks m) id (mkStateLock None (channels s) (pk s) (shard_of hash (length (lk_shards m)) (pk s))) /\ sent m' = id :: sent m.
Proof.
  intros (O & OL) K (_ & _ & HL & _) (T & _) I. destruct (lengths m K) as (_ & L0). destruct (T s id I) as (Hs & E).
  destruct (sm_unlock_spec hash (erase_states m) s K Hs) as (M & EM & _). unfold states_unlock, rd at 1. rewrite E.
  cbn [lock_for sl_unlock sl_shard sl_channels sl_packed].
  assert (R : existsb (Nat.eqb id) (receivers m) = true).
  { apply existsb_exists. exists id. split; [|apply Nat.eqb_refl]. rewrite receivers_erase. apply in_map_iff.
    exists (channels s, pk s, id). split; auto. apply (drain_all_In hash); [apply K|]. exists s. split; auto. split; auto. split; auto.
    apply HL; [apply Hs|exact I]. }
  revert EM. unfold sm_unlock. rewrite (packed_pk s) by apply Hs. unfold erase_states; cbn [state_shards lock_shards]. rewrite map_length.
  pose proof (shard_lt hash _ (pk s) L0) as Hi. set (i := shard_of hash (length (lk_shards m)) (pk s)) in *.
  destruct (rd_shard (lk_shards m) i Hi OL) as (x & -> & X & ->). rewrite R. cbn [negb].
  pose proof (smap_remove_erase x (channels s) (pk s) X) as S. unfold same_map in S.
  destruct (remove_with_packed (erase x) (channels s) (pk s)) as [om|]; [|discriminate].
  destruct (smap_remove x (channels s) (pk s)) as [x'|]; [|contradiction]. destruct S as (X' & <-). rewrite wr_lt by auto.
  rewrite wr_lt by (apply nth_error_Some; congruence). intros _. eexists. split; [reflexivity|].
  unfold erase_states; cbn [state_shards lock_shards st_shards lk_shards locks sent]. rewrite upd_map.
  split; [reflexivity|]. split; [|split; [reflexivity|split; [|split; reflexivity]]].
  + split; auto. cbn [lk_shards]. intros y Iy. apply In_upd in Iy. destruct Iy as [->|Iy]; auto.
  + apply upd_length.
Qed.

Lemma states_await_same m L id : table_ok m L -> id < length (locks m) ->
  states_await m id = Some (existsb (Nat.eqb id) (sent m)).
Proof.
  intros (T & H) Hi. unfold states_await. destruct (existsb (Nat.eqb id) (sent m)) eqn:E; auto.
  destruct (H id Hi) as [I|I].
  - apply in_map_iff in I. destruct I as ((s, j) & Ej & I). cbn [snd] in Ej. subst j. destruct (T s id I) as (_ & En).
    unfold rd. rewrite En. reflexivity.
  - assert (existsb (Nat.eqb id) (sent m) = true) by (apply existsb_exists; exists id; split; auto; apply Nat.eqb_refl). congruence.
Qed.

Lemma nth_error_upd_ne {A} (l : list A) : forall i j x, j <> i -> nth_error (upd l i x) j = nth_error l j.
Proof. induction l as [|a l IH]; intros [|i] [|j] x H; cbn; auto; congruence. Qed.

(* keeping the invariants *)
Lemma table_new m m' L s : table_ok m L -> okk s -> length (lk_shards m') = length (lk_shards m) ->
  locks m' = locks m ++ [lock_for m s (length (locks m))] -> sent m' = sent m -> table_ok m' ((s, length (locks m)) :: L).
Proof.
  intros (T & H) Hs El E Es. split.
  - intros t id [I|I].
    + injection I as <- <-. split; auto. rewrite E, nth_error_app2, Nat.sub_diag by auto. unfold lock_for. rewrite El. reflexivity.
    + destruct (T t id I) as (Ht & Et). split; auto. rewrite E, nth_error_app1 by (apply nth_error_Some; congruence).
      rewrite Et. unfold lock_for. now rewrite El.
  - rewrite E, app_length, Es. cbn [length map]. intros id Hid. destruct (Nat.eq_dec id (length (locks m))) as [->|N]; [left; now left|].
    destruct (H id ltac:(lia)); auto. left. now right.
Qed.

Lemma table_free m m' A s id B : table_ok m (A ++ (s, id) :: B) -> NoDup (map snd (A ++ (s, id) :: B)) ->
  length (lk_shards m') = length (lk_shards m) -> (exists l, locks m' = upd (locks m) id l) -> sent m' = id :: sent m -> table_ok m' (A ++ B).
Proof.
  intros (T & H) N El (l & E) Es. rewrite map_app in N. cbn [map snd] in N. apply NoDup_remove_2 in N. rewrite <- map_app in N. split.
  - intros t j I. assert (j <> id). { intros ->. apply N. apply in_map_iff. exists (t, id). auto. }
    destruct (T t j) as (Ht & Et). { apply in_app_iff in I. apply in_app_iff. cbn [In]. tauto. }
    split; auto. rewrite E, nth_error_upd_ne by auto. rewrite Et. unfold lock_for. now rewrite El.
  - rewrite E, upd_length, Es. intros j Hj. destruct (Nat.eq_dec j id) as [->|Nj]; [right; now left|].
    destruct (H j Hj) as [I|I]; [|right; now right]. left. rewrite map_app in *. apply in_app_iff in I. apply in_app_iff. cbn [map snd In] in I.
    destruct I as [I|[I|I]]; auto. congruence.
Qed.
End Same.
