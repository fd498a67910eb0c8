(* src/output_set/index/tree.rs and index.rs again, with the vectors of the code: points, packed and values
   are three separate vectors, and ranges is one vector for all nodes; entry i is at i * point_dim of points, at
   i * packed_dim of packed and at i of values.  Every slice is checked, and so are the u16 operations of
   build_tree.

   What only reads or changes nodes (traversal_enter, traversal_skip, traversal_next, set_parent) and what an
   action does to one entry is taken from TreeModel.v and IndexModel.v; the three arguments of an action are
   passed as one Entry.  None stands for a panic or for running out of fuel. *)
From Coq Require Import List Arith Bool Lia.
Import ListNotations.
From Verif Require Import Spec Util OutputSetModel SubsumeModel TreeModel IndexModel.

(* tree.rs:7-10 and index.rs:278-281: points, packed, values *)
Record Vecs := mkVecs { v_points : list nat; v_packed : list nat; v_values : list nat }.

(* tree.rs:5-13 *)
Record Flat := mkFlat {
  f_dim : nat;
  f_pdim : nat;
  f_vecs : Vecs;
  f_ranges : list (nat * nat);
  f_nodes : list Node
}.

(* assignments to the fields of tree.rs:5-13 *)
Definition set_vecs (f : Flat) (v : Vecs) : Flat := mkFlat (f_dim f) (f_pdim f) v (f_ranges f) (f_nodes f).
(* assignment to nodes (tree.rs:12) *)
Definition set_nodes (f : Flat) (l : list Node) : Flat := mkFlat (f_dim f) (f_pdim f) (f_vecs f) (f_ranges f) l.
(* assignment to ranges (tree.rs:11) *)
Definition set_ranges (f : Flat) (l : list (nat * nat)) : Flat := mkFlat (f_dim f) (f_pdim f) (f_vecs f) l (f_nodes f).
(* the nodes alone, for the functions of TreeModel.v that look at nothing else (tree.rs:5-13) *)
Definition only_nodes (f : Flat) : Tree := mkTree (f_dim f) [] (f_nodes f) [].

(* &l[i * dim..][..dim], as in tree.rs:173, 274-275, 281-282, 296-297, 523, 535-536, 570, 583-584 and
   index.rs:361-362, 430-431, 549-550, 559, 564, 599-600 *)
Definition slot {A} (l : list A) (dim i : nat) : option (list A) :=
  if i * dim + dim <=? length l then Some (firstn dim (skipn (i * dim) l)) else None.
(* the same slice is overwritten (tree.rs:278, 285, 300 and index.rs:559, 564) *)
Definition put {A} (l : list A) (dim i : nat) (x : list A) : list A :=
  firstn (i * dim) l ++ x ++ skipn (i * dim + dim) l.

(* tree.rs:51-62 Augmentation::new and 64-82 update_leaf on a slice of values; None: values[0] *)
Definition flat_aug (values : list nat) : option Aug :=
  match values with
  | [] => None
  | v :: r => Some (mkAug (length values) (fold_left Nat.min r v) (fold_left Nat.max r v))
  end.

(* the loops over ranges.iter_mut().zip(..) in tree.rs:607 and 612: the part beyond the shorter one stays *)
Fixpoint zip_with {A B} (g : A -> B -> A) (l : list A) (m : list B) : list A :=
  match l, m with
  | a :: l', b :: m' => g a b :: zip_with g l' m'
  | _, _ => l
  end.
(* tree.rs:606-617 compute_ranges *)
Definition flat_ranges (ranges : list (nat * nat)) (points : list nat) : option (list (nat * nat)) :=
  let r1 := zip_with (fun _ c => (c, c)) ranges points in
  if length ranges =? 0 then None else
  Some (fold_left (zip_with (fun r c => (Nat.min (fst r) c, Nat.max (snd r) c))) (skipn 1 (chunks (length ranges) points)) r1).

(* tree.rs:269-289 swap_values *)
Definition flat_swap (dim pdim : nat) (v : Vecs) (left right : nat) : option Vecs :=
  if left =? right then Some v else
  pl <- slot (v_points v) dim left ;;
  pr <- slot (v_points v) dim right ;;
  let points := put (put (v_points v) dim left pr) dim right pl in
  kl <- slot (v_packed v) pdim left ;;
  kr <- slot (v_packed v) pdim right ;;
  let packed := put (put (v_packed v) pdim left kr) pdim right kl in
  vl <- nth_error (v_values v) left ;;
  vr <- nth_error (v_values v) right ;;
  Some (mkVecs points packed (upd (upd (v_values v) left vr) right vl)).

(* tree.rs:254-256 *)
Fixpoint flat_scan_left (fuel : nat) (points : list nat) (pdim dim at_ stop left : nat) : option nat :=
  match fuel with
  | 0 => None
  | S f =>
      if left <? stop then
        c <- nth_error points (left * pdim + dim) ;;
        if c <? at_ then flat_scan_left f points pdim dim at_ stop (S left) else Some left
      else Some left
  end.

(* tree.rs:257-259 *)
Fixpoint flat_scan_right (fuel : nat) (points : list nat) (pdim dim at_ start right : nat) : option nat :=
  match fuel with
  | 0 => None
  | S f =>
      if start <? right then
        c <- nth_error points (right * pdim + dim) ;;
        if at_ <=? c then flat_scan_right f points pdim dim at_ start (right - 1) else Some right
      else Some right
  end.

(* tree.rs:253-264 *)
Fixpoint flat_part_loop (fuel : nat) (pdim kdim : nat) (v : Vecs) (dim at_ start stop left right : nat) : option (Vecs * nat) :=
  match fuel with
  | 0 => None
  | S f =>
      left' <- flat_scan_left (S (stop - left)) (v_points v) pdim dim at_ stop left ;;
      right' <- flat_scan_right (S (right - start)) (v_points v) pdim dim at_ start right ;;
      if right' <=? left' then Some (v, left') else
      v' <- flat_swap pdim kdim v left' right' ;;
      flat_part_loop f pdim kdim v' dim at_ start stop left' right'
  end.

(* tree.rs:245-267 partition *)
Definition flat_partition (pdim kdim : nat) (v : Vecs) (dim at_ start stop : nat) : option (Vecs * nat) :=
  if stop - start =? 0 then Some (v, start)
  else flat_part_loop (S (stop - start)) pdim kdim v dim at_ start stop start (stop - 1).

(* u16 arithmetic with the checks of a debug build, tree.rs:177 (high - low) and 182 (additions) *)
Definition sub16 (a b : nat) : option nat := if b <=? a then Some (a - b) else None.
(* u16 addition (tree.rs:182) *)
Definition add16 (a b : nat) : option nat := if a + b <? 2 ^ 16 then Some (a + b) else None.

(* tree.rs:175-180: the widths, then max_by_key *)
Definition flat_widest (rg : list (nat * nat)) : option (nat * (nat * nat)) :=
  _ <- map_opt (fun r : nat * nat => sub16 (snd r) (fst r)) rg ;;
  widest 0 rg None.
(* tree.rs:182 split_low + (split_range + 1) / 2 *)
Definition flat_split_at (low range : nat) : option nat :=
  r <- add16 range 1 ;; add16 low (r / 2).

(* tree.rs:220-243 new_child *)
Definition flat_new_child (f : Flat) (parent : nat) (right : bool) (start stop : nat) : option (Flat * nat) :=
  points <- slice_c (v_points (f_vecs f)) (start * f_dim f) (stop * f_dim f) ;;
  rg <- flat_ranges (repeat (0, 0) (f_dim f)) points ;;
  values <- slice_c (v_values (f_vecs f)) start stop ;;
  ag <- flat_aug values ;;
  Some (mkFlat (f_dim f) (f_pdim f) (f_vecs f) (f_ranges f ++ rg) (f_nodes f ++ [mkNode ag parent right (Leaf start stop)]),
        length (f_nodes f)).

(* tree.rs:168-218 build_tree *)
Fixpoint flat_build (fuel : nat) (f : Flat) (id : nat) : option Flat :=
  match fuel with
  | 0 => None
  | S fu =>
      nd <- nth_error (f_nodes f) id ;;
      match n_links nd with
      | Inner _ _ => None
      | Leaf start stop =>
          let next f' :=
            r <- build_next (length (f_nodes f')) (only_nodes f') id ;;
            match r with None => Some f' | Some id' => flat_build fu f' id' end in
          if SPLIT_THRESHOLD <? stop - start then
            rg <- slot (f_ranges f) (f_dim f) id ;;
            w <- flat_widest rg ;;
            let '(dim, (range, low)) := w in
            at_ <- flat_split_at low range ;;
            p <- flat_partition (f_dim f) (f_pdim f) (f_vecs f) dim at_ start stop ;;
            let '(v, mid) := p in
            let f1 := set_vecs f v in
            if negb (start =? mid) && negb (mid =? stop) then
              c0 <- flat_new_child f1 id false start mid ;;
              c1 <- flat_new_child (fst c0) id true mid stop ;;
              nd' <- nth_error (f_nodes (fst c1)) id ;;
              flat_build fu (set_nodes (fst c1) (upd (f_nodes (fst c1)) id
                  (mkNode (n_aug nd') (n_parent nd') (n_right nd') (Inner (snd c0) (snd c1))))) (snd c0)
            else next f1
          else next f
      end
  end.

(* tree.rs:100-154 new, with its assertions *)
Definition flat_new (dim pdim : nat) (v : Vecs) : option Flat :=
  if negb (length (v_values v) * dim =? length (v_points v)) then None else
  if negb (length (v_values v) * pdim =? length (v_packed v)) then None else
  match v_values v with
  | [] => Some (mkFlat dim pdim v [] [])
  | _ =>
      ag <- flat_aug (v_values v) ;;
      rg <- flat_ranges (repeat (0, 0) dim) (v_points v) ;;
      flat_build (2 * length (v_values v)) (mkFlat dim pdim v rg [mkNode ag 0 true (Leaf 0 (length (v_values v)))]) 0
  end.

(* tree.rs:446-477 update_augmentation *)
Fixpoint flat_update_f (fuel : nat) (f : Flat) (id : nat) : option Flat :=
  match fuel with
  | 0 => None
  | S fu =>
      nd <- nth_error (f_nodes f) id ;;
      ag <- (match n_links nd with
             | Inner c0 c1 =>
                 if (c0 =? c1) || (id =? c0) || (id =? c1) then None else
                 n0 <- nth_error (f_nodes f) c0 ;;
                 n1 <- nth_error (f_nodes f) c1 ;;
                 Some (aug_comb (n_aug n0) (n_aug n1))
             | Leaf start stop =>
                 _ <- slice_c (v_points (f_vecs f)) (start * f_dim f) (stop * f_dim f) ;;
                 values <- slice_c (v_values (f_vecs f)) start stop ;; flat_aug values
             end) ;;
      let f' := set_nodes f (upd (f_nodes f) id (mkNode ag (n_parent nd) (n_right nd) (n_links nd))) in
      if negb (aug_eqb ag (n_aug nd)) && negb (id =? 0) then flat_update_f fu f' (n_parent nd) else Some f'
  end.
(* tree.rs:446-477, with fuel for every node *)
Definition flat_update (f : Flat) (id : nat) : option Flat := flat_update_f (length (f_nodes f)) f id.

(* tree.rs:291-302 move_node_ranges *)
Definition flat_move_ranges (f : Flat) (dst src : nat) : option Flat :=
  if dst =? src then Some f else
  _ <- slot (f_ranges f) (f_dim f) dst ;;
  rg <- slot (f_ranges f) (f_dim f) src ;;
  Some (set_ranges f (put (f_ranges f) (f_dim f) dst rg)).

(* tree.rs:395-444 traversal_unlink *)
Definition flat_unlink (f : Flat) (dir : bool) (id : nat) : option (Flat * TState) :=
  if id =? 0 then Some (set_nodes f [], TDone) else
  nd <- nth_error (f_nodes f) id ;;
  let parent := n_parent nd in
  let right := n_right nd in
  pn <- nth_error (f_nodes f) parent ;;
  match n_links pn with
  | Leaf _ _ => None
  | Inner c0 c1 =>
      let sibling := if right then c0 else c1 in
      if sibling =? id then None else
      moved <- nth_error (f_nodes f) sibling ;;
      t1 <- (match n_links moved with
             | Inner d0 d1 => t' <- set_parent (only_nodes f) d0 parent ;; set_parent t' d1 parent
             | Leaf _ _ => Some (only_nodes f)
             end) ;;
      let f1 := set_nodes f (t_nodes t1) in
      pn1 <- nth_error (f_nodes f1) parent ;;
      let f2 := set_nodes f1 (upd (f_nodes f1) parent (mkNode (n_aug moved) (n_parent pn1) (n_right pn1) (n_links moved))) in
      f3 <- flat_move_ranges f2 parent sibling ;;
      f4 <- (if parent =? 0 then Some f3 else flat_update f3 (n_parent pn1)) ;;
      if negb (eqb right dir) then Some (f4, TNode parent)
      else (st <- traversal_skip (only_nodes f4) dir parent ;; Some (f4, st))
  end.

(* tree.rs:365-393 traversal_remove *)
Definition flat_remove (f : Flat) (dir : bool) (id index : nat) : option (Flat * TState) :=
  nd <- nth_error (f_nodes f) id ;;
  match n_links nd with
  | Inner _ _ => None
  | Leaf start stop =>
      if stop =? 0 then None else
      let stop' := stop - 1 in
      let f1 := set_nodes f (upd (f_nodes f) id (mkNode (n_aug nd) (n_parent nd) (n_right nd) (Leaf start stop'))) in
      if start =? stop' then flat_unlink f1 dir id else
      v <- flat_swap (f_dim f) (f_pdim f) (f_vecs f1) index stop' ;;
      f2 <- flat_update (set_vecs f1 v) id ;;
      if index =? stop' then (st <- traversal_skip (only_nodes f2) dir id ;; Some (f2, st)) else Some (f2, TPoint id index)
  end.

(* the arguments of an action (tree.rs:535-537, 583-585, index.rs:358-363, 427-432, 549-551, 596-601) *)
Definition entry_at (dim pdim : nat) (v : Vecs) (index : nat) : option Entry :=
  p <- slot (v_points v) dim index ;;
  k <- slot (v_packed v) pdim index ;;
  x <- nth_error (v_values v) index ;;
  Some (mkEntry p k x).
(* what an action did to its argument &mut values[index] (tree.rs:585, index.rs:551) *)
Definition store_value (v : Vecs) (index x : nat) : Vecs := mkVecs (v_points v) (v_packed v) (upd (v_values v) index x).

Section Traverse.
Context {S_ : Type}.

(* tree.rs:503-548 traverse *)
Fixpoint flat_traverse_f (filt : S_ -> Aug -> list (nat * nat) -> bool) (act : S_ -> Entry -> option (S_ * bool))
  (fuel : nat) (f : Flat) (dir : bool) (us : S_) (st : TState) : option S_ :=
  match st with
  | TDone => Some us
  | TNode id =>
      match fuel with
      | 0 => None
      | S fu =>
          nd <- nth_error (f_nodes f) id ;;
          rg <- slot (f_ranges f) (f_dim f) id ;;
          st' <- (if filt us (n_aug nd) rg then traversal_enter (only_nodes f) dir id else traversal_skip (only_nodes f) dir id) ;;
          flat_traverse_f filt act fu f dir us st'
      end
  | TPoint id index =>
      match fuel with
      | 0 => None
      | S fu =>
          e <- entry_at (f_dim f) (f_pdim f) (f_vecs f) index ;;
          a <- act us e ;;
          let '(us', go) := a in
          if go then (st' <- traversal_next (only_nodes f) dir id index ;; flat_traverse_f filt act fu f dir us' st') else Some us'
      end
  end.
(* tree.rs:503-548, from the root *)
Definition flat_traverse (f : Flat) (us : S_) (dir : bool) filt act : option S_ :=
  flat_traverse_f filt act (length (f_nodes f) + length (v_values (f_vecs f))) f dir us (traversal_root (only_nodes f)).

(* tree.rs:550-603 traverse_mut *)
Fixpoint flat_traverse_mut_f (filt : S_ -> Aug -> list (nat * nat) -> bool) (act : S_ -> Entry -> option (S_ * TResult))
  (fuel : nat) (f : Flat) (dir : bool) (us : S_) (st : TState) : option (S_ * Flat) :=
  match st with
  | TDone => Some (us, f)
  | TNode id =>
      match fuel with
      | 0 => None
      | S fu =>
          nd <- nth_error (f_nodes f) id ;;
          rg <- slot (f_ranges f) (f_dim f) id ;;
          st' <- (if filt us (n_aug nd) rg then traversal_enter (only_nodes f) dir id else traversal_skip (only_nodes f) dir id) ;;
          flat_traverse_mut_f filt act fu f dir us st'
      end
  | TPoint id index =>
      match fuel with
      | 0 => None
      | S fu =>
          e <- entry_at (f_dim f) (f_pdim f) (f_vecs f) index ;;
          a <- act us e ;;
          let '(us', res) := a in
          let store v := set_vecs f (store_value (f_vecs f) index v) in
          match res with
          | RBreak v => Some (us', store v)
          | RRemove v =>
              r <- flat_remove (store v) dir id index ;;
              flat_traverse_mut_f filt act fu (fst r) dir us' (snd r)
          | RRetain v =>
              f' <- (if v =? e_value e then Some (store v) else flat_update (store v) id) ;;
              st' <- traversal_next (only_nodes f') dir id index ;;
              flat_traverse_mut_f filt act fu f' dir us' st'
          end
      end
  end.
(* tree.rs:550-603, from the root *)
Definition flat_traverse_mut (f : Flat) (us : S_) (dir : bool) filt act : option (S_ * Flat) :=
  flat_traverse_mut_f filt act (length (f_nodes f) + length (v_values (f_vecs f))) f dir us (traversal_root (only_nodes f)).

End Traverse.

(* tree.rs:156-166 *)
Definition flat_is_empty (f : Flat) : bool := tree_is_empty (only_nodes f).
(* tree.rs:160-166 len *)
Definition flat_len (f : Flat) : nat := tree_len (only_nodes f).

(* index.rs:273-282 *)
Record FIndex := mkFIndex { fx_dir : Dir; fx_channels : nat; fx_trees : list Flat; fx_vecs : Vecs }.

(* index.rs:285-296 *)
Definition fx_new (d : Dir) (n : nat) : FIndex := mkFIndex d n [] (mkVecs [] [] []).
(* index.rs:290, 292 the fields point_dim and packed_dim *)
Definition fx_dim (x : FIndex) : nat := abstraction_len_for_channels (fx_channels x).
(* index.rs:292 packed_dim *)
Definition fx_pdim (x : FIndex) : nat := packed_len_for_channels (fx_channels x).
(* direction and channels, for the actions and filters of IndexModel.v, which look at nothing else (index.rs:273-283) *)
Definition fx_head (x : FIndex) : Index := mkIndex (fx_dir x) (fx_channels x) [] [].

(* index.rs:349-365, 418-434, 593-603: all trees, then the buffer *)
Definition fx_scan {S_} (filt : S_ -> Aug -> list (nat * nat) -> bool) (act : S_ -> Entry -> option (S_ * bool))
  (x : FIndex) (us : S_) : option S_ :=
  us1 <- fold_opt (fun us t => flat_traverse t us (lookup_dir (fx_dir x)) filt act) (fx_trees x) us ;;
  fold_opt (fun us i => e <- entry_at (fx_dim x) (fx_pdim x) (fx_vecs x) i ;; r <- act us e ;; Some (fst r))
           (seq 0 (length (v_values (fx_vecs x)))) us1.

(* index.rs:298-368 *)
Definition fx_lookup_subsuming (x : FIndex) (s : OutputSet) (ab : list nat) : option (option (nat * (bool * list nat) * OutputSet)) :=
  fx_scan (subsuming_filter (fx_head x) ab) (subsuming_action (fx_head x) s ab) x None.

(* index.rs:370-437 *)
Definition fx_lookup (x : FIndex) (s : OutputSet) (ab : list nat) : option (option nat) :=
  fx_scan (lookup_filter (fx_head x) ab) (lookup_action (fx_head x) s ab) x None.

(* index.rs:464-469 the closure that appends an entry to the three vectors, and 445-450 *)
Definition push_entry (v : Vecs) (e : Entry) : Vecs :=
  mkVecs (v_points v ++ e_point e) (v_packed v ++ e_packed e) (v_values v ++ [e_value e]).
(* index.rs:455-471 *)
Fixpoint fx_absorb (d : Dir) (rtrees : list Flat) (v : Vecs) : option (list Flat * Vecs) :=
  match rtrees with
  | [] => Some ([], v)
  | t :: r =>
      if length (v_values v) <? flat_len t then Some (t :: r, v) else
      v' <- flat_traverse t v (lookup_dir d) (fun _ _ _ => true) (fun w e => Some (push_entry w e, true)) ;;
      fx_absorb d r v'
  end.

(* index.rs:439-483; 445-447: packed grows by packed_dim bytes, pack_into_slice writes them all and asserts
   their number *)
Definition fx_insert_new_unchecked (x : FIndex) (s : OutputSet) (ab : list nat) (value : nat) : option FIndex :=
  pk <- packed s ;;
  if negb (length pk =? fx_pdim x) then None else
  let v := push_entry (fx_vecs x) (mkEntry ab pk value) in
  if length (v_values v) <? TREE_THRESHOLD then Some (mkFIndex (fx_dir x) (fx_channels x) (fx_trees x) v) else
  let sorted := isort (fun a b => flat_len b <=? flat_len a) (fx_trees x) in
  r <- fx_absorb (fx_dir x) (rev sorted) v ;;
  t <- flat_new (fx_dim x) (fx_pdim x) (snd r) ;;
  Some (mkFIndex (fx_dir x) (fx_channels x) (rev (fst r) ++ [t]) (mkVecs [] [] [])).

(* index.rs:538-540 *)
Fixpoint fx_update_trees (h : Index) (s : OutputSet) (ab : list nat) (value : nat) (flag : bool) (ts : list Flat) : option (bool * list Flat) :=
  match ts with
  | [] => Some (flag, [])
  | t :: r =>
      a <- flat_traverse_mut t flag (lookup_dir (ix_dir h)) (insert_filter h ab value) (insert_action h s ab value) ;;
      b <- fx_update_trees h s ab value (fst a) r ;;
      Some (fst b, snd a :: snd b)
  end.

(* Vec::swap_remove (index.rs:555) *)
Definition vec_swap_remove {A} (l : list A) (index : nat) : option (list A) :=
  last <- nth_error l (length l - 1) ;;
  if index <? length l then Some (firstn (length l - 1) (upd l index last)) else None.
(* index.rs:558-559, 561-564: split_at_mut, then the last dim elements are copied to slot index; copy_from_slice
   asserts that they are dim *)
Definition move_last {A} (l : list A) (dim count index : nat) : option (list A) :=
  if count * dim <=? length l then
    let keep := firstn (count * dim) l in
    let last := skipn (count * dim) l in
    _ <- slot keep dim index ;;
    if length last =? dim then Some (put keep dim index last ++ last) else None
  else None.
(* index.rs:554-568 *)
Definition flat_swap_remove (dim pdim : nat) (v : Vecs) (index : nat) : option Vecs :=
  values <- vec_swap_remove (v_values v) index ;;
  let count := length values in
  moved <- (if index =? count then Some (v_points v, v_packed v)
            else p <- move_last (v_points v) dim count index ;;
                 k <- move_last (v_packed v) pdim count index ;; Some (p, k)) ;;
  Some (mkVecs (firstn (count * dim) (fst moved)) (firstn (count * pdim) (snd moved)) values).

(* index.rs:544-571 *)
Fixpoint fx_update_buffer (dim pdim : nat) (act : bool -> Entry -> option (bool * TResult)) (fuel : nat) (flag : bool) (v : Vecs) (index : nat)
  : option (bool * Vecs) :=
  match fuel with
  | 0 => None
  | S fu =>
      if index <? length (v_values v) then
        e <- entry_at dim pdim v index ;;
        a <- act flag e ;;
        match snd a with
        | RRemove x => v' <- flat_swap_remove dim pdim (store_value v index x) index ;; fx_update_buffer dim pdim act fu (fst a) v' index
        | RRetain x | RBreak x => fx_update_buffer dim pdim act fu (fst a) (store_value v index x) (S index)
        end
      else Some (flag, v)
  end.

(* index.rs:485-579 *)
Definition fx_insert (x : FIndex) (s : OutputSet) (ab : list nat) (value : nat) : option (FIndex * nat) :=
  best <- fx_lookup x s ab ;;
  if negb (does_improve (fx_dir x) best value) then (b <- best ;; Some (x, b)) else
  a <- fx_update_trees (fx_head x) s ab value false (fx_trees x) ;;
  let trees := filter (fun t => negb (flat_is_empty t)) (snd a) in
  b <- fx_update_buffer (fx_dim x) (fx_pdim x) (insert_action (fx_head x) s ab value) (S (length (v_values (fx_vecs x)))) (fst a) (fx_vecs x) 0 ;;
  let x' := mkFIndex (fx_dir x) (fx_channels x) trees (snd b) in
  if fst b then Some (x', value) else
  x'' <- fx_insert_new_unchecked x' s ab value ;;
  Some (x'', value).

(* index.rs:581-604 *)
Definition fx_for_each (x : FIndex) : option (list (OutputSet * list nat * nat)) :=
  fx_scan (fun _ _ _ => true)
    (fun acc e => cand <- from_packed (fx_channels x) (e_packed e) ;; Some (acc ++ [(cand, e_point e, e_value e)], true)) x [].

(* index.rs:606-608 *)
Definition fx_is_empty (x : FIndex) : bool :=
  match v_values (fx_vecs x), fx_trees x with [], [] => true | _, _ => false end.

(* index.rs:610-612 *)
Definition fx_len (x : FIndex) : nat := length (v_values (fx_vecs x)) + fold_left Nat.add (map flat_len (fx_trees x)) 0.
