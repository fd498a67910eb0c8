(* src/output_set/index/tree.rs.

   Simplifications.  The parallel vectors points, packed and values are one list of entries (point,
   packed bytes, value), so the offset arithmetic "index * point_dim" is not modelled; the vector ranges
   is a list with one range vector per node.  None stands for a panic (index out of range, failed
   assertion, unreachable!) or for running out of fuel; the theorems show that neither happens.
   dump_dot is not modelled. *)
From Coq Require Import List Arith Bool Lia.
Import ListNotations.
From Verif Require Import Spec Util.

Notation "x <- a ;; b" := (match a with Some x => b | None => None end) (at level 61, a at next level, right associativity).

(* src/output_set/index/tree.rs:3 *)
Definition SPLIT_THRESHOLD : nat := 16.

(* one position of points, packed and values (tree.rs:5-13) *)
Record Entry := mkEntry { e_point : list nat; e_packed : list nat; e_value : nat }.

(* tree.rs:29-33 *)
Record Aug := mkAug { a_size : nat; a_min : nat; a_max : nat }.

(* tree.rs:23-27 *)
Inductive Links :=
| Leaf (start stop : nat)
| Inner (c0 c1 : nat).

(* tree.rs:15-21 *)
Record Node := mkNode { n_aug : Aug; n_parent : nat; n_right : bool; n_links : Links }.

(* tree.rs:5-13 *)
Record Tree := mkTree { t_dim : nat; t_ents : list Entry; t_nodes : list Node; t_ranges : list (list (nat * nat)) }.

(* tree.rs:35-40 *)
Inductive TState :=
| TDone
| TNode (id : nat)
| TPoint (id index : nat).

(* tree.rs:42-48; Retain carries the possibly changed value (the action has &mut u8) *)
Inductive TResult :=
| RBreak (value : nat)
| RRetain (value : nat)
| RRemove (value : nat).

(* tree.rs:29 derive(PartialEq) *)
Definition aug_eqb (a b : Aug) : bool :=
  (a_size a =? a_size b) && (a_min a =? a_min b) && (a_max a =? a_max b).

(* the slices values[start..stop] and points[..] of tree.rs:226, 234-235, 466-467 *)
Definition slice {A} (l : list A) (start stop : nat) : list A := firstn (stop - start) (skipn start l).
(* the same with the check of the bounds (tree.rs:226, 234-235, 466-467) *)
Definition slice_c {A} (l : list A) (start stop : nat) : option (list A) :=
  if (start <=? stop) && (stop <=? length l) then Some (slice l start stop) else None.

(* tree.rs:51-62 Augmentation::new, and 64-82 update_leaf; None: values[0] *)
Definition aug_of (es : list Entry) : option Aug :=
  match es with
  | [] => None
  | e :: r => Some (mkAug (length es)
      (fold_left (fun m x => Nat.min m (e_value x)) r (e_value e))
      (fold_left (fun m x => Nat.max m (e_value x)) r (e_value e)))
  end.

(* tree.rs:84-96 update_inner *)
Definition aug_comb (a b : Aug) : Aug :=
  mkAug (a_size a + a_size b) (Nat.min (a_min a) (a_min b)) (Nat.max (a_max a) (a_max b)).

(* tree.rs:606-617 compute_ranges; None: chunks(0) *)
Definition widen (rg : list (nat * nat)) (p : list nat) : list (nat * nat) :=
  map (fun rc => (Nat.min (fst (fst rc)) (snd rc), Nat.max (snd (fst rc)) (snd rc))) (combine rg p).
(* tree.rs:606-617 compute_ranges, from the first point *)
Definition compute_ranges (dim : nat) (es : list Entry) : option (list (nat * nat)) :=
  if dim =? 0 then None else
  match es with
  | [] => Some (repeat (0, 0) dim)
  | e :: r => Some (fold_left (fun rg x => widen rg (e_point x)) r (map (fun c => (c, c)) (e_point e)))
  end.

(* tree.rs:269-289 swap_values *)
Definition swap_entries (ents : list Entry) (left right : nat) : option (list Entry) :=
  if left =? right then Some ents else
  l <- nth_error ents left ;;
  r <- nth_error ents right ;;
  Some (upd (upd ents left r) right l).

(* tree.rs:254-256 the first inner loop of partition *)
Fixpoint scan_left (fuel : nat) (ents : list Entry) (dim at_ stop left : nat) : option nat :=
  match fuel with
  | 0 => None
  | S f =>
      if left <? stop then
        e <- nth_error ents left ;;
        c <- nth_error (e_point e) dim ;;
        if c <? at_ then scan_left f ents dim at_ stop (S left) else Some left
      else Some left
  end.

(* tree.rs:257-259 the second inner loop *)
Fixpoint scan_right (fuel : nat) (ents : list Entry) (dim at_ start right : nat) : option nat :=
  match fuel with
  | 0 => None
  | S f =>
      if start <? right then
        e <- nth_error ents right ;;
        c <- nth_error (e_point e) dim ;;
        if at_ <=? c then scan_right f ents dim at_ start (right - 1) else Some right
      else Some right
  end.

(* tree.rs:253-264 the outer loop; result: entries and final left *)
Fixpoint part_loop (fuel : nat) (ents : list Entry) (dim at_ start stop left right : nat) : option (list Entry * nat) :=
  match fuel with
  | 0 => None
  | S f =>
      left' <- scan_left (S (stop - left)) ents dim at_ stop left ;;
      right' <- scan_right (S (right - start)) ents dim at_ start right ;;
      if right' <=? left' then Some (ents, left') else
      ents' <- swap_entries ents left' right' ;;
      part_loop f ents' dim at_ start stop left' right'
  end.

(* tree.rs:245-267 partition: the position where the second range starts *)
Definition partition (ents : list Entry) (dim at_ start stop : nat) : option (list Entry * nat) :=
  if stop - start =? 0 then Some (ents, start)
  else part_loop (S (stop - start)) ents dim at_ start stop start (stop - 1).

(* tree.rs:175-180 the widest dimension; max_by_key returns the last maximum *)
Fixpoint widest (i : nat) (rg : list (nat * nat)) (best : option (nat * (nat * nat))) : option (nat * (nat * nat)) :=
  match rg with
  | [] => best
  | (lo, hi) :: r =>
      let w := hi - lo in
      widest (S i) r
        (match best with
         | Some (j, (bw, bl)) => if bw <=? w then Some (i, (w, lo)) else best
         | None => Some (i, (w, lo))
         end)
  end.

(* tree.rs:220-243 new_child *)
Definition new_child (t : Tree) (parent : nat) (right : bool) (start stop : nat) : option (Tree * nat) :=
  es <- slice_c (t_ents t) start stop ;;
  rg <- compute_ranges (t_dim t) es ;;
  ag <- aug_of es ;;
  Some (mkTree (t_dim t) (t_ents t) (t_nodes t ++ [mkNode ag parent right (Leaf start stop)]) (t_ranges t ++ [rg]),
        length (t_nodes t)).

(* tree.rs: assignment to (a field of) self.nodes[id] (5-13) *)
Definition set_node (t : Tree) (id : nat) (nd : Node) : Tree :=
  mkTree (t_dim t) (t_ents t) (upd (t_nodes t) id nd) (t_ranges t).
(* tree.rs: assignment to self.points, self.packed, self.values (5-13) *)
Definition set_ents (t : Tree) (ents : list Entry) : Tree := mkTree (t_dim t) ents (t_nodes t) (t_ranges t).

(* tree.rs:202-213 after a leaf that is not split: the next node, or None when done.  The outer option is
   a panic (unreachable!). *)
Fixpoint build_next (fuel : nat) (t : Tree) (id : nat) : option (option nat) :=
  match fuel with
  | 0 => None
  | S f =>
      nd <- nth_error (t_nodes t) id ;;
      if n_right nd then (if id =? 0 then Some None else build_next f t (n_parent nd))
      else
        pn <- nth_error (t_nodes t) (n_parent nd) ;;
        match n_links pn with
        | Inner _ c1 => Some (Some c1)
        | Leaf _ _ => None
        end
  end.

(* tree.rs:168-218 build_tree; an inner node makes the loop spin for ever ("_ => ()"), hence None *)
Fixpoint build_tree (fuel : nat) (t : Tree) (id : nat) : option Tree :=
  match fuel with
  | 0 => None
  | S f =>
      nd <- nth_error (t_nodes t) id ;;
      match n_links nd with
      | Inner _ _ => None
      | Leaf start stop =>
          let next t' :=
            r <- build_next (length (t_nodes t')) t' id ;;
            match r with None => Some t' | Some id' => build_tree f t' id' end in
          if SPLIT_THRESHOLD <? stop - start then
            rg <- nth_error (t_ranges t) id ;;
            w <- widest 0 rg None ;;
            let '(dim, (range, low)) := w in
            p <- partition (t_ents t) dim (low + (range + 1) / 2) start stop ;;
            let '(ents, mid) := p in
            let t1 := set_ents t ents in
            if negb (start =? mid) && negb (mid =? stop) then
              c0 <- new_child t1 id false start mid ;;
              c1 <- new_child (fst c0) id true mid stop ;;
              nd' <- nth_error (t_nodes (fst c1)) id ;;
              build_tree f (set_node (fst c1) id (mkNode (n_aug nd') (n_parent nd') (n_right nd') (Inner (snd c0) (snd c1)))) (snd c0)
            else next t1
          else next t
      end
  end.

(* tree.rs:100-154 new *)
Definition tree_new (dim : nat) (ents : list Entry) : option Tree :=
  match ents with
  | [] => Some (mkTree dim [] [] [])
  | _ =>
      ag <- aug_of ents ;;
      rg <- compute_ranges dim ents ;;
      build_tree (2 * length ents) (mkTree dim ents [mkNode ag 0 true (Leaf 0 (length ents))] [rg]) 0
  end.

(* tree.rs:156-158 *)
Definition tree_is_empty (t : Tree) : bool := match t_nodes t with [] => true | _ => false end.

(* tree.rs:160-166 *)
Definition tree_len (t : Tree) : nat := match t_nodes t with [] => 0 | nd :: _ => a_size (n_aug nd) end.

(* tree.rs:304-310 *)
Definition traversal_root (t : Tree) : TState := match t_nodes t with [] => TDone | _ => TNode 0 end.

(* tree.rs:312-322 *)
Definition traversal_enter (t : Tree) (dir : bool) (id : nat) : option TState :=
  nd <- nth_error (t_nodes t) id ;;
  match n_links nd with
  | Leaf start _ => Some (TPoint id start)
  | Inner c0 c1 => Some (TNode (if dir then c0 else c1))
  end.

(* tree.rs:324-344 *)
Fixpoint traversal_skip_f (fuel : nat) (t : Tree) (dir : bool) (id : nat) : option TState :=
  match fuel with
  | 0 => None
  | S f =>
      if id =? 0 then Some TDone else
      nd <- nth_error (t_nodes t) id ;;
      if eqb (n_right nd) dir then traversal_skip_f f t dir (n_parent nd) else
      pn <- nth_error (t_nodes t) (n_parent nd) ;;
      match n_links pn with
      | Inner c0 c1 => Some (TNode (if dir then c1 else c0))
      | Leaf _ _ => None
      end
  end.
(* tree.rs:324-344 traversal_skip, with fuel for every node *)
Definition traversal_skip (t : Tree) (dir : bool) (id : nat) : option TState :=
  traversal_skip_f (length (t_nodes t)) t dir id.

(* tree.rs:346-363 *)
Definition traversal_next (t : Tree) (dir : bool) (id index : nat) : option TState :=
  nd <- nth_error (t_nodes t) id ;;
  match n_links nd with
  | Leaf _ stop => if S index =? stop then traversal_skip t dir id else Some (TPoint id (S index))
  | Inner _ _ => None
  end.

(* tree.rs:446-477 update_augmentation *)
Fixpoint update_augmentation_f (fuel : nat) (t : Tree) (id : nat) : option Tree :=
  match fuel with
  | 0 => None
  | S f =>
      nd <- nth_error (t_nodes t) id ;;
      ag <- (match n_links nd with
             | Inner c0 c1 =>
                 if (c0 =? c1) || (id =? c0) || (id =? c1) then None else
                 n0 <- nth_error (t_nodes t) c0 ;;
                 n1 <- nth_error (t_nodes t) c1 ;;
                 Some (aug_comb (n_aug n0) (n_aug n1))
             | Leaf start stop => es <- slice_c (t_ents t) start stop ;; aug_of es
             end) ;;
      let t' := set_node t id (mkNode ag (n_parent nd) (n_right nd) (n_links nd)) in
      if negb (aug_eqb ag (n_aug nd)) && negb (id =? 0) then update_augmentation_f f t' (n_parent nd) else Some t'
  end.
(* tree.rs:446-477 update_augmentation, with fuel for every node *)
Definition update_augmentation (t : Tree) (id : nat) : option Tree := update_augmentation_f (length (t_nodes t)) t id.

(* tree.rs:291-302 move_node_ranges *)
Definition move_node_ranges (t : Tree) (dst src : nat) : option Tree :=
  if dst =? src then Some t else
  rg <- nth_error (t_ranges t) src ;;
  if dst <? length (t_ranges t) then Some (mkTree (t_dim t) (t_ents t) (t_nodes t) (upd (t_ranges t) dst rg)) else None.

(* tree.rs:418-420 self.nodes[child].parent = parent *)
Definition set_parent (t : Tree) (id parent : nat) : option Tree :=
  nd <- nth_error (t_nodes t) id ;;
  Some (set_node t id (mkNode (n_aug nd) parent (n_right nd) (n_links nd))).

(* tree.rs:395-444 traversal_unlink *)
Definition traversal_unlink (t : Tree) (dir : bool) (id : nat) : option (Tree * TState) :=
  if id =? 0 then Some (mkTree (t_dim t) (t_ents t) [] (t_ranges t), TDone) else
  nd <- nth_error (t_nodes t) id ;;
  let parent := n_parent nd in
  let right := n_right nd in
  pn <- nth_error (t_nodes t) parent ;;
  match n_links pn with
  | Leaf _ _ => None
  | Inner c0 c1 =>
      let sibling := if right then c0 else c1 in
      if sibling =? id then None else
      moved <- nth_error (t_nodes t) sibling ;;
      t1 <- (match n_links moved with
             | Inner d0 d1 => t' <- set_parent t d0 parent ;; set_parent t' d1 parent
             | Leaf _ _ => Some t
             end) ;;
      pn1 <- nth_error (t_nodes t1) parent ;;
      let t2 := set_node t1 parent (mkNode (n_aug moved) (n_parent pn1) (n_right pn1) (n_links moved)) in
      t3 <- move_node_ranges t2 parent sibling ;;
      t4 <- (if parent =? 0 then Some t3 else update_augmentation t3 (n_parent pn1)) ;;
      if negb (eqb right dir) then Some (t4, TNode parent)
      else (st <- traversal_skip t4 dir parent ;; Some (t4, st))
  end.

(* tree.rs:365-393 traversal_remove; "values.end -= 1" overflows at 0 *)
Definition traversal_remove (t : Tree) (dir : bool) (id index : nat) : option (Tree * TState) :=
  nd <- nth_error (t_nodes t) id ;;
  match n_links nd with
  | Inner _ _ => None
  | Leaf start stop =>
      if stop =? 0 then None else
      let stop' := stop - 1 in
      let t1 := set_node t id (mkNode (n_aug nd) (n_parent nd) (n_right nd) (Leaf start stop')) in
      if start =? stop' then traversal_unlink t1 dir id else
      ents <- swap_entries (t_ents t1) index stop' ;;
      t2 <- update_augmentation (set_ents t1 ents) id ;;
      if index =? stop' then (st <- traversal_skip t2 dir id ;; Some (t2, st)) else Some (t2, TPoint id index)
  end.

Section Traverse.
Context {S_ : Type}.

(* tree.rs:503-548 traverse *)
Fixpoint traverse_f (filt : S_ -> Aug -> list (nat * nat) -> bool) (act : S_ -> Entry -> option (S_ * bool))
  (fuel : nat) (t : Tree) (dir : bool) (us : S_) (st : TState) : option S_ :=
  match st with
  | TDone => Some us
  | TNode id =>
      match fuel with
      | 0 => None
      | S f =>
          nd <- nth_error (t_nodes t) id ;;
          rg <- nth_error (t_ranges t) id ;;
          st' <- (if filt us (n_aug nd) rg then traversal_enter t dir id else traversal_skip t dir id) ;;
          traverse_f filt act f t dir us st'
      end
  | TPoint id index =>
      match fuel with
      | 0 => None
      | S f =>
          e <- nth_error (t_ents t) index ;;
          a <- act us e ;;
          let '(us', go) := a in
          if go then (st' <- traversal_next t dir id index ;; traverse_f filt act f t dir us' st') else Some us'
      end
  end.
(* tree.rs:503-548 traverse, from the root *)
Definition traverse (t : Tree) (us : S_) (dir : bool) filt act : option S_ :=
  traverse_f filt act (length (t_nodes t) + length (t_ents t)) t dir us (traversal_root t).

(* tree.rs:550-603 traverse_mut; the action returns the new user state and the result *)
Fixpoint traverse_mut_f (filt : S_ -> Aug -> list (nat * nat) -> bool) (act : S_ -> Entry -> option (S_ * TResult))
  (fuel : nat) (t : Tree) (dir : bool) (us : S_) (st : TState) : option (S_ * Tree) :=
  match st with
  | TDone => Some (us, t)
  | TNode id =>
      match fuel with
      | 0 => None
      | S f =>
          nd <- nth_error (t_nodes t) id ;;
          rg <- nth_error (t_ranges t) id ;;
          st' <- (if filt us (n_aug nd) rg then traversal_enter t dir id else traversal_skip t dir id) ;;
          traverse_mut_f filt act f t dir us st'
      end
  | TPoint id index =>
      match fuel with
      | 0 => None
      | S f =>
          e <- nth_error (t_ents t) index ;;
          a <- act us e ;;
          let '(us', res) := a in
          let store v := set_ents t (upd (t_ents t) index (mkEntry (e_point e) (e_packed e) v)) in
          match res with
          | RBreak v => Some (us', store v)
          | RRemove v =>
              r <- traversal_remove (store v) dir id index ;;
              traverse_mut_f filt act f (fst r) dir us' (snd r)
          | RRetain v =>
              t' <- (if v =? e_value e then Some (store v) else update_augmentation (store v) id) ;;
              st' <- traversal_next t' dir id index ;;
              traverse_mut_f filt act f t' dir us' st'
          end
      end
  end.
(* tree.rs:550-603 traverse_mut, from the root *)
Definition traverse_mut (t : Tree) (us : S_) (dir : bool) filt act : option (S_ * Tree) :=
  traverse_mut_f filt act (length (t_nodes t) + length (t_ents t)) t dir us (traversal_root t).

End Traverse.
