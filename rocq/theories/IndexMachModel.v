(* src/output_set/index.rs once more on the vectors of FlatModel.v, with everything the closures of lookups,
   insertions and for_each do: the bitmap candidate_output_set that all calls of an action share, the checked indices
   lookup[i ^ mask], the capacities of BVec and CVec, the debug assertions of from_bitmap and the checked subsumption
   search of SubsumeMachModel.v.  The closures of the code capture the bitmap (306, 378, 494, 583); here it is a
   part of the state that a traversal passes along.  A failed check is None.  dump_dot is not modelled. *)
From Coq Require Import List Arith Bool Lia.
Import ListNotations.
From Verif Require Import Spec Util OutputSetModel SubsumeModel TreeModel IndexModel FlatModel MachineModel SubsumeMachModel.

(* ---- tree.rs: the traversals of FlatModel.v with node filters that can fail ---- *)
Section Traverse.
Context {S_ : Type}.

(* tree.rs:503-548 traverse *)
Fixpoint mx_traverse_f (filt : S_ -> Aug -> list (nat * nat) -> option bool) (act : S_ -> Entry -> option (S_ * bool))
  (fuel : nat) (f : Flat) (dir : bool) (us : S_) (st : TState) : option S_ :=
  match st with
  | TDone => Some us
  | TNode id =>
      match fuel with
      | 0 => None
      | S fu =>
          nd <- nth_error (f_nodes f) id ;;
          rg <- slot (f_ranges f) (f_dim f) id ;;
          b <- filt us (n_aug nd) rg ;;
          st' <- (if b : bool then traversal_enter (only_nodes f) dir id else traversal_skip (only_nodes f) dir id) ;;
          mx_traverse_f filt act fu f dir us st'
      end
  | TPoint id index =>
      match fuel with
      | 0 => None
      | S fu =>
          e <- entry_at (f_dim f) (f_pdim f) (f_vecs f) index ;;
          a <- act us e ;;
          let '(us', go) := a in
          if go then (st' <- traversal_next (only_nodes f) dir id index ;; mx_traverse_f filt act fu f dir us' st') else Some us'
      end
  end.
(* tree.rs:503-548, from the root *)
Definition mx_traverse (f : Flat) (us : S_) (dir : bool) filt act : option S_ :=
  mx_traverse_f filt act (length (f_nodes f) + length (v_values (f_vecs f))) f dir us (traversal_root (only_nodes f)).

(* tree.rs:550-603 traverse_mut *)
Fixpoint mx_traverse_mut_f (filt : S_ -> Aug -> list (nat * nat) -> option bool) (act : S_ -> Entry -> option (S_ * TResult))
  (fuel : nat) (f : Flat) (dir : bool) (us : S_) (st : TState) : option (S_ * Flat) :=
  match st with
  | TDone => Some (us, f)
  | TNode id =>
      match fuel with
      | 0 => None
      | S fu =>
          nd <- nth_error (f_nodes f) id ;;
          rg <- slot (f_ranges f) (f_dim f) id ;;
          b <- filt us (n_aug nd) rg ;;
          st' <- (if b : bool then traversal_enter (only_nodes f) dir id else traversal_skip (only_nodes f) dir id) ;;
          mx_traverse_mut_f filt act fu f dir us st'
      end
  | TPoint id index =>
      match fuel with
      | 0 => None
      | S fu =>
          e <- entry_at (f_dim f) (f_pdim f) (f_vecs f) index ;;
          a <- act us e ;;
          let '(us', res) := a in
          let store v := set_vecs f (store_value (f_vecs f) index v) in
          match res with
          | RBreak v => Some (us', store v)
          | RRemove v =>
              r <- flat_remove (store v) dir id index ;;
              mx_traverse_mut_f filt act fu (fst r) dir us' (snd r)
          | RRetain v =>
              f' <- (if v =? e_value e then Some (store v) else flat_update (store v) id) ;;
              st' <- traversal_next (only_nodes f') dir id index ;;
              mx_traverse_mut_f filt act fu f' dir us' st'
          end
      end
  end.
(* tree.rs:550-603, from the root *)
Definition mx_traverse_mut (f : Flat) (us : S_) (dir : bool) filt act : option (S_ * Flat) :=
  mx_traverse_mut_f filt act (length (f_nodes f) + length (v_values (f_vecs f))) f dir us (traversal_root (only_nodes f)).
End Traverse.

(* ---- index.rs: the tests ---- *)

(* index.rs:156-159, 166-169, 176-179: iter, enumerate and all, which stops at the first false; lookup[i ^ mask] is
   checked *)
Fixpoint all_masked_c {A} (f : A -> nat -> bool) (l : list A) (i mask : nat) (lookup : list nat) : option bool :=
  match l with
  | [] => Some true
  | c :: r => v <- rd lookup (Nat.lxor i mask) ;; if f c v then all_masked_c f r (S i) mask lookup else Some false
  end.
(* index.rs:154-160, 164-170, 174-180: any over invert = 0, 1 *)
Definition any_mask_c {A} (f : A -> nat -> bool) (l : list A) (lookup : list nat) : option bool :=
  b <- all_masked_c f l 0 (0 * 3) lookup ;; if b : bool then Some true else all_masked_c f l 0 (1 * 3) lookup.

(* index.rs:87-92, 153-161, 238-243 test_abstraction_range *)
Definition test_range_c (d : Dir) (candidate_range : list (nat * nat)) (lookup : list nat) : option bool :=
  match d with
  | LowerInvert => any_mask_c (fun c l => fst c <=? l) candidate_range lookup
  | _ => Some (test_abstraction_range d candidate_range lookup)
  end.

(* index.rs:94-99, 163-171, 245-250 test_abstraction_range_update *)
Definition test_range_update_c (d : Dir) (candidate_range : list (nat * nat)) (lookup : list nat) : option bool :=
  match d with
  | LowerInvert => any_mask_c (fun c l => l <=? snd c) candidate_range lookup
  | _ => Some (test_abstraction_range_update d candidate_range lookup)
  end.

(* index.rs:101-106, 173-181, 252-257 test_abstraction *)
Definition test_abstraction_c (d : Dir) (candidate lookup : list nat) : option bool :=
  match d with
  | LowerInvert => any_mask_c (fun c l => c <=? l) candidate lookup
  | _ => Some (test_abstraction d candidate lookup)
  end.

(* index.rs:108-115, 183-200, 259-266 test_precise *)
Definition test_precise_c (d : Dir) (candidate : OutputSet) (cab : list nat) (lookup : OutputSet) (lab : list nat)
  : option (option (bool * list nat)) :=
  match d with
  | Lower => r <- subsumes_permuted_c candidate lookup ;; Some (match r with Some p => Some (false, p) | None => None end)
  | Upper => r <- subsumes_permuted_c lookup candidate ;; Some (match r with Some p => Some (false, p) | None => None end)
  | LowerInvert =>
      first <- (if test_abstraction Lower cab lab then subsumes_permuted_c candidate lookup else Some None) ;;
      match first with
      | Some p => Some (Some (false, p))
      | None =>
          r <- subsumes_permuted_c (invert candidate) lookup ;;
          Some (match r with Some p => Some (true, p) | None => None end)
      end
  end.

(* index.rs:117-119, 202-204, 268-270 id_perm, collected in a CVec *)
Definition id_perm_c (n : nat) : option (bool * list nat) := p <- collect CVEC (seq 0 n) ;; Some (false, p).

(* index.rs:305-306, 377-378, 493-494, 582-583: the shared bitmap, a BVec, and the assertions of from_bitmap
   (src/output_set.rs:106-110) *)
Definition scratch_new (n : nat) : option (list bool) :=
  bm <- collect BVEC (repeat false (2 ^ n)) ;; if (n <=? MAX_CHANNELS) && (length bm =? 2 ^ n) then Some bm else None.

(* ---- index.rs: the closures; the state of a traversal and the shared bitmap ---- *)

(* index.rs:316-347 action of lookup_subsuming_with_abstraction *)
Definition subsuming_action_c (x : FIndex) (s : OutputSet) (ab : list nat)
  (us : option (nat * (bool * list nat) * OutputSet) * list bool) (e : Entry)
  : option ((option (nat * (bool * list nat) * OutputSet) * list bool) * bool) :=
  let d := fx_dir x in
  let '(best, bm) := us in
  if negb (does_improve d (option_map (fun x => fst (fst x)) best) (e_value e)) then Some (us, true) else
  t <- test_abstraction_c d (e_point e) ab ;;
  if negb t then Some (us, true) else
  bm' <- unpack_into bm (e_packed e) ;;
  let cand := mkOutputSet (fx_channels x) bm' in
  perm <- (if os_eqb cand s then (p <- id_perm_c (channels s) ;; Some (Some p)) else test_precise_c d cand (e_point e) s ab) ;;
  match perm with
  | Some p => Some ((Some (e_value e, p, cand), bm'), true)
  | None => Some ((best, bm'), true)
  end.

(* index.rs:308-314 *)
Definition subsuming_filter_c (x : FIndex) (ab : list nat)
  (us : option (nat * (bool * list nat) * OutputSet) * list bool) (g : Aug) (rg : list (nat * nat)) : option bool :=
  if can_improve (fx_dir x) (option_map (fun x => fst (fst x)) (fst us)) (a_min g) (a_max g)
  then test_range_c (fx_dir x) rg ab else Some false.

(* index.rs:349-365, 418-434, 593-603: all trees, then the buffer *)
Definition mx_scan {S_} (filt : S_ -> Aug -> list (nat * nat) -> option bool) (act : S_ -> Entry -> option (S_ * bool))
  (x : FIndex) (us : S_) : option S_ :=
  us1 <- fold_opt (fun us t => mx_traverse t us (lookup_dir (fx_dir x)) filt act) (fx_trees x) us ;;
  fold_opt (fun us i => e <- entry_at (fx_dim x) (fx_pdim x) (fx_vecs x) i ;; r <- act us e ;; Some (fst r))
           (seq 0 (length (v_values (fx_vecs x)))) us1.

(* index.rs:298-368 *)
Definition mx_lookup_subsuming (x : FIndex) (s : OutputSet) (ab : list nat) : option (option (nat * (bool * list nat) * OutputSet)) :=
  bm <- scratch_new (fx_channels x) ;;
  r <- mx_scan (subsuming_filter_c x ab) (subsuming_action_c x s ab) x (None, bm) ;;
  Some (fst r).

(* index.rs:388-416 action of lookup_with_abstraction *)
Definition lookup_action_c (x : FIndex) (s : OutputSet) (ab : list nat) (us : option nat * list bool) (e : Entry)
  : option ((option nat * list bool) * bool) :=
  let d := fx_dir x in
  let '(best, bm) := us in
  if negb (does_improve d best (e_value e)) then Some (us, true) else
  t <- test_abstraction_c d (e_point e) ab ;;
  if negb t then Some (us, true) else
  bm' <- unpack_into bm (e_packed e) ;;
  let cand := mkOutputSet (fx_channels x) bm' in
  found <- (if negb (os_eqb cand s) then (r <- test_precise_c d cand (e_point e) s ab ;; Some (match r with Some _ => true | None => false end))
            else Some true) ;;
  if found : bool then Some ((Some (e_value e), bm'), true) else Some ((best, bm'), true).

(* index.rs:380-386 *)
Definition lookup_filter_c (x : FIndex) (ab : list nat) (us : option nat * list bool) (g : Aug) (rg : list (nat * nat)) : option bool :=
  if can_improve (fx_dir x) (fst us) (a_min g) (a_max g) then test_range_c (fx_dir x) rg ab else Some false.

(* index.rs:370-437 *)
Definition mx_lookup (x : FIndex) (s : OutputSet) (ab : list nat) : option (option nat) :=
  bm <- scratch_new (fx_channels x) ;;
  r <- mx_scan (lookup_filter_c x ab) (lookup_action_c x s ab) x (None, bm) ;;
  Some (fst r).

(* index.rs:508-536 action of insert_with_abstraction; the state is updated_in_place and the shared bitmap *)
Definition insert_action_c (x : FIndex) (s : OutputSet) (ab : list nat) (value : nat) (us : bool * list bool) (e : Entry)
  : option ((bool * list bool) * TResult) :=
  let d := fx_dir x in
  let '(flag, bm) := us in
  if negb (would_be_updated d (e_value e) value) then Some (us, RRetain (e_value e)) else
  t <- test_abstraction_c d ab (e_point e) ;;
  if negb t then Some (us, RRetain (e_value e)) else
  bm' <- unpack_into bm (e_packed e) ;;
  let cand := mkOutputSet (fx_channels x) bm' in
  if os_eqb cand s then (if flag then None else Some ((true, bm'), RRetain value)) else
  r <- test_precise_c d s ab cand (e_point e) ;;
  match r with
  | Some _ => Some ((flag, bm'), RRemove (e_value e))
  | None => Some ((flag, bm'), RRetain (e_value e))
  end.

(* index.rs:502-506 *)
Definition insert_filter_c (x : FIndex) (ab : list nat) (value : nat) (us : bool * list bool) (g : Aug) (rg : list (nat * nat)) : option bool :=
  if can_be_updated (fx_dir x) (a_min g) (a_max g) value then test_range_update_c (fx_dir x) rg ab else Some false.

(* index.rs:538-540 *)
Fixpoint mx_update_trees (x : FIndex) (s : OutputSet) (ab : list nat) (value : nat) (us : bool * list bool) (ts : list Flat)
  : option ((bool * list bool) * list Flat) :=
  match ts with
  | [] => Some (us, [])
  | t :: r =>
      a <- mx_traverse_mut t us (lookup_dir (fx_dir x)) (insert_filter_c x ab value) (insert_action_c x s ab value) ;;
      b <- mx_update_trees x s ab value (fst a) r ;;
      Some (fst b, snd a :: snd b)
  end.

(* index.rs:544-571 *)
Fixpoint mx_update_buffer {S_} (dim pdim : nat) (act : S_ -> Entry -> option (S_ * TResult)) (fuel : nat) (us : S_) (v : Vecs) (index : nat)
  : option (S_ * Vecs) :=
  match fuel with
  | 0 => None
  | S fu =>
      if index <? length (v_values v) then
        e <- entry_at dim pdim v index ;;
        a <- act us e ;;
        match snd a with
        | RRemove x => v' <- flat_swap_remove dim pdim (store_value v index x) index ;; mx_update_buffer dim pdim act fu (fst a) v' index
        | RRetain x | RBreak x => mx_update_buffer dim pdim act fu (fst a) (store_value v index x) (S index)
        end
      else Some (us, v)
  end.

(* index.rs:485-579; insert_new_unchecked_with_abstraction uses no bitmap and is that of FlatModel.v *)
Definition mx_insert (x : FIndex) (s : OutputSet) (ab : list nat) (value : nat) : option (FIndex * nat) :=
  best <- mx_lookup x s ab ;;
  bm <- scratch_new (fx_channels x) ;;
  if negb (does_improve (fx_dir x) best value) then (b <- best ;; Some (x, b)) else
  a <- mx_update_trees x s ab value (false, bm) (fx_trees x) ;;
  let trees := filter (fun t => negb (flat_is_empty t)) (snd a) in
  b <- mx_update_buffer (fx_dim x) (fx_pdim x) (insert_action_c x s ab value) (S (length (v_values (fx_vecs x)))) (fst a) (fx_vecs x) 0 ;;
  let x' := mkFIndex (fx_dir x) (fx_channels x) trees (snd b) in
  if fst (fst b) then Some (x', value) else
  x'' <- fx_insert_new_unchecked x' s ab value ;;
  Some (x'', value).

(* index.rs:581-604, what the callback is called with, in order *)
Definition mx_for_each (x : FIndex) : option (list (OutputSet * list nat * nat)) :=
  bm <- scratch_new (fx_channels x) ;;
  r <- mx_scan (fun _ _ _ => Some true)
         (fun us e => bm' <- unpack_into (snd us) (e_packed e) ;;
                      Some ((fst us ++ [(mkOutputSet (fx_channels x) bm', e_point e, e_value e)], bm'), true)) x ([], bm) ;;
  Some (fst r).
