(* src/output_set/index.rs.

   Simplifications.  The three buffer vectors points, packed and values are one list of entries, as in
   TreeModel.v.  The scratch bitmap candidate_output_set is a fresh buffer at every use; unpack_from_slice
   overwrites all of it (C04).  Dir::Perm is (bool * list nat) in all three directions; the flag is false for Lower
   and Upper.  Values are nat instead of u8.  None is a panic.  dump_dot is not modelled. *)
From Coq Require Import List Arith Bool Lia.
Import ListNotations.
From Verif Require Import Spec Util OutputSetModel SubsumeModel TreeModel.

(* index.rs:9-12, the type parameter Dir of OutputSetIndex *)
Inductive Dir := Lower | LowerInvert | Upper.

(* index.rs:14 *)
Definition TREE_THRESHOLD : nat := 32.

(* index.rs:59-61, 125-127, 210-212 *)
Definition lookup_dir (d : Dir) : bool := match d with Upper => true | _ => false end.

(* index.rs:63-69, 129-135, 214-220 *)
Definition can_improve (d : Dir) (best : option nat) (lo hi : nat) : bool :=
  match best with
  | None => true
  | Some b => match d with Upper => lo <? b | _ => b <? hi end
  end.

(* index.rs:71-77, 137-143, 222-228 *)
Definition does_improve (d : Dir) (best : option nat) (value : nat) : bool :=
  match best with
  | None => true
  | Some b => match d with Upper => value <? b | _ => b <? value end
  end.

(* index.rs:79-81, 145-147, 230-232 *)
Definition can_be_updated (d : Dir) (lo hi value : nat) : bool :=
  match d with Upper => value <=? hi | _ => lo <=? value end.

(* index.rs:83-85, 149-151, 234-236 *)
Definition would_be_updated (d : Dir) (candidate_value lookup_value : nat) : bool :=
  match d with Upper => lookup_value <=? candidate_value | _ => candidate_value <=? lookup_value end.

(* zip and all (index.rs:87-106, 238-257) *)
Definition all2 {A B} (f : A -> B -> bool) (l : list A) (l' : list B) : bool :=
  forallb (fun e : A * B => f (fst e) (snd e)) (combine l l').

(* index.rs:154-160 enumerate and all, with lookup[i ^ mask]; an index out of range panics in the code and reads
   0 here (C11_masked_index_in_range: it is never out of range) *)
Definition all_masked {A} (f : A -> nat -> bool) (l : list A) (mask : nat) (lookup : list nat) : bool :=
  forallb (fun e : nat * A => f (snd e) (nth (Nat.lxor (fst e) mask) lookup 0)) (combine (seq 0 (length l)) l).
(* index.rs:154-155, 164-165, 174-175 any over invert = 0, 1 *)
Definition any_mask {A} (f : A -> nat -> bool) (l : list A) (lookup : list nat) : bool :=
  all_masked f l 0 lookup || all_masked f l 3 lookup.

(* index.rs:87-92, 153-161, 238-243 *)
Definition test_abstraction_range (d : Dir) (candidate_range : list (nat * nat)) (lookup : list nat) : bool :=
  match d with
  | Lower => all2 (fun c l => fst c <=? l) candidate_range lookup
  | LowerInvert => any_mask (fun c l => fst c <=? l) candidate_range lookup
  | Upper => all2 (fun c l => l <=? snd c) candidate_range lookup
  end.

(* index.rs:94-99, 163-171, 245-250 *)
Definition test_abstraction_range_update (d : Dir) (candidate_range : list (nat * nat)) (lookup : list nat) : bool :=
  match d with
  | Lower => all2 (fun c l => l <=? snd c) candidate_range lookup
  | LowerInvert => any_mask (fun c l => l <=? snd c) candidate_range lookup
  | Upper => all2 (fun c l => fst c <=? l) candidate_range lookup
  end.

(* index.rs:101-106, 173-181, 252-257 *)
Definition test_abstraction (d : Dir) (candidate lookup : list nat) : bool :=
  match d with
  | Lower => all2 (fun c l => c <=? l) candidate lookup
  | LowerInvert => any_mask (fun c l => c <=? l) candidate lookup
  | Upper => all2 (fun c l => l <=? c) candidate lookup
  end.

(* index.rs:33-35 *)
Definition test_abstraction_update (d : Dir) (candidate lookup : list nat) : bool := test_abstraction d lookup candidate.

(* index.rs:108-115, 183-200, 259-266 *)
Definition test_precise (d : Dir) (candidate : OutputSet) (cab : list nat) (lookup : OutputSet) (lab : list nat)
  : option (option (bool * list nat)) :=
  match d with
  | Lower => r <- subsumes_permuted candidate lookup ;; Some (match r with Some p => Some (false, p) | None => None end)
  | Upper => r <- subsumes_permuted lookup candidate ;; Some (match r with Some p => Some (false, p) | None => None end)
  | LowerInvert =>
      first <- (if test_abstraction Lower cab lab then subsumes_permuted candidate lookup else Some None) ;;
      match first with
      | Some p => Some (Some (false, p))
      | None =>
          r <- subsumes_permuted (invert candidate) lookup ;;
          Some (match r with Some p => Some (true, p) | None => None end)
      end
  end.

(* index.rs:44-51 *)
Definition test_precise_update (d : Dir) (candidate : OutputSet) (cab : list nat) (lookup : OutputSet) (lab : list nat)
  : option bool :=
  r <- test_precise d lookup lab candidate cab ;; Some (match r with Some _ => true | None => false end).

(* index.rs:117-119, 202-204, 268-270 *)
Definition id_perm (n : nat) : bool * list nat := (false, seq 0 n).

(* index.rs:273-282 *)
Record Index := mkIndex { ix_dir : Dir; ix_channels : nat; ix_trees : list Tree; ix_ents : list Entry }.

(* index.rs:285-296 *)
Definition index_new (d : Dir) (n : nat) : Index := mkIndex d n [] [].

(* index.rs:290 *)
Definition ix_dim (ix : Index) : nat := abstraction_len_for_channels (ix_channels ix).

(* index.rs:316-347 the action of lookup_subsuming_with_abstraction *)
Definition subsuming_action (ix : Index) (s : OutputSet) (ab : list nat)
  (best : option (nat * (bool * list nat) * OutputSet)) (e : Entry) : option (option (nat * (bool * list nat) * OutputSet) * bool) :=
  let d := ix_dir ix in
  if negb (does_improve d (option_map (fun x => fst (fst x)) best) (e_value e)) then Some (best, true) else
  if negb (test_abstraction d (e_point e) ab) then Some (best, true) else
  cand <- from_packed (ix_channels ix) (e_packed e) ;;
  if os_eqb cand s then Some (Some (e_value e, id_perm (channels s), cand), true) else
  r <- test_precise d cand (e_point e) s ab ;;
  match r with
  | Some perm => Some (Some (e_value e, perm, cand), true)
  | None => Some (best, true)
  end.

(* index.rs:308-314 *)
Definition subsuming_filter (ix : Index) (ab : list nat) (best : option (nat * (bool * list nat) * OutputSet)) (g : Aug) (rg : list (nat * nat)) : bool :=
  can_improve (ix_dir ix) (option_map (fun x => fst (fst x)) best) (a_min g) (a_max g)
  && test_abstraction_range (ix_dir ix) rg ab.

(* index.rs:349-365 all trees, then the buffer *)
Definition scan {S_} (filt : S_ -> Aug -> list (nat * nat) -> bool) (act : S_ -> Entry -> option (S_ * bool))
  (ix : Index) (us : S_) : option S_ :=
  us1 <- fold_opt (fun us t => traverse t us (lookup_dir (ix_dir ix)) filt act) (ix_trees ix) us ;;
  fold_opt (fun us e => r <- act us e ;; Some (fst r)) (ix_ents ix) us1.

(* index.rs:298-368 *)
Definition lookup_subsuming (ix : Index) (s : OutputSet) (ab : list nat) : option (option (nat * (bool * list nat) * OutputSet)) :=
  scan (subsuming_filter ix ab) (subsuming_action ix s ab) ix None.

(* index.rs:388-416 *)
Definition lookup_action (ix : Index) (s : OutputSet) (ab : list nat) (best : option nat) (e : Entry) : option (option nat * bool) :=
  let d := ix_dir ix in
  if negb (does_improve d best (e_value e)) then Some (best, true) else
  if negb (test_abstraction d (e_point e) ab) then Some (best, true) else
  cand <- from_packed (ix_channels ix) (e_packed e) ;;
  if os_eqb cand s then Some (Some (e_value e), true) else
  r <- test_precise d cand (e_point e) s ab ;;
  match r with
  | Some _ => Some (Some (e_value e), true)
  | None => Some (best, true)
  end.

(* index.rs:380-386 *)
Definition lookup_filter (ix : Index) (ab : list nat) (best : option nat) (g : Aug) (rg : list (nat * nat)) : bool :=
  can_improve (ix_dir ix) best (a_min g) (a_max g) && test_abstraction_range (ix_dir ix) rg ab.

(* index.rs:370-437 *)
Definition lookup (ix : Index) (s : OutputSet) (ab : list nat) : option (option nat) :=
  scan (lookup_filter ix ab) (lookup_action ix s ab) ix None.

(* index.rs:455-471 popping from the end of the sorted vector (the argument is reversed) *)
Fixpoint absorb (d : Dir) (rtrees : list Tree) (ents : list Entry) : option (list Tree * list Entry) :=
  match rtrees with
  | [] => Some ([], ents)
  | t :: r =>
      if length ents <? tree_len t then Some (t :: r, ents) else
      ents' <- traverse t ents (lookup_dir d) (fun _ _ _ => true) (fun es e => Some (es ++ [e], true)) ;;
      absorb d r ents'
  end.

(* index.rs:439-483 *)
Definition insert_new_unchecked (ix : Index) (s : OutputSet) (ab : list nat) (value : nat) : option Index :=
  pk <- packed s ;;
  let ents := ix_ents ix ++ [mkEntry ab pk value] in
  if length ents <? TREE_THRESHOLD then Some (mkIndex (ix_dir ix) (ix_channels ix) (ix_trees ix) ents) else
  let sorted := isort (fun a b => tree_len b <=? tree_len a) (ix_trees ix) in
  r <- absorb (ix_dir ix) (rev sorted) ents ;;
  t <- tree_new (ix_dim ix) (snd r) ;;
  Some (mkIndex (ix_dir ix) (ix_channels ix) (rev (fst r) ++ [t]) []).

(* index.rs:508-536 the action of insert_with_abstraction; the state is updated_in_place *)
Definition insert_action (ix : Index) (s : OutputSet) (ab : list nat) (value : nat) (flag : bool) (e : Entry) : option (bool * TResult) :=
  let d := ix_dir ix in
  if negb (would_be_updated d (e_value e) value) then Some (flag, RRetain (e_value e)) else
  if negb (test_abstraction_update d (e_point e) ab) then Some (flag, RRetain (e_value e)) else
  cand <- from_packed (ix_channels ix) (e_packed e) ;;
  if os_eqb cand s then (if flag then None else Some (true, RRetain value)) else
  r <- test_precise_update d cand (e_point e) s ab ;;
  if r then Some (flag, RRemove (e_value e)) else Some (flag, RRetain (e_value e)).

(* index.rs:502-506 *)
Definition insert_filter (ix : Index) (ab : list nat) (value : nat) (flag : bool) (g : Aug) (rg : list (nat * nat)) : bool :=
  can_be_updated (ix_dir ix) (a_min g) (a_max g) value && test_abstraction_range_update (ix_dir ix) rg ab.

(* index.rs:538-540 *)
Fixpoint update_trees (ix : Index) (s : OutputSet) (ab : list nat) (value : nat) (flag : bool) (ts : list Tree) : option (bool * list Tree) :=
  match ts with
  | [] => Some (flag, [])
  | t :: r =>
      a <- traverse_mut t flag (lookup_dir (ix_dir ix)) (insert_filter ix ab value) (insert_action ix s ab value) ;;
      b <- update_trees ix s ab value (fst a) r ;;
      Some (fst b, snd a :: snd b)
  end.

(* index.rs:555-567 swap_remove and the corresponding moves of points and packed *)
Definition swap_remove (ents : list Entry) (index : nat) : option (list Entry) :=
  last <- nth_error ents (length ents - 1) ;;
  Some (firstn (length ents - 1) (upd ents index last)).

(* index.rs:544-571 *)
Fixpoint update_buffer (act : bool -> Entry -> option (bool * TResult)) (fuel : nat) (flag : bool) (ents : list Entry) (index : nat)
  : option (bool * list Entry) :=
  match fuel with
  | 0 => None
  | S f =>
      if index <? length ents then
        e <- nth_error ents index ;;
        a <- act flag e ;;
        match snd a with
        | RRemove v => ents' <- swap_remove (upd ents index (mkEntry (e_point e) (e_packed e) v)) index ;; update_buffer act f (fst a) ents' index
        | RRetain v | RBreak v => update_buffer act f (fst a) (upd ents index (mkEntry (e_point e) (e_packed e) v)) (S index)
        end
      else Some (flag, ents)
  end.

(* index.rs:485-579 *)
Definition insert (ix : Index) (s : OutputSet) (ab : list nat) (value : nat) : option (Index * nat) :=
  best <- lookup ix s ab ;;
  if negb (does_improve (ix_dir ix) best value) then (b <- best ;; Some (ix, b)) else
  a <- update_trees ix s ab value false (ix_trees ix) ;;
  let trees := filter (fun t => negb (tree_is_empty t)) (snd a) in
  b <- update_buffer (insert_action ix s ab value) (S (length (ix_ents ix))) (fst a) (ix_ents ix) 0 ;;
  let ix' := mkIndex (ix_dir ix) (ix_channels ix) trees (snd b) in
  if fst b then Some (ix', value) else
  ix'' <- insert_new_unchecked ix' s ab value ;;
  Some (ix'', value).

(* index.rs:581-604, what the callback is called with, in order *)
Definition for_each (ix : Index) : option (list (OutputSet * list nat * nat)) :=
  scan (fun _ _ _ => true)
    (fun acc e => cand <- from_packed (ix_channels ix) (e_packed e) ;; Some (acc ++ [(cand, e_point e, e_value e)], true)) ix [].

(* index.rs:606-608 *)
Definition index_is_empty (ix : Index) : bool :=
  match ix_ents ix, ix_trees ix with [], [] => true | _, _ => false end.

(* index.rs:610-612 *)
Definition index_len (ix : Index) : nat := length (ix_ents ix) + fold_left Nat.add (map tree_len (ix_trees ix)) 0.
