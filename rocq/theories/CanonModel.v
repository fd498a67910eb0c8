(* src/output_set/canon.rs and OutputSet::canonicalize.

   Simplifications.  The arena (fields bitmaps, data, free_list and the macros get!, get_mut!, reborrow!,
   alloc!, lines 57-111) is not modelled: a layer is the list of its candidates instead of a list of
   arena indices.  The scratch fields buffer and temp are not modelled.  The hash function is an
   argument.  None stands for a panic or for running out of fuel. *)
From Coq Require Import List Arith Bool Lia.
Import ListNotations.
From Verif Require Import Spec Util OutputSetModel SubsumeModel.

(* src/output_set/canon.rs:8-14 CandidateData, together with the bitmap stored at the same arena index.
   partition_score is (singleton_count, !max_partition_size) in the code; the second component here is
   max_partition_size, and the order below is reversed on it. *)
Record Cand := mkCand {
  c_set : OutputSet;
  c_perm : list nat;
  c_invert : bool;
  c_fp : list nat;
  c_part : list (nat * nat);
  c_score : nat * nat
}.

(* src/output_set/canon.rs:17-23 score, with the tuple order of "cmp" *)
Definition score_cmp (a b : Cand) : comparison :=
  match Nat.compare (fst (c_score a)) (fst (c_score b)) with
  | Eq => match Nat.compare (snd (c_score b)) (snd (c_score a)) with
          | Eq => list_cmp Nat.compare (c_fp a) (c_fp b)
          | c => c
          end
  | c => c
  end.

(* src/output_set/canon.rs:26-29 the sort key (Reverse(count_ones), part_id, part_mask) *)
Definition part_leb (a b : nat * nat) : bool :=
  let ca := count_ones (fst a) in
  let cb := count_ones (fst b) in
  (cb <? ca) || ((ca =? cb) && ((snd a <? snd b) || ((snd a =? snd b) && (fst a <=? fst b)))).

(* src/output_set/canon.rs:31-36 take_while on the reversed partition *)
Fixpoint take_singles (l : list (nat * nat)) : option nat :=
  match l with
  | [] => Some 0
  | e :: r =>
      match is_single (fst e) with
      | None => None
      | Some true => option_map S (take_singles r)
      | Some false => Some 0
      end
  end.

(* src/output_set/canon.rs:25-41 sort_partition *)
Definition sort_partition (c : Cand) : option Cand :=
  let p := isort part_leb (c_part c) in
  match take_singles (rev p), p with
  | Some k, e :: _ => Some (mkCand (c_set c) (c_perm c) (c_invert c) (c_fp c) p (k, count_ones (fst e)))
  | _, _ => None
  end.

(* src/output_set/canon.rs:44-56 the fields that matter between the steps *)
Record Canonicalize := mkCanonicalize {
  z_used : nat;
  z_fixed : nat;
  z_layer : list Cand
}.

(* src/output_set/canon.rs:138-144 one step of the loop over the channels *)
Definition move_unconstrained (st : nat * OutputSet * list nat) (channel : nat) : nat * OutputSet * list nat :=
  let '(used, s, p) := st in
  if is_channel_unconstrained s channel
  then (used - 1, swap_channels s channel (used - 1), swap_list p channel (used - 1))
  else st.

(* src/output_set/canon.rs:116-161 new *)
Definition canon_new (s : OutputSet) (inversion : bool) : Canonicalize :=
  let n := channels s in
  let '(used, s', p) := fold_left move_unconstrained (rev (seq 0 n)) (n, s, seq 0 n) in
  let identity := mkCand s' p false [] [] (0, 0) in
  let inverted := mkCand (invert s') p true [] [] (0, 0) in
  mkCanonicalize used 0
    (if inversion && negb (os_eqb (invert s') s') then [identity; inverted] else [identity]).

(* src/output_set/canon.rs:207-218 and 422-433: the sorted (fingerprint, channel) pairs are cut where the
   fingerprint changes.  Arguments: fingerprint, mask and id of the part being built. *)
Fixpoint cut_parts (fingerprint mask id : nat) (l : list (nat * nat)) : list (nat * nat) :=
  match l with
  | [] => [(mask, id)]
  | (f, channel) :: r =>
      if fingerprint =? f then cut_parts fingerprint (Nat.lor mask (2 ^ channel)) id r
      else (mask, id) :: cut_parts f (Nat.lor 0 (2 ^ channel)) (S id) r
  end.

(* the order of (u64, usize) pairs *)
Definition pair_leb (a b : nat * nat) : bool :=
  (fst a <? fst b) || ((fst a =? fst b) && (snd a <=? snd b)).

(* src/output_set/canon.rs:195-218 and 404-433: the parts of the channels in [chs] for the channel
   fingerprint [f], ids counted from [id], and the fingerprints pushed.  None: fingerprints[0] of an
   empty vector. *)
Definition split_part (f : nat -> nat) (chs : list nat) (id : nat) : option (list (nat * nat) * list nat) :=
  let fingerprints := isort pair_leb (map (fun ch => (f ch, ch)) chs) in
  match fingerprints with
  | [] => None
  | e :: _ => Some (cut_parts (fst e) 0 id fingerprints, map fst fingerprints)
  end.

(* pushes on the fixed capacity vectors (CVec) panic beyond MAX_CHANNELS entries (src/output_set/canon.rs:10-13, 209-218) *)
Definition fits {A} (l : list A) : bool := length l <=? MAX_CHANNELS.

(* src/output_set/canon.rs:192-222 initialize_partitions, one candidate *)
Definition initialize_cand (used : nat) (c : Cand) : option Cand :=
  match split_part (channel_fingerprint (c_set c)) (seq 0 used) 0 with
  | None => None
  | Some (parts, fps) =>
      let p := c_part c ++ parts in
      let fp := c_fp c ++ fps in
      if fits p && fits fp
      then sort_partition (mkCand (c_set c) (c_perm c) (c_invert c) fp p (c_score c))
      else None
  end.
(* src/output_set/canon.rs:192-222 initialize_partitions, all candidates *)
Definition initialize_partitions (z : Canonicalize) : option Canonicalize :=
  option_map (mkCanonicalize (z_used z) (z_fixed z)) (map_opt (initialize_cand (z_used z)) (z_layer z)).

(* min_by with the reversed comparison: the first candidate of greatest score (src/output_set/canon.rs:226-231) *)
Definition best_score (c : Cand) (l : list Cand) : Cand :=
  fold_left (fun m x => match score_cmp m x with Lt => x | _ => m end) l c.

(* src/output_set/canon.rs:224-244 prune_using_fingerprints *)
Definition prune_using_fingerprints (z : Canonicalize) : option Canonicalize :=
  match z_layer z with
  | [] => None
  | c :: r =>
      let m := best_score c r in
      Some (mkCanonicalize (z_used z) (z_fixed z)
        (filter (fun x => match score_cmp x m with Eq => true | _ => false end) (z_layer z)))
  end.

(* src/output_set/canon.rs:262-269 and 369-376: a part after channel [fixed] moved to [source] *)
Definition swap_part (source fixed : nat) (e : nat * nat) : nat * nat :=
  (Nat.lor (Nat.ldiff (fst e) (2 ^ fixed)) (2 ^ source * Nat.b2n (Nat.testbit (fst e) fixed)), snd e).

(* src/output_set/canon.rs:255-270 the singleton channel [source] becomes channel [fixed] *)
Definition move_cand (fixed source : nat) (c : Cand) : Cand :=
  let p := removelast (c_part c) in
  if source =? fixed then mkCand (c_set c) (c_perm c) (c_invert c) (c_fp c) p (c_score c)
  else mkCand (swap_channels (c_set c) source fixed) (swap_list (c_perm c) source fixed) (c_invert c)
              (c_fp c) (map (swap_part source fixed) p) (c_score c).

(* src/output_set/canon.rs:246-274 move_singleton: false on the first candidate without a final singleton *)
Fixpoint move_layer (fixed : nat) (l : list Cand) : option (bool * list Cand) :=
  match l with
  | [] => Some (true, [])
  | c :: r =>
      match rev (c_part c) with
      | [] => Some (false, l)
      | e :: _ =>
          match is_single (fst e) with
          | None => None
          | Some false => Some (false, l)
          | Some true =>
              match move_layer fixed r with
              | None => None
              | Some (b, r') => Some (b, move_cand fixed (ctz (fst e)) c :: r')
              end
          end
      end
  end.
(* src/output_set/canon.rs:246-274 move_singleton, from the first candidate on *)
Definition move_singleton (z : Canonicalize) : option (bool * Canonicalize) :=
  match move_layer (z_fixed z) (z_layer z) with
  | None => None
  | Some (true, l) => Some (true, mkCanonicalize (z_used z) (S (z_fixed z)) l)
  | Some (false, l) => Some (false, mkCanonicalize (z_used z) (z_fixed z) l)
  end.

(* src/output_set/canon.rs:170-172 "while self.move_singleton() { prune = true; }" *)
Fixpoint move_singletons (fuel : nat) (prune : bool) (z : Canonicalize) : option (bool * Canonicalize) :=
  match fuel with
  | 0 => None
  | S f =>
      match move_singleton z with
      | None => None
      | Some (false, z') => Some (prune, z')
      | Some (true, z') => move_singletons f true z'
      end
  end.

(* src/output_set/canon.rs:288, 302 the order of the sets (src/output_set.rs:47-70) *)
Definition set_leb (a b : Cand) : bool :=
  match os_cmp (c_set a) (c_set b) with Gt => false | _ => true end.

(* min_by_key: the first minimum (src/output_set/canon.rs:285-289) *)
Definition min_set (c : Cand) (l : list Cand) : Cand :=
  fold_left (fun m x => if set_leb m x then m else x) l c.

(* dedup_by: of each run of equal sets the first is kept (src/output_set/canon.rs:303-310) *)
Fixpoint dedup_sets (l : list Cand) : list Cand :=
  match l with
  | [] => []
  | c :: r =>
      match dedup_sets r with
      | d :: r' => if os_eqb (c_set d) (c_set c) then c :: r' else c :: d :: r'
      | [] => [c]
      end
  end.

(* src/output_set/canon.rs:318-323 data[index].fingerprint[0] = fingerprint *)
Definition set_fp0 (hash : list nat -> nat) (fixed : nat) (c : Cand) : option Cand :=
  match c_fp c with
  | [] => None
  | _ :: r => Some (mkCand (c_set c) (c_perm c) (c_invert c)
                (low_channels_fingerprint hash (c_set c) fixed :: r) (c_part c) (c_score c))
  end.

(* src/output_set/canon.rs:276-335 prune *)
Definition prune (hash : list nat -> nat) (recompute : bool) (z : Canonicalize) : option Canonicalize :=
  let used := z_used z in
  let fixed := z_fixed z in
  let layer := z_layer z in
  if length layer =? 1 then Some z else
  if fixed =? used then
    match layer with
    | [] => None
    | c :: r => Some (mkCanonicalize used fixed [min_set c r])
    end
  else
    let l := dedup_sets (isort set_leb layer) in
    if (length l =? 1) || negb recompute then Some (mkCanonicalize used fixed l) else
    match map_opt (set_fp0 hash fixed) l with
    | None => None
    | Some l' =>
        let m := fold_left Nat.max (map (fun c => nth 0 (c_fp c) 0) l') 0 in
        Some (mkCanonicalize used fixed (filter (fun c => nth 0 (c_fp c) 0 =? m) l'))
    end.

(* src/output_set/canon.rs:363-378 the candidate with channel [source] of the last part individualized *)
Definition individual_cand (fixed source : nat) (c : Cand) (last : nat * nat) : Cand :=
  let p := removelast (c_part c) ++ [(Nat.ldiff (fst last) (2 ^ source), snd last)] in
  mkCand (swap_channels (c_set c) source fixed) (swap_list (c_perm c) source fixed) (c_invert c)
         (c_fp c) (map (swap_part source fixed) p) (c_score c).

(* src/output_set/canon.rs:340-380 the loop over the channels of the last part; state: greatest fingerprint
   and next layer *)
Definition individualize_channel (hash : list nat -> nat) (fixed : nat) (c : Cand) (last : nat * nat)
  (st : nat * list Cand) (source : nat) : nat * list Cand :=
  let temp := swap_channels (c_set c) source fixed in
  let fingerprint := low_channels_fingerprint hash temp (S fixed) in
  let new := individual_cand fixed source c last in
  if fst st <? fingerprint then (fingerprint, [new])
  else if fingerprint <? fst st then st
  else (fst st, snd st ++ [new]).

(* src/output_set/canon.rs:337-388 individualize, one candidate (339-383) *)
Definition individualize_cand (hash : list nat -> nat) (fixed : nat) (st : nat * list Cand) (c : Cand) : option (nat * list Cand) :=
  match rev (c_part c) with
  | [] => None
  | e :: _ => Some (fold_left (individualize_channel hash fixed c e) (mask_bits (fst e) (fst e)) st)
  end.

(* src/output_set/canon.rs:337-388 individualize *)
Definition individualize (hash : list nat -> nat) (z : Canonicalize) : option Canonicalize :=
  match fold_opt (individualize_cand hash (z_fixed z)) (z_layer z) (0, []) with
  | None => None
  | Some (_, l) => Some (mkCanonicalize (z_used z) (S (z_fixed z)) l)
  end.

(* src/output_set/canon.rs:399-436 the loop over the parts of one candidate *)
Fixpoint refine_parts (f : nat -> nat) (parts : list (nat * nat)) (id : nat) : option (list (nat * nat) * list nat) :=
  match parts with
  | [] => Some ([], [])
  | e :: r =>
      match split_part f (mask_bits (fst e) (fst e)) id with
      | None => None
      | Some (ps, fps) =>
          match refine_parts f r (id + length ps) with
          | None => None
          | Some (ps', fps') => Some (ps ++ ps', fps ++ fps')
          end
      end
  end.

(* src/output_set/canon.rs:390-440 refine *)
Definition refine_cand (hash : list nat -> nat) (fixed : nat) (c : Cand) : option Cand :=
  match refine_parts (low_channels_channel_fingerprint hash (c_set c) fixed) (c_part c) 0 with
  | None => None
  | Some (p, fp) =>
      if fits p && fits fp
      then sort_partition (mkCand (c_set c) (c_perm c) (c_invert c) fp p (c_score c))
      else None
  end.
(* src/output_set/canon.rs:390-440 refine, all candidates *)
Definition refine (hash : list nat -> nat) (z : Canonicalize) : option Canonicalize :=
  option_map (mkCanonicalize (z_used z) (z_fixed z)) (map_opt (refine_cand hash (z_fixed z)) (z_layer z)).

(* a panic anywhere is a panic of the whole (src/output_set/canon.rs:163-190) *)
Definition bind {A B} (x : option A) (f : A -> option B) : option B :=
  match x with None => None | Some a => f a end.

(* src/output_set/canon.rs:167-185 the loop *)
Fixpoint canon_loop (hash : list nat -> nat) (fuel : nat) (z : Canonicalize) : option Canonicalize :=
  match fuel with
  | 0 => None
  | S f =>
      bind (prune_using_fingerprints z) (fun z1 =>
      bind (move_singletons (S (z_used z)) false z1) (fun r =>
      bind (if fst r then prune hash true (snd r) else Some (snd r)) (fun z2 =>
      if z_fixed z2 =? z_used z2 then Some z2 else
      bind (individualize hash z2) (fun z3 =>
      bind (prune hash false z3) (fun z4 =>
      if z_fixed z4 =? z_used z4 then Some z4 else
      bind (refine hash z4) (canon_loop hash f))))))
  end.

(* src/output_set/canon.rs:163-190 canonicalize; None: layer[0] of an empty layer *)
Definition canon_run (hash : list nat -> nat) (z : Canonicalize) : option Cand :=
  bind (if 0 <? z_used z
        then bind (initialize_partitions z) (canon_loop hash (S (z_used z)))
        else Some z)
       (fun z' => match z_layer z' with [] => None | c :: _ => Some c end).

(* src/output_set.rs:627-639 canonicalize: the new set, and the returned Perm {invert, perm} *)
Definition canonicalize (hash : list nat -> nat) (s : OutputSet) (inversion : bool)
  : option (OutputSet * (bool * list nat)) :=
  if channels s =? 0 then Some (s, (false, seq 0 0)) else
  option_map (fun c => (c_set c, (c_invert c, c_perm c))) (canon_run hash (canon_new s inversion)).
