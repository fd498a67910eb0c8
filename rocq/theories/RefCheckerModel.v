(* Model of the reference checker "snocheck -r": /repo/checker/snocheck/src/VectSet.hs, ProofStep.hs and
   Check.hs.

   Machine integers are unbounded numbers here (nat for values, Z for step numbers): the model is about
   channel counts below 63, where no shift overflows.  An IntSet is the ascending list of its elements.
   "Left msg" and an exception are both None. *)
From Coq Require Import List Arith Bool Lia ZArith.
Import ListNotations.
From Verif Require Import Spec Util.

(* ---------- Data.IntSet as ascending lists ---------- *)

(* Data.IntSet.insert (library, not in /repo); used at checker/snocheck/src/VectSet.hs:39 *)
Fixpoint is_insert (v : nat) (s : list nat) : list nat :=
  match s with
  | [] => [v]
  | w :: r => if v <? w then v :: s else if v =? w then s else w :: is_insert v r
  end.

(* Data.IntSet.map (library); used at checker/snocheck/src/VectSet.hs:50,58,68,88 *)
Definition is_map (f : nat -> nat) (s : list nat) : list nat :=
  fold_right (fun v acc => is_insert (f v) acc) [] s.

(* Data.IntSet.member (library); used at checker/snocheck/src/VectSet.hs:75 *)
Definition is_mem (v : nat) (s : list nat) : bool := existsb (Nat.eqb v) s.

(* Data.IntSet.isSubsetOf (library); used at checker/snocheck/src/VectSet.hs:71 *)
Definition is_subset (a b : list nat) : bool := forallb (fun v => is_mem v b) a.

(* ---------- VectSet.hs ---------- *)

(* checker/snocheck/src/VectSet.hs:24-27 *)
Record VectSet : Type := mkVectSet { vchannels : nat; vects : list nat }.

(* checker/snocheck/src/VectSet.hs:33-39 fromBytes: addByte inserts pos + (number of trailing zeros) and
   clears that bit until the byte is 0; here the eight bit positions are tested in order *)
Definition add_byte (st : list nat * nat) (n : nat) : list nat * nat :=
  (fold_left (fun set i => if Nat.testbit n i then is_insert (snd st + i) set else set) (seq 0 8) (fst st),
   snd st + 8).
(* checker/snocheck/src/VectSet.hs:33-39 fromBytes, from position 0 *)
Definition fromBytes (channels : nat) (bytes : list nat) : VectSet :=
  mkVectSet channels (fst (fold_left add_byte bytes ([], 0))).

(* checker/snocheck/src/VectSet.hs:41-51 applyComp *)
Definition applyComp (a b : nat) (vs : VectSet) : option VectSet :=
  let aMask := 2 ^ a in
  let bMask := 2 ^ b in
  let abMask := Nat.lor aMask bMask in
  let have xMask := existsb (fun v => Nat.land v abMask =? xMask) (vects vs) in
  if have aMask && have bMask
  then Some (mkVectSet (vchannels vs)
               (is_map (fun v => if Nat.land v abMask =? bMask then Nat.lxor v abMask else v) (vects vs)))
  else None.

(* checker/snocheck/src/VectSet.hs:53-54 size *)
Definition vsize (vs : VectSet) : nat := length (vects vs).

(* checker/snocheck/src/VectSet.hs:61-62 permVect *)
Definition permVect (perm : list nat) (v : nat) : nat :=
  fold_right (fun p a => Nat.lor (Nat.shiftl a 1) (Nat.b2n (Nat.testbit v p))) 0 perm.

(* checker/snocheck/src/VectSet.hs:56-62 permute *)
Definition vpermute (perm : list nat) (vs : VectSet) : VectSet :=
  mkVectSet (vchannels vs) (is_map (permVect perm) (vects vs)).

(* checker/snocheck/src/VectSet.hs:64-68 invert *)
Definition vinvert (vs : VectSet) : VectSet :=
  mkVectSet (vchannels vs) (is_map (fun v => Nat.lxor (2 ^ vchannels vs - 1) v) (vects vs)).

(* checker/snocheck/src/VectSet.hs:70-71 subsumes; None: no guard matches, an exception *)
Definition vsubsumes (a b : VectSet) : option bool :=
  if vchannels a =? vchannels b then Some (is_subset (vects a) (vects b)) else None.

(* checker/snocheck/src/VectSet.hs:73-76 extremalChannels *)
Definition extremalChannels (pol : bool) (vs : VectSet) : list nat :=
  let flip := if pol then 2 ^ vchannels vs - 1 else 0 in
  filter (fun i => is_mem (Nat.lxor (2 ^ i) flip) (vects vs)) (seq 0 (vchannels vs)).

(* checker/snocheck/src/VectSet.hs:78-90 pruneExtremal; None: no channels, an exception.
   "complement maskLow" on v >> 1 is v >> 1 with its a low bits cleared. *)
Definition pruneExtremal (pol : bool) (a : nat) (vs : VectSet) : option VectSet :=
  if vchannels vs =? 0 then None
  else
    let mask := 2 ^ a in
    let target := if pol then 0 else mask in
    let maskLow := 2 ^ a - 1 in
    Some (mkVectSet (vchannels vs - 1)
            (is_map (fun v => Nat.lor (Nat.land v maskLow) (Nat.ldiff (Nat.shiftr v 1) maskLow))
                    (filter (fun v => Nat.land v mask =? target) (vects vs)))).

(* checker/snocheck/src/VectSet.hs:92-94 asBoolVectList *)
Definition asBoolVectList (vs : VectSet) : list (list bool) :=
  map (fun v => map (Nat.testbit v) (seq 0 (vchannels vs))) (vects vs).

(* ---------- ProofStep.hs ---------- *)

(* checker/snocheck/src/ProofStep.hs:26-30 *)
Record Witness : Type := mkWitness { stepId : Z; winvert : bool; wperm : list nat }.

(* checker/snocheck/src/ProofStep.hs:18-20 *)
Inductive Witnesses : Type :=
| Huffman (pol : bool) (ws : list (option Witness))
| Successors (ws : list (option Witness)).

(* checker/snocheck/src/ProofStep.hs:12-16 *)
Record RefStep : Type := mkRefStep { vectSet : VectSet; rbound : nat; witnesses : Witnesses }.

(* ---------- Check.hs ---------- *)

(* checker/snocheck/src/Check.hs:22-23 check *)
Definition check (cond : bool) : option unit := if cond then Some tt else None.

(* >>= of Either, used throughout checker/snocheck/src/Check.hs (e.g. 26-28) *)
Definition bind {A B} (x : option A) (f : A -> option B) : option B :=
  match x with Some a => f a | None => None end.

(* checker/snocheck/src/Check.hs:109-119 getBound *)
Definition getBound (steps : Z -> option RefStep) (w : option Witness) (vs : VectSet) : option nat :=
  match w with
  | None => if vsize vs <=? 1 + vchannels vs then Some 0 else Some 1
  | Some w =>
      bind (steps (stepId w)) (fun witnessStep =>
      let witnessSet := vectSet witnessStep in
      let witnessSet' := if winvert w then vinvert witnessSet else witnessSet in
      let permutedWitnessSet := vpermute (wperm w) witnessSet' in
      bind (vsubsumes permutedWitnessSet vs) (fun ok =>
      bind (check ok) (fun _ => Some (rbound witnessStep))))
  end.

(* Data.IntMap (library) as an ascending association list: insertWith (+), used at checker/snocheck/src/Check.hs:72,88 *)
Fixpoint im_add (k c : nat) (q : list (nat * nat)) : list (nat * nat) :=
  match q with
  | [] => [(k, c)]
  | (k', c') :: r => if k <? k' then (k, c) :: q else if k =? k' then (k, c + c') :: r else (k', c') :: im_add k c r
  end.

(* checker/snocheck/src/Check.hs:81-85 queuePop (IM.insert of the smallest key keeps it in front) *)
Definition queuePop (q : list (nat * nat)) : option (nat * list (nat * nat)) :=
  match q with
  | [] => None
  | (item, count) :: rest => Some (item, if 1 <? count then (item, count - 1) :: rest else rest)
  end.

(* checker/snocheck/src/Check.hs:87-88 queuePush *)
Definition queuePush (item : nat) (q : list (nat * nat)) : list (nat * nat) := im_add item 1 q.

(* checker/snocheck/src/Check.hs:74-79 huffmanBound'; None: empty queue, an exception; fuel: the number
   of entries counted with multiplicity *)
Fixpoint huffmanBound' (fuel : nat) (q : list (nat * nat)) : option nat :=
  match fuel with
  | 0 => None
  | S f =>
      match queuePop q with
      | None => None
      | Some (item, q') =>
          match queuePop q' with
          | None => Some item
          | Some (item2, q'') => huffmanBound' f (queuePush (1 + Nat.max item item2) q'')
          end
      end
  end.

(* checker/snocheck/src/Check.hs:71-72 huffmanBound *)
Definition huffmanBound (l : list nat) : option nat :=
  huffmanBound' (S (length l)) (fold_left (fun q k => im_add k 1 q) l []).

(* checker/snocheck/src/Check.hs:58-69 checkHuffman *)
Definition checkHuffman (steps : Z -> option RefStep) (step : RefStep) (pol : bool)
           (ws : list (option Witness)) : option unit :=
  let vs := vectSet step in
  let ext := extremalChannels pol vs in
  bind (check (length ext =? length ws)) (fun _ =>
  bind (map_opt (fun e => bind (pruneExtremal pol (fst e) vs) (getBound steps (snd e))) (combine ext ws)) (fun bounds =>
  bind (huffmanBound bounds) (fun h => check (rbound step <=? h)))).

(* checker/snocheck/src/Check.hs:93-94 the comparators, in order *)
Definition comp_pairs (n : nat) : list (nat * nat) :=
  flat_map (fun i => map (fun j => (i, j)) (seq 0 i)) (seq 0 n).

(* Data.Maybe.catMaybes (library); used at checker/snocheck/src/Check.hs:94 *)
Definition cat_maybes {A} (l : list (option A)) : list A :=
  flat_map (fun o => match o with Some a => [a] | None => [] end) l.

(* checker/snocheck/src/Check.hs:90-107 checkSuccessors *)
Definition checkSuccessors (steps : Z -> option RefStep) (step : RefStep) (ws : list (option Witness))
  : option unit :=
  let vs := vectSet step in
  let successors := cat_maybes (map (fun c => applyComp (fst c) (snd c) vs) (comp_pairs (vchannels vs))) in
  bind (check (1 + vchannels vs <? vsize vs)) (fun _ =>
  bind (check (length successors =? length ws)) (fun _ =>
  bind (map_opt (fun e => bind (getBound steps (snd e) (fst e)) (fun b => check (rbound step <=? b + 1)))
                (combine successors ws)) (fun _ => Some tt))).

(* checker/snocheck/src/Check.hs:47-56 checkStep *)
Definition checkStep (steps : Z -> option RefStep) (stepId : Z) : option unit :=
  bind (steps stepId) (fun step =>
  let steps' i := bind (check (i <? stepId)%Z) (fun _ => steps i) in
  match witnesses step with
  | Huffman pol ws => checkHuffman steps' step pol ws
  | Successors ws => checkSuccessors steps' step ws
  end).

(* checker/snocheck/src/Check.hs:38-45 parCheckRange; fuel high - low *)
Fixpoint parCheckRange (fuel : nat) (f : Z -> option unit) (low high : Z) : option unit :=
  if (high - low <? 1000)%Z
  then bind (map_opt f (map (fun k => (low + Z.of_nat k)%Z) (seq 0 (Z.to_nat (high - low))))) (fun _ => Some tt)
  else match fuel with
       | 0 => None
       | S k =>
           let mid := ((low + high) / 2)%Z in
           bind (parCheckRange k f low mid) (fun _ => parCheckRange k f mid high)
       end.

(* checker/snocheck/src/Check.hs:25-36 checkProof *)
Definition checkProof (stepCount : Z) (stepFn : Z -> RefStep) : option (nat * nat) :=
  let steps n := if (0 <=? n)%Z && (n <? stepCount)%Z then Some (stepFn n) else None in
  bind (parCheckRange (Z.to_nat stepCount) (checkStep steps) 0 stepCount) (fun _ =>
  let lastStep := stepFn (stepCount - 1)%Z in
  Some (vchannels (vectSet lastStep), rbound lastStep)).
