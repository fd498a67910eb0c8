(* Model of /repo/checker/snocheck/src/Decode.hs, Translate.hs and Main.hs, and of the writer of the
   certificate file in /repo/src/proof.rs.

   A file is a list of bytes (numbers below 256).  Int is a 64 bit signed number: only read64LE can leave
   the range and is wrapped.  An exception (index out of range, no matching case) is None. *)
From Coq Require Import List Arith Bool Lia ZArith.
Import ListNotations.
From Verif Require Import Spec Util VerifiedCheckerModel RefCheckerModel.

(* Data.ByteString.drop (library); used at checker/snocheck/src/Decode.hs:37,39,40,51,53,59,78 *)
Definition zdrop {A} (k : Z) (l : list A) : list A :=
  if (k <=? 0)%Z then l else if (Z.of_nat (length l) <=? k)%Z then [] else skipn (Z.to_nat k) l.

(* Data.ByteString.take (library); used at checker/snocheck/src/Decode.hs:40,51 *)
Definition ztake {A} (k : Z) (l : list A) : list A :=
  if (k <=? 0)%Z then [] else if (Z.of_nat (length l) <=? k)%Z then l else firstn (Z.to_nat k) l.

(* checker/snocheck/src/Decode.hs:15-17 readLE, before wrapping to Int *)
Fixpoint le_value (bytes : list nat) : Z :=
  match bytes with
  | [] => 0
  | b :: r => Z.of_nat b + 256 * le_value r
  end.

(* 64 bit two's complement, the Int of checker/snocheck/src/Decode.hs:15 *)
Definition to_int (v : Z) : Z := if (v <? 2 ^ 63)%Z then v else (v - 2 ^ 64)%Z.

(* checker/snocheck/src/Decode.hs:15-17 readLE: B.index fails past the end *)
Definition readLE (len : nat) (bytes : list nat) : option Z :=
  if length bytes <? len then None else Some (to_int (le_value (firstn len bytes))).

(* checker/snocheck/src/Decode.hs:19-20 read32LE *)
Definition read32LE := readLE 4.

(* checker/snocheck/src/Decode.hs:22-23 read64LE *)
Definition read64LE := readLE 8.

(* checker/snocheck/src/Decode.hs:35 stepCount *)
Definition step_count (proofData : list nat) : option Z := read32LE proofData.

(* checker/snocheck/src/Decode.hs:36-40 stepData *)
Definition step_bytes (proofData : list nat) (step : Z) : option (list nat) :=
  let stepHeader := zdrop (4 + 12 * step) proofData in
  bind (read64LE stepHeader) (fun offset =>
  bind (read32LE (zdrop 8 stepHeader)) (fun len =>
  Some (ztake len (zdrop offset proofData)))).

(* checker/snocheck/src/Decode.hs:61-78 decodeWitnesses; fuel: one tag byte is consumed per round.  The
   Haskell list is lazy, but both checkers force it while they check the step it belongs to. *)
Fixpoint decodeWitnesses_f (fuel : nat) (channels : nat) (bs : list nat) : option (list (option Witness)) :=
  match fuel with
  | 0 => Some []
  | S f =>
      let decodeWitness inv r :=
        let perm := firstn channels r in
        let tail := skipn channels r in
        bind (read32LE tail) (fun id =>
        bind (decodeWitnesses_f f channels (skipn 4 tail)) (fun ws => Some (Some (mkWitness id inv perm) :: ws))) in
      match bs with
      | [] => Some []
      | 0 :: r => decodeWitness false r
      | 1 :: r => decodeWitness true r
      | 2 :: r => bind (decodeWitnesses_f f channels r) (fun ws => Some (None :: ws))
      | _ => None
      end
  end.
(* checker/snocheck/src/Decode.hs:61-78 decodeWitnesses, with fuel for every byte *)
Definition decodeWitnesses (channels : nat) (bs : list nat) := decodeWitnesses_f (S (length bs)) channels bs.

(* checker/snocheck/src/Decode.hs:50 encodedSetLength = bit (max 0 (channels - 3)), bit of a 64 bit Int *)
Definition encodedSetLength (channels : nat) : Z :=
  if (channels - 3 <? 63) then 2 ^ Z.of_nat (channels - 3) else if (channels - 3 =? 63) then - 2 ^ 63 else 0.

(* checker/snocheck/src/Decode.hs:42-59 decodeProofStep *)
Definition decodeProofStep (stepData : list nat) : option RefStep :=
  bind (nth_error stepData 0) (fun channels =>
  bind (nth_error stepData 1) (fun bound =>
  let encodedSetBytes := ztake (encodedSetLength channels) (zdrop 2 stepData) in
  let vectSet := fromBytes channels encodedSetBytes in
  let witnessData := zdrop (encodedSetLength channels + 2) stepData in
  bind (nth_error witnessData 0) (fun kind =>
  bind (match kind with
        | 0 => Some (Huffman false, channels - 1)
        | 1 => Some (Huffman true, channels - 1)
        | 2 => Some (Successors, channels)
        | _ => None
        end) (fun wt =>
  bind (decodeWitnesses (snd wt) (zdrop 1 witnessData)) (fun ws =>
  Some (mkRefStep vectSet bound (fst wt ws))))))).

(* checker/snocheck/src/Decode.hs:28-30 proofSteps: the step function *)
Definition decode_step (proofData : list nat) (step : Z) : option RefStep :=
  bind (step_bytes proofData step) decodeProofStep.

(* what the model uses for a step that cannot be decoded; the runs below are None in that case
   (checker/snocheck/src/Decode.hs:28-30) *)
Definition no_step : RefStep := mkRefStep (mkVectSet 0 []) 0 (Successors []).
(* the decoded step, or the one above (checker/snocheck/src/Decode.hs:28-30) *)
Definition step_or (proofData : list nat) (step : Z) : RefStep :=
  match decode_step proofData step with Some s => s | None => no_step end.

(* every step below count can be decoded: both checkers decode all of them, since each step is checked
   (checker/snocheck/src/Decode.hs:28-30) *)
Definition all_decode (proofData : list nat) (count : Z) : bool :=
  forallb (fun k => match decode_step proofData (Z.of_nat k) with Some _ => true | None => false end)
          (seq 0 (Z.to_nat count)).

(* ---------- Translate.hs ---------- *)

(* checker/snocheck/src/Translate.hs:37-41 translateWitness *)
Definition translateWitness (w : Witness) : Proof_witness :=
  ProofWitness (stepId w) (winvert w) (map Z.of_nat (wperm w)).

(* checker/snocheck/src/Translate.hs:34-35 translateWitnessList *)
Definition translateWitnessList (ws : list (option Witness)) : list (option Proof_witness) :=
  map (option_map translateWitness) ws.

(* checker/snocheck/src/Translate.hs:28-32 translateWitnesses *)
Definition translateWitnesses (w : Witnesses) : Proof_step_witnesses :=
  match w with
  | Huffman pol ws => HuffmanWitnesses pol (translateWitnessList ws)
  | Successors ws => SuccessorWitnesses (translateWitnessList ws)
  end.

(* checker/snocheck/src/Translate.hs:20-26 translateStep *)
Definition translateStep (s : RefStep) : Proof_step :=
  ProofStep (Z.of_nat (vchannels (vectSet s))) (asBoolVectList (vectSet s)) (Z.of_nat (rbound s))
            (translateWitnesses (witnesses s)).

(* checker/snocheck/src/Translate.hs:12-18 translateProofSteps *)
Definition translateProofSteps (stepCount : Z) (steps : Z -> RefStep) : Proof_cert :=
  ProofCert stepCount (fun i => translateStep (steps i)).

(* ---------- Main.hs ---------- *)

(* checker/snocheck/src/Main.hs:18-25 snocheck -v; None: prints Nothing or raises *)
Definition snocheck_v (proofData : list nat) : option (Z * Z) :=
  bind (step_count proofData) (fun count =>
  if all_decode proofData count
  then check_proof_get_bound (translateProofSteps count (step_or proofData))
  else None).

(* checker/snocheck/src/Main.hs:16-17 snocheck -r; None: prints Left or raises.  The step printed last is
   number count - 1, which is not checked when count is 0. *)
Definition snocheck_r (proofData : list nat) : option (nat * nat) :=
  bind (step_count proofData) (fun count =>
  if all_decode proofData count
  then bind (decode_step proofData (count - 1)) (fun _ => checkProof count (step_or proofData))
  else None).

(* ---------- writing the file ---------- *)

(* write_u32, write_u64 of byteorder (library): the low len bytes of v, used at src/proof.rs:174,191,197,198 *)
Fixpoint le_bytes (len : nat) (v : Z) : list nat :=
  match len with
  | 0 => []
  | S k => Z.to_nat (v mod 256) :: le_bytes k (v / 256)
  end.

(* src/proof.rs:194-200 the table of offsets and lengths *)
Fixpoint write_headers (offset : Z) (steps : list (list nat)) : list nat :=
  match steps with
  | [] => []
  | s :: r => le_bytes 8 offset ++ le_bytes 4 (Z.of_nat (length s)) ++ write_headers (offset + Z.of_nat (length s)) r
  end.

(* src/proof.rs:189-205 write_proof *)
Definition write_proof (steps : list (list nat)) : list nat :=
  let count := Z.of_nat (length steps) in
  le_bytes 4 count ++ write_headers (4 + (8 + 4) * count) steps ++ concat steps.
