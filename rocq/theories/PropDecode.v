(* C28, C30, C31 at the level of files. *)
From Coq Require Import List Arith Bool Lia ZArith Sorted.
Import ListNotations.
From Verif Require Import Spec Vec Net Graded Bits Util OutputSetModel OutputSetProofs PackProofs
  VerifiedCheckerModel VerifiedCheckerProofs RefCheckerModel RefCheckerProofs DecodeModel DecodeProofs AgreeProofs PropChecker.

(* ---------- C28 ---------- *)

(* A step as the writer has it: the set, its bound, kind and witnesses. *)
Record entry : Type := mkEntry { eset : OutputSet; ebound : nat; ewits : Witnesses }.

Definition encodes (e : entry) (bytes : list nat) : Prop :=
  exists pk, packed (eset e) = Some pk /\
             bytes = enc_step (channels (eset e)) (ebound e) pk (kind_of (ewits e)) (list_of (ewits e)).

(* sets of the right size and less than 66 channels, permutation lists of the right length, step numbers
   that fit 32 bits *)
Definition entry_ok (e : entry) : Prop :=
  length (bitmap (eset e)) = 2 ^ channels (eset e) /\ channels (eset e) < 66 /\
  forall w, In (Some w) (list_of (ewits e)) ->
    length (wperm w) = match ewits e with Huffman _ _ => channels (eset e) - 1 | Successors _ => channels (eset e) end /\
    (0 <= stepId w < 2 ^ 32)%Z.

Theorem C28_decode_written : forall entries steps,
  Forall2 encodes entries steps -> Forall entry_ok entries ->
  (* the limits of the u32 and u64 fields *)
  (Z.of_nat (length steps) < 2 ^ 32)%Z -> Forall (fun s => (Z.of_nat (length s) < 2 ^ 32)%Z) steps ->
  (Z.of_nat (4 + 12 * length steps + length (concat steps)) < 2 ^ 63)%Z ->
  step_count (write_proof steps) = Some (Z.of_nat (length entries)) /\
  forall i e, nth_error entries i = Some e ->
    exists s, decode_step (write_proof steps) (Z.of_nat i) = Some s /\
      vchannels (vectSet s) = channels (eset e) /\ rbound s = ebound e /\ witnesses s = ewits e /\
      (* the vectors: ascending, and exactly the members of the set *)
      StronglySorted lt (vects (vectSet s)) /\
      forall v, In v (vects (vectSet s)) <-> nth v (bitmap (eset e)) false = true.
Proof.
  intros entries steps E OK F1 F2 F3. assert (FF : file_fits steps) by (split; auto).
  assert (L : length entries = length steps) by (clear -E; induction E; simpl; auto).
  split. { rewrite L. now apply count_written. }
  intros i e Hi. assert (Hl : i < length steps) by (rewrite <- L; apply nth_error_Some; congruence).
  assert (Ee : encodes e (nth i steps [])).
  { clear -E Hi. revert i Hi. induction E as [|a b l m H F IH]; intros [|i] Hi; simpl in *; try discriminate; auto. injection Hi as ->. auto. }
  rewrite Forall_forall in OK. destruct (OK e (nth_error_In _ _ Hi)) as (W & C & Ws).
  destruct Ee as (pk & P & Eb). unfold decode_step. rewrite step_written by auto. cbn [bind]. rewrite Eb.
  rewrite decode_encoded; auto.
  - eexists. split; [reflexivity|]. cbn. split; auto. split; auto. split; auto. split. apply members_asc.
    intros v. unfold members. rewrite filter_In, in_seq. split; [tauto|]. intros H. split; auto. split; [lia|].
    destruct (lt_dec v (2 ^ channels (eset e))) as [|G]; [lia|]. rewrite nth_overflow in H; [discriminate|]. rewrite W. lia.
  - apply Forall_forall. intros [w|] Hw; simpl; auto.
Qed.
Print Assumptions C28_decode_written.

(* a certificate with two steps *)
Definition ex_entries : list entry :=
  [mkEntry (all_values 3) 3 (Successors [None; None; Some (mkWitness 0 true [2; 0; 1])]);
   mkEntry (all_values 4) 5 (Huffman true [Some (mkWitness 0 false [0; 1; 2]); None; None; None])].
Definition ex_steps : list (list nat) :=
  [[3; 3; 255; 2; 2; 2; 1; 2; 0; 1; 0; 0; 0; 0]; [4; 5; 255; 255; 1; 0; 0; 1; 2; 0; 0; 0; 0; 2; 2; 2]].

Example C28_nonvacuous : Forall2 encodes ex_entries ex_steps /\ Forall entry_ok ex_entries.
Proof.
  split.
  - repeat constructor; eexists; split; reflexivity.
  - apply Forall_forall. intros e [<-|[<-|[]]]; (split; [reflexivity|split; [cbn; lia|]]); intros w Hw; cbn in Hw;
      repeat (destruct Hw as [Hw|Hw]; [try discriminate; injection Hw as <-; cbn; split; auto; lia|]); easy.
Qed.

Example C28_decoded : decode_step (write_proof ex_steps) 1 =
  Some (mkRefStep (mkVectSet 4 (seq 0 16)) 5 (Huffman true [Some (mkWitness 0 false [0; 1; 2]); None; None; None])).
Proof. vm_compute. reflexivity. Qed.

(* ---------- C30 for files ---------- *)

Theorem C30_snocheck_v_sound : forall file n b, snocheck_v file = Some (n, b) ->
  forall net, sorting_network (Z.to_nat n) net -> (b <= Z.of_nat (length net))%Z.
Proof.
  intros file n b H. unfold snocheck_v in H. destruct (step_count file) as [c|]; [|discriminate]. cbn [bind] in H.
  destruct (all_decode file c); [|discriminate]. exact (C30_verified_checker_sound _ n b H).
Qed.
Print Assumptions C30_snocheck_v_sound.

Definition file3 : list nat := write_proof
  [[3; 3; 255; 0; 2; 2; 2]; [4; 5; 255; 255; 0; 0; 0; 1; 2; 0; 0; 0; 0; 0; 0; 1; 2; 0; 0; 0; 0; 0; 0; 1; 2; 0; 0; 0; 0; 0; 0; 1; 2; 0; 0; 0; 0]].

Example C30_file_accepted : snocheck_v file3 = Some (4, 5)%Z /\ snocheck_r file3 = Some (4, 5).
Proof. vm_compute. auto. Qed.

(* ---------- C31 for files ---------- *)

(* The steps of the file have at least 3 channels (below that a set byte has unused bits) and every
   permutation list is one. *)
Definition perms_checked (file : list nat) (count : Z) : Prop :=
  forall i s, (0 <= i < count)%Z -> decode_step file i = Some s ->
    3 <= vchannels (vectSet s) < 66 /\
    match witnesses s with
    | Huffman _ ws => forall w, In (Some w) ws -> is_perm (vchannels (vectSet s) - 1) (wperm w)
    | Successors ws => forall w, In (Some w) ws -> is_perm (vchannels (vectSet s)) (wperm w)
    end.

Lemma decoded_wf file i s : decode_step file i = Some s -> 3 <= vchannels (vectSet s) < 66 ->
  exists bytes, vectSet s = fromBytes (vchannels (vectSet s)) bytes /\ 8 * length bytes <= 2 ^ vchannels (vectSet s).
Proof.
  intros H Hc. unfold decode_step in H. destruct (step_bytes file i) as [sd|]; [|discriminate]. cbn [bind] in H.
  unfold decodeProofStep in H. destruct (nth_error sd 0) as [c|]; [|discriminate]. cbn [bind] in H.
  destruct (nth_error sd 1) as [b|]; [|discriminate]. cbn [bind] in H. cbv zeta in H.
  destruct (nth_error (zdrop (encodedSetLength c + 2) sd) 0) as [k|]; [|discriminate]. cbn [bind] in H.
  match type of H with bind ?m _ = _ => destruct m as [wt|]; [|discriminate] end. cbn [bind] in H.
  match type of H with bind ?m _ = _ => destruct m as [ws|]; [|discriminate] end. cbn [bind] in H.
  injection H as <-. cbn [vectSet vchannels fromBytes] in *. eexists. split; [reflexivity|].
  unfold encodedSetLength. replace (c - 3 <? 63) with true by (symmetry; apply Nat.ltb_lt; lia).
  rewrite <- packed_len_pow, ztake_firstn.
  pose proof (firstn_le_length (packed_len_for_channels c) (zdrop 2 sd)) as L.
  assert (E : 2 ^ c = 8 * 2 ^ (c - 3)). { replace c with (3 + (c - 3)) at 1 by lia. rewrite Nat.pow_add_r. reflexivity. }
  assert (P : packed_len_for_channels c = 2 ^ (c - 3)).
  { unfold packed_len_for_channels. rewrite E. symmetry. apply Nat.div_unique with (r := 7); lia. }
  rewrite P in *. rewrite E. apply Nat.mul_le_mono_l. rewrite firstn_length. lia.
Qed.

Lemma file_wf file count : perms_checked file count -> all_decode file count = true ->
  forall i, (0 <= i < count)%Z -> rstep_wf (step_or file i).
Proof.
  intros P A i Hi. unfold all_decode in A. rewrite forallb_forall in A. specialize (A (Z.to_nat i)).
  rewrite Z2Nat.id in A by lia. specialize (A ltac:(apply in_seq; lia)). unfold step_or.
  destruct (decode_step file i) as [s|] eqn:E; [|discriminate]. destruct (P i s Hi E) as (C & Q). split.
  - destruct (decoded_wf file i s E C) as (bytes & -> & L). cbn [fromBytes vchannels] in L. apply fromBytes_rwf. exact L.
  - destruct (witnesses s); apply Forall_forall; intros [w|] Hw; simpl; auto.
Qed.

Theorem C31_snocheck_r_sound_wellformed : forall file count n b,
  step_count file = Some count -> (0 < count)%Z -> perms_checked file count ->
  snocheck_r file = Some (n, b) -> forall net, sorting_network n net -> b <= length net.
Proof.
  intros file count n b Hc P PC H. unfold snocheck_r in H. rewrite Hc in H. cbn [bind] in H.
  destruct (all_decode file count) eqn:A; [|discriminate]. destruct (decode_step file (count - 1)); [|discriminate]. cbn [bind] in H.
  apply lower_size_all. apply (checkProof_sound count (step_or file) n b P H). now apply file_wf.
Qed.
Print Assumptions C31_snocheck_r_sound_wellformed.

(* On such files, if also no bound byte is 0, the two checkers give the same answer. *)
Theorem C31_checkers_agree : forall file count,
  step_count file = Some count -> (0 < count)%Z -> perms_checked file count ->
  (forall i s, (0 <= i < count)%Z -> decode_step file i = Some s -> rbound s <> 0) ->
  snocheck_v file = option_map (fun r => (Z.of_nat (fst r), Z.of_nat (snd r))) (snocheck_r file).
Proof.
  intros file count Hc P PC B. unfold snocheck_v, snocheck_r. rewrite Hc. cbn [bind].
  destruct (all_decode file count) eqn:A; auto.
  assert (D : forall i, (0 <= i < count)%Z -> exists s, decode_step file i = Some s).
  { intros i Hi. unfold all_decode in A. rewrite forallb_forall in A. specialize (A (Z.to_nat i)).
    rewrite Z2Nat.id in A by lia. specialize (A ltac:(apply in_seq; lia)). destruct (decode_step file i); [eauto|discriminate]. }
  destruct (D (count - 1)%Z) as (s & ->); [lia|]. cbn [bind]. rewrite checkers_agree.
  - apply Z.ltb_lt in P. now rewrite P.
  - now apply file_wf.
  - intros i Hi. unfold step_or. destruct (D i Hi) as (t & E). rewrite E. now apply (B i).
Qed.
Print Assumptions C31_checkers_agree.

Example C31_file_hypotheses : step_count file3 = Some 2%Z /\ perms_checked file3 2 /\
  (forall i s, (0 <= i < 2)%Z -> decode_step file3 i = Some s -> rbound s <> 0).
Proof.
  split. vm_compute; auto.
  split; intros i s Hi E; assert (i = 0 \/ i = 1)%Z as [-> | ->] by lia; vm_compute in E; injection E as <-; cbn.
  - split. lia. intros w Hw. repeat (destruct Hw as [Hw|Hw]; [discriminate|]). easy.
  - split. lia. intros w Hw. assert (Hp : wperm w = [0; 1; 2]).
    { repeat (destruct Hw as [Hw|Hw]; [injection Hw as <-; reflexivity|]). easy. }
    rewrite Hp. apply (is_perm_id 3).
  - discriminate.
  - discriminate.
Qed.

(* Without the bound of 3 channels or the permutation test, a file makes "snocheck -r" accept a false bound. *)
Theorem C31_snocheck_r_refuted : exists file n b net,
  snocheck_r file = Some (n, b) /\ sorting_network n net /\ length net < b /\ snocheck_v file = None.
Proof.
  exists (write_proof [[2; 255; 221; 2]]), 2, 255, [(0, 1)]. split. vm_compute; auto. split. apply sorts2.
  split. simpl; lia. vm_compute; auto.
Qed.
Print Assumptions C31_snocheck_r_refuted.

Theorem C31_snocheck_r_perm_refuted : exists file n b net,
  (forall i s, decode_step file i = Some s -> (0 <= i < 2)%Z -> 3 <= vchannels (vectSet s)) /\
  snocheck_r file = Some (n, b) /\ sorting_network n net /\ length net < b /\ snocheck_v file = None.
Proof.
  exists (write_proof [[3; 3; 255; 0; 2; 2; 2]; [3; 4; 255; 2; 0; 0; 0; 0; 0; 0; 0; 0; 0; 0; 0; 0; 0; 0; 0; 0; 0; 0; 0; 0; 0; 0; 0; 0]]), 3, 4, [(0, 1); (1, 2); (0, 1)].
  split. { intros i s E Hi. assert (i = 0 \/ i = 1)%Z as [-> | ->] by lia; vm_compute in E; injection E as <-; cbn; lia. }
  split. vm_compute; auto. split.
  - apply zero_one. split. repeat constructor; simpl; lia.
    intros x L. destruct x as [|a [|b [|c [|d x]]]]; try discriminate.
    intros i j Hij Hj. destruct a, b, c; destruct i as [|[|[|i]]], j as [|[|[|j]]]; simpl in *; try lia; auto.
  - split. simpl; lia. vm_compute; auto.
Qed.
Print Assumptions C31_snocheck_r_perm_refuted.
