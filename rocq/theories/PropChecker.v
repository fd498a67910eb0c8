(* C30, C31: the two proof checkers. *)
From Coq Require Import List Arith Bool Lia ZArith Sorted.
Import ListNotations.
From Verif Require Import Spec Net Graded VerifiedCheckerModel VerifiedCheckerProofs RefCheckerModel RefCheckerProofs.

(* ---------- C30: the verified checker ---------- *)

(* No assumption on the certificate. *)
Theorem C30_verified_checker_sound : forall cert n b, check_proof_get_bound cert = Some (n, b) ->
  forall net, sorting_network (Z.to_nat n) net -> (b <= Z.of_nat (length net))%Z.
Proof.
  intros cert n b H net S. apply check_proof_get_bound_sound in H. rewrite lower_size_all in H.
  specialize (H net S). lia.
Qed.
Print Assumptions C30_verified_checker_sound.

(* Every accepted step is right, not only the last one. *)
Theorem C30_accepted_steps_sound : forall cert n b, check_proof_get_bound cert = Some (n, b) ->
  forall i, (0 <= i < cert_length cert)%Z ->
  forall net, finishes (Z.to_nat (step_width (cert_step cert i))) (fun x => In x (step_vect_list (cert_step cert i))) net ->
  (step_bound (cert_step cert i) <= Z.of_nat (length net))%Z.
Proof.
  intros cert n b H i Hi net F. destruct (check_proof_sound cert n b H i Hi) as (_ & _ & L).
  specialize (L net F). unfold sb in L. lia.
Qed.
Print Assumptions C30_accepted_steps_sound.

(* A certificate for "four channels need five comparators" is accepted. *)
Fixpoint all_vectors (n : nat) : list (list bool) :=
  match n with
  | 0 => [[]]
  | S k => map (cons false) (all_vectors k) ++ map (cons true) (all_vectors k)
  end.

Definition cert4 : Proof_cert :=
  let w0 := Some (ProofWitness 0 false [0; 1]%Z) in
  let w1 := Some (ProofWitness 1 false [0; 1; 2]%Z) in
  ProofCert 3 (fun i =>
    if (i =? 0)%Z then ProofStep 2 (all_vectors 2) 1 (SuccessorWitnesses [None])
    else if (i =? 1)%Z then ProofStep 3 (all_vectors 3) 3 (HuffmanWitnesses false [w0; w0; w0])
    else ProofStep 4 (all_vectors 4) 5 (HuffmanWitnesses false [w1; w1; w1; w1])).

Example C30_accepts : check_proof_get_bound cert4 = Some (4, 5)%Z.
Proof. vm_compute. reflexivity. Qed.

Example C30_five : forall net, sorting_network 4 net -> 5 <= length net.
Proof. intros net S. pose proof (C30_verified_checker_sound _ _ _ C30_accepts net S). lia. Qed.

(* ---------- C31: the reference checker ---------- *)

(* a certificate whose witness lists are permutations and whose sets hold vectors of their width only *)
Definition well_formed_step (s : RefStep) : Prop :=
  StronglySorted lt (vects (vectSet s)) /\
  (forall v, In v (vects (vectSet s)) -> v < 2 ^ vchannels (vectSet s)) /\
  match witnesses s with
  | Huffman _ ws => forall w, In (Some w) ws -> is_perm (vchannels (vectSet s) - 1) (wperm w)
  | Successors ws => forall w, In (Some w) ws -> is_perm (vchannels (vectSet s)) (wperm w)
  end.

Lemma well_formed_rstep s : well_formed_step s -> rstep_wf s.
Proof.
  intros (A & B & C). split. split; auto. now apply Forall_forall.
  destruct (witnesses s); apply Forall_forall; intros [w|] Hw; simpl; auto.
Qed.

Theorem C31_reference_sound_wellformed : forall stepCount stepFn n b, (0 < stepCount)%Z ->
  (forall i, (0 <= i < stepCount)%Z -> well_formed_step (stepFn i)) ->
  checkProof stepCount stepFn = Some (n, b) ->
  forall net, sorting_network n net -> b <= length net.
Proof.
  intros k f n b P W H. apply lower_size_all. apply (checkProof_sound k f n b P H).
  intros i Hi. now apply well_formed_rstep, W.
Qed.
Print Assumptions C31_reference_sound_wellformed.

Definition rcert4 (i : Z) : RefStep :=
  let w0 := Some (mkWitness 0 false [0; 1]) in
  let w1 := Some (mkWitness 1 false [0; 1; 2]) in
  if (i =? 0)%Z then mkRefStep (mkVectSet 2 (seq 0 4)) 1 (Successors [None])
  else if (i =? 1)%Z then mkRefStep (mkVectSet 3 (seq 0 8)) 3 (Huffman false [w0; w0; w0])
  else mkRefStep (mkVectSet 4 (seq 0 16)) 5 (Huffman false [w1; w1; w1; w1]).

Lemma seq_sorted n : forall a, StronglySorted lt (seq a n).
Proof.
  induction n; intros a; simpl; constructor; auto. apply Forall_forall. intros x Hx. apply in_seq in Hx. lia.
Qed.

Example C31_accepts : checkProof 3 rcert4 = Some (4, 5).
Proof. vm_compute. reflexivity. Qed.

Example C31_wellformed : forall i, (0 <= i < 3)%Z -> well_formed_step (rcert4 i).
Proof.
  intros i Hi. assert (i = 0 \/ i = 1 \/ i = 2)%Z as [-> | [-> | ->]] by lia; unfold rcert4; cbn -[seq].
  - split; [apply seq_sorted|]. split. intros v Hv; apply in_seq in Hv; simpl; lia. intros w [E|[]]. discriminate.
  - split; [apply seq_sorted|]. split. intros v Hv; apply in_seq in Hv; simpl; lia.
    intros w Hw. assert (E : Some (mkWitness 0 false [0; 1]) = Some w) by (simpl in Hw; tauto). injection E as <-.
    apply Vec.is_perm_id with (n := 2).
  - split; [apply seq_sorted|]. split. intros v Hv; apply in_seq in Hv; simpl; lia.
    intros w Hw. assert (E : Some (mkWitness 1 false [0; 1; 2]) = Some w) by (simpl in Hw; tauto). injection E as <-.
    apply Vec.is_perm_id with (n := 3).
Qed.

(* Each of the three hypotheses is needed: without it the checker accepts a false bound. *)

Lemma sorts2 : sorting_network 2 [(0, 1)].
Proof.
  apply zero_one. split.
  - repeat constructor; simpl; lia.
  - intros x L. destruct x as [|a [|b [|c x]]]; try discriminate.
    intros i j Hij Hj. destruct a, b; destruct i as [|[|i]], j as [|[|j]]; simpl in *; try lia; auto.
Qed.

(* The claim without any hypothesis, as the usage text of "snocheck -r" suggests. *)
Definition reference_checker_sound : Prop := forall stepCount stepFn n b,
  checkProof stepCount stepFn = Some (n, b) -> forall net, sorting_network n net -> b <= length net.

(* a witness list that is no permutation: both channels are copied from channel 0 *)
Definition bad_perm (i : Z) : RefStep :=
  if (i =? 0)%Z then mkRefStep (mkVectSet 2 [0; 1; 2; 3]) 1 (Successors [None])
  else mkRefStep (mkVectSet 2 [0; 1; 2; 3]) 2 (Successors [Some (mkWitness 0 false [0; 0])]).

Theorem C31_reference_unchecked_perm_refuted : exists stepCount stepFn n b net,
  (0 < stepCount)%Z /\
  (forall i, (0 <= i < stepCount)%Z -> StronglySorted lt (vects (vectSet (stepFn i))) /\
     (forall v, In v (vects (vectSet (stepFn i))) -> v < 2 ^ vchannels (vectSet (stepFn i)))) /\
  checkProof stepCount stepFn = Some (n, b) /\ sorting_network n net /\ length net < b.
Proof.
  exists 2%Z, bad_perm, 2, 2, [(0, 1)]. split; [lia|]. split.
  - intros i Hi. assert (i = 0 \/ i = 1)%Z as [-> | ->] by lia; cbn -[Nat.pow];
      (split; [apply (seq_sorted 4 0)|]); intros v Hv; simpl in Hv |- *; lia.
  - split. vm_compute; reflexivity. split. apply sorts2. simpl. lia.
Qed.
Print Assumptions C31_reference_unchecked_perm_refuted.

(* bits of the set byte past 2^channels are read as vectors *)
Definition bad_padding (i : Z) : RefStep := mkRefStep (mkVectSet 2 [0; 2; 3; 4; 6; 7]) 255 (Successors []).

Theorem C31_reference_padding_refuted : exists stepCount stepFn n b net,
  (0 < stepCount)%Z /\
  (forall i, (0 <= i < stepCount)%Z -> StronglySorted lt (vects (vectSet (stepFn i))) /\
     match witnesses (stepFn i) with
     | Huffman _ ws => forall w, In (Some w) ws -> is_perm (vchannels (vectSet (stepFn i)) - 1) (wperm w)
     | Successors ws => forall w, In (Some w) ws -> is_perm (vchannels (vectSet (stepFn i))) (wperm w)
     end) /\
  checkProof stepCount stepFn = Some (n, b) /\ sorting_network n net /\ length net < b.
Proof.
  exists 1%Z, bad_padding, 2, 255, [(0, 1)]. split; [lia|]. split.
  - intros i Hi. cbn -[Nat.pow]. split; [|easy]. repeat (constructor; [|repeat (constructor; [lia|]); constructor]). constructor.
  - split. vm_compute; reflexivity. split. apply sorts2. simpl. lia.
Qed.
Print Assumptions C31_reference_padding_refuted.

(* an empty certificate *)
Theorem C31_reference_empty_refuted : exists stepFn n b net,
  checkProof 0 stepFn = Some (n, b) /\ sorting_network n net /\ length net < b.
Proof.
  exists (fun _ => mkRefStep (mkVectSet 2 []) 255 (Successors [])), 2, 255, [(0, 1)].
  split. vm_compute; reflexivity. split. apply sorts2. simpl. lia.
Qed.
Print Assumptions C31_reference_empty_refuted.

Theorem C31_reference_sound_refuted : ~ reference_checker_sound.
Proof.
  intros H. destruct C31_reference_unchecked_perm_refuted as (k & f & n & b & net & _ & _ & E & S & L).
  specialize (H k f n b E net S). lia.
Qed.
Print Assumptions C31_reference_sound_refuted.

(* The verified checker rejects the first two certificates. *)
Example C30_rejects_bad_perm : check_proof_get_bound (ProofCert 2 (fun i =>
   if (i =? 0)%Z then ProofStep 2 (all_vectors 2) 1 (SuccessorWitnesses [None])
   else ProofStep 2 (all_vectors 2) 2 (SuccessorWitnesses [Some (ProofWitness 0 false [0; 0]%Z)]))) = None.
Proof. vm_compute. reflexivity. Qed.
