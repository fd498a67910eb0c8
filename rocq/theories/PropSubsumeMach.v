(* Property C46: the subsumption search with its fixed vectors, 16-bit masks and scratch buffer
   (subsume.rs) never reads, writes or pushes out of range and finds what the search on plain lists
   finds. *)
From Coq Require Import List Arith Bool Lia Permutation.
Import ListNotations.
From Verif Require Import Spec Vec Net Bits Util OutputSetModel OutputSetProofs CountProofs PropOutputSet
  AbsProofs AbsFull SubsumeModel SubsumeProofs SubsumeSearch MachineModel MachineProofs
  SubsumeMachModel SubsumeMachProofs PropSubsume.

(* [None] is a panic here: an index out of range, a push over a capacity, a shift or difference that
   overflows.  There is none; the answer is right *)
Theorem C46_checked_search_right : forall a b, wf a -> wf b -> channels a = channels b -> channels a <= MAX_CHANNELS ->
  exists res, subsumes_permuted_c a b = Some res /\
    match res with
    | Some p => is_perm (channels a) p /\ subsumes_by false p (vs a) (vs b)
    | None => forall p, is_perm (channels a) p -> ~ subsumes_by false p (vs a) (vs b)
    end.
Proof.
  intros a b Wa Wb C M. destruct (C09_subsumes_permuted_complete a b Wa Wb C M) as (res & E & R).
  exists res. rewrite subsumes_permuted_ok by auto. split; auto. destruct res as [p|].
  - apply (C08_subsumes_permuted_sound a b p); auto.
  - intros p P S. now apply (R p P S).
Qed.
Print Assumptions C46_checked_search_right.

(* the same answer, permutation included, as the search on plain lists that C08 to C12 are about; the
   assertion on the channels is checked on both sides *)
Theorem C46_checked_search_same : forall a b, wf a -> wf b -> channels a <= MAX_CHANNELS ->
  subsumes_permuted_c a b = subsumes_permuted a b /\
  (channels a <> channels b -> subsumes_permuted_c a b = None).
Proof.
  intros a b Wa Wb M. split. now apply subsumes_permuted_ok.
  intros D. rewrite subsumes_permuted_ok by auto. unfold subsumes_permuted, subsume_new. cbn [fst snd].
  destruct (Nat.eqb_spec (channels a) (channels b)); [contradiction|reflexivity].
Qed.
Print Assumptions C46_checked_search_same.

(* the scratch buffer is never read before it is written: whatever it holds at the start, and however
   long it is, the answer is the same *)
Theorem C46_buffer_contents_irrelevant : forall a b z buffer fuel, wf a -> wf b -> channels a <= MAX_CHANNELS ->
  subsume_new_c (a, b) = Some z ->
  option_map fst (search_c fuel (mkSubsumeB (b_st z) buffer)) = option_map fst (search_c fuel z).
Proof.
  intros a b z buffer fuel Wa Wb M E.
  assert (Sh : Shape (channels a) (b_st z)) by (eapply subsume_new_shape; eauto).
  destruct (search_ok (channels a) M fuel z Sh) as (E1 & _).
  destruct (search_ok (channels a) M fuel (mkSubsumeB (b_st z) buffer) Sh) as (E2 & _). cbn [b_st] in E2. rewrite <- E1 in E2.
  destruct (search_c fuel (mkSubsumeB (b_st z) buffer)) as [(r, y)|], (search_c fuel z) as [(r', y')|]; cbn [option_map fst snd] in *;
    congruence.
Qed.
Print Assumptions C46_buffer_contents_irrelevant.

(* a pair that is found, a pair that is not, and the search from a buffer with old contents *)
Definition sub_x : OutputSet := fst (apply_comparator (all_values 2) 1 0).
Definition sub_y : OutputSet := fst (apply_comparator (all_values 2) 0 1).

Example C46_case : wf sub_x /\ wf sub_y /\ channels sub_x = channels sub_y /\ channels sub_x <= MAX_CHANNELS /\
  channels sub_a = 4 /\ subsumes_permuted sub_a sub_b = Some (Some [0; 2; 1; 3]) /\ subsumes_permuted sub_b sub_a = Some None.
Proof. unfold wf, MAX_CHANNELS. vm_compute. repeat split; repeat constructor. Qed.

Example C46_case_checked : subsumes_permuted_c sub_a sub_b = Some (Some [0; 2; 1; 3]) /\ subsumes_permuted_c sub_b sub_a = Some None /\
  subsumes_permuted_c sub_x sub_y = Some (Some [1; 0]) /\ subsumes_permuted_c sub_x sub_a = None.
Proof.
  destruct C08_case as (W1 & W2 & C & M & _). destruct C46_case as (X1 & X2 & XC & XM & _ & E1 & E2).
  assert (M2 : channels sub_b <= MAX_CHANNELS) by now rewrite <- C.
  split; [|split; [|split]].
  - rewrite (proj1 (C46_checked_search_same sub_a sub_b W1 W2 M)). exact E1.
  - rewrite (proj1 (C46_checked_search_same sub_b sub_a W2 W1 M2)). exact E2.
  - rewrite (proj1 (C46_checked_search_same sub_x sub_y X1 X2 XM)). vm_compute. reflexivity.
  - apply (proj2 (C46_checked_search_same sub_x sub_a X1 W1 XM)). vm_compute. discriminate.
Qed.

(* the checks are there: a look at a channel that is not there panics, and so do a shift by 16 and
   a split of a buffer that is too short *)
Example C46_case_checks : exists z, subsume_new_c (sub_x, sub_y) = Some z /\ mask_c (b_st z) false 1 = Some 3 /\
  mask_c (b_st z) false 2 = None /\ shl16 16 = None /\ split_at_c [1; 2] 3 = None.
Proof.
  destruct (subsume_new_c (sub_x, sub_y)) as [z|] eqn:E; [|vm_compute in E; discriminate].
  exists z. split; [reflexivity|]. vm_compute in E. injection E as <-. repeat split.
Qed.
