(* Property C49: canonicalization with checked accesses, vectors of fixed capacity and scratch fields. *)
From Coq Require Import List Arith Bool Lia Permutation.
Import ListNotations.
From Verif Require Import Spec Vec Net Bits Util OutputSetModel OutputSetProofs CountProofs PropOutputSet
  SubsumeModel MachineModel CanonModel CanonArenaModel CanonArenaProofs CanonMachModel CanonMachProofs PropCanon PropArena.

(* no check fails: the run returns, and it returns what the run on values returns *)
Theorem C49_checked_same_result : forall hash s inversion, wf s -> channels s <= MAX_CHANNELS ->
  exists r, mach_canonicalize hash s inversion = Some r /\ canonicalize hash s inversion = Some r.
Proof.
  intros hash s inversion W M. destruct (mach_refines hash s inversion W M) as (E & N). rewrite E.
  destruct (canonicalize hash s inversion) as [r|]; [eauto|congruence].
Qed.
Print Assumptions C49_checked_same_result.

(* the returned set is the given one relabelled by the returned permutation *)
Theorem C49_checked_isomorphic : forall hash s inversion, wf s -> channels s <= MAX_CHANNELS ->
  exists t invert p, mach_canonicalize hash s inversion = Some (t, (invert, p)) /\
    wf t /\ channels t = channels s /\ is_perm (channels s) p /\ isomorphic_by invert p (vs s) (vs t) /\
    (invert = true -> inversion = true).
Proof. intros hash s inversion W M. rewrite (proj1 (mach_refines hash s inversion W M)). apply C06_canonicalize_isomorphic; auto. Qed.
Print Assumptions C49_checked_isomorphic.

(* isomorphic sets get the same set *)
Theorem C49_checked_canonical : forall hash s t inversion z p, wf s -> wf t -> channels t = channels s ->
  channels s <= MAX_CHANNELS -> is_perm (channels s) p -> isomorphic_by z p (vs s) (vs t) -> (z = true -> inversion = true) ->
  exists u rs rt, mach_canonicalize hash s inversion = Some (u, rs) /\ mach_canonicalize hash t inversion = Some (u, rt).
Proof.
  intros hash s t inversion z p Ws Wt Ec M P I Z. destruct (C42_arena_canonical hash s t inversion z p Ws Wt Ec M P I Z) as (u & rs & rt & A & B).
  exists u, rs, rt. rewrite (proj1 (mach_refines hash s inversion Ws M)), (proj1 (mach_refines hash t inversion Wt ltac:(lia))), <- !arena_refines; auto.
Qed.
Print Assumptions C49_checked_canonical.

(* more channels than a vector holds are refused *)
Theorem C49_too_many_channels : forall hash s inversion, MAX_CHANNELS < channels s -> mach_canonicalize hash s inversion = None.
Proof.
  intros hash s inversion M. unfold mach_canonicalize. destruct (Nat.eqb_spec (channels s) 0) as [E|_]; [unfold MAX_CHANNELS in M; lia|].
  unfold mach_new. cbv zeta. unfold collect. rewrite seq_length. replace (channels s <=? CVEC) with false; auto.
  symmetry. apply Nat.leb_gt. exact M.
Qed.
Print Assumptions C49_too_many_channels.

(* can_b needs all steps: both orientations, individualization and refinement.  arena_c with a hash
   function that distinguishes nothing *)
Example C49_case : wf can_b /\ channels can_b <= MAX_CHANNELS /\
  option_map snd (mach_canonicalize hash_mix can_b true) = Some (true, [2; 0; 4; 3; 1]) /\
  option_map snd (mach_canonicalize hash_mix can_b false) = Some (false, [4; 0; 2; 3; 1]) /\
  mach_canonicalize hash_const arena_c true = canonicalize hash_const arena_c true.
Proof.
  split. exact can_b_wf. split. unfold MAX_CHANNELS. vm_compute. repeat constructor. split; [|split].
  - rewrite (proj1 (mach_refines hash_mix can_b true can_b_wf ltac:(unfold MAX_CHANNELS; vm_compute; repeat constructor))). apply C06_case.
  - rewrite (proj1 (mach_refines hash_mix can_b false can_b_wf ltac:(unfold MAX_CHANNELS; vm_compute; repeat constructor))). apply C06_case.
  - vm_compute. reflexivity.
Qed.

(* the checks can fail: a channel below the fixed ones, a shift by 16, a full vector, an empty part *)
Example C49_case_checks :
  low_channel_fingerprint_m hash_mix can_a 2 1 [] = None /\ swap_parts_m 16 0 [] = None /\
  cut_m (repeat (0, 0) 11) [] 0 [(0, 0)] = None /\ cut_m [] [] 0 [] = None /\
  (exists b, low_fingerprint_m hash_mix can_a 2 [1; 2; 3] = Some (low_channels_fingerprint hash_mix can_a 2, b)).
Proof. repeat (split; [vm_compute; reflexivity|]). eexists. vm_compute. reflexivity. Qed.

(* and the hypotheses of C49_too_many_channels are met *)
Example C49_case_many : MAX_CHANNELS < channels (all_values 12) /\ wf (all_values 12).
Proof. split. unfold MAX_CHANNELS. vm_compute. repeat constructor. unfold wf, all_values. cbn [channels bitmap]. apply repeat_length. Qed.
