(* Properties of the set operations of output_set.rs (C01-C05, C36, C37).  Statements only: the proofs
   are in OutputSetProofs.v, PruneProofs.v, PackProofs.v, CountProofs.v, Net.v and Graded.v.
   [vs s] is the set of 0/1 vectors whose position in the bitmap of s is true; [wf s] says that the
   bitmap has 2^channels entries, which every constructor in the code establishes. *)
From Coq Require Import List Arith Bool Lia Permutation.
Import ListNotations.
From Verif Require Import Spec Vec Net Graded Bits Util OutputSetModel OutputSetProofs PruneProofs
  PackProofs CountProofs.

(* A non-trivial set used in the examples: the outputs on 4 channels after the comparators
   (0,1) and (2,3). *)
Definition ex4 : OutputSet := fst (apply_comparator (fst (apply_comparator (all_values 4) 1 0)) 3 2).

Example ex4_members : filter (bget (bitmap ex4)) (seq 0 16) = [0; 2; 3; 8; 10; 11; 12; 14; 15].
Proof. vm_compute. reflexivity. Qed.

(* C01 *)
Theorem C01_apply_comparator : forall s a b, wf s -> a < channels s -> b < channels s -> a <> b ->
  let r := apply_comparator s a b in
  wf (fst r) /\ channels (fst r) = channels s /\
  same_set (vs (fst r)) (image (exch (b, a)) (vs s)) /\
  (snd r = true <-> (exists x, vs s x /\ bit x a = true /\ bit x b = false) /\
                    (exists y, vs s y /\ bit y a = false /\ bit y b = true)).
Proof.
  intros s a b W Ha Hb Hne r. split. now apply apply_comparator_wf.
  split. apply apply_comparator_channels. split. now apply apply_comparator_vs.
  unfold r. rewrite apply_comparator_flag by auto. unfold nonredundant, out_of_order, in_order; simpl.
  split; intros [(x & ? & ? & ?) (y & ? & ? & ?)]; split; eauto.
Qed.
Print Assumptions C01_apply_comparator.

Example C01_case : wf ex4 /\ 2 < channels ex4 /\ 1 < channels ex4 /\ snd (apply_comparator ex4 2 1) = true.
Proof. vm_compute. repeat split; repeat constructor. Qed.
Example C01_case_redundant : snd (apply_comparator ex4 1 0) = false /\ fst (apply_comparator ex4 1 0) = ex4.
Proof. vm_compute. auto. Qed.

(* C02 *)
Theorem C02_swap_channels : forall s a b, wf s -> a < channels s -> b < channels s ->
  let r := swap_channels s a b in
  wf r /\ channels r = channels s /\
  (forall x, length x = channels s ->
     (vs r x <-> vs s (map (fun i => bit x (if i =? a then b else if i =? b then a else i)) (seq 0 (channels s))))) /\
  swap_channels r a b = s.
Proof.
  intros s a b W Ha Hb r. split. now apply swap_channels_wf. split. apply swap_channels_channels.
  split. 2: now apply swap_channels_involutive.
  intros x L. replace (map _ (seq 0 (channels s))) with (swapv a b x).
  - rewrite <- (swapv_invol (channels s) a b x) at 1 by auto. apply swap_channels_mem; auto. now rewrite swapv_length.
  - apply vec_ext. now rewrite swapv_length, map_length, seq_length.
    rewrite swapv_length. intros i Hi. rewrite bit_swapv by lia. unfold bit at 2. rewrite nth_map_seq by lia. reflexivity.
Qed.
Print Assumptions C02_swap_channels.

Theorem C02_invert : forall s, wf s ->
  wf (invert s) /\ channels (invert s) = channels s /\
  same_set (vs (invert s)) (image complement (vs s)) /\ invert (invert s) = s.
Proof.
  intros s W. split. now apply invert_wf. split; auto. split. now apply invert_vs. apply invert_involutive.
Qed.
Print Assumptions C02_invert.

Example C02_case : swap_channels ex4 1 2 <> ex4 /\ invert ex4 <> ex4 /\ swap_channels ex4 3 3 = ex4.
Proof. vm_compute. split; [discriminate|]. split; [discriminate|reflexivity]. Qed.

(* C03 *)
Theorem C03_is_sorted : forall s, wf s -> (is_sorted s = true <-> one_per_weight (vs s)).
Proof. exact is_sorted_spec. Qed.
Print Assumptions C03_is_sorted.

Theorem C03_is_sorted_network : forall s, wf s -> derived (channels s) (vs s) ->
  (is_sorted s = true <->
   exists p, is_perm (channels s) p /\ forall x, vs s x -> sorted (permute p x)).
Proof.
  intros s W D. rewrite is_sorted_spec by auto. apply one_per_weight_iff. now apply derived_graded.
Qed.
Print Assumptions C03_is_sorted_network.

Lemma ex4_derived : derived 4 (vs ex4).
Proof.
  eapply derived_exch with (c := (2, 3)).
  - eapply derived_exch with (c := (0, 1)).
    + apply derived_all. apply (all_values_vs 4).
    + repeat split; simpl; lia.
    + apply (apply_comparator_vs (all_values 4)); simpl; try lia. apply all_values_wf.
  - repeat split; simpl; lia.
  - apply (apply_comparator_vs (fst (apply_comparator (all_values 4) 1 0))); try (vm_compute; lia).
Qed.

Definition ex4_done : OutputSet :=
  fst (apply_comparator (fst (apply_comparator (fst (apply_comparator ex4 2 0)) 3 1)) 2 1).
Example C03_case : is_sorted ex4 = false /\ is_sorted ex4_done = true.
Proof. vm_compute. auto. Qed.

(* C04 *)
Theorem C04_pack_unpack : forall s, wf s ->
  exists pk, packed s = Some pk /\ length pk = packed_len_for_channels (channels s) /\
             Forall (fun b => b < 256) pk /\ from_packed (channels s) pk = Some s.
Proof. exact packed_roundtrip. Qed.
Print Assumptions C04_pack_unpack.

Theorem C04_pack_injective : forall s t, wf s -> wf t -> channels s = channels t -> packed s = packed t -> s = t.
Proof. exact packed_inj. Qed.
Print Assumptions C04_pack_injective.

Theorem C04_unpack_pack : forall n bytes, 3 <= n -> length bytes = packed_len_for_channels n ->
  Forall (fun b => b < 256) bytes ->
  exists s, from_packed n bytes = Some s /\ wf s /\ channels s = n /\ packed s = Some bytes.
Proof. exact unpacked_roundtrip. Qed.
Print Assumptions C04_unpack_pack.

Example C04_case : packed ex4 = Some [13; 221] /\ packed_len_for_channels 4 = 2.
Proof. vm_compute. auto. Qed.
(* with fewer than 3 channels the byte has unused bits, which are written as zero *)
Example C04_case_small : packed (all_values 2) = Some [15] /\ from_packed 2 [255] = Some (all_values 2).
Proof. vm_compute. auto. Qed.

(* C05 *)
Theorem C05_channel_is_extremal : forall s pol c, wf s -> c < channels s ->
  (channel_is_extremal s pol c = true <-> vs s (lone (channels s) pol c)).
Proof. exact channel_is_extremal_lone. Qed.
Print Assumptions C05_channel_is_extremal.

Theorem C05_prune_extremal : forall s pol c, wf s -> c < channels s -> channels s <= MAX_CHANNELS ->
  vs s (lone (channels s) pol c) ->
  exists t, prune_extremal_channel_into s pol c (channels s - 1) = Some t /\
    channels t = channels s - 1 /\ wf t /\
    same_set (vs t) (image (del c) (flip_reach (vs s) pol (lone (channels s) pol c))).
Proof. exact prune_extremal_spec. Qed.
Print Assumptions C05_prune_extremal.

(* None stands for every panic: the two assertions and the push on a full queue. *)
Theorem C05_prune_extremal_panics : forall s pol c target_channels, wf s -> c < channels s ->
  channels s <= MAX_CHANNELS ->
  (prune_extremal_channel_into s pol c target_channels = None <->
   target_channels + 1 <> channels s \/ ~ vs s (lone (channels s) pol c)).
Proof. exact prune_extremal_none. Qed.
Print Assumptions C05_prune_extremal_panics.

Example C05_case :
  channel_is_extremal ex4 false 1 = true /\ channel_is_extremal ex4 false 0 = false /\
  option_map (fun t => filter (bget (bitmap t)) (seq 0 8)) (prune_extremal_channel_into ex4 false 1 3)
    = Some [0; 1; 4; 5; 6; 7] /\
  option_map (fun t => filter (bget (bitmap t)) (seq 0 8)) (prune_extremal_channel_into ex4 true 0 3)
    = Some [0; 1; 4; 5; 6; 7].
Proof. vm_compute. auto. Qed.

(* C36 *)
Theorem C36_symmetry : forall n V W inv p k, width n V -> is_perm n p -> isomorphic_by inv p V W ->
  (lower_bound n W k <-> lower_bound n V k) /\ (upper_bound n W k <-> upper_bound n V k).
Proof.
  intros n V W inv p k Wd P I. split; split; intros H.
  - apply (lower_bound_sym n inv p V k P Wd). apply (lower_bound_same n W); auto.
  - apply (lower_bound_same n (image (sym inv p) V)). now apply same_set_sym. now apply lower_bound_sym.
  - apply (upper_bound_sym n inv p V k P Wd). apply (upper_bound_same n _ W); auto. now apply same_set_sym.
  - apply (upper_bound_same n _ (image (sym inv p) V)); auto. now apply upper_bound_sym.
Qed.
Print Assumptions C36_symmetry.

Theorem C36_subsumption : forall n V W inv p k, width n V -> is_perm n p -> subsumes_by inv p V W ->
  (lower_bound n V k -> lower_bound n W k) /\ (upper_bound n W k -> upper_bound n V k).
Proof.
  intros n V W inv p k Wd P S. assert (Sub : subset (image (sym inv p) V) W).
  { intros y (x & Hx & ->). now apply S. }
  split; intros H.
  - apply (lower_bound_mono n (image (sym inv p) V)); auto. now apply lower_bound_sym.
  - apply (upper_bound_sym n inv p V k P Wd). apply (upper_bound_mono n _ W); auto.
Qed.
Print Assumptions C36_subsumption.

Example C36_case : width 4 (vs ex4) /\ is_perm 4 [2; 0; 3; 1] /\
  isomorphic_by true [2; 0; 3; 1] (vs ex4) (image (fun x => permute [2; 0; 3; 1] (complement x)) (vs ex4)).
Proof.
  split. apply (vs_width ex4). split. apply is_perm_intro; auto.
  repeat constructor; simpl; intuition lia. simpl; intuition lia. apply same_set_refl.
Qed.

(* C37 *)
Theorem C37_subsumes_unpermuted : forall s t, wf s -> wf t -> channels s = channels t ->
  (subsumes_unpermuted s t = true <-> subset (vs s) (vs t)).
Proof. exact subsumes_unpermuted_spec. Qed.
Print Assumptions C37_subsumes_unpermuted.

Theorem C37_len : forall s, wf s -> card (vs s) (os_len s).
Proof. exact os_len_card. Qed.
Print Assumptions C37_len.

Theorem C37_weight_histogram : forall s w, wf s -> w <= channels s ->
  length (weight_histogram s) = channels s + 1 /\
  card (fun x => vs s x /\ weight x = w) (nth w (weight_histogram s) 0).
Proof. intros s w W Hw. split. apply histogram_length. now apply histogram_card. Qed.
Print Assumptions C37_weight_histogram.

Theorem C37_is_channel_unconstrained : forall s c, wf s -> c < channels s ->
  (is_channel_unconstrained s c = true <-> forall x v, vs s x -> vs s (upd x c v)).
Proof. exact is_channel_unconstrained_spec. Qed.
Print Assumptions C37_is_channel_unconstrained.

Theorem C37_channel_fingerprint : forall s t p c, wf s -> wf t -> channels t = channels s ->
  is_perm (channels s) p -> isomorphic_by false p (vs s) (vs t) -> c < channels s ->
  channel_fingerprint t c = channel_fingerprint s (nth c p 0).
Proof.
  intros s t p c Ws Wt C P I Hc. apply channel_fingerprint_relabel; auto. unfold relabelled. auto.
Qed.
Print Assumptions C37_channel_fingerprint.

Theorem C37_low_channels_fingerprint : forall hash s t p k, wf s -> wf t -> channels t = channels s ->
  is_perm (channels s) p -> (forall i, i < k -> nth i p 0 = i) -> isomorphic_by false p (vs s) (vs t) ->
  k <= channels s ->
  low_channels_fingerprint hash t k = low_channels_fingerprint hash s k /\
  (forall c, k <= c -> c < channels s ->
     low_channels_channel_fingerprint hash t k c = low_channels_channel_fingerprint hash s k (nth c p 0)).
Proof.
  intros hash s t p k Ws Wt C P F I Hk. assert (R : relabelled p s t) by (unfold relabelled; auto). split.
  - unfold low_channels_fingerprint. f_equal. now apply (low_fp_relabel p).
  - intros c H1 H2. unfold low_channels_channel_fingerprint. f_equal. now apply (low_ch_fp_relabel p).
Qed.
Print Assumptions C37_low_channels_fingerprint.

Example C37_case : os_len ex4 = 9 /\ weight_histogram ex4 = [1; 2; 3; 2; 1] /\
  channel_fingerprint ex4 1 = channel_fingerprint (swap_channels ex4 1 2) 2 /\
  channel_fingerprint ex4 1 <> channel_fingerprint ex4 2 /\
  low_channels_fingerprint_buffer ex4 1 <> low_channels_fingerprint_buffer (swap_channels ex4 0 1) 1.
Proof. vm_compute. repeat split; auto; discriminate. Qed.
