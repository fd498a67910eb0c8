(* C45: the functions of output_set.rs never index out of range, never grow a fixed capacity vector beyond
   its capacity, never subtract below zero and lose nothing in a cast to u16. *)
From Coq Require Import List Arith Bool Lia.
Import ListNotations.
From Verif Require Import Spec Util OutputSetModel OutputSetProofs MachineModel MachineProofs PropOutputSet.

(* C45: reading functions; channels in range, at most MAX_CHANNELS of them *)
Theorem C45_reads_in_range : forall s, wf s -> channels s <= MAX_CHANNELS ->
  weight_histogram_c s = Some (weight_histogram s) /\
  is_sorted_c s = Some (is_sorted s) /\
  packed_pvec_c s = packed s /\
  to_owned_bvec_c s = Some s /\
  (forall k, k <= channels s -> low_channels_fingerprint_buffer_c s k = Some (low_channels_fingerprint_buffer s k)) /\
  forall c, c < channels s ->
    is_channel_unconstrained_c s c = Some (is_channel_unconstrained s c) /\
    channel_fingerprint_c s c = Some (channel_fingerprint s c) /\
    channel_abstraction_c s c = Some (channel_abstraction s c) /\
    (forall pol, channel_is_extremal_c s pol c = Some (channel_is_extremal s pol c)) /\
    (forall d, d < channels s -> channel_pair_abstraction_c s c d = Some (channel_pair_abstraction s c d)) /\
    (forall k, k <= c ->
       low_channels_channel_fingerprint_buffer_c s k c = Some (low_channels_channel_fingerprint_buffer s k c) /\
       forall buffer, length buffer = low_channels_channel_abstraction_len s k ->
         low_channels_channel_abstraction_c s k c buffer = Some (low_channels_channel_abstraction s k c)).
Proof.
  intros s W B. split; [now apply weight_histogram_ok|]. split; [now apply is_sorted_ok|]. split; [now apply packed_pvec_ok|].
  split; [now apply bvec_ok|]. split; [intros; now apply low_fingerprint_ok|]. intros c C.
  split; [now apply unconstrained_ok|]. split; [now apply channel_fingerprint_ok|]. split; [now apply channel_abstraction_ok|].
  split; [intros; now apply extremal_ok|]. split; [intros; now apply pair_abstraction_ok|]. intros k K.
  split; [now apply low_channel_fingerprint_ok|]. intros; now apply low_channel_abstraction_ok.
Qed.
Print Assumptions C45_reads_in_range.

(* C45: the abstraction fits its vector, its values fit u16, and nothing of the old contents of the slice
   is left *)
Theorem C45_abstraction_fits : forall s, wf s -> 0 < channels s -> channels s <= MAX_CHANNELS ->
  abstraction_c s = Some (abstraction s) /\
  (forall target, length target = abstraction_len_for_channels (channels s) ->
     write_abstraction_into_c s target = Some (abstraction s)) /\
  (forall target, length target <> abstraction_len_for_channels (channels s) ->
     write_abstraction_into_c s target = None).
Proof.
  intros s W N B. split; [now apply abstraction_ok|]. split; [intros; now apply write_abstraction_ok|].
  intros target L. unfold write_abstraction_into_c. rewrite abstraction_len_ok by auto. apply Nat.eqb_neq in L. now rewrite L.
Qed.
Print Assumptions C45_abstraction_fits.

(* C45: writing functions *)
Theorem C45_writes_in_range : forall s, wf s -> channels s <= MAX_CHANNELS ->
  (forall a b, a < channels s -> b < channels s ->
     swap_channels_c s a b = Some (swap_channels s a b) /\
     (a <> b -> apply_comparator_c s a b = Some (apply_comparator s a b))) /\
  (forall pol c target, c < channels s -> wf target ->
     prune_extremal_channel_into_c s pol c target = prune_extremal_channel_into s pol c (channels target)).
Proof.
  intros s W B. split.
  - intros a b A C. split; [now apply swap_ok|]. intros; now apply comparator_ok.
  - intros. now apply prune_ok.
Qed.
Print Assumptions C45_writes_in_range.

(* C45: pruning an extremal channel ends without a panic, so its queue of u16 never overflows *)
Theorem C45_prune_queue_fits : forall s pol c target, wf s -> channels s <= MAX_CHANNELS -> c < channels s ->
  wf target -> channels target + 1 = channels s -> vs s (lone (channels s) pol c) ->
  exists t, prune_extremal_channel_into_c s pol c target = Some t /\ wf t /\
    same_set (vs t) (image (del c) (flip_reach (vs s) pol (lone (channels s) pol c))).
Proof.
  intros s pol c target W B C WT E V. rewrite prune_ok by auto.
  destruct (C05_prune_extremal s pol c W C B V) as (t & P & _ & Wt & S). exists t.
  replace (channels target) with (channels s - 1) by lia. auto.
Qed.
Print Assumptions C45_prune_queue_fits.

(* C45: with no channels the abstraction panics *)
Theorem C45_abstraction_empty_panics : forall s, channels s = 0 -> abstraction_c s = None.
Proof. intros s E. unfold abstraction_c, abstraction_len_c. rewrite E. reflexivity. Qed.
Print Assumptions C45_abstraction_empty_panics.

(* a set that meets the hypotheses, the greatest number of channels, and programs that do fail the checks *)
Example C45_case : wf ex4 /\ channels ex4 = 4 /\ vs ex4 (lone 4 false 1) /\
  prune_extremal_channel_into_c ex4 false 1 (all_values 3) =
    Some (mkOutputSet 3 [true; true; false; false; true; true; true; true]).
Proof.
  assert (W : wf ex4) by reflexivity.
  split; [exact W|]. split; [reflexivity|]. split; [split; reflexivity|].
  rewrite prune_ok; [reflexivity | exact W | apply Nat.leb_le; reflexivity | apply Nat.ltb_lt; reflexivity | apply all_values_wf].
Qed.
Example C45_out_of_range : channel_is_extremal_c ex4 false 4 = None /\ swap_channels_c ex4 1 4 = None /\
  prune_extremal_channel_into_c ex4 false 0 (all_values 2) = None /\ push 3 [1; 2; 3] 4 = None /\
  rd [1; 2; 3] 3 = None /\ sub_u 3 4 = None.
Proof. repeat split. Qed.

Example C45_greatest : wf (all_values 11) /\ channels (all_values 11) <= MAX_CHANNELS.
Proof. split. apply all_values_wf. apply Nat.le_refl. Qed.
