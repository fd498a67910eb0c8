(* pack_into_slice / unpack_from_slice round trips. *)
From Coq Require Import List Arith Bool Lia Permutation.
Import ListNotations.
From Verif Require Import Spec Vec Bits Util OutputSetModel OutputSetProofs.

Lemma testbit_b2n_shift b j i : Nat.testbit (Nat.shiftl (Nat.b2n b) j) i = b && (i =? j).
Proof.
  destruct b; simpl Nat.b2n.
  - rewrite Nat.shiftl_1_l, pow2_testbit, Nat.eqb_sym. auto.
  - rewrite Nat.shiftl_0_l, Nat.bits_0. auto.
Qed.

Lemma byte_of_testbit ch i : Nat.testbit (byte_of ch) i = (i <? 8) && nth i ch false.
Proof.
  unfold byte_of. cbn [seq fold_left].
  rewrite !Nat.lor_spec, !testbit_b2n_shift.
  change (Nat.b2n (nth 0 ch false)) with (Nat.shiftl (Nat.b2n (nth 0 ch false)) 0). rewrite testbit_b2n_shift.
  do 8 (destruct i as [|i]; [cbn [Nat.eqb Nat.ltb Nat.leb]; rewrite ?andb_true_r, ?andb_false_r, ?orb_false_r, ?orb_false_l; reflexivity|]).
  cbn [Nat.eqb Nat.ltb Nat.leb]. now rewrite !andb_false_r.
Qed.

Lemma byte_of_lt ch : byte_of ch < 256.
Proof.
  change 256 with (2 ^ 8). apply bits_lt. intros i Hi. rewrite byte_of_testbit.
  apply Nat.ltb_ge in Hi. now rewrite Hi.
Qed.

Lemma byte_bit_testbit v i : byte_bit v i = Nat.testbit v i.
Proof.
  unfold byte_bit. rewrite Nat.shiftl_1_l.
  destruct (Nat.testbit v i) eqn:E.
  - destruct (Nat.land v (2 ^ i) =? 0) eqn:F; auto. exfalso. apply Nat.eqb_eq in F.
    apply (f_equal (fun w => Nat.testbit w i)) in F. rewrite Nat.land_spec, E, Nat.pow2_bits_true, Nat.bits_0 in F. discriminate.
  - destruct (Nat.land v (2 ^ i) =? 0) eqn:F; auto. exfalso. apply Nat.eqb_neq in F. apply F.
    apply nat_ext_bits. intros j. rewrite Nat.land_spec, pow2_testbit, Nat.bits_0.
    destruct (i =? j) eqn:G. apply Nat.eqb_eq in G; subst. now rewrite E. apply andb_false_r.
Qed.

Lemma byte_bits ch k : k <= 8 -> length ch = k -> map (byte_bit (byte_of ch)) (seq 0 k) = ch.
Proof.
  intros Hk L. apply nth_ext_lt with (d := false). now rewrite map_length, seq_length.
  intros i Hi. rewrite map_length, seq_length in Hi. rewrite nth_map_seq by auto.
  rewrite byte_bit_testbit, byte_of_testbit. assert (F : (i <? 8) = true) by (apply Nat.ltb_lt; lia). now rewrite F.
Qed.

Lemma byte_of_bits v : v < 256 -> byte_of (map (byte_bit v) (seq 0 8)) = v.
Proof.
  intros H. apply nat_ext_bits. intros i. rewrite byte_of_testbit. destruct (i <? 8) eqn:E.
  - apply Nat.ltb_lt in E. rewrite nth_map_seq by auto. apply byte_bit_testbit.
  - apply Nat.ltb_ge in E. symmetry. apply testbit_high with (n := 8); auto.
Qed.

(* lists seen in blocks of eight *)
Lemma block8 {A} (l : list A) : length l < 8 \/ exists b0 b1 b2 b3 b4 b5 b6 b7 r, l = b0::b1::b2::b3::b4::b5::b6::b7::r.
Proof.
  destruct (le_lt_dec 8 (length l)) as [H|H]; auto. right.
  do 8 (destruct l as [|? l]; [simpl in H; lia|]). repeat eexists.
Qed.

Definition plen (k : nat) : nat := (k + 7) / 8.

Lemma plen_8 k : plen (S (S (S (S (S (S (S (S k)))))))) = S (plen k).
Proof.
  unfold plen. replace (S (S (S (S (S (S (S (S k))))))) + 7) with (k + 7 + 1 * 8) by lia.
  rewrite Nat.div_add by lia. lia.
Qed.

Lemma plen_small k : 0 < k < 8 -> plen k = 1.
Proof. intros H. unfold plen. symmetry. apply Nat.div_unique with (r := k - 1); lia. Qed.

Lemma plen_0 : plen 0 = 0.
Proof. reflexivity. Qed.

Lemma pack_small bm a sl : 0 < length bm < 8 -> pack_into bm (a :: sl) = Some (byte_of bm :: sl).
Proof.
  intros H. do 8 (destruct bm as [|? bm]; [simpl in H; try lia; reflexivity|]). simpl in H; lia.
Qed.

Lemma unpack_small bm a sl : 0 < length bm < 8 ->
  unpack_into bm (a :: sl) = Some (map (byte_bit a) (seq 0 (length bm))).
Proof.
  intros H. do 8 (destruct bm as [|? bm]; [simpl in H; try lia; reflexivity|]). simpl in H; lia.
Qed.

Lemma pack_unpack k : forall bm bm' slice, length bm <= k -> length bm' = length bm ->
  length slice = plen (length bm) ->
  exists pk, pack_into bm slice = Some pk /\ length pk = plen (length bm) /\ Forall (fun b => b < 256) pk /\
             unpack_into bm' pk = Some bm.
Proof.
  induction k as [|k IH]; intros bm bm' slice Hk L' Ls.
  - destruct bm; [|simpl in Hk; lia]. destruct bm'; [|discriminate]. change (length slice = 0) in Ls.
    destruct slice; [|discriminate]. exists []. simpl. auto.
  - destruct (block8 bm) as [Hs|(b0 & b1 & b2 & b3 & b4 & b5 & b6 & b7 & r & ->)].
    + destruct (Nat.eq_dec (length bm) 0) as [E|E].
      * destruct bm; [|discriminate]. destruct bm'; [|discriminate]. change (length slice = 0) in Ls.
        destruct slice; [|discriminate]. exists []. simpl. auto.
      * rewrite plen_small in * by lia. destruct slice as [|a [|]]; try discriminate.
        exists [byte_of bm]. rewrite pack_small by lia. split; [auto|]. split; [auto|]. split.
        constructor; auto. apply byte_of_lt. rewrite unpack_small by lia. rewrite L'. f_equal.
        apply byte_bits; lia.
    + cbn [length] in *. rewrite plen_8 in *. destruct slice as [|a slice]; [discriminate|].
      destruct (block8 bm') as [Hs|(c0 & c1 & c2 & c3 & c4 & c5 & c6 & c7 & r' & ->)]; [lia|].
      cbn [length] in *.
      destruct (IH r r' slice) as (pk & P & Lp & Fp & U); try lia.
      exists (byte_of [b0; b1; b2; b3; b4; b5; b6; b7] :: pk). cbn [pack_into]. rewrite P.
      split; [auto|]. split. simpl; lia. split. constructor; auto. apply byte_of_lt.
      cbn [unpack_into]. rewrite U. rewrite (byte_bits [b0; b1; b2; b3; b4; b5; b6; b7] 8) by auto. reflexivity.
Qed.

Lemma unpack_pack m : forall bytes bm slice, length bytes = m -> length bm = 8 * m -> length slice = m ->
  Forall (fun b => b < 256) bytes ->
  exists r, unpack_into bm bytes = Some r /\ length r = 8 * m /\ pack_into r slice = Some bytes.
Proof.
  induction m as [|m IH]; intros bytes bm slice Lb Lm Ls F.
  - destruct bytes; [|discriminate]. destruct bm; [|simpl in Lm; lia]. destruct slice; [|discriminate].
    exists []. simpl. auto.
  - destruct bytes as [|v bytes]; [discriminate|]. destruct slice as [|a slice]; [discriminate|].
    destruct (block8 bm) as [Hs|(c0 & c1 & c2 & c3 & c4 & c5 & c6 & c7 & r' & ->)]; [lia|].
    cbn [length] in *. inversion F as [|? ? Fv Fb]; subst.
    destruct (IH bytes r' slice) as (r & U & Lr & P); try lia; auto.
    exists (map (byte_bit v) (seq 0 8) ++ r). cbn [unpack_into]. rewrite U. split; [auto|]. split.
    rewrite app_length, map_length, seq_length. lia.
    change (map (byte_bit v) (seq 0 8) ++ r) with
      (byte_bit v 0 :: byte_bit v 1 :: byte_bit v 2 :: byte_bit v 3 :: byte_bit v 4 :: byte_bit v 5 :: byte_bit v 6 :: byte_bit v 7 :: r).
    cbn [pack_into]. rewrite P. do 2 f_equal. apply (byte_of_bits v Fv).
Qed.

Lemma packed_roundtrip s : wf s ->
  exists pk, packed s = Some pk /\ length pk = packed_len_for_channels (channels s) /\
             Forall (fun b => b < 256) pk /\ from_packed (channels s) pk = Some s.
Proof.
  intros W. unfold packed, from_packed, packed_len, packed_len_for_channels.
  destruct (pack_unpack (length (bitmap s)) (bitmap s) (bitmap (all_values (channels s)))
             (repeat 0 ((length (bitmap s) + 7) / 8))) as (pk & P & L & F & U); auto.
  { simpl. now rewrite repeat_length. } { apply repeat_length. }
  exists pk. rewrite P, U. unfold plen in L. rewrite W in L. repeat split; auto. destruct s; auto.
Qed.

Lemma packed_inj s t : wf s -> wf t -> channels s = channels t -> packed s = packed t -> s = t.
Proof.
  intros Ws Wt E P. destruct (packed_roundtrip s Ws) as (p & P1 & _ & _ & U1).
  destruct (packed_roundtrip t Wt) as (q & P2 & _ & _ & U2). rewrite P1, P2 in P. injection P as ->.
  rewrite E in U1. congruence.
Qed.

Lemma unpacked_roundtrip n bytes : 3 <= n -> length bytes = packed_len_for_channels n ->
  Forall (fun b => b < 256) bytes ->
  exists s, from_packed n bytes = Some s /\ wf s /\ channels s = n /\ packed s = Some bytes.
Proof.
  intros Hn L F. assert (E : 2 ^ n = 8 * 2 ^ (n - 3)).
  { replace n with (3 + (n - 3)) at 1 by lia. rewrite Nat.pow_add_r. reflexivity. }
  assert (PL : packed_len_for_channels n = 2 ^ (n - 3)).
  { unfold packed_len_for_channels. rewrite E. symmetry. apply Nat.div_unique with (r := 7); lia. }
  rewrite PL in L.
  destruct (unpack_pack (2 ^ (n - 3)) bytes (bitmap (all_values n)) (repeat 0 (2 ^ (n - 3)))) as (r & U & Lr & P); auto.
  { simpl. now rewrite repeat_length. } { apply repeat_length. }
  unfold from_packed. rewrite U. exists (mkOutputSet n r). unfold wf, packed, packed_len. cbn [channels bitmap].
  split; [auto|]. split; [congruence|]. split; [auto|].
  replace ((length r + 7) / 8) with (2 ^ (n - 3)); auto. rewrite Lr, <- E. symmetry. exact PL.
Qed.

(* from_packed never panics on enough bytes and always gives a well-formed set *)
Lemma from_packed_wf n pk : length pk = packed_len_for_channels n -> exists s, from_packed n pk = Some s /\ wf s /\ channels s = n.
Proof.
  intros L. unfold from_packed.
  assert (G : forall k bm pk, length bm <= k -> length pk = plen (length bm) -> exists r, unpack_into bm pk = Some r /\ length r = length bm).
  { induction k as [|k IH]; intros bm p Hk Lp.
    - destruct bm; [|simpl in Hk; lia]. exists []. auto.
    - destruct (block8 bm) as [Hs|(b0 & b1 & b2 & b3 & b4 & b5 & b6 & b7 & r & ->)].
      + destruct (Nat.eq_dec (length bm) 0) as [E|E]. destruct bm; [|discriminate]. exists []; auto.
        rewrite plen_small in Lp by lia. destruct p as [|a p]; [discriminate|].
        rewrite unpack_small by lia. eexists. split; [reflexivity|]. now rewrite map_length, seq_length.
      + cbn [length] in *. rewrite plen_8 in Lp. destruct p as [|a p]; [discriminate|]. cbn [length] in Lp.
        destruct (IH r p) as (r' & U & Lr); try lia. cbn [unpack_into]. rewrite U. eexists. split; [reflexivity|].
        rewrite app_length, map_length, seq_length, Lr. reflexivity. }
  destruct (G _ (bitmap (all_values n)) pk (le_n _)) as (r & U & Lr).
  { simpl. rewrite repeat_length. exact L. }
  rewrite U. exists (mkOutputSet n r). unfold wf. simpl. simpl in Lr. rewrite repeat_length in Lr. auto.
Qed.
