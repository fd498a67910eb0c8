(* The decoder of the checker inverts the writer of the certificate. *)
From Coq Require Import List Arith Bool Lia ZArith Sorted.
Import ListNotations.
From Verif Require Import Spec Vec Net Bits Util OutputSetModel OutputSetProofs PackProofs
  VerifiedCheckerModel RefCheckerModel RefCheckerProofs DecodeModel.

(* ---------- little endian numbers ---------- *)

Lemma le_bytes_length k : forall v, length (le_bytes k v) = k.
Proof. induction k; intros; simpl; auto. Qed.

Lemma le_value_bytes k : forall v, (0 <= v < 256 ^ Z.of_nat k)%Z -> le_value (le_bytes k v) = v.
Proof.
  induction k as [|k IH]; intros v H.
  - simpl in *. lia.
  - cbn [le_bytes le_value]. rewrite Nat2Z.inj_succ, Z.pow_succ_r in H by lia.
    rewrite IH. 
    + rewrite Z2Nat.id by (apply Z.mod_pos_bound; lia). pose proof (Z.div_mod v 256 ltac:(lia)). lia.
    + split. apply Z.div_pos; lia. apply Z.div_lt_upper_bound; lia.
Qed.

Lemma readLE_bytes k v r : (0 <= v < 256 ^ Z.of_nat k)%Z -> (v < 2 ^ 63)%Z -> readLE k (le_bytes k v ++ r) = Some v.
Proof.
  intros H1 H2. unfold readLE. rewrite app_length, le_bytes_length.
  replace (k + length r <? k) with false by (symmetry; apply Nat.ltb_ge; lia).
  rewrite firstn_app, le_bytes_length, Nat.sub_diag, firstn_O, app_nil_r.
  rewrite firstn_all2 by (rewrite le_bytes_length; lia). rewrite le_value_bytes by auto. unfold to_int.
  apply Z.ltb_lt in H2. now rewrite H2.
Qed.

Lemma read32_bytes v r : (0 <= v < 2 ^ 32)%Z -> read32LE (le_bytes 4 v ++ r) = Some v.
Proof. intros H. apply readLE_bytes. exact H. lia. Qed.

Lemma read64_bytes v r : (0 <= v < 2 ^ 63)%Z -> read64LE (le_bytes 8 v ++ r) = Some v.
Proof. intros H. apply readLE_bytes; [|lia]. change (256 ^ Z.of_nat 8)%Z with (2 ^ 64)%Z. lia. Qed.

(* ---------- drop and take ---------- *)

Lemma zdrop_skipn {A} k (l : list A) : zdrop (Z.of_nat k) l = skipn k l.
Proof.
  unfold zdrop. destruct (Z.of_nat k <=? 0)%Z eqn:E.
  - apply Z.leb_le in E. replace k with 0 by lia. auto.
  - destruct (Z.of_nat (length l) <=? Z.of_nat k)%Z eqn:F.
    + apply Z.leb_le in F. symmetry. apply skipn_all2. lia.
    + now rewrite Nat2Z.id.
Qed.

Lemma ztake_firstn {A} k (l : list A) : ztake (Z.of_nat k) l = firstn k l.
Proof.
  unfold ztake. destruct (Z.of_nat k <=? 0)%Z eqn:E.
  - apply Z.leb_le in E. replace k with 0 by lia. auto.
  - destruct (Z.of_nat (length l) <=? Z.of_nat k)%Z eqn:F.
    + apply Z.leb_le in F. symmetry. apply firstn_all2. lia.
    + now rewrite Nat2Z.id.
Qed.

Lemma skipn_app_ge {A} k (l r : list A) : skipn (length l + k) (l ++ r) = skipn k r.
Proof. rewrite skipn_app, skipn_all2 by lia. simpl. f_equal. lia. Qed.

Definition total (steps : list (list nat)) : nat := length (concat steps).

Lemma skip_headers i : forall off steps, i <= length steps ->
  skipn (12 * i) (write_headers off steps) =
  write_headers (off + Z.of_nat (total (firstn i steps))) (skipn i steps).
Proof.
  induction i as [|i IH]; intros off steps L.
  - simpl. unfold total. simpl. now rewrite Z.add_0_r.
  - destruct steps as [|s steps]; [simpl in L; lia|]. simpl in L. cbn [firstn skipn write_headers].
    rewrite app_assoc. replace (12 * S i) with (length (le_bytes 8 off ++ le_bytes 4 (Z.of_nat (length s))) + 12 * i)
      by (rewrite app_length, !le_bytes_length; lia).
    rewrite skipn_app_ge, IH by lia. f_equal. unfold total. simpl. rewrite app_length. lia.
Qed.

Lemma headers_length : forall steps off, length (write_headers off steps) = 12 * length steps.
Proof.
  induction steps as [|s steps IH]; intros off; cbn [write_headers length]; auto.
  rewrite !app_length, !le_bytes_length, IH. lia.
Qed.

Lemma skip_concat i : forall (steps : list (list nat)), skipn (total (firstn i steps)) (concat steps) = concat (skipn i steps).
Proof.
  unfold total. induction i as [|i IH]; intros [|s steps]; simpl; auto. rewrite app_length, skipn_app_ge. apply IH.
Qed.

Lemma total_firstn i : forall steps, total (firstn i steps) <= total steps.
Proof.
  unfold total. induction i as [|i IH]; intros [|s steps]; simpl; try lia. rewrite !app_length. specialize (IH steps). lia.
Qed.

Definition file_fits (steps : list (list nat)) : Prop :=
  (Z.of_nat (length steps) < 2 ^ 32)%Z /\ Forall (fun s => (Z.of_nat (length s) < 2 ^ 32)%Z) steps /\
  (Z.of_nat (4 + 12 * length steps + total steps) < 2 ^ 63)%Z.

Lemma count_written steps : file_fits steps -> step_count (write_proof steps) = Some (Z.of_nat (length steps)).
Proof. intros (H & _). unfold step_count, write_proof. cbv zeta. apply read32_bytes. lia. Qed.

Lemma step_written steps i : file_fits steps -> i < length steps ->
  step_bytes (write_proof steps) (Z.of_nat i) = Some (nth i steps []).
Proof.
  intros (F1 & F2 & F3) Hi. unfold step_bytes, write_proof. cbv zeta.
  replace (4 + 12 * Z.of_nat i)%Z with (Z.of_nat (4 + 12 * i)) by lia. rewrite zdrop_skipn.
  set (n := Z.of_nat (length steps)). set (H := write_headers (4 + (8 + 4) * n) steps).
  replace (skipn (4 + 12 * i) (le_bytes 4 n ++ H ++ concat steps)) with
    (le_bytes 8 (4 + (8 + 4) * n + Z.of_nat (total (firstn i steps))) ++
     le_bytes 4 (Z.of_nat (length (nth i steps []))) ++
     write_headers (4 + (8 + 4) * n + Z.of_nat (total (firstn i steps)) + Z.of_nat (length (nth i steps []))) (skipn (S i) steps)
     ++ concat steps).
  2:{ replace (4 + 12 * i) with (length (le_bytes 4 n) + 12 * i) by now rewrite le_bytes_length.
      rewrite skipn_app_ge, skipn_app. unfold H at 1. rewrite skip_headers by lia.
      replace (12 * i - length H) with 0 by (unfold H; rewrite headers_length; lia).
      rewrite skipn_O.
      assert (E : skipn i steps = nth i steps [] :: skipn (S i) steps).
      { clear -Hi. revert steps Hi. induction i; intros [|s st] Hi; simpl in *; try lia; auto. apply IHi. lia. }
      rewrite E. cbn [write_headers]. now rewrite <- !app_assoc. }
  pose proof (total_firstn i steps). rewrite read64_bytes by lia. cbn [bind].
  change 8%Z with (Z.of_nat 8) at 1. rewrite zdrop_skipn.
  match goal with |- context [skipn 8 (le_bytes 8 ?v ++ ?r)] =>
    replace (skipn 8 (le_bytes 8 v ++ r)) with r by
      (replace 8 with (length (le_bytes 8 v) + 0) at 1 by (rewrite le_bytes_length; auto); now rewrite skipn_app_ge, skipn_O) end.
  rewrite read32_bytes.
  2:{ rewrite Forall_forall in F2. split; [lia|]. apply F2, nth_In. lia. }
  cbn [bind]. f_equal.
  replace (4 + (8 + 4) * n + Z.of_nat (total (firstn i steps)))%Z with
    (Z.of_nat (length (le_bytes 4 n ++ H) + total (firstn i steps)))
    by (rewrite app_length, le_bytes_length; unfold H; rewrite headers_length; unfold n; lia).
  rewrite zdrop_skipn, ztake_firstn, app_assoc, skipn_app_ge, skip_concat.
  assert (E : skipn i steps = nth i steps [] :: skipn (S i) steps).
  { clear -Hi. revert steps Hi. induction i; intros [|s st] Hi; simpl in *; try lia; auto. apply IHi. lia. }
  rewrite E. cbn [concat]. rewrite firstn_app, Nat.sub_diag, firstn_O, app_nil_r. apply firstn_all.
Qed.

(* ---------- the set ---------- *)

Lemma add_byte_spec n set pos : asc set -> let r := add_byte (set, pos) n in
  asc (fst r) /\ snd r = pos + 8 /\
  forall v, In v (fst r) <-> In v set \/ (pos <= v < pos + 8 /\ Nat.testbit n (v - pos) = true).
Proof.
  intros A. cbv zeta. unfold add_byte. cbn [fst snd].
  assert (G : forall l set, asc set ->
    let s' := fold_left (fun set i => if Nat.testbit n i then is_insert (pos + i) set else set) l set in
    asc s' /\ forall v, In v s' <-> In v set \/ exists i, In i l /\ v = pos + i /\ Nat.testbit n i = true).
  { clear. induction l as [|i l IH]; intros set A; simpl.
    - split; auto. intros v. split; auto. intros [H|(i & [] & _)]; auto.
    - destruct (IH (if Nat.testbit n i then is_insert (pos + i) set else set)) as (I1 & I2).
      { destruct (Nat.testbit n i); auto. now apply is_insert_asc. }
      split; auto. intros v. rewrite I2. destruct (Nat.testbit n i) eqn:E; rewrite ?is_insert_In.
      + split.
        * intros [[->|H]|(j & Hj & H)]; [right; exists i; auto|auto|right; exists j; tauto].
        * intros [H|(j & [<-|Hj] & H)]; [auto|left; left; tauto|right; exists j; tauto].
      + split.
        * intros [H|(j & Hj & H)]; [auto|right; exists j; tauto].
        * intros [H|(j & [<-|Hj] & H)]; [auto|destruct H; congruence|right; exists j; tauto]. }
  destruct (G (seq 0 8) set A) as (G1 & G2). split; auto. split; auto. intros v. rewrite G2. split; intros [H|H]; auto.
  - destruct H as (i & Hi & -> & T). apply in_seq in Hi. right. split. lia. now replace (pos + i - pos) with i by lia.
  - destruct H as (H & T). right. exists (v - pos). split. apply in_seq; lia. split; auto. lia.
Qed.

Lemma fromBytes_spec n bytes : asc (vects (fromBytes n bytes)) /\
  forall v, In v (vects (fromBytes n bytes)) <-> v < 8 * length bytes /\ Nat.testbit (nth (v / 8) bytes 0) (v mod 8) = true.
Proof.
  unfold fromBytes. cbn [vects].
  assert (G : forall bytes set pos, asc set ->
    let s' := fold_left add_byte bytes (set, pos) in
    asc (fst s') /\ forall v, In v (fst s') <-> In v set \/
      (pos <= v < pos + 8 * length bytes /\ Nat.testbit (nth ((v - pos) / 8) bytes 0) ((v - pos) mod 8) = true)).
  { clear. induction bytes as [|b bytes IH]; intros set pos A.
    - simpl. split; auto. intros v. split; auto. intros [H|H]; auto. lia.
    - cbn [fold_left]. destruct (add_byte_spec b set pos A) as (A1 & A2 & A3).
      destruct (add_byte (set, pos) b) as (set', pos'). cbn [fst snd] in *. subst pos'.
      destruct (IH set' (pos + 8) A1) as (I1 & I2). split; auto. intros v. rewrite I2, A3. cbn [length].
      assert (K : pos + 8 <= v -> (v - pos) / 8 = S ((v - (pos + 8)) / 8) /\ (v - pos) mod 8 = (v - (pos + 8)) mod 8).
      { intros H. replace (v - pos) with (v - (pos + 8) + 1 * 8) by lia. rewrite Nat.div_add, Nat.mod_add by lia. lia. }
      split.
      + intros [[H|(H1 & H2)]|(H1 & H2)]; auto.
        * right. split; [lia|]. rewrite Nat.div_small, Nat.mod_small by lia. auto.
        * right. split; [lia|]. destruct (K ltac:(lia)) as (-> & ->). auto.
      + intros [H|(H1 & H2)]; auto. destruct (le_lt_dec (pos + 8) v) as [L|L].
        * right. split; [lia|]. destruct (K L) as (K1 & K2). rewrite K1, K2 in H2. auto.
        * left. right. rewrite Nat.div_small, Nat.mod_small in H2 by lia. split; [lia|auto]. }
  destruct (G bytes [] 0) as (G1 & G2). constructor. split; auto. intros v. rewrite G2. rewrite Nat.sub_0_r. simpl. intuition lia.
Qed.

Lemma fromBytes_rwf n bytes : 8 * length bytes <= 2 ^ n -> rwf (fromBytes n bytes).
Proof.
  intros H. destruct (fromBytes_spec n bytes) as (A & I). split; auto. apply Forall_forall. intros v Hv. apply I in Hv.
  simpl. lia.
Qed.

(* packed bits *)
Lemma pack_bits k : forall bm slice pk, length bm <= k -> length slice = plen (length bm) -> pack_into bm slice = Some pk ->
  forall v, v < 8 * plen (length bm) -> Nat.testbit (nth (v / 8) pk 0) (v mod 8) = nth v bm false.
Proof.
  induction k as [|k IH]; intros bm slice pk Hk Ls P v Hv.
  - destruct bm; [|simpl in Hk; lia]. change (plen (length [])) with 0 in Hv. lia.
  - destruct (block8 bm) as [Hs|(b0 & b1 & b2 & b3 & b4 & b5 & b6 & b7 & r & ->)].
    + destruct (Nat.eq_dec (length bm) 0) as [E|E].
      * destruct bm; [|discriminate]. change (plen (length [])) with 0 in Hv. lia.
      * rewrite plen_small in * by lia. destruct slice as [|a [|]]; try discriminate. rewrite pack_small in P by lia.
        injection P as <-. rewrite Nat.div_small, Nat.mod_small by lia. cbn [nth]. rewrite byte_of_testbit.
        replace (v <? 8) with true by (symmetry; apply Nat.ltb_lt; lia). auto.
    + cbn [length] in *. rewrite plen_8 in *. destruct slice as [|a slice]; [discriminate|]. cbn [pack_into] in P.
      destruct (pack_into r slice) as [t|] eqn:Pr; [|discriminate]. injection P as <-.
      destruct (le_lt_dec 8 v) as [L|L].
      * replace v with (v - 8 + 1 * 8) at 1 2 by lia. rewrite Nat.div_add, Nat.mod_add by lia. rewrite Nat.add_1_r. cbn [nth].
        rewrite (IH r slice t) by (auto; simpl in *; lia).
        replace v with (8 + (v - 8)) at 2 by lia. reflexivity.
      * rewrite Nat.div_small, Nat.mod_small by lia. cbn [nth]. rewrite byte_of_testbit.
        replace (v <? 8) with true by (symmetry; apply Nat.ltb_lt; lia). cbn [andb].
        do 8 (destruct v as [|v]; [reflexivity|]). lia.
Qed.

Lemma asc_eq : forall l m, asc l -> asc m -> (forall v, In v l <-> In v m) -> l = m.
Proof.
  unfold asc. induction l as [|a l IH]; intros m A B H.
  - destruct m as [|b m]; auto. exfalso. apply (H b). now left.
  - destruct m as [|b m]. { exfalso. apply (H a). now left. }
    inversion A as [|? ? A1 A2]; subst. inversion B as [|? ? B1 B2]; subst. rewrite Forall_forall in A2, B2.
    assert (E : a = b).
    { destruct (proj1 (H a) (or_introl eq_refl)) as [|Ha]; auto. destruct (proj2 (H b) (or_introl eq_refl)) as [|Hb]; auto.
      specialize (A2 b Hb). specialize (B2 a Ha). lia. }
    subst b. f_equal. apply IH; auto. intros v. split; intros Hv.
    + destruct (proj1 (H v) (or_intror Hv)) as [<-|]; auto. specialize (A2 _ Hv). lia.
    + destruct (proj2 (H v) (or_intror Hv)) as [<-|]; auto. specialize (B2 _ Hv). lia.
Qed.

(* the vectors of a set, as numbers *)
Definition members (s : OutputSet) : list nat := filter (fun v => nth v (bitmap s) false) (seq 0 (2 ^ channels s)).

Lemma asc_filter f l : asc l -> asc (filter f l).
Proof.
  unfold asc. induction 1 as [|u s Ss IH F]; simpl. constructor. destruct (f u); auto. constructor; auto.
  rewrite Forall_forall in *. intros w Hw. apply filter_In in Hw. apply F. tauto.
Qed.

Lemma asc_seq n : forall a, asc (seq a n).
Proof. induction n; intros a; simpl; constructor; auto. apply IHn. apply Forall_forall. intros x Hx. apply in_seq in Hx. lia. Qed.

Lemma members_asc s : asc (members s).
Proof. apply asc_filter, asc_seq. Qed.

Lemma members_rwf s : rwf (mkVectSet (channels s) (members s)).
Proof. split. apply members_asc. apply Forall_forall. intros v Hv. apply filter_In in Hv. destruct Hv as (Hv & _). apply in_seq in Hv. simpl. lia. Qed.

Lemma members_rset s : wf s -> same_set (rset (mkVectSet (channels s) (members s))) (vs s).
Proof.
  intros W x. unfold rset, vs, members. cbn [vchannels vects]. rewrite filter_In, in_seq. unfold bget. split.
  - intros (L & _ & H). auto.
  - intros (L & H). split; auto. split; auto. split; [lia|]. rewrite <- L. apply idx_lt.
Qed.

Lemma fromBytes_packed s pk : wf s -> packed s = Some pk -> fromBytes (channels s) pk = mkVectSet (channels s) (members s).
Proof.
  intros W P. destruct (packed_roundtrip s W) as (pk' & P' & Lp & _ & _). rewrite P in P'. injection P' as <-.
  destruct (fromBytes_spec (channels s) pk) as (A & I).
  destruct (fromBytes (channels s) pk) as [c v] eqn:E. assert (c = channels s) by (unfold fromBytes in E; congruence). subst c.
  f_equal. cbn [vects] in *. apply asc_eq; auto. apply members_asc.
  intros u. rewrite I. unfold members. rewrite filter_In, in_seq.
  assert (Hl : length pk = plen (length (bitmap s))).
  { rewrite Lp, W. reflexivity. }
  assert (Pb : u < 8 * length pk -> Nat.testbit (nth (u / 8) pk 0) (u mod 8) = nth u (bitmap s) false).
  { intros Hu. apply (pack_bits (length (bitmap s)) (bitmap s) (repeat 0 (packed_len s)) pk); auto.
    - rewrite repeat_length. reflexivity.
    - now rewrite <- Hl. }
  assert (Le : 2 ^ channels s <= 8 * length pk).
  { rewrite Hl. unfold plen. rewrite W. pose proof (Nat.div_mod (2 ^ channels s + 7) 8 ltac:(lia)).
    pose proof (Nat.mod_upper_bound (2 ^ channels s + 7) 8 ltac:(lia)). lia. }
  split.
  - intros (H1 & H2). rewrite Pb in H2 by auto. split; auto. split; [lia|]. destruct (lt_dec u (2 ^ channels s)); [lia|].
    rewrite nth_overflow in H2; [discriminate|]. rewrite W. lia.
  - intros (H1 & H2). split; [lia|]. rewrite Pb; auto. lia.
Qed.

(* ---------- one step ---------- *)

(* src/proof.rs:168-178 one witness as bytes *)
Definition enc_witness (w : option Witness) : list nat :=
  match w with
  | Some w => Nat.b2n (winvert w) :: wperm w ++ le_bytes 4 (stepId w)
  | None => [2]
  end.

(* src/proof.rs:147-178 one step as bytes *)
Definition enc_step (channels bound : nat) (packed : list nat) (kind : nat) (ws : list (option Witness)) : list nat :=
  channels :: bound :: packed ++ kind :: flat_map enc_witness ws.

Definition enc_ok (n : nat) (w : option Witness) : Prop :=
  match w with Some w => length (wperm w) = n /\ (0 <= stepId w < 2 ^ 32)%Z | None => True end.

Lemma decode_witnesses n ws : Forall (enc_ok n) ws -> forall fuel, length (flat_map enc_witness ws) < fuel ->
  decodeWitnesses_f fuel n (flat_map enc_witness ws) = Some ws.
Proof.
  induction 1 as [|w ws Hw F IH]; intros fuel L.
  - destruct fuel; [lia|]. reflexivity.
  - destruct fuel as [|f]; [lia|]. cbn [flat_map] in *. rewrite app_length in L. destruct w as [w|].
    + destruct Hw as (Hp & Hid). cbn [enc_witness] in *. cbn [length] in L. rewrite app_length, le_bytes_length in L.
      assert (E1 : firstn n ((wperm w ++ le_bytes 4 (stepId w)) ++ flat_map enc_witness ws) = wperm w).
      { rewrite <- app_assoc, firstn_app, <- Hp, Nat.sub_diag, firstn_O, app_nil_r. apply firstn_all. }
      assert (E2 : skipn n ((wperm w ++ le_bytes 4 (stepId w)) ++ flat_map enc_witness ws) =
                   le_bytes 4 (stepId w) ++ flat_map enc_witness ws).
      { rewrite <- app_assoc, <- Hp. rewrite <- (Nat.add_0_r (length (wperm w))). now rewrite skipn_app_ge, skipn_O. }
      assert (E3 : skipn 4 (le_bytes 4 (stepId w) ++ flat_map enc_witness ws) = flat_map enc_witness ws).
      { change 4 with (length (le_bytes 4 (stepId w)) + 0) at 1. now rewrite skipn_app_ge, skipn_O. }
      destruct w as [id inv perm]. cbn [winvert wperm stepId] in *.
      destruct inv; cbn [Nat.b2n app decodeWitnesses_f]; cbv zeta; rewrite E1, E2, read32_bytes by auto; cbn [bind];
        rewrite E3, IH by lia; reflexivity.
    + cbn [enc_witness app decodeWitnesses_f] in *. cbv zeta. rewrite IH by (simpl in L; lia). reflexivity.
Qed.

Definition kind_of (w : Witnesses) : nat := match w with Huffman false _ => 0 | Huffman true _ => 1 | Successors _ => 2 end.
Definition list_of (w : Witnesses) : list (option Witness) := match w with Huffman _ l => l | Successors l => l end.
Definition wchannels (n : nat) (w : Witnesses) : nat := match w with Huffman _ _ => n - 1 | Successors _ => n end.

Lemma packed_len_pow n : Z.of_nat (packed_len_for_channels n) = (2 ^ Z.of_nat (n - 3))%Z.
Proof.
  unfold packed_len_for_channels. destruct (le_lt_dec 3 n) as [H|H].
  - assert (E : 2 ^ n = 8 * 2 ^ (n - 3)). { replace n with (3 + (n - 3)) at 1 by lia. rewrite Nat.pow_add_r. reflexivity. }
    rewrite E. replace ((8 * 2 ^ (n - 3) + 7) / 8) with (2 ^ (n - 3)) by (apply Nat.div_unique with (r := 7); lia).
    now rewrite Nat2Z.inj_pow.
  - destruct n as [|[|[|n]]]; try lia; reflexivity.
Qed.

Theorem decode_encoded s bound ws pk : wf s -> channels s < 66 -> packed s = Some pk ->
  Forall (enc_ok (wchannels (channels s) ws)) (list_of ws) ->
  decodeProofStep (enc_step (channels s) bound pk (kind_of ws) (list_of ws)) =
  Some (mkRefStep (mkVectSet (channels s) (members s)) bound ws).
Proof.
  intros W Hc P F. destruct (packed_roundtrip s W) as (pk' & P' & Lp & _ & _). rewrite P in P'. injection P' as <-.
  unfold decodeProofStep, enc_step. cbn [nth_error bind]. cbv zeta.
  assert (EL : encodedSetLength (channels s) = Z.of_nat (length pk)).
  { unfold encodedSetLength. replace (channels s - 3 <? 63) with true by (symmetry; apply Nat.ltb_lt; lia).
    rewrite Lp. symmetry. apply packed_len_pow. }
  rewrite EL. rewrite (zdrop_skipn 2 _ : zdrop 2 _ = _). cbn [skipn]. rewrite ztake_firstn.
  rewrite firstn_app, Nat.sub_diag, firstn_O, app_nil_r, firstn_all. rewrite fromBytes_packed by auto.
  replace (Z.of_nat (length pk) + 2)%Z with (Z.of_nat (length (channels s :: bound :: pk) + 0)) by (simpl; lia).
  rewrite zdrop_skipn. rewrite !app_comm_cons. rewrite skipn_app_ge, skipn_O. cbn [nth_error bind].
  rewrite (zdrop_skipn 1 _ : zdrop 1 _ = _). cbn [skipn].
  destruct ws as [[] l|l]; cbn [kind_of list_of wchannels] in *; cbn [bind fst snd]; unfold decodeWitnesses;
    rewrite decode_witnesses by auto; reflexivity.
Qed.
