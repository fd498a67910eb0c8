(* The checked steps of CanonMachModel on one candidate do what the steps of CanonModel do. *)
From Coq Require Import List Arith Bool Lia Permutation.
Import ListNotations.
From Verif Require Import Spec Vec Util OutputSetModel OutputSetProofs SubsumeModel MachineModel MachineProofs SubsumeMachModel CanonModel TreeModel
  CanonArenaModel CanonArenaProofs CanonBits CanonParts CanonMachModel.
From Verif Require SubsumeProofs PackProofs.

Lemma resize_cleared (buffer : list nat) len : resize (firstn 0 buffer) len 0 = repeat 0 len.
Proof. unfold resize. cbn [firstn]. rewrite firstn_nil. cbn [length app]. now rewrite Nat.sub_0_r. Qed.

Lemma low_fingerprint_m_ok hash s k buffer : wf s -> k <= channels s ->
  exists b, low_fingerprint_m hash s k buffer = Some (low_channels_fingerprint hash s k, b).
Proof.
  intros W K. pose proof (low_fingerprint_ok s k W K) as E. unfold low_channels_fingerprint_buffer_c in E. unfold low_fingerprint_m, low_channels_fingerprint.
  destruct (sub_u (channels s + 1) k) as [w|]; [|discriminate]. cbv zeta in *. destruct (sub_u (2 ^ k) 1) as [lm|]; [|discriminate].
  rewrite resize_cleared, E. eauto.
Qed.

Lemma low_channel_fingerprint_m_ok hash s k c buffer : wf s -> k <= c -> c < channels s ->
  exists b, low_channel_fingerprint_m hash s k c buffer = Some (low_channels_channel_fingerprint hash s k c, b).
Proof.
  intros W K C. pose proof (low_channel_fingerprint_ok s k c W K C) as E. unfold low_channels_channel_fingerprint_buffer_c in E. unfold low_channel_fingerprint_m, low_channels_channel_fingerprint.
  destruct (negb (k <=? c)); [discriminate|]. cbv zeta in *. destruct (sub_u (channels s) k) as [w|]; [|discriminate]. destruct (sub_u (2 ^ k) 1) as [lm|]; [|discriminate].
  rewrite resize_cleared, E. eauto.
Qed.

Lemma inc16_small x : x <= 100 -> inc16 x = Some (x + 1).
Proof.
  intros H. unfold inc16. pose proof (Nat.log2_le_mono (x + 1) 101 ltac:(lia)) as L. change (Nat.log2 101) with 6 in L.
  replace (Nat.log2 (x + 1) <? 16) with true; auto. symmetry. apply Nat.ltb_lt. lia.
Qed.
Lemma shl16_small c : c < 16 -> shl16 c = Some (2 ^ c).
Proof. intros H. unfold shl16. apply Nat.ltb_lt in H. now rewrite H. Qed.
Lemma swap_list_c_ok p a b : a < length p -> b < length p -> swap_list_c p a b = Some (swap_list p a b).
Proof.
  intros A B. unfold swap_list_c, swap_list. rewrite (rd_lt p a 0), (rd_lt p b 0) by auto. rewrite wr_lt by auto. apply wr_lt. now rewrite upd_length.
Qed.

(* ---- cutting ---- *)
Lemma cut_length l : forall v m id, 0 < length (cut_parts v m id l).
Proof. induction l as [|(f, c) l IH]; intros; cbn [cut_parts]. cbn; lia. destruct (v =? f); auto. cbn; lia. Qed.

Lemma cut_fold l : forall part fp v m id, Forall (fun e => snd e < 16) l ->
  length part + length (cut_parts v m id l) <= CVEC -> length fp + length l <= CVEC -> id + length (cut_parts v m id l) <= 100 ->
  exists q v' m' id', cut_parts v m id l = q ++ [(m', id')] /\ id' = id + length q /\
    fold_opt cut_step l (part, fp, v, m, id) = Some (part ++ q, fp ++ map fst l, v', m', id').
Proof.
  induction l as [|(f, c) l IH]; intros part fp v m id F LP LF LI; cbn [fold_opt cut_parts map] in *.
  - exists [], v, m, id. cbn [length app]. rewrite !app_nil_r, Nat.add_0_r. auto.
  - inversion F as [|? ? Fc F']; subst. cbn [snd length] in *. unfold cut_step at 1. destruct (v =? f) eqn:E.
    + rewrite push_lt by lia. rewrite shl16_small by auto.
      destruct (IH part (fp ++ [f]) v (Nat.lor m (2 ^ c)) id) as (q & v' & m' & id' & A & B & C); auto. { rewrite app_length. cbn. lia. }
      exists q, v', m', id'. rewrite A. split; auto. split; auto. rewrite C, <- app_assoc. reflexivity.
    + cbn [length] in *. pose proof (cut_length l f (Nat.lor 0 (2 ^ c)) (S id)) as X. rewrite push_lt by lia. rewrite inc16_small by lia. rewrite push_lt by lia. rewrite shl16_small by auto.
      replace (id + 1) with (S id) by lia.
      destruct (IH (part ++ [(m, id)]) (fp ++ [f]) f (Nat.lor 0 (2 ^ c)) (S id)) as (q & v' & m' & id' & A & B & C); auto. { rewrite app_length. cbn [length]. lia. } { rewrite app_length. cbn. lia. } { lia. }
      exists ((m, id) :: q), v', m', id'. rewrite A. split; auto. split. cbn; lia. rewrite C, <- !app_assoc. reflexivity.
Qed.

Lemma cut_m_ok f chs id ps fps part fp : split_part f chs id = Some (ps, fps) -> Forall (fun c => c < 16) chs ->
  length part + length ps <= CVEC -> length fp + length fps <= CVEC -> id + length ps <= 100 ->
  cut_m part fp id (map (fun ch => (f ch, ch)) chs) = Some (part ++ ps, fp ++ fps, id + length ps - 1).
Proof.
  unfold split_part, cut_m. cbv zeta. intros E F LP LF LI. set (l := isort pair_leb (map (fun ch => (f ch, ch)) chs)) in *.
  assert (Fl : Forall (fun e : nat * nat => snd e < 16) l).
  { apply Forall_forall. intros e He. apply (Permutation_in _ (isort_perm pair_leb _)) in He. apply in_map_iff in He. destruct He as (ch & <- & Hc). cbn. rewrite Forall_forall in F. auto. }
  destruct l as [|e l']; [discriminate|]. assert (E1 : cut_parts (fst e) 0 id (e :: l') = ps) by (pose proof (f_equal (fun o => match o with Some x => fst x | None => [] end) E) as X; exact X).
  assert (E2 : map fst (e :: l') = fps) by (pose proof (f_equal (fun o => match o with Some x => snd x | None => [] end) E) as X; exact X). clear E. subst ps fps. unfold rd at 1. cbn [nth_error].
  assert (LF' : length fp + length (e :: l') <= CVEC) by (rewrite map_length in LF; exact LF). clear LF. destruct (cut_fold (e :: l') part fp (fst e) 0 id Fl LP LF' LI) as (q & v' & m' & id' & A & B & C). rewrite C. rewrite A in LP, LI. rewrite app_length in LP, LI. cbn [length] in LP, LI.
  rewrite push_lt by (rewrite app_length; lia). rewrite <- app_assoc, <- A. replace (id + length (cut_parts (fst e) 0 id (e :: l')) - 1) with id'; auto. rewrite A, app_length. cbn [length]. lia.
Qed.

(* ---- loops over the bits of a mask ---- *)
Lemma bits_loop_fold {St} (step : nat -> St -> option St) k : forall fuel m st, m <= k -> length (mask_bits k m) <= fuel ->
  bits_loop step fuel m st = fold_opt (fun st c => step c st) (mask_bits k m) st.
Proof.
  induction k as [|k IH]; intros fuel m st Hm Hl; cbn [mask_bits] in *.
  - replace m with 0 by lia. destruct fuel; reflexivity.
  - destruct (Nat.eqb_spec m 0) as [->|N]. { destruct fuel; reflexivity. } cbn [length] in Hl. destruct fuel as [|fuel]; [lia|]. cbn [bits_loop fold_opt].
    apply Nat.eqb_neq in N as N'. rewrite N'. rewrite sub_u_le by lia. destruct (step (ctz m) st) as [st'|]; auto. apply IH. pose proof (clear_lowest_lt m N). lia. lia.
Qed.

Section Cands.
Variables n u : nat.
Variable hash : list nat -> nat.
Hypothesis Hu : u <= n.
Hypothesis Hn : n <= MAX_CHANNELS.

Lemma n16 : n < 16. Proof. unfold MAX_CHANNELS in Hn. lia. Qed.

Lemma mask_bits_length m : m < 2 ^ n -> length (mask_bits m m) <= n.
Proof.
  intros H. rewrite (Permutation_length (mask_bits_perm n m H)). unfold bits. etransitivity; [apply SubsumeProofs.filter_length_le|]. now rewrite seq_length.
Qed.
Lemma mask_bits_lt m c : m < 2 ^ n -> In c (mask_bits m m) -> c < n /\ Nat.testbit m c = true.
Proof. intros H I. apply (Permutation_in _ (mask_bits_perm n m H)) in I. now apply bits_In in I. Qed.

(* ---- parts ---- *)
Lemma swap_parts_m_ok a f ps : a < n -> f < n -> swap_parts_m a f ps = Some (map (swap_part a f) ps).
Proof.
  intros A F. pose proof n16. unfold swap_parts_m. rewrite !shl16_small by lia. f_equal. apply map_ext. intros e. unfold swap_part. f_equal. f_equal. f_equal. f_equal.
  pose proof (PackProofs.byte_bit_testbit (fst e) f) as B. unfold byte_bit in B. rewrite Nat.shiftl_1_l in B. now rewrite B.
Qed.

(* ---- slots ---- *)
Lemma load_parts r i c : load r i = Some c -> get_set r i = Some (c_set c) /\ rd (r_data r) i = Some (data_of c).
Proof.
  unfold load, rd. destruct (get_set r i) as [s|]; [|discriminate]. destruct (nth_error (r_data r) i) as [d|]; [|discriminate]. intros H. injection H as <-. now destruct d.
Qed.
Lemma get_set_length r i s : get_set r i = Some s -> (i + 1) * bitmap_len r <= length (r_bitmaps r) /\ length (bitmap s) = bitmap_len r /\ bitmap s = firstn (bitmap_len r) (skipn (i * bitmap_len r) (r_bitmaps r)).
Proof.
  unfold get_set. cbv zeta. destruct (Nat.leb_spec ((i + 1) * bitmap_len r) (length (r_bitmaps r))) as [H|]; [|discriminate]. intros E. injection E as <-. cbn [bitmap].
  split; auto. split; auto. rewrite firstn_length, skipn_length. nia.
Qed.
Lemma put_data_store r i s d d' : get_set r i = Some s -> rd (r_data r) i = Some d -> put_data r i d' = store r i (to_cand s d').
Proof.
  intros G D. destruct (get_set_length r i s G) as (B & L & Eb). assert (H : i < length (r_data r)) by (apply nth_error_Some; unfold rd in D; congruence).
  unfold put_data, store. cbv zeta. rewrite wr_lt by auto. cbn [to_cand c_set]. rewrite L, Nat.eqb_refl. apply Nat.leb_le in B as B'. rewrite B'. apply Nat.ltb_lt in H as H'. rewrite H'. cbn [andb].
  f_equal. f_equal.
  - rewrite Eb. rewrite <- (firstn_skipn (i * bitmap_len r) (r_bitmaps r)) at 1. f_equal. rewrite <- (firstn_skipn (bitmap_len r) (skipn (i * bitmap_len r) (r_bitmaps r))) at 1. f_equal.
    rewrite skipn_twice. f_equal. lia.
  - now destruct d'.
Qed.
Lemma put_both r i s d s' d' : get_set r i = Some s -> rd (r_data r) i = Some d -> length (bitmap s') = bitmap_len r ->
  exists r1, put_set r i s' = Some r1 /\ put_data r1 i d' = store r i (to_cand s' d').
Proof.
  intros G D L'. destruct (get_set_length r i s G) as (B & L & Eb). assert (H : i < length (r_data r)) by (apply nth_error_Some; unfold rd in D; congruence).
  unfold put_set, store. cbv zeta. cbn [to_cand c_set]. rewrite L', Nat.eqb_refl. apply Nat.leb_le in B as B'. rewrite B'. apply Nat.ltb_lt in H as H'. rewrite H'. cbn [andb].
  eexists. split. reflexivity. unfold put_data. cbn [with_slots r_data r_bitmaps]. rewrite wr_lt by auto. now destruct d'.
Qed.
Lemma sort_partition_m_ok s d c' : sort_partition (to_cand s d) = Some c' -> sort_partition_m d = Some (data_of c') /\ c' = to_cand s (data_of c').
Proof.
  unfold sort_partition, sort_partition_m. cbv zeta. cbn [to_cand c_part c_set c_perm c_invert c_fp]. destruct (take_singles _) as [k|]; [|discriminate].
  destruct (isort part_leb (d_part d)) as [|e p]; [discriminate|]. intros H. injection H as <-. cbn. auto.
Qed.

Definition good (c : Cand) : Prop := wf (c_set c) /\ channels (c_set c) = n /\ length (c_perm c) = n.
Definition pgood (f : nat) (c : Cand) : Prop :=
  Forall (fun e => fst e <> 0 /\ fst e < 2 ^ n /\ forall ch, Nat.testbit (fst e) ch = true -> f <= ch < u) (c_part c).

Lemma fits_le {A} (l : list A) : fits l = true -> length l <= CVEC.
Proof. intros H. apply Nat.leb_le in H. exact H. Qed.
Lemma split_part_len f chs id ps fps : split_part f chs id = Some (ps, fps) -> length fps = length chs.
Proof.
  unfold split_part. cbv zeta. pose proof (Permutation_length (isort_perm pair_leb (map (fun ch => (f ch, ch)) chs))) as L. rewrite map_length in L.
  destruct (isort pair_leb (map (fun ch => (f ch, ch)) chs)) as [|e l]; [discriminate|]. intros H. injection H as _ <-. rewrite <- L. cbn. now rewrite map_length.
Qed.

Lemma init_slot m i c c' r' : load (m_arena m) i = Some c -> good c -> r_used (m_arena m) = u -> initialize_cand u c = Some c' ->
  store (m_arena m) i c' = Some r' -> mach_initialize_slot m i = Some (with_arena m r').
Proof.
  intros L (W & C & _) U I St. destruct (load_parts _ _ _ L) as (G & D). unfold mach_initialize_slot. rewrite G, U.
  rewrite (MachineProofs.map_opt_all _ (fun ch => (channel_fingerprint (c_set c) ch, ch))).
  2: { intros ch Hc. apply in_seq in Hc. now rewrite channel_fingerprint_ok by (auto; lia). }
  rewrite collect_le by (rewrite map_length, seq_length; unfold CVEC; lia). rewrite D.
  unfold initialize_cand in I. destruct (split_part (channel_fingerprint (c_set c)) (seq 0 u) 0) as [(ps, fps)|] eqn:Sp; [|discriminate]. cbv zeta in I.
  destruct (fits (c_part c ++ ps) && fits (c_fp c ++ fps)) eqn:Fi; [|discriminate]. apply andb_true_iff in Fi. destruct Fi as (F1 & F2). apply fits_le in F1, F2. rewrite app_length in F1, F2.
  cbn [data_of d_part d_fp d_perm d_invert d_score]. pose proof n16.
  rewrite (cut_m_ok (channel_fingerprint (c_set c)) (seq 0 u) 0 ps fps) by (auto; try (apply Forall_forall; intros x Hx; apply in_seq in Hx; lia); unfold CVEC, MAX_CHANNELS in *; lia).
  destruct (sort_partition_m_ok (c_set c) (mkData (c_perm c) (c_invert c) (c_fp c ++ fps) (c_part c ++ ps) (c_score c)) c' I) as (E & Ec). rewrite E.
  rewrite (put_data_store _ _ _ _ _ G D), <- Ec, St. reflexivity.
Qed.

Lemma refine_channels_ok s f l : wf s -> channels s = n -> (forall c, In c l -> f <= c < n) -> forall acc buffer, length acc + length l <= CVEC ->
  exists b, fold_opt (fun st c => refine_channel hash s f c st) l (acc, buffer) = Some (acc ++ map (fun ch => (low_channels_channel_fingerprint hash s f ch, ch)) l, b).
Proof.
  intros W C. induction l as [|c l IH]; intros Hl acc buffer Le; cbn [fold_opt map length] in *. { rewrite app_nil_r. eauto. }
  unfold refine_channel at 1. destruct (low_channel_fingerprint_m_ok hash s f c buffer W) as (b & ->). apply Hl; now left. rewrite C. apply Hl; now left.
  rewrite push_lt by lia. destruct (IH (fun x Hx => Hl x (or_intror Hx)) (acc ++ [(low_channels_channel_fingerprint hash s f c, c)]) b) as (b' & ->).
  { rewrite app_length. cbn [length]. lia. } exists b'. now rewrite <- app_assoc.
Qed.

Lemma refine_parts_ok s f l : wf s -> channels s = n ->
  Forall (fun e : nat * nat => fst e <> 0 /\ fst e < 2 ^ n /\ forall ch, Nat.testbit (fst e) ch = true -> f <= ch < u) l ->
  forall part fp id buffer ps fps, refine_parts (low_channels_channel_fingerprint hash s f) l id = Some (ps, fps) ->
  length part + length ps <= CVEC -> length fp + length fps <= CVEC -> id + length ps <= 100 ->
  exists b, fold_opt (refine_part hash s f) l (part, fp, id, buffer) = Some (part ++ ps, fp ++ fps, id + length ps, b).
Proof.
  intros W C. induction l as [|e l IH]; intros F part fp id buffer ps fps E LP LF LI; cbn [refine_parts fold_opt] in *.
  - injection E as <- <-. cbn [length]. rewrite !app_nil_r, Nat.add_0_r. eauto.
  - apply Forall_cons_iff in F. destruct F as ((NZ & Lt & Fb) & F'). destruct (split_part _ _ id) as [(p1, f1)|] eqn:Sp; [|discriminate]. destruct (refine_parts _ l _) as [(p2, f2)|] eqn:Rp; [|discriminate].
    injection E as <- <-. rewrite app_length in *. pose proof n16. pose proof (mask_bits_length (fst e) Lt) as ML. pose proof (split_part_len _ _ _ _ _ Sp) as FL.
    unfold refine_part at 1. rewrite (bits_loop_fold _ (fst e)) by lia.
    destruct (refine_channels_ok s f (mask_bits (fst e) (fst e)) W C) with (acc := @nil (nat * nat)) (buffer := buffer) as (b & ->).
    { intros c Hc. destruct (mask_bits_lt _ _ Lt Hc) as (X & Y). apply Fb in Y. lia. } { cbn [length]. unfold CVEC. lia. }
    cbn [app]. rewrite (cut_m_ok _ _ id p1 f1 part fp Sp); try lia.
    2: { apply Forall_forall. intros x Hx. apply mask_bits_lt in Hx; auto. lia. }
    assert (P1 : 0 < length p1).
    { unfold split_part in Sp. cbv zeta in Sp. destruct (isort _ _); [discriminate|]. pose proof (f_equal (fun o => match o with Some x => fst x | None => [] end) Sp) as X. cbn [fst] in X. rewrite <- X. apply cut_length. }
    rewrite inc16_small by lia. replace (id + length p1 - 1 + 1) with (id + length p1) by lia.
    destruct (IH F' (part ++ p1) (fp ++ f1) (id + length p1) b p2 f2 Rp) as (b' & ->); try (rewrite ?app_length; lia).
    exists b'. now rewrite <- !app_assoc, Nat.add_assoc.
Qed.

Lemma refine_slot m i c c' r' : load (m_arena m) i = Some c -> good c -> pgood (r_fixed (m_arena m)) c -> refine_cand hash (r_fixed (m_arena m)) c = Some c' ->
  store (m_arena m) i c' = Some r' -> exists b, mach_refine_slot hash m i = Some (mkCanonM r' b (m_temp m)).
Proof.
  intros L (W & C & _) PG I St. destruct (load_parts _ _ _ L) as (G & D). unfold mach_refine_slot. rewrite D, G. cbn [data_of d_part d_fp d_perm d_invert d_score].
  unfold refine_cand in I. destruct (refine_parts _ _ 0) as [(ps, fps)|] eqn:Rp; [|discriminate].
  destruct (fits ps && fits fps) eqn:Fi; [|discriminate]. apply andb_true_iff in Fi. destruct Fi as (F1 & F2). apply fits_le in F1, F2.
  destruct (refine_parts_ok (c_set c) (r_fixed (m_arena m)) (c_part c) W C PG [] [] 0 (m_buffer m) ps fps Rp) as (b & ->); auto. { unfold CVEC, MAX_CHANNELS in *. lia. }
  cbn [app]. destruct (sort_partition_m_ok (c_set c) (mkData (c_perm c) (c_invert c) fps ps (c_score c)) c' I) as (E & Ec). rewrite E.
  rewrite (put_data_store _ _ _ _ _ G D), <- Ec, St. eauto.
Qed.

End Cands.
