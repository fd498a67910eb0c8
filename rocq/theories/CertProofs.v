(* Files that start like a certificate, and files that start with a certificate. *)
From Coq Require Import List Arith Bool Lia ZArith.
Import ListNotations.
From Verif Require Import Spec Util OutputSetModel VerifiedCheckerModel VerifiedCheckerProofs RefCheckerModel RefCheckerProofs DecodeModel DecodeProofs.

Lemma skipn_firstn {A} (a b : nat) (l : list A) : skipn a (firstn b l) = firstn (b - a) (skipn a l).
Proof. revert b l. induction a as [|a IH]; intros b l. now rewrite Nat.sub_0_r. destruct b as [|b], l as [|x l]; cbn [firstn skipn Nat.sub]; rewrite ?firstn_nil; auto. Qed.
Lemma skipn_skipn' {A} (a b : nat) (l : list A) : skipn a (skipn b l) = skipn (b + a) l.
Proof. revert l. induction b as [|b IH]; intros l; auto. destruct l; cbn [skipn Nat.add]; auto. now rewrite skipn_nil. Qed.
Lemma readLE_cut n k l : readLE n (firstn k l) = None \/ n <= k /\ readLE n (firstn k l) = readLE n l.
Proof.
  unfold readLE. rewrite firstn_length. destruct (Nat.ltb_spec (Nat.min k (length l)) n); auto. right. split. lia.
  destruct (Nat.ltb_spec (length l) n); [lia|]. rewrite firstn_firstn. now rewrite Nat.min_l by lia.
Qed.
Lemma readLE_more n l r : n <= length l -> readLE n (l ++ r) = readLE n l.
Proof.
  intros H. unfold readLE. rewrite app_length. destruct (Nat.ltb_spec (length l + length r) n); [lia|]. destruct (Nat.ltb_spec (length l) n); [lia|].
  rewrite firstn_app. replace (n - length l) with 0 by lia. now rewrite firstn_O, app_nil_r.
Qed.

(* ---- the headers ---- *)
Definition start_of (steps : list (list nat)) (i : nat) : nat := 4 + 12 * length steps + total (firstn i steps).
Lemma header_written steps i : file_fits steps -> i < length steps ->
  let h := skipn (4 + 12 * i) (write_proof steps) in
  read64LE h = Some (Z.of_nat (start_of steps i)) /\ read32LE (skipn 8 h) = Some (Z.of_nat (length (nth i steps []))).
Proof.
  intros (F1 & F2 & F3) Hi h. unfold h, write_proof. cbv zeta. clear h.
  set (n := Z.of_nat (length steps)). set (H := write_headers (4 + (8 + 4) * n) steps).
  replace (skipn (4 + 12 * i) (le_bytes 4 n ++ H ++ concat steps)) with
    (le_bytes 8 (Z.of_nat (start_of steps i)) ++
     le_bytes 4 (Z.of_nat (length (nth i steps []))) ++
     write_headers (Z.of_nat (start_of steps i) + Z.of_nat (length (nth i steps []))) (skipn (S i) steps)
     ++ concat steps).
  2:{ replace (4 + 12 * i) with (length (le_bytes 4 n) + 12 * i) by now rewrite le_bytes_length.
      rewrite skipn_app_ge, skipn_app. unfold H at 1. rewrite skip_headers by lia.
      replace (12 * i - length H) with 0 by (unfold H; rewrite headers_length; lia).
      rewrite skipn_O. replace (4 + (8 + 4) * n + Z.of_nat (total (firstn i steps)))%Z with (Z.of_nat (start_of steps i)) by (unfold n, start_of; lia).
      assert (E : skipn i steps = nth i steps [] :: skipn (S i) steps).
      { clear -Hi. revert steps Hi. induction i; intros [|s st] Hi; simpl in *; try lia; auto. apply IHi. lia. }
      rewrite E. cbn [write_headers]. now rewrite <- !app_assoc. }
  pose proof (total_firstn i steps). split. { apply read64_bytes. unfold start_of. lia. }
  match goal with |- context [skipn 8 (le_bytes 8 ?v ++ ?r)] =>
    replace (skipn 8 (le_bytes 8 v ++ r)) with r by
      (replace 8 with (length (le_bytes 8 v) + 0) at 1 by (rewrite le_bytes_length; auto); now rewrite skipn_app_ge, skipn_O) end.
  apply read32_bytes. rewrite Forall_forall in F2. split; [lia|]. apply F2, nth_In. lia.
Qed.
Lemma data_written steps i : i < length steps -> firstn (length (nth i steps [])) (skipn (start_of steps i) (write_proof steps)) = nth i steps [].
Proof.
  intros Hi. unfold write_proof. cbv zeta. rewrite app_assoc. set (hd := le_bytes 4 _ ++ _).
  replace (start_of steps i) with (length hd + total (firstn i steps)) by (unfold hd; rewrite app_length, le_bytes_length, headers_length; reflexivity).
  rewrite skipn_app_ge, skip_concat.
  assert (E : skipn i steps = nth i steps [] :: skipn (S i) steps).
  { clear -Hi. revert steps Hi. induction i; intros [|s st] Hi; simpl in *; try lia; auto. apply IHi. lia. }
  rewrite E. cbn [concat]. rewrite firstn_app, Nat.sub_diag, firstn_O, app_nil_r. apply firstn_all.
Qed.
Lemma file_length steps : length (write_proof steps) = 4 + 12 * length steps + total steps.
Proof. unfold write_proof, total. cbv zeta. rewrite !app_length, le_bytes_length, headers_length. lia. Qed.
Lemma start_end steps i : i < length steps -> start_of steps i + length (nth i steps []) + total (skipn (S i) steps) = length (write_proof steps).
Proof.
  intros Hi. rewrite file_length. assert (T : total steps = total (firstn i steps) + total (skipn i steps)) by (unfold total; rewrite <- app_length, <- concat_app, firstn_skipn; auto). rewrite T. unfold start_of, total.
  assert (E : skipn i steps = nth i steps [] :: skipn (S i) steps).
  { clear -Hi. revert steps Hi. induction i; intros [|s st] Hi; simpl in *; try lia; auto. apply IHi. lia. }
  rewrite E. cbn [concat]. rewrite app_length. lia.
Qed.

(* ---- cutting the file ---- *)
Lemma step_cut steps i k : file_fits steps -> i < length steps ->
  step_bytes (firstn k (write_proof steps)) (Z.of_nat i) = None \/
  step_bytes (firstn k (write_proof steps)) (Z.of_nat i) = Some (firstn (k - start_of steps i) (nth i steps [])).
Proof.
  intros F Hi. destruct (header_written steps i F Hi) as (A & B). unfold step_bytes. cbv zeta. replace (4 + 12 * Z.of_nat i)%Z with (Z.of_nat (4 + 12 * i)) by lia.
  rewrite zdrop_skipn, skipn_firstn. unfold read64LE, read32LE in *.
  destruct (readLE_cut 8 (k - (4 + 12 * i)) (skipn (4 + 12 * i) (write_proof steps))) as [E|(K & E)]; rewrite E; [now left|]. rewrite A. cbn [bind].
  change 8%Z with (Z.of_nat 8). rewrite zdrop_skipn, skipn_firstn.
  destruct (readLE_cut 4 (k - (4 + 12 * i) - 8) (skipn 8 (skipn (4 + 12 * i) (write_proof steps)))) as [E'|(K' & E')]; rewrite E'; [now left|]. rewrite B. cbn [bind]. right.
  f_equal. rewrite zdrop_skipn, ztake_firstn, skipn_firstn, firstn_firstn, Nat.min_comm, <- firstn_firstn. f_equal. now apply data_written.
Qed.
Lemma step_more steps i r : file_fits steps -> i < length steps ->
  step_bytes (write_proof steps ++ r) (Z.of_nat i) = step_bytes (write_proof steps) (Z.of_nat i).
Proof.
  intros F Hi. rewrite step_written by auto. destruct (header_written steps i F Hi) as (A & B). unfold step_bytes. cbv zeta. replace (4 + 12 * Z.of_nat i)%Z with (Z.of_nat (4 + 12 * i)) by lia.
  pose proof (file_length steps) as L. pose proof (start_end steps i Hi) as Se.
  rewrite zdrop_skipn, skipn_app. replace (4 + 12 * i - length (write_proof steps)) with 0 by lia. rewrite skipn_O. unfold read64LE, read32LE in *. rewrite readLE_more by (rewrite skipn_length; lia). rewrite A. cbn [bind].
  change 8%Z with (Z.of_nat 8). rewrite zdrop_skipn, skipn_app, skipn_length. replace (8 - (length (write_proof steps) - (4 + 12 * i))) with 0 by lia. rewrite skipn_O, readLE_more by (rewrite !skipn_length; lia). rewrite B. cbn [bind].
  f_equal. rewrite zdrop_skipn, ztake_firstn, skipn_app. replace (start_of steps i - length (write_proof steps)) with 0 by lia. rewrite skipn_O, firstn_app, skipn_length.
  replace (length (nth i steps []) - (length (write_proof steps) - start_of steps i)) with 0 by lia. rewrite firstn_O, app_nil_r. now apply data_written.
Qed.

(* ---- cutting a step ---- *)
Lemma witnesses_cut : forall fuel fuel' ch bs j ws, length bs < fuel -> j < fuel' -> j < length bs -> decodeWitnesses_f fuel ch bs = Some ws ->
  decodeWitnesses_f fuel' ch (firstn j bs) = None \/ exists ws', decodeWitnesses_f fuel' ch (firstn j bs) = Some ws' /\ length ws' < length ws.
Proof.
  induction fuel as [|f IH]; intros fuel' ch bs j ws Hf Hf' Hj E; [lia|]. destruct bs as [|b r]; [cbn in Hj; lia|]. destruct fuel' as [|f']; [lia|].
  assert (Ps : 0 < length ws).
  { cbn [decodeWitnesses_f] in E. destruct b as [|[|[|b]]]; try discriminate. 1, 2: destruct (read32LE _); [|discriminate]; cbn [bind] in E; destruct (decodeWitnesses_f _ _ _); [|discriminate]; cbn [bind] in E; injection E as <-; cbn; lia.
    destruct (decodeWitnesses_f _ _ _); [|discriminate]; cbn [bind] in E; injection E as <-; cbn; lia. }
  destruct j as [|j]. { right. exists []. split; auto. }
  cbn [firstn]. cbn [decodeWitnesses_f] in E |- *. cbn [length] in *.
  assert (W : forall inv : bool, bind (read32LE (skipn ch r)) (fun id => bind (decodeWitnesses_f f ch (skipn 4 (skipn ch r))) (fun ws => Some (Some (mkWitness id inv (firstn ch r)) :: ws))) = Some ws ->
    let X := bind (read32LE (skipn ch (firstn j r))) (fun id => bind (decodeWitnesses_f f' ch (skipn 4 (skipn ch (firstn j r)))) (fun ws => Some (Some (mkWitness id inv (firstn ch (firstn j r))) :: ws))) in
    X = None \/ exists ws', X = Some ws' /\ length ws' < length ws).
  { intros inv E'. cbv zeta. rewrite skipn_firstn. unfold read32LE in *. destruct (readLE_cut 4 (j - ch) (skipn ch r)) as [C|(K & C)]; rewrite C; [now left|].
    destruct (readLE 4 (skipn ch r)) as [id|]; [|discriminate]. cbn [bind] in *. rewrite skipn_firstn. destruct (decodeWitnesses_f f ch (skipn 4 (skipn ch r))) as [w1|] eqn:E1; [|discriminate]. cbn [bind] in E'. injection E' as <-.
    destruct (IH f' ch (skipn 4 (skipn ch r)) (j - ch - 4) w1) as [N|(w' & N & L)]; auto; try (rewrite ?skipn_length; lia); rewrite N; cbn [bind]; [now left|right]. eexists. split; [reflexivity|]. cbn; lia. }
  destruct b as [|[|[|b]]]; try discriminate; auto.
  destruct (decodeWitnesses_f f ch r) as [w1|] eqn:E1; [|discriminate]. cbn [bind] in E. injection E as <-.
  destruct (IH f' ch r j w1) as [N|(w' & N & L)]; auto; try lia; rewrite N; cbn [bind]; [now left|right]. eexists. split; [reflexivity|]. cbn; lia.
Qed.

Definition shape (w : Witnesses) : option bool := match w with Huffman p _ => Some p | Successors _ => None end.
Lemma nth_error_cut {A} i : forall k (l : list A), i < k -> nth_error (firstn k l) i = nth_error l i.
Proof. induction i as [|i IH]; intros [|k] [|x l] H; cbn; auto; try lia. apply IH. lia. Qed.
Lemma zdrop_pos {A} k (l : list A) : zdrop k l = skipn (Z.to_nat k) l.
Proof.
  destruct (Z.leb_spec k 0). { unfold zdrop. replace (k <=? 0)%Z with true by (symmetry; now apply Z.leb_le). now replace (Z.to_nat k) with 0 by lia. }
  rewrite <- (Z2Nat.id k) at 1 by lia. apply zdrop_skipn.
Qed.
Lemma ztake_pos {A} k (l : list A) : ztake k l = firstn (Z.to_nat k) l.
Proof.
  destruct (Z.leb_spec k 0). { unfold ztake. replace (k <=? 0)%Z with true by (symmetry; now apply Z.leb_le). now replace (Z.to_nat k) with 0 by lia. }
  rewrite <- (Z2Nat.id k) at 1 by lia. apply ztake_firstn.
Qed.
Lemma decode_cut d j s : j < length d -> decodeProofStep d = Some s ->
  decodeProofStep (firstn j d) = None \/ exists s', decodeProofStep (firstn j d) = Some s' /\
    vectSet s' = vectSet s /\ rbound s' = rbound s /\ shape (witnesses s') = shape (witnesses s) /\ length (list_of (witnesses s')) < length (list_of (witnesses s)).
Proof.
  intros Hj E. destruct (decodeProofStep (firstn j d)) as [s'|] eqn:E'; [right|now left]. exists s'. split; auto.
  unfold decodeProofStep in *. destruct (nth_error d 0) as [c|] eqn:E0; [|discriminate]. destruct (nth_error (firstn j d) 0) as [c'|] eqn:E0'; [|discriminate].
  assert (J0 : 0 < length (firstn j d)) by (apply nth_error_Some; congruence). rewrite firstn_length in J0. rewrite nth_error_cut in E0' by lia. rewrite E0 in E0'. injection E0' as <-. cbn [bind] in *.
  destruct (nth_error d 1) as [b|] eqn:E1; [|discriminate]. destruct (nth_error (firstn j d) 1) as [b'|] eqn:E1'; [|discriminate].
  assert (J1 : 1 < length (firstn j d)) by (apply nth_error_Some; congruence). rewrite firstn_length in J1. rewrite nth_error_cut in E1' by lia. rewrite E1 in E1'. injection E1' as <-. cbn [bind] in *.
  set (el := encodedSetLength c) in *. rewrite !ztake_pos, !zdrop_pos in E, E'. change (Z.to_nat 1) with 1 in *. change (Z.to_nat 2) with 2 in *.
  rewrite !skipn_firstn in E'. set (p := Z.to_nat (el + 2)) in *.
  destruct (nth_error (firstn (j - p) (skipn p d)) 0) as [k'|] eqn:Ek'; [|discriminate]. assert (J2 : 0 < length (firstn (j - p) (skipn p d))) by (apply nth_error_Some; congruence). rewrite firstn_length, skipn_length in J2.
  rewrite nth_error_cut in Ek' by lia. rewrite Ek' in E. cbn [bind] in *.
  rewrite firstn_firstn, Nat.min_l in E' by lia.
  set (V := fromBytes c (firstn (Z.to_nat el) (skipn 2 d))) in *.
  assert (R : forall (wt : (list (option Witness) -> Witnesses) * nat) (Hs : forall a b, shape (fst wt a) = shape (fst wt b)) (Hl : forall a, list_of (fst wt a) = a),
    bind (decodeWitnesses (snd wt) (skipn 1 (skipn p d))) (fun ws => Some (mkRefStep V b (fst wt ws))) = Some s ->
    bind (decodeWitnesses (snd wt) (firstn (j - p - 1) (skipn 1 (skipn p d)))) (fun ws => Some (mkRefStep V b (fst wt ws))) = Some s' ->
    vectSet s' = vectSet s /\ rbound s' = rbound s /\ shape (witnesses s') = shape (witnesses s) /\ length (list_of (witnesses s')) < length (list_of (witnesses s))).
  { intros (wt, ch) Hs Hl A A'. cbn [fst snd] in *. unfold decodeWitnesses in *. destruct (decodeWitnesses_f _ ch (skipn 1 (skipn p d))) as [ws|] eqn:Ew; [|discriminate]. cbn [bind] in A. injection A as <-.
    destruct (decodeWitnesses_f _ ch (firstn _ _)) as [ws'|] eqn:Ew' in A'; [|discriminate]. cbn [bind] in A'. injection A' as <-. cbn [vectSet rbound witnesses]. rewrite !Hl.
    split; auto. split; auto. split; auto.
    clearbody V p. clear E E' Hs Hl. set (bs := skipn 1 (skipn p d)) in *. assert (Lb : j - p - 1 < length bs) by (unfold bs; rewrite !skipn_length; clear -J2 Hj; lia).
    assert (Lf : j - p - 1 < S (length (firstn (j - p - 1) bs))) by (rewrite firstn_length; clear -Lb; lia). clearbody bs.
    destruct (witnesses_cut _ _ ch bs (j - p - 1) ws (Nat.lt_succ_diag_r _) Lf Lb Ew) as [N|(w & N & L)].
    rewrite Ew' in N; discriminate. rewrite Ew' in N. injection N as ->. exact L. }
  destruct k' as [|[|[|k']]]; [| | |discriminate]; cbn [bind] in E, E'.
  - apply (R (Huffman false, c - 1)); auto.
  - apply (R (Huffman true, c - 1)); auto.
  - apply (R (Successors, c)); auto.
Qed.

(* ---- both checkers want the right number of witnesses ---- *)
Lemma v_wants st lim s s' : check_step st lim (translateStep s) = true -> vectSet s' = vectSet s -> shape (witnesses s') = shape (witnesses s) ->
  length (list_of (witnesses s')) < length (list_of (witnesses s)) -> forall st', check_step st' lim (translateStep s') = true -> False.
Proof.
  destruct s as [v b w], s' as [v' b' w']. cbn [vectSet witnesses]. intros C -> S L st' C'. destruct w as [p ws|ws], w' as [p' ws'|ws']; cbn [shape list_of] in *; try discriminate.
  - injection S as ->. cbn [check_step translateStep step_witnesses witnesses translateWitnesses] in C, C'. unfold check_huffman in C, C'.
    cbn [translateStep step_witnesses step_width step_vect_list witnesses translateWitnesses vectSet] in C, C'. rewrite !andb_true_iff in C, C'. destruct C as ((((_ & _) & C) & _) & _), C' as ((((_ & _) & C') & _) & _).
    apply Nat.eqb_eq in C, C'. pose proof (eq_trans (eq_sym C) C') as Q. unfold translateWitnessList in Q. rewrite !map_length in Q. clear -Q L. lia.
  - cbn [check_step translateStep step_witnesses witnesses translateWitnesses] in C, C'. unfold check_successors in C, C'.
    cbn [translateStep step_witnesses step_width step_vect_list witnesses translateWitnesses vectSet] in C, C'. rewrite !andb_true_iff in C, C'. destruct C as (((_ & C) & _) & _), C' as (((_ & C') & _) & _).
    apply Nat.eqb_eq in C, C'. pose proof (eq_trans (eq_sym C) C') as Q. unfold translateWitnessList in Q. rewrite !map_length in Q. clear -Q L. lia.
Qed.
Lemma check_true b : check b = Some tt -> b = true.
Proof. destruct b; auto; discriminate. Qed.
Lemma r_wants st i s s' : st i = Some s -> checkStep st i = Some tt -> vectSet s' = vectSet s -> shape (witnesses s') = shape (witnesses s) ->
  length (list_of (witnesses s')) < length (list_of (witnesses s)) -> forall st', st' i = Some s' -> checkStep st' i = Some tt -> False.
Proof.
  destruct s as [v b w], s' as [v' b' w']. cbn [vectSet witnesses]. intros E C -> S L st' E' C'. unfold checkStep in *. rewrite E in C. rewrite E' in C'. cbn [bind witnesses] in *.
  destruct w as [p ws|ws], w' as [p' ws'|ws']; cbn [shape list_of] in *; try discriminate.
  - injection S as ->. unfold checkHuffman in *. cbn [vectSet] in *. destruct (check (_ =? length ws)) as [[]|] eqn:K; [|discriminate]. destruct (check (_ =? length ws')) as [[]|] eqn:K'; [|discriminate].
    apply check_true, Nat.eqb_eq in K, K'. lia.
  - unfold checkSuccessors in *. cbn [vectSet] in *. destruct (check (1 + _ <? _)) as [[]|]; [|discriminate]. cbn [bind] in *. destruct (check (_ =? length ws)) as [[]|] eqn:K; [|discriminate]. destruct (check (_ =? length ws')) as [[]|] eqn:K'; [|discriminate].
    apply check_true, Nat.eqb_eq in K, K'. lia.
Qed.

(* ---- the runs ---- *)
Lemma all_decode_spec f n : all_decode f (Z.of_nat n) = true <-> forall i, i < n -> exists s, decode_step f (Z.of_nat i) = Some s.
Proof.
  unfold all_decode. rewrite Nat2Z.id, forallb_forall. split.
  - intros H i Hi. specialize (H i). destruct (decode_step f (Z.of_nat i)). eauto. discriminate H. apply in_seq. lia.
  - intros H i Hi. apply in_seq in Hi. destruct (H i) as (s & ->); auto. lia.
Qed.
Lemma count_cut steps k : file_fits steps -> step_count (firstn k (write_proof steps)) = None \/ step_count (firstn k (write_proof steps)) = Some (Z.of_nat (length steps)).
Proof. intros F. unfold step_count, read32LE. destruct (readLE_cut 4 k (write_proof steps)) as [E|(_ & E)]; rewrite E; auto. right. now apply count_written. Qed.
(* the last step of a file that was cut *)
Lemma last_cut steps k s : file_fits steps -> 0 < length steps -> k < length (write_proof steps) ->
  decode_step (write_proof steps) (Z.of_nat (length steps - 1)) = Some s -> decode_step (firstn k (write_proof steps)) (Z.of_nat (length steps - 1)) = None \/
  exists s', decode_step (firstn k (write_proof steps)) (Z.of_nat (length steps - 1)) = Some s' /\
    vectSet s' = vectSet s /\ rbound s' = rbound s /\ shape (witnesses s') = shape (witnesses s) /\ length (list_of (witnesses s')) < length (list_of (witnesses s)).
Proof.
  intros F P K E. set (m := length steps - 1) in *. assert (Hm : m < length steps) by (unfold m; lia). unfold decode_step in *. rewrite step_written in E by auto. cbn [bind] in E.
  destruct (step_cut steps m k F Hm) as [X|X]; rewrite X; [now left|]. cbn [bind]. apply decode_cut; auto.
  pose proof (start_end steps m Hm) as Se. rewrite skipn_all2 in Se by (unfold m; lia). change (total []) with 0 in Se.
  assert (0 < length (nth m steps [])). { destruct (nth m steps []); [discriminate|cbn; lia]. } lia.
Qed.
Lemma steps_of f i : forall s, decode_step f i = Some s -> step_or f i = s.
Proof. intros s E. unfold step_or. now rewrite E. Qed.
Lemma v_run f c r : check_proof_get_bound (translateProofSteps (Z.of_nat c) (step_or f)) = Some r ->
  0 < c /\ forall i, i < c -> check_step (fun i => translateStep (step_or f i)) (Z.of_nat i) (translateStep (step_or f (Z.of_nat i))) = true.
Proof.
  unfold check_proof_get_bound. cbn [translateProofSteps cert_length cert_step]. destruct (check_proof _) eqn:C; [|discriminate]. destruct (Z.ltb_spec 0 (Z.of_nat c)); [|discriminate]. intros _. split. lia.
  intros i Hi. unfold check_proof in C. cbn [translateProofSteps cert_length cert_step] in C. apply andb_true_iff in C. destruct C as (_ & C). unfold par_range_all in C. rewrite Nat2Z.id in C.
  rewrite par_range_spec in C by auto. apply C. lia.
Qed.
Lemma v_cut steps k r : file_fits steps -> snocheck_v (write_proof steps) = Some r -> k < length (write_proof steps) -> snocheck_v (firstn k (write_proof steps)) = None.
Proof.
  intros F A K. unfold snocheck_v in *. rewrite count_written in A by auto. cbn [bind] in A. destruct (all_decode (write_proof steps) _) eqn:D; [|discriminate].
  destruct (v_run _ _ _ A) as (P & C). destruct (count_cut steps k F) as [E|E]; rewrite E; auto. cbn [bind]. destruct (all_decode (firstn k _) _) eqn:D'; auto.
  destruct (check_proof_get_bound (translateProofSteps _ (step_or (firstn k _)))) as [r'|] eqn:A'; auto. exfalso. destruct (v_run _ _ _ A') as (_ & C').
  rewrite all_decode_spec in D, D'. destruct (D (length steps - 1) ltac:(lia)) as (s & Es). destruct (D' (length steps - 1) ltac:(lia)) as (s' & Es').
  destruct (last_cut steps k s F P K Es) as [N|(s1 & N & V & _ & S & L)]; [congruence|]. rewrite Es' in N. injection N as <-.
  specialize (C (length steps - 1) ltac:(lia)). specialize (C' (length steps - 1) ltac:(lia)). rewrite (steps_of _ _ _ Es) in C. rewrite (steps_of _ _ _ Es') in C'. exact (v_wants _ _ s s' C V S L _ C').
Qed.
Lemma r_cut steps k r : file_fits steps -> snocheck_r (write_proof steps) = Some r -> k < length (write_proof steps) -> snocheck_r (firstn k (write_proof steps)) = None.
Proof.
  intros F A K. unfold snocheck_r in *. rewrite count_written in A by auto. cbn [bind] in A. destruct (all_decode (write_proof steps) _) eqn:D; [|discriminate].
  assert (P : 0 < length steps). { destruct steps; [|cbn; lia]. exfalso. vm_compute in A. discriminate. }
  destruct (count_cut steps k F) as [E|E]; rewrite E; auto. cbn [bind]. destruct (all_decode (firstn k _) _) eqn:D'; auto.
  replace (Z.of_nat (length steps) - 1)%Z with (Z.of_nat (length steps - 1)) in * by lia.
  rewrite all_decode_spec in D, D'. destruct (D (length steps - 1) ltac:(lia)) as (s & Es). destruct (D' (length steps - 1) ltac:(lia)) as (s' & Es').
  rewrite Es in A. rewrite Es'. cbn [bind] in *. destruct (checkProof _ (step_or (firstn k _))) as [r'|] eqn:A'; auto. exfalso. unfold checkProof in A, A'.
  match type of A with bind ?x _ = _ => destruct x as [[]|] eqn:C; [|discriminate] end.
  match type of A' with bind ?x _ = _ => destruct x as [[]|] eqn:C'; [|discriminate] end. rewrite par_check_range_spec in C, C' by lia.
  destruct (last_cut steps k s F P K Es) as [N|(s1 & N & V & _ & S & L)]; [congruence|]. rewrite Es' in N. injection N as <-.
  specialize (C (Z.of_nat (length steps - 1)) ltac:(lia)). specialize (C' (Z.of_nat (length steps - 1)) ltac:(lia)).
  assert (I : ((0 <=? Z.of_nat (length steps - 1)) && (Z.of_nat (length steps - 1) <? Z.of_nat (length steps)))%Z = true) by (apply andb_true_iff; split; [apply Z.leb_le|apply Z.ltb_lt]; lia).
  refine (r_wants _ _ s s' _ C V S L _ _ C'); cbv beta; rewrite I; f_equal; now apply steps_of.
Qed.
Lemma get_bound_ext st st' lim w width a : (forall i, (0 <= i < lim)%Z -> st i = st' i) -> get_bound st lim w width a = get_bound st' lim w width a.
Proof.
  intros H. unfold get_bound. destruct w as [w|]; auto. cbv zeta. destruct (negb ((0 <=? witness_step_id w)%Z && (witness_step_id w <? lim)%Z)) eqn:E; [reflexivity|].
  apply negb_false_iff, andb_true_iff in E. destruct E as (A & B). apply Z.leb_le in A. apply Z.ltb_lt in B. now rewrite H.
Qed.
Lemma check_step_ext st st' lim s : (forall i, (0 <= i < lim)%Z -> st i = st' i) -> check_step st lim s = check_step st' lim s.
Proof.
  intros H. unfold check_step. destruct (step_witnesses s) eqn:Ew.
  - unfold check_huffman. rewrite Ew. cbv zeta. match goal with |- context [map (fun e => get_bound st lim (snd e) ?n (fst e)) ?l] => replace (map (fun e => get_bound st lim (snd e) n (fst e)) l) with (map (fun e => get_bound st' lim (snd e) n (fst e)) l) end; [reflexivity|].
    apply map_ext. intros e. symmetry. now apply get_bound_ext.
  - unfold check_successors. rewrite Ew. cbv zeta. f_equal. match goal with |- list_all2 _ ?bs ?ws = _ => generalize bs ws end. intros bs. induction bs as [|b bs IH]; intros [|w ws']; cbn [list_all2]; auto.
    rewrite (get_bound_ext st st') by auto. f_equal. apply IH.
Qed.
Lemma checkStep_ext st st' i : (forall j, (j <= i)%Z -> st j = st' j) -> checkStep st i = checkStep st' i.
Proof.
  intros H. unfold checkStep. rewrite (H i) by lia. destruct (st' i) as [s|]; auto. cbn [bind].
  assert (G : forall w v, getBound (fun j => bind (check (j <? i)%Z) (fun _ => st j)) w v = getBound (fun j => bind (check (j <? i)%Z) (fun _ => st' j)) w v).
  { intros w v. unfold getBound. destruct w as [w|]; auto. cbv zeta. destruct (Z.ltb_spec (stepId w) i); cbn [check bind]; auto. now rewrite H by lia. }
  assert (M : forall A B (f g : A -> option B) l, (forall x, f x = g x) -> map_opt f l = map_opt g l). { intros A B f g l Hx. induction l as [|x l IH]; cbn [map_opt]; auto. now rewrite Hx, IH. }
  destruct (witnesses s); unfold checkHuffman, checkSuccessors; cbv zeta.
  - destruct (check _); auto. cbn [bind]. f_equal. apply M. intros e. destruct (pruneExtremal _ _ _); auto. cbn [bind]. apply G.
  - destruct (check _); auto. cbn [bind]. destruct (check _); auto. cbn [bind]. f_equal. apply M. intros e. now rewrite G.
Qed.
Lemma v_more steps r : file_fits steps -> 0 < length steps -> snocheck_v (write_proof steps ++ r) = snocheck_v (write_proof steps) /\ snocheck_r (write_proof steps ++ r) = snocheck_r (write_proof steps).
Proof.
  intros F P. assert (Sc : step_count (write_proof steps ++ r) = step_count (write_proof steps)). { unfold step_count, read32LE. apply readLE_more. rewrite file_length. lia. }
  assert (Ds : forall i, (0 <= i < Z.of_nat (length steps))%Z -> decode_step (write_proof steps ++ r) i = decode_step (write_proof steps) i).
  { intros i Hi. unfold decode_step. rewrite <- (Z2Nat.id i) by lia. rewrite step_more by (auto; lia). reflexivity. }
  unfold snocheck_v, snocheck_r. rewrite Sc, count_written by auto. cbn [bind].
  assert (Ad : all_decode (write_proof steps ++ r) (Z.of_nat (length steps)) = all_decode (write_proof steps) (Z.of_nat (length steps))).
  { apply eq_true_iff_eq. rewrite !all_decode_spec. split; intros H i Hi; destruct (H i Hi) as (s & E); exists s; rewrite Ds in *; auto; lia. }
  rewrite Ad. clear Ad. destruct (all_decode (write_proof steps) (Z.of_nat (length steps))); [|split; reflexivity]. rewrite Ds by lia.
  assert (So : forall i, (0 <= i < Z.of_nat (length steps))%Z -> step_or (write_proof steps ++ r) i = step_or (write_proof steps) i). { intros i Hi. unfold step_or. now rewrite Ds. }
  split.
  - unfold check_proof_get_bound. cbn [translateProofSteps cert_length cert_step]. rewrite (So (Z.of_nat (length steps) - 1)%Z) by lia.
    match goal with |- (if check_proof ?p && _ then _ else _) = (if check_proof ?q && _ then _ else _) => assert (Q : check_proof p = check_proof q) end; [|now rewrite Q].
    unfold check_proof. cbn [translateProofSteps cert_length cert_step]. cbv zeta. rewrite Nat2Z.id. f_equal.
    apply eq_true_iff_eq. unfold par_range_all. rewrite !par_range_spec by auto.
    assert (X : forall k, 0 <= k < 0 + length steps -> check_step (fun i => translateStep (step_or (write_proof steps ++ r) i)) (Z.of_nat k) (translateStep (step_or (write_proof steps ++ r) (Z.of_nat k))) =
      check_step (fun i => translateStep (step_or (write_proof steps) i)) (Z.of_nat k) (translateStep (step_or (write_proof steps) (Z.of_nat k)))).
    { intros k Hk. rewrite So by lia. apply check_step_ext. intros i Hi. rewrite So by lia. reflexivity. }
    split; intros H k Hk; [rewrite <- X|rewrite X]; auto.
  - destruct (decode_step _ _); auto. cbn [bind]. unfold checkProof. rewrite (So (Z.of_nat (length steps) - 1)%Z) by lia.
    match goal with |- bind (parCheckRange ?n (checkStep ?p) _ _) _ = bind (parCheckRange _ (checkStep ?q) _ _) _ => assert (Q : forall i, (0 <= i < Z.of_nat (length steps))%Z -> checkStep p i = checkStep q i) end.
    { intros i Hi. apply checkStep_ext. intros j Hj. destruct ((0 <=? j)%Z && (j <? Z.of_nat (length steps))%Z) eqn:B; auto. apply andb_true_iff in B. destruct B as (B1 & B2). apply Z.leb_le in B1. apply Z.ltb_lt in B2. now rewrite So. }
    match goal with |- bind ?x _ = bind ?y _ => assert (R : x = y) end; [|now rewrite R].
    match goal with |- ?x = ?y => assert (R : x = Some tt <-> y = Some tt) end.
    { rewrite !par_check_range_spec by lia. split; intros H i Hi; [rewrite <- Q|rewrite Q]; auto. }
    destruct (parCheckRange _ _ _ _) as [[]|], (parCheckRange _ _ _ _) as [[]|]; auto. destruct R as (R & _). discriminate (R eq_refl). destruct R as (_ & R). discriminate (R eq_refl).
Qed.
