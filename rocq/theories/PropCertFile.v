(* C62: certificates that are cut off or longer, and generators and fixers that are stopped. *)
From Coq Require Import String List Arith Bool Lia ZArith Permutation.
Import ListNotations.
From Verif Require Import Spec Util OutputSetModel OutputSetProofs TreeModel VerifiedCheckerModel RefCheckerModel DecodeModel DecodeProofs StatesProofs FileModel FileProofs LogModel DumpProofs PruneLogProofs CrashProofs
  ProofGenModel GenLoad GenEncode GenMain GenAccept PropDecode FixModel PropGen PropFix CertModel CertProofs.

(* ---- a file written byte by byte ---- *)
Lemma write_part name bytes : forall fs k old, fs name = Some old ->
  fs_run (firstn k (write_ops name bytes)) fs name = Some (old ++ firstn k bytes) /\ forall x, x <> name -> fs_run (firstn k (write_ops name bytes)) fs x = fs x.
Proof.
  induction bytes as [|b r IH]; intros fs k old H; cbn [write_ops map]. { rewrite !firstn_nil, app_nil_r. split; auto. }
  destruct k as [|k]; cbn [firstn]. { rewrite app_nil_r. split; auto. }
  destruct (IH (fs_do fs (Append name [b])) k (old ++ [b])) as (A & B). { cbn [fs_do]. now rewrite fs_set_same, H. }
  change (fs_run (Append name [b] :: firstn k (map (fun b => Append name [b]) r)) fs) with (fs_run (firstn k (write_ops name r)) (fs_do fs (Append name [b]))).
  split. { rewrite A, <- app_assoc. reflexivity. } intros x Hx. rewrite B by auto. cbn [fs_do]. now apply fs_set_other.
Qed.
Lemma file_part name bytes fs k : let fs' := fs_run (firstn k (Create name :: write_ops name bytes)) fs in
  (0 < k -> fs' name = Some (firstn (k - 1) bytes)) /\ forall x, x <> name -> fs' x = fs x.
Proof.
  destruct k as [|k]; cbv zeta; cbn [firstn]. { split; [lia|auto]. }
  destruct (write_part name bytes (fs_do fs (Create name)) k []) as (A & B). { apply fs_set_same. }
  change (fs_run (Create name :: firstn k (write_ops name bytes)) fs) with (fs_run (firstn k (write_ops name bytes)) (fs_do fs (Create name))).
  split. { intros _. rewrite A. now replace (S k - 1) with k by lia. } intros x Hx. rewrite B by auto. cbn [fs_do]. now apply fs_set_other.
Qed.
Lemma ops_length name bytes : length (Create name :: write_ops name bytes) = S (length bytes).
Proof. unfold write_ops. cbn [length]. now rewrite map_length. Qed.

Lemma ext_new line : with_extension line (str "pbin") <> new_name.
Proof. intros H. apply (f_equal (@rev nat)) in H. unfold with_extension in H. rewrite !rev_app_distr in H. vm_compute in H. discriminate. Qed.
Lemma gen_reads fs fs' groups sets fuel : pruned_log fs groups sets -> (forall name, name <> new_name -> fs' name = fs name) -> gen_proof fuel fs' = gen_proof fuel fs.
Proof.
  intros P H. unfold gen_proof. assert (E : load_indexes fs' = load_indexes fs); [|now rewrite E].
  unfold load_indexes. rewrite H by discriminate. rewrite (pl_index _ _ _ P). cbv beta iota. rewrite lines_index. clear P. generalize ([] : Indexes) as ixs.
  induction groups as [|g gs IH]; intros ixs; cbn [map fold_opt]; auto. unfold load_line at 1 3. rewrite H by apply ext_new.
  fold (load_line fs ixs (group_name g)). destruct (load_line fs ixs (group_name g)); auto.
Qed.

(* ---- fix_proof and its operations ---- *)
Lemma headers_w : forall n i bytes, snd (fix_headers_w n i bytes) = match fix_headers n i bytes with Some (lens, _, rest) => Some (lens, rest) | None => None end /\
  forall lens out rest, fix_headers n i bytes = Some (lens, out, rest) -> fst (fix_headers_w n i bytes) = out.
Proof.
  induction n as [|n IH]; intros i bytes; cbn [fix_headers_w fix_headers]. { split; auto. intros lens out rest H. now injection H as <- <- <-. }
  destruct (read_le 8 bytes) as [(offset, b1)|]; [|split; [auto|discriminate]]. cbv beta iota. destruct (read_le 4 b1) as [(len, b2)|]; [|split; [auto|discriminate]]. cbv beta iota.
  destruct (2 ^ 64 <=? offset + i)%Z; cbn [orb]; [split; [auto|discriminate]|]. destruct (2 ^ 32 <=? len + 1)%Z; [split; [auto|discriminate]|].
  destruct (IH (i + 1)%Z b2) as (A & B). destruct (fix_headers_w n (i + 1) b2) as [o r]. cbn [fst snd] in *. subst r. destruct (fix_headers n (i + 1) b2) as [((lens & out) & rest)|]; cbv beta iota.
  - split; auto. intros l2 o2 r2 H. injection H as <- <- <-. now rewrite (B _ _ _ eq_refl).
  - split; auto. discriminate.
Qed.
Lemma steps_w m : forall lens bytes, (fix_steps m lens bytes = None <-> snd (fix_steps_w m lens bytes) = false) /\
  forall out, fix_steps m lens bytes = Some out -> fst (fix_steps_w m lens bytes) = out.
Proof.
  induction lens as [|len r IH]; intros bytes; cbn [fix_steps_w fix_steps]. { split. split; discriminate. intros out H. now injection H as <-. }
  destruct (firstn (Z.to_nat len) bytes) as [|c rest]. { split; [tauto|discriminate]. } cbv zeta. destruct (length rest <? _). { split; [tauto|discriminate]. }
  destruct (pr_get c _ m) as [b|]. 2: { split; [tauto|discriminate]. } cbv beta iota. destruct (IH (skipn (Z.to_nat len) bytes)) as (A & B). destruct (fix_steps_w m r (skipn (Z.to_nat len) bytes)) as [o ok]. cbn [fst snd] in *.
  destruct (fix_steps m r _) as [out|]; cbv beta iota.
  - split. { split; [discriminate|]. intros E. apply A in E. discriminate. } intros o2 H. injection H as <-. now rewrite (B _ eq_refl).
  - split. { split; auto. intros _. now apply A. } discriminate.
Qed.

(* ---------- C62 ---------- *)

(* A certificate that was cut off anywhere is rejected by both programs, also if the cut is inside the last step and
   all that is left can be decoded. *)
Theorem C62_truncated_rejected : forall steps k, file_fits steps -> k < length (write_proof steps) ->
  (snocheck_v (write_proof steps) <> None -> snocheck_v (firstn k (write_proof steps)) = None) /\
  (snocheck_r (write_proof steps) <> None -> snocheck_r (firstn k (write_proof steps)) = None).
Proof.
  intros steps k F K. split; intros H.
  - destruct (snocheck_v (write_proof steps)) as [r|] eqn:E; [|contradiction]. eapply v_cut; eauto.
  - destruct (snocheck_r (write_proof steps)) as [r|] eqn:E; [|contradiction]. eapply r_cut; eauto.
Qed.
Print Assumptions C62_truncated_rejected.

(* Bytes after the end of a certificate are never looked at. *)
Theorem C62_appended_ignored : forall steps rest, file_fits steps -> steps <> [] ->
  snocheck_v (write_proof steps ++ rest) = snocheck_v (write_proof steps) /\ snocheck_r (write_proof steps ++ rest) = snocheck_r (write_proof steps).
Proof. intros steps rest F N. apply v_more; auto. destruct steps; [contradiction|cbn; lia]. Qed.
Print Assumptions C62_appended_ignored.

(* gen-proof stopped at any time: no other file is changed; proof.bin is as before, or the beginning of the
   certificate, which no program accepts if it accepts the whole one; started again gen-proof does the same again. *)
Theorem C62_killed_generator : forall fs groups sets fuel ops k, pruned_log fs groups sets ->
  (Z.of_nat (length (all_entries groups sets)) < 2 ^ 32)%Z -> gen_proof_ops fuel fs = Some ops ->
  let fs' := fs_run (firstn k ops) fs in
  (forall name, name <> new_name -> fs' name = fs name) /\ (k = 0 -> fs' new_name = fs new_name) /\
  gen_proof_ops fuel fs' = Some ops /\
  exists file, gen_proof fuel fs = Some file /\ fs_run ops fs new_name = Some file /\
    (0 < k -> exists part, fs' new_name = Some part /\ part = firstn (length part) file /\
       (k < length ops -> length part < length file /\
          (snocheck_v file <> None -> snocheck_v part = None) /\ (snocheck_r file <> None -> snocheck_r part = None))).
Proof.
  intros fs groups sets fuel ops k P Few H fs'. unfold gen_proof_ops in H. destruct (gen_proof fuel fs) as [file|] eqn:G; [|discriminate]. cbv beta iota in H. injection H as <-.
  destruct (file_part new_name file fs k) as (A & B). fold fs' in A, B. split; auto. split. { intros ->. reflexivity. }
  assert (G' : gen_proof fuel fs' = Some file) by (rewrite <- G; now apply (gen_reads fs fs' groups sets)).
  split. { unfold gen_proof_ops. now rewrite G'. }
  exists file. split; auto. split.
  { destruct (file_part new_name file fs (S (length file))) as (A' & _). rewrite <- ops_length with (name := new_name), firstn_all in A'. rewrite A' by (cbn; lia). f_equal. rewrite ops_length. cbn [Nat.sub]. rewrite Nat.sub_0_r. apply firstn_all. }
  intros K. exists (firstn (k - 1) file). split; auto. split.
  { rewrite firstn_length. destruct (Nat.min_spec (k - 1) (length file)) as [(L & ->)|(L & ->)]; auto. rewrite firstn_all. now apply firstn_all2. }
  rewrite ops_length. intros K2. split. { rewrite firstn_length. lia. }
  assert (Ng : groups <> []). { intros ->. unfold gen_proof, load_indexes in G. rewrite (pl_index _ _ _ P) in G. discriminate. }
  destruct (gen_main fs groups sets P Ng) as (n & Hn & Mn & [No|(g0 & g & es & b & F & T & St & Em & Ib & Run & Last)]). { rewrite No in G. discriminate. }
  assert (Ef : file = write_proof (step_data g)) by exact (gen_proof_run fs fuel file _ _ G Run).
  assert (Hf : forall i e, nth_error es i = Some e -> entry_from g0 (firstn i es) e) by (eapply emitted_from; eauto).
  destruct (data_sizes g0 _ es T Hf (em_nodup _ _ Em) Few _ (em_enc _ _ Em)) as (D1 & D2 & D3).
  subst file. apply C62_truncated_rejected; [|lia]. split; auto.
Qed.
Print Assumptions C62_killed_generator.

(* What fix_proof of FixModel.v does is what its operations do, and it panics in the same cases. *)
Theorem C62_fix_operations : forall fs, (fix_proof fs = None <-> snd (fix_ops fs) = false) /\
  forall fs', fix_proof fs = Some fs' -> forall name, fs_run (fst (fix_ops fs)) fs name = fs' name.
Proof.
  intros fs. unfold fix_proof, fix_ops. destruct (fix_load fs) as [m|]; [|split; [tauto|discriminate]]. cbv beta iota. destruct (fs old_name) as [old|]; [|split; [tauto|discriminate]]. cbv beta iota.
  destruct (fs new_name); [split; [tauto|discriminate]|]. unfold fix_bytes. destruct (read_le 4 old) as [(count, bytes)|]; [|split; [tauto|discriminate]]. cbv beta iota.
  destruct (headers_w (Z.to_nat count) 0 bytes) as (A & B). destruct (fix_headers_w _ _ _) as [hd r]. cbn [fst snd] in *. subst r. destruct (fix_headers _ _ _) as [((lens & out) & rest)|]; [|split; [tauto|discriminate]]. cbv beta iota.
  destruct (steps_w m lens rest) as (C & D). destruct (fix_steps_w m lens rest) as [body ok]. cbn [fst snd] in *. destruct (fix_steps m lens rest) as [o|]; cbv beta iota; [|split; [tauto|discriminate]].
  split. { split; [discriminate|]. intros E. apply C in E. discriminate. }
  intros fs' H name. injection H as <-. rewrite (B _ _ _ eq_refl), (D _ eq_refl). set (all := le_bytes 4 count ++ out ++ o).
  destruct (file_part new_name all fs (S (length all))) as (X & Y). rewrite <- ops_length with (name := new_name), firstn_all in X, Y.
  unfold fs_set. destruct (list_eqb Nat.eqb name new_name) eqn:E.
  - assert (Q : name = new_name). { revert E. apply list_eqb_spec. intros a b. apply Nat.eqb_eq. }
    rewrite Q, X by (cbn; lia). f_equal. rewrite ops_length. cbn [Nat.sub]. rewrite Nat.sub_0_r. apply firstn_all.
  - apply Y. intros ->. assert (Z : list_eqb Nat.eqb new_name new_name = true) by (vm_compute; reflexivity). congruence.
Qed.
Print Assumptions C62_fix_operations.

(* fix-proof stopped at any time, or after a panic: no other file is changed; as soon as proof.bin exists fix-proof
   panics when it is started again, without changing anything; with proof.bin removed it does the same again. *)
Theorem C62_fix_again : forall fs k, let fs' := fs_run (firstn k (fst (fix_ops fs))) fs in
  (forall name, name <> new_name -> fs' name = fs name) /\
  (0 < k -> fst (fix_ops fs) <> [] -> fs' new_name <> None /\ fix_ops fs' = ([], false) /\ fix_proof fs' = None) /\
  (fst (fix_ops fs) <> [] -> fix_ops (fs_set fs' new_name None) = fix_ops fs).
Proof.
  intros fs k fs'.
  assert (S : fst (fix_ops fs) = [] \/ exists m old bytes ok, fix_load fs = Some m /\ fs old_name = Some old /\ fs new_name = None /\ fix_bytes m old = (bytes, ok) /\ fix_ops fs = (Create new_name :: write_ops new_name bytes, ok)).
  { unfold fix_ops. destruct (fix_load fs) as [m|]; auto. destruct (fs old_name) as [old|]; auto. destruct (fs new_name); auto. right. destruct (fix_bytes m old) as [bytes ok] eqn:E. exists m, old, bytes, ok. auto. }
  destruct S as [S|(m & old & bytes & ok & El & Eo & En & Eb & S)].
  { unfold fs'. rewrite S, firstn_nil. split; auto. split; intros; contradiction. }
  unfold fs' in *. rewrite S. cbn [fst]. clear fs'. set (fs' := fs_run _ fs). destruct (file_part new_name bytes fs k) as (A & B). fold fs' in A, B. split; auto. split.
  - intros K _. split. { rewrite A by auto. discriminate. } assert (X : fix_ops fs' = ([], false)). { unfold fix_ops. rewrite A by auto. destruct (fix_load fs'), (fs' old_name); auto. }
    split; auto. apply C62_fix_operations. now rewrite X.
  - intros _. rewrite <- S. assert (O : forall name, name <> new_name -> fs_set fs' new_name None name = fs name). { intros name Hn. rewrite fs_set_other by auto. auto. }
    unfold fix_ops. rewrite fs_set_same, (O old_name), En by discriminate. replace (fix_load (fs_set fs' new_name None)) with (fix_load fs); auto.
    unfold fix_load. rewrite (O index_name) by discriminate. destruct (fs index_name) as [t|]; auto. cbv beta iota. clear -O. generalize (lines t). intros l. generalize ([] : Pruned). induction l as [|x l IH]; intros p; cbn [fold_opt]; auto.
    unfold fix_line at 1 3. rewrite O by apply ext_new. destruct (line_channels x); auto. cbv beta iota. destruct (line_bound x); auto. cbv beta iota. destruct (fs _); auto. cbv beta iota. destruct (mmap _); auto. cbv beta iota. destruct (chunks _ _); auto.
Qed.
Print Assumptions C62_fix_again.

(* A fix-proof that was stopped before its end leaves nothing that is accepted. *)
Theorem C62_killed_fix : forall fs fs1 steps k, fix_proof fs = Some fs1 -> fs1 new_name = Some (write_proof steps) -> file_fits steps ->
  0 < k < length (fst (fix_ops fs)) ->
  exists part, fs_run (firstn k (fst (fix_ops fs))) fs new_name = Some part /\ length part < length (write_proof steps) /\
    (snocheck_v (write_proof steps) <> None -> snocheck_v part = None) /\ (snocheck_r (write_proof steps) <> None -> snocheck_r part = None).
Proof.
  intros fs fs1 steps k H N F K. destruct (C62_fix_operations fs) as (_ & W). specialize (W fs1 H new_name). rewrite N in W. revert W K. unfold fix_ops.
  destruct (fix_load fs) as [m|]; [|cbn; lia]. destruct (fs old_name) as [old|]; [|cbn; lia]. destruct (fs new_name); [cbn; lia|]. destruct (fix_bytes m old) as [bytes ok]. cbn [fst]. rewrite ops_length. intros W K.
  destruct (file_part new_name bytes fs (S (length bytes))) as (X & _). rewrite <- ops_length with (name := new_name), firstn_all in X. rewrite X in W by (cbn; lia). rewrite ops_length in W. cbn [Nat.sub] in W. rewrite Nat.sub_0_r, firstn_all in W.
  injection W as ->. destruct (file_part new_name (write_proof steps) fs k) as (A & _). exists (firstn (k - 1) (write_proof steps)). split. apply A. lia. split. { rewrite firstn_length. lia. }
  apply C62_truncated_rejected; auto. lia.
Qed.
Print Assumptions C62_killed_fix.

(* the certificate of PropGen.v with one byte missing, with all of the last witness missing, and with bytes added *)
Example C62_case : snocheck_v ex_file = Some (4%Z, 5%Z) /\ length ex_file = 72 /\
  snocheck_v (firstn 71 ex_file) = None /\ snocheck_r (firstn 71 ex_file) = None /\
  decode_step (firstn 64 ex_file) 1 <> None /\ snocheck_v (firstn 64 ex_file) = None /\ snocheck_r (firstn 64 ex_file) = None /\
  snocheck_v (ex_file ++ [1; 2; 3]) = Some (4%Z, 5%Z).
Proof.
  destruct C32_case as (V & R). destruct C27_case as (_ & _ & E).
  assert (F : file_fits [[3; 3; 255; 0; 2; 2; 2]; [4; 5; 255; 255; 0; 0; 0; 1; 2; 0; 0; 0; 0; 0; 0; 1; 2; 0; 0; 0; 0; 0; 0; 1; 2; 0; 0; 0; 0; 0; 0; 1; 2; 0; 0; 0; 0]]).
  { split; [|split]; [reflexivity| |reflexivity]. repeat constructor. }
  assert (L : length ex_file = 72) by (rewrite E; vm_compute; reflexivity).
  split; [exact V|]. split; [exact L|]. rewrite E in V, R, L |- *. set (steps := [_; _]) in *.
  assert (Nv : snocheck_v (write_proof steps) <> None) by (rewrite V; discriminate). assert (Nr : snocheck_r (write_proof steps) <> None) by (rewrite R; discriminate).
  destruct (C62_truncated_rejected steps 71 F ltac:(rewrite L; repeat constructor)) as (A & B). destruct (C62_truncated_rejected steps 64 F ltac:(rewrite L; repeat constructor)) as (C & D).
  split; [exact (A Nv)|]. split; [exact (B Nr)|]. split. { vm_compute. discriminate. } split; [exact (C Nv)|]. split; [exact (D Nr)|].
  destruct (C62_appended_ignored steps [1; 2; 3] F ltac:(discriminate)) as (X & _). exact (eq_trans X V).
Qed.
(* gen-proof killed after 40 bytes *)
Example C62_case_generator : exists ops, gen_proof_ops 2 ex_fs = Some ops /\ length ops = 73 /\
  fs_run (firstn 41 ops) ex_fs new_name = Some (firstn 40 ex_file) /\ gen_proof_ops 2 (fs_run (firstn 41 ops) ex_fs) = Some ops.
Proof.
  eexists. split. { vm_compute. reflexivity. } split. { vm_compute. reflexivity. } split. { vm_compute. reflexivity. } vm_compute. reflexivity.
Qed.
(* fix-proof of PropFix.v: killed after 40 bytes, and a panic because a set is not in the log: 35 bytes are left *)
Example C62_case_fix : length (fst (fix_ops ex_old)) = 73 /\ snd (fix_ops ex_old) = true /\
  fs_run (firstn 41 (fst (fix_ops ex_old))) ex_old new_name = Some (firstn 40 ex_file) /\
  let bad := fs_set ex_old (str "group_4_5.pbin") (Some [255; 254]) in
  snd (fix_ops bad) = false /\ fs_run (fst (fix_ops bad)) bad new_name = Some (firstn 35 ex_file).
Proof. vm_compute. auto 10. Qed.
