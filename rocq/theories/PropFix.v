(* C29: fix_proof. *)
From Coq Require Import String List Arith Bool Lia ZArith Permutation.
Import ListNotations.
From Verif Require Import Spec Util OutputSetModel OutputSetProofs TreeModel DecodeModel DecodeProofs StatesProofs FileModel FileProofs LogModel DumpProofs PruneLogProofs CrashProofs
  ProofGenModel GenLoad GenEncode GenMain GenAccept PropDecode FixModel PropGen.

(* ---- loading ---- *)
Definition keyed (e : OutputSet * nat) : nat * list nat * nat := (channels (fst e), pk (fst e), snd e).

Lemma fold_cons {A B} (f : A -> B) l : forall m, fold_left (fun m a => f a :: m) l m = rev (map f l) ++ m.
Proof. induction l as [|a l IH]; intros m; cbn; auto. rewrite IH, <- app_assoc. reflexivity. Qed.

Lemma fix_line_ok fs m g sets : pruned_file fs g sets -> fix_line fs m (group_name g) = Some (rev (map keyed (map (fun s => (s, snd g)) sets)) ++ m).
Proof.
  intros (F & Ne & Hn & Hm & Hb & Hs). unfold fix_line. rewrite group_channels, group_bound, F by auto.
  assert (Em : mmap (concat (map pk sets)) = Some (concat (map pk sets))).
  { destruct sets as [|s sets]; [congruence|]. cbn [map concat]. destruct (Hs s (or_introl eq_refl)) as (W & C). pose proof (pk_len s W) as L. pose proof (plen_pos (channels s)).
    destruct (pk s); [simpl in L; lia|reflexivity]. }
  rewrite Em. rewrite chunks_concat.
  2: apply plen_pos. 2: { intros p Hp. apply in_map_iff in Hp. destruct Hp as (s & <- & Hin). destruct (Hs s Hin) as (W & C). rewrite pk_len by auto. now rewrite C. }
  rewrite (fold_cons (fun packed => (fst g, packed, snd g))). f_equal. f_equal. f_equal. rewrite !map_map. apply map_ext_in. intros s Hin. destruct (Hs s Hin) as (_ & C). unfold keyed. cbn. now rewrite C.
Qed.

Lemma fix_lines_ok fs sets groups : (forall g, In g groups -> pruned_file fs g (sets g)) -> forall m,
  fold_opt (fix_line fs) (map group_name groups) m = Some (rev (map keyed (all_entries groups sets)) ++ m).
Proof.
  induction groups as [|g gs IH]; intros Hf m; cbn [map fold_opt]; auto. rewrite (fix_line_ok fs m g (sets g)) by (apply Hf; now left). cbv beta iota.
  rewrite IH by (intros; apply Hf; now right). unfold all_entries. cbn [flat_map]. rewrite map_app, rev_app_distr, <- app_assoc. reflexivity.
Qed.

Lemma pr_get_ok groups sets s b : (forall t c, In (t, c) (all_entries groups sets) -> wf t) -> NoDup (map fst (all_entries groups sets)) ->
  In (s, b) (all_entries groups sets) -> pr_get (channels s) (pk s) (rev (map keyed (all_entries groups sets))) = Some b.
Proof.
  generalize (all_entries groups sets). intros E W N I. unfold pr_get.
  destruct (find _ (rev (map keyed E))) as [e|] eqn:Ef.
  - apply find_some in Ef. destruct Ef as (Ie & Hk). apply in_rev in Ie. apply in_map_iff in Ie. destruct Ie as ((t, c) & <- & It). unfold keyed in Hk. cbn [fst snd] in Hk.
    apply andb_true_iff in Hk. destruct Hk as (K1 & K2). apply Nat.eqb_eq in K1. apply (list_eqb_spec Nat.eqb Nat.eqb_eq) in K2.
    assert (t = s) by (apply pk_inj; eauto). subst t. cbn. f_equal. clear -N I It. induction E as [|(x, y) E IH]; cbn in *; [easy|]. inversion N as [|? ? N1 N2]; subst.
    destruct I as [I|I], It as [It|It]; auto; try congruence.
    + injection I as -> ->. elim N1. apply in_map_iff. exists (s, c). auto.
    + injection It as -> ->. elim N1. apply in_map_iff. exists (s, b). auto.
  - exfalso. assert (X := find_none _ _ Ef (keyed (s, b))). cbv beta in X. unfold keyed in X. cbn [fst snd] in X. rewrite Nat.eqb_refl in X.
    rewrite (proj2 (list_eqb_spec Nat.eqb Nat.eqb_eq (pk s) (pk s)) eq_refl) in X. assert (Y : true && true = false); [|discriminate]. apply X.
    rewrite <- in_rev. apply in_map_iff. exists (s, b). auto.
Qed.

(* ---- reading ---- *)
Lemma read_le_bytes k v r : (0 <= v < 256 ^ Z.of_nat k)%Z -> read_le k (le_bytes k v ++ r) = Some (v, r).
Proof.
  intros H. unfold read_le. rewrite app_length, le_bytes_length. replace (k + length r <? k) with false by (symmetry; apply Nat.ltb_ge; lia).
  rewrite firstn_app, skipn_app, le_bytes_length, Nat.sub_diag, firstn_O, app_nil_r. rewrite firstn_all2, skipn_all2 by (rewrite le_bytes_length; lia).
  cbn [skipn app]. now rewrite le_value_bytes.
Qed.

(* a step without its second byte *)
Definition without_bound (d : list nat) : list nat := match d with c :: _ :: r => c :: r | _ => d end.

Definition total_len (l : list (list nat)) : Z := fold_right (fun d z => (Z.of_nat (length d) + z)%Z) 0%Z l.
Lemma total_nonneg l : (0 <= total_len l)%Z.
Proof. unfold total_len. induction l; cbn [fold_right]; lia. Qed.

Lemma fix_headers_ok rest : forall steps i off, Forall (fun d => exists c b r, d = c :: b :: r /\ (Z.of_nat (length d) < 2 ^ 32)%Z) steps -> (0 <= i)%Z -> (0 <= off)%Z ->
  (off + i + total_len steps < 2 ^ 64)%Z ->
  fix_headers (length steps) i (write_headers off (map without_bound steps) ++ rest) =
  Some (map (fun d => Z.of_nat (length (without_bound d))) steps, write_headers (off + i) steps, rest).
Proof.
  induction steps as [|d steps IH]; intros i off F Hi Ho Ht; cbn [length fix_headers map write_headers app]; auto.
  inversion F as [|? ? (c & b & r & -> & Ld) F']; subst. cbn [without_bound]. unfold total_len in Ht. cbn [fold_right] in Ht. fold (total_len steps) in Ht. pose proof (total_nonneg steps) as Tn.
  rewrite <- !app_assoc. rewrite read_le_bytes by (change (256 ^ Z.of_nat 8)%Z with (2 ^ 64)%Z; cbn [length] in Ht; lia). cbv beta iota.
  cbn [length] in *. rewrite read_le_bytes by (change (256 ^ Z.of_nat 4)%Z with (2 ^ 32)%Z; lia). cbv beta iota.
  replace ((2 ^ 64 <=? off + i)%Z || (2 ^ 32 <=? Z.of_nat (S (length r)) + 1)%Z) with false.
  2: { symmetry. apply orb_false_iff. split; apply Z.leb_gt; lia. }
  rewrite IH; auto; try lia. cbv beta iota.
  replace (Z.of_nat (S (S (length r)))) with (Z.of_nat (S (length r)) + 1)%Z by lia.
  replace (off + Z.of_nat (S (length r)) + (i + 1))%Z with (off + i + (Z.of_nat (S (length r)) + 1))%Z by lia. reflexivity.
Qed.

Lemma fix_steps_ok m rest : forall steps, Forall (fun d => exists c b p r, d = c :: b :: p ++ r /\ length p = packed_len_for_channels c /\ pr_get c p m = Some b) steps ->
  fix_steps m (map (fun d => Z.of_nat (length (without_bound d))) steps) (concat (map without_bound steps) ++ rest) = Some (concat steps).
Proof.
  induction steps as [|d steps IH]; intros F; cbn [map fix_steps concat]; auto. inversion F as [|? ? (c & b & p & r & -> & Lp & G) F']; subst. cbn [without_bound].
  rewrite Nat2Z.id, <- app_assoc. rewrite firstn_app, Nat.sub_diag, firstn_O, app_nil_r, firstn_all. rewrite skipn_app, Nat.sub_diag, skipn_all. cbn [skipn app].
  replace (length (p ++ r) <? packed_len_for_channels c) with false by (symmetry; apply Nat.ltb_ge; rewrite app_length; lia).
  rewrite <- Lp, firstn_app, Nat.sub_diag, firstn_O, app_nil_r, firstn_all, G. cbv beta iota. rewrite IH by auto. cbv beta iota. now rewrite <- app_assoc.
Qed.

(* ---------- C29 ---------- *)

(* If every step starts with its channel count, the bound of the set in the pruned files and the packed set, then
   from the certificate without the bound bytes fix_proof writes exactly the certificate with them, and changes no
   other file. *)
Theorem C29_fix_proof : forall fs groups sets steps,
  fs index_name = Some (index_text groups) -> (forall g, In g groups -> pruned_file fs g (sets g)) ->
  NoDup (map fst (all_entries groups sets)) ->
  Forall (fun d => exists g s r, In g groups /\ In s (sets g) /\ d = fst g :: snd g :: pk s ++ r) steps ->
  fs old_name = Some (write_proof (map without_bound steps)) -> fs new_name = None ->
  (Z.of_nat (length steps) < 2 ^ 32)%Z -> Forall (fun d => (Z.of_nat (length d) < 2 ^ 32)%Z) steps ->
  (Z.of_nat (length (write_proof steps)) < 2 ^ 64)%Z ->
  exists fs', fix_proof fs = Some fs' /\ fs' new_name = Some (write_proof steps) /\ forall name, name <> new_name -> fs' name = fs name.
Proof.
  intros fs groups sets steps Hi Hf Nd Hs Ho Hn L1 L2 L3. unfold fix_proof, fix_load. rewrite Hi, lines_index. cbv beta iota. rewrite (fix_lines_ok fs sets groups Hf []), app_nil_r. cbv beta iota.
  rewrite Ho, Hn. cbv beta iota. unfold write_proof at 1. rewrite map_length. cbv zeta. rewrite read_le_bytes by (change (256 ^ Z.of_nat 4)%Z with (2 ^ 32)%Z; lia). cbv beta iota.
  assert (Wl : length (write_proof steps) = 4 + 12 * length steps + length (concat steps)).
  { unfold write_proof. rewrite !app_length, le_bytes_length, headers_length. lia. }
  assert (Tl : forall l, total_len l = Z.of_nat (length (concat l))).
  { induction l as [|d l IH]; cbn [concat total_len fold_right]; auto. rewrite app_length. fold (total_len l). lia. }
  rewrite Nat2Z.id. rewrite (fix_headers_ok _ steps 0 (4 + (8 + 4) * Z.of_nat (length steps))).
  - cbv beta iota. rewrite <- (app_nil_r (concat (map without_bound steps))). rewrite fix_steps_ok.
    + cbv beta iota. rewrite Z.add_0_r. eexists. split; [reflexivity|]. unfold write_proof. split. apply fs_set_same. intros name Ne. now apply fs_set_other.
    + apply Forall_forall. intros d Hd. rewrite Forall_forall in Hs. destruct (Hs d Hd) as (g & s & r & Hg & Ig & ->). destruct (Hf g Hg) as (_ & _ & _ & _ & _ & W). destruct (W s Ig) as (Ws & C).
      exists (fst g), (snd g), (pk s), r. split; auto. rewrite <- C. split. now apply pk_len. apply pr_get_ok; auto.
      * intros t c I. apply all_entries_In in I. destruct I as (g' & Hg' & It & _). apply (Hf g' Hg'). auto.
      * apply all_entries_In. eauto.
  - apply Forall_forall. intros d Hd. rewrite Forall_forall in Hs, L2. destruct (Hs d Hd) as (g & s & r & _ & _ & ->). exists (fst g), (snd g), (pk s ++ r). split; auto.
  - lia.
  - lia.
  - rewrite Tl. lia.
Qed.
Print Assumptions C29_fix_proof.

(* The certificate gen_proof writes for a log, without its bound bytes, is turned into that certificate. *)
Theorem C29_restores_generated : forall fs groups sets fuel file, pruned_log fs groups sets ->
  (Z.of_nat (length (all_entries groups sets)) < 2 ^ 32)%Z -> gen_proof fuel fs = Some file ->
  exists steps, file = write_proof steps /\
    let fs1 := fs_set (fs_set fs old_name (Some (write_proof (map without_bound steps)))) new_name None in
    exists fs', fix_proof fs1 = Some fs' /\ fs' new_name = Some file.
Proof.
  intros fs groups sets fuel file P Few H.
  assert (Ng : groups <> []).
  { intros ->. unfold gen_proof, load_indexes in H. rewrite (pl_index _ _ _ P) in H. discriminate. }
  destruct (gen_main fs groups sets P Ng) as (n & Hn & Mn & [No|(g0 & g & es & b & F & T & St & Em & Ib & Run & Last)]). { rewrite No in H. discriminate. }
  assert (Ef : file = write_proof (step_data g)) by (eapply gen_proof_run; eauto).
  assert (Hf : forall i e, nth_error es i = Some e -> entry_from g0 (firstn i es) e) by (eapply emitted_from; eauto).
  assert (Ee := em_enc _ _ Em). destruct (data_sizes g0 _ es T Hf (em_nodup _ _ Em) Few _ Ee) as (D1 & D2 & D3).
  exists (step_data g). split; auto. cbv zeta.
  set (fs1 := fs_set (fs_set fs old_name (Some (write_proof (map without_bound (step_data g))))) new_name None).
  assert (Same : forall name, name <> old_name -> name <> new_name -> fs1 name = fs name).
  { intros name N1 N2. unfold fs1. rewrite !fs_set_other by auto. reflexivity. }
  destruct (C29_fix_proof fs1 groups sets (step_data g)) as (fs' & F1 & F2 & _).
  - rewrite Same by discriminate. apply P.
  - intros gr Hg. destruct (pl_files _ _ _ P gr Hg) as (A & B). split; auto. rewrite Same; auto; rewrite group_with_ext; discriminate.
  - apply P.
  - apply Forall_forall. intros d Hd. destruct (Forall2_r _ _ _ _ Ee Hd) as (e & He & pk' & Ep & ->). apply In_nth_error in He. destruct He as (i & Hi).
    destruct (entry_facts g0 _ es T Hf i e Hi) as ((W & _) & _ & I & _). rewrite (packed_pk _ W) in Ep. injection Ep as <-. apply all_entries_In in I. destruct I as (gr & Hg & Hs & Eb).
    exists gr, (eset e), (kind_of (ewits e) :: flat_map enc_witness (list_of (ewits e))). split; auto. split; auto. unfold enc_step. rewrite Eb.
    destruct (pl_files _ _ _ P gr Hg) as (_ & _ & _ & _ & _ & Ws). destruct (Ws _ Hs) as (_ & ->). reflexivity.
  - unfold fs1. rewrite fs_set_other by discriminate. apply fs_set_same.
  - apply fs_set_same.
  - exact D3.
  - exact D1.
  - unfold write_proof. rewrite !app_length, le_bytes_length, headers_length. lia.
  - exists fs'. rewrite Ef. auto.
Qed.
Print Assumptions C29_restores_generated.

(* the certificate of PropGen.v *)
Definition ex_old : Fs := fs_set ex_fs old_name (Some (write_proof [[3; 255; 0; 2; 2; 2];
    [4; 255; 255; 0; 0; 0; 1; 2; 0; 0; 0; 0; 0; 0; 1; 2; 0; 0; 0; 0; 0; 0; 1; 2; 0; 0; 0; 0; 0; 0; 1; 2; 0; 0; 0; 0]])).
Definition ex_fixed : Fs := match fix_proof ex_old with Some fs => fs | None => ex_old end.
Example C29_case : ex_fixed new_name = Some ex_file /\ ex_fixed (str "group_3_3.pbin") = Some [255].
Proof. vm_compute. auto. Qed.
