(* Facts about FileModel.v and the names of LogModel.v. *)
From Coq Require Import String List Arith Bool Lia.
From Coq Require Decimal DecimalNat DecimalFacts.
Import ListNotations.
From Verif Require Import Spec Util OutputSetModel TreeModel StatesModel FileModel LogModel ProofGenModel.

(* ---- numbers ---- *)
Definition digit (c : nat) : Prop := 48 <= c <= 57.

Lemma digits_digit d : Forall digit (digits d).
Proof. induction d; simpl; constructor; auto; unfold digit; lia. Qed.

Lemma pd_step max acc k r v : k <= 9 -> v = k + Nat.tail_mul 10 acc ->
  match max with Some m => v <= m | None => True end -> parse_digits max acc (48 + k :: r) = parse_digits max v r.
Proof.
  intros Hk -> Hm. rewrite Nat.tail_mul_spec in *. cbn [parse_digits].
  replace (48 <=? 48 + k) with true by (symmetry; apply Nat.leb_le; lia). replace (48 + k <=? 57) with true by (symmetry; apply Nat.leb_le; lia).
  cbn [andb]. replace (acc * 10 + (48 + k - 48)) with (k + 10 * acc) by lia.
  destruct max as [m|]; auto. destruct (Nat.ltb_spec m (k + 10 * acc)); auto. lia.
Qed.
Lemma of_uint_acc_ge d : forall acc, acc <= Nat.of_uint_acc d acc.
Proof.
  assert (St : forall k acc, acc <= k + Nat.tail_mul 10 acc) by (intros; rewrite Nat.tail_mul_spec; lia).
  induction d; intros acc; cbn [Nat.of_uint_acc]; auto; (eapply Nat.le_trans; [|apply IHd]).
  - apply (St 0). - apply (St 1). - apply (St 2). - apply (St 3). - apply (St 4). - apply (St 5). - apply (St 6). - apply (St 7).
  - apply (St 8). - apply (St 9).
Qed.
Lemma parse_digits_acc max d : forall acc,
  match max with Some m => Nat.of_uint_acc d acc <= m | None => True end ->
  parse_digits max acc (digits d) = Some (Nat.of_uint_acc d acc).
Proof.
  assert (G : forall k d' acc v, k <= 9 -> v = k + Nat.tail_mul 10 acc ->
    (forall a, match max with Some m => Nat.of_uint_acc d' a <= m | None => True end -> parse_digits max a (digits d') = Some (Nat.of_uint_acc d' a)) ->
    match max with Some m => Nat.of_uint_acc d' v <= m | None => True end ->
    parse_digits max acc (48 + k :: digits d') = Some (Nat.of_uint_acc d' v)).
  { intros k d' acc v Hk Hv IH H. rewrite (pd_step max acc k _ v Hk Hv). auto. destruct max; auto. pose proof (of_uint_acc_ge d' v). lia. }
  induction d; intros acc H; [reflexivity|..]; cbn [Nat.of_uint_acc digits] in *.
  - apply (G 0); auto; lia.  - apply (G 1); auto; lia.  - apply (G 2); auto; lia.  - apply (G 3); auto; lia.
  - apply (G 4); auto; lia.  - apply (G 5); auto; lia.  - apply (G 6); auto; lia.  - apply (G 7); auto; lia.
  - apply (G 8); auto; lia.  - apply (G 9); auto; lia.
Qed.

Lemma to_uint_nonnil n : Nat.to_uint n <> Decimal.Nil.
Proof.
  intros H. pose proof (DecimalNat.Unsigned.of_to n) as O. rewrite H in O. cbv in O. subst n. discriminate H.
Qed.
Lemma show_cons n : exists c r, show n = c :: r /\ digit c.
Proof.
  unfold show. pose proof (to_uint_nonnil n). pose proof (digits_digit (Nat.to_uint n)) as F.
  destruct (Nat.to_uint n); [congruence|..]; simpl in *; inversion F; eauto.
Qed.
Lemma show_digit n : Forall digit (show n).
Proof. apply digits_digit. Qed.

Lemma parse_show max n : match max with Some m => n <= m | None => True end -> parse_number max (show n) = Some n.
Proof.
  intros H. destruct (show_cons n) as (c & r & E & D). unfold parse_number.
  assert (X : match show n with 43 :: r0 => r0 | _ => show n end = show n).
  { rewrite E. unfold digit in D. do 43 (destruct c as [|c]; auto). destruct c; auto. lia. }
  cbv zeta. rewrite X. rewrite E. rewrite <- E. unfold show in *.
  pose proof (DecimalNat.Unsigned.of_to n) as OT. unfold Nat.of_uint in OT.
  rewrite parse_digits_acc; rewrite OT; auto.
Qed.
Lemma show_inj a b : show a = show b -> a = b.
Proof.
  intros H. assert (X : parse_usize (show a) = parse_usize (show b)) by now rewrite H. unfold parse_usize in X.
  rewrite !parse_show in X by auto. congruence.
Qed.

(* ---- splitting ---- *)
Lemma split_cons sep s : exists h t, split_on sep s = h :: t.
Proof.
  destruct s as [|c r]; simpl; eauto. destruct (c =? sep); eauto. destruct (split_on sep r); eauto.
Qed.
Lemma split_none sep s : ~ In sep s -> split_on sep s = [s].
Proof.
  induction s as [|c r IH]; intros H; simpl; auto. destruct (Nat.eqb_spec c sep) as [->|]. destruct H; now left.
  rewrite IH; auto. intros X. apply H. now right.
Qed.
Lemma split_app sep a b : ~ In sep a -> split_on sep (a ++ sep :: b) = a :: split_on sep b.
Proof.
  induction a as [|c r IH]; intros H; simpl. now rewrite Nat.eqb_refl.
  destruct (Nat.eqb_spec c sep) as [->|]. destruct H; now left. rewrite IH; auto. intros X. apply H. now right.
Qed.

(* the lines of a text made of lines *)
Lemma split_lines (ls : list text) : (forall l, In l ls -> ~ In 10 l) ->
  split_on 10 (flat_map (fun l => l ++ [10]) ls) = ls ++ [[]].
Proof.
  induction ls as [|l ls IH]; intros H; simpl; auto. rewrite <- app_assoc. simpl. rewrite split_app by (apply H; now left).
  rewrite IH; auto. intros x Hx. apply H. now right.
Qed.
Lemma lines_of (ls : list text) : (forall l, In l ls -> ~ In 10 l /\ ~ In 13 l) -> lines (flat_map (fun l => l ++ [10]) ls) = ls.
Proof.
  intros H. unfold lines. rewrite split_lines by (intros l Hl; now apply H). cbv zeta. rewrite rev_app_distr. cbn [rev app].
  rewrite rev_involutive. rewrite <- (map_id ls) at 2. apply map_ext_in. intros l Hl. unfold strip_cr.
  destruct (rev l) as [|c r] eqn:E; auto. assert (c <> 13). { intros ->. apply (proj2 (H l Hl)). apply in_rev. rewrite E. now left. }
  do 13 (destruct c as [|c]; auto). destruct c; auto. congruence.
Qed.

(* ---- names ---- *)
Lemma rsplit_none s : ~ In 46 s -> rsplit_dot s = None.
Proof.
  induction s as [|c r IH]; intros H; simpl; auto. rewrite IH. destruct (Nat.eqb_spec c 46) as [->|]; auto. destruct H; now left.
  intros X. apply H. now right.
Qed.
Lemma rsplit_app a b : ~ In 46 b -> rsplit_dot (a ++ 46 :: b) = Some (a, b).
Proof.
  intros H. induction a as [|c r IH]; simpl. now rewrite rsplit_none. now rewrite IH.
Qed.
Lemma with_extension_app c a b e : ~ In 46 b -> with_extension (c :: a ++ 46 :: b) e = c :: a ++ 46 :: e.
Proof.
  intros H. unfold with_extension, file_stem. change (c :: a ++ 46 :: b) with ((c :: a) ++ 46 :: b). rewrite rsplit_app by auto. reflexivity.
Qed.

(* the name of a group without the extension *)
Definition group_stem (g : nat * nat) : text := str "group_" ++ show (fst g) ++ str "_" ++ show (snd g).
Definition group_ext (g : nat * nat) (e : text) : text := group_stem g ++ 46 :: e.
Lemma group_name_ext g : group_name g = group_ext g (str "bin").
Proof. unfold group_name, group_ext, group_stem. rewrite <- !app_assoc. reflexivity. Qed.

Lemma digit_not n c : ~ digit c -> ~ In c (show n).
Proof. intros H I. pose proof (show_digit n) as F. rewrite Forall_forall in F. auto. Qed.

Lemma group_with_ext g e : with_extension (group_name g) e = group_ext g e.
Proof.
  rewrite group_name_ext. unfold group_ext, group_stem. change (str "group_") with (103 :: str "roup_"). cbn [app].
  apply with_extension_app. vm_compute. intuition discriminate.
Qed.
Lemma group_split g : split_on 95 (group_name g) = [str "group"; show (fst g); show (snd g) ++ str ".bin"].
Proof.
  unfold group_name. change (str "group_") with (str "group" ++ [95]). change (str "_") with [95]. rewrite <- !app_assoc. cbn [app].
  assert (N : forall n, ~ In 95 (show n)) by (intros n; apply digit_not; unfold digit; lia).
  change (str "group" ++ 95 :: (show (fst g) ++ 95 :: (show (snd g) ++ str ".bin"))) with (str "group" ++ 95 :: (show (fst g) ++ 95 :: (show (snd g) ++ str ".bin"))).
  rewrite split_app by (vm_compute; intuition discriminate). rewrite split_app by auto. rewrite split_none; auto.
  rewrite in_app_iff. intros [H|H]. apply (N _ H). revert H. vm_compute. intuition discriminate.
Qed.
Lemma group_channels g : line_channels (group_name g) = Some (fst g).
Proof. unfold line_channels. rewrite group_split. cbn [nth_error]. now apply parse_show. Qed.
Lemma group_bound g : snd g <= 255 -> line_bound (group_name g) = Some (snd g).
Proof.
  intros H. unfold line_bound. rewrite group_split. cbn [nth_error]. change (str ".bin") with (46 :: str "bin").
  rewrite split_app by (apply digit_not; unfold digit; lia). cbn [nth_error]. now apply parse_show.
Qed.
Lemma group_stem_inj g h : group_stem g = group_stem h -> g = h.
Proof.
  intros E. assert (X : split_on 95 (group_name g) = split_on 95 (group_name h)) by (rewrite !group_name_ext; unfold group_ext; now rewrite E).
  rewrite !group_split in X. injection X as X1 X2. apply app_inv_tail in X2. apply show_inj in X1. apply show_inj in X2.
  destruct g, h; simpl in *; congruence.
Qed.
Lemma stem_no_dot g : ~ In 46 (group_stem g).
Proof.
  unfold group_stem. rewrite !in_app_iff. assert (N : forall n, ~ In 46 (show n)) by (intros n; apply digit_not; unfold digit; lia).
  intros [H|[H|[H|H]]]; try (now apply N in H); revert H; vm_compute; intuition discriminate.
Qed.
Lemma group_ext_inj g e h f : ~ In 46 e -> ~ In 46 f -> group_ext g e = group_ext h f -> g = h /\ e = f.
Proof.
  unfold group_ext. intros He Hf E.
  assert (X : rsplit_dot (group_stem g ++ 46 :: e) = rsplit_dot (group_stem h ++ 46 :: f)) by now rewrite E.
  rewrite !rsplit_app in X by auto. assert (X1 : group_stem g = group_stem h) by congruence. split; [now apply group_stem_inj|congruence].
Qed.
Lemma group_not_index g e : group_ext g e <> index_name.
Proof. unfold group_ext, group_stem. intros H. vm_compute in H. discriminate. Qed.
Lemma group_name_inj g h : group_name g = group_name h -> g = h.
Proof. rewrite !group_name_ext. intros E. apply group_ext_inj in E; try tauto; vm_compute; intuition discriminate. Qed.
Lemma group_no_newline g : ~ In 10 (group_name g) /\ ~ In 13 (group_name g).
Proof.
  unfold group_name. rewrite !in_app_iff. assert (N : forall n c, c < 20 -> ~ In c (show n)) by (intros n c Hc; apply digit_not; unfold digit; lia).
  split; intros [H|[H|[H|[H|H]]]]; try (apply N in H; [auto|lia]); revert H; vm_compute; intuition discriminate.
Qed.

(* ---- files ---- *)
Lemma text_eqb_spec (a b : text) : reflect (a = b) (list_eqb Nat.eqb a b).
Proof. apply iff_reflect. symmetry. apply list_eqb_spec. apply Nat.eqb_eq. Qed.
Lemma fs_set_same fs a v : fs_set fs a v a = v.
Proof. unfold fs_set. destruct (text_eqb_spec a a); congruence. Qed.
Lemma fs_set_other fs a v x : x <> a -> fs_set fs a v x = fs x.
Proof. unfold fs_set. destruct (text_eqb_spec x a); congruence. Qed.
Lemma fs_run_app a b fs : fs_run (a ++ b) fs = fs_run b (fs_run a fs).
Proof. apply fold_left_app. Qed.

(* ---- chunks ---- *)
Lemma chunks_concat {A} stride (l : list (list A)) : 0 < stride -> (forall x, In x l -> length x = stride) -> chunks stride (concat l) = Some l.
Proof.
  intros H Hl. unfold chunks. destruct (Nat.eqb_spec stride 0); [lia|]. f_equal.
  assert (G : forall fuel, length (concat l) <= fuel -> chunks_f fuel stride (concat l) = l).
  { clear n. induction l as [|x l IH]; intros fuel Hf.
    - destruct fuel; reflexivity.
    - assert (Lx : length x = stride) by (apply Hl; now left). simpl in *. rewrite app_length in Hf. destruct fuel as [|fuel]; [lia|]. cbn [chunks_f].
      destruct (x ++ concat l) as [|y r] eqn:E. { apply app_eq_nil in E. destruct E as (-> & _). simpl in *. lia. }
      rewrite <- E. rewrite <- Lx at 1. rewrite firstn_app, firstn_all, Nat.sub_diag. cbn [firstn]. rewrite app_nil_r. f_equal.
      rewrite <- Lx at 2. rewrite skipn_app, skipn_all, Nat.sub_diag. cbn [skipn app]. apply IH. intros z Hz. apply Hl. now right. lia. }
  now apply G.
Qed.
