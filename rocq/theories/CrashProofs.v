(* prune_all of LogModel.v: what the files look like after crashes. *)
From Coq Require Import String List Arith Bool Lia.
Import ListNotations.
From Verif Require Import Spec Util OutputSetModel TreeModel IndexModel StatesModel FileModel LogModel FileProofs DumpProofs.

Definition pbin_name (g : nat * nat) : text := group_ext g (str "pbin").
Definition tmp_name (g : nat * nat) : text := group_ext g (str "tmp").

Lemma ext_pbin : ~ In 46 (str "pbin"). Proof. vm_compute. intuition discriminate. Qed.
Lemma ext_tmp : ~ In 46 (str "tmp"). Proof. vm_compute. intuition discriminate. Qed.
Lemma ext_bin : ~ In 46 (str "bin"). Proof. vm_compute. intuition discriminate. Qed.
Lemma pbin_inj g h : pbin_name g = pbin_name h -> g = h.
Proof. exact (fun E => proj1 (group_ext_inj g (str "pbin") h (str "pbin") ext_pbin ext_pbin E)). Qed.
Lemma tmp_inj g h : tmp_name g = tmp_name h -> g = h.
Proof. exact (fun E => proj1 (group_ext_inj g (str "tmp") h (str "tmp") ext_tmp ext_tmp E)). Qed.
Lemma pbin_tmp g h : pbin_name g <> tmp_name h.
Proof. intros E. pose proof (proj2 (group_ext_inj g (str "pbin") h (str "tmp") ext_pbin ext_tmp E)) as X. discriminate X. Qed.
Lemma name_pbin g h : group_name g <> pbin_name h.
Proof. rewrite group_name_ext. intros E. pose proof (proj2 (group_ext_inj g (str "bin") h (str "pbin") ext_bin ext_pbin E)) as X. discriminate X. Qed.
Lemma name_tmp g h : group_name g <> tmp_name h.
Proof. rewrite group_name_ext. intros E. pose proof (proj2 (group_ext_inj g (str "bin") h (str "tmp") ext_bin ext_tmp E)) as X. discriminate X. Qed.
Lemma index_pbin h : index_name <> pbin_name h.
Proof. exact (fun E => group_not_index h (str "pbin") (eq_sym E)). Qed.
Lemma index_tmp h : index_name <> tmp_name h.
Proof. exact (fun E => group_not_index h (str "tmp") (eq_sym E)). Qed.
Lemma pbin_fold g : group_ext g (str "pbin") = pbin_name g. Proof. reflexivity. Qed.
Lemma tmp_fold g : group_ext g (str "tmp") = tmp_name g. Proof. reflexivity. Qed.
Local Opaque pbin_name tmp_name.

Lemma lines_index gs : lines (index_text gs) = map group_name gs.
Proof.
  rewrite <- (lines_of (map group_name gs)).
  - f_equal. induction gs as [|g gs IH]; [reflexivity|]. cbn [map flat_map]. rewrite <- IH. reflexivity.
  - intros l Hl. apply in_map_iff in Hl. destruct Hl as (g & <- & _). apply group_no_newline.
Qed.

(* the contents of the pruned file of g *)
Definition written (fs0 : Fs) (g : nat * nat) (bytes : list nat) : Prop :=
  exists data w, fs0 (group_name g) = Some data /\ prune_data (fst g) data = Some w /\ bytes = concat w.

(* between runs and steps of runs *)
Definition state_of (fs0 fs : Fs) (g : nat * nat) : Prop :=
  match fs0 (pbin_name g) with
  | Some x => fs (pbin_name g) = Some x /\ fs (tmp_name g) = fs0 (tmp_name g)
  | None => fs (pbin_name g) = None \/ (exists w, written fs0 g w /\ fs (pbin_name g) = Some w /\ fs (tmp_name g) = None)
  end.
Definition done_of (fs0 fs : Fs) (g : nat * nat) : Prop :=
  match fs0 (pbin_name g) with
  | Some x => fs (pbin_name g) = Some x /\ fs (tmp_name g) = fs0 (tmp_name g)
  | None => exists w, written fs0 g w /\ fs (pbin_name g) = Some w /\ fs (tmp_name g) = None
  end.
Definition mid (fs0 : Fs) (gs : list (nat * nat)) (fs : Fs) : Prop :=
  (forall g, In g gs -> state_of fs0 fs g) /\
  (forall name, (forall g, In g gs -> name <> pbin_name g /\ name <> tmp_name g) -> fs name = fs0 name).

(* the run of fs0 gets through the group *)
Definition okg (fs0 : Fs) (g : nat * nat) : Prop :=
  exists data, fs0 (group_name g) = Some data /\ mmap data = Some data /\ (fs0 (pbin_name g) = None -> exists w, prune_data (fst g) data = Some w).

Lemma mid_refl fs0 gs : mid fs0 gs fs0.
Proof. split; auto. intros g _. unfold state_of. destruct (fs0 (pbin_name g)); auto. Qed.

Lemma mid_bin fs0 gs fs h : mid fs0 gs fs -> fs (group_name h) = fs0 (group_name h).
Proof. intros (_ & M). apply M. intros g _. split. apply name_pbin. apply name_tmp. Qed.
Lemma mid_index fs0 gs fs : mid fs0 gs fs -> fs index_name = fs0 index_name.
Proof. intros (_ & M). apply M. intros g _. split. apply index_pbin. apply index_tmp. Qed.

Lemma mmap_inv file data : mmap file = Some data -> data = file.
Proof. destruct file; simpl; congruence. Qed.

Lemma appends tmp bytes : forall fs, fs_run (map (fun b => Append tmp [b]) bytes) fs tmp =
  (match bytes with [] => fs tmp | _ => Some (match fs tmp with Some o => o | None => [] end ++ bytes) end) /\
  forall x, x <> tmp -> fs_run (map (fun b => Append tmp [b]) bytes) fs x = fs x.
Proof.
  induction bytes as [|b bytes IH]; intros fs; cbn [map]; unfold fs_run in *; cbn [fold_left]; auto.
  destruct (IH (fs_do fs (Append tmp [b]))) as (I1 & I2). cbn [fs_do] in *. split.
  - rewrite I1, fs_set_same. destruct bytes; auto. now rewrite <- app_assoc.
  - intros x Hx. rewrite I2 by auto. now apply fs_set_other.
Qed.

Lemma firstn_map_app {A B} (f : A -> B) l x k : k <= length l -> firstn k (map f l ++ [x]) = map f (firstn k l).
Proof. intros H. rewrite firstn_app, map_length. replace (k - length l) with 0 by lia. cbn [firstn]. now rewrite app_nil_r, firstn_map. Qed.

(* one group *)
Lemma group_run fs0 gs fs g : mid fs0 gs fs -> In g gs -> okg fs0 g ->
  exists ops, prune_ops (fst g) (group_name g) fs = Some ops /\
    (forall k, mid fs0 gs (fs_run (firstn k ops) fs)) /\
    done_of fs0 (fs_run ops fs) g /\ (forall h, h <> g -> done_of fs0 fs h -> done_of fs0 (fs_run ops fs) h).
Proof.
  intros M Hg (data & D1 & D2 & D3). unfold prune_ops. rewrite (mid_bin fs0 gs fs g M), D1, D2. rewrite !group_with_ext, pbin_fold, tmp_fold.
  pose proof (proj1 M g Hg) as Sg. unfold state_of in Sg.
  destruct (fs (pbin_name g)) as [x|] eqn:Ep.
  - exists []. split; auto. split. { intros k. rewrite firstn_nil. exact M. } split; auto. change (fs_run [] fs) with fs. unfold done_of. destruct (fs0 (pbin_name g)) as [y|].
    + rewrite Ep. auto. + destruct Sg as [|Sg]; [discriminate|]. rewrite Ep. exact Sg.
  - assert (E0 : fs0 (pbin_name g) = None). { destruct (fs0 (pbin_name g)); auto. destruct Sg; congruence. }
    destruct (D3 E0) as (w & Ew). rewrite Ew. eexists. split; [reflexivity|].
    set (bytes := concat w). set (app := map (fun b => Append (tmp_name g) [b])).
    set (fs1 := fs_do fs (Create (tmp_name g))).
    assert (Wr : written fs0 g bytes) by (exists data, w; auto).
    (* partial writes *)
    assert (Pre : forall l, mid fs0 gs (fs_run (app l) fs1)).
    { intros l. destruct (appends (tmp_name g) l fs1) as (_ & A). fold app in A. split.
      - intros h Hh. pose proof (proj1 M h Hh) as Sh. unfold state_of in *. destruct (Bool.bool_dec (group_eqb g h) true) as [Eh|Nh].
        + destruct (group_eqb_spec g h) as [<-|]; [|discriminate]. rewrite E0. left. rewrite A by apply pbin_tmp. unfold fs1. cbn [fs_do]. rewrite fs_set_other by apply pbin_tmp. exact Ep.
        + assert (N : g <> h) by (destruct (group_eqb_spec g h); congruence).
          rewrite !A. 2: intros E; apply tmp_inj in E; congruence. 2: apply pbin_tmp. unfold fs1. cbn [fs_do]. rewrite !fs_set_other. exact Sh. intros E; apply tmp_inj in E; congruence. apply pbin_tmp.
      - intros name Hn. destruct (Hn g Hg) as (_ & Nt). rewrite A by auto. unfold fs1. cbn [fs_do]. rewrite fs_set_other by auto. apply (proj2 M). exact Hn. }
    assert (End : let fs2 := fs_run (app bytes ++ [Rename (tmp_name g) (pbin_name g)]) fs1 in
      fs2 (pbin_name g) = Some bytes /\ fs2 (tmp_name g) = None /\ forall x, x <> pbin_name g -> x <> tmp_name g -> fs2 x = fs x).
    { cbv zeta. rewrite fs_run_app. destruct (appends (tmp_name g) bytes fs1) as (A1 & A2). fold app in A1, A2. unfold fs_run at 1 3 5. cbn [fold_left fs_do].
      split; [|split].
      - rewrite fs_set_other by apply pbin_tmp. rewrite fs_set_same, A1. unfold fs1. cbn [fs_do]. rewrite fs_set_same. now destruct bytes.
      - apply fs_set_same.
      - intros x N1 N2. rewrite !fs_set_other by auto. rewrite A2 by auto. unfold fs1. cbn [fs_do]. now rewrite fs_set_other. }
    cbv zeta in End. destruct End as (F1 & F2 & F3).
    assert (Done : forall h, h <> g -> forall (Q : Fs -> Fs -> nat * nat -> Prop), (Q = done_of \/ Q = state_of) -> Q fs0 fs h -> Q fs0 (fs_run (app bytes ++ [Rename (tmp_name g) (pbin_name g)]) fs1) h).
    { intros h N Q [->| ->] Hd; unfold done_of, state_of in *; rewrite !F3; auto; try (intros E; apply pbin_inj in E; congruence); try (intros E; apply tmp_inj in E; congruence); try apply pbin_tmp; intros E; symmetry in E; now apply pbin_tmp in E. }
    split; [|split].
    + intros k. destruct k as [|k]. { cbn [firstn]. exact M. } cbn [firstn]. change (fs_run (Create (tmp_name g) :: firstn k (app bytes ++ [Rename (tmp_name g) (pbin_name g)])) fs)
        with (fs_run (firstn k (app bytes ++ [Rename (tmp_name g) (pbin_name g)])) fs1).
      destruct (Nat.le_gt_cases k (length bytes)) as [L|L].
      * unfold app. rewrite firstn_map_app by auto. apply Pre.
      * rewrite firstn_all2 by (rewrite app_length; unfold app; rewrite map_length; simpl; lia). split.
        -- intros h Hh. destruct (Bool.bool_dec (group_eqb g h) true) as [Eh|Nh].
           ++ destruct (group_eqb_spec g h) as [<-|]; [|discriminate]. unfold state_of. rewrite E0. right. exists bytes. auto.
           ++ apply Done; auto. destruct (group_eqb_spec g h); congruence. now apply (proj1 M).
        -- intros name Hn. destruct (Hn g Hg) as (N1 & N2). rewrite F3 by auto. apply (proj2 M). exact Hn.
    + unfold done_of. rewrite E0. exists bytes. auto.
    + intros h N Hd. apply Done; auto.
Qed.

Lemma firstn_app_cases {A} k (a b : list A) : (k <= length a /\ firstn k (a ++ b) = firstn k a) \/ (length a < k /\ firstn k (a ++ b) = a ++ firstn (k - length a) b).
Proof.
  rewrite firstn_app. destruct (Nat.le_gt_cases k (length a)) as [H|H]; [left|right]; split; auto.
  replace (k - length a) with 0 by lia. cbn. now rewrite app_nil_r. now rewrite (firstn_all2 a) by lia.
Qed.

Lemma lines_run fs0 gs todo : forall fs, mid fs0 gs fs -> (forall g, In g todo -> In g gs /\ okg fs0 g) ->
  exists ops, prune_lines (map group_name todo) fs = Some ops /\
    (forall k, mid fs0 gs (fs_run (firstn k ops) fs)) /\
    (forall g, In g todo \/ done_of fs0 fs g -> done_of fs0 (fs_run ops fs) g).
Proof.
  induction todo as [|g todo IH]; intros fs M H.
  - exists []. split; auto. split. { intros k. now rewrite firstn_nil. } intros g [[]|D]. exact D.
  - destruct (H g (or_introl eq_refl)) as (Hg & Og). destruct (group_run fs0 gs fs g M Hg Og) as (ops & E & P & D & K).
    cbn [map prune_lines]. rewrite group_channels, E.
    pose proof (P (length ops)) as M1. rewrite firstn_all in M1.
    destruct (IH (fs_run ops fs) M1) as (rest & E' & P' & D'). { intros h Hh. apply H. now right. }
    rewrite E'. exists (ops ++ rest). split; auto. split.
    + intros k. destruct (firstn_app_cases k ops rest) as [(_ & ->)|(_ & ->)]; auto. rewrite fs_run_app. apply P'.
    + intros h Hh. rewrite fs_run_app. apply D'. destruct (group_eqb_spec g h) as [<-|N]; auto.
      destruct Hh as [[->|Hh]|Hh]; auto.
Qed.

Lemma okg_of_success fs0 gs todo : forall fs ops, mid fs0 gs fs -> (forall g, In g todo -> In g gs) -> prune_lines (map group_name todo) fs = Some ops ->
  forall g, In g todo -> okg fs0 g.
Proof.
  induction todo as [|g todo IH]; intros fs ops M H E h Hh; [destruct Hh|].
  cbn [map prune_lines] in E. rewrite group_channels in E. destruct (prune_ops (fst g) (group_name g) fs) as [o|] eqn:Eo; [|discriminate].
  assert (Og : okg fs0 g).
  { unfold prune_ops in Eo. rewrite (mid_bin fs0 gs fs g M) in Eo. destruct (fs0 (group_name g)) as [file|] eqn:Ef; [|discriminate].
    destruct (mmap file) as [data|] eqn:Em; [|discriminate]. pose proof (mmap_inv _ _ Em) as ->. exists file. split; auto. split; auto.
    intros E0. rewrite !group_with_ext, pbin_fold, tmp_fold in Eo. pose proof (proj1 M g (H g (or_introl eq_refl))) as Sg. unfold state_of in Sg. rewrite E0 in Sg.
    destruct (fs (pbin_name g)) as [x|] eqn:Ep.
    - destruct Sg as [|(w & (d & w' & W1 & W2 & _) & _)]; [discriminate|]. rewrite Ef in W1. injection W1 as <-. eauto.
    - destruct (prune_data (fst g) file); [eauto|discriminate]. }
  destruct Hh as [<-|Hh]; auto.
  destruct (prune_lines (map group_name todo) (fs_run o fs)) as [rest|] eqn:Er; [|discriminate].
  destruct (group_run fs0 gs fs g M) as (ops' & Eo' & P & _); auto. { apply H. now left. } rewrite Eo in Eo'. injection Eo' as <-.
  pose proof (P (length o)) as M1. rewrite firstn_all in M1. eapply IH; eauto. intros x Hx. apply H. now right.
Qed.

(* any number of runs, each stopped after any number of steps *)
Inductive crashes : Fs -> Fs -> Prop :=
| crash_none fs : crashes fs fs
| crash_run fs fs1 ops k : crashes fs fs1 -> prune_all_ops fs1 = Some ops -> crashes fs (fs_run (firstn k ops) fs1).

Lemma crashes_ok fs0 gs fs : fs0 index_name = Some (index_text gs) -> (forall g, In g gs -> okg fs0 g) -> crashes fs0 fs -> mid fs0 gs fs.
Proof.
  intros Ix Ok C. induction C as [fs0|fs0 fs1 ops k C IH E]. apply mid_refl.
  specialize (IH Ix Ok). unfold prune_all_ops in E. rewrite (mid_index _ _ _ IH), Ix, lines_index in E.
  destruct (lines_run fs0 gs gs fs1 IH) as (ops' & E' & P & _). { auto. } rewrite E in E'. injection E' as <-. apply P.
Qed.

Lemma done_same fs0 gs fs fs' : mid fs0 gs fs -> mid fs0 gs fs' -> (forall g, In g gs -> done_of fs0 fs g) -> (forall g, In g gs -> done_of fs0 fs' g) ->
  forall name, fs name = fs' name.
Proof.
  intros (M1 & M2) (M1' & M2') D D' name.
  assert (Dec : (exists g, In g gs /\ (name = pbin_name g \/ name = tmp_name g)) \/ forall g, In g gs -> name <> pbin_name g /\ name <> tmp_name g).
  { clear. induction gs as [|g gs IH]. right; intros ? [].
    destruct (text_eqb_spec name (pbin_name g)) as [E1|N1]. left; exists g; simpl; auto.
    destruct (text_eqb_spec name (tmp_name g)) as [E2|N2]. left; exists g; simpl; auto.
    destruct IH as [(h & Hh & E)|N]. left; exists h; simpl; auto. right. intros h [<-|Hh]; auto. }
  destruct Dec as [(g & Hg & E)|N]; [|now rewrite M2, M2'].
  specialize (D g Hg). specialize (D' g Hg). unfold done_of in *. destruct (fs0 (pbin_name g)).
  - destruct E as [-> | ->]; destruct D, D'; congruence.
  - destruct D as (w & (d & x & A1 & A2 & ->) & D1 & D2), D' as (w' & (d' & x' & A1' & A2' & ->) & D1' & D2').
    assert (d = d') by congruence. subst d'. assert (x = x') by congruence. subst x'. destruct E as [-> | ->]; congruence.
Qed.
