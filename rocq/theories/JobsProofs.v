(* Several prune commands at the same time (JobsModel.v). *)
From Coq Require Import String List Arith Bool Lia.
Import ListNotations.
From Verif Require Import Spec Util OutputSetModel TreeModel IndexModel StatesModel FileModel LogModel JobsModel TreeProofs FileProofs DumpProofs CrashProofs.
Local Opaque pbin_name tmp_name group_name prune_data.

(* no file has two names, and inodes in use are below the next one *)
Definition disk_ok (d : Disk) : Prop :=
  (forall a b i, dk_name d a = Some i -> dk_name d b = Some i -> a = b) /\ (forall a i, dk_name d a = Some i -> i < dk_next d).
Definition job (g : nat * nat) : nat * text := (fst g, group_name g).
Lemma job_inj g h : job g = job h -> g = h.
Proof. intros E. apply (f_equal snd) in E. unfold job in E. cbn [snd] in E. rewrite !group_name_ext in E. exact (proj1 (group_ext_inj g (str "bin") h (str "bin") ext_bin ext_bin E)). Qed.
Local Opaque job.

Lemma enter_same d n v : dk_name (dk_enter d n v) n = v.
Proof. unfold dk_enter. cbn. destruct (text_eqb_spec n n); congruence. Qed.
Lemma enter_other d n v x : x <> n -> dk_name (dk_enter d n v) x = dk_name d x.
Proof. intros H. unfold dk_enter. cbn. destruct (text_eqb_spec x n); congruence. Qed.
Lemma store_same d i b : dk_data (dk_store d i b) i = b.
Proof. unfold dk_store. cbn. now rewrite Nat.eqb_refl. Qed.
Lemma store_other d i b x : x <> i -> dk_data (dk_store d i b) x = dk_data d x.
Proof. intros H. unfold dk_store. cbn. apply Nat.eqb_neq in H. now rewrite H. Qed.

Lemma nth_error_repeat0 n i : i < n -> nth_error (repeat 0 n) i = Some 0.
Proof. revert i. induction n as [|n IH]; intros [|i] H; cbn; auto; try lia. apply IH. lia. Qed.

(* writing one byte *)
Lemma write_length data pos b : List.length (write_at data pos b) = Nat.max (List.length data) (S pos).
Proof. unfold write_at. rewrite app_length, firstn_length, app_length, repeat_length. cbn [List.length]. rewrite skipn_length. lia. Qed.
Lemma write_nth data pos b i : nth_error (write_at data pos b) i =
  if i =? pos then Some b else if (i <? pos) && (List.length data <=? i) then Some 0 else nth_error data i.
Proof.
  unfold write_at. assert (L : List.length (firstn pos (data ++ repeat 0 (pos - List.length data))) = pos) by (rewrite firstn_length, app_length, repeat_length; lia).
  destruct (Nat.eqb_spec i pos) as [->|N].
  - rewrite nth_error_app2 by lia. rewrite L, Nat.sub_diag. reflexivity.
  - destruct (Nat.ltb_spec i pos) as [H|H]; cbn [andb].
    + rewrite nth_error_app1 by lia. rewrite nth_error_firstn'. replace (i <? pos) with true by (symmetry; now apply Nat.ltb_lt). destruct (Nat.leb_spec (List.length data) i).
      * rewrite nth_error_app2 by auto. apply nth_error_repeat0. lia.
      * now rewrite nth_error_app1.
    + rewrite nth_error_app2 by lia. rewrite L. destruct (i - pos) as [|j] eqn:E; [lia|]. cbn [nth_error]. rewrite nth_error_skipn'. f_equal. lia.
Qed.

Section Jobs.
Variable d0 : Disk.
Variable js : list (list (nat * text)).
Variable gs : list (nat * nat).
Notation fs0 := (dk_view d0).

(* a process that writes for g to inode h *)
Definition wr (ps : list Proc) (g : nat * nat) (h pos : nat) (out : list nat) : Prop :=
  exists k rest, nth_error ps k = Some (mkProc (job g :: rest) (PhWrite h pos out)).
Definition mk (ps : list Proc) (g : nat * nat) (data : list nat) : Prop :=
  exists k rest, nth_error ps k = Some (mkProc (job g :: rest) (PhMake data)).
(* inode h holds w, or somebody will have written w to it *)
Definition cov (d : Disk) (ps : list Proc) (g : nat * nat) (h : nat) (w : list nat) : Prop :=
  List.length (dk_data d h) <= List.length w /\ exists pos, (pos = List.length w \/ wr ps g h pos w) /\ pos <= List.length (dk_data d h) /\
    forall i, i < pos -> nth_error (dk_data d h) i = nth_error w i.
Lemma cov_end d ps g h w : cov d ps g h w -> (forall pos out, ~ wr ps g h pos out) -> dk_data d h = w.
Proof.
  intros (L & pos & [->|W] & P & H) N; [|now apply N in W]. apply nth_error_ext. intros i. destruct (Nat.lt_ge_cases i (List.length w)) as [K|K]; auto.
  rewrite (proj2 (nth_error_None _ _)) by lia. symmetry. now apply nth_error_None.
Qed.

Definition new_ok (d : Disk) (ps : list Proc) (g : nat * nat) : Prop :=
  exists w, written fs0 g w /\
    (forall h pos out, wr ps g h pos out -> out = w /\ pos <= List.length w /\ h < dk_next d /\ forall n, dk_name d n = Some h -> n = tmp_name g \/ n = pbin_name g) /\
    (dk_name d (pbin_name g) = None \/ exists h, dk_name d (pbin_name g) = Some h /\ cov d ps g h w) /\
    ((dk_name d (pbin_name g) = None /\ forall h pos out, ~ wr ps g h pos out) \/ dk_name d (tmp_name g) = None \/
     exists h, dk_name d (tmp_name g) = Some h /\ cov d ps g h w /\ exists h' pos, wr ps g h' pos w).
Definition old_ok (d : Disk) (ps : list Proc) (g : nat * nat) : Prop :=
  dk_view d (pbin_name g) = fs0 (pbin_name g) /\ dk_view d (tmp_name g) = fs0 (tmp_name g) /\
  (forall h pos out, ~ wr ps g h pos out) /\ (forall data, ~ mk ps g data).
Definition group_ok (d : Disk) (ps : list Proc) (g : nat * nat) : Prop :=
  match fs0 (pbin_name g) with Some _ => old_ok d ps g | None => new_ok d ps g end.

(* only process k has calls for g *)
Definition alone (g : nat * nat) (k : nat) : Prop := forall j l, nth_error js j = Some l -> In (job g) l -> j = k.
Definition alone_ok (d : Disk) (g : nat * nat) (ph : Phase) : Prop :=
  match ph with
  | PhOpen => True
  | PhMake _ => dk_name d (pbin_name g) = None
  | PhWrite h _ _ => dk_name d (tmp_name g) = Some h /\ dk_name d (pbin_name g) = None
  | PhFailed => False
  end.

Record inv (d : Disk) (ps : list Proc) : Prop := {
  i_disk : disk_ok d;
  i_same : forall g g' h pos pos' out out', wr ps g h pos out -> wr ps g' h pos' out' -> g = g';
  i_other : forall n, (forall g, In g gs -> n <> pbin_name g /\ n <> tmp_name g) -> dk_view d n = fs0 n;
  i_jobs : forall k p, nth_error ps k = Some p -> exists l, nth_error js k = Some l /\ incl (pc_jobs p) l;
  i_mk : forall g data, mk ps g data -> fs0 (group_name g) = Some data;
  i_group : forall g, In g gs -> group_ok d ps g;
  i_alone : forall k g rest ph, nth_error ps k = Some (mkProc (job g :: rest) ph) -> alone g k -> alone_ok d g ph }.

Hypothesis Hdisk : disk_ok d0.
Hypothesis Hjobs : forall l c t, In l js -> In (c, t) l -> exists g, In g gs /\ (c, t) = job g.
Hypothesis Hgood : forall g, In g gs -> okg fs0 g.

(* what the steps of a process for g do to the directory *)
Record effect (d d' : Disk) (ps : list Proc) (g : nat * nat) : Prop := {
  e_names : forall n, n <> tmp_name g -> n <> pbin_name g -> dk_name d' n = dk_name d n;
  e_new : forall n i, dk_name d' n = Some i -> dk_name d n = Some i \/ dk_next d <= i \/ ((n = tmp_name g \/ n = pbin_name g) /\ dk_name d (tmp_name g) = Some i);
  e_data : forall i, dk_data d' i = dk_data d i \/ dk_next d <= i \/ dk_name d (tmp_name g) = Some i \/ exists pos out, wr ps g i pos out;
  e_next : dk_next d <= dk_next d' }.
Lemma effect_refl d ps g : effect d d ps g.
Proof. split; auto. Qed.

(* the other processes *)
Lemma wr_other ps k g rest ph p' g' h pos out : nth_error ps k = Some (mkProc (job g :: rest) ph) ->
  (pc_phase p' = PhOpen \/ exists r, pc_jobs p' = job g :: r) -> g' <> g -> (wr (upd ps k p') g' h pos out <-> wr ps g' h pos out).
Proof.
  intros E P N. pose proof (nth_error_lt _ _ _ E) as L. split; intros (j & r & H).
  - destruct (Nat.eq_dec j k) as [->|Nj].
    + rewrite nth_error_upd_eq in H by auto. injection H as ->. cbn in P. destruct P as [P|(r' & P)]; [discriminate|]. exfalso. apply N, job_inj. congruence.
    + rewrite nth_error_upd_neq in H by auto. exists j, r. exact H.
  - assert (Nj : j <> k). { intros ->. rewrite E in H. apply N, job_inj. congruence. }
    exists j, r. now rewrite nth_error_upd_neq.
Qed.
Lemma mk_other ps k g rest ph p' g' data : nth_error ps k = Some (mkProc (job g :: rest) ph) ->
  (pc_phase p' = PhOpen \/ exists r, pc_jobs p' = job g :: r) -> g' <> g -> (mk (upd ps k p') g' data <-> mk ps g' data).
Proof.
  intros E P N. pose proof (nth_error_lt _ _ _ E) as L. split; intros (j & r & H).
  - destruct (Nat.eq_dec j k) as [->|Nj].
    + rewrite nth_error_upd_eq in H by auto. injection H as ->. cbn in P. destruct P as [P|(r' & P)]; [discriminate|]. exfalso. apply N, job_inj. congruence.
    + rewrite nth_error_upd_neq in H by auto. exists j, r. exact H.
  - assert (Nj : j <> k). { intros ->. rewrite E in H. apply N, job_inj. congruence. }
    exists j, r. now rewrite nth_error_upd_neq.
Qed.

(* the other groups *)
Lemma frame d d' ps ps' g g' : inv d ps -> In g gs -> In g' gs -> g' <> g -> effect d d' ps g ->
  (forall h pos out, wr ps' g' h pos out <-> wr ps g' h pos out) -> (forall data, mk ps' g' data <-> mk ps g' data) ->
  group_ok d' ps' g'.
Proof.
  intros I Hg Hg' N F W M. pose proof (i_group _ _ I g' Hg') as G. pose proof (i_group _ _ I g Hg) as G0.
  assert (Np : dk_name d' (pbin_name g') = dk_name d (pbin_name g')). { apply (e_names _ _ _ _ F). apply pbin_tmp. intros E. apply pbin_inj in E. auto. }
  assert (Nt : dk_name d' (tmp_name g') = dk_name d (tmp_name g')). { apply (e_names _ _ _ _ F). intros E. apply tmp_inj in E. auto. intros E. symmetry in E. now apply pbin_tmp in E. }
  assert (Da : forall n i, n = pbin_name g' \/ n = tmp_name g' -> dk_name d n = Some i -> dk_data d' i = dk_data d i).
  { intros n i Hn Ei. destruct (e_data _ _ _ _ F i) as [E|[E|[E|(pos & out & E)]]]; auto.
    - pose proof (proj2 (i_disk _ _ I) _ _ Ei). lia.
    - pose proof (proj1 (i_disk _ _ I) _ _ _ Ei E) as X. exfalso. destruct Hn as [->| ->]. now apply pbin_tmp in X. apply tmp_inj in X. auto.
    - exfalso. unfold group_ok in G0. destruct (fs0 (pbin_name g)). { destruct G0 as (_ & _ & X & _). now apply X in E. }
      destruct G0 as (w & _ & X & _). destruct (X _ _ _ E) as (_ & _ & _ & Y). destruct (Y _ Ei) as [Z|Z], Hn as [->| ->].
      now apply pbin_tmp in Z. apply tmp_inj in Z; auto. apply pbin_inj in Z; auto. symmetry in Z. now apply pbin_tmp in Z. }
  unfold group_ok in *. destruct (fs0 (pbin_name g')) as [x|].
  - destruct G as (A & B & C & D). split; [|split; [|split]].
    + rewrite <- A. unfold dk_view. rewrite Np. destruct (dk_name d (pbin_name g')) eqn:E; auto. f_equal. apply (Da (pbin_name g')); auto.
    + rewrite <- B. unfold dk_view. rewrite Nt. destruct (dk_name d (tmp_name g')) eqn:E; auto. f_equal. apply (Da (tmp_name g')); auto.
    + intros h pos out X. apply W in X. now apply C in X.
    + intros data X. apply M in X. now apply D in X.
  - destruct G as (w & Wr & A & B & C).
    assert (Cv : forall n h, n = pbin_name g' \/ n = tmp_name g' -> dk_name d n = Some h -> cov d ps g' h w -> cov d' ps' g' h w).
    { intros n h Hn Eh (L & pos & P & Q & R). unfold cov. rewrite (Da n h Hn Eh). split; auto. exists pos. split; auto. destruct P as [P|P]; auto. right. now apply W. }
    exists w. split; auto. split; [|split].
    + intros h pos out X. apply W in X. destruct (A _ _ _ X) as (A1 & A2 & A3 & A4). split; auto. split; auto. pose proof (e_next _ _ _ _ F). split; [lia|].
      intros n En. destruct (e_new _ _ _ _ F n h En) as [K|[K|(_ & K)]]; auto. lia. apply A4 in K. exfalso. destruct K as [K|K]. apply tmp_inj in K; congruence. symmetry in K. now apply pbin_tmp in K.
    + rewrite Np. destruct B as [B|(h & B1 & B2)]; auto. right. exists h. split; auto. apply (Cv (pbin_name g')); auto.
    + rewrite Np, Nt. destruct C as [(C1 & C2)|[C|(h & C1 & C2 & h' & pos & C3)]]; auto.
      * left. split; auto. intros h pos out X. apply W in X. now apply C2 in X.
      * right; right. exists h. split; auto. split. apply (Cv (tmp_name g')); auto. exists h', pos. now apply W.
Qed.

Lemma in_gs d ps k g rest ph : inv d ps -> nth_error ps k = Some (mkProc (job g :: rest) ph) -> In g gs.
Proof.
  intros I E. destruct (i_jobs _ _ I _ _ E) as (l & El & Inc). cbn [pc_jobs] in Inc. destruct (job g) as (c, t) eqn:J.
  destruct (Hjobs l c t) as (g' & H & E'). { eapply nth_error_In; eauto. } { apply Inc. now left. }
  assert (g = g') as -> by (apply job_inj; congruence). exact H.
Qed.
Lemma wr_facts d ps g h pos out : inv d ps -> wr ps g h pos out ->
  In g gs /\ fs0 (pbin_name g) = None /\ h < dk_next d /\ forall n, dk_name d n = Some h -> n = tmp_name g \/ n = pbin_name g.
Proof.
  intros I W. assert (Hg : In g gs) by (destruct W as (k & r & E); eapply in_gs; eauto). pose proof (i_group _ _ I g Hg) as G. unfold group_ok in G.
  destruct (fs0 (pbin_name g)). { destruct G as (_ & _ & X & _). now apply X in W. } destruct G as (w & _ & A & _). destruct (A _ _ _ W) as (_ & _ & B & C). auto.
Qed.

Lemma keep d d' ps k g rest ph p' : inv d ps -> nth_error ps k = Some (mkProc (job g :: rest) ph) ->
  ((pc_phase p' = PhOpen /\ pc_jobs p' = rest) \/ pc_jobs p' = job g :: rest) ->
  effect d d' ps g -> disk_ok d' ->
  (forall h pos out, wr (upd ps k p') g h pos out -> (exists pos' out', wr ps g h pos' out') \/ dk_next d <= h \/ dk_name d (tmp_name g) = Some h) ->
  (forall data, pc_phase p' = PhMake data -> fs0 (group_name g) = Some data) ->
  group_ok d' (upd ps k p') g -> (alone g k -> pc_jobs p' = job g :: rest -> alone_ok d' g (pc_phase p')) ->
  inv d' (upd ps k p').
Proof.
  intros I E P F Dk S Mk G Al. pose proof (nth_error_lt _ _ _ E) as L. pose proof (in_gs _ _ _ _ _ _ I E) as Hg.
  assert (P2 : pc_phase p' = PhOpen \/ exists r, pc_jobs p' = job g :: r) by (destruct P as [(P & _)|P]; eauto).
  assert (Wo : forall g' h pos out, g' <> g -> (wr (upd ps k p') g' h pos out <-> wr ps g' h pos out)) by (intros; eapply wr_other; eauto).
  assert (Mo : forall g' data, g' <> g -> (mk (upd ps k p') g' data <-> mk ps g' data)) by (intros; eapply mk_other; eauto).
  assert (Dec : forall g', g' = g \/ g' <> g) by (intros g'; destruct (group_eqb_spec g' g); auto).
  assert (Cross : forall g' h pos pos' out out', g' <> g -> wr (upd ps k p') g h pos out -> wr ps g' h pos' out' -> False).
  { intros g' h pos pos' out out' N W W'. destruct (wr_facts _ _ _ _ _ _ I W') as (_ & _ & B & C). destruct (S _ _ _ W) as [(x & y & X)|[X|X]].
    - apply N. eapply (i_same _ _ I); eauto.
    - lia.
    - destruct (C _ X) as [Y|Y]. apply tmp_inj in Y. congruence. symmetry in Y. now apply pbin_tmp in Y. }
  split; auto.
  - intros g1 g2 h pos pos' out out' W1 W2. destruct (Dec g1) as [->|N1], (Dec g2) as [->|N2]; auto.
    + apply Wo in W2; auto. destruct (Cross _ _ _ _ _ _ N2 W1 W2).
    + apply Wo in W1; auto. destruct (Cross _ _ _ _ _ _ N1 W2 W1).
    + apply Wo in W1; auto. apply Wo in W2; auto. eapply (i_same _ _ I); eauto.
  - intros n Hn. rewrite <- (i_other _ _ I n Hn). destruct (Hn g Hg) as (N1 & N2). unfold dk_view. rewrite (e_names _ _ _ _ F) by auto. destruct (dk_name d n) as [i|] eqn:En; auto. f_equal.
    destruct (e_data _ _ _ _ F i) as [X|[X|[X|(pos & out & X)]]]; auto; exfalso.
    + pose proof (proj2 (i_disk _ _ I) _ _ En). lia.
    + apply N2. eapply (proj1 (i_disk _ _ I)); eauto.
    + destruct (wr_facts _ _ _ _ _ _ I X) as (_ & _ & _ & Y). destruct (Y _ En); auto.
  - intros j p Ej. destruct (Nat.eq_dec j k) as [->|Nj].
    + rewrite nth_error_upd_eq in Ej by auto. injection Ej as <-. destruct (i_jobs _ _ I _ _ E) as (l & El & Inc). exists l. split; auto. cbn [pc_jobs] in Inc.
      destruct P as [(_ & ->)| ->]; auto. intros x Hx. apply Inc. now right.
    + rewrite nth_error_upd_neq in Ej by auto. now apply (i_jobs _ _ I).
  - intros g' data M. destruct (Dec g') as [->|N]; [|apply (i_mk _ _ I); now apply Mo]. destruct M as (j & r & Ej). destruct (Nat.eq_dec j k) as [->|Nj].
    + rewrite nth_error_upd_eq in Ej by auto. injection Ej as ->. apply Mk. reflexivity.
    + rewrite nth_error_upd_neq in Ej by auto. apply (i_mk _ _ I). exists j, r. exact Ej.
  - intros g' Hg'. destruct (Dec g') as [->|N]; auto. apply (frame d d' ps _ g g'); auto.
  - intros j g' r ph' Ej A. destruct (Nat.eq_dec j k) as [->|Nj].
    + rewrite nth_error_upd_eq in Ej by auto. injection Ej as ->. cbn in *. destruct P as [(-> & _)|P]; [exact Logic.I|]. assert (g' = g) as -> by (apply job_inj; congruence). auto.
    + rewrite nth_error_upd_neq in Ej by auto. destruct (Dec g') as [->|N].
      * exfalso. destruct (i_jobs _ _ I _ _ E) as (l & El & Inc). apply Nj. symmetry. apply (A k l El). apply Inc. now left.
      * pose proof (i_alone _ _ I _ _ _ _ Ej A) as Q. destruct ph'; cbn [alone_ok] in *; auto; rewrite !(e_names _ _ _ _ F); auto; try apply pbin_tmp; try (intros X; apply pbin_inj in X; congruence); try (intros X; apply tmp_inj in X; congruence); intros X; symmetry in X; now apply pbin_tmp in X.
Qed.

(* the writers after a step of process k *)
Lemma wr_upd ps k p p' g h pos out : nth_error ps k = Some p -> wr (upd ps k p') g h pos out ->
  (exists r, p' = mkProc (job g :: r) (PhWrite h pos out)) \/ wr ps g h pos out.
Proof.
  intros E (j & r & H). destruct (Nat.eq_dec j k) as [->|N].
  - rewrite nth_error_upd_eq in H by (eapply nth_error_lt; eauto). injection H as ->. left; eauto.
  - rewrite nth_error_upd_neq in H by auto. right. exists j, r. exact H.
Qed.
Lemma wr_stay ps k p p' g h pos out : nth_error ps k = Some p -> wr ps g h pos out ->
  (exists r, p = mkProc (job g :: r) (PhWrite h pos out)) \/ wr (upd ps k p') g h pos out.
Proof.
  intros E (j & r & H). destruct (Nat.eq_dec j k) as [->|N].
  - left. exists r. congruence.
  - right. exists j, r. now rewrite nth_error_upd_neq.
Qed.
Lemma wr_new ps k p g h pos out r : nth_error ps k = Some p -> wr (upd ps k (mkProc (job g :: r) (PhWrite h pos out))) g h pos out.
Proof. intros E. exists k, r. apply nth_error_upd_eq. eapply nth_error_lt; eauto. Qed.
Lemma mk_upd ps k p p' g data : nth_error ps k = Some p -> mk (upd ps k p') g data ->
  (exists r, p' = mkProc (job g :: r) (PhMake data)) \/ mk ps g data.
Proof.
  intros E (j & r & H). destruct (Nat.eq_dec j k) as [->|N].
  - rewrite nth_error_upd_eq in H by (eapply nth_error_lt; eauto). injection H as ->. left; eauto.
  - rewrite nth_error_upd_neq in H by auto. right. exists j, r. exact H.
Qed.

Lemma same_group d ps ps' g : group_ok d ps g -> (forall h pos out, wr ps' g h pos out <-> wr ps g h pos out) ->
  (fs0 (pbin_name g) <> None -> forall data, mk ps' g data -> mk ps g data) -> group_ok d ps' g.
Proof.
  intros G W M. unfold group_ok in *. destruct (fs0 (pbin_name g)).
  - destruct G as (A & B & C & D). split; [|split; [|split]]; auto. intros h pos out X. apply W in X. now apply C in X. intros data X. apply M in X. now apply D in X. discriminate.
  - destruct G as (w & Wr & A & B & C).
    assert (Cv : forall h, cov d ps g h w -> cov d ps' g h w). { intros h (L & pos & P & Q & R). split; auto. exists pos. split; auto. destruct P as [P|P]; auto. right. now apply W. }
    exists w. split; auto. split; [|split].
    + intros h pos out X. apply A. now apply W.
    + destruct B as [B|(h & B1 & B2)]; auto. right. exists h. auto.
    + destruct C as [(C1 & C2)|[C|(h & C1 & C2 & h' & pos & C3)]]; auto.
      * left. split; auto. intros h pos out X. apply W in X. now apply C2 in X.
      * right; right. exists h. split; auto. split; auto. exists h', pos. now apply W.
Qed.

Lemma written_fun g w w' : written fs0 g w -> written fs0 g w' -> w = w'.
Proof. intros (d & x & A & B & ->) (d' & x' & A' & B' & ->). assert (d = d') as <- by congruence. assert (x = x') as <- by congruence. reflexivity. Qed.

(* a step that neither makes nor ends a writer and leaves the directory *)
Lemma keep_quiet d ps k g rest ph p' : inv d ps -> nth_error ps k = Some (mkProc (job g :: rest) ph) ->
  (forall h pos out, ph <> PhWrite h pos out) -> (forall h pos out, pc_phase p' <> PhWrite h pos out) ->
  ((pc_phase p' = PhOpen /\ pc_jobs p' = rest) \/ pc_jobs p' = job g :: rest) ->
  (forall data, pc_phase p' = PhMake data -> fs0 (group_name g) = Some data /\ dk_name d (pbin_name g) = None) ->
  (pc_phase p' = PhFailed -> False) -> inv d (upd ps k p').
Proof.
  intros I E Nw Nw' P Mk Nf. pose proof (in_gs _ _ _ _ _ _ I E) as Hg. pose proof (i_group _ _ I g Hg) as G.
  assert (W : forall h pos out, wr (upd ps k p') g h pos out <-> wr ps g h pos out).
  { intros h pos out. split; intros X.
    - apply (wr_upd _ _ _ _ _ _ _ _ E) in X. destruct X as [(r & ->)|X]; auto. exfalso. now apply (Nw' h pos out).
    - apply (wr_stay _ _ _ p' _ _ _ _ E) in X. destruct X as [(r & X)|X]; auto. exfalso. apply (Nw h pos out). congruence. }
  eapply keep; eauto using effect_refl, (i_disk _ _ I).
  - intros h pos out X. apply W in X. eauto.
  - intros data X. now apply Mk.
  - apply (same_group d ps); auto. intros No data X. apply (mk_upd _ _ _ _ _ _ E) in X. destruct X as [(r & ->)|X]; auto. exfalso. destruct (Mk data eq_refl) as (_ & X).
    unfold group_ok in G. destruct (fs0 (pbin_name g)) eqn:E0; [|congruence]. destruct G as (A & _). unfold dk_view at 1 in A. rewrite X in A. congruence.
  - intros _ J. destruct (pc_phase p') as [|data|h pos out|] eqn:Ph; cbn [alone_ok]; auto. now destruct (Mk data eq_refl). exfalso. now apply (Nw' h pos out).
Qed.

Lemma cov_mono d d' ps ps' g h w : cov d ps g h w -> dk_data d' h = dk_data d h ->
  (forall pos, wr ps g h pos w -> pos = List.length w \/ wr ps' g h pos w) -> cov d' ps' g h w.
Proof.
  intros (L & pos & P & Q & R) E H. unfold cov. rewrite E. split; auto. exists pos. split; auto. destruct P as [->|P]; auto.
Qed.
Lemma create_facts d name d' i : disk_ok d -> dk_create d name = (d', i) ->
  disk_ok d' /\ dk_name d' name = Some i /\ (forall n, n <> name -> dk_name d' n = dk_name d n) /\ dk_data d' i = [] /\
  (forall x, x <> i -> dk_data d' x = dk_data d x) /\ (dk_name d name = Some i \/ i = dk_next d) /\ dk_next d <= dk_next d' /\ i < dk_next d'.
Proof.
  intros (D1 & D2) E. unfold dk_create in E. destruct (dk_name d name) as [j|] eqn:En; injection E as <- <-.
  - split. { split; cbn; auto. } split; auto. split; auto. split. apply store_same. split. intros; now apply store_other. split; auto. split; auto. cbn. eapply D2; eauto.
  - set (i := dk_next d). split; [split|split; [|split; [|split; [|split; [|split; [|split]]]]]]; cbn; auto.
    + intros a b j. destruct (text_eqb_spec a name) as [->|Na], (text_eqb_spec b name) as [->|Nb]; intros X Y; auto.
      * exfalso. injection X as <-. apply D2 in Y. unfold i in Y. lia.
      * exfalso. injection Y as <-. apply D2 in X. unfold i in X. lia.
      * eapply D1; eauto.
    + intros a j. destruct (text_eqb_spec a name); intros X. injection X as <-. auto. apply D2 in X. unfold i. lia.
    + destruct (text_eqb_spec name name); congruence.
    + intros n N. destruct (text_eqb_spec n name); congruence.
    + now rewrite Nat.eqb_refl.
    + intros x N. apply Nat.eqb_neq in N. now rewrite N.
Qed.

(* File::create *)
Lemma keep_make d ps k g rest data out d' i : inv d ps -> nth_error ps k = Some (mkProc (job g :: rest) (PhMake data)) ->
  dk_create d (tmp_name g) = (d', i) -> prune_data (fst g) data = Some out ->
  inv d' (upd ps k (mkProc (job g :: rest) (PhWrite i 0 (concat out)))).
Proof.
  intros I E C Ew. pose proof (in_gs _ _ _ _ _ _ I E) as Hg. pose proof (i_group _ _ I g Hg) as G.
  destruct (create_facts _ _ _ _ (i_disk _ _ I) C) as (Dk & Nt & No & Di & Do & Fr & Nx & Li).
  assert (M : mk ps g data) by (exists k, rest; exact E). pose proof (i_mk _ _ I _ _ M) as Ed.
  assert (Wr : written fs0 g (concat out)) by (exists data, out; auto).
  assert (E0 : fs0 (pbin_name g) = None). { unfold group_ok in G. destruct (fs0 (pbin_name g)); auto. destruct G as (_ & _ & _ & X). now apply X in M. }
  unfold group_ok in G. rewrite E0 in G. destruct G as (w & Ww & A & B & _). assert (w = concat out) as -> by (eapply written_fun; eauto). set (w := concat out) in *.
  set (p' := mkProc (job g :: rest) (PhWrite i 0 w)).
  assert (W' : wr (upd ps k p') g i 0 w) by (eapply wr_new; eauto).
  assert (St : forall h pos o, wr ps g h pos o -> wr (upd ps k p') g h pos o).
  { intros h pos o X. apply (wr_stay _ _ _ p' _ _ _ _ E) in X. destruct X as [(r & X)|X]; auto. discriminate. }
  eapply keep; eauto.
  - split; auto.
    + intros n j En. destruct (text_eqb_spec n (tmp_name g)) as [->|N]. rewrite Nt in En. injection En as <-. destruct Fr as [Fr| ->]; auto. left. now rewrite <- No.
    + intros j. destruct (Nat.eq_dec j i) as [->|N]; [|left; auto]. destruct Fr as [Fr| ->]; auto.
  - intros h pos o X. apply (wr_upd _ _ _ _ _ _ _ _ E) in X. destruct X as [(r & X)|X]; eauto. injection X as _ <- _ _. destruct Fr as [Fr| ->]; auto.
  - discriminate.
  - unfold group_ok. rewrite E0. exists w. split; auto.
    assert (Pt : pbin_name g <> tmp_name g) by apply pbin_tmp. split; [|split].
    + intros h pos o X. apply (wr_upd _ _ _ _ _ _ _ _ E) in X. destruct X as [(r & X)|X].
      * injection X as _ <- <- <-. split; auto. split; [lia|]. split; auto. intros n En. left. eapply (proj1 Dk); eauto.
      * destruct (A _ _ _ X) as (A1 & A2 & A3 & A4). split; auto. split; auto. split; [lia|]. intros n En. destruct (text_eqb_spec n (tmp_name g)) as [->|N]; auto. apply A4. now rewrite <- No.
    + rewrite (No _ Pt). destruct B as [B|(h & B1 & B2)]; auto. right. exists h. split; auto. apply (cov_mono d d' ps); auto. apply Do. intros ->. apply Pt. apply (proj1 Dk _ _ i); auto. now rewrite No.
    + right; right. exists i. split; auto. split. { split. rewrite Di. cbn. lia. exists 0. split; auto. split. lia. intros j Hj. lia. } eauto.
  - intros Al _. cbn [alone_ok p' pc_phase]. split; auto. rewrite No by apply pbin_tmp. exact (i_alone _ _ I _ _ _ _ E Al).
Qed.

(* one byte *)
Lemma keep_write d ps k g rest i pos out b : inv d ps -> nth_error ps k = Some (mkProc (job g :: rest) (PhWrite i pos out)) ->
  nth_error out pos = Some b ->
  inv (dk_store d i (write_at (dk_data d i) pos b)) (upd ps k (mkProc (job g :: rest) (PhWrite i (S pos) out))).
Proof.
  intros I E Eb. pose proof (in_gs _ _ _ _ _ _ I E) as Hg. pose proof (i_group _ _ I g Hg) as G.
  set (p' := mkProc (job g :: rest) (PhWrite i (S pos) out)). set (d' := dk_store d i (write_at (dk_data d i) pos b)).
  assert (W : wr ps g i pos out) by (exists k, rest; exact E). destruct (wr_facts _ _ _ _ _ _ I W) as (_ & E0 & Hi & Hn).
  unfold group_ok in G. rewrite E0 in G. destruct G as (w & Ww & A & B & C). destruct (A _ _ _ W) as (-> & Lp & _ & _).
  assert (Lt : pos < List.length w) by (eapply nth_error_lt; eauto).
  assert (W' : wr (upd ps k p') g i (S pos) w) by (eapply wr_new; eauto).
  assert (Cv : forall h, cov d ps g h w -> cov d' (upd ps k p') g h w).
  { intros h (L & q & P & Q & R). destruct (Nat.eq_dec h i) as [->|N].
    - unfold cov, d'. rewrite store_same, write_length. split; [lia|].
      assert (P' : q = List.length w \/ wr (upd ps k p') g i q w \/ q = pos).
      { destruct P as [P|P]; auto. apply (wr_stay _ _ _ p' _ _ _ _ E) in P. destruct P as [(r & P)|P]; auto. right; right. congruence. }
      assert (Rd : forall j, j < q \/ j = pos /\ j <= q -> nth_error (write_at (dk_data d i) pos b) j = nth_error w j).
      { intros j Hj. rewrite write_nth. destruct (Nat.eqb_spec j pos) as [->|Nj]; [auto|]. destruct Hj as [Hj|(Hj & _)]; [|lia].
        replace (List.length (dk_data d i) <=? j) with false by (symmetry; apply Nat.leb_gt; lia). rewrite andb_false_r. auto. }
      destruct P' as [P'|[P'|P']].
      + exists q. split; auto. split; [lia|]. auto.
      + exists q. split; auto. split; [lia|]. auto.
      + exists (S pos). split; auto. split; [lia|]. intros j Hj. apply Rd. lia.
    - apply (cov_mono d d' ps); auto. unfold cov; eauto. unfold d'. now apply store_other.
      intros q' X. right. apply (wr_stay _ _ _ p' _ _ _ _ E) in X. destruct X as [(r & X)|X]; auto. exfalso. congruence. }
  eapply keep; eauto.
  - split; auto. intros j. destruct (Nat.eq_dec j i) as [->|N]. right; right; right; eauto. left. unfold d'. now apply store_other.
  - split; apply (i_disk _ _ I).
  - intros h q o X. apply (wr_upd _ _ _ _ _ _ _ _ E) in X. destruct X as [(r & X)|X]; eauto. injection X as _ <- _ _. eauto.
  - discriminate.
  - unfold group_ok. rewrite E0. exists w. split; auto. split; [|split].
    + intros h q o X. apply (wr_upd _ _ _ _ _ _ _ _ E) in X. destruct X as [(r & X)|X]; auto. injection X as _ <- <- <-. split; auto.
    + destruct B as [B|(h & B1 & B2)]; auto. right. exists h. auto.
    + destruct C as [(_ & C)|[C|(h & C1 & C2 & _)]]; auto. now apply C in W. right; right. exists h. split; auto. split; auto. eauto.
  - intros Al _. exact (i_alone _ _ I _ _ _ _ E Al).
Qed.

(* the end of the file *)
Lemma keep_end d ps k g rest i pos out : inv d ps -> nth_error ps k = Some (mkProc (job g :: rest) (PhWrite i pos out)) ->
  nth_error out pos = None ->
  match dk_rename d (tmp_name g) (pbin_name g) with
  | None => inv d (upd ps k (mkProc (job g :: rest) PhFailed))
  | Some d' => inv d' (upd ps k (mkProc rest PhOpen))
  end.
Proof.
  intros I E Eb. pose proof (in_gs _ _ _ _ _ _ I E) as Hg. pose proof (i_group _ _ I g Hg) as G.
  assert (W : wr ps g i pos out) by (exists k, rest; exact E). destruct (wr_facts _ _ _ _ _ _ I W) as (_ & E0 & Hi & Hn).
  unfold group_ok in G. rewrite E0 in G. destruct G as (w & Ww & A & B & C). destruct (A _ _ _ W) as (-> & Lp & _ & _).
  assert (pos = List.length w) as -> by (apply nth_error_None in Eb; lia).
  assert (Gone : forall p' h q, wr ps g h q w -> q = List.length w \/ wr (upd ps k p') g h q w).
  { intros p' h q X. apply (wr_stay _ _ _ p' _ _ _ _ E) in X. destruct X as [(r & X)|X]; auto. left. congruence. }
  unfold dk_rename. destruct (dk_name d (tmp_name g)) as [h|] eqn:Et.
  - destruct C as [(_ & C)|[C|(h' & C1 & C2 & _)]]; [now apply C in W|discriminate|]. injection C1 as <-.
    set (d' := dk_enter (dk_enter d (pbin_name g) (Some h)) (tmp_name g) None). set (p' := mkProc rest PhOpen).
    assert (Np : dk_name d' (pbin_name g) = Some h). { unfold d'. rewrite enter_other by apply pbin_tmp. apply enter_same. }
    assert (Ntp : dk_name d' (tmp_name g) = None) by (unfold d'; apply enter_same).
    assert (No : forall n, n <> tmp_name g -> n <> pbin_name g -> dk_name d' n = dk_name d n). { intros n N1 N2. unfold d'. now rewrite !enter_other. }
    assert (Nw : forall n j, dk_name d' n = Some j -> (n = pbin_name g /\ j = h) \/ (n <> pbin_name g /\ n <> tmp_name g /\ dk_name d n = Some j)).
    { intros n j En. destruct (text_eqb_spec n (tmp_name g)) as [->|N1]; [congruence|]. destruct (text_eqb_spec n (pbin_name g)) as [->|N2]. left. split; congruence. right. rewrite <- No by auto. auto. }
    eapply keep; eauto.
    + split; auto. intros n j En. destruct (Nw _ _ En) as [(-> & ->)|(_ & _ & X)]; auto.
    + destruct (i_disk _ _ I) as (D1 & D2). split.
      * intros a b j Ea Eb'. destruct (Nw _ _ Ea) as [(-> & ->)|(N1 & N2 & X)], (Nw _ _ Eb') as [(-> & Y)|(N3 & N4 & Y)]; auto.
        -- exfalso. apply N4. eapply D1; eauto.
        -- exfalso. subst j. apply N2. eapply D1; eauto.
        -- eapply D1; eauto.
      * intros a j Ea. cbn. destruct (Nw _ _ Ea) as [(-> & ->)|(_ & _ & X)]; eapply D2; eauto.
    + intros h' q o X. apply (wr_upd _ _ _ _ _ _ _ _ E) in X. destruct X as [(r & X)|X]; eauto. discriminate.
    + discriminate.
    + unfold group_ok. rewrite E0. exists w. split; auto. split; [|split].
      * intros h' q o X. apply (wr_upd _ _ _ _ _ _ _ _ E) in X. destruct X as [(r & X)|X]; [discriminate|]. destruct (A _ _ _ X) as (A1 & A2 & A3 & A4). split; auto. split; auto. split; auto.
        intros n En. destruct (Nw _ _ En) as [(-> & ->)|(_ & _ & Y)]; auto.
      * right. exists h. split; auto. apply (cov_mono d d' ps); auto.
      * auto.
    + intros _ J. exfalso. cbn in J. apply (f_equal (@List.length _)) in J. cbn in J. lia.
  - set (p' := mkProc (job g :: rest) PhFailed). eapply keep; eauto using effect_refl, (i_disk _ _ I).
    + intros h' q o X. apply (wr_upd _ _ _ _ _ _ _ _ E) in X. destruct X as [(r & X)|X]; eauto. discriminate.
    + discriminate.
    + unfold group_ok. rewrite E0. exists w. split; auto. split; [|split]; auto.
      * intros h' q o X. apply (wr_upd _ _ _ _ _ _ _ _ E) in X. destruct X as [(r & X)|X]; [discriminate|]. auto.
      * destruct B as [B|(h & B1 & B2)]; auto. right. exists h. split; auto. apply (cov_mono d d ps); auto.
    + intros Al _. destruct (i_alone _ _ I _ _ _ _ E Al) as (X & _). congruence.
Qed.

Lemma view_none d n : dk_view d n = None <-> dk_name d n = None.
Proof. unfold dk_view. destruct (dk_name d n); split; congruence. Qed.
Lemma start_at k p : nth_error (map (fun j => mkProc j PhOpen) js) k = Some p -> exists l, nth_error js k = Some l /\ p = mkProc l PhOpen.
Proof. rewrite nth_error_map. destruct (nth_error js k) as [l|]; cbn; intros E; [|discriminate]. injection E as <-. eauto. Qed.
Lemma inv_start : inv d0 (map (fun j => mkProc j PhOpen) js).
Proof.
  assert (Nw : forall g h pos out, ~ wr (map (fun j => mkProc j PhOpen) js) g h pos out). { intros g h pos out (k & r & H). apply start_at in H. destruct H as (l & _ & H). discriminate. }
  assert (Nm : forall g data, ~ mk (map (fun j => mkProc j PhOpen) js) g data). { intros g data (k & r & H). apply start_at in H. destruct H as (l & _ & H). discriminate. }
  split; auto.
  - intros g g' h pos pos' out out' W. now apply Nw in W.
  - intros k p H. apply start_at in H. destruct H as (l & El & ->). exists l. split; auto. apply incl_refl.
  - intros g data M. now apply Nm in M.
  - intros g Hg. unfold group_ok. destruct (fs0 (pbin_name g)) eqn:E0.
    + split; [|split; [|split]]; auto.
    + destruct (Hgood g Hg) as (data & Ed & _ & K). destruct (K E0) as (w & Ew). exists (concat w). split. { exists data, w. auto. } apply view_none in E0. split; [|split]; auto. intros h pos out W. now apply Nw in W.
  - intros k g r ph H _. apply start_at in H. destruct H as (l & _ & H). injection H as _ ->. exact Logic.I.
Qed.

Lemma step_inv d ps k p d' p' : inv d ps -> nth_error ps k = Some p -> proc_step d p = Some (d', p') -> inv d' (upd ps k p').
Proof.
  intros I E S. unfold proc_step in S. destruct p as [[|(c, t) rest] ph]; cbn [pc_jobs pc_phase] in S; [discriminate|].
  destruct (i_jobs _ _ I _ _ E) as (l & El & Inc). destruct (Hjobs l c t) as (g & Hg & J). { eapply nth_error_In; eauto. } { apply Inc. now left. }
  rewrite J in E, S. assert (c = fst g /\ t = group_name g) as (-> & ->). { Local Transparent job. unfold job in J. split; congruence. } Local Opaque job.
  rewrite !group_with_ext in S. change (group_ext g (str "pbin")) with (pbin_name g) in S. change (group_ext g (str "tmp")) with (tmp_name g) in S.
  destruct (Hgood g Hg) as (data & Ed & Em & K).
  assert (Vb : dk_view d (group_name g) = Some data). { rewrite <- Ed. apply (i_other _ _ I). intros h _. split. apply name_pbin. apply name_tmp. }
  destruct ph as [|dt|i pos out|]; try discriminate.
  - rewrite Vb in S. rewrite Em in S. destruct (dk_name d (pbin_name g)) as [i|] eqn:Ep; injection S as <- <-.
    + eapply keep_quiet; eauto; cbn; try discriminate. 
    + eapply keep_quiet; eauto; cbn; try discriminate. intros dt X. injection X as <-. auto.
  - destruct (dk_create d (tmp_name g)) as (d1, i) eqn:C. assert (M : mk ps g dt) by (exists k, rest; exact E). pose proof (i_mk _ _ I _ _ M) as Ed'. assert (dt = data) as -> by congruence.
    assert (E0 : fs0 (pbin_name g) = None). { pose proof (i_group _ _ I g Hg) as G. unfold group_ok in G. destruct (fs0 (pbin_name g)); auto. destruct G as (_ & _ & _ & X). now apply X in M. }
    destruct (K E0) as (w & Ew). rewrite Ew in S. injection S as <- <-. eapply keep_make; eauto.
  - destruct (nth_error out pos) as [b|] eqn:Eb.
    + injection S as <- <-. eapply keep_write; eauto.
    + pose proof (keep_end _ _ _ _ _ _ _ _ I E Eb) as X. destruct (dk_rename d (tmp_name g) (pbin_name g)) as [d1|]; injection S as <- <-; exact X.
Qed.
Lemma run_inv s : dir_run d0 js s -> inv (dr_disk s) (dr_procs s).
Proof.
  induction 1 as [|s s' R IH S]. apply inv_start. destruct S as [d ps k p d' p' E S]. cbn [dr_disk dr_procs] in *. eapply step_inv; eauto.
Qed.

(* the calls that are done have left their output *)
Lemma run_done s : dir_run d0 js s -> forall k p, nth_error (dr_procs s) k = Some p ->
  exists dn, nth_error js k = Some (dn ++ pc_jobs p) /\ forall g, In (job g) dn -> dk_name (dr_disk s) (pbin_name g) <> None.
Proof.
  induction 1 as [|s s' R IH S].
  - intros k p H. apply start_at in H. destruct H as (l & El & ->). exists []. split; [auto|]. intros g [].
  - pose proof (run_inv s R) as I. destruct S as [d ps k p d' p' E S]. cbn [dr_disk dr_procs] in *.
    unfold proc_step in S. destruct p as [[|(c, t) rest] ph]; cbn [pc_jobs pc_phase] in S; [discriminate|].
    destruct (i_jobs _ _ I _ _ E) as (l & El & Inc). destruct (Hjobs l c t) as (g & Hg & J). { eapply nth_error_In; eauto. } { apply Inc. now left. }
    rewrite J in E, S. assert (c = fst g /\ t = group_name g) as (-> & ->). { Local Transparent job. unfold job in J. split; congruence. } Local Opaque job.
    rewrite !group_with_ext in S. change (group_ext g (str "pbin")) with (pbin_name g) in S. change (group_ext g (str "tmp")) with (tmp_name g) in S.
    assert (Stay : (forall g', dk_name d (pbin_name g') <> None -> dk_name d' (pbin_name g') <> None) /\
      (pc_jobs p' = job g :: rest \/ pc_jobs p' = rest /\ dk_name d' (pbin_name g) <> None)).
    { destruct ph as [|dt|i pos out|]; try discriminate.
      - destruct (file <- dk_view d (group_name g);; mmap file); [|injection S as <- <-; auto]. destruct (dk_name d (pbin_name g)) eqn:Ep; injection S as <- <-; (split; [auto|]); [right; split; [auto|congruence]|auto].
      - destruct (dk_create d (tmp_name g)) as (d1, i) eqn:C. destruct (create_facts _ _ _ _ (i_disk _ _ I) C) as (_ & _ & No & _).
        destruct (prune_data (fst g) dt); injection S as <- <-; (split; [|auto]); intros g' X; rewrite No; auto; apply pbin_tmp.
      - destruct (nth_error out pos). injection S as <- <-. auto.
        unfold dk_rename in S. destruct (dk_name d (tmp_name g)) as [h|]; cbv beta iota in S; injection S as <- <-; auto. split.
        + intros g' X. rewrite enter_other by apply pbin_tmp. destruct (text_eqb_spec (pbin_name g') (pbin_name g)) as [Eq|N]. rewrite Eq, enter_same. discriminate. now rewrite enter_other.
        + right. split; auto. rewrite enter_other by apply pbin_tmp. rewrite enter_same. discriminate. }
    destruct Stay as (Mono & Jb). intros j q Ej. destruct (Nat.eq_dec j k) as [->|N].
    + rewrite nth_error_upd_eq in Ej by (eapply nth_error_lt; eauto). injection Ej as <-. destruct (IH _ _ E) as (dn & A & B). cbn [pc_jobs] in A. destruct Jb as [->|(-> & X)].
      * exists dn. auto.
      * exists (dn ++ [job g]). rewrite <- app_assoc. split; auto. intros g' H. apply in_app_iff in H. destruct H as [H|[H|[]]]; auto. apply job_inj in H. now subst g'.
    + rewrite nth_error_upd_neq in Ej by auto. destruct (IH _ _ Ej) as (dn & A & B). exists dn. auto.
Qed.

(* what is seen of a group *)
Lemma quiet_state d ps g : inv d ps -> In g gs -> (forall h pos out, ~ wr ps g h pos out) -> state_of fs0 (dk_view d) g.
Proof.
  intros I Hg Nw. pose proof (i_group _ _ I g Hg) as G. unfold group_ok, state_of in *. destruct (fs0 (pbin_name g)) as [x|] eqn:E0.
  - destruct G as (A & B & _). now rewrite A, B.
  - destruct G as (w & Ww & A & B & C). destruct B as [B|(h & B1 & B2)]. left. now apply view_none. right.
    exists w. split; auto. unfold dk_view at 1. rewrite B1. rewrite (cov_end _ _ _ _ _ B2) by auto. split; auto. apply view_none.
    destruct C as [(C & _)|[C|(h1 & _ & _ & h' & pos & C)]]; auto. congruence. now apply Nw in C.
Qed.
Lemma alone_state d ps g k : inv d ps -> In g gs -> alone g k -> state_of fs0 (dk_view d) g.
Proof.
  intros I Hg Al. assert (Dec : (exists h pos out, wr ps g h pos out) \/ forall h pos out, ~ wr ps g h pos out).
  { assert (D : forall l : list Proc, (exists j r h pos out, nth_error l j = Some (mkProc (job g :: r) (PhWrite h pos out))) \/ forall j r h pos out, nth_error l j <> Some (mkProc (job g :: r) (PhWrite h pos out))).
    { induction l as [|p l [(j & r & h & pos & out & IH)|IH]]. right. intros [|j]; cbn; congruence. left. exists (S j), r, h, pos, out. exact IH.
      assert (Q : (exists r h pos out, p = mkProc (job g :: r) (PhWrite h pos out)) \/ forall r h pos out, p <> mkProc (job g :: r) (PhWrite h pos out)).
      { destruct p as [[|(c, t) r] [| |h pos out|]]; try (right; congruence). destruct (job g) as (c', t'). destruct (Nat.eq_dec c c') as [<-|N]; [|right; congruence]. destruct (text_eqb_spec t t') as [<-|N]; [|right; congruence]. left. eauto. }
      destruct Q as [(r & h & pos & out & ->)|Q]. left. exists 0, r, h, pos, out. reflexivity. right. intros [|j] r h pos out; cbn. intros X. injection X as X. now apply Q in X. apply IH. }
    destruct (D ps) as [(j & r & h & pos & out & X)|X]. left. exists h, pos, out, j, r. exact X. right. intros h pos out (j & r & Y). now apply X in Y. }
  destruct Dec as [(h & pos & out & W)|N]; [|now apply (quiet_state d ps)].
  destruct (wr_facts _ _ _ _ _ _ I W) as (_ & E0 & _). destruct W as (j & r & Ej). destruct (i_jobs _ _ I _ _ Ej) as (l & El & Inc).
  assert (j = k) as -> by (apply (Al j l El); apply Inc; now left). destruct (i_alone _ _ I _ _ _ _ Ej Al) as (_ & X). unfold state_of. rewrite E0. left. now apply view_none.
Qed.
Lemma all_mid d ps : inv d ps -> (forall g, In g gs -> state_of fs0 (dk_view d) g) -> mid fs0 gs (dk_view d).
Proof. intros I H. split; auto. apply (i_other _ _ I). Qed.
End Jobs.
