(* Property C60: several prune and prune-all commands at the same time on one log. *)
From Coq Require Import String List Arith Bool Lia.
Import ListNotations.
From Verif Require Import Spec Util OutputSetModel TreeModel IndexModel StatesModel FileModel LogModel JobsModel TreeProofs FileProofs DumpProofs CrashProofs JobsProofs JobsAlone.

(* no file has two names; inodes in use are not free *)
Definition plain_disk (d : Disk) : Prop :=
  (forall a b i, dk_name d a = Some i -> dk_name d b = Some i -> a = b) /\ (forall a i, dk_name d a = Some i -> i < dk_next d).
(* every call of every process is for a file of the log, with its number of channels *)
Definition calls_for (groups : list (nat * nat)) (jobs : list (list (nat * text))) : Prop :=
  forall l c t, In l jobs -> In (c, t) l -> exists g, In g groups /\ c = fst g /\ t = group_name g.
(* process k is writing the pruned file of g *)
Definition writes_for (s : Dir) (k : nat) (g : nat * nat) : Prop :=
  exists rest i pos out, nth_error (dr_procs s) k = Some (mkProc ((fst g, group_name g) :: rest) (PhWrite i pos out)).
(* no process but k is told to prune the file of g *)
Definition only (jobs : list (list (nat * text))) (k : nat) (g : nat * nat) : Prop :=
  forall j l, nth_error jobs j = Some l -> In (fst g, group_name g) l -> j = k.

(* the log, and what a single prune-all makes of it *)
Record log_of (d0 : Disk) (groups : list (nat * nat)) (end0 : Fs) : Prop := {
  lo_disk : plain_disk d0;
  lo_index : dk_view d0 index_name = Some (flat_map (fun g => group_name g ++ [10]) groups);
  lo_prune : prune_all (dk_view d0) = Some end0 }.

Lemma log_good d0 groups end0 : log_of d0 groups end0 -> (forall g, In g groups -> okg (dk_view d0) g) /\
  mid (dk_view d0) groups end0 /\ (forall g, In g groups -> done_of (dk_view d0) end0 g).
Proof.
  intros [_ Ix E]. unfold prune_all in E. destruct (prune_all_ops (dk_view d0)) as [ops|] eqn:Eo; [|discriminate]. injection E as <-.
  unfold prune_all_ops in Eo. rewrite Ix in Eo. change (flat_map _ groups) with (index_text groups) in Eo, Ix. rewrite lines_index in Eo.
  assert (Ok : forall g, In g groups -> okg (dk_view d0) g) by (eapply okg_of_success; eauto using mid_refl).
  destruct (lines_run (dk_view d0) groups groups (dk_view d0) (mid_refl _ _)) as (ops' & Eo' & P & D). { auto. } rewrite Eo in Eo'. injection Eo' as <-.
  pose proof (P (List.length ops)) as M0. rewrite firstn_all in M0. auto.
Qed.
Lemma calls_jobs groups jobs : calls_for groups jobs -> forall l c t, In l jobs -> In (c, t) l -> exists g, In g groups /\ (c, t) = job g.
Proof. intros H l c t A B. destruct (H l c t A B) as (g & Hg & -> & ->). exists g. split; auto. Qed.
Lemma jobs_inv d0 groups end0 jobs s : log_of d0 groups end0 -> calls_for groups jobs -> dir_run d0 jobs s -> inv d0 jobs groups (dr_disk s) (dr_procs s).
Proof. intros L C R. destruct (log_good _ _ _ L) as (Ok & _). apply run_inv; auto. exact (lo_disk _ _ _ L). now apply calls_jobs. Qed.
Lemma seen d0 groups end0 fs g : log_of d0 groups end0 -> In g groups -> state_of (dk_view d0) fs g ->
  fs (with_extension (group_name g) (str "pbin")) = dk_view d0 (with_extension (group_name g) (str "pbin")) \/
  fs (with_extension (group_name g) (str "pbin")) = end0 (with_extension (group_name g) (str "pbin")).
Proof.
  intros L Hg S. destruct (log_good _ _ _ L) as (_ & _ & D). specialize (D g Hg). rewrite group_with_ext. fold (pbin_name g). unfold state_of, done_of in *.
  destruct (dk_view d0 (pbin_name g)). left; apply S. destruct S as [S|(w & (d & x & A1 & A2 & ->) & S1 & _)]; auto.
  destruct D as (w' & (d' & x' & A1' & A2' & ->) & D1 & _). right. assert (d = d') by congruence. subst d'. congruence.
Qed.
Lemma seen_done d0 groups end0 d g : log_of d0 groups end0 -> In g groups -> state_of (dk_view d0) (dk_view d) g -> dk_name d (pbin_name g) <> None ->
  dk_view d (with_extension (group_name g) (str "pbin")) = end0 (with_extension (group_name g) (str "pbin")).
Proof.
  intros L Hg S N. destruct (log_good _ _ _ L) as (_ & _ & D). specialize (D g Hg). rewrite group_with_ext. fold (pbin_name g). unfold state_of, done_of in *.
  destruct (dk_view d0 (pbin_name g)). destruct S as (-> & _), D as (-> & _). reflexivity. destruct S as [S|(w & (dd & x & A1 & A2 & ->) & S1 & _)]. now apply view_none in S.
  destruct D as (w' & (d' & x' & A1' & A2' & ->) & D1 & _). assert (dd = d') by congruence. subst d'. congruence.
Qed.

(* A file that only one process is told to prune is, at any time and whatever the others do, as it was or as a single prune-all leaves
   it; the process does not panic in that call, and when it has gone on to its next call the file is complete.  It does not matter
   where processes were killed. *)
Theorem C60_one_process_per_file : forall d0 groups end0 jobs s g k, log_of d0 groups end0 -> calls_for groups jobs -> dir_run d0 jobs s ->
  In g groups -> only jobs k g ->
  let name := with_extension (group_name g) (str "pbin") in
  (dk_view (dr_disk s) name = dk_view d0 name \/ dk_view (dr_disk s) name = end0 name) /\
  (forall rest, nth_error (dr_procs s) k <> Some (mkProc ((fst g, group_name g) :: rest) PhFailed)) /\
  (forall l p, nth_error jobs k = Some l -> In (fst g, group_name g) l -> nth_error (dr_procs s) k = Some p ->
    ~ In (fst g, group_name g) (pc_jobs p) -> dk_view (dr_disk s) name = end0 name).
Proof.
  intros d0 groups end0 jobs s g k L C R Hg O name. pose proof (jobs_inv _ _ _ _ _ L C R) as I. destruct (log_good _ _ _ L) as (Ok & _).
  assert (S : state_of (dk_view d0) (dk_view (dr_disk s)) g) by (eapply (alone_state d0 jobs groups (calls_jobs _ _ C)); eauto). split; [eapply seen; eauto|]. split.
  - intros rest E. exact (i_alone _ _ _ _ _ I _ g _ _ E O).
  - intros l p El Il Ep Np. destruct (run_done d0 jobs groups (lo_disk _ _ _ L) (calls_jobs _ _ C) Ok s R k p Ep) as (dn & A & B). rewrite El in A. injection A as ->.
    eapply seen_done; eauto. apply B. apply in_app_iff in Il. destruct Il; auto. contradiction.
Qed.
Print Assumptions C60_one_process_per_file.

(* Any number of processes for the same file: while nobody is writing it, it is as it was or complete. *)
Theorem C60_nobody_writes : forall d0 groups end0 jobs s g, log_of d0 groups end0 -> calls_for groups jobs -> dir_run d0 jobs s ->
  In g groups -> (forall k, ~ writes_for s k g) ->
  let name := with_extension (group_name g) (str "pbin") in
  dk_view (dr_disk s) name = dk_view d0 name \/ dk_view (dr_disk s) name = end0 name.
Proof.
  intros d0 groups end0 jobs s g L C R Hg N name. pose proof (jobs_inv _ _ _ _ _ L C R) as I. eapply seen; eauto. eapply quiet_state; eauto.
  intros h pos out (k & rest & E). apply (N k). exists rest, h, pos, out. exact E.
Qed.
Print Assumptions C60_nobody_writes.

(* If for each file of the log only one process was told to prune it or nobody is writing it, prune-all makes of the directory what it
   makes of the log at the start. *)
Theorem C60_then_prune_all : forall d0 groups end0 jobs s, log_of d0 groups end0 -> calls_for groups jobs -> dir_run d0 jobs s ->
  (forall g, In g groups -> (exists k, only jobs k g) \/ forall k, ~ writes_for s k g) ->
  exists fs', prune_all (dk_view (dr_disk s)) = Some fs' /\ forall name, fs' name = end0 name.
Proof.
  intros d0 groups end0 jobs s L C R H. pose proof (jobs_inv _ _ _ _ _ L C R) as I. destruct (log_good _ _ _ L) as (Ok & M0 & D0).
  assert (M : mid (dk_view d0) groups (dk_view (dr_disk s))).
  { eapply all_mid; eauto. intros g Hg. destruct (H g Hg) as [(k & O)|N]. eapply (alone_state d0 jobs groups (calls_jobs _ _ C)); eauto. eapply quiet_state; eauto. intros h pos out (k & rest & E). apply (N k). exists rest, h, pos, out. exact E. }
  destruct (lines_run (dk_view d0) groups groups (dk_view (dr_disk s)) M) as (ops1 & E1 & P1 & D1). { auto. }
  exists (fs_run ops1 (dk_view (dr_disk s))). split. { unfold prune_all, prune_all_ops. rewrite (mid_index _ _ _ M), (lo_index _ _ _ L). change (flat_map _ groups) with (index_text groups). rewrite lines_index. now rewrite E1. }
  apply (done_same (dk_view d0) groups); auto. pose proof (P1 (List.length ops1)) as M1. now rewrite firstn_all in M1.
Qed.
Print Assumptions C60_then_prune_all.

(* When every process has ended, by itself or by a panic, then every file is as it was or complete, those of processes that
   ended by themselves are complete, and prune-all does the rest. *)
Theorem C60_all_ended : forall d0 groups end0 jobs s, log_of d0 groups end0 -> calls_for groups jobs -> dir_run d0 jobs s ->
  (forall p, In p (dr_procs s) -> proc_step (dr_disk s) p = None) ->
  (forall k l g, nth_error jobs k = Some l -> In (fst g, group_name g) l -> nth_error (dr_procs s) k = Some (mkProc [] PhOpen) ->
    dk_view (dr_disk s) (with_extension (group_name g) (str "pbin")) = end0 (with_extension (group_name g) (str "pbin"))) /\
  exists fs', prune_all (dk_view (dr_disk s)) = Some fs' /\ forall name, fs' name = end0 name.
Proof.
  intros d0 groups end0 jobs s L C R H.
  assert (N : forall g k, ~ writes_for s k g).
  { intros g k (rest & i & pos & out & E). pose proof (H _ (nth_error_In _ _ E)) as X. unfold proc_step in X. cbn [pc_jobs pc_phase] in X. destruct (nth_error out pos); [discriminate|].
    destruct (dk_rename _ _ _); discriminate. }
  split.
  - intros k l g El Il Ep. pose proof (jobs_inv _ _ _ _ _ L C R) as I. destruct (log_good _ _ _ L) as (Ok & _).
    destruct (run_done d0 jobs groups (lo_disk _ _ _ L) (calls_jobs _ _ C) Ok s R k _ Ep) as (dn & A & B). rewrite El in A. injection A as ->. cbn [pc_jobs] in *. rewrite app_nil_r in *.
    assert (Hg : In g groups). { destruct (C dn (fst g) (group_name g)) as (g' & Hg & _ & X). eapply nth_error_In; eauto. auto. assert (g = g') as -> by (apply job_inj; unfold job; f_equal; auto; rewrite !group_name_ext in X; now rewrite (proj1 (group_ext_inj g (str "bin") g' (str "bin") ext_bin ext_bin X))). exact Hg. }
    apply (seen_done d0 groups end0); auto. eapply quiet_state; eauto. intros h pos out (j & rest & E). apply (N g j). exists rest, h, pos, out. exact E.
  - apply (C60_then_prune_all d0 groups end0 jobs s L C R). intros g _. right. apply N.
Qed.
Print Assumptions C60_all_ended.

(* There is no infinite run: whatever the order of the steps, after finitely many of them no process has a step left. *)
Theorem C60_every_run_ends : forall f : nat -> Dir, ~ forall n, dir_step (f n) (f (S n)).
Proof.
  intros f H. assert (A : forall s, Acc (fun s' s => dir_step s s') s -> forall n, f n <> s).
  { induction 1 as [s _ IH]. intros n E. apply (IH (f (S n))) with (n := S n); auto. rewrite <- E. apply H. }
  exact (A (f 0) (dir_ends _) 0 eq_refl).
Qed.
Print Assumptions C60_every_run_ends.

(* A single process, with any calls, is the sequential model: it panics only if a call of prune does, when it has ended all calls have
   been made one after the other, and until then the calls so far were made and of the next one the first few changes (C26). *)
Theorem C60_single_process : forall d0 calls s p, plain_disk d0 -> dir_run d0 [calls] s -> nth_error (dr_procs s) 0 = Some p ->
  (pc_phase p = PhFailed -> prunes calls (dk_view d0) = None) /\
  (pc_jobs p = [] -> exists fs', prunes calls (dk_view d0) = Some fs' /\ forall name, dk_view (dr_disk s) name = fs' name) /\
  (pc_phase p <> PhFailed -> exists made fs1, calls = made ++ pc_jobs p /\ prunes made (dk_view d0) = Some fs1 /\
    ((forall name, dk_view (dr_disk s) name = fs1 name) \/
     exists c t rest ops k, pc_jobs p = (c, t) :: rest /\ prune_ops c t fs1 = Some ops /\ forall name, dk_view (dr_disk s) name = fs_run (firstn k ops) fs1 name)).
Proof.
  intros d0 calls s p D R Ep. destruct (one_run d0 calls s D R) as (q & Eq & [Dk (dn & fs1 & Ej & E1 & St)]). rewrite Eq in Ep. injection Ep as ->. split; [|split].
  - intros F. rewrite F in St. rewrite Ej, prunes_app, E1. exact St.
  - intros N. rewrite N, app_nil_r in *. subst dn. exists fs1. split; auto. destruct (pc_phase p); auto.
    destruct St as (? & ? & ? & X & _); discriminate. destruct St as (? & ? & ? & ? & ? & X & _); discriminate. discriminate.
  - intros F. exists dn, fs1. split; auto. split; auto. destruct (pc_phase p) as [|data|i pos out|]; auto. 3: congruence.
    + destruct St as (? & ? & ? & _ & V & _). left. exact V.
    + destruct St as (c & t & r & data & w & X & Ca & Ew & -> & Hp & _ & _ & V). right. eexists c, t, r, _, (S pos). split; auto.
      rewrite (calls_ops _ _ _ _ Ca), Ew. split. reflexivity. cbn [firstn]. rewrite firstn_app, map_length, firstn_map. replace (pos - List.length (concat w)) with 0 by lia. cbn [firstn]. rewrite app_nil_r. exact V.
Qed.
Print Assumptions C60_single_process.

(* ---- examples ---- *)
(* a directory with given files, with inodes in order *)
Fixpoint find_file (l : list (text * list nat)) (name : text) (i : nat) : option nat :=
  match l with [] => None | (n, _) :: l => if list_eqb Nat.eqb name n then Some i else find_file l name (S i) end.
Definition disk_of (l : list (text * list nat)) : Disk :=
  mkDisk (fun name => find_file l name 0) (fun i => snd (nth i l ([], []))) (List.length l).
Lemma find_file_spec l name : forall i j, find_file l name i = Some j -> i <= j /\ j < i + List.length l /\ nth_error (map fst l) (j - i) = Some name.
Proof.
  induction l as [|(n, b) l IH]; intros i j E; cbn in *; [discriminate|]. destruct (text_eqb_spec name n) as [<-|N].
  - injection E as <-. rewrite Nat.sub_diag. split; [lia|]. split; [lia|reflexivity].
  - apply IH in E. destruct E as (A & B & C). split; [lia|]. split; [lia|]. replace (j - i) with (S (j - S i)) by lia. exact C.
Qed.
Lemma disk_of_plain l : plain_disk (disk_of l).
Proof.
  split.
  - intros a b i A B. apply find_file_spec in A, B. destruct A as (_ & _ & A), B as (_ & _ & B). congruence.
  - intros a i A. apply find_file_spec in A. cbn in *. lia.
Qed.
(* the steps of the processes with the given numbers *)
Fixpoint dir_steps (s : Dir) (l : list nat) : Dir :=
  match l with
  | [] => s
  | k :: l => match nth_error (dr_procs s) k with
              | Some p => match proc_step (dr_disk s) p with Some (d', p') => dir_steps (mkDir d' (upd (dr_procs s) k p')) l | None => dir_steps s l end
              | None => dir_steps s l
              end
  end.
Lemma dir_steps_run d0 jobs l : forall s, dir_run d0 jobs s -> dir_run d0 jobs (dir_steps s l).
Proof.
  induction l as [|k l IH]; intros s R; cbn [dir_steps]; auto. destruct (nth_error (dr_procs s) k) as [p|] eqn:E; auto. destruct (proc_step (dr_disk s) p) as [(d', p')|] eqn:S; auto.
  apply IH. eapply dir_next; eauto. destruct s as [d ps]. cbn in *. econstructor; eauto.
Qed.
(* a log with two files: all inputs of 3 channels and what is left after a comparator; the same for two other comparators *)
Definition two_groups : list (nat * nat) := [(3, 2); (3, 1)].
Definition two_files : Disk := disk_of
  [(index_name, flat_map (fun g => group_name g ++ [10]) two_groups); (group_name (3, 2), [221; 255]); (group_name (3, 1), [255; 243; 221])].
Definition two_end : Fs := match prune_all (dk_view two_files) with Some fs => fs | None => dk_view two_files end.
Lemma two_log : log_of two_files two_groups two_end.
Proof. split. apply disk_of_plain. reflexivity. unfold two_end. destruct (prune_all (dk_view two_files)) eqn:E; auto. exfalso. revert E. vm_compute. discriminate. Qed.
Definition run_for (jobs : list (list (nat * text))) (l : list nat) : Dir := dir_steps (mkDir two_files (map (fun j => mkProc j PhOpen) jobs)) l.
Definition job_a : nat * text := (3, group_name (3, 2)).
Definition job_b : nat * text := (3, group_name (3, 1)).
Lemma ab_calls jobs : (forall l, In l jobs -> forall j, In j l -> j = job_a \/ j = job_b) -> calls_for two_groups jobs.
Proof. intros H l c t Hl Hj. destruct (H l Hl _ Hj) as [E|E]; injection E as -> ->; [exists (3, 2)|exists (3, 1)]; cbn; auto. Qed.

(* two processes, one for each file, at the same time; the second is killed before its rename *)
Example C60_case : calls_for two_groups [[job_a]; [job_b]] /\ only [[job_a]; [job_b]] 0 (3, 2) /\ only [[job_a]; [job_b]] 1 (3, 1) /\
  let s := run_for [[job_a]; [job_b]] [0; 1; 0; 1; 1; 0; 0; 1] in
  dir_run two_files [[job_a]; [job_b]] s /\ nth_error (dr_procs s) 0 = Some (mkProc [] PhOpen) /\ writes_for s 1 (3, 1) /\
  dk_view (dr_disk s) (with_extension (group_name (3, 2)) (str "pbin")) = Some [221] /\
  dk_view (dr_disk s) (with_extension (group_name (3, 1)) (str "pbin")) = None.
Proof.
  assert (Nab : job_a <> job_b) by (intros E; apply (f_equal snd) in E; revert E; vm_compute; discriminate).
  split. { apply ab_calls. intros l [<-|[<-|[]]] j [<-|[]]; auto. }
  split. { intros [|[|[|j]]] l E I; try discriminate; auto. injection E as <-. destruct I as [I|[]]. exfalso. apply Nab. symmetry. exact I. }
  split. { intros [|[|[|j]]] l E I; try discriminate; auto. injection E as <-. destruct I as [I|[]]. exfalso. apply Nab. exact I. }
  split. { apply dir_steps_run, dir_start. }
  split. { vm_compute. reflexivity. } split. { exists [], 4, 2, [243; 221]. vm_compute. reflexivity. } split; vm_compute; reflexivity.
Qed.
(* a prune-all and a prune for its second file at the same time: the prune-all is told that there is no file to rename, and panics; the
   file is complete *)
Example C60_case_ended : all_jobs (dk_view two_files) = Some [job_a; job_b] /\ calls_for two_groups [[job_a; job_b]; [job_b]] /\
  let s := run_for [[job_a; job_b]; [job_b]] [0; 0; 0; 0; 0; 0; 1; 1; 0; 0; 1; 1; 1; 0] in
  dir_run two_files [[job_a; job_b]; [job_b]] s /\ (forall p, In p (dr_procs s) -> proc_step (dr_disk s) p = None) /\
  map pc_phase (dr_procs s) = [PhFailed; PhOpen] /\
  dk_view (dr_disk s) (with_extension (group_name (3, 1)) (str "pbin")) = Some [243; 221].
Proof.
  split. { vm_compute. reflexivity. } split. { apply ab_calls. intros l [<-|[<-|[]]] j Hj; cbn in Hj; intuition. }
  split. { apply dir_steps_run, dir_start. } split; [|split; vm_compute; reflexivity].
  intros p Hp. vm_compute in Hp. destruct Hp as [<-|[<-|[]]]; reflexivity.
Qed.

(* a prune-all alone, stopped in its second file, and at its end *)
Example C60_case_single : let s := run_for [[job_a; job_b]] (repeat 0 6) in let s' := run_for [[job_a; job_b]] (repeat 0 12) in
  dir_run two_files [[job_a; job_b]] s /\ dir_run two_files [[job_a; job_b]] s' /\
  map pc_jobs (dr_procs s) = [[job_b]] /\ dk_view (dr_disk s) (with_extension (group_name (3, 1)) (str "tmp")) = Some [] /\
  dr_procs s' = [mkProc [] PhOpen] /\ (fs <- prunes [job_a; job_b] (dk_view two_files) ;; fs (with_extension (group_name (3, 1)) (str "pbin"))) = Some [243; 221].
Proof. split. { apply dir_steps_run, dir_start. } split. { apply dir_steps_run, dir_start. } repeat split; vm_compute; reflexivity. Qed.

(* One would expect that a file is never seen half written, as it is for a single process (C26):
     forall d0 groups end0 jobs s g, log_of d0 groups end0 -> calls_for groups jobs -> dir_run d0 jobs s -> In g groups ->
       let name := with_extension (group_name g) (str "pbin") in
       dk_view (dr_disk s) name = dk_view d0 name \/ dk_view (dr_disk s) name = end0 name.
   This is false when two processes prune the same file, even if one of them has ended by itself: both create the same .tmp file, the
   second one empties it, and the first one renames it. *)
Theorem C60_never_half_written_refuted : exists d0 groups end0 jobs s g k, log_of d0 groups end0 /\ calls_for groups jobs /\ dir_run d0 jobs s /\
  In g groups /\ nth_error jobs k = Some [(fst g, group_name g)] /\ nth_error (dr_procs s) k = Some (mkProc [] PhOpen) /\
  let name := with_extension (group_name g) (str "pbin") in
  dk_view (dr_disk s) name <> dk_view d0 name /\ dk_view (dr_disk s) name <> end0 name.
Proof.
  exists two_files, two_groups, two_end, [[job_b]; [job_b]], (run_for [[job_b]; [job_b]] [0; 1; 0; 0; 0; 1; 1; 0]), (3, 1), 0.
  split. apply two_log. split. { apply ab_calls. intros l [<-|[<-|[]]] j [<-|[]]; auto. } split. apply dir_steps_run, dir_start. split. { right; left; reflexivity. }
  split. reflexivity. split. vm_compute; reflexivity. split; vm_compute; discriminate.
Qed.
Print Assumptions C60_never_half_written_refuted.
