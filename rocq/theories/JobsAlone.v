(* A single process is the sequential model of LogModel.v; any number of processes end. *)
From Coq Require Import String List Arith Bool Lia Wellfounded.
Import ListNotations.
From Verif Require Import Spec Util OutputSetModel TreeModel IndexModel StatesModel FileModel LogModel JobsModel TreeProofs FileProofs DumpProofs CrashProofs JobsProofs.
Local Opaque prune_data.

Definition eqv (a b : Fs) : Prop := forall x, a x = b x.
Lemma eqv_set a b n v : eqv a b -> eqv (fs_set a n v) (fs_set b n v).
Proof. intros H x. unfold fs_set. destruct (list_eqb _ _ _); auto. Qed.
Lemma eqv_do a b o : eqv a b -> eqv (fs_do a o) (fs_do b o).
Proof. intros H. destruct o as [n|n bs|f t]; cbn [fs_do]. now apply eqv_set. rewrite (H n). now apply eqv_set. rewrite (H f). now apply eqv_set, eqv_set. Qed.
Lemma eqv_run ops : forall a b, eqv a b -> eqv (fs_run ops a) (fs_run ops b).
Proof. unfold fs_run. induction ops as [|o ops IH]; intros a b H; cbn [fold_left]; auto using eqv_do. Qed.
Lemma eqv_trans a b c : eqv a b -> eqv b c -> eqv a c.
Proof. intros A B x. now rewrite A. Qed.

Lemma view_store d n i b : disk_ok d -> dk_name d n = Some i -> eqv (dk_view (dk_store d i b)) (fs_set (dk_view d) n (Some b)).
Proof.
  intros [U _] E x. unfold fs_set, dk_view at 1. cbn [dk_store dk_name dk_data]. destruct (text_eqb_spec x n) as [->|N].
  - rewrite E, Nat.eqb_refl. reflexivity.
  - unfold dk_view. destruct (dk_name d x) as [j|] eqn:Ex; auto. destruct (Nat.eqb_spec j i) as [->|]; auto. exfalso. apply N. eauto.
Qed.
Lemma store_ok d i b : disk_ok d -> disk_ok (dk_store d i b).
Proof. intros [A B]. split; cbn; eauto. Qed.
Lemma view_create d n d' i : disk_ok d -> dk_create d n = (d', i) -> disk_ok d' /\ dk_name d' n = Some i /\ dk_data d' i = [] /\ eqv (dk_view d') (fs_set (dk_view d) n (Some [])).
Proof.
  intros D E. unfold dk_create in E. destruct (dk_name d n) as [j|] eqn:En.
  - injection E as <- <-. split. now apply store_ok. split; auto. split. apply store_same. now apply view_store.
  - cbn zeta in E. injection E as <- <-. destruct D as [U F]. set (i := dk_next d) in *. split; [split|split; [|split]].
    + intros a b k. cbn. destruct (text_eqb_spec a n) as [->|Na], (text_eqb_spec b n) as [->|Nb]; intros A B; auto.
      injection A as <-. apply F in B. unfold i in B. lia. injection B as <-. apply F in A. unfold i in A. lia. eauto.
    + intros a k. cbn. destruct (text_eqb_spec a n) as [->|Na]; intros A. injection A as <-. lia. apply F in A. unfold i. lia.
    + apply enter_same.
    + cbn. now rewrite Nat.eqb_refl.
    + intros x. unfold fs_set, dk_view. cbn. destruct (text_eqb_spec x n) as [->|N]. now rewrite Nat.eqb_refl.
      destruct (dk_name d x) as [j|] eqn:Ex; auto. destruct (Nat.eqb_spec j i) as [->|]; auto. apply F in Ex. unfold i in Ex. lia.
Qed.
Lemma view_rename d a b d' : disk_ok d -> a <> b -> dk_rename d a b = Some d' -> disk_ok d' /\ eqv (dk_view d') (fs_do (dk_view d) (Rename a b)).
Proof.
  intros [U F] N E. unfold dk_rename in E. destruct (dk_name d a) as [i|] eqn:Ea; [|discriminate]. injection E as <-. split; [split|].
  - intros x y k. cbn. destruct (text_eqb_spec x a); [discriminate|]. destruct (text_eqb_spec y a); [discriminate|].
    destruct (text_eqb_spec x b) as [->|], (text_eqb_spec y b) as [->|]; intros A B; auto.
    injection A as <-. exfalso; eauto. injection B as <-. exfalso; eauto. eauto.
  - intros x k. cbn. destruct (text_eqb_spec x a); [discriminate|]. destruct (text_eqb_spec x b); eauto. intros X. injection X as <-. eauto.
  - intros x. cbn [fs_do]. unfold fs_set, dk_view. cbn. destruct (text_eqb_spec x a); auto. destruct (text_eqb_spec x b); auto. now rewrite Ea.
Qed.
Lemma ext_neq t : with_extension t (str "tmp") <> with_extension t (str "pbin").
Proof. unfold with_extension. intros E. apply app_inv_head in E. revert E. vm_compute. discriminate. Qed.
Lemma write_end data b : write_at data (List.length data) b = data ++ [b].
Proof. unfold write_at. rewrite Nat.sub_diag, app_nil_r, firstn_all, skipn_all2 by lia. reflexivity. Qed.

(* the calls of prune (prune.rs:37-113) one after the other *)
Fixpoint prunes (js : list (nat * text)) (fs : Fs) : option Fs :=
  match js with [] => Some fs | (c, t) :: r => fs' <- prune c t fs ;; prunes r fs' end.
Lemma prunes_app a b : forall fs, prunes (a ++ b) fs = (fs' <- prunes a fs ;; prunes b fs').
Proof. induction a as [|(c, t) a IH]; intros fs; cbn [prunes app]; auto. destruct (prune c t fs); auto. Qed.

Definition calls (fs : Fs) (c : nat) (t : text) (data : list nat) : Prop :=
  (file <- fs t ;; mmap file) = Some data /\ fs (with_extension t (str "pbin")) = None.
Lemma calls_ops fs c t data : calls fs c t data -> prune_ops c t fs =
  (w <- prune_data c data ;; Some (Create (with_extension t (str "tmp")) :: map (fun b => Append (with_extension t (str "tmp")) [b]) (concat w) ++
    [Rename (with_extension t (str "tmp")) (with_extension t (str "pbin"))])).
Proof. intros (A & B). unfold prune_ops. destruct (fs t); [|discriminate]. rewrite A, B. reflexivity. Qed.

Record one (d0 : Disk) (js : list (nat * text)) (d : Disk) (p : Proc) : Prop := {
  o_disk : disk_ok d;
  o_state : exists dn fs1, js = dn ++ pc_jobs p /\ prunes dn (dk_view d0) = Some fs1 /\
    match pc_phase p with
    | PhOpen => eqv (dk_view d) fs1
    | PhMake data => exists c t r, pc_jobs p = (c, t) :: r /\ eqv (dk_view d) fs1 /\ calls fs1 c t data
    | PhWrite i pos out => exists c t r data w, pc_jobs p = (c, t) :: r /\ calls fs1 c t data /\ prune_data c data = Some w /\ out = concat w /\ pos <= List.length out /\
        dk_name d (with_extension t (str "tmp")) = Some i /\ dk_data d i = firstn pos out /\
        eqv (dk_view d) (fs_run (Create (with_extension t (str "tmp")) :: map (fun b => Append (with_extension t (str "tmp")) [b]) (firstn pos out)) fs1)
    | PhFailed => prunes (pc_jobs p) fs1 = None
    end }.

Lemma firstn_snoc {A} (l : list A) n x : nth_error l n = Some x -> firstn (S n) l = firstn n l ++ [x].
Proof. revert n. induction l as [|y l IH]; intros [|n] E; cbn in *; try discriminate. congruence. f_equal. auto. Qed.
Lemma one_step d0 js d p d' p' : one d0 js d p -> proc_step d p = Some (d', p') -> one d0 js d' p'.
Proof.
  intros [D (dn & fs1 & Ej & Ep & St)] E. destruct p as [[|(c, t) r] ph]; [discriminate|]. unfold proc_step in E. cbn [pc_jobs pc_phase] in *. cbv zeta in E.
  set (tmp := with_extension t (str "tmp")) in *. set (out := with_extension t (str "pbin")) in *.
  destruct ph as [|data|i pos bytes|]; [| | |discriminate].
  - assert (Ef : dk_view d t = fs1 t) by apply St. destruct (file <- dk_view d t ;; mmap file) as [data|] eqn:Em.
    + rewrite Ef in Em. destruct (dk_name d out) as [i|] eqn:Eo; injection E as <- <-; split; auto.
      * exists (dn ++ [(c, t)]), fs1. cbn [pc_jobs pc_phase]. rewrite <- app_assoc. split; auto. split; auto. rewrite prunes_app, Ep. cbn [prunes]. unfold prune, prune_ops.
        destruct (fs1 t) as [f|]; [|discriminate]. rewrite Em. fold out. rewrite <- (St out). unfold dk_view. rewrite Eo. reflexivity.
      * exists dn, fs1. cbn [pc_jobs pc_phase]. split; auto. split; auto. exists c, t, r. split; auto. split; auto. split. exact Em. fold out. rewrite <- (St out). now apply view_none.
    + injection E as <- <-. split; auto. exists dn, fs1. cbn [pc_jobs pc_phase]. split; auto. split; auto. cbn [prunes]. unfold prune, prune_ops. rewrite <- Ef.
      destruct (dk_view d t); auto. rewrite Em. reflexivity.
  - destruct St as (c' & t' & r' & X & V & Ca). injection X as <- <- <-. destruct (dk_create d tmp) as (d1, i) eqn:Ec. destruct (view_create _ _ _ _ D Ec) as (D1 & N1 & B1 & V1).
    destruct (prune_data c data) as [w|] eqn:Ew; injection E as <- <-; split; auto; exists dn, fs1; cbn [pc_jobs pc_phase]; split; auto; split; auto.
    + exists c, t, r, data, w. fold tmp. split; auto. split; auto. split; auto. split; auto. split. lia. split; auto. split; auto.
      cbn [firstn map]. unfold fs_run. cbn [fold_left fs_do]. eapply eqv_trans; eauto. now apply eqv_set.
    + cbn [prunes]. unfold prune. rewrite (calls_ops _ _ _ _ Ca), Ew. reflexivity.
  - destruct St as (c' & t' & r' & data & w & X & Ca & Ew & -> & Hp & N1 & B1 & V). injection X as <- <- <-. fold tmp in N1, V. destruct (nth_error (concat w) pos) as [b|] eqn:Eb.
    + injection E as <- <-. split. now apply store_ok. exists dn, fs1. cbn [pc_jobs pc_phase]. split; auto. split; auto. exists c, t, r, data, w. fold tmp.
      assert (L : pos < List.length (concat w)) by (apply nth_error_Some; congruence).
      assert (Wb : write_at (dk_data d i) pos b = firstn (S pos) (concat w)). { rewrite B1, (firstn_snoc _ _ _ Eb). pose proof (write_end (firstn pos (concat w)) b) as W. rewrite firstn_length_le in W by lia. exact W. }
      split; auto. split; auto. split; auto. split; auto. split. lia. split. exact N1. split. now rewrite store_same.
      eapply eqv_trans. apply view_store; eauto. rewrite Wb, (firstn_snoc _ _ _ Eb), map_app, app_comm_cons. unfold fs_run. rewrite fold_left_app. cbn [fold_left map].
      fold (fs_run (Create tmp :: map (fun x => Append tmp [x]) (firstn pos (concat w))) fs1). unfold fs_do at 1.
      assert (Q : fs_run (Create tmp :: map (fun x => Append tmp [x]) (firstn pos (concat w))) fs1 tmp = Some (firstn pos (concat w))) by (rewrite <- (V tmp); unfold dk_view; rewrite N1, B1; reflexivity).
      change (fold_left fs_do (map (fun b0 : nat => Append tmp [b0]) (firstn pos (concat w))) (fs_do fs1 (Create tmp))) with (fs_run (Create tmp :: map (fun x => Append tmp [x]) (firstn pos (concat w))) fs1).
      cbn [fs_do]. rewrite Q. now apply eqv_set.
    + assert (pos = List.length (concat w)) as -> by (apply nth_error_None in Eb; lia). rewrite firstn_all in *. destruct (dk_rename d tmp out) as [d1|] eqn:Er.
      * injection E as <- <-. destruct (view_rename _ _ _ _ D (ext_neq t) Er) as (D1 & V1). split; auto. eexists (dn ++ [(c, t)]), _. cbn [pc_jobs pc_phase]. rewrite <- app_assoc. split; auto.
        split. rewrite prunes_app, Ep. cbn [prunes]. unfold prune. rewrite (calls_ops _ _ _ _ Ca), Ew. reflexivity.
        eapply eqv_trans; eauto. fold tmp out. rewrite app_comm_cons. unfold fs_run. rewrite fold_left_app. cbn [fold_left]. apply eqv_do. exact V.
      * unfold dk_rename in Er. rewrite N1 in Er. discriminate.
Qed.
Lemma one_run d0 js s : disk_ok d0 -> dir_run d0 [js] s -> exists p, dr_procs s = [p] /\ one d0 js (dr_disk s) p.
Proof.
  intros D R. induction R as [|s s' R (p & E & I) St].
  - exists (mkProc js PhOpen). split; auto. split; auto. exists [], (dk_view d0). cbn. split; auto. split; auto. intros x; reflexivity.
  - destruct St as [d ps k q d' p' Ek Es]. cbn in *. subst ps. destruct k as [|[|k]]; try discriminate. injection Ek as <-. exists p'. split; auto. eapply one_step; eauto.
Qed.

(* ---- every process ends ---- *)
Definition rank (ph : Phase) : nat * nat :=
  match ph with PhOpen => (3, 0) | PhMake _ => (2, 0) | PhWrite _ pos out => (1, List.length out - pos) | PhFailed => (0, 0) end.
Definition weight (p : Proc) : nat * (nat * nat) := (List.length (pc_jobs p), rank (pc_phase p)).
Definition lt2 (a b : nat * nat) : Prop := fst a < fst b \/ fst a = fst b /\ snd a < snd b.
Definition lt3 (a b : nat * (nat * nat)) : Prop := fst a < fst b \/ fst a = fst b /\ lt2 (snd a) (snd b).
Lemma lex_wf {A} (R : A -> A -> Prop) : well_founded R -> well_founded (fun a b : nat * A => fst a < fst b \/ fst a = fst b /\ R (snd a) (snd b)).
Proof.
  intros W (n, a). revert a. induction n as [n IH] using lt_wf_ind. intros a. induction a as [a IHa] using (well_founded_ind W). constructor. intros (m, b) [L|(E & L)]; cbn in *. now apply IH. subst m. now apply IHa.
Qed.
Lemma lt3_wf : well_founded lt3.
Proof. apply lex_wf. exact (lex_wf lt lt_wf). Qed.
Lemma step_lt d p d' p' : proc_step d p = Some (d', p') -> lt3 (weight p') (weight p).
Proof.
  intros E. destruct p as [[|(c, t) r] ph]; [discriminate|]. unfold proc_step in E. cbn [pc_jobs pc_phase] in E. cbv zeta in E. destruct ph as [|data|i pos out|]; [| | |discriminate].
  - destruct (file <- dk_view d t ;; mmap file). destruct (dk_name d _). all: injection E as <- <-; unfold lt3, lt2; cbn; lia.
  - destruct (dk_create d _). destruct (prune_data c data); injection E as <- <-; unfold lt3, lt2; cbn; lia.
  - destruct (nth_error out pos) eqn:N. assert (pos < List.length out) by (apply nth_error_Some; congruence). injection E as <- <-; unfold lt3, lt2; cbn; lia.
    destruct (dk_rename d _ _); injection E as <- <-; unfold lt3, lt2; cbn; lia.
Qed.
(* one element of a list becomes smaller *)
Definition less (a b : list Proc) : Prop := exists k p p', nth_error b k = Some p /\ a = upd b k p' /\ lt3 (weight p') (weight p).
Lemma less_wf : well_founded less.
Proof.
  intros l. induction l as [|p l IH]. { constructor. intros a (k & q & q' & E & _). destruct k; discriminate. }
  assert (W : well_founded (fun a b => lt3 (weight a) (weight b))) by exact (wf_inverse_image _ _ _ weight lt3_wf).
  revert p. intros p. revert l IH. induction p as [p IHp] using (well_founded_ind W). intros l IH. induction IH as [l A IHl].
  constructor. intros a (k & q & q' & E & -> & L). destruct k as [|k]; cbn in E.
  - injection E as <-. cbn. apply IHp; auto. now constructor.
  - cbn. apply IHl. exists k, q, q'. auto.
Qed.
Lemma dir_ends : well_founded (fun s' s => dir_step s s').
Proof.
  intros s. pose proof (wf_inverse_image _ _ _ dr_procs less_wf s) as A. induction A as [s _ IH]. constructor. intros s' St. apply IH. destruct St as [d ps k p d' p' E Es]. exists k, p, p'. split; auto. split; auto. eapply step_lt; eauto.
Qed.
