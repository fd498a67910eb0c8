(* The gnp command on the checked parts gives the answers of GnpModel. *)
From Coq Require Import List Arith Bool Lia Permutation.
Import ListNotations.
From Verif Require Import Spec Vec Util OutputSetModel OutputSetProofs CanonModel TreeModel IndexModel FlatModel FlatProofs FlatIndex SearchModel SearchInv.
From Verif Require Import MachineModel PropMachine CanonMachModel PropCanonMach IndexMachModel IndexMachProofs PropIndexMach BackMachProofs GnpModel GnpMachModel.

Section Gnp.
Variables (chash : list nat -> nat) (drain : nat -> nat -> list OutputSet -> list OutputSet) (n : nat).
Hypothesis Hdrain : forall a b l, NoDup l -> Permutation (drain a b l) l.
Hypothesis N1 : 1 < n.
Hypothesis N2 : n <= MAX_CHANNELS.

Definition fine (s : OutputSet) : Prop := wf s /\ channels s = n.
Lemma hs_fine x l : fine x -> Forall fine l -> NoDup l -> Forall fine (hs_insert x l) /\ NoDup (hs_insert x l).
Proof.
  intros X L N. unfold hs_insert. destruct existsb eqn:E; auto. split. apply Forall_app; auto. apply (Permutation_NoDup (l := x :: l)). apply Permutation_cons_append. constructor; auto.
  intros I. assert (existsb (fun y => os_eqb y x) l = true); [|congruence]. apply existsb_exists. exists x. split; auto. apply os_eqb_refl.
Qed.
Definition QN (a b : list OutputSet) : Prop := a = b /\ Forall fine b /\ NoDup b.
Lemma nexts_same s : fine s -> orel QN (gnp_nexts_m chash n s) (gnp_nexts chash n s).
Proof.
  intros (W & C). unfold gnp_nexts_m, gnp_nexts. assert (K : forall l, (forall i j, In (i, j) l -> i < n /\ j < n /\ i <> j) -> forall a b, QN a b -> orel QN (fold_opt (gnp_try_m chash s) l a) (fold_opt (gnp_try chash s) l b)).
  { induction l as [|(i, j) l IH]; intros P a b Q; cbn [fold_opt]. { now apply orel_some. }
    eapply (orel_bind QN); [|intros; apply IH; auto]. 2: { intros i' j' I. apply P. now right. }
    destruct (P i j (or_introl eq_refl)) as (Hi & Hj & Ne). unfold gnp_try_m, gnp_try. cbn [fst snd].
    rewrite (proj2 (proj1 (C45_writes_in_range s W ltac:(lia)) i j ltac:(lia) ltac:(lia)) Ne).
    assert (Wt : wf (fst (apply_comparator s i j))) by (apply apply_comparator_wf; auto; lia).
    pose proof (apply_comparator_channels s i j) as Ct. destruct (apply_comparator s i j) as (t, ch). cbn [fst] in *. destruct ch; [|now apply orel_some].
    destruct (C49_checked_same_result chash t false Wt ltac:(lia)) as (r & A & B). rewrite A, B. apply orel_some.
    destruct (C49_checked_isomorphic chash t false Wt ltac:(lia)) as (u & z & p & A' & Wu & Cu & _). rewrite A in A'. injection A' as ->. cbn [fst].
    destruct Q as (-> & F & N). destruct (hs_fine u b) as (F' & N'); auto. split; auto. lia. split; auto. }
  apply K. { intros i j I. now apply pairs_bound. } split; auto. split; constructor.
Qed.
Lemma inserts_same ts : Forall fine ts -> forall x ix, IRep n x ix -> orel (IRep n) (fold_opt gnp_insert_m ts x) (fold_opt gnp_insert ts ix).
Proof.
  induction 1 as [|t ts (W & C) F IH]; intros x ix R; cbn [fold_opt]. { now apply orel_some. }
  eapply (orel_bind (IRep n)); [|intros; apply IH; auto]. unfold gnp_insert_m, gnp_insert. rewrite abs_same by (auto; lia).
  assert (K : orel (irel n) (mx_insert x t (abstraction t) 0) (insert ix t (abstraction t) 0)).
  { pose proof (R_insert n x ix t (abstraction t) 0 R (new_ok_abstraction n t N1 N2 W C)) as K. destruct (insert ix t (abstraction t) 0) as [r|]; [|exact Logic.I]. destruct K as (y & E & K).
    assert (M : orel eq (mx_insert x t (abstraction t) 0) (fx_insert x t (abstraction t) 0)). { apply (mx_insert_ok n); auto. eapply rep_fok; eauto. apply (ab_len n N1 N2); auto. }
    rewrite E in M. destruct M as (y' & -> & ->). exists y. auto. }
  destruct (insert ix t (abstraction t) 0) as [r|]; [|exact Logic.I]. destruct K as (y & -> & K & _). now apply orel_some.
Qed.
Definition QS (a : nat * FIndex) (b : nat * Index) : Prop := fst a = fst b /\ IRep n (snd a) (snd b).
Lemma sets_same count ss : Forall fine ss -> forall a b, QS a b -> orel QS (fold_opt (gnp_set_m chash drain n count) ss a) (fold_opt (gnp_set chash drain n count) ss b).
Proof.
  induction 1 as [|s ss Fs F IH]; intros a b Q; cbn [fold_opt]. { now apply orel_some. }
  eapply (orel_bind QS); [|intros; apply IH; auto]. unfold gnp_set_m, gnp_set. eapply orel_bind; [apply nexts_same; auto|]. intros l ? _ _ (-> & Fl & Nl).
  destruct Q as (Q1 & Q2). rewrite Q1. eapply orel_bind; [apply inserts_same; eauto|]. { eapply Permutation_Forall; [|exact Fl]. symmetry. now apply Hdrain. }
  intros x ix _ _ R. apply orel_some. split; auto.
Qed.
Lemma layer_same count x ix : IRep n x ix -> orel (IRep n) (gnp_layer_m chash drain n count x) (gnp_layer chash drain n count ix).
Proof.
  intros R. unfold gnp_layer_m, gnp_layer. eapply orel_bind; [apply (m_for_each n); auto|]. intros E ? _ Ee ->.
  eapply orel_bind; [apply sets_same|]. 3: { intros a b _ _ (_ & K). now apply orel_some. }
  - apply Forall_map, Forall_forall. intros ((s, a), v) I. cbn [fst]. destruct (for_each_facts _ _ _ _ _ Ee I) as (W & C). split; auto. rewrite C. destruct R; auto.
  - split; auto. apply R_index_new.
Qed.
Lemma loop_same : forall fuel count x ix, IRep n x ix -> orel eq (gnp_loop_m chash drain fuel n count x) (gnp_loop chash drain fuel n count ix).
Proof.
  induction fuel as [|fuel IH]; intros count x ix R; cbn [gnp_loop_m gnp_loop]; rewrite (R_is_empty n x ix R); destruct (index_is_empty ix); try (now apply orel_some); try exact Logic.I.
  eapply orel_bind; [now apply layer_same|]. intros y iy _ _ R'. eapply orel_bind; [apply IH; eauto|]. intros l ? _ _ ->. apply orel_some. now rewrite (R_len n y iy R').
Qed.
Lemma gnp_same fuel : orel eq (cmd_gnp_m chash drain fuel n) (cmd_gnp chash drain fuel n).
Proof.
  unfold cmd_gnp_m, cmd_gnp. destruct (n <=? MAX_CHANNELS) eqn:E; [|exact Logic.I]. unfold all_values_c. rewrite E.
  assert (Fi : fine (all_values n)) by (split; [apply all_values_wf|reflexivity]).
  rewrite abs_same by (try apply Fi; cbn; lia). pose proof (inserts_same [all_values n]) as K. specialize (K ltac:(auto) _ _ (R_index_new Lower n)). cbn [fold_opt] in K. unfold gnp_insert_m, gnp_insert in K.
  rewrite abs_same in K by (try apply Fi; cbn; lia). destruct (insert _ _ _ 0) as [r|]; [|exact Logic.I]. destruct (mx_insert _ _ _ 0) as [r'|]; cbn in K; destruct K as (y & Ky & R); [|discriminate]. injection Ky as <-. now apply loop_same.
Qed.
End Gnp.
