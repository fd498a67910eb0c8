(* The tests of the index directions are correct, and the tests on ranges never reject a range that contains an
   entry which passes. *)
From Coq Require Import List Arith Bool Lia Permutation.
Import ListNotations.
From Verif Require Import Spec Vec Util OutputSetModel OutputSetProofs PackProofs AbsProofs AbsFull SubsumeModel SubsumeSearch
  CanonLoop PropSubsume TreeModel TreeProofs TreeTraverse IndexModel IndexSpec.

Lemma all2_spec {A B} (f : A -> B -> bool) l l' da db : length l = length l' ->
  (all2 f l l' = true <-> forall i, i < length l -> f (nth i l da) (nth i l' db) = true).
Proof.
  unfold all2. rewrite forallb_forall. intros L. split.
  - intros H i Hi. specialize (H (nth i l da, nth i l' db)). apply H. rewrite <- combine_nth by auto.
    apply nth_In. rewrite combine_length. lia.
  - intros H (a, b) I. apply (In_nth _ _ (da, db)) in I. destruct I as (i & Hi & E). rewrite combine_nth in E by auto.
    rewrite combine_length in Hi. injection E as <- <-. apply H. lia.
Qed.

Lemma all_masked_spec {A} (f : A -> nat -> bool) l m lk da :
  all_masked f l m lk = true <-> forall i, i < length l -> f (nth i l da) (nth (Nat.lxor i m) lk 0) = true.
Proof.
  unfold all_masked. rewrite forallb_forall. split.
  - intros H i Hi. specialize (H (i, nth i l da)). apply H. replace i with (nth i (seq 0 (length l)) 0) at 1 by (rewrite seq_nth; auto).
    rewrite <- combine_nth by apply seq_length. apply nth_In. rewrite combine_length, seq_length. lia.
  - intros H (i, a) I. apply (In_nth _ _ (0, da)) in I. destruct I as (j & Hj & E). rewrite combine_length, seq_length in Hj.
    rewrite combine_nth in E by apply seq_length. rewrite seq_nth in E by lia. injection E as <- <-. apply H. cbn. lia.
Qed.

Lemma lxor3_lt k i : i < 4 * k -> Nat.lxor i 3 < 4 * k.
Proof.
  intros H. pose proof (Nat.div_mod i 4 ltac:(lia)) as D. pose proof (Nat.mod_upper_bound i 4 ltac:(lia)) as M.
  rewrite D. rewrite lxor3 by auto. assert (i / 4 < k) by (apply Nat.div_lt_upper_bound; lia). lia.
Qed.

Lemma abstraction_length s : 0 < channels s -> length (abstraction s) = 4 * (channels s * (channels s - 1)).
Proof. intros H. destruct (abstraction_layout s H) as (L & _). rewrite L. nia. Qed.

Section Tests.
Variable n : nat.
Hypothesis n_pos : 0 < n.
Hypothesis n_max : n <= MAX_CHANNELS.

Definition gs (s : OutputSet) : Prop := wf s /\ channels s = n.

Lemma abl s : gs s -> length (abstraction s) = 4 * (n * (n - 1)).
Proof. intros (W & C). rewrite abstraction_length; rewrite C; auto. Qed.

Lemma mono inv p c l : gs c -> gs l -> is_perm n p -> subsumes_by inv p (vs c) (vs l) ->
  forall i, i < 4 * (n * (n - 1)) ->
    nth i (abstraction c) 0 <= nth (Nat.lxor i (if inv then 3 else 0)) (abstraction l) 0.
Proof.
  intros Gc Gl P S i Hi. destruct (C10_abstraction_monotone inv p c l) as (_ & M).
  apply Gc. apply Gl. destruct Gc, Gl; congruence. destruct Gc; lia. destruct Gc; congruence. auto.
  rewrite (abl c Gc) in M. destruct (M i Hi) as (_ & Q). destruct inv; auto. now rewrite Nat.lxor_0_r.
Qed.

Lemma abs_test d c l : gs c -> gs l -> covers d c l -> test_abstraction d (abstraction c) (abstraction l) = true.
Proof.
  intros Gc Gl (w & P & V). assert (Cc : channels c = n) by apply Gc. rewrite Cc in P.
  pose proof (abl c Gc) as Lc. pose proof (abl l Gl) as Ll.
  destruct d; cbn [test_abstraction].
  - destruct V as (_ & V). apply (all2_spec _ _ _ 0 0). congruence. rewrite Lc. intros i Hi.
    apply Nat.leb_le. pose proof (mono false _ c l Gc Gl P V i Hi) as M. now rewrite Nat.lxor_0_r in M.
  - unfold any_mask. apply orb_true_iff. destruct (fst w) eqn:Ew; [right|left]; apply (all_masked_spec _ _ _ _ 0); rewrite Lc;
      intros i Hi; apply Nat.leb_le; pose proof (mono _ _ c l Gc Gl P V i Hi) as M; exact M.
  - destruct V as (_ & V). apply (all2_spec _ _ _ 0 0). congruence. rewrite Lc. intros i Hi.
    apply Nat.leb_le. pose proof (mono false _ l c Gl Gc P V i Hi) as M. now rewrite Nat.lxor_0_r in M.
Qed.

Lemma in_rng_spec rg p : in_rng rg p -> length rg = length p /\ forall i, i < length p -> fst (nth i rg (0, 0)) <= nth i p 0 <= snd (nth i rg (0, 0)).
Proof.
  intros H. induction H as [|r c rg p (A & B) H (L & IH)]; cbn [length]; split; auto. intros; lia.
  intros [|i] Hi; cbn [nth]; auto. apply IH. lia.
Qed.

Lemma range_test d rg cab lab : length cab = 4 * (n * (n - 1)) -> length lab = 4 * (n * (n - 1)) -> in_rng rg cab ->
  test_abstraction d cab lab = true -> test_abstraction_range d rg lab = true.
Proof.
  intros Lc Ll R T. apply in_rng_spec in R. destruct R as (Lr & R). destruct d; cbn [test_abstraction test_abstraction_range] in *.
  - apply (all2_spec _ _ _ (0, 0) 0). congruence. rewrite (all2_spec _ _ _ 0 0) in T by congruence. intros i Hi.
    rewrite Lr in Hi. specialize (T i Hi). specialize (R i Hi). apply Nat.leb_le in T. apply Nat.leb_le. lia.
  - unfold any_mask in *. apply orb_true_iff in T. apply orb_true_iff. destruct T as [T|T]; [left|right];
    apply (all_masked_spec _ _ _ _ (0, 0)); rewrite (all_masked_spec _ _ _ _ 0) in T; intros i Hi;
    rewrite Lr in Hi; specialize (T i Hi); specialize (R i Hi); apply Nat.leb_le in T; apply Nat.leb_le; lia.
  - apply (all2_spec _ _ _ (0, 0) 0). congruence. rewrite (all2_spec _ _ _ 0 0) in T by congruence. intros i Hi.
    rewrite Lr in Hi. specialize (T i Hi). specialize (R i Hi). apply Nat.leb_le in T. apply Nat.leb_le. lia.
Qed.

Lemma range_update_test d rg cab lab : length cab = 4 * (n * (n - 1)) -> length lab = 4 * (n * (n - 1)) -> in_rng rg cab ->
  test_abstraction_update d cab lab = true -> test_abstraction_range_update d rg lab = true.
Proof.
  intros Lc Ll R T. apply in_rng_spec in R. destruct R as (Lr & R). unfold test_abstraction_update in T.
  destruct d; cbn [test_abstraction test_abstraction_range_update] in *.
  - apply (all2_spec _ _ _ (0, 0) 0). congruence. rewrite (all2_spec _ _ _ 0 0) in T by congruence. intros i Hi.
    rewrite Lr in Hi. specialize (T i ltac:(congruence)). specialize (R i Hi). apply Nat.leb_le in T. apply Nat.leb_le. lia.
  - unfold any_mask in *. apply orb_true_iff in T. apply orb_true_iff. destruct T as [T|T]; [left|right];
    apply (all_masked_spec _ _ _ _ (0, 0)); rewrite (all_masked_spec _ _ _ _ 0) in T; intros i Hi; rewrite Lr in Hi;
    specialize (R i Hi); apply Nat.leb_le.
    + rewrite Nat.lxor_0_r. specialize (T i ltac:(congruence)). rewrite Nat.lxor_0_r in T. apply Nat.leb_le in T. lia.
    + specialize (T (Nat.lxor i 3)). rewrite Nat.lxor_assoc in T. change (Nat.lxor 3 3) with 0 in T. rewrite Nat.lxor_0_r in T.
      assert (H : Nat.lxor i 3 < length lab) by (rewrite Ll; apply lxor3_lt; congruence). apply T in H. apply Nat.leb_le in H. lia.
  - apply (all2_spec _ _ _ (0, 0) 0). congruence. rewrite (all2_spec _ _ _ 0 0) in T by congruence. intros i Hi.
    rewrite Lr in Hi. specialize (T i ltac:(congruence)). specialize (R i Hi). apply Nat.leb_le in T. apply Nat.leb_le. lia.
Qed.

Lemma sp_spec a b : gs a -> gs b -> exists res, subsumes_permuted a b = Some res /\
  match res with Some p => is_perm n p /\ subsumes_by false p (vs a) (vs b) | None => forall p, is_perm n p -> ~ subsumes_by false p (vs a) (vs b) end.
Proof.
  intros (Wa & Ca) (Wb & Cb). destruct (subsumes_permuted_spec n a b Wa Wb Ca Cb n_max) as (res & E & R). exists res. split; auto.
  destruct res as [p|]; auto. intros p P S. apply (R p). split; auto.
Qed.

Lemma invert_gs s : gs s -> gs (invert s).
Proof. intros (W & C). split; auto. now apply invert_wf. Qed.

Lemma subsumes_invert p c l : gs c -> (subsumes_by false p (vs (invert c)) (vs l) <-> subsumes_by true p (vs c) (vs l)).
Proof.
  intros (W & C). unfold subsumes_by. cbn [complement_if]. split; intros H x Hx.
  - apply H. apply invert_mem; auto. apply Hx.
  - apply (invert_vs c W) in Hx. destruct Hx as (y & Hy & ->). now apply H.
Qed.

Lemma precise d c l : gs c -> gs l -> exists res, test_precise d c (abstraction c) l (abstraction l) = Some res /\
  match res with Some w => valid d c l w | None => ~ covers d c l end.
Proof.
  intros Gc Gl. assert (Cc : channels c = n) by apply Gc.
  destruct d; cbn [test_precise].
  - destruct (sp_spec c l Gc Gl) as (r & E & R). rewrite E. eexists. split; [reflexivity|]. destruct r as [p|].
    + destruct R as (P & S). split; cbn; rewrite ?Cc; auto.
    + intros ((z, p) & P & _ & S). cbn in *. rewrite Cc in P. now apply (R p).
  - assert (F : exists r, (if test_abstraction Lower (abstraction c) (abstraction l) then subsumes_permuted c l else Some None) = Some r /\
       match r with Some p => is_perm n p /\ subsumes_by false p (vs c) (vs l) | None => forall p, is_perm n p -> ~ subsumes_by false p (vs c) (vs l) end).
    { destruct (test_abstraction Lower _ _) eqn:T. now apply sp_spec. exists None. split; auto. intros p P S.
      rewrite (abs_test Lower c l Gc Gl) in T. discriminate. exists (false, p). split; cbn; rewrite ?Cc; auto. }
    destruct F as (r & E & R). rewrite E. destruct r as [p|].
    { eexists. split; [reflexivity|]. destruct R as (P & S). split; cbn; rewrite ?Cc; auto. }
    destruct (sp_spec (invert c) l (invert_gs _ Gc) Gl) as (r2 & E2 & R2). rewrite E2. eexists. split; [reflexivity|].
    destruct r2 as [p|].
    + destruct R2 as (P & S). apply subsumes_invert in S; auto. split; cbn; rewrite ?Cc; auto.
    + intros ((z, p) & P & S). cbn in *. rewrite Cc in P. destruct z.
      * apply (R2 p P). now apply subsumes_invert.
      * now apply (R p).
  - destruct (sp_spec l c Gl Gc) as (r & E & R). rewrite E. eexists. split; [reflexivity|]. destruct r as [p|].
    + destruct R as (P & S). split; cbn; rewrite ?Cc; auto.
    + intros ((z, p) & P & _ & S). cbn in *. rewrite Cc in P. now apply (R p).
Qed.

Lemma valid_id d c : gs c -> valid d c c (id_perm n).
Proof.
  intros (W & C). assert (H : subsumes_by false (seq 0 n) (vs c) (vs c)).
  { intros x Hx. cbn. assert (L : length x = n) by (destruct Hx; congruence). rewrite <- L. rewrite permute_id. auto. }
  unfold id_perm. split; cbn. rewrite C. unfold is_perm. auto. destruct d; auto.
Qed.

Lemma os_eqb_eq a b : gs a -> gs b -> (os_eqb a b = true <-> a = b).
Proof.
  intros (Wa & Ca) (Wb & Cb). rewrite os_eqb_bitmap. split; intros; subst; auto. apply os_same; congruence.
Qed.

End Tests.
