(* Theory of comparator networks on sets of 0/1 vectors: symmetry, successors, extremal channels. *)
From Coq Require Import List Arith Bool Lia Permutation.
Import ListNotations.
From Verif Require Import Spec Vec.

(* all members have length n *)
Definition width (n : nat) (V : vset) : Prop := forall x, V x -> length x = n.

(* ---------- basic facts ---------- *)

Lemma same_set_sym V W : same_set V W -> same_set W V.
Proof. intros H x; split; apply H. Qed.

Lemma same_set_trans U V W : same_set U V -> same_set V W -> same_set U W.
Proof. intros H1 H2 x; split; intros; [apply H2, H1|apply H1, H2]; auto. Qed.

Lemma same_set_refl V : same_set V V.
Proof. intros x; tauto. Qed.

Lemma one_per_weight_subset V W : subset V W -> one_per_weight W -> one_per_weight V.
Proof. intros H O x y Hx Hy. apply O; auto. Qed.

Lemma image_subset f V W : subset V W -> subset (image f V) (image f W).
Proof. intros H y (x & Hx & ->). exists x; auto. Qed.

Lemma image_comp f g V : same_set (image g (image f V)) (image (fun x => g (f x)) V).
Proof.
  intros z; split.
  - intros (y & (x & Hx & ->) & ->). exists x; auto.
  - intros (x & Hx & ->). exists (f x); split; auto. exists x; auto.
Qed.

Lemma image_same f V W : same_set V W -> same_set (image f V) (image f W).
Proof. intros H y; split; intros (x & Hx & ->); exists x; split; auto; now apply H. Qed.

Lemma image_ext f g (V : vset) : (forall x, V x -> f x = g x) -> same_set (image f V) (image g V).
Proof. intros H y; split; intros (x & Hx & ->); exists x; split; auto. symmetry; auto. Qed.

Lemma one_per_weight_same V W : same_set V W -> one_per_weight W -> one_per_weight V.
Proof. intros H. apply one_per_weight_subset. intros x; apply H. Qed.

Lemma finishes_mono n V W net : subset V W -> finishes n W net -> finishes n V net.
Proof.
  intros H (N & O). split; auto. eapply one_per_weight_subset; [apply image_subset; eauto|auto].
Qed.

Lemma lower_bound_mono n V W k : subset V W -> lower_bound n V k -> lower_bound n W k.
Proof. intros H L net F. apply L. eapply finishes_mono; eauto. Qed.

Lemma upper_bound_mono n V W k : subset V W -> upper_bound n W k -> upper_bound n V k.
Proof. intros H (net & F & L). exists net; split; auto. eapply finishes_mono; eauto. Qed.

Lemma lower_bound_le n V k k' : k' <= k -> lower_bound n V k -> lower_bound n V k'.
Proof. intros H L net F. specialize (L net F). lia. Qed.

Lemma upper_bound_le n V k k' : k <= k' -> upper_bound n V k -> upper_bound n V k'.
Proof. intros H (net & F & L). exists net; split; auto. lia. Qed.

Lemma lower_upper n V l u : lower_bound n V l -> upper_bound n V u -> l <= u.
Proof. intros L (net & F & U). specialize (L net F). lia. Qed.

Lemma lower_bound_same n V W k : same_set V W -> lower_bound n V k -> lower_bound n W k.
Proof. intros H. apply lower_bound_mono. intros x; apply H. Qed.

Lemma upper_bound_same n V W k : same_set V W -> upper_bound n W k -> upper_bound n V k.
Proof. intros H. apply upper_bound_mono. intros x; apply H. Qed.

Lemma finishes_nil n V : finishes n V [] <-> one_per_weight V.
Proof.
  split.
  - intros (_ & O). intros x y Hx Hy. apply O; [exists x|exists y]; split; auto.
  - intros O. split. constructor. intros x y (x' & Hx & ->) (y' & Hy & ->). simpl. apply O; auto.
Qed.

Lemma lower_bound_0 n V : lower_bound n V 0.
Proof. intros net _. lia. Qed.

Lemma lower_bound_1 n V : ~ one_per_weight V -> lower_bound n V 1.
Proof. intros H [|c net] F; simpl; [|lia]. apply finishes_nil in F. contradiction. Qed.

Lemma optimum_0 n V : one_per_weight V -> optimum n V 0.
Proof. intros H. split. apply lower_bound_0. exists []. split; auto. now apply finishes_nil. Qed.

Lemma finishes_cons n V c net :
  finishes n V (c :: net) <-> cmp_ok n c /\ finishes n (image (exch c) V) net.
Proof.
  split.
  - intros (N & O). inversion N; subst. split; auto. split; auto.
    eapply one_per_weight_same; [apply image_comp|]. exact O.
  - intros (Hc & N & O). split. now constructor.
    eapply one_per_weight_same; [|exact O].
    apply same_set_sym. apply (image_comp (exch c) (run net)).
Qed.

Lemma width_image n V f : (forall x, length x = n -> length (f x) = n) -> width n V -> width n (image f V).
Proof. intros H W y (x & Hx & ->). apply H, W, Hx. Qed.

Lemma width_exch n V c : width n V -> width n (image (exch c) V).
Proof. apply width_image. intros. now rewrite exch_length. Qed.

Lemma width_permute n p V : is_perm n p -> width n (image (permute p) V).
Proof. intros H y (x & _ & ->). rewrite permute_length. now apply is_perm_length. Qed.

(* ---------- symmetry ---------- *)

Lemma finishes_permute n p V net : is_perm n p -> width n V ->
  finishes n (image (permute p) V) net ->
  finishes n V (relabel (fun i => nth i p 0) net).
Proof.
  intros H W (N & O). split. now apply relabel_ok.
  intros y y' (x & Hx & ->) (x' & Hx' & ->) E.
  assert (L := W _ Hx). assert (L' := W _ Hx').
  assert (P : permute p (run (relabel (fun i => nth i p 0) net) x) =
              permute p (run (relabel (fun i => nth i p 0) net) x')).
  { rewrite !(run_permute n) by auto. apply O.
    - exists (permute p x); split; auto. exists x; auto.
    - exists (permute p x'); split; auto. exists x'; auto.
    - rewrite <- !(run_permute n) by auto. rewrite !(permute_weight n); auto; now rewrite run_length. }
  apply (f_equal (permute (inv_perm n p))) in P.
  rewrite !(permute_inv n) in P; auto; now rewrite run_length.
Qed.

Lemma permute_inv_set n p V : is_perm n p -> width n V ->
  same_set (image (permute (inv_perm n p)) (image (permute p) V)) V.
Proof.
  intros H W. eapply same_set_trans; [apply image_comp|]. intros y; split.
  - intros (x & Hx & ->). rewrite (permute_inv n); auto.
  - intros Hy. exists y; split; auto. rewrite (permute_inv n); auto.
Qed.

Lemma lower_bound_permute n p V k : is_perm n p -> width n V ->
  (lower_bound n (image (permute p) V) k <-> lower_bound n V k).
Proof.
  assert (G : forall p V, is_perm n p -> width n V ->
              lower_bound n V k -> lower_bound n (image (permute p) V) k).
  { intros q U H W L net F. rewrite <- (relabel_length (fun i => nth i q 0)). apply L.
    now apply finishes_permute. }
  intros H W. split; [|now apply G].
  intros L. apply (G (inv_perm n p)) in L; [|now apply inv_perm_is_perm|now apply width_permute].
  eapply lower_bound_same; [|exact L]. now apply permute_inv_set.
Qed.

Lemma upper_bound_permute n p V k : is_perm n p -> width n V ->
  (upper_bound n (image (permute p) V) k <-> upper_bound n V k).
Proof.
  assert (G : forall p V, is_perm n p -> width n V ->
              upper_bound n (image (permute p) V) k -> upper_bound n V k).
  { intros q U H W (net & F & L). exists (relabel (fun i => nth i q 0) net). split.
    now apply finishes_permute. now rewrite relabel_length. }
  intros H W. split; [now apply G|].
  intros L. apply (G (inv_perm n p)); [now apply inv_perm_is_perm|now apply width_permute|].
  eapply upper_bound_same; [|exact L]. now apply permute_inv_set.
Qed.

Lemma complement_inj x y : complement x = complement y -> x = y.
Proof. intros E. rewrite <- (complement_involutive x), E. apply complement_involutive. Qed.

Lemma finishes_complement n V net : width n V ->
  finishes n (image complement V) net -> finishes n V (reverse_net net).
Proof.
  intros W (N & O). split. now apply reverse_net_ok.
  assert (R : forall x, V x -> complement (run (reverse_net net) x) = run net (complement x)).
  { intros x Hx. rewrite <- (complement_involutive (run net (complement x))). f_equal.
    rewrite <- (run_complement n) by (auto; rewrite complement_length; auto).
    now rewrite complement_involutive. }
  intros y y' (x & Hx & ->) (x' & Hx' & ->) E.
  apply complement_inj. rewrite !R by auto. apply O.
  - exists (complement x); split; auto; exists x; auto.
  - exists (complement x'); split; auto; exists x'; auto.
  - rewrite <- !R by auto.
    pose proof (weight_complement (run (reverse_net net) x)).
    pose proof (weight_complement (run (reverse_net net) x')).
    rewrite run_length in *. rewrite (W _ Hx) in *. rewrite (W _ Hx') in *. lia.
Qed.

Lemma complement_inv_set V : same_set (image complement (image complement V)) V.
Proof.
  eapply same_set_trans; [apply image_comp|]. intros y; split.
  - intros (x & Hx & ->). now rewrite complement_involutive.
  - intros Hy. exists y; split; auto. now rewrite complement_involutive.
Qed.

Lemma width_complement n V : width n V -> width n (image complement V).
Proof. apply width_image. intros. now rewrite complement_length. Qed.

Lemma lower_bound_complement n V k : width n V ->
  (lower_bound n (image complement V) k <-> lower_bound n V k).
Proof.
  assert (G : forall V, width n V -> lower_bound n V k -> lower_bound n (image complement V) k).
  { intros U W L net F. replace (length net) with (length (reverse_net net)) by apply map_length.
    apply L. now apply finishes_complement. }
  intros W. split; [|now apply G]. intros L. apply G in L; [|now apply width_complement].
  eapply lower_bound_same; [|exact L]. apply complement_inv_set.
Qed.

Lemma upper_bound_complement n V k : width n V ->
  (upper_bound n (image complement V) k <-> upper_bound n V k).
Proof.
  assert (G : forall V, width n V -> upper_bound n (image complement V) k -> upper_bound n V k).
  { intros U W (net & F & L). exists (reverse_net net). split. now apply finishes_complement.
    unfold reverse_net; now rewrite map_length. }
  intros W. split; [now apply G|]. intros L. apply G; [now apply width_complement|].
  eapply upper_bound_same; [|exact L]. apply complement_inv_set.
Qed.

(* the general symmetry of the program: permutation after optional complement *)
Definition sym (inv : bool) (p : list nat) (x : vec) : vec := permute p (complement_if inv x).

Lemma image_id_ext f V : (forall x, f x = x) -> same_set (image f V) V.
Proof. intros H y; split. intros (x & Hx & ->); now rewrite H. intros; exists y; split; auto. Qed.

Lemma sym_split inv p V :
  same_set (image (sym inv p) V) (image (permute p) (image (complement_if inv) V)).
Proof. apply same_set_sym. apply (image_comp (complement_if inv) (permute p)). Qed.

Lemma width_complement_if n b V : width n V -> width n (image (complement_if b) V).
Proof. apply width_image. intros. now rewrite complement_if_length. Qed.

Lemma lower_bound_complement_if n b V k : width n V ->
  (lower_bound n (image (complement_if b) V) k <-> lower_bound n V k).
Proof.
  intros W. destruct b; [now apply lower_bound_complement|].
  split; apply lower_bound_same; [|apply same_set_sym]; now apply image_id_ext.
Qed.

Lemma upper_bound_complement_if n b V k : width n V ->
  (upper_bound n (image (complement_if b) V) k <-> upper_bound n V k).
Proof.
  intros W. destruct b; [now apply upper_bound_complement|].
  split; apply upper_bound_same; [apply same_set_sym|]; now apply image_id_ext.
Qed.

Lemma lower_bound_sym n inv p V k : is_perm n p -> width n V ->
  (lower_bound n (image (sym inv p) V) k <-> lower_bound n V k).
Proof.
  intros H W.
  rewrite <- (lower_bound_complement_if n inv V k W).
  rewrite <- (lower_bound_permute n p (image (complement_if inv) V) k) by (auto using width_complement_if).
  split; apply lower_bound_same; [|apply same_set_sym]; apply sym_split.
Qed.

Lemma upper_bound_sym n inv p V k : is_perm n p -> width n V ->
  (upper_bound n (image (sym inv p) V) k <-> upper_bound n V k).
Proof.
  intros H W.
  rewrite <- (upper_bound_complement_if n inv V k W).
  rewrite <- (upper_bound_permute n p (image (complement_if inv) V) k) by (auto using width_complement_if).
  split; apply upper_bound_same; [apply same_set_sym|]; apply sym_split.
Qed.

Lemma sym_length n inv p x : is_perm n p -> length (sym inv p x) = n.
Proof. intros H. unfold sym. rewrite permute_length. now apply is_perm_length. Qed.

Lemma sym_inverse n inv p x : is_perm n p -> length x = n -> sym inv (inv_perm n p) (sym inv p x) = x.
Proof.
  intros H L. unfold sym.
  rewrite <- (permute_complement_if n inv p) by (auto; rewrite complement_if_length; auto).
  rewrite complement_if_involutive. now apply permute_inv.
Qed.

Lemma sym_inverse' n inv p x : is_perm n p -> length x = n -> sym inv p (sym inv (inv_perm n p) x) = x.
Proof.
  intros H L. unfold sym.
  assert (H' : is_perm n (inv_perm n p)) by now apply inv_perm_is_perm.
  rewrite <- (permute_complement_if n inv (inv_perm n p)) by (auto; rewrite complement_if_length; auto).
  rewrite complement_if_involutive. now apply permute_inv'.
Qed.

Lemma complement_if_comp a b x : complement_if a (complement_if b x) = complement_if (xorb b a) x.
Proof. destruct a, b; simpl; auto using complement_involutive. Qed.

Lemma sym_comp n i p j q x : is_perm n p -> is_perm n q -> length x = n ->
  sym j q (sym i p x) = sym (xorb i j) (comp_perm p q) x.
Proof.
  intros Hp Hq L. unfold sym.
  rewrite <- (permute_complement_if n j p) by (auto; rewrite complement_if_length; auto).
  rewrite complement_if_comp. now apply (permute_comp n).
Qed.

Lemma sym_weight n inv p x : is_perm n p -> length x = n ->
  weight (sym inv p x) = if inv then n - weight x else weight x.
Proof.
  intros H L. unfold sym. rewrite (permute_weight n) by (auto; rewrite complement_if_length; auto).
  destruct inv; simpl; auto. pose proof (weight_complement x). lia.
Qed.

Lemma one_per_weight_sym n inv p V : is_perm n p -> width n V ->
  (one_per_weight (image (sym inv p) V) <-> one_per_weight V).
Proof.
  assert (G : forall p V, is_perm n p -> width n V -> one_per_weight V -> one_per_weight (image (sym inv p) V)).
  { intros q U H W O y y' (x & Hx & ->) (x' & Hx' & ->) E. f_equal. apply O; auto.
    rewrite !(sym_weight n) in E by auto. pose proof (weight_le x). pose proof (weight_le x').
    rewrite (W _ Hx), (W _ Hx') in *. destruct inv; lia. }
  intros H W. split; [|now apply G].
  intros O. apply (G (inv_perm n p)) in O; [|now apply inv_perm_is_perm|].
  - eapply one_per_weight_subset; [|exact O]. intros x Hx. exists (sym inv p x). split.
    exists x; auto. rewrite (sym_inverse n); auto.
  - intros y (x & Hx & ->). now apply sym_length.
Qed.

(* ---------- successors ---------- *)

Definition out_of_order (c : comparator) (V : vset) : Prop :=
  exists x, V x /\ bit x (fst c) = true /\ bit x (snd c) = false.
Definition in_order (c : comparator) (V : vset) : Prop :=
  exists x, V x /\ bit x (fst c) = false /\ bit x (snd c) = true.
Definition nonredundant (c : comparator) (V : vset) : Prop := out_of_order c V /\ in_order c V.

Lemma upper_bound_succ n V c k : cmp_ok n c ->
  upper_bound n (image (exch c) V) k -> upper_bound n V (S k).
Proof.
  intros Hc (net & F & L). exists (c :: net). split. now apply finishes_cons. simpl; lia.
Qed.

Lemma lower_bound_pred n V c k : cmp_ok n c ->
  lower_bound n V k -> lower_bound n (image (exch c) V) (k - 1).
Proof.
  intros Hc L net F. assert (finishes n V (c :: net)) by (now apply finishes_cons).
  specialize (L _ H). simpl in L. lia.
Qed.

Lemma exch_flip c x : cmp_ok (length x) c ->
  exch (snd c, fst c) x = swapv (fst c) (snd c) (exch c x).
Proof.
  intros (H1 & H2 & H3). apply vec_ext; rewrite exch_length, ?swapv_length, ?exch_length; auto.
  intros i Hi. rewrite bit_swapv by now rewrite exch_length.
  rewrite !bit_exch by (repeat split; simpl; auto). simpl. unfold transp.
  destruct (i =? fst c) eqn:E1.
  - rewrite Nat.eqb_refl. apply orb_comm.
  - destruct (i =? snd c) eqn:E2.
    + destruct (fst c =? snd c) eqn:E3. apply Nat.eqb_eq in E3; congruence.
      rewrite Nat.eqb_refl. apply andb_comm.
    + now rewrite E2, E1.
Qed.

Lemma lower_bound_flip n V c k : width n V -> cmp_ok n c ->
  lower_bound n (image (exch (snd c, fst c)) V) k -> lower_bound n (image (exch c) V) k.
Proof.
  intros W (H1 & H2 & H3) L.
  apply (lower_bound_permute n (transp_perm n (fst c) (snd c))); auto using transp_perm_is_perm, width_exch.
  eapply lower_bound_same; [|exact L].
  eapply same_set_trans; [|apply same_set_sym, image_comp].
  apply image_ext. intros x Hx. rewrite exch_flip by (rewrite (W _ Hx); repeat split; auto).
  apply swapv_permute; auto. rewrite exch_length; auto.
Qed.

Section Decidable.
(* The successor argument distinguishes redundant from non-redundant comparators.  The sets of the
   program are finite, so the case split is available constructively. *)
Variable n : nat.

Lemma lower_bound_successors k : forall m V, m < k ->
  width n V ->
  (forall c, cmp_ok n c -> (out_of_order c V \/ ~ out_of_order c V)) ->
  ~ one_per_weight V ->
  (forall i j, i < n -> j < i -> nonredundant (j, i) V ->
               lower_bound n (image (exch (j, i)) V) (k - 1)) ->
  forall net, finishes n V net -> length net = m -> False.
Proof.
  induction m as [|m IH]; intros V Hm W D NO L net F Lm.
  - destruct net; [|discriminate]. apply finishes_nil in F. auto.
  - destruct net as [|c net]; [discriminate|]. simpl in Lm.
    apply finishes_cons in F. destruct F as (Hc & F). pose proof Hc as (H1 & H2 & H3).
    assert (Hrev : cmp_ok n (snd c, fst c)) by (repeat split; simpl; auto).
    destruct (D c Hc) as [Do|Dno].
    + destruct (D (snd c, fst c) Hrev) as [Di|Dni].
      * (* non redundant *)
        destruct Di as (x & Hx & Hb1 & Hb2); simpl in *.
        assert (LB : lower_bound n (image (exch c) V) (k - 1)).
        { destruct (lt_dec (fst c) (snd c)) as [Hlt|Hge].
          - specialize (L (snd c) (fst c) H2 Hlt). replace (fst c, snd c) with c in L by now destruct c.
            apply L. split; auto. exists x; auto.
          - assert (Hlt : snd c < fst c) by lia.
            apply lower_bound_flip; auto. apply L; auto.
            destruct Do as (z & Hz & Hz1 & Hz2). split. exists x; auto. exists z; auto. }
        specialize (LB _ F). lia.
      * (* never in order: acts as a swap *)
        assert (S1 : same_set (image (exch c) V) (image (permute (transp_perm n (fst c) (snd c))) V)).
        { apply image_ext. intros x Hx. rewrite exch_out_of_order.
          - apply swapv_permute; auto.
          - rewrite (W _ Hx); auto.
          - intros Hb. destruct (bit x (fst c)) eqn:E; auto. exfalso. apply Dni. exists x; auto. }
        assert (F' : finishes n (image (permute (transp_perm n (fst c) (snd c))) V) net).
        { eapply finishes_mono; [|exact F]. intros x; apply S1. }
        apply finishes_permute in F'; auto using transp_perm_is_perm.
        apply (IH V ltac:(lia) W D NO L _ F'). rewrite relabel_length. lia.
    + (* never out of order: acts as the identity *)
      assert (S1 : same_set V (image (exch c) V)).
      { intros y; split.
        - intros Hy. exists y; split; auto. symmetry; apply exch_in_order. rewrite (W _ Hy); auto.
          intros Hb. destruct (bit y (snd c)) eqn:E; auto. exfalso. apply Dno. exists y; auto.
        - intros (x & Hx & ->). rewrite exch_in_order; auto. rewrite (W _ Hx); auto.
          intros Hb. destruct (bit x (snd c)) eqn:E; auto. exfalso. apply Dno. exists x; auto. }
      apply (IH V ltac:(lia) W D NO L net); [|lia].
      eapply finishes_mono; [|exact F]. intros x; apply S1.
Qed.
End Decidable.

(* ---------- a set that is not finished has a useful comparator ---------- *)

Lemma unsorted_nonredundant n V x y : width n V -> V x -> V y -> weight x = weight y -> x <> y ->
  exists i j, i < n /\ j < i /\ nonredundant (j, i) V.
Proof.
  intros W Hx Hy E N.
  assert (A : forall u v, length u = n -> length v = n -> weight u = weight v -> u <> v ->
              exists i, i < n /\ bit u i = true /\ bit v i = false).
  { intros u v Lu Lv. revert n v Lu Lv W Hx Hy.
    clear - u. intros n v Lu Lv _ _ _ Ew Nn.
    destruct (existsb (fun i => bit u i && negb (bit v i)) (seq 0 n)) eqn:Ex.
    - apply existsb_exists in Ex. destruct Ex as (i & Hi & Hb). apply in_seq in Hi.
      apply andb_true_iff in Hb. destruct Hb as [Hb1 Hb2]. apply negb_true_iff in Hb2.
      exists i; repeat split; auto; lia.
    - exfalso. apply Nn. apply vle_weight_eq; auto. split; [lia|].
      intros i Hi. destruct (bit v i) eqn:Ev; auto. exfalso.
      assert (Hin : i < n). { destruct (lt_dec i n); auto. rewrite bit_out in Hi by lia. discriminate. }
      assert (existsb (fun i => bit u i && negb (bit v i)) (seq 0 n) = true).
      { apply existsb_exists. exists i. split. apply in_seq; lia. now rewrite Hi, Ev. }
      congruence. }
  destruct (A x y) as (i & Hi & Hi1 & Hi2); auto.
  destruct (A y x) as (j & Hj & Hj1 & Hj2); auto.
  assert (i <> j) by congruence.
  destruct (lt_dec j i).
  - exists i, j. repeat split; auto; [exists y|exists x]; simpl; auto.
  - exists j, i. repeat split; auto; try lia; [exists x|exists y]; simpl; auto.
Qed.

(* ---------- extremal channels ---------- *)

Definition avoids (c : nat) (d : comparator) : Prop := fst d <> c /\ snd d <> c.

(* lower bound for networks that do not touch channel c *)
Definition lower_bound_without (n c : nat) (A : vset) (k : nat) : Prop :=
  forall net, finishes n A net -> Forall (avoids c) net -> k <= length net.

Lemma exch_del n c d x : length x = n -> c < n -> cmp_ok n d -> avoids c d ->
  del c (exch d x) = exch (unskip c (fst d), unskip c (snd d)) (del c x) /\
  cmp_ok (n - 1) (unskip c (fst d), unskip c (snd d)).
Proof.
  intros L Hc (H1 & H2 & H3) (A1 & A2).
  assert (OK : cmp_ok (n - 1) (unskip c (fst d), unskip c (snd d))).
  { repeat split; simpl; try now apply unskip_lt. intros E. apply H3.
    rewrite <- (skip_unskip c (fst d)), <- (skip_unskip c (snd d)); auto. }
  split; auto. apply vec_ext; rewrite ?exch_length, !del_length, ?exch_length by (rewrite ?exch_length; lia); auto.
  intros i Hi. rewrite bit_del. rewrite bit_exch by (rewrite L; repeat split; auto).
  rewrite bit_exch by (rewrite del_length by lia; now rewrite L). simpl.
  rewrite !bit_del, !skip_unskip by auto.
  assert (Q : forall k, k <> c -> (skip c i =? k) = (i =? unskip c k)).
  { intros k Hk. destruct (i =? unskip c k) eqn:E.
    - apply Nat.eqb_eq in E. subst. rewrite skip_unskip by auto. apply Nat.eqb_refl.
    - apply Nat.eqb_neq in E. apply Nat.eqb_neq. intros F. apply E. rewrite <- F. now rewrite unskip_skip. }
  rewrite !Q by auto. auto.
Qed.

Lemma run_del n c net x : length x = n -> c < n -> net_ok n net -> Forall (avoids c) net ->
  del c (run net x) = run (relabel (unskip c) net) (del c x) /\ net_ok (n - 1) (relabel (unskip c) net).
Proof.
  intros L Hc N A. revert x L A; induction N as [|d net Hd N IH]; intros x L A.
  - split; auto. constructor.
  - inversion A; subst. simpl relabel. rewrite !run_cons.
    destruct (exch_del (length x) c d x) as [E1 E2]; auto.
    destruct (IH (exch d x)) as [E3 E4]; auto. now rewrite exch_length.
    rewrite <- E1. split; auto. constructor; auto.
Qed.

Lemma bit_run_avoid n c net x : length x = n -> net_ok n net -> Forall (avoids c) net ->
  bit (run net x) c = bit x c.
Proof.
  intros L N. revert x L; induction N as [|d net Hd N IH]; intros x L A; auto.
  inversion A; subst. rewrite run_cons, IH; auto. 2: now rewrite exch_length.
  rewrite bit_exch by auto. destruct H1 as [A1 A2].
  destruct (c =? snd d) eqn:E. apply Nat.eqb_eq in E; congruence.
  destruct (c =? fst d) eqn:E'. apply Nat.eqb_eq in E'; congruence. auto.
Qed.

Lemma del_inj c x y : c < length x -> c < length y -> bit x c = bit y c -> del c x = del c y -> x = y.
Proof. intros Hx Hy E D. rewrite <- (ins_del c x), <- (ins_del c y); auto. now rewrite E, D. Qed.

Lemma relabel_unskip_ok n c net : c < n -> net_ok n net -> Forall (avoids c) net ->
  net_ok (n - 1) (relabel (unskip c) net).
Proof.
  intros Hc N Av. unfold net_ok, relabel in *. apply Forall_map. rewrite Forall_forall in *.
  intros e He. destruct (N e He) as (G1 & G2 & G3), (Av e He) as (G4 & G5).
  repeat split; simpl; try now apply unskip_lt. intros E. apply G3.
  rewrite <- (skip_unskip c (fst e)), <- (skip_unskip c (snd e)); auto.
Qed.

Lemma lower_bound_del n c A k : c < n -> width n A -> (forall x, A x -> bit x c = true) ->
  lower_bound (n - 1) (image (del c) A) k -> lower_bound_without n c A k.
Proof.
  intros Hc W B L net (N & O) Av.
  rewrite <- (relabel_length (unskip c) net). apply L. split.
  - now apply relabel_unskip_ok.
  - intros y y' (z & (x & Hx & ->) & ->) (z' & (x' & Hx' & ->) & ->) E.
    pose proof (W _ Hx) as Lx. pose proof (W _ Hx') as Lx'.
    destruct (run_del n c net x) as [R1 _]; auto. destruct (run_del n c net x') as [R2 _]; auto.
    rewrite <- R1, <- R2 in *. f_equal. apply O; [exists x; auto|exists x'; auto|].
    pose proof (weight_del c (run net x)) as D1. pose proof (weight_del c (run net x')) as D2.
    rewrite run_length, Lx in D1. rewrite run_length, Lx' in D2.
    rewrite (bit_run_avoid n) in D1, D2 by auto. rewrite B in D1, D2 by auto.
    specialize (D1 Hc). specialize (D2 Hc). lia.
Qed.

(* converse direction, for the upper bound *)
Lemma exch_ins n c d x v : length x = n - 1 -> c < n -> cmp_ok (n - 1) d ->
  exch (skip c (fst d), skip c (snd d)) (ins c v x) = ins c v (exch d x).
Proof.
  intros L Hc (H1 & H2 & H3).
  assert (OK : cmp_ok n (skip c (fst d), skip c (snd d))).
  { repeat split; simpl; try now apply skip_lt. intros E. apply H3.
    rewrite <- (unskip_skip c (fst d)), <- (unskip_skip c (snd d)). now rewrite E. }
  assert (LI : length (ins c v x) = n) by (rewrite ins_length; lia).
  apply del_inj with (c := c).
  - rewrite exch_length; lia.
  - rewrite ins_length, exch_length; lia.
  - rewrite bit_exch by now rewrite LI. simpl.
    destruct (c =? skip c (snd d)) eqn:E. apply Nat.eqb_eq in E; symmetry in E; now apply skip_neq in E.
    destruct (c =? skip c (fst d)) eqn:E'. apply Nat.eqb_eq in E'; symmetry in E'; now apply skip_neq in E'.
    rewrite !bit_ins_eq; auto; rewrite ?exch_length; lia.
  - destruct (exch_del n c (skip c (fst d), skip c (snd d)) (ins c v x)) as [E _]; auto.
    { split; simpl; apply skip_neq. }
    rewrite E. simpl. rewrite !unskip_skip. rewrite !del_ins by (rewrite ?exch_length; lia).
    destruct d; auto.
Qed.

Lemma skip_cmp_ok n c d : c < n -> cmp_ok (n - 1) d -> cmp_ok n (skip c (fst d), skip c (snd d)).
Proof.
  intros Hc (H1 & H2 & H3). repeat split; simpl; try now apply skip_lt. intros E. apply H3.
  rewrite <- (unskip_skip c (fst d)), <- (unskip_skip c (snd d)). now rewrite E.
Qed.

Lemma run_ins n c net x v : length x = n - 1 -> c < n -> net_ok (n - 1) net ->
  run (relabel (skip c) net) (ins c v x) = ins c v (run net x) /\ net_ok n (relabel (skip c) net).
Proof.
  intros L Hc N. revert x L; induction N as [|d net Hd N IH]; intros x L.
  - split; auto; constructor.
  - simpl relabel. rewrite !run_cons, (exch_ins n) by auto.
    destruct (IH (exch d x)) as [E1 E2]. now rewrite exch_length.
    split; auto. constructor; auto. now apply skip_cmp_ok.
Qed.

(* ---------- the Huffman lower bound ---------- *)

(* the vector with a single one, on channel c *)
Definition unit_vec (n c : nat) : vec := map (fun i => i =? c) (seq 0 n).

Lemma unit_vec_length n c : length (unit_vec n c) = n.
Proof. unfold unit_vec. now rewrite map_length, seq_length. Qed.

Lemma bit_unit_vec n c i : c < n -> bit (unit_vec n c) i = (i =? c).
Proof.
  intros H. destruct (lt_dec i n).
  - unfold unit_vec, bit. now rewrite nth_map_seq.
  - rewrite bit_out by (rewrite unit_vec_length; lia). symmetry. apply Nat.eqb_neq. lia.
Qed.

Lemma zero_vec_weight n : weight (repeat false n) = 0.
Proof. induction n; simpl; auto. Qed.

Lemma unit_vec_weight n c : c < n -> weight (unit_vec n c) = 1.
Proof.
  intros H. pose proof (weight_upd (repeat false n) c true) as E. rewrite repeat_length in E.
  specialize (E H). rewrite zero_vec_weight in E.
  assert (B : bit (repeat false n) c = false) by (unfold bit; apply nth_repeat). rewrite B in E. simpl in E.
  replace (unit_vec n c) with (upd (repeat false n) c true). lia.
  apply vec_ext; rewrite upd_length, repeat_length. now rewrite unit_vec_length.
  intros i Hi. rewrite bit_unit_vec by auto. rewrite bit_upd, repeat_length.
  assert (Hc : (c <? n) = true) by now apply Nat.ltb_lt. rewrite Hc, andb_true_r.
  destruct (i =? c); auto. unfold bit; apply nth_repeat.
Qed.

(* a family: distinct channels c, each with a set A of vectors that are 1 on channel c and a bound *)
Definition fam := list (nat * (vset * nat)).

Definition fam_ok (n : nat) (V : vset) (F : fam) : Prop :=
  NoDup (map fst F) /\
  forall c A b, In (c, (A, b)) F ->
    c < n /\ V (unit_vec n c) /\ subset A V /\ (forall x, A x -> bit x c = true) /\
    lower_bound_without n c A b.

Definition kraft (bs : list nat) : nat := fold_right (fun b s => 2 ^ b + s) 0 bs.

Definition fam_sum (F : fam) : nat := kraft (map (fun e => snd (snd e)) F).

Lemma kraft_app a b : kraft (a ++ b) = kraft a + kraft b.
Proof. unfold kraft. induction a; simpl; auto. rewrite IHa; lia. Qed.

Lemma kraft_perm a b : Permutation a b -> kraft a = kraft b.
Proof. unfold kraft. induction 1; simpl; lia. Qed.

Lemma exch_unit n c d : c < n -> cmp_ok n d ->
  exch d (unit_vec n c) =
    if (c =? fst d) then unit_vec n (snd d) else unit_vec n c.
Proof.
  intros Hc Hd. pose proof Hd as (H1 & H2 & H3).
  assert (OK : cmp_ok (length (unit_vec n c)) d) by now rewrite unit_vec_length.
  destruct (c =? fst d) eqn:E.
  - apply Nat.eqb_eq in E. subst c. rewrite exch_out_of_order; auto.
    2:{ intros _. rewrite bit_unit_vec by auto. apply Nat.eqb_refl. }
    apply vec_ext; rewrite swapv_length, !unit_vec_length; auto.
    intros i Hi. rewrite bit_swapv by (rewrite unit_vec_length; auto).
    rewrite !bit_unit_vec by auto. unfold transp.
    destruct (i =? fst d) eqn:E1.
    + apply Nat.eqb_eq in E1. subst. destruct (snd d =? fst d) eqn:E2, (fst d =? snd d) eqn:E3; auto;
      rewrite ?Nat.eqb_eq in *; congruence.
    + destruct (i =? snd d). apply Nat.eqb_refl. auto.
  - apply exch_in_order; auto. rewrite !bit_unit_vec by auto.
    intros F. apply Nat.eqb_eq in F. apply Nat.eqb_neq in E. congruence.
Qed.

(* one comparator: what happens to a single entry *)
Definition step_entry (d : comparator) (e : nat * (vset * nat)) : nat * (vset * nat) :=
  let '(c, (A, b)) := e in
  if c =? fst d then (snd d, (image (exch d) A, b))
  else if c =? snd d then (c, (image (exch d) A, b))
  else (c, (image (exch d) A, b - 1)).

Lemma step_entry_ok n V d c A b c' A' b' :
  width n V -> cmp_ok n d ->
  c < n -> V (unit_vec n c) -> subset A V -> (forall x, A x -> bit x c = true) -> lower_bound_without n c A b ->
  step_entry d (c, (A, b)) = (c', (A', b')) ->
  c' < n /\ image (exch d) V (unit_vec n c') /\ subset A' (image (exch d) V) /\
  (forall x, A' x -> bit x c' = true) /\ lower_bound_without n c' A' b'.
Proof.
  intros W Hd Hc Hu Hs Hb L E. pose proof Hd as (H1 & H2 & H3).
  assert (WA : forall x, A x -> length x = n) by (intros x Hx; apply W, Hs, Hx).
  assert (ES : subset (image (exch d) A) (image (exch d) V)) by now apply image_subset.
  assert (EB : forall x y, image (exch d) A y -> bit y x = bit y x) by auto.
  unfold step_entry in E. destruct (c =? fst d) eqn:E1.
  - apply Nat.eqb_eq in E1. subst c. injection E as <- <- <-.
    repeat split; auto.
    + exists (unit_vec n (fst d)). split; auto. rewrite exch_unit by auto. now rewrite Nat.eqb_refl.
    + intros y (x & Hx & ->). rewrite bit_exch by (rewrite WA; auto). rewrite Nat.eqb_refl.
      now rewrite Hb.
    + (* the comparator swaps every member of A *)
      intros net F Av.
      assert (F' : finishes n (image (permute (transp_perm n (fst d) (snd d))) A) net).
      { eapply finishes_mono; [|exact F]. intros y (x & Hx & ->). exists x; split; auto.
        rewrite exch_out_of_order by (rewrite ?WA; auto). symmetry; apply swapv_permute; auto. }
      apply finishes_permute in F'; auto using transp_perm_is_perm.
      rewrite <- (relabel_length (fun i => nth i (transp_perm n (fst d) (snd d)) 0) net).
      apply L; auto. apply Forall_map. destruct F as [N _]. unfold net_ok in N.
      rewrite Forall_forall in *. intros e He. specialize (Av _ He). specialize (N _ He).
      destruct Av as [A1 A2], N as (N1 & N2 & N3).
      split; simpl; rewrite transp_perm_nth by auto; intros X;
        apply (f_equal (transp (fst d) (snd d))) in X; rewrite transp_invol in X;
        unfold transp in X; rewrite Nat.eqb_refl in X; congruence.
  - destruct (c =? snd d) eqn:E2.
    + apply Nat.eqb_eq in E2. subst c. injection E as <- <- <-.
      repeat split; auto.
      * exists (unit_vec n (snd d)). split; auto. rewrite exch_unit by auto. now rewrite E1.
      * intros y (x & Hx & ->). rewrite bit_exch by (rewrite WA; auto). rewrite Nat.eqb_refl.
        rewrite (Hb x) by auto. now rewrite orb_true_r.
      * intros net F Av. apply L; auto. eapply finishes_mono; [|exact F].
        intros x Hx. exists x; split; auto. symmetry. apply exch_in_order. rewrite WA; auto. auto.
    + injection E as <- <- <-. repeat split; auto.
      * exists (unit_vec n c). split; auto. rewrite exch_unit by auto. now rewrite E1.
      * intros y (x & Hx & ->). rewrite bit_exch by (rewrite WA; auto). now rewrite E2, E1, Hb.
      * intros net F Av. assert (b <= length (d :: net)); [|simpl in *; lia].
        apply L. now apply finishes_cons. constructor; auto.
        apply Nat.eqb_neq in E1, E2. split; congruence.
Qed.

(* remove an entry for channel c, returning its bound *)
Fixpoint take_entry (c : nat) (F : fam) : option ((vset * nat) * fam) :=
  match F with
  | [] => None
  | (c', e) :: r =>
      if c' =? c then Some (e, r)
      else match take_entry c r with
           | Some (e', r') => Some (e', (c', e) :: r')
           | None => None
           end
  end.

Lemma take_entry_Some c F e r : take_entry c F = Some (e, r) -> Permutation F ((c, e) :: r).
Proof.
  revert e r; induction F as [|(c', e') F IH]; intros e r; simpl; [discriminate|].
  destruct (c' =? c) eqn:E.
  - intros X; injection X as <- <-. apply Nat.eqb_eq in E. now subst.
  - destruct (take_entry c F) as [[e2 r2]|]; [|discriminate]. intros X; injection X as <- <-.
    rewrite (IH _ _ eq_refl). apply perm_swap.
Qed.

Lemma take_entry_None c F : take_entry c F = None -> ~ In c (map fst F).
Proof.
  induction F as [|(c', e') F IH]; simpl; auto.
  destruct (c' =? c) eqn:E; [discriminate|]. destruct (take_entry c F) as [[]|]; [discriminate|].
  intros _ [X|X]. apply Nat.eqb_neq in E; congruence. now apply IH.
Qed.

Lemma fam_ok_perm n V F G : Permutation F G -> fam_ok n V F -> fam_ok n V G.
Proof.
  intros P (N & H). split.
  - eapply Permutation_NoDup; [|exact N]. now apply Permutation_map.
  - intros c A b Hin. apply H. eapply Permutation_in; [symmetry; exact P|auto].
Qed.

Lemma fam_sum_perm F G : Permutation F G -> fam_sum F = fam_sum G.
Proof. intros P. unfold fam_sum. apply kraft_perm. now apply Permutation_map. Qed.

(* all entries on channels outside the comparator *)
Lemma fam_step_plain n V d F : width n V -> cmp_ok n d -> fam_ok n V F ->
  ~ In (fst d) (map fst F) ->
  fam_ok n (image (exch d) V) (map (step_entry d) F) /\
  map fst (map (step_entry d) F) = map fst F.
Proof.
  intros W Hd (N & H) Hn.
  assert (E : map fst (map (step_entry d) F) = map fst F).
  { rewrite map_map. apply map_ext_in. intros (c, (A, b)) Hin. simpl.
    destruct (c =? fst d) eqn:E1.
    - apply Nat.eqb_eq in E1. subst. exfalso. apply Hn. apply (in_map fst) in Hin. auto.
    - destruct (c =? snd d); auto. }
  split; auto. split. now rewrite E.
  intros c A b Hin. apply in_map_iff in Hin. destruct Hin as ((c0, (A0, b0)) & E0 & Hin).
  destruct (H _ _ _ Hin) as (G1 & G2 & G3 & G4 & G5). eapply step_entry_ok; eauto.
Qed.

Lemma pow_pred b : 2 ^ b <= 2 * 2 ^ (b - 1).
Proof. destruct b as [|b]; [simpl; lia|]. replace (S b - 1) with b by lia. simpl. lia. Qed.

Lemma fam_sum_cons c A b F : fam_sum ((c, (A, b)) :: F) = 2 ^ b + fam_sum F.
Proof. reflexivity. Qed.

Lemma fam_sum_half d F : fam_sum F <= 2 * fam_sum (map (step_entry d) F).
Proof.
  induction F as [|(c, (A, b)) F IH]; [cbv; lia|].
  rewrite fam_sum_cons. cbn [map]. pose proof (pow_pred b). unfold step_entry at 1.
  destruct (c =? fst d); [|destruct (c =? snd d)]; rewrite fam_sum_cons; lia.
Qed.

Lemma kraft_network n : forall net V F,
  width n V -> finishes n V net -> fam_ok n V F -> fam_sum F <= 2 ^ length net.
Proof.
  induction net as [|d net IH]; intros V F W Fin OK.
  - apply finishes_nil in Fin. simpl.
    destruct F as [|(c, (A, b)) F]; [cbv; lia|].
    destruct OK as (N & H).
    destruct (H c A b (or_introl eq_refl)) as (H1 & H2 & H3 & H4 & H5).
    assert (b = 0).
    { cut (b <= 0); [lia|]. apply (H5 []); [|constructor]. apply finishes_nil.
      eapply one_per_weight_subset; eauto. }
    subst b. destruct F as [|(c', (A', b')) F].
    + cbv; lia.
    + exfalso. destruct (H c' A' b' (or_intror (or_introl eq_refl))) as (K1 & K2 & _).
      assert (E : unit_vec n c = unit_vec n c') by (apply Fin; auto; now rewrite !unit_vec_weight).
      apply (f_equal (fun x => bit x c)) in E. rewrite !bit_unit_vec in E by auto.
      rewrite Nat.eqb_refl in E. symmetry in E. apply Nat.eqb_eq in E. subst c'.
      simpl in N. apply NoDup_cons_iff in N. destruct N as [N _]. apply N. now left.
  - apply finishes_cons in Fin. destruct Fin as (Hd & Fin).
    assert (W' : width n (image (exch d) V)) by now apply width_exch.
    pose proof (IH _ (map (step_entry d) F) W' Fin) as Plain.
    pose proof (fam_sum_half d F) as Half.
    assert (P2 : 2 ^ length (d :: net) = 2 * 2 ^ length net) by (simpl; lia). rewrite P2.
    destruct (take_entry (fst d) F) as [[[A1 b1] R]|] eqn:T1.
    2:{ apply take_entry_None in T1. destruct (fam_step_plain n V d F) as [G _]; auto.
        specialize (Plain G). lia. }
    apply take_entry_Some in T1.
    pose proof (fam_ok_perm _ _ _ _ T1 OK) as OK1.
    rewrite (fam_sum_perm _ _ T1) in *. clear Plain.
    destruct OK1 as (N & H). simpl in N. apply NoDup_cons_iff in N. destruct N as [Nin N].
    destruct (H _ _ _ (or_introl eq_refl)) as (G1 & G2 & G3 & G4 & G5).
    assert (OKR : fam_ok n V R).
    { split; auto. intros c A b Hin. apply H. now right. }
    assert (E1 : step_entry d (fst d, (A1, b1)) = (snd d, (image (exch d) A1, b1))).
    { simpl. now rewrite Nat.eqb_refl. }
    pose proof (step_entry_ok n V d _ _ _ _ _ _ W Hd G1 G2 G3 G4 G5 E1) as S1.
    destruct (take_entry (snd d) R) as [[[A2 b2] R2]|] eqn:T2.
    + apply take_entry_Some in T2.
      pose proof (fam_ok_perm _ _ _ _ T2 OKR) as OK2.
      destruct OK2 as (N2 & H2). simpl in N2. apply NoDup_cons_iff in N2. destruct N2 as [Nin2 N2].
      destruct (H2 _ _ _ (or_introl eq_refl)) as (K1 & K2 & K3 & K4 & K5).
      assert (E2 : step_entry d (snd d, (A2, b2)) = (snd d, (image (exch d) A2, b2))).
      { simpl. destruct Hd as (_ & _ & Hd). destruct (snd d =? fst d) eqn:X.
        apply Nat.eqb_eq in X; congruence. now rewrite Nat.eqb_refl. }
      pose proof (step_entry_ok n V d _ _ _ _ _ _ W Hd K1 K2 K3 K4 K5 E2) as S2.
      assert (OKR2 : fam_ok n V R2).
      { split; auto. intros c A b Hin. apply H2. now right. }
      assert (Nin' : ~ In (fst d) (map fst R2)).
      { intros X. apply Nin. apply (Permutation_in (l := map fst ((snd d, (A2, b2)) :: R2))).
        symmetry. now apply Permutation_map. simpl. now right. }
      destruct (fam_step_plain n V d R2) as [GR ER]; auto.
      assert (Both : forall A b, (A, b) = (image (exch d) A1, b1) \/ (A, b) = (image (exch d) A2, b2) ->
               2 ^ b + fam_sum (map (step_entry d) R2) <= 2 ^ length net).
      { intros A b HAb. rewrite <- (fam_sum_cons (snd d) A b).
        apply (IH (image (exch d) V)); auto. split.
        - simpl map. rewrite ER. constructor; auto.
        - intros c A' b' [X|X].
          + injection X as <- <- <-. destruct HAb as [X|X]; injection X as -> ->; auto.
          + destruct GR as [_ GR]. now apply GR. }
      rewrite (fam_sum_cons (fst d) A1 b1) in *. rewrite (fam_sum_perm _ _ T2) in *.
      rewrite fam_sum_cons in *.
      pose proof (fam_sum_half d R2).
      pose proof (Both _ _ (or_introl eq_refl)). pose proof (Both _ _ (or_intror eq_refl)). lia.
    + apply take_entry_None in T2.
      destruct (fam_step_plain n V d R) as [GR ER]; auto.
      assert (fam_ok n (image (exch d) V) (map (step_entry d) ((fst d, (A1, b1)) :: R))).
      { simpl map. rewrite Nat.eqb_refl. split.
        - simpl. rewrite ER. constructor; auto.
        - intros c A b [X|X]. injection X as <- <- <-. auto. destruct GR as [_ GR]. now apply GR. }
      pose proof (IH _ _ W' Fin H0).
      pose proof (fam_sum_half d ((fst d, (A1, b1)) :: R)). lia.
Qed.

(* Extremal channels: entries (c, P, b): the unit vector of channel c is in V, P is the set of
   n-1 channel vectors obtained from some members of V that are 1 on channel c, and P needs b. *)
Lemma huffman_lower_bound n V (E : list (nat * (vset * nat))) B :
  width n V ->
  NoDup (map fst E) ->
  (forall c P b, In (c, (P, b)) E ->
     c < n /\ V (unit_vec n c) /\
     (forall y, P y -> length y = n - 1 /\ V (ins c true y)) /\ lower_bound (n - 1) P b) ->
  (forall k, kraft (map (fun e => snd (snd e)) E) <= 2 ^ k -> B <= k) ->
  lower_bound n V B.
Proof.
  intros W N H HB net F. apply HB.
  set (E' := map (fun e : nat * (vset * nat) =>
      (fst e, ((fun x => exists y, fst (snd e) y /\ x = ins (fst e) true y), snd (snd e)))) E).
  assert (S1 : fam_sum E' = kraft (map (fun e => snd (snd e)) E)).
  { unfold fam_sum, E'. now rewrite map_map. }
  rewrite <- S1. apply (kraft_network n net V E'); auto. split.
  - unfold E'. rewrite map_map. simpl. exact N.
  - intros c A b Hin. unfold E' in Hin. apply in_map_iff in Hin.
    destruct Hin as ((c0, (P0, b0)) & X & Hin). simpl in X. injection X as <- <- <-.
    destruct (H _ _ _ Hin) as (G1 & G2 & G3 & G4). repeat split; auto.
    + intros x (y & Hy & ->). now apply G3.
    + intros x (y & Hy & ->). apply bit_ins_eq. destruct (G3 _ Hy). lia.
    + apply lower_bound_del; auto.
      * intros x (y & Hy & ->). apply W. now apply G3.
      * intros x (y & Hy & ->). apply bit_ins_eq. destruct (G3 _ Hy). lia.
      * eapply lower_bound_mono; [|exact G4]. intros y Hy. exists (ins c0 true y). split.
        exists y; auto. rewrite del_ins; auto. destruct (G3 _ Hy). lia.
Qed.
