(* Canonicalize::new of output_set/canon.rs and the whole canonicalization. *)
From Coq Require Import List Arith Bool Lia Permutation.
Import ListNotations.
From Verif Require Import Spec Vec Net Bits Util OutputSetModel OutputSetProofs CountProofs SubsumeModel SubsumeProofs SubsumeSearch CanonModel CanonBits CanonParts CanonProofs CanonSteps CanonLoop.

(* ---------- unconstrained channels under relabelling ---------- *)

Lemma permute_upd n p x c v : is_perm n p -> length x = n -> c < n -> permute p (upd x (nth c p 0) v) = upd (permute p x) c v.
Proof.
  intros P L Hc. pose proof (is_perm_length _ _ P) as Lp. apply vec_ext; rewrite ?upd_length, !permute_length; auto.
  rewrite Lp. intros i Hi. rewrite bit_permute by lia. unfold bit. rewrite !upd_nth.
  rewrite permute_length, Lp, L. pose proof (is_perm_nth _ _ _ P Hi) as H1. pose proof (is_perm_nth _ _ _ P Hc) as H2.
  apply Nat.ltb_lt in H2. rewrite H2. apply Nat.ltb_lt in Hc as Hc'. rewrite Hc', !andb_true_r.
  destruct (Nat.eqb_spec i c) as [->|Ne]. now rewrite Nat.eqb_refl.
  destruct (Nat.eqb_spec (nth i p 0) (nth c p 0)) as [E|_]. apply (is_perm_inj n p) in E; auto. congruence.
  symmetry. apply bit_permute. lia.
Qed.

Lemma unc_relabel p s t c : relabelled p s t -> c < channels s ->
  is_channel_unconstrained t c = is_channel_unconstrained s (nth c p 0).
Proof.
  intros R Hc. pose proof R as (Ws & Wt & C & P & S). pose proof (is_perm_nth _ _ _ P Hc) as Hp.
  apply eq_true_iff_eq. rewrite !is_channel_unconstrained_spec by (auto; lia). split; intros H.
  - intros x v Hx. pose proof Hx as (L & _). apply (relabelled_mem p s t (upd x (nth c p 0) v)); auto. now rewrite upd_length.
    rewrite (permute_upd (channels s)) by auto. apply H. now apply (relabelled_mem p s t).
  - intros y v Hy. apply S in Hy. destruct Hy as (x & Hx & ->). pose proof Hx as (L & _). rewrite <- (permute_upd (channels s)) by auto.
    apply (relabelled_mem p s t); auto. now rewrite upd_length.
Qed.

Lemma complement_upd x c v : c < length x -> complement (upd x c v) = upd (complement x) c (negb v).
Proof.
  intros H. apply vec_ext; rewrite ?upd_length, ?complement_length, ?upd_length; auto. intros i Hi.
  unfold bit, complement. rewrite upd_nth, map_length.
  rewrite nth_indep with (d' := negb false) by (rewrite map_length, upd_length; auto). rewrite map_nth, upd_nth.
  apply Nat.ltb_lt in H. rewrite H, andb_true_r. destruct (i =? c); auto. rewrite <- (map_nth negb). apply nth_indep. now rewrite map_length.
Qed.

Lemma unc_invert s c : wf s -> c < channels s -> is_channel_unconstrained (invert s) c = is_channel_unconstrained s c.
Proof.
  intros W Hc. pose proof (invert_wf s W) as Wi. apply eq_true_iff_eq. rewrite !is_channel_unconstrained_spec by auto. split; intros H.
  - intros x v Hx. pose proof Hx as (L & _). apply invert_mem; auto. now rewrite upd_length. rewrite complement_upd by lia. apply H. now apply invert_mem.
  - intros y v Hy. apply invert_vs in Hy; auto. destruct Hy as (x & Hx & ->). pose proof Hx as (L & _). apply invert_vs; auto. exists (upd x c (negb v)). split; auto.
    rewrite complement_upd by lia. now rewrite negb_involutive.
Qed.

(* membership only depends on the constrained channels *)
Lemma unc_agree n u s : wf s -> channels s = n -> (forall c, u <= c < n -> is_channel_unconstrained s c = true) ->
  forall x y, length x = n -> length y = n -> (forall i, i < u -> i < n -> bit x i = bit y i) -> vs s x -> vs s y.
Proof.
  intros W C U x y Lx Ly A Hx.
  assert (G : forall k, u + k <= n \/ k = 0 -> exists z, vs s z /\ length z = n /\ (forall i, i < u + k -> i < n -> bit z i = bit y i) /\ True).
  { induction k as [|k IH]; intros Hk.
    - exists x. repeat split; auto; try apply Hx. intros i Hi. apply A. lia.
    - destruct IH as (z & Hz & Lz & Az & _); [lia|]. exists (upd z (u + k) (bit y (u + k))). split; [|split; [|split; auto]].
      + apply is_channel_unconstrained_spec; auto. lia. apply U. lia.
      + now rewrite upd_length.
      + intros i Hi Hn. unfold bit at 1. rewrite upd_nth. destruct (Nat.eqb_spec i (u + k)) as [->|Ne]; simpl.
        * assert (u + k < length z) by lia. apply Nat.ltb_lt in H. now rewrite H.
        * apply Az; lia. }
  destruct (le_lt_dec n u) as [Hnu|Hnu].
  - assert (x = y); [|congruence]. apply vec_ext; [lia|]. intros i Hi. apply A; lia.
  - destruct (G (n - u)) as (z & Hz & Lz & Az & _); [lia|]. assert (z = y); [|congruence]. apply vec_ext; [lia|]. intros i Hi. apply Az; lia.
Qed.

(* ---------- new ---------- *)

Section New.
Variable n : nat.
Variable s : OutputSet.
Hypothesis Ws : wf s.
Hypothesis Cs : channels s = n.

Definition NewInv (c : nat) (st : nat * OutputSet * list nat) : Prop :=
  let '(used, t, p) := st in
  c <= used <= n /\ relabelled p s t /\ (forall i, used <= i < n -> is_channel_unconstrained t i = true) /\
  (forall i, c <= i < used -> is_channel_unconstrained t i = false).

Lemma new_step c st : S c <= n -> NewInv (S c) st -> NewInv c (move_unconstrained st c).
Proof.
  destruct st as ((used & t) & p). intros Hc (H1 & R & U & K). unfold move_unconstrained.
  destruct (is_channel_unconstrained t c) eqn:E; cbn [NewInv].
  - assert (Rs : relabelled (swap_list p c (used - 1)) s (swap_channels t c (used - 1))) by (apply (swap_relabelled n); auto; lia).
    pose proof R as (_ & Wt & Ct & _ & _). rewrite Cs in Ct.
    pose proof (relabelled_swap n n (le_n n) t c (used - 1) Wt Ct ltac:(lia) ltac:(lia)) as Rt.
    assert (G : forall i, i < n -> is_channel_unconstrained (swap_channels t c (used - 1)) i = is_channel_unconstrained t (transp c (used - 1) i)).
    { intros i Hi. rewrite (unc_relabel _ _ _ i Rt) by lia. now rewrite transp_perm_nth. }
    split; [lia|]. split; auto. split.
    + intros i Hi. rewrite G by lia. unfold transp. destruct (Nat.eqb_spec i c) as [->|]. assert (used - 1 = c) by lia. now rewrite H.
      destruct (Nat.eqb_spec i (used - 1)); auto. apply U. lia.
    + intros i Hi. rewrite G by lia. unfold transp. destruct (Nat.eqb_spec i c) as [->|]. apply K. lia.
      destruct (Nat.eqb_spec i (used - 1)); [lia|]. apply K. lia.
  - split; [lia|]. split; auto. split; auto. intros i Hi. destruct (Nat.eq_dec i c) as [->|]; auto. apply K. lia.
Qed.

Lemma new_fold : NewInv 0 (fold_left move_unconstrained (rev (seq 0 n)) (n, s, seq 0 n)).
Proof.
  assert (G : forall k st, k <= n -> NewInv k st -> NewInv 0 (fold_left move_unconstrained (rev (seq 0 k)) st)).
  { induction k as [|k IH]; intros st Hk H; auto. rewrite seq_S, rev_app_distr. simpl rev. cbn [app fold_left]. apply IH. lia. apply new_step; auto. }
  apply G; auto. cbn [NewInv]. split; [lia|]. split. apply (relabelled_id n n (le_n n)); auto. split; intros; lia.
Qed.

End New.

(* relabelling that fixes the unconstrained channels *)
Lemma relabelled_of_mem n p s t : wf s -> wf t -> channels s = n -> channels t = n -> is_perm n p ->
  (forall x, length x = n -> (vs t (permute p x) <-> vs s x)) -> relabelled p s t.
Proof.
  intros Ws Wt Cs Ct P H. unfold relabelled. rewrite Cs. split; auto. split; auto. split; auto. split; auto. intros y. split.
  - intros Hy. assert (Ly : length y = n) by (destruct Hy; lia). exists (permute (inv_perm n p) y).
    assert (E : permute p (permute (inv_perm n p) y) = y) by now apply permute_inv'. split; auto. apply H. rewrite permute_length. apply inv_perm_length. now rewrite E.
  - intros (x & Hx & ->). apply H; auto. destruct Hx; lia.
Qed.

Lemma used_unique n p s t u1 u2 : channels s = n -> relabelled p s t -> u1 <= n -> u2 <= n ->
  (forall i, u1 <= i < n -> is_channel_unconstrained s i = true) -> (forall i, i < u1 -> is_channel_unconstrained s i = false) ->
  (forall i, u2 <= i < n -> is_channel_unconstrained t i = true) -> (forall i, i < u2 -> is_channel_unconstrained t i = false) -> u1 = u2.
Proof.
  intros Cs R H1 H2 A1 B1 A2 B2. pose proof R as (_ & _ & _ & P & _). rewrite Cs in P.
  assert (F : forall u w, u <= n -> (forall i, u <= i < n -> is_channel_unconstrained w i = true) -> (forall i, i < u -> is_channel_unconstrained w i = false) ->
     length (filter (fun i => is_channel_unconstrained w i) (seq 0 n)) = n - u).
  { intros u w Hu A B. replace n with (u + (n - u)) at 1 by lia. rewrite seq_app, filter_app, app_length.
    assert (E1 : filter (fun i => is_channel_unconstrained w i) (seq 0 u) = []).
    { assert (X : forall l, (forall i, In i l -> is_channel_unconstrained w i = false) -> filter (fun i => is_channel_unconstrained w i) l = []).
      { induction l as [|a l IH]; simpl; intros H; auto. rewrite H by auto. apply IH. auto. }
      apply X. intros i Hi. apply in_seq in Hi. apply B. lia. }
    rewrite E1, filter_all. now rewrite seq_length. intros i Hi. apply in_seq in Hi. apply A. lia. }
  pose proof (F u1 s H1 A1 B1) as F1. pose proof (F u2 t H2 A2 B2) as F2.
  assert (E : length (filter (fun i => is_channel_unconstrained t i) (seq 0 n)) = length (filter (fun i => is_channel_unconstrained s i) (seq 0 n))).
  { assert (Pm : Permutation (map (fun c => nth c p 0) (filter (fun i => is_channel_unconstrained t i) (seq 0 n))) (filter (fun i => is_channel_unconstrained s i) (seq 0 n))).
    { apply NoDup_Permutation.
      - apply NoDup_map_on. apply NoDup_filter, seq_NoDup. intros x y Hx Hy. apply filter_In in Hx, Hy. destruct Hx as (Hx & _), Hy as (Hy & _). apply in_seq in Hx, Hy. apply (is_perm_inj n p); auto; lia.
      - apply NoDup_filter, seq_NoDup.
      - intros y. rewrite in_map_iff, filter_In, in_seq. split.
        + intros (x & <- & Hx). apply filter_In in Hx. destruct Hx as (Hx & Ex). apply in_seq in Hx. rewrite <- (unc_relabel p s t x R) by lia. split; auto.
          pose proof (is_perm_nth n p x P ltac:(lia)). lia.
        + intros (Hy & Ey). destruct (is_perm_surj n p y P ltac:(lia)) as (x & Hx & E). exists x. split; auto. apply filter_In. rewrite in_seq. split; [lia|].
          rewrite (unc_relabel p s t x R) by lia. now rewrite E. }
    rewrite <- (Permutation_length Pm). now rewrite map_length. }
  lia.
Qed.

Lemma relabelled_fix n u p s t : channels s = n -> relabelled p s t -> u <= n ->
  (forall i, u <= i < n -> is_channel_unconstrained s i = true) -> (forall i, i < u -> is_channel_unconstrained s i = false) ->
  (forall i, u <= i < n -> is_channel_unconstrained t i = true) -> (forall i, i < u -> is_channel_unconstrained t i = false) ->
  exists q, srel n u 0 q s t.
Proof.
  intros Cs R Hu A1 B1 A2 B2. pose proof R as (Ws & Wt & Ct & P & _). rewrite Cs in P, Ct.
  assert (Lo : forall i, i < u -> nth i p 0 < u).
  { intros i Hi. destruct (le_lt_dec u (nth i p 0)) as [H|H]; auto. exfalso. pose proof (is_perm_nth n p i P ltac:(lia)).
    pose proof (A1 (nth i p 0) ltac:(lia)) as X. rewrite <- (unc_relabel p s t i R) in X by lia. rewrite B2 in X by auto. discriminate. }
  set (q := map (fun i => if i <? u then nth i p 0 else i) (seq 0 n)).
  assert (Qn : forall i, i < n -> nth i q 0 = if i <? u then nth i p 0 else i) by (intros i Hi; unfold q; now rewrite nth_map_seq).
  assert (Lq : length q = n) by (unfold q; now rewrite map_length, seq_length).
  assert (Q : is_perm n q).
  { apply is_perm_intro; auto.
    - apply NoDup_nth with (d := 0). rewrite Lq. intros i j Hi Hj. rewrite !Qn by auto.
      destruct (Nat.ltb_spec i u), (Nat.ltb_spec j u); intros E; auto.
      + apply (is_perm_inj n p); auto.
      + pose proof (Lo i H). lia.
      + pose proof (Lo j H0). lia.
    - intros i Hi. apply (In_nth _ _ 0) in Hi. destruct Hi as (j & Hj & <-). rewrite Lq in Hj. rewrite Qn by auto. destruct (Nat.ltb_spec j u); auto. now apply is_perm_nth. }
  exists q. split; auto. split; [split; auto|].
  - intros i Hi [H|H]; [lia|]. rewrite Qn by auto. destruct (Nat.ltb_spec i u); auto. lia.
  - apply (relabelled_of_mem n); auto. intros x Lx. rewrite <- (relabelled_mem p s t x R) by lia.
    assert (E : forall i, i < u -> i < n -> bit (permute q x) i = bit (permute p x) i).
    { intros i Hi Hn. rewrite !bit_permute by (rewrite ?Lq, ?(is_perm_length _ _ P); auto). rewrite Qn by auto. apply Nat.ltb_lt in Hi. now rewrite Hi. }
    split; apply (unc_agree n u t Wt Ct A2); rewrite ?permute_length, ?(is_perm_length _ _ P), ?Lq; auto.
    intros i Hi Hn. symmetry. auto.
Qed.

(* ---------- the whole run ---------- *)

Definition flip (z : bool) (s : OutputSet) : OutputSet := if z then invert s else s.

Lemma flip_wf z s : wf s -> wf (flip z s). Proof. destruct z; simpl; auto. apply invert_wf. Qed.
Lemma flip_channels z s : channels (flip z s) = channels s. Proof. now destruct z. Qed.
Lemma flip_mem z s x : wf s -> length x = channels s -> (vs (flip z s) (complement_if z x) <-> vs s x).
Proof. destruct z; simpl; intros. now apply invert_mem. tauto. Qed.
Lemma flip_unc z s c : wf s -> c < channels s -> is_channel_unconstrained (flip z s) c = is_channel_unconstrained s c.
Proof. destruct z; simpl; auto. apply unc_invert. Qed.
Lemma flip_flip a b s : flip a (flip b s) = flip (xorb a b) s.
Proof. destruct a, b; simpl; auto. apply invert_involutive. Qed.
Lemma complement_if_length z x : length (complement_if z x) = length x.
Proof. destruct z; simpl; auto. apply complement_length. Qed.
Lemma complement_if_invol z x : complement_if z (complement_if z x) = x.
Proof. destruct z; simpl; auto. apply complement_involutive. Qed.

Lemma relabelled_flip z p s t : relabelled p s t -> relabelled p (flip z s) (flip z t).
Proof.
  intros R. pose proof R as (Ws & Wt & C & P & _).
  apply (relabelled_of_mem (channels s)); rewrite ?flip_channels; auto using flip_wf.
  intros x L. rewrite <- (complement_if_invol z x). set (y := complement_if z x). assert (Ly : length y = channels s) by (unfold y; now rewrite complement_if_length).
  rewrite (permute_complement_if (channels s)) by auto. rewrite !flip_mem; auto. now apply (relabelled_mem p). rewrite permute_length, C. now apply is_perm_length.
Qed.

Lemma CW_flip n inv z s t p : wf s -> channels s = n -> relabelled p s t -> (z = true -> inv = true) ->
  forall c, c_set c = flip z t -> c_perm c = p -> c_invert c = z -> CW n inv s c.
Proof.
  intros Ws Cs R Hz c E1 E2 E3. pose proof R as (_ & Wt & C & P & _). unfold CW. rewrite E1, E2, E3, flip_channels. rewrite Cs in *.
  split. now apply flip_wf. split; auto. split; auto. split; auto.
  intros y. split.
  - intros Hy. assert (Ly : length y = n) by (destruct Hy as (L & _); rewrite flip_channels in L; lia).
    rewrite <- (complement_if_invol z y) in Hy. apply flip_mem in Hy; auto. 2:{ rewrite complement_if_length; lia. }
    apply R in Hy. destruct Hy as (x & Hx & Ex). exists x. split; auto. assert (length x = n) by (destruct Hx; lia).
    rewrite (permute_complement_if n) by auto. rewrite <- Ex. now rewrite complement_if_invol.
  - intros (x & Hx & ->). assert (L : length x = n) by (destruct Hx; lia). rewrite (permute_complement_if n) by auto. apply flip_mem; auto.
    rewrite permute_length, C. now apply is_perm_length. now apply (relabelled_mem p s t); [|lia|].
Qed.

(* what new returns *)
Lemma canon_new_spec n s inv : wf s -> channels s = n -> exists u t p L, canon_new s inv = mkCanonicalize u 0 L /\ u <= n /\ relabelled p s t /\
  (forall i, u <= i < n -> is_channel_unconstrained t i = true) /\ (forall i, i < u -> is_channel_unconstrained t i = false) /\
  (forall c, In c L -> c_part c = [] /\ c_fp c = [] /\ CW n inv s c /\ exists z, c_set c = flip z t /\ (z = true -> inv = true)) /\
  (forall z, (z = true -> inv = true) -> exists c, In c L /\ c_set c = flip z t) /\ L <> [].
Proof.
  intros Ws Cs. pose proof (new_fold n s Ws Cs) as H. unfold canon_new. rewrite Cs.
  destruct (fold_left move_unconstrained (rev (seq 0 n)) (n, s, seq 0 n)) as ((u & t) & p). cbn [NewInv] in H. destruct H as (H1 & R & U & K).
  pose proof R as (_ & Wt & Ct & _ & _).
  assert (HC : forall z, (z = true -> inv = true) -> CW n inv s (mkCand (flip z t) p z [] [] (0, 0))) by (intros z Hz; now apply (CW_flip n inv z s t p)).
  eexists u, t, p, _. split; [reflexivity|]. split; [lia|]. split; auto. split; auto. split. { intros; apply K; lia. }
  destruct inv; cbn [andb].
  - destruct (os_eqb (invert t) t) eqn:E; cbn [negb].
    + apply os_eqb_bitmap in E. assert (Ei : invert t = t) by (apply os_same; auto).
      split; [|split; [|discriminate]].
      * intros c [<-|[]]. split; auto. split; auto. split. apply (HC false). discriminate. exists false. split; auto.
      * intros z _. eexists. split; [left; reflexivity|]. destruct z; simpl; auto.
    + split; [|split; [|discriminate]].
      * intros c [<-|[<-|[]]]; (split; [auto; fail|]); (split; [auto; fail|]).
        split. apply (HC false). discriminate. exists false. split; auto. split. apply (HC true). auto. exists true. split; auto.
      * intros [|] _; eexists; split. right; left; reflexivity. reflexivity. left; reflexivity. reflexivity.
  - split; [|split; [|discriminate]].
    + intros c [<-|[]]. split; auto. split; auto. split. apply (HC false). discriminate. exists false. split; auto.
    + intros [|] Hz. now specialize (Hz eq_refl). eexists. split; [left; reflexivity|]. reflexivity.
Qed.

Lemma iso_relabelled n z q s t : wf s -> wf t -> channels s = n -> channels t = n -> is_perm n q -> isomorphic_by z q (vs s) (vs t) ->
  relabelled q (flip z s) t.
Proof.
  intros Ws Wt Cs Ct Q Iso. apply (relabelled_of_mem n); rewrite ?flip_channels; auto using flip_wf.
  intros x L. rewrite <- (complement_if_invol z x). set (y := complement_if z x). assert (Ly : length y = n) by (unfold y; now rewrite complement_if_length).
  rewrite flip_mem by (auto; lia). split.
  - intros H. apply Iso in H. destruct H as (w & Hw & E). assert (Lw : length w = n) by (destruct Hw; lia).
    apply (permute_inj n) in E; auto; rewrite ?complement_if_length; auto.
    rewrite <- (complement_if_invol z y), E, complement_if_invol. auto.
  - intros H. apply Iso. exists y. auto.
Qed.

Lemma relabelled_inv n p s t : channels s = n -> relabelled p s t -> relabelled (inv_perm n p) t s.
Proof.
  intros Cs (Ws & Wt & C & P & S). rewrite Cs in *. apply (relabelled_of_mem n); auto. now apply inv_perm_is_perm.
  intros x L. rewrite <- (permute_inv' n p x) at 2 by auto. symmetry. apply (relabelled_mem p s t). unfold relabelled. rewrite Cs. auto.
  rewrite permute_length, Cs. apply inv_perm_length.
Qed.

Theorem canon_both n hash s1 s2 inv z q : wf s1 -> wf s2 -> channels s1 = n -> channels s2 = n -> n <= MAX_CHANNELS -> 0 < n ->
  is_perm n q -> isomorphic_by z q (vs s1) (vs s2) -> (z = true -> inv = true) ->
  exists c1 c2, canon_run hash (canon_new s1 inv) = Some c1 /\ canon_run hash (canon_new s2 inv) = Some c2 /\
    CW n inv s1 c1 /\ CW n inv s2 c2 /\ c_set c1 = c_set c2.
Proof.
  intros W1 W2 C1 C2 Hn N0 Q Iso Hz.
  destruct (canon_new_spec n s1 inv W1 C1) as (u & t1 & p1 & L1 & E1 & Hu & R1 & U1 & K1 & I1 & J1 & N1).
  destruct (canon_new_spec n s2 inv W2 C2) as (u' & t2 & p2 & L2 & E2 & Hu' & R2 & U2 & K2 & I2 & J2 & N2).
  rewrite E1, E2. pose proof R1 as (_ & Wt1 & Ct1 & _ & _). pose proof R2 as (_ & Wt2 & Ct2 & _ & _). rewrite C1 in Ct1. rewrite C2 in Ct2.
  assert (exists p, relabelled p (flip z t1) t2) as (p & R).
  { exists (comp_perm (comp_perm (inv_perm n p1) q) p2).
    apply (relabelled_trans n (comp_perm (inv_perm n p1) q) p2 (flip z t1) s2 t2); rewrite ?flip_channels; auto.
    apply (relabelled_trans n (inv_perm n p1) q (flip z t1) (flip z s1) s2); rewrite ?flip_channels; auto.
    - apply relabelled_flip. now apply relabelled_inv.
    - now apply (iso_relabelled n). }
  assert (Uf : forall zz c, c < n -> is_channel_unconstrained (flip zz t1) c = is_channel_unconstrained t1 c) by (intros; apply flip_unc; auto; lia).
  assert (Eu : u' = u).
  { symmetry. apply (used_unique n p (flip z t1) t2 u u'); rewrite ?flip_channels; auto; intros i Hi; rewrite Uf by lia; auto. }
  subst u'.
  destruct (relabelled_fix n u p (flip z t1) t2) as (sg & S0); rewrite ?flip_channels; auto.
  { intros i Hi. rewrite Uf by lia. auto. } { intros i Hi. rewrite Uf by lia. auto. }
  assert (SR : forall zz, srel n u 0 sg (flip (xorb zz z) t1) (flip zz t2)).
  { intros zz. rewrite <- flip_flip. destruct S0 as (A & B & C). split. now rewrite flip_channels. split; auto. now apply relabelled_flip. }
  assert (Hx : forall a b, (a = true -> inv = true) -> (b = true -> inv = true) -> (xorb a b = true -> inv = true)) by (intros [] [] X Y; simpl; auto).
  assert (P : Pair n u s1 s2 inv 0 L1 L2).
  { constructor; auto.
    - intros c Hc. apply I1; auto.
    - intros c Hc. apply I2; auto.
    - intros c Hc. destruct (I1 c Hc) as (_ & _ & _ & (zz & Ez & Hzz)). destruct (J2 (xorb zz z) (Hx _ _ Hzz Hz)) as (d & Hd & Ed).
      exists d, sg. split; auto. rewrite Ed, Ez. replace zz with (xorb (xorb zz z) z) at 1 by (rewrite xorb_assoc, xorb_nilpotent; apply xorb_false_r). apply SR.
    - intros d Hd. destruct (I2 d Hd) as (_ & _ & _ & (zz & Ez & Hzz)). destruct (J1 (xorb zz z) (Hx _ _ Hzz Hz)) as (c & Hc & Ec).
      exists c, sg. split; auto. rewrite Ec, Ez. apply SR. }
  unfold canon_run. cbn [z_used]. destruct (Nat.ltb_spec 0 u) as [H0|H0].
  - unfold initialize_partitions. cbn [z_used z_fixed z_layer].
    destruct (initialize_step n u s1 s2 inv Hu Hn L1 L2 H0 P) as (L1' & L2' & M1 & M2 & I & Fr).
    { intros c [Hc|Hc]. destruct (I1 c Hc) as (A & B & _). auto. destruct (I2 c Hc) as (A & B & _). auto. }
    rewrite M1, M2. cbn [option_map bind].
    destruct (loop_ok n u hash s1 s2 inv Hu Hn (S u) 0 L1' L2' I Fr H0 ltac:(lia)) as (c1 & c2 & F1 & F2 & G1 & G2 & G3).
    rewrite F1, F2. cbn [bind z_layer]. exists c1, c2. auto.
  - assert (u = 0) by lia. subst u. cbn [bind z_layer].
    assert (Inv : forall t, wf t -> channels t = n -> (forall i, 0 <= i < n -> is_channel_unconstrained t i = true) -> forall a, flip a t = t).
    { intros t Wt Ct Ut [|]; auto. simpl. apply os_ext; auto using invert_wf. intros y.
      assert (X : forall x y, length x = n -> length y = n -> vs t x -> vs t y) by (intros x y' Lx Ly; apply (unc_agree n 0 t); auto; intros; lia).
      split; intros Hy; assert (Ly : length y = n) by (destruct Hy as (Ly & _); simpl in Ly; lia).
      - apply invert_vs in Hy; auto. destruct Hy as (x & Hx' & ->). rewrite complement_length in Ly. apply (X x); auto. now rewrite complement_length.
      - rewrite <- (complement_involutive y). apply invert_mem; auto. rewrite complement_length; lia. apply (X y); auto. now rewrite complement_length. }
    destruct L1 as [|c1 r1]; [congruence|]. destruct L2 as [|c2 r2]; [congruence|]. exists c1, c2. split; auto. split; auto.
    destruct (I1 c1 (or_introl eq_refl)) as (_ & _ & G1 & (z1 & Z1 & _)). destruct (I2 c2 (or_introl eq_refl)) as (_ & _ & G2 & (z2 & Z2 & _)).
    split; auto. split; auto. rewrite Z1, Z2, (Inv t1), (Inv t2); auto.
    specialize (SR false). rewrite (Inv t1) in SR by auto. simpl in SR. now apply (srel_full n 0 (Nat.le_0_l n) sg).
Qed.

Lemma iso_refl n s : wf s -> channels s = n -> isomorphic_by false (seq 0 n) (vs s) (vs s).
Proof. intros W C. destruct (relabelled_id n n (le_n n) s W C) as (_ & _ & _ & _ & H). exact H. Qed.
