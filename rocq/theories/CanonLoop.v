(* prune, individualize, and the loop of output_set/canon.rs. *)
From Coq Require Import List Arith Bool Lia Permutation.
Import ListNotations.
From Verif Require Import Spec Vec Net Bits Util OutputSetModel OutputSetProofs CountProofs SubsumeModel SubsumeProofs SubsumeSearch CanonModel CanonBits CanonParts CanonProofs CanonSteps.

Lemma os_eqb_bitmap a b : os_eqb a b = true <-> bitmap a = bitmap b.
Proof. unfold os_eqb. apply list_eqb_spec. intros x y. apply Bool.eqb_true_iff. Qed.
Lemma os_same a b : channels a = channels b -> bitmap a = bitmap b -> a = b.
Proof. destruct a, b; simpl. congruence. Qed.

Lemma max_fold l : forall a, (forall x, In x l -> x <= fold_left Nat.max l a) /\ a <= fold_left Nat.max l a /\ (In (fold_left Nat.max l a) l \/ fold_left Nat.max l a = a).
Proof.
  induction l as [|b l IH]; intros a; simpl. { repeat split; auto. intros x []. }
  destruct (IH (Nat.max a b)) as (I1 & I2 & I3). split; [|split].
  - intros x [<-|H]; auto. lia.
  - lia.
  - destruct I3 as [I3|I3]; auto. destruct (Nat.max_spec a b) as [(_ & E)|(_ & E)]; rewrite E in *; auto.
Qed.

Section Loop.
Variables n u : nat.
Variable hash : list nat -> nat.
Variables s1 s2 : OutputSet.
Variable inv : bool.
Hypothesis Hu : u <= n.
Hypothesis Hn : n <= MAX_CHANNELS.

Notation srel := (srel n u).
Notation parts_ok := (parts_ok n).
Notation parts_bits := (parts_bits n).
Notation pmatch := (pmatch n).
Notation Inv := (Inv n u s1 s2 inv).
Notation Pair := (Pair n u s1 s2 inv).
Notation CW := (CW n inv).
Notation PW := (PW n u).
Notation Fresh := (Fresh n u).

Definition key (f : nat) (c : Cand) : nat := low_channels_fingerprint hash (c_set c) f.

Lemma key_rel f sg c1 c2 : f <= n -> srel f sg (c_set c1) (c_set c2) -> key f c1 = key f c2.
Proof.
  intros Hf (Cs & (_ & Fx) & R). unfold key, low_channels_fingerprint. apply (f_equal hash). symmetry. apply (low_fp_relabel sg); auto. lia.
  intros i Hi. apply Fx; lia.
Qed.

Lemma dedup_spec l : (forall c, In c l -> channels (c_set c) = n) ->
  (forall d, In d (dedup_sets l) -> In d l) /\ (forall c, In c l -> exists d, In d (dedup_sets l) /\ c_set d = c_set c).
Proof.
  induction l as [|c r IH]; intros Hc; cbn [dedup_sets]. { split; intros x []. }
  destruct IH as (I1 & I2). { intros x Hx. apply Hc. simpl; auto. }
  destruct (dedup_sets r) as [|d r'].
  - split. intros x [->|[]]. simpl; auto. intros x [->|Hx]. exists x. simpl; auto. destruct (I2 x Hx) as (? & [] & _).
  - destruct (os_eqb (c_set d) (c_set c)) eqn:E.
    + apply os_eqb_bitmap in E. assert (Ed : c_set d = c_set c). { apply os_same; auto. rewrite !Hc; simpl; auto. right. apply I1. simpl; auto. }
      split. intros x [->|Hx]; simpl; auto. right. apply I1. simpl; auto.
      intros x [->|Hx]. exists x. simpl; auto. destruct (I2 x Hx) as (y & [<-|Hy] & Ey). exists c. simpl. split; auto. congruence. exists y. simpl; auto.
    + split. intros x [->|Hx]; simpl; auto. 
      intros x [->|Hx]. exists x. simpl; auto. destruct (I2 x Hx) as (y & Hy & Ey). exists y. simpl in *; auto.
Qed.

Lemma sim_refl c : sim c c. Proof. repeat split; auto. Qed.
Lemma shrunk_refl L : shrunk L L.
Proof. split. intros d Hd. exists d. split; auto. apply sim_refl. intros c Hc. exists c. auto. Qed.

Lemma filter_all {A} (g : A -> bool) l : (forall x, In x l -> g x = true) -> filter g l = l.
Proof. induction l; simpl; intros H; auto. rewrite H, IHl by auto. auto. Qed.

Lemma prune_run b f L : f < u -> L <> [] -> (forall c, In c L -> channels (c_set c) = n /\ c_fp c <> []) ->
  exists L', prune hash b (mkCanonicalize u f L) = Some (mkCanonicalize u f L') /\
    if b then exists m, (forall c, In c L -> key f c <= m) /\ (exists c, In c L /\ key f c = m) /\ shrunk (filter (fun c => key f c =? m) L) L'
    else shrunk L L'.
Proof.
  intros Hf NE H. unfold prune. cbn [z_used z_fixed z_layer].
  assert (Huni : forall c L', In c L -> (forall d, In d L -> c_set d = c_set c) -> shrunk L L' ->
     exists m, (forall c, In c L -> key f c <= m) /\ (exists c, In c L /\ key f c = m) /\ shrunk (filter (fun c => key f c =? m) L) L').
  { intros c L' Hc A Sh. assert (K : forall d, In d L -> key f d = key f c) by (intros d Hd; unfold key; now rewrite (A d Hd)).
    exists (key f c). split; [|split]. intros d Hd. rewrite K by auto. auto. exists c; auto. rewrite filter_all; auto. intros d Hd. rewrite K by auto. apply Nat.eqb_refl. }
  destruct (Nat.eqb_spec (length L) 1) as [E1|E1].
  { exists L. split; auto. destruct b; [|apply shrunk_refl]. destruct L as [|c [|]]; try discriminate. apply (Huni c).
    simpl; auto. intros d [->|[]]. auto. apply shrunk_refl. }
  destruct (Nat.eqb_spec f u) as [E2|_]; [lia|]. set (l := dedup_sets (isort set_leb L)).
  assert (HI : forall x, In x (isort set_leb L) <-> In x L) by (intros; apply isort_In).
  destruct (dedup_spec (isort set_leb L)) as (D1 & D2). { intros c Hc. apply H. now apply HI. } fold l in D1, D2.
  assert (D1' : forall d, In d l -> In d L) by (intros d Hd; apply HI; auto).
  assert (D2' : forall c, In c L -> exists d, In d l /\ c_set d = c_set c) by (intros c Hc; apply D2; now apply HI).
  assert (Sh : shrunk L l). { split; auto. intros d Hd. exists d. split; auto. apply sim_refl. }
  destruct ((length l =? 1) || negb b) eqn:E3.
  - exists l. split; auto. destruct b; auto. rewrite orb_false_r in E3. apply Nat.eqb_eq in E3. destruct l as [|d [|]]; try discriminate.
    apply (Huni d). apply D1'. simpl; auto. intros c Hc. destruct (D2' c Hc) as (d' & [->|[]] & E). auto. auto.
  - apply orb_false_iff in E3. destruct E3 as (_ & E3). destruct b; [|discriminate].
    assert (SF : forall c, In c l -> exists d, set_fp0 hash f c = Some d /\ sim c d /\ nth 0 (c_fp d) 0 = key f c).
    { intros c Hc. unfold set_fp0. destruct (H c (D1' c Hc)) as (_ & N). destruct (c_fp c); [congruence|]. eexists. split; [reflexivity|].
      split; [|reflexivity]. repeat split; auto. simpl. discriminate. }
    destruct (map_opt_all (set_fp0 hash f) l) as (l' & El'). { intros a Ha. destruct (SF a Ha) as (d & E & _). eauto. }
    rewrite El'. set (m := fold_left Nat.max (map (fun c => nth 0 (c_fp c) 0) l') 0).
    eexists. split; [reflexivity|].
    assert (IN : forall d, In d l' -> exists c, In c l /\ sim c d /\ nth 0 (c_fp d) 0 = key f c).
    { intros d Hd. destruct (map_opt_in _ _ _ _ El' Hd) as (c & Hc & E). exists c. split; auto. destruct (SF c Hc) as (d' & E' & R). assert (d' = d) by congruence. now subst. }
    assert (IN' : forall c, In c l -> exists d, In d l' /\ sim c d /\ nth 0 (c_fp d) 0 = key f c).
    { intros c Hc. destruct (map_opt_in' _ _ _ _ El' Hc) as (d & Hd & E). exists d. split; auto. destruct (SF c Hc) as (d' & E' & R). assert (d' = d) by congruence. now subst. }
    destruct (max_fold (map (fun c => nth 0 (c_fp c) 0) l') 0) as (M1 & _ & M3). fold m in M1, M3.
    assert (M1' : forall c, In c L -> key f c <= m).
    { intros c Hc. destruct (D2' c Hc) as (d & Hd & Ed). destruct (IN' d Hd) as (d' & Hd' & _ & Ek). replace (key f c) with (key f d) by (unfold key; now rewrite Ed).
      rewrite <- Ek. apply M1. now apply (in_map (fun c => nth 0 (c_fp c) 0)). }
    exists m. split; auto. split; [|split].
    + destruct M3 as [M3|M3].
      * apply in_map_iff in M3. destruct M3 as (d & Ed & Hd). destruct (IN d Hd) as (c & Hc & _ & Ek). exists c. split; auto. congruence.
      * destruct L as [|c r]; [congruence|]. exists c. split; [simpl; auto|]. specialize (M1' c (or_introl eq_refl)). lia.
    + intros d Hd. apply filter_In in Hd. destruct Hd as (Hd & Ed). apply Nat.eqb_eq in Ed. destruct (IN d Hd) as (c & Hc & Sc & Ek).
      exists c. split; auto. apply filter_In. split; auto. apply Nat.eqb_eq. congruence.
    + intros c Hc. apply filter_In in Hc. destruct Hc as (Hc & Ec). apply Nat.eqb_eq in Ec. destruct (D2' c Hc) as (d & Hd & Ed).
      destruct (IN' d Hd) as (d' & Hd' & Sd & Ek). exists d'. split. apply filter_In. split; auto. apply Nat.eqb_eq. rewrite Ek. unfold key in *. now rewrite Ed.
      destruct Sd as (-> & _). auto.
Qed.

Lemma prune_step b f L1 L2 : f < u -> Inv f L1 L2 -> exists L1' L2',
  prune hash b (mkCanonicalize u f L1) = Some (mkCanonicalize u f L1') /\ prune hash b (mkCanonicalize u f L2) = Some (mkCanonicalize u f L2') /\
  Inv f L1' L2' /\ (forall k, Uniform k L1 L2 -> Uniform k L1' L2').
Proof.
  intros Hf I. pose proof (i_pair _ _ _ _ _ _ _ _ I) as P.
  assert (H1 : forall c, In c L1 -> channels (c_set c) = n /\ c_fp c <> []).
  { intros c Hc. split. apply (cw1 _ _ _ _ _ _ _ _ P c Hc). apply (i_pw1 _ _ _ _ _ _ _ _ I c Hc). }
  assert (H2 : forall c, In c L2 -> channels (c_set c) = n /\ c_fp c <> []).
  { intros c Hc. split. apply (cw2 _ _ _ _ _ _ _ _ P c Hc). apply (i_pw2 _ _ _ _ _ _ _ _ I c Hc). }
  destruct (prune_run b f L1 Hf) as (L1' & E1 & R1); auto. { apply (ne1 _ _ _ _ _ _ _ _ P). }
  destruct (prune_run b f L2 Hf) as (L2' & E2 & R2); auto. { apply (ne2 _ _ _ _ _ _ _ _ P). }
  exists L1', L2'. split; auto. split; auto.
  assert (UN : forall G1 G2, (forall c, In c G1 -> In c L1) -> (forall c, In c G2 -> In c L2) -> shrunk G1 L1' -> shrunk G2 L2' ->
     forall k, Uniform k L1 L2 -> Uniform k L1' L2').
  { intros G1 G2 HG1 HG2 (A1 & _) (A2 & _) k U d [Hd|Hd].
    - destruct (A1 d Hd) as (c & Hc & (_ & _ & _ & -> & _)). apply U; auto.
    - destruct (A2 d Hd) as (c & Hc & (_ & _ & _ & -> & _)). apply U; auto. }
  destruct b.
  - destruct R1 as (m1 & Le1 & (b1 & B1 & K1) & Sh1), R2 as (m2 & Le2 & (b2 & B2 & K2) & Sh2).
    assert (Em : m1 = m2).
    { destruct (cov12 _ _ _ _ _ _ _ _ P b1 B1) as (c2 & sg & Hc2 & R). destruct (cov21 _ _ _ _ _ _ _ _ P b2 B2) as (c1 & sg' & Hc1 & R').
      pose proof (key_rel f sg b1 c2 ltac:(lia) R). pose proof (key_rel f sg' c1 b2 ltac:(lia) R'). specialize (Le1 c1 Hc1). specialize (Le2 c2 Hc2). lia. }
    rewrite <- Em in *. clear Em. split.
    + eapply Inv_shrunk; [|exact Sh1|exact Sh2]. apply Inv_filter; auto.
      * intros c1 c2 sg _ _ R. now rewrite (key_rel f sg c1 c2 ltac:(lia) R).
      * exists b1. split; auto. now apply Nat.eqb_eq.
    + eapply UN; [| |exact Sh1|exact Sh2]; intros c Hc; apply filter_In in Hc; tauto.
  - split. eapply Inv_shrunk; [exact I|auto|auto]. now apply (UN L1 L2).
Qed.

Lemma prune_end b L : L <> [] -> exists c, In c L /\ prune hash b (mkCanonicalize u u L) = Some (mkCanonicalize u u [c]) /\
  forall d, In d L -> os_cmp (c_set c) (c_set d) <> Gt.
Proof.
  intros NE. unfold prune. cbn [z_used z_fixed z_layer]. rewrite Nat.eqb_refl.
  destruct L as [|c r]; [congruence|]. destruct (min_set_spec c r) as (M1 & M2).
  destruct (Nat.eqb_spec (length (c :: r)) 1) as [E|].
  - destruct r; [|discriminate]. exists c. split; [simpl; auto|]. split; auto.
  - exists (min_set c r). split; auto.
Qed.

Lemma prune_end_step b L1 L2 : Inv u L1 L2 -> exists c1 c2,
  prune hash b (mkCanonicalize u u L1) = Some (mkCanonicalize u u [c1]) /\ prune hash b (mkCanonicalize u u L2) = Some (mkCanonicalize u u [c2]) /\
  CW s1 c1 /\ CW s2 c2 /\ c_set c1 = c_set c2.
Proof.
  intros I. pose proof (i_pair _ _ _ _ _ _ _ _ I) as P.
  destruct (prune_end b L1 (ne1 _ _ _ _ _ _ _ _ P)) as (c1 & H1 & E1 & M1). destruct (prune_end b L2 (ne2 _ _ _ _ _ _ _ _ P)) as (c2 & H2 & E2 & M2).
  exists c1, c2. pose proof (cw1 _ _ _ _ _ _ _ _ P c1 H1) as W1. pose proof (cw2 _ _ _ _ _ _ _ _ P c2 H2) as W2. repeat (split; [auto; fail|]).
  destruct (cov12 _ _ _ _ _ _ _ _ P c1 H1) as (d2 & sg & Hd2 & R). destruct (cov21 _ _ _ _ _ _ _ _ P c2 H2) as (d1 & sg' & Hd1 & R').
  apply (srel_full n u Hu) in R. apply (srel_full n u Hu) in R'.
  specialize (M1 d1 Hd1). specialize (M2 d2 Hd2). rewrite R' in M1. rewrite <- R in M2.
  apply os_same. destruct W1 as (_ & -> & _). destruct W2 as (_ & -> & _). auto.
  unfold os_cmp in *. apply (o_eq _ ocmp_os). rewrite (o_opp _ ocmp_os (bitmap (c_set c1)) (bitmap (c_set c2))) in M2.
  destruct (list_cmp bool_cmp (bitmap (c_set c1)) (bitmap (c_set c2))); simpl in *; congruence.
Qed.

(* ---------- individualize ---------- *)

Definition last_part (c : Cand) : nat * nat := match rev (c_part c) with e :: _ => e | [] => (0, 0) end.
Definition children (f : nat) (c : Cand) : list Cand :=
  map (fun a => individual_cand f a c (last_part c)) (mask_bits (fst (last_part c)) (fst (last_part c))).

Definition MF (f : nat) (done : list Cand) (st : nat * list Cand) : Prop :=
  snd st = filter (fun d => key f d =? fst st) done /\ (forall d, In d done -> key f d <= fst st) /\
  (done <> [] -> exists d, In d done /\ key f d = fst st) /\ (done = [] -> fst st = 0).

Lemma MF_step f c e done st a : MF (S f) done st -> MF (S f) (done ++ [individual_cand f a c e]) (individualize_channel hash f c e st a).
Proof.
  intros (A & B & C & D). unfold individualize_channel. set (d := individual_cand f a c e).
  change (low_channels_fingerprint hash (swap_channels (c_set c) a f) (S f)) with (key (S f) d). set (K := key (S f) d).
  destruct st as (m & l). cbn [fst snd] in *.
  assert (EX : (exists x, In x done /\ key (S f) x = m) \/ (done = [] /\ m = 0)).
  { destruct done; [right|left]; auto. apply C. discriminate. }
  destruct (Nat.ltb_spec m K) as [L|L]; [|destruct (Nat.ltb_spec K m) as [L'|L']]; unfold MF; cbn [fst snd]; rewrite filter_app; cbn [filter].
  - rewrite Nat.eqb_refl. split; [|split; [|split]].
    + assert (E : filter (fun d0 => key (S f) d0 =? K) done = []); [|now rewrite E].
      clear -B L. induction done as [|x r IH]; simpl; auto. pose proof (B x (or_introl eq_refl)). destruct (Nat.eqb_spec (key (S f) x) K); [lia|]. apply IH. intros y Hy. apply B. simpl; auto.
    + intros x Hx. apply in_app_iff in Hx. destruct Hx as [Hx|[<-|[]]]. specialize (B x Hx). lia. auto.
    + intros _. exists d. split; auto. apply in_or_app. simpl; auto.
    + intros E. destruct done; discriminate.
  - change (key (S f) d) with K. destruct (Nat.eqb_spec K m); [lia|]. rewrite app_nil_r. split; [auto|split; [|split]].
    + intros x Hx. apply in_app_iff in Hx. destruct Hx as [Hx|[<-|[]]]. auto. fold K. lia.
    + intros _. destruct EX as [(x & Hx & Ex)|(_ & ->)]; [|lia]. exists x. split; auto. apply in_or_app; auto.
    + intros E. destruct done; discriminate.
  - change (key (S f) d) with K. assert (E : K = m) by lia. rewrite E, Nat.eqb_refl. split; [now rewrite A|split; [|split]].
    + intros x Hx. apply in_app_iff in Hx. destruct Hx as [Hx|[<-|[]]]. auto. fold K. lia.
    + intros _. exists d. split; auto. apply in_or_app. simpl; auto.
    + intros E'. destruct done; discriminate.
Qed.

Lemma MF_cand f c e srcs : forall done st, MF (S f) done st ->
  MF (S f) (done ++ map (fun a => individual_cand f a c e) srcs) (fold_left (individualize_channel hash f c e) srcs st).
Proof.
  induction srcs as [|a r IH]; intros done st H; cbn [fold_left map]. now rewrite app_nil_r.
  change (individual_cand f a c e :: map (fun a => individual_cand f a c e) r) with ([individual_cand f a c e] ++ map (fun a => individual_cand f a c e) r).
  rewrite app_assoc. apply IH. now apply MF_step.
Qed.

Lemma MF_layer f L : (forall c, In c L -> c_part c <> []) -> forall done st, MF (S f) done st ->
  exists st', fold_opt (individualize_cand hash f) L st = Some st' /\ MF (S f) (done ++ flat_map (children f) L) st'.
Proof.
  induction L as [|c r IH]; intros NE done st H; cbn [fold_opt flat_map]. { exists st. rewrite app_nil_r. auto. }
  unfold individualize_cand at 1. unfold children at 1, last_part.
  destruct (rev (c_part c)) as [|e l] eqn:E.
  { exfalso. apply (NE c (or_introl eq_refl)). rewrite <- (rev_involutive (c_part c)), E. reflexivity. }
  rewrite app_assoc. apply IH. intros x Hx. apply NE. simpl; auto. now apply MF_cand.
Qed.

Lemma individualize_run f L : (forall c, In c L -> c_part c <> []) -> flat_map (children f) L <> [] ->
  exists m, individualize hash (mkCanonicalize u f L) = Some (mkCanonicalize u (S f) (filter (fun d => key (S f) d =? m) (flat_map (children f) L))) /\
    (forall d, In d (flat_map (children f) L) -> key (S f) d <= m) /\ (exists d, In d (flat_map (children f) L) /\ key (S f) d = m).
Proof.
  intros NE NC. unfold individualize. cbn [z_fixed z_layer z_used].
  destruct (MF_layer f L NE [] (0, [])) as ((m & l) & -> & (A & B & C & _)). { repeat split; simpl; auto; try tauto. }
  simpl app in *. cbn [fst snd] in *. exists m. rewrite A. auto.
Qed.

(* a candidate without final singleton and its children *)
Lemma child_facts f c : f < u -> PW f c -> take_singles (rev (c_part c)) = Some 0 -> exists ps e,
  c_part c = ps ++ [e] /\ last_part c = e /\ fst e <> 0 /\ fst e < 2 ^ n /\ S f < u /\
  (exists a, In a (mask_bits (fst e) (fst e))) /\
  forall a, In a (mask_bits (fst e) (fst e)) <-> a < n /\ Nat.testbit (fst e) a = true.
Proof.
  intros Hf (O & Pb & _) T.
  destruct (rev (c_part c)) as [|e r] eqn:E.
  { assert (En : c_part c = []) by (rewrite <- (rev_involutive (c_part c)), E; reflexivity). rewrite En in Pb. apply Permutation_length in Pb. rewrite seq_length in Pb. simpl in Pb. lia. }
  destruct (rev_last _ _ _ E) as (E1 & _). exists (removelast (c_part c)), e. split; auto. split. { unfold last_part. now rewrite E. }
  rewrite E1 in O. apply Forall_app in O. destruct O as (_ & Oe). inversion Oe as [|? ? (NZ & L) _]. subst. split; auto. split; auto.
  pose proof (mask_bits_perm n (fst e) L) as MB.
  split.
  { simpl in T. rewrite (is_single_bits n) in T by auto. destruct (Nat.eqb_spec (length (bits n (fst e))) 1) as [|N1]. destruct (take_singles r); discriminate.
    rewrite E1, parts_bits_app in Pb. apply Permutation_length in Pb. rewrite app_length, seq_length in Pb. simpl in Pb. rewrite app_nil_r in Pb.
    apply (bits_nonempty n _ L) in NZ. destruct (bits n (fst e)) as [|? [|]]; simpl in *; try congruence; lia. }
  split. { apply (bits_nonempty n _ L) in NZ. destruct (bits n (fst e)) as [|a l] eqn:Eb; [congruence|]. exists a. apply (Permutation_in _ (Permutation_sym MB)). simpl; auto. }
  intros a. rewrite <- (bits_In n). split; intros H. now apply (Permutation_in _ MB). now apply (Permutation_in _ (Permutation_sym MB)).
Qed.

Lemma child_parts f c ps e a : f < u -> PW f c -> take_singles (rev (c_part c)) = Some 0 -> c_part c = ps ++ [e] -> Nat.testbit (fst e) a = true -> a < n ->
  let p := ps ++ [(Nat.ldiff (fst e) (2 ^ a), snd e)] in
  f <= a < u /\ parts_ok p /\ Permutation (a :: parts_bits p) (seq f (u - f)) /\ nobit a p /\
  individual_cand f a c e = mkCand (swap_channels (c_set c) a f) (swap_list (c_perm c) a f) (c_invert c) (c_fp c) (map (swap_part a f) p) (c_score c) /\
  PW (S f) (individual_cand f a c e).
Proof.
  intros Hf (O & Pb & Nf) T E Ta Ha p.
  assert (Op := O). rewrite E in Op. apply Forall_app in Op. destruct Op as (Ops & Oe). inversion Oe as [|? ? (NZ & L) _]. subst x l.
  pose proof (bits_ldiff n (fst e) a L Ta) as BL.
  assert (Pa : Permutation (a :: parts_bits p) (seq f (u - f))).
  { rewrite <- Pb, E. unfold p. rewrite !parts_bits_app.
    assert (E1 : forall x, parts_bits [x] = bits n (fst x)) by (intros; apply app_nil_r). rewrite !E1. cbn [fst]. rewrite BL. apply Permutation_middle. }
  assert (Hr : f <= a < u). { assert (In a (seq f (u - f))) by (apply (Permutation_in _ Pa); simpl; auto). apply in_seq in H. lia. }
  assert (Ok : parts_ok p).
  { apply Forall_app. split; auto. constructor; auto. cbn [fst]. assert (L' : Nat.ldiff (fst e) (2 ^ a) < 2 ^ n) by now apply ldiff_lt. split; auto.
    apply (bits_nonempty n _ L'). intros Eb. rewrite Eb in BL. apply Permutation_length in BL. simpl in BL.
    rewrite E, rev_app_distr in T. simpl in T. rewrite (is_single_bits n), BL in T by auto. simpl in T. destruct (take_singles (rev ps)); discriminate. }
  assert (Nb : nobit a p) by now apply (nobit_of n u Hu Hn f).
  assert (Ei : individual_cand f a c e = mkCand (swap_channels (c_set c) a f) (swap_list (c_perm c) a f) (c_invert c) (c_fp c) (map (swap_part a f) p) (c_score c)).
  { unfold individual_cand. rewrite E, removelast_last. reflexivity. }
  split; auto. split; auto. split; auto. split; auto. split; auto.
  rewrite Ei. unfold CanonSteps.PW. cbn [c_part c_fp]. destruct (swap_parts n u Hu a f p) as (O' & _ & _); auto; try lia.
  split; auto. split; auto. now apply (swap_parts_cover n u Hu).
Qed.

Lemma individualize_step f L1 L2 : f < u -> Inv f L1 L2 -> Uniform 0 L1 L2 -> exists L1' L2',
  individualize hash (mkCanonicalize u f L1) = Some (mkCanonicalize u (S f) L1') /\ individualize hash (mkCanonicalize u f L2) = Some (mkCanonicalize u (S f) L2') /\
  Inv (S f) L1' L2' /\ S f < u.
Proof.
  intros Hf I U. pose proof (i_pair _ _ _ _ _ _ _ _ I) as P.
  pose proof (i_pw1 _ _ _ _ _ _ _ _ I) as W1. pose proof (i_pw2 _ _ _ _ _ _ _ _ I) as W2. pose proof (i_coh _ _ _ _ _ _ _ _ I) as C.
  assert (W : forall c, In c L1 \/ In c L2 -> PW f c) by (intros c [|]; auto).
  assert (NE : forall c, In c L1 \/ In c L2 -> c_part c <> []).
  { intros c Hc En. destruct (child_facts f c Hf (W c Hc) (U c Hc)) as (ps & e & E & _). rewrite En in E. destruct ps; discriminate. }
  assert (K : forall c d, In c L1 \/ In c L2 -> In d (children f c) -> exists ps e a, c_part c = ps ++ [e] /\ fst e < 2 ^ n /\ a < n /\ Nat.testbit (fst e) a = true /\
     f <= a < u /\ nobit a (ps ++ [(Nat.ldiff (fst e) (2 ^ a), snd e)]) /\ last_part c = e /\
     d = individual_cand f a c e /\
     d = mkCand (swap_channels (c_set c) a f) (swap_list (c_perm c) a f) (c_invert c) (c_fp c) (map (swap_part a f) (ps ++ [(Nat.ldiff (fst e) (2 ^ a), snd e)])) (c_score c) /\
     PW (S f) d).
  { intros c d Hc Hd. destruct (child_facts f c Hf (W c Hc) (U c Hc)) as (ps & e & E & El & NZ & L & _ & _ & MB).
    unfold children in Hd. rewrite El in Hd. apply in_map_iff in Hd. destruct Hd as (a & Ed & Ha). apply MB in Ha. destruct Ha as (Ha & Ta).
    destruct (child_parts f c ps e a Hf (W c Hc) (U c Hc) E Ta Ha) as (Hr & _ & _ & Nb & Ei & Wd).
    exists ps, e, a. rewrite <- Ed. repeat (split; [auto; fail|]). auto. }
  assert (HasC : forall c, In c L1 \/ In c L2 -> exists d, In d (children f c)).
  { intros c Hc. destruct (child_facts f c Hf (W c Hc) (U c Hc)) as (ps & e & E & El & NZ & L & _ & (a & Ha) & MB). eexists. unfold children. rewrite El. apply in_map. exact Ha. }
  assert (LP : forall c1 c2 sg, In c1 L1 -> In c2 L2 -> srel f sg (c_set c1) (c_set c2) -> forall ps1 e1 ps2 e2, c_part c1 = ps1 ++ [e1] -> c_part c2 = ps2 ++ [e2] ->
     pmatch sg ps1 ps2 /\ snd e1 = snd e2 /\ pm n sg (fst e1) (fst e2)).
  { intros c1 c2 sg H1 H2 R ps1 e1 ps2 e2 E1 E2. pose proof (C c1 c2 sg H1 H2 R) as M. rewrite E1, E2 in M.
    apply Forall2_app_inv_l in M. destruct M as (l1 & l2 & M1 & M2 & El).
    inversion M2 as [|? ? ? ? (Hs & Hm) M3 E3 E4]. subst. inversion M3. subst. apply app_inj_tail in El. destruct El as (-> & ->). auto. }
  assert (I' : Inv (S f) (flat_map (children f) L1) (flat_map (children f) L2)).
  { constructor; [constructor|..].
    - intros E. pose proof (ne1 _ _ _ _ _ _ _ _ P) as N. destruct L1 as [|c r]; [congruence|]. destruct (HasC c (or_introl (or_introl eq_refl))) as (d & Hd).
      simpl in E. apply app_eq_nil in E. destruct E as (E & _). now rewrite E in Hd.
    - intros d Hd. apply in_flat_map in Hd. destruct Hd as (c & Hc & Hd). destruct (K c d (or_introl Hc) Hd) as (ps & e & a & E & L & Ha & Ta & Hr & Nb & El & Ei & Ed & Wd).
      apply (CW_swap n u inv Hu Hn s1 c a f); rewrite ?Ed; auto; try lia. now apply (cw1 _ _ _ _ _ _ _ _ P).
    - intros d Hd. apply in_flat_map in Hd. destruct Hd as (c & Hc & Hd). destruct (K c d (or_intror Hc) Hd) as (ps & e & a & E & L & Ha & Ta & Hr & Nb & El & Ei & Ed & Wd).
      apply (CW_swap n u inv Hu Hn s2 c a f); rewrite ?Ed; auto; try lia. now apply (cw2 _ _ _ _ _ _ _ _ P).
    - intros d1 Hd. apply in_flat_map in Hd. destruct Hd as (c1 & H1 & Hd). destruct (K c1 d1 (or_introl H1) Hd) as (ps1 & e1 & a1 & E1 & L1e & Ha1 & Ta1 & Hr1 & Nb1 & El1 & Ei1 & Ed1 & Wd1).
      destruct (cov12 _ _ _ _ _ _ _ _ P c1 H1) as (c2 & sg & H2 & R). pose proof R as (_ & (Pp & _) & _).
      destruct (child_facts f c2 Hf (W c2 (or_intror H2)) (U c2 (or_intror H2))) as (ps2 & e2 & E2 & El2 & NZ2 & L2e & _ & _ & MB2).
      destruct (LP c1 c2 sg H1 H2 R ps1 e1 ps2 e2 E1 E2) as (_ & _ & Hm).
      destruct (is_perm_surj n sg a1 Pp Ha1) as (a2 & Ha2 & Ea).
      assert (Ta2 : Nat.testbit (fst e2) a2 = true) by (rewrite Hm by auto; now rewrite Ea).
      destruct (child_parts f c2 ps2 e2 a2 Hf (W c2 (or_intror H2)) (U c2 (or_intror H2)) E2 Ta2 Ha2) as (Hr2 & _ & _ & _ & Ei2 & _).
      destruct (move_forward n u Hu f a1 a2 sg (c_set c1) (c_set c2) Hf Hr1 Hr2 Ea R) as (sg' & R').
      exists (individual_cand f a2 c2 e2), sg'. split.
      + apply in_flat_map. exists c2. split; auto. unfold children. rewrite El2. apply (in_map (fun a => individual_cand f a c2 e2)). apply MB2. auto.
      + rewrite Ed1, Ei2. exact R'.
    - intros d2 Hd. apply in_flat_map in Hd. destruct Hd as (c2 & H2 & Hd). destruct (K c2 d2 (or_intror H2) Hd) as (ps2 & e2 & a2 & E2 & L2e & Ha2 & Ta2 & Hr2 & Nb2 & El2 & Ei2 & Ed2 & Wd2).
      destruct (cov21 _ _ _ _ _ _ _ _ P c2 H2) as (c1 & sg & H1 & R). pose proof R as (_ & (Pp & _) & _).
      destruct (child_facts f c1 Hf (W c1 (or_introl H1)) (U c1 (or_introl H1))) as (ps1 & e1 & E1 & El1 & NZ1 & L1e & _ & _ & MB1).
      destruct (LP c1 c2 sg H1 H2 R ps1 e1 ps2 e2 E1 E2) as (_ & _ & Hm).
      set (a1 := nth a2 sg 0). assert (Ha1 : a1 < n) by now apply is_perm_nth.
      assert (Ta1 : Nat.testbit (fst e1) a1 = true) by (unfold a1; rewrite <- Hm by auto; auto).
      destruct (child_parts f c1 ps1 e1 a1 Hf (W c1 (or_introl H1)) (U c1 (or_introl H1)) E1 Ta1 Ha1) as (Hr1 & _ & _ & _ & Ei1 & _).
      destruct (move_forward n u Hu f a1 a2 sg (c_set c1) (c_set c2) Hf Hr1 Hr2 eq_refl R) as (sg' & R').
      exists (individual_cand f a1 c1 e1), sg'. split.
      + apply in_flat_map. exists c1. split; auto. unfold children. rewrite El1. apply (in_map (fun a => individual_cand f a c1 e1)). apply MB1. auto.
      + rewrite Ed2, Ei1. exact R'.
    - intros d Hd. apply in_flat_map in Hd. destruct Hd as (c & Hc & Hd). destruct (K c d (or_introl Hc) Hd) as (ps & e & a & E & L & Ha & Ta & Hr & Nb & El & Ei & Ed & Wd). auto.
    - intros d Hd. apply in_flat_map in Hd. destruct Hd as (c & Hc & Hd). destruct (K c d (or_intror Hc) Hd) as (ps & e & a & E & L & Ha & Ta & Hr & Nb & El & Ei & Ed & Wd). auto.
    - intros d1 d2 sg' Hd1 Hd2 R'. apply in_flat_map in Hd1, Hd2. destruct Hd1 as (c1 & H1 & Hd1), Hd2 as (c2 & H2 & Hd2).
      destruct (K c1 d1 (or_introl H1) Hd1) as (ps1 & e1 & a1 & E1 & L1e & Ha1 & Ta1 & Hr1 & Nb1 & El1 & Ei1 & Ed1 & Wd1).
      destruct (K c2 d2 (or_intror H2) Hd2) as (ps2 & e2 & a2 & E2 & L2e & Ha2 & Ta2 & Hr2 & Nb2 & El2 & Ei2 & Ed2 & Wd2).
      rewrite Ed1, Ed2 in R' |- *. cbn [c_set c_part] in *.
      destruct (cw1 _ _ _ _ _ _ _ _ P c1 H1) as (Ws & Cs & _). destruct (cw2 _ _ _ _ _ _ _ _ P c2 H2) as (Wt & Ct & _).
      destruct (move_backward n u Hu f a1 a2 sg' (c_set c1) (c_set c2)) as (sg & R & Ea & Hi); auto.
      destruct (LP c1 c2 sg H1 H2 R ps1 e1 ps2 e2 E1 E2) as (M & Es & Hm). pose proof R as (_ & (Pp & _) & _).
      apply (swap_pmatch n u Hu f a1 a2 sg); auto. apply R'. apply Forall2_app; auto. constructor; [|constructor]. cbn [fst snd]. split; auto.
      intros c Hc. rewrite !Nat.ldiff_spec, !pow2_testbit, (Hm c Hc). f_equal. f_equal. apply eq_true_iff_eq. rewrite !Nat.eqb_eq.
      split; intros X. subst c. auto. apply (is_perm_inj n sg); auto. congruence. }
  assert (NC2 : flat_map (children f) L2 <> []) by (apply (ne2 _ _ _ _ _ _ _ _ (i_pair _ _ _ _ _ _ _ _ I'))).
  destruct (individualize_run f L1 (fun c Hc => NE c (or_introl Hc)) (ne1 _ _ _ _ _ _ _ _ (i_pair _ _ _ _ _ _ _ _ I'))) as (m1 & R1 & Le1 & (b1 & B1 & K1)).
  destruct (individualize_run f L2 (fun c Hc => NE c (or_intror Hc)) NC2) as (m2 & R2 & Le2 & (b2 & B2 & K2)).
  assert (Em : m1 = m2).
  { pose proof (i_pair _ _ _ _ _ _ _ _ I') as P'.
    destruct (cov12 _ _ _ _ _ _ _ _ P' b1 B1) as (c2 & sg & Hc2 & R). destruct (cov21 _ _ _ _ _ _ _ _ P' b2 B2) as (c1 & sg' & Hc1 & R').
    pose proof (key_rel (S f) sg b1 c2 ltac:(lia) R). pose proof (key_rel (S f) sg' c1 b2 ltac:(lia) R'). specialize (Le1 c1 Hc1). specialize (Le2 c2 Hc2). lia. }
  rewrite <- Em in *. clear Em. eexists _, _. split; [exact R1|]. split; [exact R2|]. split.
  - apply Inv_filter; auto. intros c1 c2 sg _ _ R. now rewrite (key_rel (S f) sg c1 c2 ltac:(lia) R). exists b1. split; auto. now apply Nat.eqb_eq.
  - pose proof (ne1 _ _ _ _ _ _ _ _ P) as N. destruct L1 as [|c r]; [congruence|]. assert (Hc : In c (c :: r)) by (simpl; auto).
    destruct (child_facts f c Hf (W c (or_introl Hc)) (U c (or_introl Hc))) as (? & ? & _ & _ & _ & _ & L & _). auto.
Qed.

(* ---------- the loop ---------- *)

Lemma loop_ok : forall fuel f L1 L2, Inv f L1 L2 -> Fresh f L1 L2 -> f < u -> u - f < fuel -> exists c1 c2,
  canon_loop hash fuel (mkCanonicalize u f L1) = Some (mkCanonicalize u u [c1]) /\ canon_loop hash fuel (mkCanonicalize u f L2) = Some (mkCanonicalize u u [c2]) /\
  CW s1 c1 /\ CW s2 c2 /\ c_set c1 = c_set c2.
Proof.
  induction fuel as [|fuel IH]; intros f L1 L2 I Fr Hf Hfuel; [lia|]. cbn [canon_loop].
  destruct (prune_fp_step n u hash s1 s2 inv f L1 L2 I Fr) as (k & A1 & A2 & E1 & E2 & I1 & U1). rewrite E1, E2. cbn [bind z_used].
  assert (Lk : k <= u - f) by (eapply Uniform_le; [exact Hu|exact Hn|exact I1|exact U1]).
  destruct (move_singletons_step n u s1 s2 inv Hu Hn k (S u) false f A1 A2 I1 U1 ltac:(lia)) as (B1 & B2 & E3 & E4 & I2 & U2). rewrite E3, E4. cbn [bind fst snd orb].
  destruct (Nat.eq_dec (k + f) u) as [Eu|Nu].
  - assert (Hk : 0 <? k = true) by (apply Nat.ltb_lt; lia). rewrite Hk, Eu in *.
    destruct (prune_end_step true B1 B2 I2) as (c1 & c2 & F1 & F2 & W1 & W2 & Es). rewrite F1, F2. cbn [bind z_fixed z_used]. rewrite Nat.eqb_refl.
    exists c1, c2. auto.
  - assert (Hkf : k + f < u) by lia.
    assert (exists C1 C2, (if 0 <? k then prune hash true (mkCanonicalize u (k + f) B1) else Some (mkCanonicalize u (k + f) B1)) = Some (mkCanonicalize u (k + f) C1) /\
       (if 0 <? k then prune hash true (mkCanonicalize u (k + f) B2) else Some (mkCanonicalize u (k + f) B2)) = Some (mkCanonicalize u (k + f) C2) /\
       Inv (k + f) C1 C2 /\ Uniform 0 C1 C2) as (C1 & C2 & F1 & F2 & I3 & U3).
    { destruct (0 <? k).
      - destruct (prune_step true (k + f) B1 B2 Hkf I2) as (C1 & C2 & F1 & F2 & I3 & U3). exists C1, C2. auto.
      - exists B1, B2. auto. }
    rewrite F1, F2. cbn [bind z_fixed z_used]. apply Nat.eqb_neq in Nu. rewrite Nu.
    destruct (individualize_step (k + f) C1 C2 Hkf I3 U3) as (D1 & D2 & G1 & G2 & I4 & Hs). rewrite G1, G2. cbn [bind].
    destruct (prune_step false (S (k + f)) D1 D2 Hs I4) as (X1 & X2 & P1 & P2 & I5 & _). rewrite P1, P2. cbn [bind z_fixed z_used].
    destruct (Nat.eqb_spec (S (k + f)) u) as [|_]; [lia|].
    destruct (refine_step n u hash s1 s2 inv Hu Hn (S (k + f)) X1 X2 Hs I5) as (Y1 & Y2 & R1 & R2 & I6 & Fr6).
    unfold refine. cbn [z_fixed z_used z_layer]. rewrite R1, R2. cbn [option_map bind]. apply IH; auto. lia.
Qed.

End Loop.
