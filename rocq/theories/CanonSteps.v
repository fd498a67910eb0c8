(* The loop of output_set/canon.rs, run side by side on two isomorphic sets. *)
From Coq Require Import List Arith Bool Lia Permutation.
Import ListNotations.
From Verif Require Import Spec Vec Net Bits Util OutputSetModel OutputSetProofs CountProofs SubsumeModel SubsumeProofs SubsumeSearch CanonModel CanonBits CanonParts CanonProofs.

Section Steps.
Variables n u : nat.
Variable hash : list nat -> nat.
Variables s1 s2 : OutputSet.
Variable inv : bool.
Hypothesis Hu : u <= n.
Hypothesis Hn : n <= MAX_CHANNELS.

Notation srel := (srel n u).
Notation parts_ok := (parts_ok n).
Notation parts_bits := (parts_bits n).
Notation pmatch := (pmatch n).

Definition CW (s : OutputSet) (c : Cand) : Prop :=
  wf (c_set c) /\ channels (c_set c) = n /\ is_perm n (c_perm c) /\
  isomorphic_by (c_invert c) (c_perm c) (vs s) (vs (c_set c)) /\ (c_invert c = true -> inv = true).

Definition PW (f : nat) (c : Cand) : Prop :=
  parts_ok (c_part c) /\ Permutation (parts_bits (c_part c)) (seq f (u - f)) /\ c_fp c <> [].

Record Pair (f : nat) (L1 L2 : list Cand) : Prop := {
  ne1 : L1 <> [];
  cw1 : forall c, In c L1 -> CW s1 c;
  cw2 : forall c, In c L2 -> CW s2 c;
  cov12 : forall c1, In c1 L1 -> exists c2 sg, In c2 L2 /\ srel f sg (c_set c1) (c_set c2);
  cov21 : forall c2, In c2 L2 -> exists c1 sg, In c1 L1 /\ srel f sg (c_set c1) (c_set c2)
}.

Definition Coh (f : nat) (L1 L2 : list Cand) : Prop := forall c1 c2 sg, In c1 L1 -> In c2 L2 ->
  srel f sg (c_set c1) (c_set c2) -> pmatch sg (c_part c1) (c_part c2).

Record Inv (f : nat) (L1 L2 : list Cand) : Prop := {
  i_pair : Pair f L1 L2;
  i_pw1 : forall c, In c L1 -> PW f c;
  i_pw2 : forall c, In c L2 -> PW f c;
  i_coh : Coh f L1 L2
}.

Definition Fresh (f : nat) (L1 L2 : list Cand) : Prop :=
  (forall c1 c2 sg, In c1 L1 -> In c2 L2 -> srel f sg (c_set c1) (c_set c2) -> c_score c1 = c_score c2 /\ c_fp c1 = c_fp c2) /\
  (forall c, In c L1 \/ In c L2 -> take_singles (rev (c_part c)) = Some (fst (c_score c))).

Definition Uniform (k : nat) (L1 L2 : list Cand) : Prop :=
  forall c, In c L1 \/ In c L2 -> take_singles (rev (c_part c)) = Some k.

Lemma ne2 f L1 L2 : Pair f L1 L2 -> L2 <> [].
Proof.
  intros P E. subst. pose proof (ne1 _ _ _ P). destruct L1 as [|c r]; [congruence|]. destruct (cov12 _ _ _ P c (or_introl eq_refl)) as (? & ? & [] & _).
Qed.

Lemma Pair_filter f L1 L2 g1 g2 : Pair f L1 L2 ->
  (forall c1 c2 sg, In c1 L1 -> In c2 L2 -> srel f sg (c_set c1) (c_set c2) -> g1 c1 = g2 c2) ->
  (exists c, In c L1 /\ g1 c = true) -> Pair f (filter g1 L1) (filter g2 L2).
Proof.
  intros P H (c & Hc & G). constructor.
  - intros E. assert (In c (filter g1 L1)) by (apply filter_In; auto). now rewrite E in *.
  - intros x Hx. apply filter_In in Hx. now apply (cw1 _ _ _ P).
  - intros x Hx. apply filter_In in Hx. now apply (cw2 _ _ _ P).
  - intros c1 H1. apply filter_In in H1. destruct H1 as (H1 & G1). destruct (cov12 _ _ _ P c1 H1) as (c2 & sg & H2 & R).
    exists c2, sg. split; auto. apply filter_In. split; auto. rewrite <- (H c1 c2 sg); auto.
  - intros c2 H2. apply filter_In in H2. destruct H2 as (H2 & G2). destruct (cov21 _ _ _ P c2 H2) as (c1 & sg & H1 & R).
    exists c1, sg. split; auto. apply filter_In. split; auto. rewrite (H c1 c2 sg); auto.
Qed.

Lemma Inv_filter f L1 L2 g1 g2 : Inv f L1 L2 ->
  (forall c1 c2 sg, In c1 L1 -> In c2 L2 -> srel f sg (c_set c1) (c_set c2) -> g1 c1 = g2 c2) ->
  (exists c, In c L1 /\ g1 c = true) -> Inv f (filter g1 L1) (filter g2 L2).
Proof.
  intros I H E. destruct I as [P W1 W2 C]. constructor.
  - now apply Pair_filter.
  - intros c Hc. apply filter_In in Hc. now apply W1.
  - intros c Hc. apply filter_In in Hc. now apply W2.
  - intros c1 c2 sg H1 H2. apply filter_In in H1, H2. now apply C.
Qed.

(* candidates that differ only in fields that do not matter *)
Definition sim (c d : Cand) : Prop :=
  c_set d = c_set c /\ c_perm d = c_perm c /\ c_invert d = c_invert c /\ c_part d = c_part c /\ (c_fp c <> [] -> c_fp d <> []).

Lemma sim_CW s c d : sim c d -> CW s c -> CW s d.
Proof. intros (E1 & E2 & E3 & _). unfold CW. now rewrite E1, E2, E3. Qed.
Lemma sim_PW f c d : sim c d -> PW f c -> PW f d.
Proof. intros (_ & _ & _ & E4 & E5). unfold PW. rewrite E4. tauto. Qed.

(* L' is a choice of members of L up to sim, and meets every set of L *)
Definition shrunk (L L' : list Cand) : Prop :=
  (forall d, In d L' -> exists c, In c L /\ sim c d) /\ (forall c, In c L -> exists d, In d L' /\ c_set d = c_set c).

Lemma Inv_shrunk f L1 L2 L1' L2' : Inv f L1 L2 -> shrunk L1 L1' -> shrunk L2 L2' -> Inv f L1' L2'.
Proof.
  intros [P W1 W2 C] (A1 & B1) (A2 & B2). constructor; [constructor|..].
  - intros ->. destruct L1 as [|c r] eqn:E. now apply (ne1 _ _ _ P). destruct (B1 c (or_introl eq_refl)) as (? & [] & _).
  - intros d Hd. destruct (A1 d Hd) as (c & Hc & Sm). apply (sim_CW _ c); auto. now apply (cw1 _ _ _ P).
  - intros d Hd. destruct (A2 d Hd) as (c & Hc & Sm). apply (sim_CW _ c); auto. now apply (cw2 _ _ _ P).
  - intros d1 Hd. destruct (A1 d1 Hd) as (c1 & Hc & Sm). destruct (cov12 _ _ _ P c1 Hc) as (c2 & sg & H2 & R).
    destruct (B2 c2 H2) as (d2 & Hd2 & E2). exists d2, sg. split; auto. rewrite E2. destruct Sm as (-> & _). auto.
  - intros d2 Hd. destruct (A2 d2 Hd) as (c2 & Hc & Sm). destruct (cov21 _ _ _ P c2 Hc) as (c1 & sg & H1 & R).
    destruct (B1 c1 H1) as (d1 & Hd1 & E1). exists d1, sg. split; auto. rewrite E1. destruct Sm as (-> & _). auto.
  - intros d Hd. destruct (A1 d Hd) as (c & Hc & Sm). apply (sim_PW _ c); auto.
  - intros d Hd. destruct (A2 d Hd) as (c & Hc & Sm). apply (sim_PW _ c); auto.
  - intros d1 d2 sg H1 H2 R. destruct (A1 d1 H1) as (c1 & Hc1 & (E1 & _ & _ & E1' & _)). destruct (A2 d2 H2) as (c2 & Hc2 & (E2 & _ & _ & E2' & _)).
    rewrite E1', E2'. rewrite E1, E2 in R. eauto.
Qed.

(* ---------- cutting the parts again ---------- *)

Lemma map_opt_all {A B} (F : A -> option B) l : (forall a, In a l -> exists b, F a = Some b) -> exists r, map_opt F l = Some r.
Proof.
  induction l as [|a l IH]; intros H; simpl; eauto. destruct (H a (or_introl eq_refl)) as (b & ->). destruct IH as (r & ->); eauto.
  intros x Hx. apply H. simpl; auto.
Qed.
Lemma map_opt_in {A B} (F : A -> option B) l : forall r b, map_opt F l = Some r -> In b r -> exists a, In a l /\ F a = Some b.
Proof.
  induction l as [|a l IH]; intros r b; simpl. intros E. injection E as <-. intros [].
  destruct (F a) as [b'|] eqn:Ea; [|discriminate]. destruct (map_opt F l) as [r'|] eqn:Er; [|discriminate]. intros E. injection E as <-.
  intros [<-|H]. eauto. destruct (IH r' b eq_refl H) as (a' & H' & E). eauto.
Qed.
Lemma map_opt_in' {A B} (F : A -> option B) l : forall r a, map_opt F l = Some r -> In a l -> exists b, In b r /\ F a = Some b.
Proof.
  induction l as [|a' l IH]; intros r a; simpl; [tauto|].
  destruct (F a') as [b'|] eqn:Ea; [|discriminate]. destruct (map_opt F l) as [r'|] eqn:Er; [|discriminate]. intros E. injection E as <-.
  intros [<-|H]. exists b'. simpl; auto. destruct (IH r' a eq_refl H) as (b & H' & E). exists b. simpl; auto.
Qed.

Lemma map_step f L1 L2 F : Pair f L1 L2 ->
  (forall c, In c L1 \/ In c L2 -> exists d, F c = Some d /\ c_set d = c_set c /\ c_perm d = c_perm c /\ c_invert d = c_invert c /\
     PW f d /\ take_singles (rev (c_part d)) = Some (fst (c_score d))) ->
  (forall c1 c2 sg d1 d2, In c1 L1 -> In c2 L2 -> srel f sg (c_set c1) (c_set c2) -> F c1 = Some d1 -> F c2 = Some d2 ->
     pmatch sg (c_part d1) (c_part d2) /\ c_score d1 = c_score d2 /\ c_fp d1 = c_fp d2) ->
  exists L1' L2', map_opt F L1 = Some L1' /\ map_opt F L2 = Some L2' /\ Inv f L1' L2' /\ Fresh f L1' L2'.
Proof.
  intros P H1 H2.
  destruct (map_opt_all F L1) as (L1' & M1). { intros a Ha. destruct (H1 a (or_introl Ha)) as (d & E & _). eauto. }
  destruct (map_opt_all F L2) as (L2' & M2). { intros a Ha. destruct (H1 a (or_intror Ha)) as (d & E & _). eauto. }
  exists L1', L2'. split; auto. split; auto.
  assert (K1 : forall d, In d L1' -> exists c, In c L1 /\ F c = Some d /\ c_set d = c_set c /\ c_perm d = c_perm c /\ c_invert d = c_invert c /\
     PW f d /\ take_singles (rev (c_part d)) = Some (fst (c_score d))).
  { intros d Hd. destruct (map_opt_in F L1 L1' d M1 Hd) as (c & Hc & E). exists c. split; auto.
    destruct (H1 c (or_introl Hc)) as (d' & E' & R). assert (d' = d) by congruence. subst. auto. }
  assert (K2 : forall d, In d L2' -> exists c, In c L2 /\ F c = Some d /\ c_set d = c_set c /\ c_perm d = c_perm c /\ c_invert d = c_invert c /\
     PW f d /\ take_singles (rev (c_part d)) = Some (fst (c_score d))).
  { intros d Hd. destruct (map_opt_in F L2 L2' d M2 Hd) as (c & Hc & E). exists c. split; auto.
    destruct (H1 c (or_intror Hc)) as (d' & E' & R). assert (d' = d) by congruence. subst. auto. }
  assert (J1 : forall c, In c L1 -> exists d, In d L1' /\ c_set d = c_set c).
  { intros c Hc. destruct (map_opt_in' F L1 L1' c M1 Hc) as (d & Hd & E). exists d. split; auto.
    destruct (H1 c (or_introl Hc)) as (d' & E' & R). assert (d' = d) by congruence. subst. tauto. }
  assert (J2 : forall c, In c L2 -> exists d, In d L2' /\ c_set d = c_set c).
  { intros c Hc. destruct (map_opt_in' F L2 L2' c M2 Hc) as (d & Hd & E). exists d. split; auto.
    destruct (H1 c (or_intror Hc)) as (d' & E' & R). assert (d' = d) by congruence. subst. tauto. }
  assert (Q : forall d1 d2 sg, In d1 L1' -> In d2 L2' -> srel f sg (c_set d1) (c_set d2) ->
     pmatch sg (c_part d1) (c_part d2) /\ c_score d1 = c_score d2 /\ c_fp d1 = c_fp d2).
  { intros d1 d2 sg Hd1 Hd2 R. destruct (K1 d1 Hd1) as (c1 & Hc1 & E1 & S1 & _). destruct (K2 d2 Hd2) as (c2 & Hc2 & E2 & S2 & _).
    rewrite S1, S2 in R. eauto. }
  split.
  - constructor; [constructor|..].
    + intros ->. destruct L1 as [|c r]. now apply (ne1 _ _ _ P). destruct (J1 c (or_introl eq_refl)) as (? & [] & _).
    + intros d Hd. destruct (K1 d Hd) as (c & Hc & _ & E1 & E2 & E3 & _). unfold CW. rewrite E1, E2, E3. now apply (cw1 _ _ _ P).
    + intros d Hd. destruct (K2 d Hd) as (c & Hc & _ & E1 & E2 & E3 & _). unfold CW. rewrite E1, E2, E3. now apply (cw2 _ _ _ P).
    + intros d1 Hd. destruct (K1 d1 Hd) as (c1 & Hc & _ & E1 & _). destruct (cov12 _ _ _ P c1 Hc) as (c2 & sg & Hc2 & R).
      destruct (J2 c2 Hc2) as (d2 & Hd2 & E2). exists d2, sg. split; auto. now rewrite E1, E2.
    + intros d2 Hd. destruct (K2 d2 Hd) as (c2 & Hc & _ & E2 & _). destruct (cov21 _ _ _ P c2 Hc) as (c1 & sg & Hc1 & R).
      destruct (J1 c1 Hc1) as (d1 & Hd1 & E1). exists d1, sg. split; auto. now rewrite E1, E2.
    + intros d Hd. destruct (K1 d Hd) as (c & Hc & _ & E1 & E2 & E3 & W & _). auto.
    + intros d Hd. destruct (K2 d Hd) as (c & Hc & _ & E1 & E2 & E3 & W & _). auto.
    + intros d1 d2 sg Hd1 Hd2 R. now apply Q.
  - split. intros d1 d2 sg Hd1 Hd2 R. now apply (Q d1 d2 sg).
    intros d [Hd|Hd]. destruct (K1 d Hd) as (c & Hc & _ & E1 & E2 & E3 & W & T). auto. destruct (K2 d Hd) as (c & Hc & _ & E1 & E2 & E3 & W & T). auto.
Qed.

Lemma parts_len ps : parts_ok ps -> length ps <= length (parts_bits ps).
Proof.
  induction 1 as [|e r (NZ & L) O IH]; auto. change (parts_bits (e :: r)) with (bits n (fst e) ++ parts_bits r). rewrite app_length. simpl length at 1.
  apply (bits_nonempty n _ L) in NZ. destruct (bits n (fst e)); [congruence|]. simpl length. lia.
Qed.

(* the common end of initialize_partitions and refine *)
Definition recut (c : Cand) (r : option (list (nat * nat) * list nat)) : option Cand :=
  match r with
  | None => None
  | Some (p, fp) => if fits p && fits fp then sort_partition (mkCand (c_set c) (c_perm c) (c_invert c) fp p (c_score c)) else None
  end.

Lemma recut_ok f c ps fps : f < u -> parts_ok ps -> Permutation (parts_bits ps) (seq f (u - f)) -> map snd ps = seq 0 (length ps) -> length fps = u - f ->
  exists d, recut c (Some (ps, fps)) = Some d /\ c_set d = c_set c /\ c_perm d = c_perm c /\ c_invert d = c_invert c /\
     PW f d /\ take_singles (rev (c_part d)) = Some (fst (c_score d)).
Proof.
  intros Hf O P Hid Lf. cbn [recut].
  assert (Lb : length (parts_bits ps) = u - f) by (rewrite (Permutation_length P); apply seq_length).
  assert (F1 : fits ps = true). { unfold fits. apply Nat.leb_le. pose proof (parts_len ps O). lia. }
  assert (F2 : fits fps = true). { unfold fits. apply Nat.leb_le. lia. }
  rewrite F1, F2. cbn [andb].
  destruct (sort_ok n (mkCand (c_set c) (c_perm c) (c_invert c) fps ps (c_score c))) as (d & E & E1 & E2 & E3 & E4 & E5 & E6).
  { auto. } { cbn [c_part]. intros ->. simpl in Lb. lia. }
  exists d. cbn [c_set c_perm c_invert c_fp c_part] in *. repeat (split; [auto; fail|]). split; auto. split; [|split].
  - now apply (parts_ok_perm n ps); [symmetry|].
  - rewrite <- P. unfold CanonParts.parts_bits. now apply Permutation_flat_map.
  - rewrite E4. intros ->. simpl in Lf. lia.
Qed.

Lemma recut_match f sg c1 c2 ps1 ps2 fps d1 d2 : srel f sg (c_set c1) (c_set c2) -> parts_ok ps1 -> parts_ok ps2 -> map snd ps1 = seq 0 (length ps1) ->
  pmatch sg ps1 ps2 -> recut c1 (Some (ps1, fps)) = Some d1 -> recut c2 (Some (ps2, fps)) = Some d2 ->
  pmatch sg (c_part d1) (c_part d2) /\ c_score d1 = c_score d2 /\ c_fp d1 = c_fp d2.
Proof.
  intros (_ & (P & _) & _) O1 O2 Hid M. cbn [recut]. destruct (fits ps1 && fits fps); [|discriminate]. destruct (fits ps2 && fits fps); [|discriminate].
  intros E1 E2. assert (N : NoDup (map snd ps1)) by (rewrite Hid; apply seq_NoDup).
  destruct (sort_match n sg (mkCand (c_set c1) (c_perm c1) (c_invert c1) fps ps1 (c_score c1)) (mkCand (c_set c2) (c_perm c2) (c_invert c2) fps ps2 (c_score c2)) P M O1 O2 N d1 d2 E1 E2) as (A & B).
  split; auto. split; auto.
  assert (Hfp : forall c d, sort_partition c = Some d -> c_fp d = c_fp c).
  { intros c d. unfold sort_partition. destruct (take_singles _); [|discriminate]. destruct (isort part_leb (c_part c)); [discriminate|]. intros E. now injection E as <-. }
  rewrite (Hfp _ _ E1), (Hfp _ _ E2). reflexivity.
Qed.

Lemma Permutation_perm_seq f sg : fixes n u f sg -> Permutation (map (fun c => nth c sg 0) (seq f (u - f))) (seq f (u - f)).
Proof.
  intros F. pose proof F as (P & _). apply NoDup_Permutation_bis.
  - apply NoDup_map_on. apply seq_NoDup. intros x y Hx Hy. apply in_seq in Hx, Hy. apply (is_perm_inj n sg); auto; lia.
  - rewrite map_length. auto.
  - intros y Hy. apply in_map_iff in Hy. destruct Hy as (x & <- & Hx). apply in_seq in Hx. apply in_seq.
    pose proof (fixes_range n u Hu f sg x F). lia.
Qed.

Lemma initialize_step L1 L2 : 0 < u -> Pair 0 L1 L2 -> (forall c, In c L1 \/ In c L2 -> c_part c = [] /\ c_fp c = []) ->
  exists L1' L2', map_opt (initialize_cand u) L1 = Some L1' /\ map_opt (initialize_cand u) L2 = Some L2' /\ Inv 0 L1' L2' /\ Fresh 0 L1' L2'.
Proof.
  intros Hu0 P E0.
  assert (EQ : forall c, In c L1 \/ In c L2 -> initialize_cand u c = recut c (split_part (channel_fingerprint (c_set c)) (seq 0 u) 0)).
  { intros c Hc. destruct (E0 c Hc) as (Ep & Ef). unfold initialize_cand, recut. destruct (split_part _ _ _) as [(ps & fps)|]; auto. now rewrite Ep, Ef. }
  assert (NE : seq 0 u <> []) by (destruct u; [lia|discriminate]).
  assert (Lt : forall c, In c (seq 0 u) -> c < n) by (intros c Hc; apply in_seq in Hc; lia).
  apply map_step; auto.
  - intros c Hc. rewrite EQ by auto. 
    destruct (split_ok n (channel_fingerprint (c_set c)) (seq 0 u) 0 NE (seq_NoDup _ _) Lt) as (ps & fps & -> & Hid & Hb & O & Lf).
    rewrite seq_length in Lf. apply recut_ok; auto. now rewrite Nat.sub_0_r. lia.
  - intros c1 c2 sg d1 d2 H1 H2 R. rewrite !EQ by auto. pose proof R as (Cs & F & Rl). pose proof F as (Pp & _).
    destruct (split_ok n (channel_fingerprint (c_set c1)) (seq 0 u) 0 NE (seq_NoDup _ _) Lt) as (ps1 & fps1 & E1 & Hid & Hb & O1 & _).
    destruct (split_ok n (channel_fingerprint (c_set c2)) (seq 0 u) 0 NE (seq_NoDup _ _) Lt) as (ps2 & fps2 & E2 & _ & _ & O2 & _).
    destruct (split_match n sg (channel_fingerprint (c_set c1)) (channel_fingerprint (c_set c2)) (seq 0 u) (seq 0 u) 0 Pp) as (ps1' & ps2' & fps & E1' & E2' & M); auto.
    { pose proof (Permutation_perm_seq 0 sg F) as PS. now rewrite Nat.sub_0_r in PS. }
    { intros c Hc. apply channel_fingerprint_relabel; auto. rewrite Cs. auto. }
    rewrite E1' in E1. injection E1 as -> ->. rewrite E2' in E2. injection E2 as -> ->. rewrite E1', E2'. now apply (recut_match 0 sg).
Qed.

Lemma refine_step f L1 L2 : f < u -> Inv f L1 L2 ->
  exists L1' L2', map_opt (refine_cand hash f) L1 = Some L1' /\ map_opt (refine_cand hash f) L2 = Some L2' /\ Inv f L1' L2' /\ Fresh f L1' L2'.
Proof.
  intros Hf [P W1 W2 C].
  assert (EQ : forall c, refine_cand hash f c = recut c (refine_parts (low_channels_channel_fingerprint hash (c_set c) f) (c_part c) 0)) by reflexivity.
  assert (W : forall c, In c L1 \/ In c L2 -> PW f c) by (intros c [|]; auto).
  assert (ND : forall c, PW f c -> NoDup (parts_bits (c_part c))). { intros c (_ & Pb & _). apply (Permutation_NoDup (Permutation_sym Pb)), seq_NoDup. }
  apply map_step; auto.
  - intros c Hc. rewrite EQ. pose proof (W c Hc) as Wc. pose proof Wc as (O & Pb & _).
    destruct (refine_ok n (low_channels_channel_fingerprint hash (c_set c) f) (c_part c) O (ND c Wc) 0) as (ps & fps & -> & Hid & Hb & O' & Lf & _).
    apply recut_ok; auto. now rewrite Hb. rewrite Lf, (Permutation_length Pb). apply seq_length.
  - intros c1 c2 sg d1 d2 H1 H2 R. rewrite !EQ. pose proof R as (Cs & F & Rl). pose proof F as (Pp & Fx).
    pose proof (W1 c1 H1) as Wc1. pose proof (W2 c2 H2) as Wc2. pose proof Wc1 as (O1 & Pb1 & _). pose proof Wc2 as (O2 & Pb2 & _).
    destruct (refine_ok n (low_channels_channel_fingerprint hash (c_set c1) f) (c_part c1) O1 (ND c1 Wc1) 0) as (ps1 & fps1 & E1 & Hid & _ & O1' & _).
    destruct (refine_ok n (low_channels_channel_fingerprint hash (c_set c2) f) (c_part c2) O2 (ND c2 Wc2) 0) as (ps2 & fps2 & E2 & _ & _ & O2' & _).
    destruct (refine_match n sg (low_channels_channel_fingerprint hash (c_set c1) f) (low_channels_channel_fingerprint hash (c_set c2) f) Pp (c_part c1) (c_part c2)) with (id := 0) as (ps1' & ps2' & fps & E1' & E2' & M); auto.
    { intros c Hc. apply (Permutation_in _ Pb2) in Hc. apply in_seq in Hc. unfold low_channels_channel_fingerprint. apply (f_equal hash).
      apply low_ch_fp_relabel; auto; try lia. intros i Hi. apply Fx; lia. }
    rewrite E1' in E1. injection E1 as -> ->. rewrite E2' in E2. injection E2 as -> ->. rewrite E1', E2'. now apply (recut_match f sg).
Qed.

(* ---------- prune_using_fingerprints ---------- *)

Lemma prune_fp_step f L1 L2 : Inv f L1 L2 -> Fresh f L1 L2 -> exists k L1' L2',
  prune_using_fingerprints (mkCanonicalize u f L1) = Some (mkCanonicalize u f L1') /\
  prune_using_fingerprints (mkCanonicalize u f L2) = Some (mkCanonicalize u f L2') /\ Inv f L1' L2' /\ Uniform k L1' L2'.
Proof.
  intros I (F1 & F2). pose proof (i_pair _ _ _ I) as P. pose proof (ne1 _ _ _ P) as N1. pose proof (ne2 _ _ _ P) as N2.
  unfold prune_using_fingerprints. cbn [z_layer z_used z_fixed].
  destruct L1 as [|a1 r1] eqn:E1; [congruence|]. destruct L2 as [|a2 r2] eqn:E2; [congruence|]. rewrite <- E1, <- E2 in *.
  destruct (best_score_spec a1 r1) as (B1 & M1). destruct (best_score_spec a2 r2) as (B2 & M2).
  set (b1 := best_score a1 r1) in *. set (b2 := best_score a2 r2) in *. rewrite <- E1 in *. rewrite <- E2 in *.
  assert (K : skey b1 = skey b2).
  { destruct (cov12 _ _ _ P b1 B1) as (c2 & sg & H2 & R). destruct (cov21 _ _ _ P b2 B2) as (c1 & sg' & H1 & R').
    assert (K1 : skey b1 = skey c2) by (apply skey_eq, (F1 _ _ sg); auto).
    assert (K2 : skey c1 = skey b2) by (apply skey_eq, (F1 _ _ sg'); auto).
    pose proof (M1 c1 H1) as G1. pose proof (M2 c2 H2) as G2. rewrite K2 in G1. rewrite <- K1 in G2.
    apply (o_eq _ ocmp_scmp). rewrite (o_opp _ ocmp_scmp (skey b1) (skey b2)) in G2.
    destruct (scmp (skey b1) (skey b2)); simpl in *; congruence. }
  assert (G : forall x m, match score_cmp x m with Eq => true | _ => false end = true <-> skey x = skey m).
  { intros x m. rewrite score_cmp_key, <- (o_eq _ ocmp_scmp). destruct (scmp (skey x) (skey m)); split; congruence. }
  eexists (fst (c_score b1)), _, _. split; [reflexivity|]. split; [reflexivity|]. split.
  - apply Inv_filter; auto.
    + intros c1 c2 sg H1 H2 R. apply eq_true_iff_eq. rewrite !G, K.
      assert (skey c1 = skey c2) by (apply skey_eq, (F1 _ _ sg); auto). intuition congruence.
    + exists b1. split; auto. now apply G.
  - intros c [Hc|Hc]; apply filter_In in Hc; destruct Hc as (Hc & Hk); apply G in Hk; rewrite F2 by auto; f_equal.
    + apply skey_eq in Hk. now destruct Hk as (-> & _).
    + rewrite <- K in Hk. apply skey_eq in Hk. now destruct Hk as (-> & _).
Qed.

(* ---------- moving singletons ---------- *)

Lemma rev_last {A} (l : list A) e r : rev l = e :: r -> l = removelast l ++ [e] /\ rev (removelast l) = r.
Proof.
  intros E. assert (El : l = rev r ++ [e]) by (rewrite <- (rev_involutive l), E; reflexivity).
  rewrite El, removelast_last. split; auto. apply rev_involutive.
Qed.

Lemma CW_swap s c a b c' : CW s c -> a < n -> b < n -> c_set c' = swap_channels (c_set c) a b -> c_perm c' = swap_list (c_perm c) a b ->
  c_invert c' = c_invert c -> CW s c'.
Proof.
  intros (W & Cn & P & Iso & Hi) Ha Hb E1 E2 E3. unfold CW. rewrite E1, E2, E3.
  split. apply swap_channels_wf; auto; lia. split. now rewrite swap_channels_channels. split. now apply swap_list_perm. split; auto.
  intros y. pose proof (swap_channels_vs (c_set c) a b ltac:(lia) ltac:(lia) W y) as SV. rewrite SV.
  rewrite (swap_list_comp n) by (auto; now apply is_perm_length). split.
  - intros (z & Hz & ->). apply Iso in Hz. destruct Hz as (x & Hx & ->). exists x. split; auto.
    rewrite (swapv_permute n) by (auto; rewrite permute_length; now apply is_perm_length).
    apply (permute_comp n); auto. now apply transp_perm_is_perm.
  - intros (x & Hx & ->). exists (permute (c_perm c) (complement_if (c_invert c) x)). split. apply Iso. now exists x.
    rewrite (swapv_permute n) by (auto; rewrite permute_length; now apply is_perm_length).
    symmetry. apply (permute_comp n); auto. now apply transp_perm_is_perm.
Qed.

Lemma swap_list_same p a : swap_list p a a = p.
Proof.
  apply nth_ext_lt with (d := 0). apply swap_list_length. rewrite swap_list_length. intros i Hi. unfold swap_list. rewrite !upd_nth, upd_length.
  destruct (Nat.eqb_spec i a); simpl; auto. subst. apply Nat.ltb_lt in Hi. now rewrite Hi.
Qed.

Lemma map_id_in {A} (g : A -> A) l : (forall x, In x l -> g x = x) -> map g l = l.
Proof. induction l; simpl; intros H; auto. rewrite H, IHl by auto. auto. Qed.

Lemma move_cand_eq f a c : nobit a (removelast (c_part c)) ->
  move_cand f a c = mkCand (swap_channels (c_set c) a f) (swap_list (c_perm c) a f) (c_invert c) (c_fp c)
                           (map (swap_part a f) (removelast (c_part c))) (c_score c).
Proof.
  intros N. unfold move_cand. destruct (Nat.eqb_spec a f) as [->|]; auto. f_equal.
  - unfold swap_channels. now rewrite Nat.eqb_refl.
  - symmetry. apply swap_list_same.
  - symmetry. apply map_id_in. intros x Hx. apply swap_part_same. now apply N.
Qed.

Lemma nobit_of f a ps : parts_ok ps -> Permutation (a :: parts_bits ps) (seq f (u - f)) -> nobit a ps.
Proof.
  intros O P e He. destruct (Nat.testbit (fst e) a) eqn:T; auto. exfalso.
  assert (ND : NoDup (a :: parts_bits ps)) by (apply (Permutation_NoDup (Permutation_sym P)), seq_NoDup).
  apply NoDup_cons_iff in ND. destruct ND as (Na & _). apply Na. apply in_flat_map. exists e. split; auto. apply bits_In. split; auto.
  assert (In a (seq f (u - f))) by (apply (Permutation_in _ P); simpl; auto). apply in_seq in H. lia.
Qed.

(* the last part of a candidate with a final singleton *)
Lemma last_single f c k : PW f c -> take_singles (rev (c_part c)) = Some (S k) -> exists a ps id,
  c_part c = ps ++ [(2 ^ a, id)] /\ removelast (c_part c) = ps /\ rev (c_part c) = (2 ^ a, id) :: rev ps /\ is_single (2 ^ a) = Some true /\ ctz (2 ^ a) = a /\
  f < u /\ f <= a < u /\ parts_ok ps /\ Permutation (a :: parts_bits ps) (seq f (u - f)) /\ nobit a ps /\ take_singles (rev ps) = Some k.
Proof.
  intros (O & Pb & _) T. destruct (rev (c_part c)) as [|e r] eqn:E; [discriminate|]. destruct (rev_last _ _ _ E) as (E1 & E2).
  set (ps := removelast (c_part c)) in *. rewrite E1 in O, Pb. apply Forall_app in O. destruct O as (O & Oe). inversion Oe as [|? ? (NZ & L) _]. subst x l.
  simpl in T. destruct (is_single (fst e)) as [[|]|] eqn:Es; try discriminate. destruct (take_singles r) as [k'|] eqn:Tr; [|discriminate]. injection T as ->.
  pose proof (single_ctz n (fst e) L NZ Es) as B. apply (bits_single n _ _ L) in B as (Ee & Hlt). set (a := ctz (fst e)) in *.
  exists a, ps, (snd e). assert (Ee' : e = (2 ^ a, snd e)) by (rewrite <- Ee; now destruct e).
  assert (Pa : Permutation (a :: parts_bits ps) (seq f (u - f))).
  { rewrite <- Pb. rewrite parts_bits_app. assert (Eb : parts_bits [e] = [a]). { unfold CanonParts.parts_bits. simpl. rewrite app_nil_r. apply (bits_single n); auto. }
    rewrite Eb. apply Permutation_cons_append. }
  assert (Ha : f <= a < u). { assert (In a (seq f (u - f))) by (apply (Permutation_in _ Pa); simpl; auto). apply in_seq in H. lia. }
  rewrite <- Ee'. split; auto. split; auto. split. congruence. split. congruence. split. unfold a at 2. now rewrite Ee.
  split; [lia|]. split; auto. split; auto. split; auto. split. now apply (nobit_of f). congruence.
Qed.

Definition last_ctz (c : Cand) : nat := match rev (c_part c) with e :: _ => ctz (fst e) | [] => 0 end.
Definition moved (f : nat) (c : Cand) : Cand := move_cand f (last_ctz c) c.

Lemma move_layer_S f k L : (forall c, In c L -> PW f c) -> (forall c, In c L -> take_singles (rev (c_part c)) = Some (S k)) ->
  move_layer f L = Some (true, map (moved f) L).
Proof.
  induction L as [|c r IH]; intros W T; auto.
  destruct (last_single f c k) as (a & ps & id & E1 & E2 & E3 & Es & Ec & _); [apply W; simpl; auto|apply T; simpl; auto|].
  cbn [move_layer map]. unfold moved at 1, last_ctz at 1. rewrite E3. cbn [fst]. rewrite Es. rewrite IH; auto.
  - intros x Hx. apply W. simpl; auto.
  - intros x Hx. apply T. simpl; auto.
Qed.

Lemma move_layer_0 f L : L <> [] -> (forall c, In c L -> take_singles (rev (c_part c)) = Some 0) -> move_layer f L = Some (false, L).
Proof.
  destruct L as [|c r]; intros NE T; [congruence|]. specialize (T c (or_introl eq_refl)). cbn [move_layer].
  destruct (rev (c_part c)) as [|e l]; auto. simpl in T. destruct (is_single (fst e)) as [[|]|]; try discriminate; auto.
  destruct (take_singles l); discriminate.
Qed.

Lemma move_step f k L1 L2 : Inv f L1 L2 -> Uniform (S k) L1 L2 ->
  Inv (S f) (map (moved f) L1) (map (moved f) L2) /\ Uniform k (map (moved f) L1) (map (moved f) L2) /\ f < u.
Proof.
  intros [P W1 W2 C] U.
  assert (K : forall c, In c L1 \/ In c L2 -> exists a ps id, c_part c = ps ++ [(2 ^ a, id)] /\ f < u /\ f <= a < u /\ nobit a ps /\
     moved f c = mkCand (swap_channels (c_set c) a f) (swap_list (c_perm c) a f) (c_invert c) (c_fp c) (map (swap_part a f) ps) (c_score c) /\
     PW (S f) (moved f c) /\ take_singles (rev (c_part (moved f c))) = Some k).
  { intros c Hc. assert (Wc : PW f c) by (destruct Hc; auto).
    destruct (last_single f c k Wc (U c Hc)) as (a & ps & id & E1 & E2 & E3 & Es & Ec & Hf & Ha & O & Pa & Nb & Tk).
    exists a, ps, id. split; auto. split; auto. split; auto. split; auto.
    assert (Em : moved f c = mkCand (swap_channels (c_set c) a f) (swap_list (c_perm c) a f) (c_invert c) (c_fp c) (map (swap_part a f) ps) (c_score c)).
    { unfold moved, last_ctz. rewrite E3. cbn [fst]. rewrite Ec. rewrite move_cand_eq, E2; auto. now rewrite E2. }
    split; auto. rewrite Em. unfold PW. cbn [c_part c_fp].
    destruct (swap_parts n u Hu a f ps) as (O' & _ & _); auto; try lia.
    split. split; [auto|split; [|apply Wc]]. now apply swap_parts_cover.
    rewrite <- map_rev. destruct (swap_parts n u Hu a f (rev ps)) as (_ & _ & ->); auto; try lia.
    - intros e He. apply Nb. now apply in_rev.
    - now apply (parts_ok_perm n ps); [apply Permutation_rev|]. }
  assert (BW : forall c1 c2 sg', In c1 L1 -> In c2 L2 -> srel (S f) sg' (c_set (moved f c1)) (c_set (moved f c2)) ->
     pmatch sg' (c_part (moved f c1)) (c_part (moved f c2))).
  { intros c1 c2 sg' H1 H2 R'.
    destruct (K c1 (or_introl H1)) as (a1 & ps1 & id1 & E1 & Hf & Ha1 & Nb1 & Em1 & _). destruct (K c2 (or_intror H2)) as (a2 & ps2 & id2 & E2 & _ & Ha2 & Nb2 & Em2 & _).
    rewrite Em1, Em2 in *. cbn [c_set c_part] in *. destruct (cw1 _ _ _ P c1 H1) as (Ws & Cs & _). destruct (cw2 _ _ _ P c2 H2) as (Wt & Ct & _).
    destruct (move_backward n u Hu f a1 a2 sg' (c_set c1) (c_set c2)) as (sg & R & _ & Hi); auto.
    pose proof (C c1 c2 sg H1 H2 R) as M. rewrite E1, E2 in M. apply (swap_pmatch n u Hu f a1 a2 sg); auto. apply R'.
    apply Forall2_app_inv_l in M. destruct M as (l1 & l2 & M1 & M2 & El).
    assert (Hl : length l2 = 1) by (apply Forall2_len in M2; simpl in M2; auto). destruct l2 as [|x [|]]; try discriminate.
    apply app_inj_tail in El. destruct El as (-> & _). auto. }
  assert (FW : forall c1 c2 sg, In c1 L1 -> In c2 L2 -> srel f sg (c_set c1) (c_set c2) -> exists sg', srel (S f) sg' (c_set (moved f c1)) (c_set (moved f c2))).
  { intros c1 c2 sg H1 H2 R.
    destruct (K c1 (or_introl H1)) as (a1 & ps1 & id1 & E1 & Hf & Ha1 & Nb1 & Em1 & _). destruct (K c2 (or_intror H2)) as (a2 & ps2 & id2 & E2 & _ & Ha2 & Nb2 & Em2 & _).
    rewrite Em1, Em2 in *. cbn [c_set c_part] in *. apply (move_forward n u Hu f a1 a2 sg); auto.
    pose proof (C c1 c2 sg H1 H2 R) as M. rewrite E1, E2 in M. apply Forall2_rev' in M. rewrite !rev_app_distr in M. simpl in M. inversion M as [|? ? ? ? (_ & Hm) _]. subst.
    specialize (Hm a2 ltac:(lia)). cbn [fst] in Hm. rewrite !pow2_testbit, Nat.eqb_refl in Hm. symmetry in Hm. apply Nat.eqb_eq in Hm. auto. }
  split; [constructor; [constructor|..]|split].
  - intros E. apply map_eq_nil in E. now apply (ne1 _ _ _ P).
  - intros d Hd. apply in_map_iff in Hd. destruct Hd as (c & <- & Hc). destruct (K c (or_introl Hc)) as (a & ps & id & E & Hf & Ha & Nb & Em & _).
    apply (CW_swap s1 c a f); rewrite ?Em; auto; try lia. now apply (cw1 _ _ _ P).
  - intros d Hd. apply in_map_iff in Hd. destruct Hd as (c & <- & Hc). destruct (K c (or_intror Hc)) as (a & ps & id & E & Hf & Ha & Nb & Em & _).
    apply (CW_swap s2 c a f); rewrite ?Em; auto; try lia. now apply (cw2 _ _ _ P).
  - intros d1 Hd. apply in_map_iff in Hd. destruct Hd as (c1 & <- & H1). destruct (cov12 _ _ _ P c1 H1) as (c2 & sg & H2 & R).
    destruct (FW c1 c2 sg H1 H2 R) as (sg' & R'). exists (moved f c2), sg'. split; auto. now apply in_map.
  - intros d2 Hd. apply in_map_iff in Hd. destruct Hd as (c2 & <- & H2). destruct (cov21 _ _ _ P c2 H2) as (c1 & sg & H1 & R).
    destruct (FW c1 c2 sg H1 H2 R) as (sg' & R'). exists (moved f c1), sg'. split; auto. now apply in_map.
  - intros d Hd. apply in_map_iff in Hd. destruct Hd as (c & <- & Hc). destruct (K c (or_introl Hc)) as (a & ps & id & E & Hf & Ha & Nb & Em & Wd & _). auto.
  - intros d Hd. apply in_map_iff in Hd. destruct Hd as (c & <- & Hc). destruct (K c (or_intror Hc)) as (a & ps & id & E & Hf & Ha & Nb & Em & Wd & _). auto.
  - intros d1 d2 sg Hd1 Hd2 R. apply in_map_iff in Hd1, Hd2. destruct Hd1 as (c1 & <- & H1), Hd2 as (c2 & <- & H2). now apply BW.
  - intros d [Hd|Hd]; apply in_map_iff in Hd; destruct Hd as (c & <- & Hc).
    destruct (K c (or_introl Hc)) as (a & ps & id & E & Hf & Ha & Nb & Em & Wd & Tk). auto. destruct (K c (or_intror Hc)) as (a & ps & id & E & Hf & Ha & Nb & Em & Wd & Tk). auto.
  - pose proof (ne1 _ _ _ P). destruct L1 as [|c r]; [congruence|]. destruct (K c (or_introl (or_introl eq_refl))) as (a & ps & id & E & Hf & _). auto.
Qed.

Lemma move_singletons_step : forall k fuel b f L1 L2, Inv f L1 L2 -> Uniform k L1 L2 -> k < fuel -> exists L1' L2',
  move_singletons fuel b (mkCanonicalize u f L1) = Some (b || (0 <? k), mkCanonicalize u (k + f) L1') /\
  move_singletons fuel b (mkCanonicalize u f L2) = Some (b || (0 <? k), mkCanonicalize u (k + f) L2') /\
  Inv (k + f) L1' L2' /\ Uniform 0 L1' L2'.
Proof.
  induction k as [|k IH]; intros fuel b f L1 L2 I U L; (destruct fuel as [|fuel]; [lia|]); cbn [move_singletons]; unfold move_singleton; cbn [z_fixed z_layer z_used].
  - rewrite !move_layer_0; auto; [|apply (ne2 _ _ _ (i_pair _ _ _ I))|apply (ne1 _ _ _ (i_pair _ _ _ I))].
    exists L1, L2. rewrite orb_false_r. auto.
  - rewrite (move_layer_S f k L1), (move_layer_S f k L2); auto; try apply I.
    destruct (move_step f k L1 L2 I U) as (I' & U' & _).
    destruct (IH fuel true (S f) _ _ I' U' ltac:(lia)) as (L1' & L2' & E1 & E2 & I'' & U'').
    exists L1', L2'. rewrite E1, E2. replace (S k + f) with (k + S f) by lia. change (0 <? S k) with true. rewrite orb_true_r. auto.
Qed.

(* the number of final singletons is bounded *)
Lemma take_singles_le l : forall k, take_singles l = Some k -> k <= length l.
Proof.
  induction l as [|e r IH]; simpl; intros k. intros E. injection E as <-. lia.
  destruct (is_single (fst e)) as [[|]|]; try discriminate. destruct (take_singles r) as [k'|]; [|discriminate]. intros E. injection E as <-.
  specialize (IH k' eq_refl). lia. intros E. injection E as <-. lia.
Qed.
Lemma Uniform_le f k L1 L2 : Inv f L1 L2 -> Uniform k L1 L2 -> k <= u - f.
Proof.
  intros I U. pose proof (ne1 _ _ _ (i_pair _ _ _ I)). destruct L1 as [|c r]; [congruence|].
  assert (Hc : In c (c :: r)) by (simpl; auto). pose proof (U c (or_introl Hc)) as T. apply take_singles_le in T. rewrite rev_length in T.
  destruct (i_pw1 _ _ _ I c Hc) as (O & Pb & _). apply parts_len in O. rewrite (Permutation_length Pb), seq_length in O. lia.
Qed.

End Steps.
