(* The subsumption search with machine checks and with its scratch buffer agrees with SubsumeModel.v. *)
From Coq Require Import List Arith Bool Lia.
Import ListNotations.
From Verif Require Import Spec Util Vec Bits OutputSetModel OutputSetProofs AbsProofs SubsumeModel SubsumeProofs CanonBits
  MachineModel MachineProofs SubsumeMachModel.

Section Agree.
Variable n : nat.
Hypothesis Nmax : n <= MAX_CHANNELS.

Definition act_ok (a : UndoAction) : Prop :=
  match a with
  | UMatching chs => fst chs < n /\ snd chs < n
  | USwap t src => t < n /\ fst src < n /\ snd src < n
  end.

Record Shape (st : Subsume) : Prop := {
  sh_ch : s_channels st = n;
  sh_mlen : forall side, length (sel side (s_matching st)) = n;
  sh_mlt : forall side, Forall (fun m => m < 2 ^ n) (sel side (s_matching st));
  sh_plen : forall side, length (sel side (s_perms st)) = n;
  sh_plt : forall side, Forall (fun c => c < n) (sel side (s_perms st));
  sh_wf : forall side, wf (sel side (s_sets st)) /\ channels (sel side (s_sets st)) = n;
  sh_undo : Forall act_ok (s_undo st);
  sh_fixed : s_fixed st <= n }.

Lemma shl16_ok c : c <= n -> shl16 c = Some (2 ^ c).
Proof.
  intros H. unfold shl16. unfold MAX_CHANNELS in Nmax. assert (E : c <? 16 = true) by (apply Nat.ltb_lt; lia). now rewrite E.
Qed.

Lemma Forall_nth_lt (P : nat -> Prop) l i : Forall P l -> i < length l -> P (nth i l 0).
Proof. intros F H. rewrite Forall_forall in F. apply F. now apply nth_In. Qed.

Lemma Forall_upd (P : nat -> Prop) l i v : Forall P l -> P v -> Forall P (upd l i v).
Proof.
  intros F V. revert i. induction F as [|a l Pa F IH]; intros [|i]; simpl; constructor; auto.
Qed.

Lemma mask_ok st side c : Shape st -> c < n -> mask_c st side c = Some (mask_of st side c) /\ mask_of st side c < 2 ^ n.
Proof.
  intros Sh C. pose proof (sh_mlen st Sh side) as L. unfold mask_c, mask_of. split.
  - apply rd_lt. lia.
  - apply (Forall_nth_lt (fun m => m < 2 ^ n)). apply (sh_mlt st Sh). lia.
Qed.

Lemma perm_ok st side c : Shape st -> c < n ->
  rd (sel side (s_perms st)) c = Some (nth c (sel side (s_perms st)) 0) /\ nth c (sel side (s_perms st)) 0 < n.
Proof.
  intros Sh C. pose proof (sh_plen st Sh side) as L. split.
  - apply rd_lt. lia.
  - apply (Forall_nth_lt (fun m => m < n)). apply (sh_plt st Sh). lia.
Qed.

Definition keeps (st st' : Subsume) : Prop :=
  Shape st' /\ length (s_undo st) <= length (s_undo st') /\ s_fixed st' = s_fixed st /\ s_perms st' = s_perms st /\
  s_sets st' = s_sets st.

Lemma keeps_refl st : Shape st -> keeps st st.
Proof. intros. repeat split; auto; apply H. Qed.

Lemma keeps_trans a b c : keeps a b -> keeps b c -> keeps a c.
Proof.
  intros (_ & L & F & P & E) (Sc & L' & F' & P' & E'). split; auto. split; [lia|]. split; [congruence|]. split; congruence.
Qed.

Lemma set_mask_ok st side c m : Shape st -> c < n -> m < 2 ^ n ->
  set_mask_c st side c m = Some (set_mask st side c m) /\ keeps st (set_mask st side c m).
Proof.
  intros Sh C M. unfold set_mask_c, set_mask. rewrite wr_lt by (rewrite (sh_mlen st Sh); auto). split; auto.
  split; [|split; [simpl; lia|repeat split]].
  constructor; simpl; try apply Sh.
  - intros side'. rewrite sel_put. destruct (eqb side' side). rewrite upd_length. all: apply Sh.
  - intros side'. rewrite sel_put. destruct (eqb side' side). apply Forall_upd; auto. all: apply Sh.
Qed.

Lemma push_ok st a : Shape st -> act_ok a -> keeps st (push_undo st a).
Proof.
  intros Sh A. split; [|split; [simpl; lia|repeat split]]. constructor; simpl; try apply Sh. constructor; auto. apply Sh.
Qed.

Lemma sel_lt (chs : nat * nat) side : fst chs < n -> snd chs < n -> sel side chs < n.
Proof. now destruct side. Qed.

Lemma restore_edge_ok st chs side : Shape st -> fst chs < n -> snd chs < n ->
  restore_edge_c st chs side = Some (restore_edge st chs side) /\ keeps st (restore_edge st chs side).
Proof.
  intros Sh H0 H1. unfold restore_edge_c, restore_edge.
  pose proof (sel_lt chs side H0 H1) as Ha. pose proof (sel_lt chs (negb side) H0 H1) as Hb.
  destruct (mask_ok st side _ Sh Ha) as (E1 & L1). rewrite E1. rewrite shl16_ok by lia.
  destruct (set_mask_ok st side (sel side chs) (Nat.lor (mask_of st side (sel side chs)) (2 ^ sel (negb side) chs)) Sh Ha) as (E2 & K2).
  { apply lor_lt; auto using pow2_lt_pow2. }
  rewrite E2. pose proof (proj1 K2) as Sh2. clear E2.
  set (st1 := set_mask st side (sel side chs) _) in *.
  destruct (mask_ok st1 (negb side) _ Sh2 Hb) as (E3 & L3). rewrite E3. rewrite shl16_ok by lia.
  destruct (set_mask_ok st1 (negb side) (sel (negb side) chs) (Nat.lor (mask_of st1 (negb side) (sel (negb side) chs)) (2 ^ sel side chs)) Sh2 Hb) as (E4 & K4).
  { apply lor_lt; auto using pow2_lt_pow2. }
  split; [exact E4|eapply keeps_trans; eauto].
Qed.

Lemma swap_list_ok p a b : length p = n -> Forall (fun c => c < n) p -> a < n -> b < n ->
  swap_list_c p a b = Some (swap_list p a b) /\ length (swap_list p a b) = n /\ Forall (fun c => c < n) (swap_list p a b).
Proof.
  intros L F A B. unfold swap_list_c, swap_list. rewrite (rd_lt p a 0), (rd_lt p b 0) by lia.
  rewrite wr_lt by lia. rewrite wr_lt by (rewrite upd_length; lia). rewrite !upd_length. split; auto. split; auto.
  apply Forall_upd. apply Forall_upd; auto. all: apply (Forall_nth_lt (fun c => c < n)); auto; lia.
Qed.

Lemma swap_side_ok st side t s : Shape st -> t < n -> s < n ->
  swap_side_c st side t s = Some (swap_side st side t s) /\ Shape (swap_side st side t s) /\
  s_undo (swap_side st side t s) = s_undo st /\ s_fixed (swap_side st side t s) = s_fixed st.
Proof.
  intros Sh T S. unfold swap_side_c, swap_side. destruct (sh_wf st Sh side) as (W & C).
  rewrite swap_ok by (auto; rewrite C; auto).
  destruct (swap_list_ok (sel side (s_perms st)) t s) as (E & L & F); auto; try apply Sh. rewrite E. split; auto.
  split; [|auto]. constructor; simpl; try apply Sh.
  - intros side'. rewrite sel_put. destruct (eqb side' side); auto. apply Sh.
  - intros side'. rewrite sel_put. destruct (eqb side' side); auto. apply Sh.
  - intros side'. rewrite sel_put. destruct (eqb side' side); [|apply Sh].
    rewrite swap_channels_channels. split; auto. apply swap_channels_wf; auto; rewrite C; auto.
Qed.

Lemma set_fixed_shape st k : Shape st -> k <= n -> Shape (set_fixed st k).
Proof. intros Sh K. constructor; simpl; auto; apply Sh. Qed.

Lemma undo_action_ok st a : Shape st -> act_ok a ->
  undo_action_c st a = Some (undo_action st a) /\ Shape (undo_action st a).
Proof.
  intros Sh A. destruct a as [chs|t src]; simpl in A; unfold undo_action_c, undo_action.
  - destruct A as (A0 & A1). destruct (restore_edge_ok st chs false Sh A0 A1) as (E1 & K1). rewrite E1.
    destruct (restore_edge_ok _ chs true (proj1 K1) A0 A1) as (E2 & K2). split; auto. apply K2.
  - destruct A as (A0 & A1 & A2). destruct (swap_side_ok st false t (fst src) Sh A0 A1) as (E1 & S1 & _). rewrite E1.
    destruct (swap_side_ok _ true t (snd src) S1 A0 A2) as (E2 & S2 & _). auto.
Qed.

Lemma undo_all_ok l : Forall act_ok l -> forall st, Shape st ->
  fold_opt undo_action_c l st = Some (fold_left undo_action l st) /\ Shape (fold_left undo_action l st).
Proof.
  induction 1 as [|a l A F IH]; intros st Sh; cbn [fold_opt fold_left]; auto.
  destruct (undo_action_ok st a Sh A) as (E & S'). rewrite E. auto.
Qed.

Lemma Forall_firstn {A} (P : A -> Prop) k l : Forall P l -> Forall P (firstn k l).
Proof. intros F. rewrite <- (firstn_skipn k l) in F. apply Forall_app in F. tauto. Qed.

Lemma Forall_skipn {A} (P : A -> Prop) k l : Forall P l -> Forall P (skipn k l).
Proof. intros F. rewrite <- (firstn_skipn k l) in F. apply Forall_app in F. tauto. Qed.

Lemma rollback_ok st depth fixed : Shape st -> depth <= length (s_undo st) -> fixed <= n ->
  rollback_c st depth fixed = Some (rollback st depth fixed) /\ Shape (rollback st depth fixed) /\
  length (s_undo (rollback st depth fixed)) = depth.
Proof.
  intros Sh D F. unfold rollback_c, rollback. rewrite sub_u_le by auto.
  destruct (undo_all_ok (firstn (length (s_undo st) - depth) (s_undo st)) (Forall_firstn _ _ _ (sh_undo st Sh)) (set_fixed st fixed)
    (set_fixed_shape st fixed Sh F)) as (E & S'). rewrite E. split; auto. split.
  - constructor; simpl; try apply S'. apply Forall_skipn, Sh.
  - simpl. rewrite skipn_length. lia.
Qed.

Lemma get_matching_ok st chs : Shape st -> fst chs < n -> snd chs < n ->
  get_matching_c st chs = Some (get_matching st chs).
Proof.
  intros Sh H0 H1. unfold get_matching_c, get_matching. destruct (mask_ok st false _ Sh H0) as (E & _). rewrite E, shl16_ok by lia.
  reflexivity.
Qed.

Lemma ctz_lt m : m < 2 ^ n -> m <> 0 -> ctz m < n.
Proof.
  intros M Z. apply Nat.nle_gt. intros G. pose proof (ctz_bit m Z) as T. rewrite (testbit_high m n) in T by auto. discriminate.
Qed.

Lemma without_ok m c : m < 2 ^ n -> c < n -> without_c m c = Some (mask_without m c) /\ mask_without m c < 2 ^ n.
Proof. intros M C. unfold without_c, mask_without. rewrite shl16_ok by lia. split; auto. now apply ldiff_lt. Qed.

(* the two programs agree, and what they return is fine *)
Definition agree (st : Subsume) (x y : option (bool * Subsume)) : Prop :=
  x = y /\ forall r st', y = Some (r, st') -> keeps st st'.

Definition rm_agree (rm_c rm : Subsume -> nat * nat -> option (bool * Subsume)) : Prop :=
  forall st chs, Shape st -> fst chs < n -> snd chs < n -> agree st (rm_c st chs) (rm st chs).

Lemma agree_step a b x y : keeps a b -> agree b x y -> agree a x y.
Proof. intros K (E & H). split; auto. intros r st' Y. eapply keeps_trans; eauto. Qed.

Lemma agree_some st r st' : keeps st st' -> agree st (Some (r, st')) (Some (r, st')).
Proof. intros K. split; auto. intros ? ? E. injection E as <- <-. auto. Qed.

Lemma agree_none st : agree st None None.
Proof. split; auto. discriminate. Qed.

Lemma clear_others_ok rm_c rm side other keep : rm_agree rm_c rm -> other < n -> keep < n ->
  forall fuel st, Shape st -> agree st (clear_others_c rm_c fuel side other keep st) (clear_others rm fuel side other keep st).
Proof.
  intros R O K. induction fuel as [|f IH]; intros st Sh; cbn [clear_others_c clear_others]; [apply agree_none|].
  destruct (mask_ok st (negb side) other Sh O) as (E & L). rewrite E. destruct (without_ok _ keep L K) as (E2 & L2). rewrite E2.
  destruct (Nat.eqb_spec (mask_without (mask_of st (negb side) other) keep) 0) as [Z|Z].
  - apply agree_some. now apply keeps_refl.
  - set (chs := put side (put (negb side) (0, 0) other) (ctz (mask_without (mask_of st (negb side) other) keep))).
    pose proof (ctz_lt _ L2 Z) as T.
    destruct (R st chs Sh) as (E3 & P3).
    { unfold chs. destruct side; simpl; auto. } { unfold chs. destruct side; simpl; auto. }
    rewrite E3. destruct (rm st chs) as [([], st1)|]; [| |apply agree_none].
    + specialize (P3 _ _ eq_refl). eapply agree_step; [exact P3|]. apply IH. apply P3.
    + apply agree_some. now apply (P3 false).
Qed.

Lemma propagate_ok rm_c rm fuel chs side : rm_agree rm_c rm -> fst chs < n -> snd chs < n ->
  forall st, Shape st -> agree st (propagate_side_c rm_c fuel chs side st) (propagate_side rm fuel chs side st).
Proof.
  intros R H0 H1 st Sh. unfold propagate_side_c, propagate_side. pose proof (sel_lt chs side H0 H1) as H.
  destruct (mask_ok st side _ Sh H) as (E & L). rewrite E. destruct (is_single (mask_of st side (sel side chs))) as [[]|] eqn:S1.
  - apply clear_others_ok; auto. apply ctz_lt; auto. intros Z. rewrite Z in S1. discriminate.
  - apply agree_some. now apply keeps_refl.
  - apply agree_none.
Qed.

Lemma drop_edge_ok st chs : Shape st -> fst chs < n -> snd chs < n ->
  drop_edge_c st chs = Some (drop_edge st chs) /\ keeps st (drop_edge st chs).
Proof.
  intros Sh H0 H1. unfold drop_edge_c, drop_edge. pose proof (push_ok st (UMatching chs) Sh (conj H0 H1)) as K0.
  set (st0 := push_undo st (UMatching chs)) in *. pose proof (proj1 K0) as S0.
  destruct (mask_ok st0 false _ S0 H0) as (E1 & L1). rewrite E1. destruct (without_ok _ _ L1 H1) as (E2 & L2). rewrite E2.
  destruct (set_mask_ok st0 false _ _ S0 H0 L2) as (E3 & K3). rewrite E3. pose proof (proj1 K3) as S3.
  destruct (mask_ok _ true _ S3 H1) as (E4 & L4). rewrite E4. destruct (without_ok _ _ L4 H0) as (E5 & L5). rewrite E5.
  destruct (set_mask_ok _ true _ _ S3 H1 L5) as (E6 & K6). split; [exact E6|]. eapply keeps_trans; [exact K0|]. eapply keeps_trans; eauto.
Qed.

Lemma remove_matching_ok : forall fuel, rm_agree (remove_matching_c fuel) (remove_matching fuel).
Proof.
  induction fuel as [|f IH]; intros st chs Sh H0 H1; cbn [remove_matching_c remove_matching]; [apply agree_none|].
  rewrite get_matching_ok by auto. destruct (negb (get_matching st chs)); [apply agree_none|].
  destruct (mask_ok st false _ Sh H0) as (E1 & _). rewrite E1.
  destruct (is_single (mask_of st false (fst chs))) as [[]|]; [apply agree_some; now apply keeps_refl| |apply agree_none].
  destruct (mask_ok st true _ Sh H1) as (E2 & _). rewrite E2.
  destruct (is_single (mask_of st true (snd chs))) as [[]|]; [apply agree_some; now apply keeps_refl| |apply agree_none].
  destruct (drop_edge_ok st chs Sh H0 H1) as (E3 & K3). rewrite E3.
  destruct (propagate_ok _ _ f chs false IH H0 H1 _ (proj1 K3)) as (E4 & P4). rewrite E4.
  destruct (propagate_side (remove_matching f) f chs false (drop_edge st chs)) as [([], st2)|]; [| |apply agree_none].
  - pose proof (P4 _ _ eq_refl) as K4. eapply agree_step; [eapply keeps_trans; [exact K3|exact K4]|]. apply propagate_ok; auto. apply K4.
  - apply agree_some. eapply keeps_trans; [exact K3|]. eapply P4; eauto.
Qed.

Lemma isolate_ok st chs : Shape st -> fst chs < n -> snd chs < n -> agree st (isolate_matching_c st chs) (isolate_matching st chs).
Proof. intros. apply clear_others_ok; auto. apply remove_matching_ok. Qed.

(* ---------- guesses ---------- *)

Lemma fold_choice_lt l : Forall (fun e : nat * nat * nat => snd e < n) l -> forall a, snd a < n -> snd (fold_left choice_min l a) < n.
Proof.
  induction 1 as [|b l B F IH]; intros a A; simpl; auto. apply IH.
  destruct a as ((w, s), c), b as ((w', s'), c'). unfold choice_min.
  destruct (w' <? w), (w <? w'), (s' <? s), (s <? s'), (c' <? c); simpl in *; auto.
Qed.

Lemma fold_opt_map {A B C} (f : A -> B -> option A) (g : A -> C -> A) (h : B -> C) l : forall a,
  (forall a b, In b l -> f a b = Some (g a (h b))) -> fold_opt f l a = Some (fold_left g (map h l) a).
Proof.
  induction l as [|b l IH]; intros a H; simpl; auto. rewrite H by now left. apply IH. intros; apply H; now right.
Qed.

Lemma select_guess_ok st : Shape st -> s_fixed st < n ->
  select_guess_c st = Some (select_guess st) /\ fst (select_guess st) < n /\ snd (select_guess st) < n.
Proof.
  intros Sh Fx. unfold select_guess_c, select_guess. pose proof (sh_ch st Sh) as Ch.
  set (range := seq (s_fixed st) (s_channels st - s_fixed st)).
  assert (R : forall i, In i range -> i < n) by (intros i I; apply in_seq in I; lia).
  set (cand := fun side channel => (count_ones (mask_of st side (nth channel (sel side (s_perms st)) 0)), Nat.b2n side,
    nth channel (sel side (s_perms st)) 0)).
  assert (Sc : forall side a, fold_opt (fun best channel => match rd (sel side (s_perms st)) channel with
      | Some mc => match mask_c st side mc with
                   | Some m => Some (choice_min best (count_ones m, Nat.b2n side, mc)) | None => None end
      | None => None end) range a = Some (fold_left choice_min (map (cand side) range) a)).
  { intros side a. apply fold_opt_map. intros b i I. destruct (perm_ok st side i Sh (R i I)) as (E & L). rewrite E.
    destruct (mask_ok st side _ Sh L) as (E2 & _). rewrite E2. reflexivity. }
  rewrite Sc. rewrite Sc. rewrite <- fold_left_app.
  change (map (cand false) range ++ map (cand true) range) with
    ((fun side => map (fun channel => let mc := nth channel (sel side (s_perms st)) 0 in (count_ones (mask_of st side mc), Nat.b2n side, mc)) range) false ++
     (fun side => map (fun channel => let mc := nth channel (sel side (s_perms st)) 0 in (count_ones (mask_of st side mc), Nat.b2n side, mc)) range) true).
  set (l := _ ++ _).
  assert (F : Forall (fun e : nat * nat * nat => snd e < n) l).
  { unfold l. apply Forall_app. split; apply Forall_map, Forall_forall; intros i I; simpl.
    - now apply (perm_ok st false i Sh (R i I)).
    - now apply (perm_ok st true i Sh (R i I)). }
  pose proof (fold_choice_lt l F (MAX_CHANNELS + 1, 0, 0) ltac:(simpl; lia)) as M.
  destruct (fold_left choice_min l (MAX_CHANNELS + 1, 0, 0)) as ((w, ms), mc). simpl in M.
  destruct (mask_ok st (ms =? 1) mc Sh M) as (E & L). rewrite E.
  rewrite (fold_opt_map _ choice_min (fun c => (count_ones (mask_of st (negb (ms =? 1)) c), 0, c))).
  2: { intros a c I. apply mask_bits_spec in I; auto.
       assert (C : c < n) by (apply Nat.nle_gt; intros G; rewrite (testbit_high _ n) in I by auto; discriminate).
       destruct (mask_ok st (negb (ms =? 1)) c Sh C) as (E3 & _). rewrite E3. reflexivity. }
  set (l2 := map (fun c => (count_ones (mask_of st (negb (ms =? 1)) c), 0, c)) (mask_bits (mask_of st (ms =? 1) mc) (mask_of st (ms =? 1) mc))).
  assert (F2 : Forall (fun e : nat * nat * nat => snd e < n) l2).
  { apply Forall_map, Forall_forall. intros c I. simpl. apply mask_bits_spec in I; auto.
    apply Nat.nle_gt; intros G; rewrite (testbit_high _ n) in I by auto; discriminate. }
  pose proof (fold_choice_lt l2 F2 (MAX_CHANNELS + 1, 0, 0) ltac:(simpl; lia)) as M2.
  destruct (fold_left choice_min l2 (MAX_CHANNELS + 1, 0, 0)) as ((w2, ms2), mo). simpl in M2.
  split; auto. destruct (ms =? 1); simpl; auto.
Qed.

(* ---------- the buffer ---------- *)

Lemma fill_side_ok st side : Shape st -> forall len k start done rest,
  len = low_channels_channel_abstraction_len (sel side (s_sets st)) (s_fixed st) ->
  s_fixed st <= start -> start + k = n -> length done + k <= n -> len * k <= length rest ->
  exists rest',
  fold_opt (fun (acc : list (list nat) * list nat) channel =>
     match split_at_c (snd acc) len with
     | Some p => match low_channels_channel_abstraction_c (sel side (s_sets st)) (s_fixed st) channel (fst p) with
                 | Some current => match push CVEC (fst acc) current with
                                   | Some buffers => Some (buffers, snd p) | None => None end
                 | None => None end
     | None => None end) (seq start k) (done, rest) =
  Some (done ++ map (fun channel => low_channels_channel_abstraction (sel side (s_sets st)) (s_fixed st) channel) (seq start k), rest') /\
  length rest' = length rest - len * k.
Proof.
  intros Sh len. induction k as [|k IH]; intros start done rest EL Fx Sk D L; cbn [seq fold_opt map].
  - exists rest. rewrite app_nil_r. split; auto. lia.
  - unfold split_at_c at 1. cbn [snd fst]. assert (X : len <=? length rest = true) by (apply Nat.leb_le; lia). rewrite X.
    cbn [fst snd]. destruct (sh_wf st Sh side) as (W & C).
    rewrite low_channel_abstraction_ok; auto; [|lia|rewrite firstn_length; lia].
    rewrite push_lt by (unfold CVEC; lia).
    destruct (IH (S start) (done ++ [low_channels_channel_abstraction (sel side (s_sets st)) (s_fixed st) start]) (skipn len rest))
      as (rest' & E & R); auto; try lia.
    + rewrite app_length. simpl. lia.
    + rewrite skipn_length. lia.
    + exists rest'. rewrite E. split. now rewrite <- app_assoc. rewrite R, skipn_length. lia.
Qed.

Lemma resize_length l len v : length (resize l len v) = len.
Proof. unfold resize. rewrite app_length, firstn_length, repeat_length. lia. Qed.

Lemma combine_map_r {A B} (f : A -> B) l : combine l (map f l) = map (fun a => (a, f a)) l.
Proof. induction l; simpl; f_equal; auto. Qed.

Lemma filter_inner_ok lo bl his rest : lo < n -> (forall hi bh, In (hi, bh) his -> hi < n) -> forall st, Shape st ->
  (forall st', keeps st st' -> agree st' (filter_outer_c st' (fst rest) (snd rest)) (filter_loop st' (list_prod (fst rest) (snd rest)))) ->
  agree st
    (match filter_inner_c st (nth lo (fst (s_perms st)) 0) bl his with
     | None => None
     | Some (false, st1) => Some (false, st1)
     | Some (true, st1) => filter_outer_c st1 (fst rest) (snd rest)
     end)
    (filter_loop st (map (fun y => ((lo, bl), y)) his ++ list_prod (fst rest) (snd rest))).
Proof.
  intros Lo. induction his as [|(hi, bh) his IH]; intros Hh st Sh R; cbn [filter_inner_c map app filter_loop].
  - apply R. now apply keeps_refl.
  - assert (Hi : hi < n) by (eapply Hh; left; eauto). assert (Hh' : forall hi bh, In (hi, bh) his -> hi < n) by (intros; eapply Hh; right; eauto).
    destruct (perm_ok st false lo Sh Lo) as (_ & L0). destruct (perm_ok st true hi Sh Hi) as (E1 & L1). simpl in E1, L0, L1. rewrite E1.
    rewrite get_matching_ok by (simpl; auto). destruct (get_matching st _); [|now apply IH].
    destruct (abstraction_exceeds bl bh); [|now apply IH].
    destruct (remove_matching_ok (rm_fuel st) st (nth lo (fst (s_perms st)) 0, nth hi (snd (s_perms st)) 0) Sh L0 L1) as (E2 & P2).
    rewrite E2. destruct (remove_matching (rm_fuel st) st _) as [([], st1)|]; [| |apply agree_none].
    + specialize (P2 _ _ eq_refl). eapply agree_step; [exact P2|].
      replace (s_perms st) with (s_perms st1) by (apply P2). apply IH; auto. apply P2.
      intros st' K. apply R. eapply keeps_trans; eauto.
    + apply agree_some. now apply (P2 false).
Qed.

Lemma filter_outer_ok los his : (forall lo bl, In (lo, bl) los -> lo < n) -> (forall hi bh, In (hi, bh) his -> hi < n) ->
  forall st, Shape st -> agree st (filter_outer_c st los his) (filter_loop st (list_prod los his)).
Proof.
  intros Hl Hh. induction los as [|(lo, bl) los IH]; intros st Sh; cbn [filter_outer_c list_prod].
  - apply agree_some. now apply keeps_refl.
  - assert (Lo : lo < n) by (eapply Hl; left; eauto).
    destruct (perm_ok st false lo Sh Lo) as (E & _). simpl in E. rewrite E.
    apply (filter_inner_ok lo bl his (los, his)); auto. intros st' K. apply IH. intros; eapply Hl; right; eauto. apply K.
Qed.

Definition agree_b (st : Subsume) (x : option (bool * SubsumeB)) (y : option (bool * Subsume)) : Prop :=
  option_map (fun p => (fst p, b_st (snd p))) x = y /\ forall r st', y = Some (r, st') -> keeps st st'.

Lemma filter_matching_ok z : Shape (b_st z) -> agree_b (b_st z) (filter_matching_c z) (filter_matching (b_st z)).
Proof.
  intros Sh. destruct z as [st buf]. simpl in *. unfold filter_matching_c, filter_matching. cbn [b_st b_buffer].
  pose proof (sh_ch st Sh) as Ch. pose proof (sh_fixed st Sh) as Fx. destruct (sh_wf st Sh false) as (W0 & C0). destruct (sh_wf st Sh true) as (W1 & C1).
  simpl in W0, C0, W1, C1. unfold low_channels_channel_abstraction_len_c. rewrite C0, sub_u_le by auto. rewrite Ch, sub_u_le by auto.
  set (len := (n - s_fixed st) * 2 ^ s_fixed st * 3).
  set (bv := resize buf (len * (n - s_fixed st) * 2) 0).
  assert (LB : length bv = len * (n - s_fixed st) * 2) by apply resize_length.
  assert (EL : forall side, len = low_channels_channel_abstraction_len (sel side (s_sets st)) (s_fixed st)).
  { intros side. unfold low_channels_channel_abstraction_len. destruct (sh_wf st Sh side) as (_ & C). now rewrite C. }
  unfold fill_side_c. rewrite Ch.
  destruct (fill_side_ok st false Sh len (n - s_fixed st) (s_fixed st) [] bv) as (r0 & E0 & L0); auto; try (simpl; lia).
  rewrite E0. cbn [fst snd].
  destruct (fill_side_ok st true Sh len (n - s_fixed st) (s_fixed st) [] r0) as (r1 & E1 & L1); auto; try (simpl; lia).
  rewrite E1. cbn [fst snd]. rewrite !app_nil_l, !combine_map_r.
  destruct (filter_outer_ok
    (map (fun a => (a, low_channels_channel_abstraction (sel false (s_sets st)) (s_fixed st) a)) (seq (s_fixed st) (n - s_fixed st)))
    (map (fun a => (a, low_channels_channel_abstraction (sel true (s_sets st)) (s_fixed st) a)) (seq (s_fixed st) (n - s_fixed st)))) with (st := st) as (E & P); auto.
  1, 2: intros c b I; apply in_map_iff in I; destruct I as (a & Q & I); injection Q as <- <-; apply in_seq in I; lia.
  rewrite E. split; auto.
  destruct (filter_loop st _) as [(r, st1)|]; reflexivity.
Qed.

(* ---------- moving channels, searching ---------- *)

(* like [keeps], for steps that move channels *)
Definition goes (st st' : Subsume) : Prop := Shape st' /\ length (s_undo st) <= length (s_undo st').

Lemma keeps_goes st st' : keeps st st' -> goes st st'.
Proof. intros (S & L & _). split; auto. Qed.

Lemma goes_trans a b c : goes a b -> goes b c -> goes a c.
Proof. intros (_ & L) (S & L'). split; auto. lia. Qed.

Lemma position_lt l v i : position l v = Some i -> i < length l.
Proof.
  revert i. induction l as [|a l IH]; intros i; simpl; [discriminate|]. destruct (a =? v). intros E; injection E as <-; lia.
  destruct (position l v) as [j|]; [|discriminate]. intros E; injection E as <-. specialize (IH j eq_refl). lia.
Qed.

Lemma move_unique_loop_ok : forall k j st moved, Shape st -> s_fixed st <= j -> j + k = n ->
  move_unique_loop_c st moved (seq j k) = move_unique_loop st moved (seq j k) /\
  forall r st', move_unique_loop st moved (seq j k) = Some (r, st') -> goes st st'.
Proof.
  induction k as [|k IH]; intros j st moved Sh Fx J; cbn [seq move_unique_loop_c move_unique_loop].
  - split; auto. intros r st' E. injection E as <- <-. split; auto.
  - assert (Jn : j < n) by lia. destruct (perm_ok st false j Sh Jn) as (E0 & L0). simpl in E0, L0. rewrite E0.
    destruct (mask_ok st false _ Sh L0) as (E1 & L1). rewrite E1.
    destruct (is_single _) as [[]|]; [|apply IH; auto; lia|split; [auto|discriminate]].
    destruct (position (snd (s_perms st)) _) as [hi|] eqn:P; [|split; [auto|discriminate]].
    apply position_lt in P. pose proof (sh_plen st Sh true) as PL. simpl in PL. rewrite PL in P.
    assert (Fn : s_fixed st < n) by lia.
    pose proof (push_ok st (USwap (s_fixed st) (j, hi)) Sh (conj Fn (conj Jn P))) as K1.
    set (st1 := push_undo st (USwap (s_fixed st) (j, hi))) in *.
    destruct (swap_side_ok st1 false (s_fixed st1) j (proj1 K1) Fn Jn) as (E2 & S2 & U2 & F2). rewrite E2.
    set (st2 := swap_side st1 false (s_fixed st1) j) in *.
    assert (Fn2 : s_fixed st2 < n) by (rewrite F2; exact Fn).
    destruct (swap_side_ok st2 true (s_fixed st2) hi S2 Fn2 P) as (E3 & S3 & U3 & F3). rewrite E3.
    set (st3 := swap_side st2 true (s_fixed st2) hi) in *.
    assert (F3' : s_fixed st3 = s_fixed st) by (rewrite F3, F2; reflexivity).
    destruct (IH (S j) (set_fixed st3 (s_fixed st3 + 1)) true) as (E4 & P4).
    + apply set_fixed_shape; auto. lia.
    + simpl. lia.
    + lia.
    + rewrite E4. split; auto. intros r st' E. eapply goes_trans; [|eapply P4; eauto]. split. apply set_fixed_shape; auto; lia.
      change (s_undo (set_fixed st3 (s_fixed st3 + 1))) with (s_undo st3). rewrite U3, U2. unfold st1. simpl. lia.
Qed.

Lemma move_unique_ok st : Shape st -> move_unique_c st = move_unique st /\ forall r st', move_unique st = Some (r, st') -> goes st st'.
Proof.
  intros Sh. unfold move_unique_c, move_unique. rewrite (sh_ch st Sh). pose proof (sh_fixed st Sh). apply move_unique_loop_ok; auto. lia.
Qed.

Lemma result_perm_ok st : Shape st -> result_perm_c st = Some (result_perm st).
Proof.
  intros Sh. unfold result_perm_c, result_perm. rewrite (sh_ch st Sh). rewrite collect_le by (rewrite seq_length; exact Nmax).
  apply fold_opt_left with (P := fun l => length l = n). apply seq_length.
  intros l i I L. apply in_seq in I. destruct (perm_ok st true i Sh) as (E1 & L1); [lia|]. destruct (perm_ok st false i Sh) as (E0 & _); [lia|].
  simpl in E1, E0, L1. rewrite E1, E0, wr_lt by lia. split; auto. now rewrite upd_length.
Qed.

Lemma search_ok : forall fuel z, Shape (b_st z) ->
  option_map (fun p => (fst p, b_st (snd p))) (search_c fuel z) = search fuel (b_st z) /\
  forall r st', search fuel (b_st z) = Some (r, st') -> goes (b_st z) st'.
Proof.
  induction fuel as [|f IH]; intros z Sh; cbn [search_c search]; [split; [auto|discriminate]|]. cbv zeta.
  set (st := b_st z) in *. destruct (s_fixed st =? s_channels st) eqn:EF.
  { destruct (subsumes_unpermuted (fst (s_sets st)) (snd (s_sets st))).
    - rewrite result_perm_ok by auto. split; auto. intros r st' E. injection E as <- <-. split; auto.
    - split; auto. intros r st' E. injection E as <- <-. split; auto. }
  destruct (filter_matching_ok z Sh) as (E1 & P1). fold st in E1, P1. rewrite <- E1. rewrite <- E1 in P1.
  destruct (filter_matching_c z) as [(r1, z1)|]; cbn [option_map fst snd] in *; [|split; [auto|discriminate]].
  specialize (P1 _ _ eq_refl). destruct r1.
  2: { split; auto. intros r st' E. injection E as <- <-. now apply keeps_goes. }
  pose proof (proj1 P1) as Sh1. destruct (move_unique_ok (b_st z1) Sh1) as (E2 & P2). rewrite E2.
  destruct (move_unique (b_st z1)) as [(r2, st2)|] eqn:EM; [|split; [auto|discriminate]].
  specialize (P2 _ _ eq_refl). pose proof (proj1 P2) as Sh2.
  assert (G2 : goes st st2) by (eapply goes_trans; [apply keeps_goes; exact P1|exact P2]).
  destruct r2.
  { destruct (IH (mkSubsumeB st2 (b_buffer z1)) Sh2) as (E3 & P3). split; auto. intros r st' E. eapply goes_trans; [exact G2|]. eapply P3; eauto. }
  assert (Fx : s_fixed st2 < n).
  { assert (S12 : st2 = b_st z1).
    { clear - EM. unfold move_unique in EM. revert EM. generalize (seq (s_fixed (b_st z1)) (s_channels (b_st z1) - s_fixed (b_st z1))).
      intros l. generalize (b_st z1). intros st EM. revert EM. 
      assert (G : forall l st m r st', move_unique_loop st m l = Some (r, st') -> r = false -> st' = st).
      { clear. induction l as [|a l IH]; intros st m r st' H R; cbn [move_unique_loop] in H. injection H as <- <-. auto.
        destruct (is_single _) as [[]|]; [|eapply IH; eauto|discriminate]. destruct (position _ _) as [hi|]; [|discriminate].
        exfalso. assert (K : forall l st r st', move_unique_loop st true l = Some (r, st') -> r = true).
        { clear. induction l as [|a l IH]; intros st r st' H; cbn [move_unique_loop] in H. now injection H as <- <-.
          destruct (is_single _) as [[]|]; [|eapply IH; eauto|discriminate]. destruct (position _ _) as [hi|]; [|discriminate]. eapply IH; eauto. }
        apply K in H. congruence. }
      intros EM. eapply G; eauto. }
    destruct P1 as (_ & _ & F1 & _). subst st2. rewrite F1. apply Nat.eqb_neq in EF. rewrite (sh_ch st Sh) in EF. pose proof (sh_fixed st Sh). lia. }
  destruct (select_guess_ok st2 Sh2 Fx) as (E3 & G0 & G1). rewrite E3. set (guess := select_guess st2) in *.
  (* what follows a guess *)
  assert (After : forall z3, goes st2 (b_st z3) ->
    option_map (fun p => (fst p, b_st (snd p)))
      (match rollback_c (b_st z3) (length (s_undo st2)) (s_fixed st2) with
       | Some st0 => match remove_matching_c (rm_fuel (b_st z3)) st0 guess with
                     | None => None
                     | Some (false, st4) => Some (None, mkSubsumeB st4 (b_buffer z3))
                     | Some (true, st4) => match move_unique_c st4 with
                                           | None => None
                                           | Some (_, st5) => search_c f (mkSubsumeB st5 (b_buffer z3)) end
                     end
       | None => None end) =
    match remove_matching (rm_fuel (b_st z3)) (rollback (b_st z3) (length (s_undo st2)) (s_fixed st2)) guess with
    | None => None
    | Some (false, st4) => Some (None, st4)
    | Some (true, st4) => match move_unique st4 with None => None | Some (_, st5) => search f st5 end
    end /\
    forall r st', match remove_matching (rm_fuel (b_st z3)) (rollback (b_st z3) (length (s_undo st2)) (s_fixed st2)) guess with
    | None => None
    | Some (false, st4) => Some (None, st4)
    | Some (true, st4) => match move_unique st4 with None => None | Some (_, st5) => search f st5 end
    end = Some (r, st') -> goes st st').
  { intros z3 (Sh3 & U3). destruct (rollback_ok (b_st z3) (length (s_undo st2)) (s_fixed st2) Sh3 U3 (sh_fixed _ Sh2)) as (E4 & Sh4 & U4).
    rewrite E4. set (st4 := rollback (b_st z3) (length (s_undo st2)) (s_fixed st2)) in *.
    assert (G4 : goes st st4). { split; auto. rewrite U4. apply G2. }
    destruct (remove_matching_ok (rm_fuel (b_st z3)) st4 guess Sh4 G0 G1) as (E5 & P5). rewrite E5.
    destruct (remove_matching (rm_fuel (b_st z3)) st4 guess) as [([], st5)|]; [| |split; [auto|discriminate]].
    - specialize (P5 _ _ eq_refl). destruct (move_unique_ok st5 (proj1 P5)) as (E6 & P6). rewrite E6.
      destruct (move_unique st5) as [(r6, st6)|]; [|split; [auto|discriminate]]. specialize (P6 _ _ eq_refl).
      destruct (IH (mkSubsumeB st6 (b_buffer z3)) (proj1 P6)) as (E7 & P7). split; auto.
      intros r st' E. eapply goes_trans; [exact G4|]. eapply goes_trans; [apply keeps_goes; exact P5|]. eapply goes_trans; [exact P6|].
      eapply P7; eauto.
    - split; auto. intros r st' E. injection E as <- <-. eapply goes_trans; [exact G4|]. apply keeps_goes. now apply (P5 false). }
  destruct (isolate_ok st2 guess Sh2 G0 G1) as (E4 & P4). rewrite E4.
  destruct (isolate_matching st2 guess) as [([], st3)|]; [| |split; [auto|discriminate]].
  2: { apply (After (mkSubsumeB st3 (b_buffer z1))). apply keeps_goes. now apply (P4 false). }
  specialize (P4 _ _ eq_refl). destruct (move_unique_ok st3 (proj1 P4)) as (E5 & P5). rewrite E5.
  destruct (move_unique st3) as [(r5, st4)|]; [|split; [auto|discriminate]]. specialize (P5 _ _ eq_refl).
  destruct (IH (mkSubsumeB st4 (b_buffer z1)) (proj1 P5)) as (E6 & P6). cbn [b_st] in E6, P6. rewrite <- E6. rewrite <- E6 in P6.
  destruct (search_c f (mkSubsumeB st4 (b_buffer z1))) as [(res, z5)|]; cbn [option_map fst snd] in *; [|split; [auto|discriminate]].
  specialize (P6 _ _ eq_refl).
  assert (G5 : goes st2 (b_st z5)). { eapply goes_trans; [apply keeps_goes; exact P4|]. eapply goes_trans; eauto. }
  destruct res as [result|].
  - destruct (rollback_ok (b_st z5) (length (s_undo st2)) (s_fixed st2) (proj1 G5) (proj2 G5) (sh_fixed _ Sh2)) as (E7 & Sh7 & U7).
    rewrite E7. split; auto. intros r st' E. injection E as <- <-. split; auto. rewrite U7. apply G2.
  - now apply After.
Qed.
End Agree.

Lemma subsume_new_ok s t : wf s -> wf t -> channels s <= MAX_CHANNELS ->
  option_map b_st (subsume_new_c (s, t)) = subsume_new (s, t) /\
  forall z, subsume_new_c (s, t) = Some z -> Shape (channels s) (b_st z) /\ b_buffer z = [].
Proof.
  intros Ws Wt B. unfold subsume_new_c, subsume_new. cbn [fst snd].
  destruct (Nat.eqb_spec (channels s) (channels t)) as [E|]; [|split; [auto|discriminate]].
  rewrite collect_le by (rewrite seq_length; exact B).
  rewrite (shl16_ok (channels s) B) by lia. rewrite sub_u_le by apply pow_pos. rewrite collect_le by (rewrite repeat_length; exact B).
  split; auto. intros z H. injection H as <-. cbn [b_st b_buffer]. split; auto.
  set (n := channels s). constructor; simpl; auto.
  - intros []; simpl; apply repeat_length.
  - assert (F : Forall (fun m => m < 2 ^ n) (repeat (2 ^ n - 1) n)).
    { apply Forall_forall. intros m I. apply repeat_spec in I. subst m. pose proof (pow_pos n). lia. }
    intros []; simpl; exact F.
  - intros []; simpl; apply seq_length.
  - assert (F : Forall (fun m => m < n) (seq 0 n)) by (apply Forall_forall; intros m I; apply in_seq in I; lia).
    intros []; simpl; exact F.
  - intros []; simpl; auto.
  - lia.
Qed.

Lemma subsume_new_shape s t z : wf s -> wf t -> channels s <= MAX_CHANNELS -> subsume_new_c (s, t) = Some z -> Shape (channels s) (b_st z).
Proof. intros Ws Wt B E. now apply (subsume_new_ok s t Ws Wt B). Qed.

Lemma subsumes_permuted_ok s t : wf s -> wf t -> channels s <= MAX_CHANNELS -> subsumes_permuted_c s t = subsumes_permuted s t.
Proof.
  intros Ws Wt B. unfold subsumes_permuted_c, subsumes_permuted. destruct (subsume_new_ok s t Ws Wt B) as (E & P). rewrite <- E.
  destruct (subsume_new_c (s, t)) as [z|]; cbn [option_map]; auto. destruct (P z eq_refl) as (Sh & _).
  destruct (search_ok (channels s) B (search_fuel (s_channels (b_st z))) z Sh) as (E1 & _). rewrite <- E1.
  destruct (search_c (search_fuel (s_channels (b_st z))) z) as [(r, z1)|]; reflexivity.
Qed.
