(* dump_states of LogModel.v. *)
From Coq Require Import String List Arith Bool Lia.
Import ListNotations.
From Verif Require Import Spec Util OutputSetModel OutputSetProofs PackProofs TreeModel StatesModel StatesProofs StatesBounds FileModel LogModel FileProofs.

Definition item_group (it : nat * list nat * State) : nat * nat := (fst (fst it), lo (snd it)).
Definition in_group (g : nat * nat) (it : nat * list nat * State) : bool := group_eqb g (item_group it).

Lemma group_eqb_spec g h : reflect (g = h) (group_eqb g h).
Proof.
  unfold group_eqb. destruct g as [a b], h as [c d]; simpl. destruct (Nat.eqb_spec a c), (Nat.eqb_spec b d); simpl; constructor; congruence.
Qed.

Definition index_text (gs : list (nat * nat)) : text := flat_map (fun g => group_name g ++ [10]) gs.

(* what the first items P have done *)
Definition dumped (fs0 : Fs) (P : list (nat * list nat * State)) (d : list (nat * nat) * Fs) : Prop :=
  let '(keys, fs) := d in
  NoDup keys /\ (forall g, In g keys <-> exists it, In it P /\ item_group it = g) /\
  fs index_name = Some (index_text (rev keys)) /\
  (forall g, In g keys -> fs (group_name g) = Some (concat (map (fun it => snd (fst it)) (filter (in_group g) P)))) /\
  (forall name, name <> index_name -> (forall g, In g keys -> name <> group_name g) -> fs name = fs0 name).

Lemma group_name_not_index g : group_name g <> index_name.
Proof. rewrite group_name_ext. apply group_not_index. Qed.

Lemma dumped_step fs0 P d it : dumped fs0 P d -> dumped fs0 (P ++ [it]) (dump_item d it).
Proof.
  destruct d as [keys fs]. intros (ND & K & IX & GF & OT). destruct it as [[ch bytes] st]. unfold dump_item.
  set (g := (ch, lo st)). set (it := (ch, bytes, st)). assert (Ig : item_group it = g) by reflexivity.
  assert (FL : forall h, filter (in_group h) (P ++ [it]) = filter (in_group h) P ++ (if group_eqb h g then [it] else [])).
  { intros h. rewrite filter_app. f_equal. }
  destruct (existsb (group_eqb g) keys) eqn:Ex.
  - apply existsb_exists in Ex. destruct Ex as (g' & Hg & Eg). destruct (group_eqb_spec g g') as [<-|]; [|discriminate].
    unfold dumped. cbn [fs_do]. split; auto. split; [|split; [|split]].
    + intros h. rewrite K. split.
      * intros (x & Hx & Ex). exists x. rewrite in_app_iff. auto.
      * intros (x & Hx & Ex). apply in_app_iff in Hx. destruct Hx as [Hx|[<-|[]]]; eauto. apply K. rewrite <- Ex, Ig. exact Hg.
    + rewrite fs_set_other; auto. intros E. symmetry in E. now apply group_name_not_index in E.
    + intros h Hh. rewrite FL. destruct (group_eqb_spec h g) as [->|N].
      * rewrite fs_set_same, GF by auto. rewrite map_app, concat_app. cbn [map concat it fst snd]. now rewrite app_nil_r.
      * rewrite app_nil_r. rewrite fs_set_other; auto. intros E. now apply group_name_inj in E.
    + intros name Hn Hk. rewrite fs_set_other; auto.
  - assert (Ng : ~ In g keys). { intros I. apply Bool.not_true_iff_false in Ex. apply Ex. apply existsb_exists. exists g. split; auto. now destruct (group_eqb_spec g g). }
    assert (Gi := group_name_not_index g).
    unfold dumped, fs_run. cbn [fold_left fs_do]. rewrite fs_set_same. cbn [app]. rewrite IX.
    split; [now constructor|]. split; [|split; [|split]].
    + intros h. cbn [In]. rewrite K. split.
      * intros [<-|(x & Hx & Ex')]; [exists it|exists x]; rewrite in_app_iff; cbn [In]; auto.
      * intros (x & Hx & Ex'). apply in_app_iff in Hx. destruct Hx as [Hx|[<-|[]]]; eauto.
    + rewrite !(fs_set_other _ (group_name g)) by congruence. rewrite fs_set_same. unfold index_text. cbn [rev]. rewrite flat_map_app. cbn [flat_map]. now rewrite app_nil_r.
    + intros h Hh. rewrite FL. destruct (group_eqb_spec h g) as [->|N].
      * rewrite fs_set_same. replace (filter (in_group g) P) with (@nil (nat * list nat * State)). cbn. now rewrite app_nil_r.
        symmetry. destruct (filter (in_group g) P) as [|x l] eqn:E; auto. exfalso. apply Ng, K.
        assert (X : In x (filter (in_group g) P)) by (rewrite E; now left). apply filter_In in X. destruct X as (X1 & X2). exists x. split; auto.
        unfold in_group in X2. destruct (group_eqb_spec g (item_group x)); congruence.
      * destruct Hh as [<-|Hh]; [congruence|]. rewrite app_nil_r.
        assert (X : group_name h <> group_name g) by (intros E; now apply group_name_inj in E).
        assert (Y := group_name_not_index h).
        rewrite !fs_set_other by congruence. now apply GF.
    + intros name Hn Hk. rewrite !fs_set_other; auto. { apply OT; auto. intros h Hh. apply Hk. now right. } all: apply Hk; now left.
Qed.

Lemma dumped_all fs0 items : forall P d, dumped fs0 P d -> dumped fs0 (P ++ items) (fold_left dump_item items d).
Proof.
  induction items as [|it items IH]; intros P d D; simpl. now rewrite app_nil_r.
  replace (P ++ it :: items) with ((P ++ [it]) ++ items) by now rewrite <- app_assoc. apply IH. now apply dumped_step.
Qed.

Lemma dump_spec m fs0 : exists keys, dumped fs0 (flat_map drain_packed (into_shards m)) (keys, dump_states m fs0).
Proof.
  unfold dump_states. set (items := flat_map drain_packed (into_shards m)).
  assert (D : dumped fs0 ([] ++ items) (fold_left dump_item items ([], fs_do fs0 (Create index_name)))).
  { apply dumped_all. unfold dumped. split; [constructor|]. split. { intros g. split; [intros []|intros (? & [] & _)]. }
    cbn [fs_do]. split; [now rewrite fs_set_same|]. split; [intros ? []|]. intros name Hn _. now rewrite fs_set_other. }
  cbn [app] in D. destruct (fold_left dump_item items _) as [keys fs]. now exists keys.
Qed.

(* the sets of a group *)
Section Map.
Variable hash : list nat -> nat.

Definition logged (m : StateMap) (g : nat * nat) (s : OutputSet) : Prop :=
  wf s /\ channels s = fst g /\ exists st, stored hash m s = Some st /\ lo st = snd g.

Lemma stored_okk m s st : sm_ok hash m -> wf s -> stored hash m s = Some st -> okk s.
Proof.
  intros _ W H. unfold stored, sfind in H. destruct ((3 <=? channels s) && (channels s <=? 11)) eqn:E; [|discriminate].
  apply andb_prop in E. destruct E as (E1 & E2). apply Nat.leb_le in E1. apply Nat.leb_le in E2. split; auto.
Qed.

Lemma items_sets m g : sm_ok hash m ->
  exists sets, NoDup sets /\ (forall s, In s sets <-> logged m g s) /\
    map (fun it => snd (fst it)) (filter (in_group g) (flat_map drain_packed (into_shards m))) = map pk sets.
Proof.
  intros K. set (items := flat_map drain_packed (into_shards m)).
  assert (N : NoDup (map fst items)) by (apply (drain_all_NoDup hash); apply K).
  assert (D : forall c k v, In (c, k, v) items <-> exists s, okk s /\ channels s = c /\ pk s = k /\ stored hash m s = Some v)
    by (intros; apply (drain_all_In hash); apply K).
  assert (G : forall l, (forall x, In x l -> In x items) -> NoDup (map fst l) ->
    exists sets, NoDup sets /\ (forall s, In s sets <-> exists x, In x (filter (in_group g) l) /\ wf s /\ channels s = fst (fst x) /\ pk s = snd (fst x)) /\
      map (fun it => snd (fst it)) (filter (in_group g) l) = map pk sets).
  { induction l as [|x l IH]; intros Hl Nl.
    - exists []. split; [constructor|]. split; [|reflexivity]. intros s. split; [intros []|intros (? & [] & _)].
    - inversion Nl as [|? ? Nx Nl']; subst. destruct (IH ltac:(intros; apply Hl; now right) Nl') as (sets & S1 & S2 & S3). cbn [filter].
      destruct (in_group g x) eqn:Eg; [|exists sets; auto].
      destruct x as [[c k] v]. destruct (proj1 (D c k v) (Hl _ (or_introl eq_refl))) as (s & Ks & Cs & Ps & Fs). exists (s :: sets). split; [|split].
      + constructor; auto. intros I. apply S2 in I. destruct I as (y & Hy & _ & Cy & Py). apply Nx. apply filter_In in Hy. destruct Hy as (Hy & _).
        apply in_map_iff. exists y. split; auto. destruct y as [[cy ky] vy]; simpl in *. congruence.
      + intros t. cbn [In]. rewrite S2. split.
        * intros [<-|(y & Hy & W)]; [exists (c, k, v)|exists y]; simpl; repeat split; auto; try apply Ks; apply W.
        * intros (y & [<-|Hy] & Wt & Ct & Pt); [left|right; exists y; auto]. simpl in *. apply pk_inj; auto; try apply Ks; congruence.
      + cbn [map fst snd]. congruence. }
  destruct (G items ltac:(auto) N) as (sets & S1 & S2 & S3). exists sets. split; auto. split; auto.
  intros s. rewrite S2. unfold logged. split.
  - intros ([[c k] v] & Hx & W & C & P). simpl in C, P. apply filter_In in Hx. destruct Hx as (Hx & Eg). unfold in_group in Eg.
    destruct (group_eqb_spec g (item_group (c, k, v))) as [->|]; [|discriminate]. unfold item_group. cbn [fst snd].
    apply D in Hx. destruct Hx as (s' & Ks & Cs & Ps & Fs). assert (s = s') as <- by (apply pk_inj; auto; [apply Ks|congruence|congruence]). eauto.
  - intros (W & C & st & Fs & L). exists (channels s, pk s, st). cbn [fst snd]. split; auto. apply filter_In. split.
    + apply D. exists s. split; auto. eapply stored_okk; eauto.
    + unfold in_group, item_group. cbn [fst snd]. destruct (group_eqb_spec g (channels s, lo st)); auto. destruct g; simpl in *; congruence.
Qed.

(* the whole dump *)
Lemma dump_correct m fs0 : sm_ok hash m -> exists groups,
  NoDup groups /\ (forall g, In g groups <-> exists s, logged m g s) /\
  dump_states m fs0 index_name = Some (index_text groups) /\
  (forall g, In g groups -> exists sets, NoDup sets /\ (forall s, In s sets <-> logged m g s) /\
     dump_states m fs0 (group_name g) = Some (concat (map pk sets))) /\
  (forall name, name <> index_name -> (forall g, In g groups -> name <> group_name g) -> dump_states m fs0 name = fs0 name).
Proof.
  intros K. destruct (dump_spec m fs0) as (keys & ND & KE & IX & GF & OT). exists (rev keys).
  split; [now apply NoDup_rev|]. split; [|split; [auto|split]].
  - intros g. rewrite <- in_rev, KE. split.
    + intros (x & Hx & Eg). destruct (items_sets m g K) as (sets & _ & S2 & S3).
      assert (I : In (snd (fst x)) (map pk sets)).
      { rewrite <- S3. apply (in_map (fun it => snd (fst it))). apply filter_In. split; auto. unfold in_group. destruct (group_eqb_spec g (item_group x)); congruence. }
      apply in_map_iff in I. destruct I as (s & _ & Hs). exists s. now apply S2.
    + intros (s & W & C & st & Fs & L). exists (channels s, pk s, st). split.
      * apply (drain_all_In hash); [apply K|]. exists s. split; auto. eapply stored_okk; eauto.
      * destruct g; unfold item_group; simpl in *; congruence.
  - intros g Hg. apply in_rev in Hg. destruct (items_sets m g K) as (sets & S1 & S2 & S3). exists sets. split; auto. split; auto.
    rewrite GF by auto. now rewrite S3.
  - intros name Hn Hg. apply OT; auto. intros g I. apply Hg. now apply in_rev in I.
Qed.
End Map.
