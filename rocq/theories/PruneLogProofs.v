(* prune_data of LogModel.v. *)
From Coq Require Import String List Arith Bool Lia Permutation Sorted.
Import ListNotations.
From Verif Require Import Spec Vec Bits Util OutputSetModel OutputSetProofs PackProofs CountProofs TreeModel IndexModel IndexSpec IndexProofs PropIndex
  StatesModel StatesProofs FileModel LogModel FileProofs.

(* ---- state_len is the number of members ---- *)
Lemma byte_of_idx ch : length ch <= 8 -> byte_of ch = idx ch.
Proof.
  intros H. apply Nat.bits_inj. intros i. rewrite byte_of_testbit, testbit_idx. unfold bit.
  destruct (Nat.ltb_spec i 8); auto. now rewrite nth_overflow by lia.
Qed.
Lemma count_byte ch : length ch <= 8 -> count_ones (byte_of ch) = weight ch.
Proof. intros H. rewrite byte_of_idx by auto. apply count_ones_idx. Qed.

Lemma fold_add_acc l : forall a, fold_left Nat.add l a = a + fold_left Nat.add l 0.
Proof. induction l as [|x l IH]; intros a; simpl. lia. rewrite IH, (IH x). lia. Qed.
Lemma state_len_cons b p : state_len (b :: p) = count_ones b + state_len p.
Proof. unfold state_len. cbn [map fold_left]. rewrite fold_add_acc. reflexivity. Qed.

Lemma pack_weight k : forall bm slice pk, length bm <= k -> length slice = plen (length bm) -> pack_into bm slice = Some pk -> state_len pk = weight bm.
Proof.
  induction k as [|k IH]; intros bm slice pk Hk Ls E.
  - destruct bm; [|simpl in Hk; lia]. destruct slice; [|discriminate Ls]. injection E as <-. reflexivity.
  - destruct (block8 bm) as [Hs|(b0 & b1 & b2 & b3 & b4 & b5 & b6 & b7 & r & ->)].
    + destruct (Nat.eq_dec (length bm) 0) as [E0|E0].
      * destruct bm; [|discriminate]. destruct slice; [|discriminate Ls]. injection E as <-. reflexivity.
      * rewrite plen_small in * by lia. destruct slice as [|a [|]]; try discriminate. rewrite pack_small in E by lia. injection E as <-.
        rewrite state_len_cons, count_byte by lia. unfold state_len. simpl. lia.
    + cbn [length] in *. rewrite plen_8 in *. destruct slice as [|a slice]; [discriminate|]. cbn [pack_into] in E.
      destruct (pack_into r slice) as [t|] eqn:Et; [|discriminate]. injection E as <-.
      rewrite state_len_cons, count_byte by (simpl; lia). rewrite (IH r slice t); auto; try lia. simpl. lia.
Qed.
Lemma os_len_weight s : os_len s = weight (bitmap s).
Proof.
  unfold os_len. assert (G : forall l a, fold_left (fun a present => a + Nat.b2n present) l a = a + weight l).
  { induction l as [|b l IH]; intros a; simpl. lia. rewrite IH. destruct b; simpl; lia. }
  apply G.
Qed.
Lemma state_len_pk s : wf s -> state_len (pk s) = os_len s.
Proof.
  intros W. rewrite os_len_weight. pose proof (packed_pk s W) as E. unfold packed in E.
  eapply (pack_weight (length (bitmap s))); [lia| |exact E]. rewrite repeat_length. reflexivity.
Qed.

Lemma from_pk s : wf s -> from_packed (channels s) (pk s) = Some s.
Proof. intros W. destruct (packed_roundtrip s W) as (p & E & _ & _ & R). rewrite packed_pk in E by auto. injection E as <-. exact R. Qed.
Lemma pk_len s : wf s -> length (pk s) = packed_len_for_channels (channels s).
Proof. intros W. destruct (packed_roundtrip s W) as (p & E & L & _). rewrite packed_pk in E by auto. now injection E as <-. Qed.
Lemma pk_bytes s : wf s -> Forall (fun b => b < 256) (pk s).
Proof. intros W. destruct (packed_roundtrip s W) as (p & E & _ & F & _). rewrite packed_pk in E by auto. now injection E as <-. Qed.
Lemma plen_pos n : 0 < packed_len_for_channels n.
Proof.
  unfold packed_len_for_channels. pose proof (Nat.pow_nonzero 2 n ltac:(lia)). apply Nat.div_str_pos. lia.
Qed.

(* ---- by_state_len ---- *)
Definition bt_ok (f : nat -> nat) (b : list (nat * list nat)) : Prop :=
  StronglySorted (fun x y => fst x < fst y) b /\ (forall k ids id, In (k, ids) b -> In id ids -> f id = k).

Lemma bt_push_ok f k id b : bt_ok f b -> f id = k -> bt_ok f (bt_push k id b) /\ Permutation (flat_map snd (bt_push k id b)) (id :: flat_map snd b) /\
  (forall x, In x (bt_push k id b) -> fst x = k \/ exists y, In y b /\ fst x = fst y).
Proof.
  intros (S & F) Hk. induction b as [|(k', ids) b IH]; cbn [bt_push].
  - repeat split. repeat constructor. intros k0 ids id0 [E|[]] Hi. injection E as <- <-. destruct Hi as [<-|[]]. auto. auto.
    intros x [<-|[]]. auto.
  - inversion S as [|? ? S' Fa]; subst. rewrite Forall_forall in Fa. destruct (Nat.ltb_spec (f id) k') as [Hlt|Hge]; [|destruct (Nat.eqb_spec (f id) k') as [<-|Hne]].
    + split; [split|split].
      * constructor; auto. rewrite Forall_forall. intros x [<-|Hx]; cbn [fst] in *; auto. specialize (Fa x Hx). simpl in Fa. lia.
      * intros k0 ids0 id0 [E|Hi]; [injection E as <- <-; intros [<-|[]]; auto|eauto].
      * reflexivity.
      * intros x [<-|Hx]; [auto|right; exists x; auto].
    + split; [split|split].
      * constructor; auto. rewrite Forall_forall. exact Fa.
      * intros k0 ids0 id0 [E|Hi]; [|intros; eapply F; [right; exact Hi|auto]]. injection E as <- <-. intros Hi. apply in_app_iff in Hi. destruct Hi as [Hi|[<-|[]]]; auto.
        eapply F; [left; reflexivity|auto].
      * cbn [flat_map snd]. rewrite <- app_assoc. cbn [app]. symmetry. apply Permutation_middle.
      * intros x [<-|Hx]; [auto|right; exists x; split; auto; now right].
    + destruct IH as ((I1 & I2) & I3 & I4); auto. { intros k0 ids0 id0 Hi. apply F. now right. }
      split; [split|split].
      * constructor; auto. rewrite Forall_forall. intros x Hx. cbn [fst]. destruct (I4 x Hx) as [->|(y & Hy & ->)]. lia. exact (Fa y Hy).
      * intros k0 ids0 id0 [E|Hi]; [injection E as <- <-; eapply F; now left|eapply I2; eauto].
      * cbn [flat_map snd]. rewrite I3. symmetry. apply Permutation_middle.
      * intros x [<-|Hx]; [right; exists (k', ids); split; auto; now left|]. destruct (I4 x Hx) as [->|(y & Hy & ->)]; auto. right. exists y. split; auto. now right.
Qed.

Lemma by_state_len_ok packs : let f id := state_len (nth id packs []) in
  bt_ok f (by_state_len packs) /\ Permutation (flat_map snd (by_state_len packs)) (seq 0 (length packs)).
Proof.
  intros f. unfold by_state_len.
  assert (G : forall l b, (forall id p, In (id, p) l -> p = nth id packs []) -> bt_ok f b ->
    let r := fold_left (fun b e => bt_push (state_len (snd e)) (fst e) b) l b in bt_ok f r /\ Permutation (flat_map snd r) (map fst l ++ flat_map snd b)).
  { induction l as [|(id, p) l IH]; intros b Hl Hb; cbn [fold_left fst snd map app]; auto.
    destruct (bt_push_ok f (state_len p) id b Hb) as (B1 & B2 & _). { unfold f. now rewrite (Hl id p (or_introl eq_refl)). }
    destruct (IH (bt_push (state_len p) id b)) as (R1 & R2); auto. { intros id0 p0 Hi. apply Hl. now right. }
    split; auto. rewrite R2, B2. symmetry. apply Permutation_middle. }
  destruct (G (combine (seq 0 (length packs)) packs) []) as (R1 & R2).
  - intros id p Hi. apply (In_nth _ _ (0, [])) in Hi. destruct Hi as (i & Hi & E). rewrite combine_length, seq_length in Hi.
    rewrite combine_nth in E by now rewrite seq_length. rewrite seq_nth in E by lia. injection E as <- <-. f_equal; lia.
  - split; [constructor|intros ? ? ? []].
  - split; auto. rewrite R2. cbn. rewrite app_nil_r. rewrite <- (seq_length (length packs) 0) at 1.
    assert (X : forall (A B : Type) (l : list A) (l' : list B), length l = length l' -> map fst (combine l l') = l).
    { intros A B. induction l as [|a l IHl]; intros [|b' l'] Hl; simpl in *; try discriminate; auto. f_equal. apply IHl. lia. }
    rewrite X; rewrite ?seq_length; auto.
Qed.

(* ---- the groups ---- *)
Section Prune.
Variables (n : nat) (sets : list OutputSet).
Hypothesis Hn : 1 < n.
Hypothesis Hm : n <= MAX_CHANNELS.
Hypothesis Hs : forall s, In s sets -> wf s /\ channels s = n.
Let stride := packed_len_for_channels n.
Let data := concat (map pk sets).
Let dflt := all_values n.
Let at_ id := nth id sets dflt.

Lemma at_ok id : id < length sets -> wf (at_ id) /\ channels (at_ id) = n.
Proof. intros H. apply Hs. now apply nth_In. Qed.

Lemma get_packed_at id : id < length sets -> get_packed stride data id = Some (pk (at_ id)).
Proof.
  intros H. unfold get_packed.
  assert (G : forall l id, (forall s, In s l -> length (pk s) = stride) -> id < length l -> firstn stride (skipn (stride * id) (concat (map pk l))) = pk (nth id l dflt)).
  { clear. induction l as [|s l IH]; intros id Hl H; simpl in H; [lia|]. assert (L : length (pk s) = stride) by (apply Hl; now left).
    cbn [map concat]. destruct id as [|id].
    - rewrite Nat.mul_0_r. cbn [skipn nth]. rewrite firstn_app, <- L, firstn_all, Nat.sub_diag. cbn [firstn]. now rewrite app_nil_r.
    - rewrite Nat.mul_succ_r, Nat.add_comm. rewrite skipn_app. rewrite skipn_all2 by lia. cbn [app]. replace (stride + stride * id - length (pk s)) with (stride * id) by lia.
      cbn [nth]. apply IH; [|lia]. intros x Hx. apply Hl. now right. }
  assert (L : forall s, In s sets -> length (pk s) = stride). { intros s Hi. destruct (Hs s Hi) as (W & C). rewrite pk_len by auto. now rewrite C. }
  unfold data. rewrite G by auto. fold (at_ id). rewrite L by (now apply nth_In). now rewrite Nat.eqb_refl.
Qed.
Lemma get_set_at id : id < length sets -> get_set n stride data id = Some (at_ id).
Proof.
  intros H. unfold get_set. rewrite get_packed_at by auto. destruct (at_ok id H) as (W & C). rewrite <- C. now apply from_pk.
Qed.

(* the state of the loop: what has been written is what is in the index *)
Definition pst (st : Index * list (list nat)) (kept : list OutputSet) : Prop :=
  snd st = map pk kept /\ (forall k, In k kept -> In k sets) /\ reachable LowerInvert n false (map (fun s => (s, 0)) (rev kept)) (fst st).

Lemma lookup_kept st kept s : pst st kept -> wf s -> channels s = n ->
  exists r, lookup (fst st) s (abstraction s) = Some r /\
    match r with Some _ => exists k, In k kept /\ covers LowerInvert k s | None => forall k, In k kept -> ~ covers LowerInvert k s end.
Proof.
  intros (_ & _ & R) W C. destruct (C11_lookup_best _ _ _ _ _ s Hn Hm R W C) as (r & M & E & _ & B & _). exists r. split; auto.
  destruct r as [v|].
  - destruct B as ((c & Hc & Cv) & _). apply in_map_iff in Hc. destruct Hc as (k & Ek & Hk). injection Ek as -> _. exists c. split; auto. now apply in_rev.
  - intros k Hk. apply (B k 0). apply in_map_iff. exists k. split; auto. now apply in_rev in Hk.
Qed.

Lemma filter_ids_ok st kept ids : pst st kept -> (forall id, In id ids -> id < length sets) ->
  exists new old, filter_ids n stride data (fst st) ids = Some new /\ Permutation ids (new ++ old) /\
    (forall id, In id new -> forall k, In k kept -> ~ covers LowerInvert k (at_ id)) /\
    (forall id, In id old -> exists k, In k kept /\ covers LowerInvert k (at_ id)).
Proof.
  intros P. induction ids as [|id ids IH]; intros H.
  - exists [], []. cbn. repeat split; auto. all: intros ? [].
  - destruct IH as (new & old & E & Pm & N1 & N2). { intros i Hi. apply H. now right. }
    assert (Hid : id < length sets) by (apply H; now left). destruct (at_ok id Hid) as (W & C).
    destruct (lookup_kept st kept (at_ id) P W C) as (r & El & Hr). cbn [filter_ids]. rewrite (get_set_at id Hid). cbv beta iota. rewrite El, E.
    destruct r as [v|].
    + exists new, (id :: old). repeat split; auto. { rewrite Pm. apply Permutation_middle. } intros i [<-|Hi]; auto.
    + exists (id :: new), old. repeat split; auto. { cbn [app]. now constructor. } intros i [<-|Hi]; auto.
Qed.

Lemma write_ids_ok ids : forall st kept, pst st kept -> (forall id, In id ids -> id < length sets) ->
  exists st', fold_opt (write_id n stride data) ids st = Some st' /\ pst st' (kept ++ map at_ ids).
Proof.
  induction ids as [|id ids IH]; intros st kept P H.
  - exists st. cbn. rewrite app_nil_r. auto.
  - assert (Hid : id < length sets) by (apply H; now left). destruct (at_ok id Hid) as (W & C). destruct P as (P1 & P2 & R).
    destruct (C14_for_each_len_is_empty _ _ _ _ _ Hn Hm R) as (_ & M & _ & EM & _).
    destruct (C14_unchecked_adds_one _ _ _ _ _ M (at_ id) 0 Hn Hm R EM W C) as (ix' & M' & Ei & _).
    cbn [fold_opt]. unfold write_id at 1. rewrite get_packed_at by auto. cbv beta iota. replace (from_packed n (pk (at_ id))) with (Some (at_ id)) by (symmetry; rewrite <- C; now apply from_pk). cbv beta iota. rewrite Ei.
    destruct (IH (ix', snd st ++ [pk (at_ id)]) (kept ++ [at_ id])) as (st' & E' & P').
    { split; [|split]; cbn [fst snd]. rewrite P1, map_app. reflexivity.
      - intros k Hk. apply in_app_iff in Hk. destruct Hk as [Hk|[<-|[]]]; auto. now apply nth_In.
      - rewrite rev_app_distr. cbn [rev app map]. eapply R_unchecked; eauto. }
    { intros i Hi. apply H. now right. }
    exists st'. split; auto. rewrite <- app_assoc in P'. exact P'.
Qed.

Lemma groups_ok gs : forall st kept, pst st kept ->
  StronglySorted (fun x y => fst x < fst y) gs ->
  (forall k ids id, In (k, ids) gs -> In id ids -> id < length sets /\ os_len (at_ id) = k) ->
  (forall k g, In k kept -> In g gs -> os_len k < fst g) ->
  (forall k1 k2, In k1 kept -> In k2 kept -> os_len k1 < os_len k2 -> ~ covers LowerInvert k1 k2) ->
  exists st' kept' old, fold_opt (prune_group n stride data) gs st = Some st' /\ pst st' kept' /\
    Permutation (kept ++ map at_ (flat_map snd gs)) (kept' ++ old) /\
    (forall s, In s old -> exists k, In k kept' /\ os_len k < os_len s /\ covers LowerInvert k s) /\
    (forall k, In k kept -> In k kept') /\
    (forall k1 k2, In k1 kept' -> In k2 kept' -> os_len k1 < os_len k2 -> ~ covers LowerInvert k1 k2).
Proof.
  induction gs as [|(k, ids) gs IH]; intros st kept P S Hi Hk HC.
  - exists st, kept, []. cbn. rewrite app_nil_r. split; auto. split; auto. split; auto. split; auto. intros s [].
  - inversion S as [|? ? S' Fa]; subst. rewrite Forall_forall in Fa. cbn [fold_opt]. unfold prune_group at 1. cbn [fst snd].
    assert (Hids : forall id, In id ids -> id < length sets /\ os_len (at_ id) = k) by (intros id I; eapply Hi; eauto; now left).
    destruct (filter_ids_ok st kept ids P) as (new & old & E & Pm & N1 & N2). { intros id I. now apply Hids. }
    assert (Hnew : forall id, In id new -> id < length sets /\ os_len (at_ id) = k). { intros id I. apply Hids. eapply Permutation_in; [symmetry; exact Pm|]. apply in_app_iff. auto. }
    assert (Hold : forall id, In id old -> id < length sets /\ os_len (at_ id) = k). { intros id I. apply Hids. eapply Permutation_in; [symmetry; exact Pm|]. apply in_app_iff. auto. }
    rewrite E. destruct (write_ids_ok new st kept P) as (st1 & E1 & P1). { intros id I. now apply Hnew. } rewrite E1.
    destruct (IH st1 (kept ++ map at_ new) P1 S') as (st' & kept' & old' & E2 & P2 & Pm2 & O2 & K2 & C2).
    { intros k0 ids0 id Hg. eapply Hi. now right. }
    { intros s g Hin Hg. apply in_app_iff in Hin. destruct Hin as [Hin|Hin]. apply Hk; auto. now right.
      apply in_map_iff in Hin. destruct Hin as (id & <- & Hid). rewrite (proj2 (Hnew id Hid)). exact (Fa g Hg). }
    { assert (Hkk : forall s, In s kept -> os_len s < k) by (intros s Hin; apply (Hk s (k, ids)); auto; now left).
      intros k1 k2 H1 H2 L. apply in_app_iff in H1. apply in_app_iff in H2.
      destruct H2 as [H2|H2].
      - destruct H1 as [H1|H1]. now apply HC. apply in_map_iff in H1. destruct H1 as (id & <- & Hid). rewrite (proj2 (Hnew id Hid)) in L. specialize (Hkk k2 H2). lia.
      - apply in_map_iff in H2. destruct H2 as (id & <- & Hid). destruct H1 as [H1|H1]. now apply N1.
        apply in_map_iff in H1. destruct H1 as (id' & <- & Hid'). rewrite (proj2 (Hnew id' Hid')), (proj2 (Hnew id Hid)) in L. lia. }
    exists st', kept', (old' ++ map at_ old). split; auto. split; auto. split; [|split; [|split]].
    + cbn [flat_map snd]. rewrite map_app. rewrite (app_assoc kept' old'). rewrite <- Pm2. rewrite <- !app_assoc. apply Permutation_app_head.
      rewrite (Permutation_app_comm (map at_ (flat_map snd gs))). rewrite app_assoc. apply Permutation_app_tail. rewrite <- map_app. apply Permutation_map. exact Pm.
    + intros s Hin. apply in_app_iff in Hin. destruct Hin as [Hin|Hin]; auto. apply in_map_iff in Hin. destruct Hin as (id & <- & Hid).
      destruct (N2 id Hid) as (k0 & H0 & C0). exists k0. split; [apply K2; apply in_app_iff; auto|]. split; auto. rewrite (proj2 (Hold id Hid)). apply (Hk k0 (k, ids)); auto. now left.
    + intros s Hin. apply K2. apply in_app_iff. auto.
    + exact C2.
Qed.

Lemma prune_data_ok : exists kept old, prune_data n data = Some (map pk kept) /\ Permutation sets (kept ++ old) /\
  (forall s, In s old -> exists k, In k kept /\ os_len k < os_len s /\ covers LowerInvert k s) /\
  (forall k1 k2, In k1 kept -> In k2 kept -> os_len k1 < os_len k2 -> ~ covers LowerInvert k1 k2).
Proof.
  unfold prune_data. fold stride. unfold data. rewrite chunks_concat.
  2: apply plen_pos. 2: { intros p Hp. apply in_map_iff in Hp. destruct Hp as (s & <- & Hin). destruct (Hs s Hin) as (W & C). rewrite pk_len by auto. now rewrite C. }
  fold data. destruct (by_state_len_ok (map pk sets)) as ((B1 & B2) & B3). rewrite map_length in B3.
  assert (Lt : forall k ids id, In (k, ids) (by_state_len (map pk sets)) -> In id ids -> id < length sets).
  { intros k ids id H1 H2. assert (I : In id (seq 0 (length sets))). { eapply Permutation_in; [exact B3|]. apply in_flat_map. exists (k, ids). auto. } apply in_seq in I. lia. }
  destruct (groups_ok (by_state_len (map pk sets)) (index_new LowerInvert n, []) []) as (st' & kept & old & E & P & Pm & O & _ & C).
  - repeat split. intros k []. constructor.
  - exact B1.
  - intros k ids id H1 H2. pose proof (Lt k ids id H1 H2) as Hid. split; auto. rewrite <- (B2 k ids id H1 H2).
    rewrite <- state_len_pk by now apply at_ok. unfold at_. f_equal. rewrite (nth_indep _ [] (pk dflt)) by now rewrite map_length. now rewrite map_nth.
  - intros k g [].
  - intros k1 k2 [].
  - exists kept, old. rewrite E. destruct P as (P1 & _). rewrite P1. split; auto. split; auto.
    rewrite <- Pm. cbn [app]. rewrite B3. unfold at_.
    assert (X : forall l, map (fun id => nth id l dflt) (seq 0 (length l)) = l).
    { intros l. apply nth_ext with (d := dflt) (d' := dflt). now rewrite map_length, seq_length. intros i Hi. rewrite map_length, seq_length in Hi.
      rewrite (nth_indep _ _ (nth 0 l dflt)) by now rewrite map_length, seq_length. rewrite (map_nth (fun id => nth id l dflt) _ 0). now rewrite seq_nth. }
    now rewrite X.
Qed.
End Prune.
