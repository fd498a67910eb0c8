(* The sharded map of states.rs behaves as one map keyed by output sets. *)
From Coq Require Import List Arith Bool Lia Sorted.
Import ListNotations.
From Verif Require Import Spec Vec Util OutputSetModel OutputSetProofs PackProofs TreeModel StatesModel.

Lemma NoDup_app_intro' {A} (l l' : list A) : NoDup l -> NoDup l' -> (forall x, In x l -> In x l' -> False) -> NoDup (l ++ l').
Proof.
  induction l as [|a l IH]; intros H H' D; auto. inversion H; subst. simpl. constructor.
  - rewrite in_app_iff. intros [?|?]; auto. apply (D a); simpl; auto.
  - apply IH; auto. intros x ? ?. apply (D x); simpl; auto.
Qed.

Lemma skipn_cons {A} (l : list A) d : forall j, j < length l -> skipn j l = nth j l d :: skipn (S j) l.
Proof.
  induction l as [|a l IH]; simpl; intros j Hj; [lia|]. destruct j; auto. cbn [skipn nth]. now rewrite IH by lia.
Qed.

Lemma nth_skipn' {A} (l : list A) d : forall n i, nth i (skipn n l) d = nth (n + i) l d.
Proof.
  induction l as [|a l IH]; intros [|n] i; auto. { destruct i; reflexivity. } apply IH.
Qed.

(* ---- keys ---- *)
Definition klt (a b : list nat) : Prop := key_cmp a b = Lt.

Lemma key_cmp_eq a : forall b, key_cmp a b = Eq <-> a = b.
Proof.
  unfold key_cmp. induction a as [|x a IH]; intros [|y b]; simpl; try (split; congruence).
  destruct (Nat.compare_spec x y) as [->|H|H].
  - rewrite IH. split; congruence.
  - split; [discriminate|]. intros E. injection E as -> ->. lia.
  - split; [discriminate|]. intros E. injection E as -> ->. lia.
Qed.

Lemma key_cmp_opp a : forall b, key_cmp b a = CompOpp (key_cmp a b).
Proof.
  unfold key_cmp. induction a as [|x a IH]; intros [|y b]; simpl; auto.
  rewrite (Nat.compare_antisym x y). destruct (x ?= y); simpl; auto.
Qed.

Lemma klt_trans a : forall b c, klt a b -> klt b c -> klt a c.
Proof.
  unfold klt, key_cmp. induction a as [|x a IH]; intros [|y b] [|z c]; simpl; try congruence; auto.
  destruct (Nat.compare_spec x y), (Nat.compare_spec y z); try congruence; subst; intros.
  - rewrite Nat.compare_refl. eauto.
  - now rewrite (proj2 (Nat.compare_lt_iff y z)).
  - now rewrite (proj2 (Nat.compare_lt_iff x z)).
  - now rewrite (proj2 (Nat.compare_lt_iff x z)) by lia.
Qed.

Lemma klt_irrefl a : ~ klt a a.
Proof. unfold klt. intros H. rewrite (proj2 (key_cmp_eq a a) eq_refl) in H. discriminate. Qed.

(* ---- BTreeMap ---- *)
Section BT.
Context {T : Type}.
Implicit Types m : BTree T.

Definition above (k : list nat) m := forall k' v, In (k', v) m -> klt k k'.
Fixpoint bt_wf m : Prop :=
  match m with
  | [] => True
  | (k, _) :: r => above k r /\ bt_wf r
  end.

Lemma above_get k m : above k m -> bt_get k m = None.
Proof.
  destruct m as [|(k', v) r]; auto. intros A. simpl. pose proof (A k' v (or_introl eq_refl)) as H.
  unfold klt in H. now rewrite H.
Qed.

Lemma above_trans k k' m : klt k k' -> above k' m -> above k m.
Proof. intros H A x v I. eapply klt_trans; eauto. Qed.

Lemma bt_get_In k v m : bt_wf m -> (bt_get k m = Some v <-> In (k, v) m).
Proof.
  induction m as [|(k', v') r IH]; simpl. { split; [discriminate|tauto]. }
  intros (A & W). specialize (IH W). destruct (key_cmp k k') eqn:E.
  - apply key_cmp_eq in E. subst k'. split; intros H.
    + left. congruence.
    + destruct H as [H|H]; [congruence|]. destruct (klt_irrefl k). eapply A; eauto.
  - split; [discriminate|]. intros [H|H].
    + injection H as -> ->. destruct (klt_irrefl k E).
    + apply A in H. destruct (klt_irrefl k). eapply klt_trans; eauto.
  - rewrite IH. split; auto. intros [H|H]; auto. injection H as -> ->.
    rewrite (proj2 (key_cmp_eq k k) eq_refl) in E. discriminate.
Qed.

Lemma bt_insert_In k v m k' v' : In (k', v') (bt_insert k v m) -> (k' = k /\ v' = v) \/ In (k', v') m.
Proof.
  induction m as [|(a, b) r IH]; simpl. { intros [H|[]]. injection H as <- <-. auto. }
  destruct (key_cmp k a) eqn:E; simpl; intros [H|H]; auto.
  - injection H as <- <-. auto.
  - injection H as <- <-. auto.
  - destruct (IH H); auto.
Qed.

Lemma bt_remove_In k m k' v' : In (k', v') (bt_remove k m) -> In (k', v') m.
Proof.
  induction m as [|(a, b) r IH]; simpl; auto. destruct (key_cmp k a) eqn:E; simpl; auto. intros [H|H]; auto.
Qed.

Lemma bt_insert_wf k v m : bt_wf m -> bt_wf (bt_insert k v m).
Proof.
  induction m as [|(a, b) r IH]; simpl. { intros _. split; auto. intros ? ? []. }
  intros (A & W). destruct (key_cmp k a) eqn:E; simpl.
  - apply key_cmp_eq in E. subst. auto.
  - split; auto. intros k' v' [H|H]. { injection H as <- <-. auto. } eapply klt_trans; [exact E|]. eauto.
  - split; auto. intros k' v' H. apply bt_insert_In in H. destruct H as [(-> & ->)|H]; eauto.
    unfold klt. rewrite key_cmp_opp, E. reflexivity.
Qed.

Lemma bt_remove_wf k m : bt_wf m -> bt_wf (bt_remove k m).
Proof.
  induction m as [|(a, b) r IH]; simpl; auto. intros (A & W). destruct (key_cmp k a) eqn:E; simpl; auto.
  split; auto. intros k' v' H. apply bt_remove_In in H. eauto.
Qed.

Lemma bt_get_insert k v m k' : bt_wf m ->
  bt_get k' (bt_insert k v m) = match key_cmp k' k with Eq => Some v | _ => bt_get k' m end.
Proof.
  induction m as [|(a, b) r IH]; simpl. { destruct (key_cmp k' k); auto. }
  intros (A & W). destruct (key_cmp k a) eqn:E; simpl.
  - apply key_cmp_eq in E. subst a. destruct (key_cmp k' k); auto.
  - destruct (key_cmp k' k) eqn:E'; auto.
    replace (key_cmp k' a) with Lt; auto. symmetry. eapply klt_trans; eauto.
  - rewrite IH by auto. destruct (key_cmp k' k) eqn:E'; auto.
    apply key_cmp_eq in E'. subst. now rewrite E.
Qed.

Lemma bt_get_remove k m k' : bt_wf m ->
  bt_get k' (bt_remove k m) = match key_cmp k' k with Eq => None | _ => bt_get k' m end.
Proof.
  induction m as [|(a, b) r IH]; simpl. { destruct (key_cmp k' k); auto. }
  intros (A & W). destruct (key_cmp k a) eqn:E; simpl.
  - apply key_cmp_eq in E. subst a. destruct (key_cmp k' k) eqn:E'; auto.
    + apply key_cmp_eq in E'. subst. now apply above_get.
    + apply above_get. eapply above_trans; eauto.
  - destruct (key_cmp k' k) eqn:E'; auto. apply key_cmp_eq in E'. subst. now rewrite E.
  - rewrite IH by auto. destruct (key_cmp k' k) eqn:E'; auto. apply key_cmp_eq in E'. subst. now rewrite E.
Qed.

Lemma bt_keys_NoDup m : bt_wf m -> NoDup (map fst m).
Proof.
  induction m as [|(k, v) r IH]; simpl. { constructor. } intros (A & W). constructor; auto.
  rewrite in_map_iff. intros ((k', v') & E & H). simpl in E. subst k'. destruct (klt_irrefl k). eapply A; eauto.
Qed.

(* ---- OutputSetMap ---- *)
Implicit Types om : OutputSetMap T.

Definition osm_wf om : Prop :=
  length om = 9 /\ forall i, i < 9 -> bt_wf (nth i om []).

Lemma osm_empty_wf : osm_wf (@osm_empty T).
Proof.
  split. reflexivity. intros i Hi. do 9 (destruct i as [|i]; [exact I|]). lia.
Qed.

Lemma chan_range c : 3 <= c -> c <= 11 -> (3 <=? c) && (c <=? 11) = true.
Proof. intros H H'. rewrite andb_true_iff, !Nat.leb_le. auto. Qed.

Lemma nth_error_nth_lt {A} (l : list A) i d : i < length l -> nth_error l i = Some (nth i l d).
Proof. intros H. now apply nth_error_nth'. Qed.

Lemma get_wp om c pk : osm_wf om -> 3 <= c -> c <= 11 -> length pk = 2 ^ (c - 3) ->
  get_with_packed om c pk = Some (bt_get pk (nth (c - 3) om [])).
Proof.
  intros (L & _) H1 H2 Lp. unfold get_with_packed, array_ref. rewrite chan_range by auto.
  rewrite Lp, Nat.ltb_irrefl, <- Lp, firstn_all.
  rewrite (nth_error_nth_lt om (c - 3) []) by lia. reflexivity.
Qed.

Lemma set_wp om c pk v : osm_wf om -> 3 <= c -> c <= 11 -> length pk = 2 ^ (c - 3) ->
  set_with_packed om c pk v = Some (upd om (c - 3) (bt_insert pk v (nth (c - 3) om []))).
Proof.
  intros (L & _) H1 H2 Lp. unfold set_with_packed, array_ref. rewrite chan_range by auto.
  rewrite Lp, Nat.ltb_irrefl, <- Lp, firstn_all.
  rewrite (nth_error_nth_lt om (c - 3) []) by lia. reflexivity.
Qed.

Lemma remove_wp om c pk : osm_wf om -> 3 <= c -> c <= 11 -> length pk = 2 ^ (c - 3) ->
  remove_with_packed om c pk = Some (upd om (c - 3) (bt_remove pk (nth (c - 3) om []))).
Proof.
  intros (L & _) H1 H2 Lp. unfold remove_with_packed, array_ref. rewrite chan_range by auto.
  rewrite Lp, Nat.ltb_irrefl, <- Lp, firstn_all.
  rewrite (nth_error_nth_lt om (c - 3) []) by lia. reflexivity.
Qed.

Lemma osm_upd_wf om i b : osm_wf om -> bt_wf b -> osm_wf (upd om i b).
Proof.
  intros (L & W) B. split. now rewrite upd_length. intros j Hj. rewrite upd_nth.
  destruct ((j =? i) && (i <? length om)); auto.
Qed.

Lemma drain_In om c k v : length om = 9 ->
  (In (c, k, v) (drain_packed om) <-> 3 <= c /\ c <= 11 /\ In (k, v) (nth (c - 3) om [])).
Proof.
  intros L. unfold drain_packed, enumerate. rewrite in_flat_map. split.
  - intros ((i, b) & Hi & H). apply in_map_iff in H. destruct H as ((k', v') & E & H). simpl in E, H.
    injection E as <- <- <-. apply (In_nth _ _ (0, [])) in Hi. destruct Hi as (j & Hj & E).
    rewrite combine_length, seq_length, L in Hj. rewrite combine_nth in E by apply seq_length.
    rewrite seq_nth in E by lia. injection E as <- <-. change (0 + j) with j. rewrite Nat.add_sub. split; [lia|]. split; [lia|].
    exact H.
  - intros (H1 & H2 & H). exists (c - 3, nth (c - 3) om []). split.
    + replace (c - 3, nth (c - 3) om []) with (nth (c - 3) (combine (seq 0 (length om)) om) (0, [])).
      apply nth_In. rewrite combine_length, seq_length. lia.
      rewrite combine_nth by apply seq_length. rewrite seq_nth by lia. reflexivity.
    + apply in_map_iff. exists (k, v). split; auto. simpl. f_equal. f_equal. lia.
Qed.

Lemma drain_len om : length (drain_packed om) = osm_len om.
Proof.
  unfold drain_packed, osm_len, enumerate.
  assert (G : forall (l : OutputSetMap T) a b, length (flat_map (fun e : nat * BTree T => map (fun kv => (fst e + 3, fst kv, snd kv)) (snd e)) (combine (seq b (length l)) l)) + a
            = fold_left (fun a b => a + length b) l a).
  { induction l as [|x l IH]; intros a b; simpl; auto. rewrite app_length, map_length, <- (IH _ (S b)). lia. }
  now rewrite <- G with (b := 0).
Qed.

Lemma drain_NoDup om : osm_wf om -> NoDup (map fst (drain_packed om)).
Proof.
  intros (L & W). unfold drain_packed, enumerate. revert W. rewrite L. intros W.
  assert (G : forall (l : OutputSetMap T) b, (forall i, i < length l -> bt_wf (nth i l [])) ->
            NoDup (map fst (flat_map (fun e : nat * BTree T => map (fun kv => (fst e + 3, fst kv, snd kv)) (snd e)) (combine (seq b (length l)) l))) /\
            (forall c k v, In (c, k, v) (flat_map (fun e : nat * BTree T => map (fun kv => (fst e + 3, fst kv, snd kv)) (snd e)) (combine (seq b (length l)) l)) -> b + 3 <= c)).
  { induction l as [|x l IH]; intros b H; simpl. { split. constructor. intros ? ? ? []. }
    destruct (IH (S b)) as (IH1 & IH2). { intros i Hi. apply (H (S i)). simpl. lia. }
    split.
    - rewrite map_app, map_map. simpl. apply NoDup_app_intro'.
      + rewrite <- (map_map fst (fun k => (b + 3, k))). apply FinFun.Injective_map_NoDup. { intros u v E. congruence. }
        apply bt_keys_NoDup. apply (H 0). simpl. lia.
      + exact IH1.
      + intros (c, k) H1 H2. apply in_map_iff in H1, H2. destruct H1 as (kv & E & _).
        destruct H2 as (((c', k'), v) & E' & H2). simpl in E'. injection E' as -> ->. injection E as <- <-.
        apply IH2 in H2. lia.
    - intros c k v H1. apply in_app_iff in H1. destruct H1 as [H1|H1].
      + apply in_map_iff in H1. destruct H1 as (kv & E & _). injection E as <- <- <-. lia.
      + apply IH2 in H1. lia. }
  rewrite <- L. apply (G om 0). rewrite L. exact W.
Qed.
End BT.

(* ---- output sets as keys ---- *)
Definition okk (s : OutputSet) : Prop := wf s /\ 3 <= channels s /\ channels s <= 11.
Definition pk (s : OutputSet) : list nat := match packed s with Some p => p | None => [] end.

Lemma packed_pk s : wf s -> packed s = Some (pk s).
Proof. intros W. destruct (packed_roundtrip s W) as (p & E & _). unfold pk. now rewrite E. Qed.

Lemma packed_len_pow c : 3 <= c -> packed_len_for_channels c = 2 ^ (c - 3).
Proof.
  intros H. unfold packed_len_for_channels. replace (2 ^ c) with (2 ^ (c - 3) * 8).
  rewrite Nat.div_add_l by lia. change (7 / 8) with 0. lia.
  change 8 with (2 ^ 3). rewrite <- Nat.pow_add_r. f_equal. lia.
Qed.

Lemma pk_length s : okk s -> length (pk s) = 2 ^ (channels s - 3).
Proof.
  intros (W & H & _). destruct (packed_roundtrip s W) as (p & E & L & _). unfold pk. rewrite E, L. now apply packed_len_pow.
Qed.

Lemma pk_inj s t : wf s -> wf t -> channels s = channels t -> pk s = pk t -> s = t.
Proof. intros Ws Wt C E. apply packed_inj; auto. rewrite !packed_pk by auto. congruence. Qed.

Lemma os_eq_dec (s t : OutputSet) : {s = t} + {s <> t}.
Proof. decide equality. apply (list_eq_dec Bool.bool_dec). apply Nat.eq_dec. Defined.

Lemma shard_lt hash k p : 0 < k -> shard_of hash k p < k.
Proof.
  intros H. unfold shard_of.
  assert (forall a b, Nat.land a b <= b) as X.
  { intros a b. apply Nat.ldiff_le. apply Nat.bits_inj. intros i. rewrite Nat.ldiff_spec, Nat.land_spec, Nat.bits_0.
    destruct (Nat.testbit a i), (Nat.testbit b i); reflexivity. }
  specialize (X (hash p) (k - 1)). lia.
Qed.

Section Sharded.
Context {T : Type} (hash : list nat -> nat).
Implicit Types sh : list (OutputSetMap T).

Definition sget sh s := p <- packed s;; shard <- nth_error sh (shard_of hash (length sh) p);; get_with_packed shard (channels s) p.
Definition sset sh s v := p <- packed s;; shard <- nth_error sh (shard_of hash (length sh) p);;
  shard' <- set_with_packed shard (channels s) p v;; Some (upd sh (shard_of hash (length sh) p) shard').
Definition srem sh s := p <- packed s;; shard <- nth_error sh (shard_of hash (length sh) p);;
  shard' <- remove_with_packed shard (channels s) p;; Some (upd sh (shard_of hash (length sh) p) shard').

Definition sh_wf sh : Prop :=
  0 < length sh /\
  forall j, j < length sh -> osm_wf (nth j sh osm_empty) /\
    forall i k v, i < 9 -> In (k, v) (nth i (nth j sh osm_empty) []) ->
      exists s, okk s /\ channels s = i + 3 /\ pk s = k /\ shard_of hash (length sh) k = j.

Definition sfind sh s : option T :=
  if (3 <=? channels s) && (channels s <=? 11)
  then bt_get (pk s) (nth (channels s - 3) (nth (shard_of hash (length sh) (pk s)) sh osm_empty) [])
  else None.

Lemma sget_find sh s : sh_wf sh -> wf s -> sget sh s = Some (sfind sh s).
Proof.
  intros (L & W) Ws. unfold sget, sfind. rewrite packed_pk by auto. rewrite (nth_error_nth_lt sh _ osm_empty) by now apply shard_lt.
  destruct ((3 <=? channels s) && (channels s <=? 11)) eqn:E.
  - apply andb_true_iff in E. rewrite !Nat.leb_le in E. destruct E. apply get_wp; auto.
    apply W. now apply shard_lt. apply pk_length. unfold okk. auto.
  - unfold get_with_packed. now rewrite E.
Qed.

(* one shard's map for one channel count replaced *)
Lemma upd2_wf sh s b : sh_wf sh -> okk s -> bt_wf b ->
  (forall k v, In (k, v) b -> k = pk s \/ In (k, v) (nth (channels s - 3) (nth (shard_of hash (length sh) (pk s)) sh osm_empty) [])) ->
  let j := shard_of hash (length sh) (pk s) in
  sh_wf (upd sh j (upd (nth j sh osm_empty) (channels s - 3) b)).
Proof.
  intros (L & W) Hs B H j. assert (Hj : j < length sh) by now apply shard_lt. destruct Hs as (Ws & H1 & H2).
  unfold sh_wf. rewrite upd_length. split; auto. intros j' Hj'. rewrite upd_nth.
  apply Nat.ltb_lt in Hj as Hj2. rewrite Hj2, andb_true_r. destruct (Nat.eqb_spec j' j) as [->|N]; [|now apply W].
  destruct (W j Hj) as (W1 & W2). split. now apply osm_upd_wf.
  intros i k v Hi. rewrite upd_nth. destruct W1 as (L9 & _). rewrite L9. replace (channels s - 3 <? 9) with true by (symmetry; apply Nat.ltb_lt; lia).
  rewrite andb_true_r. destruct (Nat.eqb_spec i (channels s - 3)) as [->|N]; [|now apply W2].
  intros I. destruct (H k v I) as [->|I']. { exists s. unfold okk. repeat split; auto; lia. } eapply W2; eauto.
Qed.

Lemma upd2_find sh s t b : sh_wf sh -> okk s -> wf t ->
  let j := shard_of hash (length sh) (pk s) in
  sfind (upd sh j (upd (nth j sh osm_empty) (channels s - 3) b)) t =
  if (channels t =? channels s) && (shard_of hash (length sh) (pk t) =? j)
  then bt_get (pk t) b else sfind sh t.
Proof.
  intros (L & W) (Ws & H1 & H2) Wt j. unfold sfind. rewrite upd_length.
  assert (Hj : j < length sh) by now apply shard_lt. apply Nat.ltb_lt in Hj as Hj2. destruct (W j Hj) as ((L9 & _) & _).
  destruct ((3 <=? channels t) && (channels t <=? 11)) eqn:E.
  - apply andb_true_iff in E. rewrite !Nat.leb_le in E. rewrite upd_nth, Hj2, andb_true_r.
    destruct (Nat.eqb_spec (shard_of hash (length sh) (pk t)) j) as [Ej|N]; [|now rewrite andb_false_r].
    rewrite andb_true_r, upd_nth, L9. replace (channels s - 3 <? 9) with true by (symmetry; apply Nat.ltb_lt; lia).
    rewrite andb_true_r. destruct (Nat.eqb_spec (channels t) (channels s)) as [->|N].
    + now rewrite Nat.eqb_refl.
    + replace (channels t - 3 =? channels s - 3) with false by (symmetry; apply Nat.eqb_neq; lia). now rewrite Ej.
  - destruct (Nat.eqb_spec (channels t) (channels s)) as [E'|N]; auto. rewrite E', chan_range in E by auto. discriminate.
Qed.

Lemma sset_spec sh s v : sh_wf sh -> okk s ->
  exists sh', sset sh s v = Some sh' /\ sh_wf sh' /\ length sh' = length sh /\
    forall t, wf t -> sfind sh' t = if os_eq_dec t s then Some v else sfind sh t.
Proof.
  intros Wsh Hs. pose proof Wsh as (L & W). pose proof Hs as (Ws & H1 & H2). set (j := shard_of hash (length sh) (pk s)).
  assert (Hj : j < length sh) by now apply shard_lt. destruct (W j Hj) as (Wj & _).
  eexists. split.
  { unfold sset. rewrite packed_pk by auto. fold j. rewrite (nth_error_nth_lt sh _ osm_empty) by auto.
    rewrite set_wp by (auto; now apply pk_length). reflexivity. }
  assert (Bw : bt_wf (nth (channels s - 3) (nth j sh osm_empty) [])) by (apply Wj; lia).
  split; [|split].
  - apply upd2_wf; auto. now apply bt_insert_wf. intros k w I. apply bt_insert_In in I. fold j. tauto.
  - apply upd_length.
  - intros t Wt. unfold j at 1 2. rewrite upd2_find by auto. fold j.
    destruct (Nat.eqb_spec (channels t) (channels s)) as [C|N]; simpl.
    2:{ destruct (os_eq_dec t s) as [->|]; congruence. }
    destruct (Nat.eqb_spec (shard_of hash (length sh) (pk t)) j) as [Ej|N].
    2:{ destruct (os_eq_dec t s) as [->|]; auto. now destruct N. }
    rewrite bt_get_insert by auto. unfold sfind. rewrite C, chan_range, Ej by auto.
    destruct (os_eq_dec t s) as [->|Nts]. { now rewrite (proj2 (key_cmp_eq _ _) eq_refl). }
    destruct (key_cmp (pk t) (pk s)) eqn:K; auto. apply key_cmp_eq in K. destruct Nts. now apply pk_inj.
Qed.

Lemma srem_spec sh s : sh_wf sh -> okk s ->
  exists sh', srem sh s = Some sh' /\ sh_wf sh' /\ length sh' = length sh /\
    forall t, wf t -> sfind sh' t = if os_eq_dec t s then None else sfind sh t.
Proof.
  intros Wsh Hs. pose proof Wsh as (L & W). pose proof Hs as (Ws & H1 & H2). set (j := shard_of hash (length sh) (pk s)).
  assert (Hj : j < length sh) by now apply shard_lt. destruct (W j Hj) as (Wj & _).
  eexists. split.
  { unfold srem. rewrite packed_pk by auto. fold j. rewrite (nth_error_nth_lt sh _ osm_empty) by auto.
    rewrite remove_wp by (auto; now apply pk_length). reflexivity. }
  assert (Bw : bt_wf (nth (channels s - 3) (nth j sh osm_empty) [])) by (apply Wj; lia).
  split; [|split].
  - apply upd2_wf; auto. now apply bt_remove_wf. intros k w I. apply bt_remove_In in I. fold j. tauto.
  - apply upd_length.
  - intros t Wt. unfold j at 1 2. rewrite upd2_find by auto. fold j.
    destruct (Nat.eqb_spec (channels t) (channels s)) as [C|N]; simpl.
    2:{ destruct (os_eq_dec t s) as [->|]; congruence. }
    destruct (Nat.eqb_spec (shard_of hash (length sh) (pk t)) j) as [Ej|N].
    2:{ destruct (os_eq_dec t s) as [->|]; auto. now destruct N. }
    rewrite bt_get_remove by auto. unfold sfind. rewrite C, chan_range, Ej by auto.
    destruct (os_eq_dec t s) as [->|Nts]. { now rewrite (proj2 (key_cmp_eq _ _) eq_refl). }
    destruct (key_cmp (pk t) (pk s)) eqn:K; auto. apply key_cmp_eq in K. destruct Nts. now apply pk_inj.
Qed.

Lemma sh_empty_wf k : 0 < k -> sh_wf (repeat osm_empty k).
Proof.
  intros H. unfold sh_wf. rewrite repeat_length. split; auto. intros j Hj. rewrite nth_repeat. split. apply osm_empty_wf.
  intros i key v Hi I. exfalso. do 9 (destruct i as [|i]; [exact I|]). lia.
Qed.

Lemma sh_empty_find k s : sfind (repeat osm_empty k) s = None.
Proof.
  unfold sfind. rewrite nth_repeat. destruct ((3 <=? channels s) && (channels s <=? 11)); auto.
  assert (E : forall i, nth i (@osm_empty T) [] = []) by (intros i; do 9 (destruct i as [|i]; [reflexivity|]); destruct i; reflexivity).
  now rewrite E.
Qed.

Definition drain_all sh : list (nat * list nat * T) := flat_map drain_packed sh.

Lemma drain_all_In sh c k v : sh_wf sh ->
  (In (c, k, v) (drain_all sh) <-> exists s, okk s /\ channels s = c /\ pk s = k /\ sfind sh s = Some v).
Proof.
  intros (L & W). unfold drain_all. rewrite in_flat_map. split.
  - intros (om & I & D). apply (In_nth _ _ osm_empty) in I. destruct I as (j & Hj & <-). destruct (W j Hj) as (W1 & W2).
    apply drain_In in D; [|apply W1]. destruct D as (H1 & H2 & D). destruct (W2 (c - 3) k v ltac:(lia) D) as (s & Hs & C & E & Ej).
    assert (Cs : channels s = c) by lia. exists s. split; auto. split; auto. split; auto.
    unfold sfind. rewrite Cs, chan_range, E, Ej by auto. apply bt_get_In; auto. apply W1. lia.
  - intros (s & Hs & <- & <- & F). unfold sfind in F. destruct Hs as (Ws & H1 & H2). rewrite chan_range in F by auto.
    set (j := shard_of hash (length sh) (pk s)) in *. assert (Hj : j < length sh) by now apply shard_lt.
    exists (nth j sh osm_empty). split. now apply nth_In. destruct (W j Hj) as (W1 & _). apply drain_In; [apply W1|].
    split; auto. split; auto. apply bt_get_In; auto. apply W1. lia.
Qed.

Lemma drain_all_NoDup sh : sh_wf sh -> NoDup (map fst (drain_all sh)).
Proof.
  intros (L & W). unfold drain_all.
  assert (G : forall k, k <= length sh -> NoDup (map fst (flat_map drain_packed (skipn (length sh - k) sh)))).
  { induction k as [|k IH]; intros Hk. { rewrite Nat.sub_0_r, skipn_all. constructor. }
    set (j := length sh - S k). assert (Hj : j < length sh) by lia.
    assert (E : skipn j sh = nth j sh osm_empty :: skipn (S j) sh).
    { now apply skipn_cons. }
    rewrite E. replace (S j) with (length sh - k) by lia. simpl. rewrite map_app. apply NoDup_app_intro'.
    - apply drain_NoDup. now apply W.
    - apply IH. lia.
    - intros (c, key) I1 I2. apply in_map_iff in I1, I2. destruct I1 as (((c1, k1), v1) & E1 & I1), I2 as (((c2, k2), v2) & E2 & I2).
      simpl in E1, E2. injection E1 as -> ->. injection E2 as -> ->.
      apply in_flat_map in I2. destruct I2 as (om & I2 & D2). apply (In_nth _ _ osm_empty) in I2. destruct I2 as (j2 & Hj2 & <-).
      rewrite skipn_length in Hj2.
      assert (E3 : nth j2 (skipn (length sh - k) sh) osm_empty = nth (length sh - k + j2) sh osm_empty).
      { apply nth_skipn'. }
      rewrite E3 in D2.
      destruct (W j Hj) as (A1 & A2). destruct (W (length sh - k + j2) ltac:(lia)) as (B1 & B2).
      apply drain_In in I1; [|apply A1]. apply drain_In in D2; [|apply B1].
      destruct I1 as (I1 & I1' & I1''), D2 as (_ & _ & D2).
      destruct (A2 (c - 3) _ _ ltac:(lia) I1'') as (_ & _ & _ & _ & Ja). destruct (B2 (c - 3) _ _ ltac:(lia) D2) as (_ & _ & _ & _ & Jb). lia. }
  specialize (G (length sh) ltac:(lia)). now rewrite Nat.sub_diag in G.
Qed.

Lemma drain_all_len sh : length (drain_all sh) = fold_left (fun a b => a + osm_len b) sh 0.
Proof.
  unfold drain_all.
  assert (G : forall (l : list (OutputSetMap T)) a, length (flat_map drain_packed l) + a = fold_left (fun a b => a + osm_len b) l a).
  { induction l as [|x l IH]; intros a; simpl; auto. rewrite app_length, drain_len, <- IH. lia. }
  now rewrite <- G.
Qed.
End Sharded.
