(* The default states are true bounds, and the StateMap as a total map. *)
From Coq Require Import List Arith Bool Lia.
Import ListNotations.
From Verif Require Import Spec Vec Net Graded Util OutputSetModel OutputSetProofs PackProofs TreeModel StatesModel StatesProofs.

(* ---- explicit networks ---- *)
Definition known_network (n : nat) : network :=
  match n with
  | 3 => [(0, 2);(0, 1);(1, 2)]
  | 4 => [(0, 2);(1, 3);(0, 1);(2, 3);(1, 2)]
  | 5 => [(0, 3);(1, 4);(0, 2);(1, 3);(0, 1);(2, 4);(1, 2);(3, 4);(2, 3)]
  | 6 => [(0, 5);(1, 3);(2, 4);(1, 2);(3, 4);(0, 3);(2, 5);(0, 1);(2, 3);(4, 5);(1, 2);(3, 4)]
  | 7 => [(0, 6);(2, 3);(4, 5);(0, 2);(1, 4);(3, 6);(0, 1);(2, 5);(3, 4);(1, 2);(4, 6);(2, 3);(4, 5);(1, 2);(3, 4);(5, 6)]
  | 8 => [(0, 2);(1, 3);(4, 6);(5, 7);(0, 4);(1, 5);(2, 6);(3, 7);(0, 1);(2, 3);(4, 5);(6, 7);(2, 4);(3, 5);(1, 4);(3, 6);(1, 2);(3, 4);(5, 6)]
  | 9 => [(0, 3);(1, 7);(2, 5);(4, 8);(0, 7);(2, 4);(3, 8);(5, 6);(0, 2);(1, 3);(4, 5);(7, 8);(1, 4);(3, 6);(5, 7);(0, 1);(2, 4);(3, 5);(6, 8);(2, 3);(4, 5);(6, 7);(1, 2);(3, 4);(5, 6)]
  | 10 => [(0, 8);(1, 9);(2, 7);(3, 5);(4, 6);(0, 2);(1, 4);(5, 8);(7, 9);(0, 3);(2, 4);(5, 7);(6, 9);(0, 1);(3, 6);(8, 9);(1, 5);(2, 3);(4, 8);(6, 7);(1, 2);(3, 5);(4, 6);(7, 8);(2, 3);(4, 5);(6, 7);(3, 4);(5, 6)]
  | 11 => [(0, 9);(1, 6);(2, 4);(3, 7);(5, 8);(0, 1);(3, 5);(4, 10);(6, 9);(7, 8);(1, 3);(2, 5);(4, 7);(8, 10);(0, 4);(1, 2);(3, 7);(5, 9);(6, 8);(0, 1);(2, 6);(4, 5);(7, 8);(9, 10);(2, 4);(3, 6);(5, 7);(8, 9);(1, 2);(3, 4);(5, 6);(7, 8);(2, 3);(4, 5);(6, 7)]
  | 2 => [(0, 1)]
  | _ => []
  end.

Fixpoint every_vec (n : nat) (f : vec -> bool) : bool :=
  match n with
  | 0 => f []
  | S k => every_vec k (fun x => f (false :: x)) && every_vec k (fun x => f (true :: x))
  end.

Lemma every_vec_spec n : forall f, every_vec n f = true -> forall x, length x = n -> f x = true.
Proof.
  induction n as [|n IH]; simpl; intros f H [|b x] L; try discriminate; auto. injection L as L.
  apply andb_true_iff in H. destruct H as (H1 & H2). destruct b.
  - now apply (IH (fun x => f (true :: x))).
  - now apply (IH (fun x => f (false :: x))).
Qed.

Fixpoint sortedb (x : vec) : bool :=
  match x with
  | [] => true
  | true :: r => forallb (fun b => b) r
  | false :: r => sortedb r
  end.

Lemma sortedb_spec x : sortedb x = true -> sorted x.
Proof.
  unfold sorted. induction x as [|b x IH]; simpl; intros H i j Hij Hj Bi; [lia|].
  destruct b.
  - destruct j; auto. cbn. assert (I : In (nth j x false) x) by (apply nth_In; lia).
    rewrite forallb_forall in H. exact (H _ I).
  - destruct i; [discriminate|]. destruct j; [lia|]. apply (IH H i j); auto; lia.
Qed.

Definition cmp_okb (n : nat) (c : comparator) : bool := (fst c <? n) && (snd c <? n) && negb (fst c =? snd c).

Lemma cmp_okb_spec n c : cmp_okb n c = true -> cmp_ok n c.
Proof.
  unfold cmp_okb, cmp_ok. rewrite !andb_true_iff, !Nat.ltb_lt, negb_true_iff, Nat.eqb_neq. tauto.
Qed.

Lemma known_network_ok : forall n, 2 <= n -> n <= 11 ->
  sorts01 n (known_network n) /\ length (known_network n) = nth n known_bounds 0.
Proof.
  assert (C : forallb (fun n => forallb (cmp_okb n) (known_network n) &&
             every_vec n (fun x => sortedb (run (known_network n) x)) &&
             (length (known_network n) =? nth n known_bounds 0)) (seq 2 10) = true) by (vm_compute; reflexivity).
  intros n H H'. rewrite forallb_forall in C. specialize (C n ltac:(apply in_seq; lia)).
  rewrite !andb_true_iff, Nat.eqb_eq in C. destruct C as ((C1 & C2) & C3). split; auto. split.
  - apply Forall_forall. intros c I. apply cmp_okb_spec. rewrite forallb_forall in C1. auto.
  - intros x L. apply sortedb_spec. now apply (every_vec_spec n (fun x => sortedb (run (known_network n) x))).
Qed.

(* ---- the quadratic bound ---- *)
Fixpoint selection (n : nat) : network :=
  match n with
  | 0 => []
  | S m => map (fun i => (i, m)) (seq 0 m) ++ selection m
  end.

Lemma selection_size n : 2 * length (selection n) = n * (n - 1).
Proof.
  induction n as [|n IH]; auto. cbn [selection]. rewrite app_length, map_length, seq_length. fold selection.
  destruct n; [reflexivity|]. replace (S n - 1) with n in IH by lia. replace (S (S n) - 1) with (S n) by lia. unfold comparator in *. lia.
Qed.

Lemma selection_cmp n c : In c (selection n) -> fst c < snd c < n.
Proof.
  induction n as [|n IH]; simpl; [tauto|]. rewrite in_app_iff, in_map_iff. intros [(i & <- & H)|H].
  - apply in_seq in H. simpl. lia.
  - apply IH in H. lia.
Qed.

Lemma exch_length' c x : length (exch c x) = length x.
Proof. unfold exch. now rewrite !upd_length. Qed.
Lemma run_length' net : forall x, length (run net x) = length x.
Proof. induction net as [|c net IH]; intros x; auto. change (length (run net (exch c x)) = length x). now rewrite IH, exch_length'. Qed.

Lemma pass_spec m k : forall a x, a + k <= m -> m < length x ->
  let y := run (map (fun i => (i, m)) (seq a k)) x in
  (forall i, ~ (a <= i < a + k) -> i <> m -> bit y i = bit x i) /\
  (bit x m = true -> bit y m = true) /\
  (bit y m = false -> forall i, a <= i < a + k -> bit y i = false).
Proof.
  induction k as [|k IH]; intros a x H L y. { split; auto. split; auto. intros; lia. }
  subst y. cbn [seq map]. set (x1 := exch (a, m) x).
  change (run ((a, m) :: map (fun i => (i, m)) (seq (S a) k)) x) with (run (map (fun i => (i, m)) (seq (S a) k)) x1).
  destruct (IH (S a) x1 ltac:(lia) ltac:(unfold x1; now rewrite exch_length')) as (I1 & I2 & I3).
  set (y := run (map (fun i => (i, m)) (seq (S a) k)) x1) in *.
  assert (Bm : bit x1 m = bit x a || bit x m). { unfold x1, exch. simpl. apply bit_upd_eq. now rewrite upd_length. }
  assert (Ba : bit x1 a = bit x a && bit x m).
  { unfold x1, exch. simpl. rewrite bit_upd_neq by lia. apply bit_upd_eq. lia. }
  split; [|split].
  - intros i Hi Hm. rewrite I1 by lia. unfold x1, exch. simpl. rewrite !bit_upd_neq by lia. auto.
  - intros E. apply I2. rewrite Bm, E. apply orb_true_r.
  - intros E i Hi. destruct (Nat.eq_dec i a) as [->|N].
    + rewrite I1 by lia. rewrite Ba. destruct (bit x a) eqn:Ea; auto. exfalso.
      rewrite I2 in E; [discriminate|]. now rewrite Bm.
    + apply I3; auto. lia.
Qed.

Lemma selection_sorts m : forall x, m <= length x ->
  let y := run (selection m) x in
  (forall i, m <= i -> bit y i = bit x i) /\
  (forall i j, i <= j -> j < m -> bit y i = true -> bit y j = true) /\
  ((forall i, i < m -> bit x i = false) -> forall i, i < m -> bit y i = false).
Proof.
  induction m as [|m IH]; intros x L y. { split; auto. split; intros; lia. }
  subst y. cbn [selection]. unfold run. rewrite fold_left_app. fold (run (map (fun i => (i, m)) (seq 0 m)) x).
  set (x1 := run (map (fun i => (i, m)) (seq 0 m)) x). fold (run (selection m) x1).
  destruct (pass_spec m m 0 x ltac:(lia) ltac:(lia)) as (P1 & P2 & P3). fold x1 in P1, P2, P3.
  assert (L1 : length x1 = length x) by apply run_length'.
  destruct (IH x1 ltac:(lia)) as (I1 & I2 & I3). set (y := run (selection m) x1) in *.
  assert (Z : bit x1 m = false -> forall i, i < m -> bit y i = false).
  { intros E. apply I3. intros i Hi. apply P3; auto. lia. }
  split; [|split].
  - intros i Hi. rewrite I1 by lia. apply P1; lia.
  - intros i j Hij Hj Bi. destruct (Nat.eq_dec j m) as [->|N].
    + rewrite I1 by lia. destruct (bit x1 m) eqn:E; auto. destruct (Nat.eq_dec i m) as [->|N'].
      * rewrite I1 in Bi by lia. congruence.
      * rewrite Z in Bi by (auto; lia). discriminate.
    + apply (I2 i j); auto. lia.
  - intros F. assert (E : bit x1 m = false).
    { clear -F L. assert (G : forall k a z, a + k <= m -> m < length z -> (forall i, i <= m -> bit z i = false) ->
        bit (run (map (fun i => (i, m)) (seq a k)) z) m = false).
      { induction k as [|k IHk]; intros a z Hk Lz Fz. { apply Fz; lia. }
        cbn [seq map]. change (bit (run (map (fun i => (i, m)) (seq (S a) k)) (exch (a, m) z)) m = false). apply IHk.
        lia. now rewrite exch_length'.
        intros i Hi. unfold exch. cbn [fst snd]. rewrite (Fz a), (Fz m) by lia.
        rewrite !bit_upd. rewrite (Fz i) by lia. destruct (_ && _); auto. destruct (_ && _); auto. }
      apply G; try lia. intros i Hi. apply F. lia. }
    intros i Hi. destruct (Nat.eq_dec i m) as [->|N].
    + rewrite I1 by lia. exact E.
    + apply Z; auto. lia.
Qed.

Lemma selection_sorts01 n : sorts01 n (selection n).
Proof.
  split.
  - apply Forall_forall. intros c I. apply selection_cmp in I. unfold cmp_ok. lia.
  - intros x L i j Hij Hj Bi. rewrite run_length' in Hj.
    destruct (selection_sorts n x ltac:(lia)) as (_ & H & _). apply (H i j); auto. lia.
Qed.

(* ---- the default state ---- *)
Definition valid_state (s : OutputSet) (st : State) : Prop :=
  lower_bound (channels s) (vs s) (lo st) /\ upper_bound (channels s) (vs s) (hi st).

Lemma upper_from_network n net V : sorts01 n net -> width n V -> upper_bound n V (length net).
Proof.
  intros S W. exists net. split; auto. apply (finishes_mono n V (all_inputs n)). { intros x Hx. now apply W. }
  now apply sorts01_finishes.
Qed.

Lemma default_state_valid s : wf s -> channels s <= 23 -> valid_state s (default_state s).
Proof.
  intros W H. unfold valid_state, default_state. destruct (is_sorted s) eqn:E.
  { apply is_sorted_spec in E; auto. apply (optimum_0 (channels s) (vs s) E). }
  assert (N : ~ one_per_weight (vs s)). { intros O. apply is_sorted_spec in O; auto. congruence. }
  assert (C2 : 2 <= channels s).
  { unfold is_sorted in E. destruct (Nat.ltb_spec (channels s) 2); [discriminate|lia]. }
  destruct (Nat.leb_spec (channels s) 2) as [H2|H2]; cbn [lo hi].
  { split. now apply lower_bound_1. assert (channels s = 2) as E2 by lia.
    destruct (known_network_ok 2) as (S & _); try lia. pose proof (vs_width s) as Wd. rewrite E2 in *.
    apply (upper_from_network 2 (known_network 2)); auto. }
  cbn [lo hi]. split. now apply lower_bound_1.
  destruct (Nat.le_gt_cases (channels s) 11) as [H11|H11].
  - destruct (known_network_ok (channels s)) as (S & Ls); try lia.
    rewrite (nth_error_nth' known_bounds 0) by (simpl; lia). rewrite <- Ls.
    apply upper_from_network; auto. apply vs_width.
  - rewrite (proj2 (nth_error_None known_bounds (channels s))) by (simpl; lia).
    rewrite Nat.mod_small.
    2:{ apply Nat.div_lt_upper_bound; [lia|]. pose proof (Nat.mul_le_mono (channels s) 23 (channels s - 1) 22). lia. }
    rewrite <- selection_size, Nat.mul_comm, Nat.div_mul by lia. apply upper_from_network. apply selection_sorts01. apply vs_width.
Qed.

(* ---- StateMap as a total map ---- *)
Section Total.
Variable hash : list nat -> nat.

Definition sm_ok (m : StateMap) : Prop := sh_wf hash (state_shards m) /\ sh_wf hash (lock_shards m).
Definition stored (m : StateMap) (s : OutputSet) : option State := sfind hash (state_shards m) s.
Definition cur (m : StateMap) (s : OutputSet) : State := match stored m s with Some st => st | None => default_state s end.
Definition lock_of (m : StateMap) (s : OutputSet) : option nat := sfind hash (lock_shards m) s.

Lemma next_power_of_two_pos n : 0 < next_power_of_two n.
Proof. unfold next_power_of_two. pose proof (Nat.pow_nonzero 2 (Nat.log2_up n)). lia. Qed.

Lemma sm_default_ok threads : sm_ok (sm_default threads).
Proof. split; apply sh_empty_wf; apply next_power_of_two_pos. Qed.

Lemma sm_default_stored threads s : stored (sm_default threads) s = None.
Proof. apply sh_empty_find. Qed.

Lemma sm_default_lock threads s : lock_of (sm_default threads) s = None.
Proof. apply sh_empty_find. Qed.

Lemma sm_get_cur m s : sm_ok m -> wf s -> sm_get hash m s = Some (cur m s).
Proof.
  intros (W & _) Ws. pose proof (sget_find hash (state_shards m) s W Ws) as E. unfold sget in E. unfold sm_get, cur, stored.
  destruct (packed s) as [p|]; [|discriminate]. destruct (nth_error _ _); [|discriminate].
  rewrite E. destruct (sfind _ _ _); reflexivity.
Qed.

Lemma sm_set_spec m s st : sm_ok m -> okk s ->
  exists m', sm_set hash m s st = Some m' /\ sm_ok m' /\ lock_shards m' = lock_shards m /\
    (forall t, wf t -> stored m' t = if os_eq_dec t s then Some st else stored m t).
Proof.
  intros (W & WL) Hs. destruct (sset_spec hash (state_shards m) s st W Hs) as (sh & E & W' & _ & F).
  exists (mkStateMap sh (lock_shards m)). split; [|split; [split; auto|split; auto]].
  unfold sset in E. unfold sm_set. destruct (packed s) as [p|]; [|discriminate]. destruct (nth_error _ _); [|discriminate].
  destruct (set_with_packed _ _ _ _); [|discriminate]. injection E as <-. reflexivity.
Qed.

Lemma sm_get_lock_spec m s id : sm_ok m -> okk s ->
  match lock_of m s with
  | Some i => sm_get_lock hash m s id = Some (inl i)
  | None => exists m', sm_get_lock hash m s id = Some (inr m') /\ sm_ok m' /\ state_shards m' = state_shards m /\
              (forall t, wf t -> lock_of m' t = if os_eq_dec t s then Some id else lock_of m t)
  end.
Proof.
  intros (WS & W) Hs. pose proof (sget_find hash (lock_shards m) s W (proj1 Hs)) as E. unfold sget in E. unfold lock_of, sm_get_lock.
  destruct (sfind hash (lock_shards m) s) as [i|] eqn:F.
  - destruct (packed s) as [p|]; [|discriminate]. destruct (nth_error _ _); [|discriminate]. now rewrite E.
  - destruct (sset_spec hash (lock_shards m) s id W Hs) as (sh & E' & W' & _ & F').
    exists (mkStateMap (state_shards m) sh). unfold sset in E'.
    destruct (packed s) as [p|]; [|discriminate]. destruct (nth_error _ _); [|discriminate]. rewrite E.
    destruct (set_with_packed _ _ _ _); [|discriminate]. injection E' as <-. split; auto. split; [split; auto|]. split; auto.
Qed.

Lemma sm_unlock_spec m s : sm_ok m -> okk s ->
  exists m', sm_unlock hash m s = Some m' /\ sm_ok m' /\ state_shards m' = state_shards m /\
    (forall t, wf t -> lock_of m' t = if os_eq_dec t s then None else lock_of m t).
Proof.
  intros (WS & W) Hs. destruct (srem_spec hash (lock_shards m) s W Hs) as (sh & E & W' & _ & F).
  exists (mkStateMap (state_shards m) sh). split; [|split; [split; auto|split; auto]].
  unfold srem in E. unfold sm_unlock. destruct (packed s) as [p|]; [|discriminate]. destruct (nth_error _ _); [|discriminate].
  destruct (remove_with_packed _ _ _); [|discriminate]. injection E as <-. reflexivity.
Qed.
End Total.
