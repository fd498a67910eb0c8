(* C16, C17: the state map of src/search/states.rs. *)
From Coq Require Import List Arith Bool Lia.
Import ListNotations.
From Verif Require Import Spec Vec Net Graded Util OutputSetModel OutputSetProofs PackProofs TreeModel StatesModel StatesProofs StatesBounds.

(* what a sequence of calls of set leaves as the value of s *)
Fixpoint last_set (hist : list (OutputSet * State)) (s : OutputSet) : option State :=
  match hist with
  | [] => None
  | (t, st) :: r => match last_set r s with
                    | Some x => Some x
                    | None => if os_eq_dec t s then Some st else None
                    end
  end.

Definition run_sets (hash : list nat -> nat) (hist : list (OutputSet * State)) (m : StateMap) : option StateMap :=
  fold_opt (fun m e => sm_set hash m (fst e) (snd e)) hist m.

Lemma run_sets_spec hash hist : forall m, sm_ok hash m -> (forall t st, In (t, st) hist -> okk t) ->
  exists m', run_sets hash hist m = Some m' /\ sm_ok hash m' /\ lock_shards m' = lock_shards m /\
    forall s, wf s -> stored hash m' s = match last_set hist s with Some st => Some st | None => stored hash m s end.
Proof.
  induction hist as [|(t, st) hist IH]; intros m K H.
  - exists m. auto.
  - destruct (sm_set_spec hash m t st K) as (m1 & E & K1 & L1 & F1). { apply (H t st). simpl. auto. }
    destruct (IH m1 K1) as (m' & E' & K' & L' & F'). { intros u v I. apply (H u v). simpl. auto. }
    exists m'. unfold run_sets in *. cbn [fold_opt fst snd]. rewrite E. split; auto. split; auto. split. congruence.
    intros s Ws. rewrite F' by auto. simpl. destruct (last_set hist s); auto. rewrite F1 by auto.
    destruct (os_eq_dec s t), (os_eq_dec t s); congruence.
Qed.

(* For every hash function, every number of threads (hence of shards) and every history of sets, the
   calls succeed and get returns what was set last, or the default. *)
Theorem C16_get_returns_last_set : forall hash threads hist,
  (forall t st, In (t, st) hist -> wf t /\ 3 <= channels t /\ channels t <= 11) ->
  exists m, run_sets hash hist (sm_default threads) = Some m /\
    forall s, wf s -> sm_get hash m s = Some (match last_set hist s with Some st => st | None => default_state s end).
Proof.
  intros hash threads hist H. destruct (run_sets_spec hash hist (sm_default threads) (sm_default_ok hash threads) H) as (m & E & K & _ & F).
  exists m. split; auto. intros s Ws. rewrite sm_get_cur by auto. unfold cur. rewrite F by auto.
  destruct (last_set hist s); auto. now rewrite sm_default_stored.
Qed.
Print Assumptions C16_get_returns_last_set.

Lemma last_set_In hist s : (exists st, last_set hist s = Some st) <-> In s (map fst hist).
Proof.
  induction hist as [|(t, st) hist IH]; simpl. { split; [intros (? & ?); discriminate|tauto]. }
  rewrite <- IH. destruct (last_set hist s) as [x|]. { split; eauto. }
  destruct (os_eq_dec t s) as [->|N]. { split; eauto. }
  split; [intros (? & ?); discriminate|]. intros [E|(? & ?)]; congruence.
Qed.

Lemma NoDup_map_inv' {A B} (f : A -> B) l : NoDup (map f l) -> NoDup l.
Proof. apply NoDup_map_inv. Qed.

(* len counts the distinct sets that were set. *)
Theorem C16_len : forall hash threads hist m,
  (forall t st, In (t, st) hist -> wf t /\ 3 <= channels t /\ channels t <= 11) ->
  run_sets hash hist (sm_default threads) = Some m ->
  sm_len m = length (nodup os_eq_dec (map fst hist)).
Proof.
  intros hash threads hist m H E. destruct (run_sets_spec hash hist (sm_default threads) (sm_default_ok hash threads) H) as (m0 & E0 & K & _ & F).
  assert (m0 = m) by congruence. subst m0. unfold sm_len. rewrite <- (drain_all_len (state_shards m)).
  rewrite <- (map_length fst). rewrite <- (map_length (fun s => (channels s, pk s)) (nodup _ _)).
  assert (ND : NoDup (map (fun s => (channels s, pk s)) (nodup os_eq_dec (map fst hist)))).
  { assert (G : forall l : list OutputSet, NoDup l -> (forall s, In s l -> wf s) -> NoDup (map (fun s => (channels s, pk s)) l)).
    { induction l as [|a l IH]; intros N W; simpl; constructor; inversion N; subst.
      - rewrite in_map_iff. intros (b & Eb & I). injection Eb as E1 E2. apply pk_inj in E2; auto. congruence. all: apply W; simpl; auto.
      - apply IH; auto. intros s I. apply W. simpl. auto. }
    apply G. apply NoDup_nodup. intros s I. apply nodup_In, in_map_iff in I. destruct I as ((t, st) & <- & I). apply (H t st I). }
  apply Nat.le_antisymm; apply NoDup_incl_length; auto.
  - apply (drain_all_NoDup hash). apply K.
  - intros (c, k) I. apply in_map_iff in I. destruct I as (((c', k'), v) & E' & I). simpl in E'. injection E' as -> ->.
    apply (drain_all_In hash) in I; [|apply K]. destruct I as (s & Hs & <- & <- & Fs).
    apply (in_map (fun s => (channels s, pk s))). apply nodup_In, last_set_In.
    change (stored hash m s = Some v) in Fs. rewrite F in Fs by apply Hs. destruct (last_set hist s); eauto.
    rewrite sm_default_stored in Fs. discriminate.
  - intros (c, k) I. apply in_map_iff in I. destruct I as (s & E' & I). injection E' as <- <-. apply nodup_In in I.
    assert (Hs : okk s). { apply in_map_iff in I. destruct I as ((t, st) & <- & I). apply (H t st I). }
    apply last_set_In in I. destruct I as (st & I). apply in_map_iff. exists (channels s, pk s, st). split; auto.
    apply (drain_all_In hash); [apply K|]. exists s. split; auto. split; auto. split; auto.
    change (stored hash m s = Some st). rewrite F by apply Hs. now rewrite I.
Qed.
Print Assumptions C16_len.

(* into_shards and drain_packed hand out every stored set exactly once, with its last state. *)
Theorem C16_drain : forall hash threads hist m,
  (forall t st, In (t, st) hist -> wf t /\ 3 <= channels t /\ channels t <= 11) ->
  run_sets hash hist (sm_default threads) = Some m ->
  let items := flat_map drain_packed (into_shards m) in
  NoDup (map fst items) /\
  forall c bytes st, In (c, bytes, st) items <->
    exists s, wf s /\ channels s = c /\ packed s = Some bytes /\ last_set hist s = Some st.
Proof.
  intros hash threads hist m H E items. destruct (run_sets_spec hash hist (sm_default threads) (sm_default_ok hash threads) H) as (m0 & E0 & K & _ & F).
  assert (m0 = m) by congruence. subst m0. split. { apply (drain_all_NoDup hash). apply K. }
  intros c bytes st. change items with (drain_all (state_shards m)). rewrite (drain_all_In hash) by apply K. split.
  - intros (s & Hs & C & P & Fs). exists s. split. apply Hs. split; auto. split. { rewrite packed_pk by apply Hs. congruence. }
    change (stored hash m s = Some st) in Fs. rewrite F in Fs by apply Hs. destruct (last_set hist s); auto.
    rewrite sm_default_stored in Fs. discriminate.
  - intros (s & Ws & C & P & Ls). exists s.
    assert (Hs : okk s). { assert (I : In s (map fst hist)) by (apply last_set_In; eauto). apply in_map_iff in I. destruct I as ((t, st') & <- & I). apply (H t st' I). }
    split; auto. split; auto. split. { rewrite packed_pk in P by auto. congruence. }
    change (stored hash m s = Some st). rewrite F by auto. now rewrite Ls.
Qed.
Print Assumptions C16_drain.

(* a hash that puts different sets in the same shard, a set written twice, another one never written *)
Definition ex_a : OutputSet := fst (apply_comparator (all_values 3) 0 1).
Definition ex_b : OutputSet := fst (apply_comparator (all_values 4) 2 1).
Definition ex_hist : list (OutputSet * State) :=
  [(ex_a, mkState 1 3 1 3); (ex_b, mkState 2 5 1 5); (ex_a, mkState 2 2 2 2)].
Definition ex_map : option StateMap := run_sets (fun _ => 7) ex_hist (sm_default 1).
Example C16_case_hyp : forall t st, In (t, st) ex_hist -> wf t /\ 3 <= channels t /\ channels t <= 11.
Proof.
  assert (C : forallb (fun e => (length (bitmap (fst e)) =? 2 ^ channels (fst e)) && (3 <=? channels (fst e)) && (channels (fst e) <=? 11)) ex_hist = true)
    by (vm_compute; reflexivity).
  intros t st I. rewrite forallb_forall in C. specialize (C (t, st) I). cbn [fst] in C.
  rewrite !andb_true_iff, Nat.eqb_eq, !Nat.leb_le in C. tauto.
Qed.
Example C16_case :
  (m <- ex_map;; sm_get (fun _ => 7) m ex_a) = Some (mkState 2 2 2 2) /\
  (m <- ex_map;; sm_get (fun _ => 7) m ex_b) = Some (mkState 2 5 1 5) /\
  (m <- ex_map;; sm_get (fun _ => 7) m (all_values 5)) = Some (mkState 1 9 1 9) /\
  option_map sm_len ex_map = Some 2.
Proof. vm_compute. repeat split. Qed.

(* The default state of a set holds true bounds, for every set with up to 23 channels (not only the
   derived ones); beyond that the cast of the quadratic bound to u8 wraps.  The program itself accepts at
   most 11 channels. *)
Theorem C17_default_bounds : forall hash threads s, wf s -> channels s <= 23 ->
  exists st, sm_get hash (sm_default threads) s = Some st /\
    lower_bound (channels s) (vs s) (lo st) /\ upper_bound (channels s) (vs s) (hi st).
Proof.
  intros hash threads s W H. exists (default_state s). split.
  - rewrite sm_get_cur by (auto using sm_default_ok). unfold cur. now rewrite sm_default_stored.
  - now apply default_state_valid.
Qed.
Print Assumptions C17_default_bounds.

(* the bounds on the minimal size of a sorting network that follow for all inputs *)
Theorem C17_known_sizes : forall n, 3 <= n -> n <= 11 ->
  exists net, sorting_network n net /\ length net = hi (default_state (all_values n)).
Proof.
  intros n H H'. destruct (known_network_ok n ltac:(lia) H') as (S & L). exists (known_network n). split. now apply zero_one.
  rewrite L. unfold default_state.
  assert (N : is_sorted (all_values n) = false).
  { destruct (is_sorted (all_values n)) eqn:E; auto. exfalso.
    assert (W : wf (all_values n)) by (unfold wf; simpl; apply repeat_length).
    apply is_sorted_spec in E; auto.
    assert (V : forall x, length x = n -> vs (all_values n) x). { intros x Lx. apply all_values_vs. exact Lx. }
    assert (L1 : forall c, length (unit_vec n c) = n) by apply unit_vec_length.
    pose proof (E (unit_vec n 0) (unit_vec n 1) (V _ (L1 0)) (V _ (L1 1))) as X.
    rewrite !unit_vec_weight in X by lia. specialize (X eq_refl). apply (f_equal (fun v => bit v 0)) in X.
    rewrite !bit_unit_vec in X by lia. discriminate. }
  rewrite N. simpl channels. replace (n <=? 2) with false by (symmetry; apply Nat.leb_gt; lia).
  rewrite (nth_error_nth' known_bounds 0) by (simpl; lia). reflexivity.
Qed.
Print Assumptions C17_known_sizes.

Example C17_case : wf ex_b /\ channels ex_b = 4 /\ is_sorted ex_b = false /\ default_state ex_b = mkState 1 5 1 5.
Proof. vm_compute. auto. Qed.
Example C17_case_small : default_state (all_values 2) = mkState 1 1 1 1 /\ default_state (all_values 1) = mkState 0 0 0 0.
Proof. vm_compute. auto. Qed.
