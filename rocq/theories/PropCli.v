(* C38: the search command with a prefix. *)
From Coq Require Import List Arith Bool Lia Permutation.
Import ListNotations.
From Verif Require Import Spec Vec Net Graded Bits Util OutputSetModel OutputSetProofs CanonModel TreeModel StatesModel StatesBounds SearchModel SearchFacts SearchInv SearchRun PropSearch CliModel.

(* ---- the statement ---- *)
(* net completes the prefix pre: with the right numbering of the channels, pre followed by net is a sorting network *)
Definition completes (n : nat) (pre net : network) : Prop :=
  net_ok n net /\ exists p, is_perm n p /\ sorting_network n (relabel (fun i => nth i p 0) (pre ++ net)).

Definition least_completion (n : nat) (pre : network) (k : nat) : Prop :=
  (exists net, completes n pre net /\ length net = k) /\ forall net, completes n pre net -> k <= length net.

(* what the user types for the comparators pairs: the larger value goes to the first channel of a pair *)
Definition prefix_arg (pairs : list (nat * nat)) : list nat := flat_map (fun ab => [fst ab; snd ab]) pairs.
Definition prefix_net (pairs : list (nat * nat)) : network := map (fun ab => (snd ab, fst ab)) pairs.

(* ---- proofs ---- *)
Lemma completes_finishes n pre net V : net_ok n pre -> same_set V (image (run pre) (all_inputs n)) ->
  (completes n pre net <-> finishes n V net).
Proof.
  intros Np E.
  assert (Ei : same_set (image (run net) V) (image (run (pre ++ net)) (all_inputs n))).
  { eapply same_set_trans. apply image_same, E. eapply same_set_trans. apply image_comp. apply image_ext. intros x _. now rewrite run_app. }
  split.
  - intros (Nn & p & P & S). split; auto. apply (one_per_weight_same _ _ Ei). apply zero_one in S. destruct S as (_ & S).
    assert (Na : net_ok n (pre ++ net)) by now apply Forall_app.
    assert (Q : is_perm n (inv_perm n p)) by now apply inv_perm_is_perm.
    apply (sorted_one_per_weight n _ (inv_perm n p)); auto.
    { intros x (y & Hy & ->). now rewrite run_length. }
    intros x (y & Hy & ->). unfold all_inputs in Hy.
    set (z := permute (inv_perm n p) y).
    assert (Lz : length z = n) by (unfold z; now rewrite permute_length, inv_perm_length).
    assert (Ey : y = permute p z) by (unfold z; now rewrite (permute_inv' n p y)).
    rewrite Ey, <- (run_permute n p) by auto. rewrite (permute_inv n p) by (auto; now rewrite run_length). now apply S.
  - intros (Nn & O). split; auto. apply (one_per_weight_same _ _ (same_set_sym _ _ Ei)) in O.
    assert (Na : net_ok n (pre ++ net)) by now apply Forall_app.
    assert (G : graded n (image (run (pre ++ net)) (all_inputs n))) by (apply graded_run; auto; apply graded_all).
    destruct (chain_sorted _ _ G O) as (p & P & H).
    assert (Q : is_perm n (inv_perm n p)) by now apply inv_perm_is_perm.
    exists (inv_perm n p). split; auto. apply zero_one. split. now apply relabel_ok. intros x Hx.
    assert (E1 : run (relabel (fun i => nth i (inv_perm n p) 0) (pre ++ net)) x = permute p (run (pre ++ net) (permute (inv_perm n p) x))).
    { rewrite <- (run_permute n (inv_perm n p)) by auto. rewrite (permute_inv' n); auto. now rewrite run_length. }
    rewrite E1. apply H. eexists. split; [|reflexivity]. unfold all_inputs. now rewrite permute_length, inv_perm_length.
Qed.

Lemma least_optimum n pre k V : net_ok n pre -> same_set V (image (run pre) (all_inputs n)) -> optimum n V k -> least_completion n pre k.
Proof.
  intros N E (L & net & F & Hl). split.
  - exists net. split. now apply (completes_finishes n pre net V). pose proof (L net F). lia.
  - intros net' C. apply L. now apply (completes_finishes n pre net' V).
Qed.

Lemma chunks2_arg pairs : chunks2 (prefix_arg pairs) = Some pairs.
Proof. induction pairs as [|(a, b) r IH]; auto. cbn. fold (prefix_arg r). now rewrite IH. Qed.
Lemma chunks2_odd l : Nat.odd (length l) = true -> chunks2 l = None.
Proof.
  assert (H : forall m l, length l <= m -> Nat.odd (length l) = true -> chunks2 l = None).
  { induction m as [|m IH]; intros [|a [|b r]] Hl Ho; cbn [length] in *; try discriminate; auto; try lia. cbn [chunks2].
    rewrite IH; auto. lia. }
  now apply (H (length l)).
Qed.

(* what a list of pairs does to a set *)
Lemma fold_pairs n debug pairs : (forall ab, In ab pairs -> pair_valid n ab = true) -> n <= 64 -> forall s, start_ok s -> channels s = n ->
  exists t, fold_opt (apply_pair debug) pairs s = Some t /\ start_ok t /\ channels t = n /\ same_set (vs t) (image (run (prefix_net pairs)) (vs s)).
Proof.
  intros H Hn. induction pairs as [|(a, b) r IH]; intros s K C.
  - exists s. split; auto. split; auto. split; auto. apply same_set_sym, image_id_ext. auto.
  - assert (Hv : pair_valid n (a, b) = true) by (apply H; now left). assert (Hv' := Hv). unfold pair_valid in Hv'. cbn [fst snd] in Hv'.
    rewrite !andb_true_iff, negb_true_iff, Nat.eqb_neq, !Nat.ltb_lt in Hv'. destruct Hv' as ((Hne & Ha) & Hb).
    assert (Ep : apply_pair debug s (a, b) = Some (fst (apply_comparator s a b))).
    { unfold apply_pair. rewrite C, Hv. cbn [fst snd]. rewrite !Nat.mod_small by lia. now destruct debug. }
    assert (Ev : same_set (vs (fst (apply_comparator s a b))) (image (exch (b, a)) (vs s))) by (apply apply_comparator_vs; auto; try apply K; lia).
    set (s1 := fst (apply_comparator s a b)) in *.
    assert (K1 : start_ok s1).
    { destruct K as (W & Cc & D). unfold s1. split. { apply apply_comparator_wf; auto; lia. } rewrite apply_comparator_channels. split; auto.
      apply (derived_exch _ (vs s) _ (b, a)); auto. rewrite C. split; cbn; auto. }
    destruct (IH (fun ab Hab => H ab (or_intror Hab)) s1 K1) as (t & Et & Kt & Ct & Vt). { unfold s1. now rewrite apply_comparator_channels. }
    exists t. cbn [fold_opt]. rewrite Ep. split; auto. split; auto. split; auto.
    eapply same_set_trans; [exact Vt|]. eapply same_set_trans; [apply image_same, Ev|]. eapply same_set_trans; [apply image_comp|]. apply same_set_refl.
Qed.

Lemma prefix_ok n pairs : (forall ab, In ab pairs -> pair_valid n ab = true) -> net_ok n (prefix_net pairs).
Proof.
  intros H. unfold net_ok, prefix_net. apply Forall_map, Forall_forall. intros (a, b) Hab. specialize (H _ Hab). unfold pair_valid in H. cbn [fst snd] in *.
  rewrite !andb_true_iff, negb_true_iff, Nat.eqb_neq, !Nat.ltb_lt in H. split; cbn; auto. lia. split; lia.
Qed.

Lemma cmd_initial_ok debug n pairs : n <= MAX_CHANNELS -> (forall ab, In ab pairs -> pair_valid n ab = true) ->
  exists s, cmd_initial debug n (prefix_arg pairs) = Some s /\ start_ok s /\ channels s = n /\
    same_set (vs s) (image (run (prefix_net pairs)) (all_inputs n)).
Proof.
  intros Hn H. unfold MAX_CHANNELS in Hn.
  destruct (fold_pairs n debug pairs H ltac:(lia) (all_values n) (all_values_start n Hn) eq_refl) as (t & Et & Kt & Ct & Vt).
  exists t. unfold cmd_initial. rewrite chunks2_arg. cbv beta iota. rewrite Et. split.
  - destruct (Nat.leb_spec n MAX_CHANNELS); auto. unfold MAX_CHANNELS in *. lia.
  - split; auto. split; auto. eapply same_set_trans; [exact Vt|]. apply image_same, all_values_vs.
Qed.

(* ---- C38 ---- *)
(* The number printed for a prefix is the least number of comparators that complete the prefix, for every schedule
   and in both kinds of build. *)
Theorem C38_search_with_prefix : forall chash mhash debug threads n pairs k, n <= MAX_CHANNELS ->
  (forall ab, In ab pairs -> fst ab < n /\ snd ab < n /\ fst ab <> snd ab) ->
  cmd_search chash mhash debug threads n None (prefix_arg pairs) k -> least_completion n (prefix_net pairs) k.
Proof.
  intros chash mhash debug threads n pairs k Hn H (s & c & E & R & X).
  assert (Hv : forall ab, In ab pairs -> pair_valid n ab = true).
  { intros ab Hab. destruct (H ab Hab) as (A & B & C). unfold pair_valid. rewrite !andb_true_iff, negb_true_iff, Nat.eqb_neq, !Nat.ltb_lt. auto. }
  destruct (cmd_initial_ok debug n pairs Hn Hv) as (s' & E' & K & C & V). rewrite E in E'. injection E' as <-.
  pose proof (C19_search_returns_optimum chash mhash threads s c k K R X) as O. rewrite C in O.
  apply (least_optimum n _ k (vs s)); auto. now apply prefix_ok.
Qed.
Print Assumptions C38_search_with_prefix.

(* With a limit: a lower bound, which is the least number or has reached the limit. *)
Theorem C38_prefix_with_limit : forall chash mhash debug threads n pairs limit k, n <= MAX_CHANNELS ->
  (forall ab, In ab pairs -> fst ab < n /\ snd ab < n /\ fst ab <> snd ab) ->
  cmd_search chash mhash debug threads n limit (prefix_arg pairs) k ->
  (forall net, completes n (prefix_net pairs) net -> k <= length net) /\
  (least_completion n (prefix_net pairs) k \/ exists l, limit = Some l /\ l <= k).
Proof.
  intros chash mhash debug threads n pairs limit k Hn H (s & c & E & R & X).
  assert (Hv : forall ab, In ab pairs -> pair_valid n ab = true).
  { intros ab Hab. destruct (H ab Hab) as (A & B & C). unfold pair_valid. rewrite !andb_true_iff, negb_true_iff, Nat.eqb_neq, !Nat.ltb_lt. auto. }
  destruct (cmd_initial_ok debug n pairs Hn Hv) as (s' & E' & K & C & V). rewrite E in E'. injection E' as <-.
  destruct (main_result chash mhash threads s limit c k (start_okset _ K) R X) as (L & U). rewrite C in *.
  assert (Np := prefix_ok n pairs Hv). split.
  - intros net F. apply L. now apply (completes_finishes n (prefix_net pairs) net (vs s)).
  - destruct U as [U|U]; auto. left. apply (least_optimum n _ k (vs s)); auto. split; auto.
Qed.
Print Assumptions C38_prefix_with_limit.

(* The empty prefix: the size of a least sorting network. *)
Theorem C38_no_prefix : forall chash mhash debug threads n k, n <= MAX_CHANNELS ->
  cmd_search chash mhash debug threads n None [] k -> minimal_size n k.
Proof.
  intros chash mhash debug threads n k Hn (s & c & E & R & X). unfold cmd_initial in E. cbn in E.
  destruct (n <=? MAX_CHANNELS); [|discriminate]. injection E as <-.
  apply (C19_search_returns_minimal_size chash mhash threads n c k); auto.
Qed.
Print Assumptions C38_no_prefix.

(* When does the command panic before the search starts?  With more than 11 channels, with a prefix of odd length,
   and in a debug build with a pair that is not a comparator; otherwise not. *)
Lemma chunks2_even l : Nat.odd (length l) = false -> exists pairs, l = prefix_arg pairs.
Proof.
  assert (H : forall m l, length l <= m -> Nat.odd (length l) = false -> exists pairs, l = prefix_arg pairs).
  { induction m as [|m IH]; intros [|a [|b r]] Hl Ho; cbn [length] in *; try discriminate; try lia.
    - exists []. auto.
    - exists []. auto.
    - destruct (IH r) as (p & E). lia. exact Ho. exists ((a, b) :: p). cbn. now rewrite E. }
  now apply (H (length l)).
Qed.
Lemma fold_release pairs : forall s, exists t, fold_opt (apply_pair false) pairs s = Some t.
Proof. induction pairs as [|ab r IH]; intros s. exists s. auto. cbn [fold_opt apply_pair]. apply IH. Qed.
Lemma fold_debug n pairs : forall s, channels s = n -> (exists t, fold_opt (apply_pair true) pairs s = Some t) <-> (forall ab, In ab pairs -> pair_valid n ab = true).
Proof.
  induction pairs as [|ab r IH]; intros s C.
  - split; [|intros; exists s; auto]. intros _ ab [].
  - cbn [fold_opt]. unfold apply_pair at 1. rewrite C. destruct (pair_valid n ab) eqn:E.
    + rewrite IH by now rewrite apply_comparator_channels. split; intros H.
      * intros x [<-|Hx]; auto.
      * intros x Hx. apply H. now right.
    + split. intros (t & H). discriminate. intros H. rewrite (H ab) in E by now left. discriminate.
Qed.
Theorem C38_panics : forall debug n prefix,
  cmd_initial debug n prefix = None <->
  MAX_CHANNELS < n \/ Nat.odd (length prefix) = true \/
  (debug = true /\ exists pairs ab, prefix = prefix_arg pairs /\ In ab pairs /\ ~ (fst ab < n /\ snd ab < n /\ fst ab <> snd ab)).
Proof.
  intros debug n prefix.
  assert (PV : forall ab, pair_valid n ab = true <-> fst ab < n /\ snd ab < n /\ fst ab <> snd ab).
  { intros ab. unfold pair_valid. rewrite !andb_true_iff, negb_true_iff, Nat.eqb_neq, !Nat.ltb_lt. tauto. }
  unfold cmd_initial. destruct (Nat.odd (length prefix)) eqn:Eo. { rewrite chunks2_odd by auto. tauto. }
  destruct (chunks2_even prefix Eo) as (pairs & ->). rewrite chunks2_arg. cbv beta iota.
  destruct (fold_opt (apply_pair debug) pairs (all_values n)) as [t|] eqn:Ef.
  - destruct (Nat.leb_spec n MAX_CHANNELS).
    + split; [discriminate|]. intros [X|[X|(-> & p & ab & Ep & Hab & Hx)]]; [lia|discriminate|].
      exfalso. apply Hx, PV. assert (p = pairs) as ->. { apply (f_equal chunks2) in Ep. rewrite !chunks2_arg in Ep. congruence. }
      apply (proj1 (fold_debug n pairs (all_values n) eq_refl)); eauto.
    + tauto.
  - split; auto. intros _. right. right. destruct debug.
    + split; auto. exists pairs.
      destruct (existsb (fun ab => negb (pair_valid n ab)) pairs) eqn:Ex.
      * apply existsb_exists in Ex. destruct Ex as (ab & Hab & Hn). exists ab. split; auto. split; auto. intros X. apply PV in X. rewrite X in Hn. discriminate.
      * exfalso. assert (H : forall ab, In ab pairs -> pair_valid n ab = true).
        { intros ab Hab. destruct (pair_valid n ab) eqn:E; auto. exfalso. rewrite (proj2 (existsb_exists _ pairs)) in Ex. discriminate. exists ab. now rewrite E. }
        apply (fold_debug n pairs (all_values n) eq_refl) in H. destruct H as (t & H). congruence.
    + destruct (fold_release pairs (all_values n)) as (t & H). congruence.
Qed.
Print Assumptions C38_panics.

(* In a release build pairs that are not comparators (channel out of range, or twice the same channel) are ignored,
   as long as the channels are below 64. *)
Lemma le_lor a b : a <= Nat.lor a b.
Proof.
  apply Nat.ldiff_le. apply Nat.bits_inj_0. intros i.
  rewrite Nat.ldiff_spec, Nat.lor_spec. now destruct (Nat.testbit a i).
Qed.
Lemma apply_invalid s a b : wf s -> pair_valid (channels s) (a, b) = false -> fst (apply_comparator s a b) = s.
Proof.
  intros W H. assert (E : bitmap (fst (apply_comparator s a b)) = bitmap s).
  { unfold apply_comparator. set (l := strided _ _).
    assert (D : a = b \/ l = []).
    { unfold pair_valid in H. cbn [fst snd] in H. destruct (Nat.eqb_spec a b); auto. right. cbn [negb andb] in H.
      assert (Hl : length (bitmap s) <= Nat.lor (2 ^ a) (2 ^ b)).
      { rewrite W. destruct (Nat.ltb_spec a (channels s)); cbn [andb] in H; [destruct (Nat.ltb_spec b (channels s)); [discriminate|]|].
        - apply (Nat.le_trans _ (2 ^ b)). apply Nat.pow_le_mono_r; lia. rewrite Nat.lor_comm. apply le_lor.
        - apply (Nat.le_trans _ (2 ^ a)). apply Nat.pow_le_mono_r; lia. apply le_lor. }
      unfold l, strided. destruct (length (bitmap s)) as [|m]; auto. cbn [strided_from]. destruct (Nat.ltb_spec (Nat.lor (2 ^ a) (2 ^ b)) (S m)); auto. lia. }
    destruct D as [E0|E0]; [subst a|now rewrite E0]. revert l.
    assert (G : forall l bm x y, fst (fst (fold_left (apply_comparator_body (2 ^ b) (2 ^ b)) l (bm, x, y))) = bm).
    { induction l as [|i l IH]; intros bm x y; auto. cbn [fold_left]. unfold apply_comparator_body at 2. rewrite IH.
      apply (nth_ext_lt _ _ false). now rewrite !upd_length. intros j Hj. rewrite !upd_length in Hj. rewrite !upd_nth, upd_length. unfold bget.
      destruct (Nat.eqb_spec j (Nat.lxor i (2 ^ b))) as [->|]; cbn [andb]; auto.
      destruct (Nat.ltb_spec (Nat.lxor i (2 ^ b)) (length bm)); [|lia].
      rewrite upd_nth_eq by auto. auto. }
    intros l. specialize (G l (bitmap s) false false). destruct (fold_left _ l _) as ((bm, x), y). exact G. }
  pose proof (apply_comparator_channels s a b) as C. destruct (fst (apply_comparator s a b)) as [c bm], s as [c' bm']. cbn in *. congruence.
Qed.

Theorem C38_release_ignores : forall n pairs, n <= MAX_CHANNELS -> (forall ab, In ab pairs -> fst ab < 64 /\ snd ab < 64) ->
  cmd_initial false n (prefix_arg pairs) =
  cmd_initial false n (prefix_arg (filter (fun ab => (fst ab <? n) && (snd ab <? n) && negb (fst ab =? snd ab)) pairs)).
Proof.
  intros n pairs Hn H. unfold cmd_initial. rewrite !chunks2_arg. cbv beta iota.
  assert (X : forall s, wf s -> channels s = n -> fold_opt (apply_pair false) pairs s =
    fold_opt (apply_pair false) (filter (fun ab => (fst ab <? n) && (snd ab <? n) && negb (fst ab =? snd ab)) pairs) s).
  { clear Hn. induction pairs as [|(a, b) r IH]; intros s W C; auto. cbn [filter].
    destruct (H (a, b) (or_introl eq_refl)) as (Ha & Hb). cbn [fst snd] in *.
    assert (Ep : (a <? n) && (b <? n) && negb (a =? b) = pair_valid (channels s) (a, b)).
    { unfold pair_valid. rewrite C. cbn [fst snd]. destruct (a =? b), (a <? n), (b <? n); auto. }
    rewrite Ep. destruct (pair_valid (channels s) (a, b)) eqn:E.
    - cbn [fold_opt]. unfold apply_pair at 1 3. cbn [fst snd]. rewrite !Nat.mod_small by lia. apply IH.
      + intros ab Hab. apply H. now right.
      + unfold pair_valid in E. cbn [fst snd] in E. rewrite !andb_true_iff, negb_true_iff, Nat.eqb_neq, !Nat.ltb_lt in E. apply apply_comparator_wf; auto; tauto.
      + now rewrite apply_comparator_channels.
    - cbn [fold_opt]. unfold apply_pair at 1. cbn [fst snd]. rewrite !Nat.mod_small by lia. rewrite apply_invalid by auto. apply IH; auto.
      intros ab Hab. apply H. now right. }
  now rewrite (X (all_values n) (all_values_wf n) eq_refl).
Qed.
Print Assumptions C38_release_ignores.

(* ---- cases ---- *)
(* the prefix 1,0 3,2 on 4 channels: 3 more comparators are needed *)
Definition cli_prefix : list (nat * nat) := [(1, 0); (3, 2)].
Definition cli_start : OutputSet := fst (apply_comparator (fst (apply_comparator (all_values 4) 1 0)) 3 2).
Definition cli_run (fuel : nat) : Config :=
  match search_start h0 2 cli_start None with Some c => round_robin fuel c 0 | None => mkConfig (sm_default 1) 0 [] [] end.
Example C38_case_start : cmd_initial true 4 [1; 0; 3; 2] = Some cli_start /\ prefix_arg cli_prefix = [1; 0; 3; 2] /\ prefix_net cli_prefix = [(0, 1); (2, 3)].
Proof. split; [|split]; reflexivity. Qed.
Example C38_case : cmd_search h0 h0 true 2 4 None (prefix_arg cli_prefix) 3.
Proof.
  exists cli_start, (cli_run 1000). split; [reflexivity|]. split.
  - unfold cli_run. destruct (search_start h0 2 cli_start None) eqn:E. apply round_robin_run, run_start; auto. exfalso. revert E. vm_compute. discriminate.
  - apply result_of_spec. vm_compute. reflexivity.
Qed.
(* and so 3 comparators are needed after the prefix *)
Example C38_least : least_completion 4 [(0, 1); (2, 3)] 3.
Proof.
  apply (C38_search_with_prefix h0 h0 true 2 4 cli_prefix 3); [unfold MAX_CHANNELS; lia| |exact C38_case].
  intros ab [<-|[<-|[]]]; cbn; lia.
Qed.
(* a release build ignores the pairs 1,1 and 2,9; a debug build panics *)
Example C38_case_release : cmd_initial false 4 [1; 0; 1; 1; 2; 9; 3; 2] = Some cli_start /\ cmd_initial true 4 [1; 0; 1; 1] = None.
Proof. split; vm_compute; reflexivity. Qed.
