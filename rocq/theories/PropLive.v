(* C39, C40: the search of src/search.rs can be completed from every state it can be in, and it writes to the map only boundedly often. *)
From Coq Require Import List Arith Bool Lia Permutation Relations.
Import ListNotations.
From Verif Require Import Spec Vec Net Graded Bits Util OutputSetModel OutputSetProofs PruneProofs PackProofs CountProofs HuffmanModel HuffmanProofs CanonModel TreeModel StatesModel StatesProofs StatesBounds SearchModel SearchFacts SearchInv SearchEdges SearchStep SearchFrames SearchGlobal SearchRun SearchSafe SearchOrder SearchWaits SearchMain SearchClosed SearchSlack SearchGood SearchQuiet SearchReach SearchNext SearchHuff SearchHold SearchLive PropSearch.

(* ---- C39 ---- *)
Lemma steps_clos chash mhash c c' : SearchQuiet.sys_steps chash mhash c c' -> clos_refl_trans Config (sys_step chash mhash) c c'.
Proof. induction 1. apply rt_refl. eapply rt_trans; [eauto|]. now apply rt_step. Qed.

(* Whatever happened so far - whatever the interleaving of the tasks, the choices of the thread pool and
   the cancellations were - there is a way to go on after which the main loop has ended.  So no state of
   the search is a deadlock, nor is there one from which it can only go round in circles. *)
Theorem C39_search_can_finish : forall chash mhash threads initial limit c,
  start_ok initial -> search_run chash mhash threads initial limit c ->
  exists c' k, clos_refl_trans Config (sys_step chash mhash) c c' /\ search_result c' k.
Proof.
  intros chash mhash threads initial limit c K R.
  destruct (search_finish chash mhash threads initial limit c (start_okset _ K) R) as (c' & k & S & _ & H).
  exists c', k. split; auto. now apply steps_clos.
Qed.
Print Assumptions C39_search_can_finish.

(* ... and the value it then has is the right one, whatever happened before. *)
Theorem C39_finishes_with_optimum : forall chash mhash threads initial c,
  start_ok initial -> search_run chash mhash threads initial None c ->
  exists c' k, clos_refl_trans Config (sys_step chash mhash) c c' /\ search_result c' k /\ optimum (channels initial) (vs initial) k.
Proof.
  intros chash mhash threads initial c K R.
  destruct (search_finish chash mhash threads initial None c (start_okset _ K) R) as (c' & k & S & R' & H).
  exists c', k. split. now apply steps_clos. split; auto. now apply (C19_search_returns_optimum chash mhash threads initial c').
Qed.
Print Assumptions C39_finishes_with_optimum.

(* In particular there are runs of the search for n channels that print the minimal size. *)
Theorem C39_search_completes : forall chash mhash threads n, n <= 11 ->
  exists c k, search_run chash mhash threads (all_values n) None c /\ search_result c k /\ minimal_size n k.
Proof.
  intros chash mhash threads n Hn. pose proof (start_okset _ (all_values_start n Hn)) as K.
  destruct (canon_spec chash (all_values n) K) as (i & _ & _ & Ei & _).
  set (c0 := mkConfig (sm_default threads) 0 [] [mkTask (mkState 0 0 0 0) i [FMain i None MGet] true false false None]).
  assert (R0 : search_run chash mhash threads (all_values n) None c0).
  { apply run_start. unfold search_start. now rewrite Ei. }
  destruct (search_finish chash mhash threads (all_values n) None c0 K R0) as (c & k & _ & R & H).
  exists c, k. split; auto. split; auto. now apply (C19_search_returns_minimal_size chash mhash threads n c).
Qed.
Print Assumptions C39_search_completes.

(* a run that is not finished: task 0 waits for task 1, which holds a lock *)
Example C39_case : result_of (example_run 4 None 50) = None /\ who_waits (example_run 4 None 50) = [(0, ([1], [], [1])); (1, ([2], [], []))].
Proof. split. vm_compute. reflexivity. apply C22_case. Qed.
Example C39_case_run : exists c' k, clos_refl_trans Config (sys_step h0 h0) (example_run 4 None 50) c' /\ search_result c' k /\ k = 5.
Proof.
  assert (R : search_run h0 h0 2 (all_values 4) None (example_run 4 None 50)) by (apply example_is_run; lia).
  destruct (C39_finishes_with_optimum h0 h0 2 (all_values 4) _ (all_values_start 4 ltac:(lia)) R) as (c' & k & S & H & O).
  exists c', k. split; auto. split; auto.
  assert (M : optimum 4 (vs (all_values 4)) 5).
  { apply (C19_search_returns_optimum h0 h0 2 (all_values 4) (example_run 4 None 100)). apply all_values_start; lia. apply example_is_run; lia. apply C19_case4. }
  destruct O as (O1 & O2), M as (M1 & M2). pose proof (lower_upper _ _ _ _ O1 M2). pose proof (lower_upper _ _ _ _ M1 O2). lia.
Qed.

(* ---- C40 ---- *)
Lemma step_entry chash mhash c c' : Good chash mhash c -> sys_step chash mhash c c' -> forall p, okset p ->
  cur mhash (g_map c') p = cur mhash (g_map c) p \/ slack (cur mhash (g_map c') p) < slack (cur mhash (g_map c) p).
Proof.
  intros G H p Kp. pose proof (good_inv _ _ c G) as I. pose proof (gd_hb _ _ c G) as HB.
  assert (SAME : state_shards (g_map c') = state_shards (g_map c) -> cur mhash (g_map c') p = cur mhash (g_map c) p) by (intros E; now apply same_cur).
  destruct H as [c t c' H|c t x N P|c t c' H].
  - unfold task_step in H. destruct (nth_error (g_tasks c) t) as [x|] eqn:N; [|discriminate]. destruct (negb (tk_sched x)); [discriminate|].
    destruct (tk_stack x) as [|f rest] eqn:E; [discriminate|].
    destruct (access mhash c (frame_req chash f)) as [| |c1 k] eqn:Ea; try discriminate.
    apply run_ctl_map in H. destruct H as (Hm & _).
    assert (D : (exists s st k', frame_req chash f = RSet s st k') \/ forall s st k', frame_req chash f <> RSet s st k').
    { destruct (frame_req chash f); try (right; discriminate). left; eauto. }
    destruct D as [(s & st & k' & R)|D].
    + destruct (stack_split chash mhash c t x f rest I N E) as (Fo & Fi & Sk).
      pose proof (frame_req_ok chash mhash _ _ _ _ f (inv_map _ _ c I) Fo Fi Sk) as RO. rewrite R in RO.
      destruct RO as (_ & K & Wk & L & U & JL & JU & _).
      destruct (write_improves _ _ _ _ _ _ _ _ _ _ (inv_map _ _ c I) HB Fo Fi Sk R) as (_ & H1 & H2 & H3).
      destruct (set_map_inv chash mhash (g_map c) s st (inv_map _ _ c I) K Wk L U JL JU) as (m' & Em & _ & _ & _ & Cs & Co).
      rewrite R in Ea. cbn [access] in Ea. rewrite Em in Ea. injection Ea as <- _. rewrite Hm. cbn [g_map set_map].
      destruct (os_eq_dec p s) as [->|D]. right. now rewrite Cs. left. apply Co; auto. apply Kp.
    + left. apply SAME. rewrite Hm. apply (access_shards mhash c (frame_req chash f) c1 k); auto.
  - now left.
  - left. apply SAME. unfold drop_frame in H. destruct (nth_error (g_tasks c) t) as [x|] eqn:N; [|discriminate]. destruct (negb (tk_cancel x)); [discriminate|].
    destruct (tk_stack x) as [|f rest] eqn:E; [discriminate|].
    destruct (held f) as [(s, id)|].
    + match type of H with context [sm_unlock ?h ?m ?x] => destruct (sm_unlock h m x) eqn:El; [|discriminate] end. injection H as <-.
      cbn [g_map]. apply unlock_shards in El. rewrite El, with_task_map, cancel_all_map. reflexivity.
    + injection H as <-. now rewrite with_task_map, cancel_all_map.
Qed.

(* an execution during which the entry of p changes k times *)
Inductive changes chash mhash (p : OutputSet) (c : Config) : nat -> Config -> Prop :=
| changes_none : changes chash mhash p c 0 c
| changes_same k c1 c2 : changes chash mhash p c k c1 -> sys_step chash mhash c1 c2 ->
    sm_get mhash (g_map c2) p = sm_get mhash (g_map c1) p -> changes chash mhash p c k c2
| changes_one k c1 c2 : changes chash mhash p c k c1 -> sys_step chash mhash c1 c2 ->
    sm_get mhash (g_map c2) p <> sm_get mhash (g_map c1) p -> changes chash mhash p c (S k) c2.

Lemma good_get chash mhash c p : Good chash mhash c -> okset p -> sm_get mhash (g_map c) p = Some (cur mhash (g_map c) p).
Proof. intros G K. apply sm_get_cur. apply (mi_ok _ _ _ (inv_map _ _ c (good_inv _ _ c G))). apply K. Qed.

Lemma changes_slack chash mhash p c k c' : Good chash mhash c -> okset p -> changes chash mhash p c k c' ->
  Good chash mhash c' /\ k + slack (cur mhash (g_map c') p) <= slack (cur mhash (g_map c) p).
Proof.
  intros G K. induction 1 as [|k c1 c2 H (G1 & L) S E|k c1 c2 H (G1 & L) S E]; auto; pose proof (good_step chash mhash c1 c2 G1 S) as G2; (split; [exact G2|]);
    destruct (step_entry chash mhash c1 c2 G1 S p K) as [D|D]; try lia.
  - now rewrite D.
  - rewrite (good_get _ _ _ _ G1 K), (good_get _ _ _ _ G2 K), D in E. now destruct E.
Qed.

(* However long the search runs and whatever the schedule is, no entry of the map changes more than 3570 times. *)
Theorem C40_entry_changes_bounded : forall chash mhash threads initial limit c p k c',
  start_ok initial -> search_run chash mhash threads initial limit c ->
  wf p -> channels p <= 11 -> graded (channels p) (vs p) ->
  changes chash mhash p c k c' -> k <= 3570.
Proof.
  intros chash mhash threads initial limit c p k c' K R W C Gr H. assert (Kp : okset p) by (split; auto).
  pose proof (run_good chash mhash threads initial limit c (start_okset _ K) R) as G.
  destruct (changes_slack chash mhash p c k c' G Kp H) as (_ & L). destruct (gd_hb _ _ c G p Kp) as (_ & B).
  pose proof (mi_small chash mhash _ (inv_map _ _ c (good_inv _ _ c G)) p Kp) as B2. unfold slack in L.
  assert (hi (cur mhash (g_map c) p) - lo (cur mhash (g_map c) p) <= 35) by lia. lia.
Qed.
Print Assumptions C40_entry_changes_bounded.

(* an execution during which the stored states change k times *)
Inductive writes chash mhash (c : Config) : nat -> Config -> Prop :=
| writes_none : writes chash mhash c 0 c
| writes_same k c1 c2 : writes chash mhash c k c1 -> sys_step chash mhash c1 c2 ->
    state_shards (g_map c2) = state_shards (g_map c1) -> writes chash mhash c k c2
| writes_one k c1 c2 : writes chash mhash c k c1 -> sys_step chash mhash c1 c2 ->
    state_shards (g_map c2) <> state_shards (g_map c1) -> writes chash mhash c (S k) c2.

(* There is a number, the same for all searches, that bounds how often the stored states change. *)
Theorem C40_writes_bounded : exists B, forall chash mhash threads initial limit c0 k c,
  start_ok initial -> search_start chash threads initial limit = Some c0 -> writes chash mhash c0 k c -> k <= B.
Proof.
  exists (sumf (fun s => slack (default_state s)) universe). intros chash mhash threads initial limit c0 k c K E H.
  pose proof (run_good chash mhash threads initial limit c0 (start_okset _ K) (run_start chash mhash threads initial limit c0 E)) as G0.
  assert (X : Good chash mhash c /\ k + potential mhash (g_map c) <= potential mhash (g_map c0)).
  { induction H as [|k c1 c2 H (G1 & L) S D|k c1 c2 H (G1 & L) S D]; auto; pose proof (good_step chash mhash c1 c2 G1 S) as G2; (split; [exact G2|]);
      destruct (step_slack chash mhash c1 c2 (good_inv _ _ c1 G1) (gd_hb _ _ c1 G1) S) as (_ & [D'|D']); try lia.
    - now rewrite (potential_same mhash _ _ D).
    - contradiction. }
  destruct X as (_ & L). unfold search_start in E. destruct (canon chash initial) as [i|]; [|discriminate]. injection E as <-. cbn [g_map] in L.
  unfold potential in L. replace (sumf (fun s => slack (default_state s)) universe) with (sumf (fun s => slack (cur mhash (sm_default threads) s)) universe). lia.
  clear. unfold sumf. induction universe as [|a l IHl]; cbn [fold_right]; auto. rewrite IHl. unfold cur. now rewrite sm_default_stored.
Qed.
Print Assumptions C40_writes_bounded.

(* ---- a case ---- *)
Definition same_get (a b : option State) : bool :=
  match a, b with Some x, Some y => state_eqb x y | None, None => true | _, _ => false end.
Lemma same_get_spec a b : same_get a b = true <-> a = b.
Proof. destruct a, b; cbn; try (split; intros H; congruence). rewrite state_eqb_eq. split; intros H; congruence. Qed.
Fixpoint count_changes (fuel : nat) (p : OutputSet) (k : nat) (c : Config) (t : nat) : nat * Config :=
  match fuel with
  | 0 => (k, c)
  | S f => match next_step c t with
           | None => count_changes f p k c (if S t <? length (g_tasks c) then S t else 0)
           | Some c' => count_changes f p (if same_get (sm_get h0 (g_map c') p) (sm_get h0 (g_map c) p) then k else S k) c'
                          (if S t <? length (g_tasks c') then S t else 0)
           end
  end.
Lemma next_step_sys c t c' : next_step c t = Some c' -> sys_step h0 h0 c c'.
Proof.
  intros E. unfold next_step in E. destruct (task_step h0 h0 c t) eqn:E1; [| |injection E as <-; eapply SysTask; eauto];
  (destruct (drop_frame h0 c t) eqn:E2; [| |injection E as <-; eapply SysDrop; eauto]);
  (destruct (nth_error (g_tasks c) t) as [x|] eqn:E3; [|discriminate]); (destruct (tk_pend x) eqn:E4; [|discriminate]); injection E as <-; eapply SysPool; eauto.
Qed.
Lemma count_changes_spec p c0 : forall fuel k c t, changes h0 h0 p c0 k c -> changes h0 h0 p c0 (fst (count_changes fuel p k c t)) (snd (count_changes fuel p k c t)).
Proof.
  induction fuel as [|f IH]; intros k c t H; cbn [count_changes]; auto. destruct (next_step c t) as [c'|] eqn:E; [|now apply IH].
  apply IH. apply next_step_sys in E. destruct (same_get _ _) eqn:Es.
  - apply same_get_spec in Es. eapply changes_same; eauto.
  - eapply changes_one; eauto. intros H'. apply same_get_spec in H'. congruence.
Qed.
Lemma shards_dec (a b : list (OutputSetMap State)) : {a = b} + {a <> b}.
Proof. repeat decide equality. Qed.
Lemma changes_writes p c k c' : changes h0 h0 p c k c' -> exists j, k <= j /\ writes h0 h0 c j c'.
Proof.
  induction 1 as [|k c1 c2 H (j & L & Hw) S E|k c1 c2 H (j & L & Hw) S E].
  - exists 0. split; auto. apply writes_none.
  - destruct (shards_dec (state_shards (g_map c2)) (state_shards (g_map c1))) as [D|D].
    exists j. split; auto. eapply writes_same; eauto. exists (Datatypes.S j). split; auto. eapply writes_one; eauto.
  - exists (Datatypes.S j). split; [lia|]. apply (writes_one h0 h0 c j c1 c2); auto. intros D. apply E. unfold sm_get. now rewrite D.
Qed.

Example C40_case : fst (count_changes 100 (all_values 4) 0 (example_run 4 None 0) 0) = 2.
Proof. vm_compute. reflexivity. Qed.
Example C40_case_run : exists c0 k c, search_start h0 2 (all_values 4) None = Some c0 /\ changes h0 h0 (all_values 4) c0 2 c /\ 2 <= k /\ writes h0 h0 c0 k c.
Proof.
  pose proof (canon_canon_of h0 _ (start_okset _ (all_values_start 4 ltac:(lia)))) as E.
  destruct (search_start h0 2 (all_values 4) None) as [c0|] eqn:Es. 2: { exfalso. unfold search_start in Es. rewrite E in Es. discriminate. }
  assert (E0 : example_run 4 None 0 = c0). { unfold example_run. rewrite Es. reflexivity. }
  pose proof C40_case as C. pose proof (count_changes_spec (all_values 4) c0 100 0 c0 0 (changes_none _ _ _ _)) as H. rewrite E0 in C. rewrite C in H.
  destruct (changes_writes _ _ _ _ H) as (j & L & Hw). exists c0, j. eauto.
Qed.
