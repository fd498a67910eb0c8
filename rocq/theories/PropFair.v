(* C41: every fair execution of the search of src/search.rs ends. *)
From Coq Require Import List Arith Bool Lia Cantor.
Import ListNotations.
From Verif Require Import Spec Vec Net Graded Bits Util OutputSetModel OutputSetProofs PruneProofs PackProofs CountProofs HuffmanModel HuffmanProofs CanonModel TreeModel StatesModel StatesProofs StatesBounds SearchModel SearchFair SearchFacts SearchInv SearchGood SearchReady SearchPend SearchEnds PropSearch PropLive.

(* ---- C41 ---- *)
Lemma exec_run chash mhash threads initial limit run : execution chash mhash run ->
  search_run chash mhash threads initial limit (run 0) -> forall i, search_run chash mhash threads initial limit (run i).
Proof. intros X R. induction i as [|i IH]; auto. destruct (X i) as [->|S]; auto. eapply run_step; eauto. Qed.

(* Whatever the interleaving of the tasks, the choices of the thread pool and the cancellations are: if no
   task that may go on is left out for ever then the main loop ends. *)
Theorem C41_fair_search_ends : forall chash mhash threads initial limit run,
  start_ok initial -> search_run chash mhash threads initial limit (run 0) ->
  execution chash mhash run -> fair chash mhash run ->
  exists i k, search_result (run i) k.
Proof.
  intros chash mhash threads initial limit run K R X F. pose proof (exec_run chash mhash threads initial limit run X R) as A.
  destruct (ends chash mhash run) with (i := 0) as (j & k & _ & H); eauto.
  - intros i. apply (run_ready chash mhash threads initial limit); auto. now apply start_okset.
  - intros i. apply (run_pend chash mhash threads initial limit); auto. now apply start_okset.
Qed.
Print Assumptions C41_fair_search_ends.


(* the main loop stays where it ended *)
Lemma result_stays chash mhash threads initial limit run : start_ok initial -> search_run chash mhash threads initial limit (run 0) ->
  execution chash mhash run -> forall i j k, i <= j -> search_result (run i) k -> search_result (run j) k.
Proof.
  intros K R X i j k L H. pose proof (exec_run chash mhash threads initial limit run X R) as A. induction L as [|j L IH]; auto.
  destruct (X j) as [->|S]; auto. pose proof (run_ready chash mhash threads initial limit (run j) (start_okset _ K) (A j)) as G. apply rd_good in G.
  destruct IH as (x & s & l & N & E). destruct (step_tasks chash mhash _ _ (gd_inv _ _ _ G) S) as (Ht & _). destruct (Ht 0 x N) as (x' & N' & _ & [M|E']).
  - exfalso. destruct (gd_main _ _ _ G) as (_ & _ & (x0 & N0 & C0) & _). rewrite N in N0. injection N0 as <-. destruct M as [M|M].
    + unfold task_step in M. rewrite N, E in M. destruct (negb (tk_sched x)); discriminate.
    + unfold drop_frame in M. rewrite N, C0 in M. discriminate.
  - exists x', s, l. split; auto. congruence.
Qed.

(* ... and without a limit the value it ends with, and keeps, is the optimum *)
Theorem C41_fair_search_finds_optimum : forall chash mhash threads initial run,
  start_ok initial -> search_run chash mhash threads initial None (run 0) ->
  execution chash mhash run -> fair chash mhash run ->
  exists i k, optimum (channels initial) (vs initial) k /\ forall j, i <= j -> search_result (run j) k.
Proof.
  intros chash mhash threads initial run K R X F. destruct (C41_fair_search_ends chash mhash threads initial None run K R X F) as (i & k & H).
  exists i, k. split. apply (C19_search_returns_optimum chash mhash threads initial (run i)); auto. now apply exec_run.
  intros j L. now apply (result_stays chash mhash threads initial None run K R X i j).
Qed.
Print Assumptions C41_fair_search_finds_optimum.

(* The search for n channels ends with the size of the smallest sorting networks. *)
Theorem C41_fair_search_finds_minimal_size : forall chash mhash threads n run, n <= 11 ->
  search_start chash threads (all_values n) None = Some (run 0) ->
  execution chash mhash run -> fair chash mhash run ->
  exists i k, minimal_size n k /\ forall j, i <= j -> search_result (run j) k.
Proof.
  intros chash mhash threads n run Hn R X F. pose proof (all_values_start n Hn) as K. apply (run_start chash mhash) in R.
  destruct (C41_fair_search_ends chash mhash threads (all_values n) None run K R X F) as (i & k & H).
  exists i, k. split. apply (C19_search_returns_minimal_size chash mhash threads n (run i)); auto. now apply exec_run.
  intros j L. now apply (result_stays chash mhash threads (all_values n) None run K R X i j).
Qed.
Print Assumptions C41_fair_search_finds_minimal_size.

(* ---- fair executions exist ---- *)
Definition awakeb (c : Config) (f : Frame) : bool :=
  match f with
  | FImp _ _ (INext _ _ e NPend) | FHuff _ (HNext _ _ _ _ _ e NPend) =>
      existsb (fun id => match nth_error (targets e) id with
                         | Some x => match tg_run x with
                                     | Some u => match nth_error (g_tasks c) u with
                                                 | Some y => match tk_result y with Some _ => true | None => false end
                                                 | None => false
                                                 end
                                     | None => false
                                     end
                         | None => false
                         end) (active e)
  | _ => true
  end.
Lemma awakeb_spec c f : awakeb c f = true <-> awake c f.
Proof.
  assert (X : forall e, existsb (fun id => match nth_error (targets e) id with
                         | Some x => match tg_run x with
                                     | Some u => match nth_error (g_tasks c) u with
                                                 | Some y => match tk_result y with Some _ => true | None => false end
                                                 | None => false
                                                 end
                                     | None => false
                                     end
                         | None => false
                         end) (active e) = true <->
    exists id x u y, In id (active e) /\ nth_error (targets e) id = Some x /\ tg_run x = Some u /\ nth_error (g_tasks c) u = Some y /\ tk_result y <> None).
  { intros e. rewrite existsb_exists. split.
    - intros (id & Hi & H). destruct (nth_error (targets e) id) as [x|] eqn:N; [|discriminate]. destruct (tg_run x) as [u|] eqn:R; [|discriminate].
      destruct (nth_error (g_tasks c) u) as [y|] eqn:Ny; [|discriminate]. exists id, x, u, y. repeat split; auto. destruct (tk_result y); congruence.
    - intros (id & x & u & y & Hi & N & R & Ny & Hy). exists id. split; auto. rewrite N, R, Ny. destruct (tk_result y); congruence. }
  destruct f as [s l pc|prev s pc|s pc]; cbn [awakeb awake]; try tauto; destruct pc; try tauto; destruct np; try tauto; apply X.
Qed.
(* a turn of task t *)
Definition turn chash mhash (c : Config) (t : nat) : Config :=
  let dropped := match drop_frame mhash c t with Stepped c' => c' | _ => c end in
  match nth_error (g_tasks c) t with
  | None => c
  | Some x => match tk_stack x with
              | [] => c
              | f :: _ => if awakeb c f then match task_step chash mhash c t with Stepped c' => c' | _ => dropped end else dropped
              end
  end.
Lemma turn_spec chash mhash c t : moves chash mhash c t (turn chash mhash c t) \/ turn chash mhash c t = c /\ ~ enabled chash mhash c t.
Proof.
  unfold turn. cbv zeta. destruct (nth_error (g_tasks c) t) as [x|] eqn:N.
  2: { right. split; auto. intros [(x & f & r & c' & N' & _)|(c' & D)]. congruence. unfold drop_frame in D. rewrite N in D. discriminate. }
  destruct (tk_stack x) as [|f rest] eqn:E.
  { right. split; auto. intros [(x' & f & r & c' & N' & E' & _)|(c' & D)]. congruence. unfold drop_frame in D. rewrite N, E in D. destruct (negb (tk_cancel x)); discriminate. }
  assert (X : (forall c', awake c f -> task_step chash mhash c t <> Stepped c') ->
    moves chash mhash c t (match drop_frame mhash c t with Stepped c' => c' | _ => c end) \/ match drop_frame mhash c t with Stepped c' => c' | _ => c end = c /\ ~ enabled chash mhash c t).
  { intros H. destruct (drop_frame mhash c t) eqn:D; [| |left; now right]; right; (split; [auto|]); intros [(x' & f' & r & c' & N' & E' & A & S)|(c' & D')]; try congruence;
      rewrite N in N'; injection N' as <-; rewrite E in E'; injection E' as <- <-; now apply (H c'). }
  pose proof (awakeb_spec c f) as A. destruct (awakeb c f). 2: { apply X. intros c' H. apply A in H. discriminate. }
  destruct (task_step chash mhash c t) eqn:S. 1, 2: apply X; intros c' _; discriminate. left. now left.
Qed.
(* the tasks take turns; at time i it is the turn of the first component of the i-th pair of numbers *)
Fixpoint in_turn chash mhash (c : Config) (i : nat) : Config :=
  match i with
  | 0 => c
  | S i => turn chash mhash (in_turn chash mhash c i) (fst (of_nat i))
  end.
Lemma in_turn_execution chash mhash c : execution chash mhash (in_turn chash mhash c).
Proof.
  intros i. cbn [in_turn]. destruct (turn_spec chash mhash (in_turn chash mhash c i) (fst (of_nat i))) as [[H|H]|(-> & _)]; auto; right.
  eapply SysTask; eauto. eapply SysDrop; eauto.
Qed.
Lemma in_turn_fair chash mhash c : fair chash mhash (in_turn chash mhash c).
Proof.
  intros t i. exists (to_nat (t, i)). split. { pose proof (to_nat_non_decreasing t i). lia. }
  cbn [in_turn]. rewrite cancel_of_to. cbn [fst]. destruct (turn_spec chash mhash (in_turn chash mhash c (to_nat (t, i))) t) as [H|(_ & H)]; auto.
Qed.

(* The hypotheses of the theorems above can always be met: every configuration is the beginning of a fair execution. *)
Theorem C41_fair_execution_exists : forall chash mhash c, exists run, run 0 = c /\ execution chash mhash run /\ fair chash mhash run.
Proof. intros chash mhash c. exists (in_turn chash mhash c). split; auto. split. apply in_turn_execution. apply in_turn_fair. Qed.
Print Assumptions C41_fair_execution_exists.

(* a search for 4 channels in the middle of its work: task 0 waits for task 1, which holds a lock and waits for task 2 *)
Example C41_case : exists run k, run 0 = example_run 4 None 50 /\ result_of (run 0) = None /\
  search_run h0 h0 2 (all_values 4) None (run 0) /\ execution h0 h0 run /\ fair h0 h0 run /\ k = 5 /\ exists i, search_result (run i) k.
Proof.
  assert (R : search_run h0 h0 2 (all_values 4) None (example_run 4 None 50)) by (apply example_is_run; lia).
  destruct (C41_fair_execution_exists h0 h0 (example_run 4 None 50)) as (run & E & X & F). exists run. rewrite <- E in R.
  destruct (C41_fair_search_finds_optimum h0 h0 2 (all_values 4) run (all_values_start 4 ltac:(lia)) R X F) as (i & k & O & H).
  exists k. split. exact E. split. { rewrite E. exact (proj1 C39_case). } split. exact R. split. exact X. split. exact F. split. 2: { exists i. exact (H i (le_n i)). }
  assert (M : optimum 4 (vs (all_values 4)) 5).
  { apply (C19_search_returns_optimum h0 h0 2 (all_values 4) (example_run 4 None 100)). apply all_values_start; lia. apply example_is_run; lia. apply C19_case4. }
  destruct O as (O1 & O2), M as (M1 & M2). pose proof (lower_upper _ _ _ _ O1 M2). pose proof (lower_upper _ _ _ _ M1 O2). lia.
Qed.

(* Without fairness the main loop need not end: the execution that never makes a step. *)
Lemma stay_unfair c : result_of c = None -> execution h0 h0 (fun _ => c) /\ ~ exists k, search_result c k.
Proof. intros R. split. left; reflexivity. intros (k & x & s & l & N & E). unfold result_of in R. rewrite N, E in R. discriminate. Qed.
Example C41_case_unfair : execution h0 h0 (fun _ => example_run 4 None 50) /\ ~ exists k, search_result (example_run 4 None 50) k.
Proof. exact (stay_unfair _ (proj1 C39_case)). Qed.
