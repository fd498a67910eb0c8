(* C56, C57: the scope of the thread pool: it returns with the result of the search after every worker has ended, and by then
   nothing that refers to the search is left; but a task may use the pool after it was dropped. *)
From Coq Require Import List Arith Bool Lia Permutation.
Import ListNotations.
From Verif Require Import Spec Vec Net Graded Bits Util OutputSetModel OutputSetProofs PruneProofs PackProofs CountProofs HuffmanModel HuffmanProofs CanonModel TreeModel StatesModel StatesProofs StatesBounds.
From Verif Require Import MachineModel StatesMachModel StatesMachProofs PoolModel PoolProofs.
From Verif Require Import SearchModel SearchFair SearchFacts SearchInv SearchEdges SearchGlobal SearchRun SearchSafe SearchGood SearchReady SearchPend SearchEnds SearchMachModel SearchMachReq SearchMachProofs SearchMachRun.
From Verif Require Import ExecModel ExecFacts ExecInv ExecRun ExecOther ExecLive ProgModel ProgProofs ProgLive.
From Verif Require Import PropOutputSet PropSearch PropLive PropFair PropExec PropSearchMach PropProg ScopeModel ScopeProofs ScopeRest ScopeLive.

(* ---- C56 ---- *)
(* The scope starts, and whatever the threads have done so far, the next step of no worker fails a check. *)
Theorem C56_no_check_fails : forall chash mhash workers threads initial limit, start_ok initial ->
  (exists x, scope_start chash workers threads initial limit = Some x) /\
  forall x w, scope_run chash mhash workers threads initial limit x -> worker_step chash mhash x w <> SPanic.
Proof.
  intros chash mhash workers threads initial limit K. destruct (C54_no_check_fails chash mhash workers threads initial limit K) as ((x & evs & E) & NP). split.
  - unfold scope_start. rewrite E. eauto.
  - intros y w R Ey. destruct (si_run _ _ _ _ _ _ _ (run_SI chash mhash workers threads initial limit K y R)) as (tr & Rp).
    pose proof (worker_cases chash mhash y w) as C. rewrite Ey in C. exact (NP tr _ w Rp C).
Qed.
Print Assumptions C56_no_check_fails.

(* What the worker threads do is what the program of C54 does. *)
Theorem C56_same_program : forall chash mhash workers threads initial limit x, start_ok initial ->
  scope_run chash mhash workers threads initial limit x ->
  length (sp_gone x) = workers /\ exists tr, prog_run chash mhash workers threads initial limit tr (sp_prog x).
Proof. intros. destruct (run_SI chash mhash workers threads initial limit H x H0) as [A B _ _]. auto. Qed.
Print Assumptions C56_same_program.

(* A worker ends only after the pool was dropped and when nothing is left of any task but the main task: no Task in the run
   queue, with a worker or with a Schedule, and no future. *)
Theorem C56_ends_without_tasks : forall chash mhash workers threads initial limit x w, start_ok initial ->
  scope_run chash mhash workers threads initial limit x -> nth_error (sp_gone x) w = Some true ->
  sp_main x <> MIn /\ sc_queue (pr_sched (sp_prog x)) = [] /\
  (forall v k, nth_error (pr_workers (sp_prog x)) v = Some k -> pw_todo k = [] /\ forall t fresh, pw_place k <> PlPoll t fresh /\ pw_place k <> PlPark t /\ pw_place k <> PlDrop t) /\
  (forall u c, nth_error (cells (m_pool (pr_mach (sp_prog x)))) u = Some c -> waiting c = true -> owners c = 0) /\
  (forall t y, 0 < t -> nth_error (m_tasks (pr_mach (sp_prog x))) t = Some y -> tk_stack y = []).
Proof.
  intros chash mhash workers threads initial limit x w K R G. destruct (run_SI chash mhash workers threads initial limit K x R) as [_ _ SG _].
  destruct (SG w G) as (_ & [D1 D2 D3 D4 D5 D6] & P). split; [|split; [exact D1|split; [|split; [|exact D6]]]].
  - intros E. rewrite E in P. discriminate.
  - intros v k N. pose proof (D2 v k N) as H. unfold in_hand in H. destruct (pw_todo k); [|discriminate]. split; [reflexivity|]. intros t fresh. destruct (pw_place k); try discriminate; repeat split; discriminate.
  - intros u c N Wt. destruct (owners c) as [|o] eqn:Eo; auto. exfalso. apply (D4 u).
    + unfold alive. rewrite N, Eo. reflexivity.
    + unfold PoolModel.is_waiting. now rewrite N, Wt.
Qed.
Print Assumptions C56_ends_without_tasks.

(* When the scope has returned, every worker has ended and the main task has the result that the scope returned. *)
Theorem C56_returned : forall chash mhash workers threads initial limit x k, start_ok initial ->
  scope_run chash mhash workers threads initial limit x -> sp_main x = MBack k ->
  (forall w, w < workers -> nth_error (sp_gone x) w = Some true /\ worker_step chash mhash x w = SWait) /\ prog_result (sp_prog x) k.
Proof.
  intros chash mhash workers threads initial limit x k K R E. destruct (run_SI chash mhash workers threads initial limit K x R) as [_ _ _ M]. rewrite E in M. destruct M as (M & G). split.
  - intros w Hw. split; auto. destruct x as [p gone m]. unfold worker_step. cbn [sp_gone] in G. rewrite (nth_error_nth _ _ true (G w Hw)). reflexivity.
  - now apply main_result_spec.
Qed.
Print Assumptions C56_returned.

(* What the scope returns is the optimum, and the size of a smallest network. *)
Theorem C56_returns_optimum : forall chash mhash workers threads initial x k, start_ok initial ->
  scope_run chash mhash workers threads initial None x -> sp_main x = MBack k -> optimum (channels initial) (vs initial) k.
Proof.
  intros chash mhash workers threads initial x k K R E. destruct (C56_returned _ _ _ _ _ _ _ _ K R E) as (_ & P). destruct (C56_same_program _ _ _ _ _ _ _ K R) as (_ & tr & Rp).
  destruct (C54_same_search _ _ _ _ _ _ _ _ K Rp) as (M & _). exact (C51_search_returns_optimum _ _ _ _ _ _ _ K M P).
Qed.
Print Assumptions C56_returns_optimum.
Theorem C56_returns_minimal_size : forall chash mhash workers threads n x k, n <= 11 ->
  scope_run chash mhash workers threads (all_values n) None x -> sp_main x = MBack k -> minimal_size n k.
Proof.
  intros chash mhash workers threads n x k Hn R E. pose proof (all_values_start n Hn) as K. destruct (C56_returned _ _ _ _ _ _ _ _ K R E) as (_ & P). destruct (C56_same_program _ _ _ _ _ _ _ K R) as (_ & tr & Rp).
  destruct (C54_same_search _ _ _ _ _ _ _ _ K Rp) as (M & _). exact (C51_search_returns_minimal_size _ _ _ _ _ _ _ Hn M P).
Qed.
Print Assumptions C56_returns_minimal_size.

(* As long as every thread goes on, the scope returns: all tasks that were left over are dropped, all workers end, and the
   thread that called search goes on with the result. *)
Theorem C56_scope_returns : forall chash mhash workers threads initial limit X, start_ok initial -> 0 < workers ->
  scope_start chash workers threads initial limit = Some (X 0) -> scope_trace chash mhash X -> scope_goes chash mhash X ->
  exists i k, forall j, i <= j -> sp_main (X j) = MBack k.
Proof.
  intros chash mhash workers threads initial limit X K W S T G.
  apply (scope_returns chash mhash workers threads initial limit K X W); auto. now apply scope_run_start.
Qed.
Print Assumptions C56_scope_returns.
Theorem C56_scope_returns_minimal_size : forall chash mhash workers threads n X, n <= 11 -> 0 < workers ->
  scope_start chash workers threads (all_values n) None = Some (X 0) -> scope_trace chash mhash X -> scope_goes chash mhash X ->
  exists i k, minimal_size n k /\ forall j, i <= j -> sp_main (X j) = MBack k.
Proof.
  intros chash mhash workers threads n X Hn W S T G. pose proof (all_values_start n Hn) as K.
  destruct (C56_scope_returns _ _ _ _ _ _ X K W S T G) as (i & k & H). exists i, k. split; auto.
  apply (C56_returns_minimal_size chash mhash workers threads n (X i) k Hn); auto.
  apply (X_run chash mhash workers threads (all_values n) None X); auto. now apply scope_run_start.
Qed.
Print Assumptions C56_scope_returns_minimal_size.

(* ---- such executions exist: the threads take turns ---- *)
Definition scope_turn chash mhash (W : nat) (x : Scope) (i : nat) : Scope :=
  if i mod S W <? W then match worker_step chash mhash x (i mod S W) with SDone y _ => y | _ => x end
  else match main_step x with Some y => y | None => x end.
Fixpoint scope_turns chash mhash (W : nat) (x : Scope) (i : nat) : Scope :=
  match i with 0 => x | S i => scope_turn chash mhash W (scope_turns chash mhash W x i) i end.
Theorem C56_turns_go_on : forall chash mhash workers threads initial limit x, start_ok initial ->
  scope_run chash mhash workers threads initial limit x ->
  scope_trace chash mhash (scope_turns chash mhash workers x) /\ scope_goes chash mhash (scope_turns chash mhash workers x) /\ scope_turns chash mhash workers x 0 = x.
Proof.
  intros chash mhash W threads initial limit x K R.
  assert (T : scope_trace chash mhash (scope_turns chash mhash W x)).
  { intros i. cbn [scope_turns]. unfold scope_turn. destruct (i mod S W <? W).
    - destruct (worker_step chash mhash (scope_turns chash mhash W x i) (i mod S W)) as [| |y evs] eqn:E; auto. right. eapply ByWorker; eauto.
    - destruct (main_step (scope_turns chash mhash W x i)) as [y|] eqn:E; auto. right. now apply ByMain. }
  assert (Ri : forall i, scope_run chash mhash W threads initial limit (scope_turns chash mhash W x i)).
  { induction i as [|i IH]; auto. destruct (T i) as [->|S]; [auto|]. eapply scope_run_step; eauto. }
  split; auto. split; auto. split.
  - intros w i Lw. pose proof (workers_at chash mhash W threads initial limit K (scope_turns chash mhash W x) R T i) as Li. rewrite Li in Lw. clear Li.
    exists (i * S W + w). split. nia. cbn [scope_turns]. unfold scope_turn.
    replace ((i * S W + w) mod S W) with w by (rewrite Nat.add_comm, Nat.mod_add, Nat.mod_small; lia). destruct (Nat.ltb_spec w W); [|lia].
    destruct (worker_step chash mhash (scope_turns chash mhash W x (i * S W + w)) w) as [| |y evs] eqn:E; auto. 2: { left. exists evs. reflexivity. }
    exact (False_ind _ (proj2 (C56_no_check_fails chash mhash W threads initial limit K) _ w (Ri _) E)).
  - intros i. exists (i * S W + W). split. nia. cbn [scope_turns]. unfold scope_turn.
    replace ((i * S W + W) mod S W) with W by (rewrite Nat.add_comm, Nat.mod_add, Nat.mod_small; lia). rewrite Nat.ltb_irrefl.
    destruct (main_step (scope_turns chash mhash W x (i * S W + W))) as [y|]; auto.
Qed.
Print Assumptions C56_turns_go_on.

(* the threads do as many steps as told: (w, n) is n steps of worker w *)
Definition no_scope : Scope := mkScope (mkProg (mkMach (states_default 1) [] [] (mkPool [] 0 [] [] [] 0 [] WFree)) (mkSched (fun _ => TIdle) [] (fun _ => None) []) []) [] MIn.
Definition scope_at (W : nat) (s : OutputSet) : Scope := match scope_start h0 W 1 s None with Some x => x | None => no_scope end.
Fixpoint steps (x : Scope) (w n : nat) : Scope :=
  match n with 0 => x | S n => match worker_step h0 h0 x w with SDone y _ => steps y w n | _ => x end end.
Definition told (x : Scope) (l : list (nat * nat)) : Scope := fold_left (fun x wn => steps x (fst wn) (snd wn)) l x.
Definition main_turn (x : Scope) : Scope := match main_step x with Some y => y | None => x end.
Lemma scope_at_run W s : start_ok s -> scope_run h0 h0 W 1 s None (scope_at W s).
Proof. intros K. apply scope_run_start. unfold scope_at. destruct (C56_no_check_fails h0 h0 W 1 s None K) as ((x & ->) & _). reflexivity. Qed.
Lemma steps_run W s x w n : scope_run h0 h0 W 1 s None x -> scope_run h0 h0 W 1 s None (steps x w n).
Proof. revert x. induction n as [|n IH]; intros x R; auto. cbn [steps]. destruct (worker_step h0 h0 x w) as [| |y evs] eqn:E; auto. apply IH. eapply scope_run_step; eauto. eapply ByWorker; eauto. Qed.
Lemma told_run W s l : forall x, scope_run h0 h0 W 1 s None x -> scope_run h0 h0 W 1 s None (told x l).
Proof. induction l as [|(w, n) l IH]; intros x R; auto. cbn [told fold_left]. apply IH. now apply steps_run. Qed.
Lemma main_turn_run W s x : scope_run h0 h0 W 1 s None x -> scope_run h0 h0 W 1 s None (main_turn x).
Proof. intros R. unfold main_turn. destruct (main_step x) as [y|] eqn:E; auto. eapply scope_run_step; eauto. now apply ByMain. Qed.

(* On three channels: two workers and the main thread take turns. *)
Example C56_case : start_ok (all_values 3) /\ scope_start h0 2 1 (all_values 3) None = Some (scope_at 2 (all_values 3)) /\
  let X := scope_turns h0 h0 2 (scope_at 2 (all_values 3)) in scope_trace h0 h0 X /\ scope_goes h0 h0 X.
Proof.
  assert (K : start_ok (all_values 3)) by (apply all_values_start; lia). split; auto. split.
  - unfold scope_at. destruct (C56_no_check_fails h0 h0 2 1 (all_values 3) None K) as ((x & ->) & _). reflexivity.
  - destruct (C56_turns_go_on h0 h0 2 1 (all_values 3) None _ K (scope_at_run 2 _ K)) as (A & B & _). split; assumption.
Qed.
Example C56_case_returns : (let x := scope_turns h0 h0 2 (scope_at 2 (all_values 3)) 57 in (sp_main x, sp_gone x)) = (MJoin 3, [false; false]) /\
  (let x := scope_turns h0 h0 2 (scope_at 2 (all_values 3)) 84 in (sp_main x, sp_gone x)) = (MBack 3, [true; true]).
Proof. vm_compute. auto. Qed.

(* ---- C57: the pool is used after it was dropped ---- *)
(* One would expect that nobody uses the pool after the scope dropped it:
     forall chash mhash workers threads initial limit x w, start_ok initial ->
       scope_run chash mhash workers threads initial limit x -> sp_main x <> MIn -> uses_pool chash x w = false.
   This is false.  The main task ends while another worker polls a task that the search no longer needs; the scope drops the
   pool, and the task goes on and spawns a task with the reference to the pool that it still has. *)
Fixpoint pairs_set (l : list (nat * nat)) (s : OutputSet) : OutputSet :=
  match l with [] => s | (a, b) :: l => pairs_set l (fst (apply_comparator s a b)) end.
Lemma pairs_set_start l : forall s, start_ok s -> (forall ab, In ab l -> fst ab < channels s /\ snd ab < channels s /\ fst ab <> snd ab) -> start_ok (pairs_set l s).
Proof.
  induction l as [|(a, b) l IH]; intros s K H; auto. cbn [pairs_set]. destruct (H (a, b) (or_introl eq_refl)) as (Ha & Hb & Hne). cbn [fst snd] in *. destruct K as (W & Cc & D). apply IH.
  - split. { apply apply_comparator_wf; auto. } rewrite apply_comparator_channels. split; auto. apply (derived_exch _ (vs s) _ (b, a)); auto. { split; cbn; auto. } apply apply_comparator_vs; auto.
  - intros ab I. rewrite apply_comparator_channels. apply H. now right.
Qed.
Definition race_set : OutputSet := pairs_set [(3, 0); (3, 2); (2, 3); (3, 0); (2, 3); (0, 3)] (all_values 4).
Lemma race_start : start_ok race_set.
Proof. apply pairs_set_start. { apply all_values_start. lia. } intros ab H. change (channels (all_values 4)) with 4. cbn [In] in H. repeat destruct H as [<-|H]; cbn [fst snd]; try lia. Qed.
Definition race : Scope := main_turn (told (scope_at 3 race_set) [(0, 125); (1, 10); (0, 54); (1, 86); (0, 15)]).
Lemma race_run : scope_run h0 h0 3 1 race_set None race.
Proof. apply main_turn_run, told_run, scope_at_run, race_start. Qed.
Lemma race_late : match sp_main race with MJoin _ => uses_pool h0 race 1 | _ => false end = true.
Proof. vm_compute. reflexivity. Qed.
Lemma late_use initial x : start_ok initial -> scope_run h0 h0 3 1 initial None x -> match sp_main x with MJoin _ => uses_pool h0 x 1 | _ => false end = true ->
  exists chash mhash workers threads initial limit x w,
  start_ok initial /\ scope_run chash mhash workers threads initial limit x /\ (exists k, sp_main x = MJoin k) /\ uses_pool chash x w = true.
Proof.
  intros K R L. exists h0, h0, 3, 1, initial, None, x, 1. split; [exact K|]. split; [exact R|].
  destruct (sp_main x) as [|k|k]; try discriminate L. split; [now exists k|exact L].
Qed.
Theorem C57_pool_not_used_after_drop_refuted : exists chash mhash workers threads initial limit x w,
  start_ok initial /\ scope_run chash mhash workers threads initial limit x /\ (exists k, sp_main x = MJoin k) /\ uses_pool chash x w = true.
Proof. exact (late_use race_set race race_start race_run race_late). Qed.
Print Assumptions C57_pool_not_used_after_drop_refuted.

(* What holds: only a task other than the main task uses the pool after it was dropped, ... *)
Theorem C57_only_left_over_tasks : forall chash mhash workers threads initial limit x w, start_ok initial ->
  scope_run chash mhash workers threads initial limit x -> sp_main x <> MIn -> uses_pool chash x w = true ->
  exists k, nth_error (pr_workers (sp_prog x)) w = Some k /\ (pw_send k <> None \/ exists t fresh, k = mkPWorker None [] (PlPoll t fresh) /\ 0 < t).
Proof.
  intros chash mhash workers threads initial limit x w K R M U. destruct (run_SI chash mhash workers threads initial limit K x R) as [_ _ _ Sm].
  assert (E : exists k, main_result (pr_mach (sp_prog x)) = Some k). { destruct (sp_main x) as [|k|k]; [congruence|eauto|destruct Sm; eauto]. }
  clear Sm. destruct E as (r & E). unfold uses_pool in U. apply andb_prop in U. destruct U as (_ & U).
  destruct (nth_error (pr_workers (sp_prog x)) w) as [[[e|] td pl]|] eqn:N; [| |discriminate].
  - exists (mkPWorker (Some e) td pl). split; auto. left. discriminate.
  - destruct td; [|discriminate]. destruct pl as [| | | |t fresh| |]; try discriminate. exists (mkPWorker None [] (PlPoll t fresh)). split; auto. right. exists t, fresh. split; auto.
    destruct t as [|t]; [exfalso|lia]. unfold main_result in E. unfold stack_of, tasks_only in U. cbn [g_tasks] in U.
    destruct (nth_error (m_tasks (pr_mach (sp_prog x))) 0) as [y|]; [|discriminate]. destruct (tk_stack y) as [|[s l pc| |] [|]]; try discriminate.
Qed.
Print Assumptions C57_only_left_over_tasks.
(* ... and nobody uses it after the scope has returned. *)
Theorem C57_not_used_after_return : forall chash mhash workers threads initial limit x k, start_ok initial ->
  scope_run chash mhash workers threads initial limit x -> sp_main x = MBack k -> forall w, uses_pool chash x w = false.
Proof.
  intros chash mhash workers threads initial limit x k K R E w. destruct (C56_returned _ _ _ _ _ _ _ _ K R E) as (G & _). destruct (C56_same_program _ _ _ _ _ _ _ K R) as (L & _).
  unfold uses_pool. destruct (Nat.lt_ge_cases w workers) as [H|H].
  - now rewrite (nth_error_nth _ _ true (proj1 (G w H))).
  - rewrite nth_overflow by lia. reflexivity.
Qed.
Print Assumptions C57_not_used_after_return.
