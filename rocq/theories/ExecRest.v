(* When the search has come to rest, the executor comes to rest as well. *)
From Coq Require Import List Arith Bool Lia Permutation.
Import ListNotations.
From Verif Require Import Spec Vec Util OutputSetModel StatesModel SearchModel SearchFair SearchFacts SearchEdges SearchGlobal SearchRun SearchGood SearchMain SearchReady SearchEnds SearchRest.
From Verif Require Import ExecModel ExecFacts ExecInv.

(* what the executor still has to do *)
Definition again (s : Sched) (t : nat) : nat := match sc_flag s t with TRunning true => 3 | _ => 0 end.
Definition job_load (s : Sched) (j : Job) : nat :=
  match j with JNone => 0 | JPoll t _ => 3 + again s t | JPark t => 2 + again s t | JDrop _ => 1 end.
Definition load (n : nat) (s : Sched) (k : Worker) : nat := (3 * n + 5) * length (wk_todo k) + job_load s (wk_job k).
Definition loads (n : nat) (s : Sched) (ws : list Worker) : nat := list_sum (map (load n s) ws).
Definition unstarted (ts : list Task) : nat := length (filter (fun y => negb (tk_sched y)) ts).
Definition to_do (y : Exec) : nat :=
  loads (length (ex_workers y)) (ex_sched y) (ex_workers y) + 4 * length (sc_queue (ex_sched y)) + 5 * unstarted (g_tasks (ex_conf y)).

Lemma again_le s t : again s t <= 3.
Proof. unfold again. destruct (sc_flag s t) as [| |[|]]; lia. Qed.
Lemma job_mono s s' j : (forall t, again s' t <= again s t) -> job_load s' j <= job_load s j.
Proof. intros H. destruct j as [|t fr|t|t]; cbn [job_load]; try lia; specialize (H t); lia. Qed.
Lemma loads_mono n s s' ws : (forall t, again s' t <= again s t) -> loads n s' ws <= loads n s ws.
Proof.
  intros H. unfold loads. induction ws as [|k ws IH]; cbn [map list_sum fold_right]; [lia|]. change (fold_right Nat.add 0) with list_sum. unfold load at 1 3. pose proof (job_mono s s' (wk_job k) H). lia.
Qed.
Lemma loads_more n s s' ws : loads n s' ws <= loads n s ws + 3 * length ws.
Proof.
  unfold loads. induction ws as [|k ws IH]; cbn [map list_sum fold_right length]; [lia|]. change (fold_right Nat.add 0) with list_sum. unfold load at 1 3.
  assert (job_load s' (wk_job k) <= job_load s (wk_job k) + 3). { destruct (wk_job k) as [|t fr|t|t]; cbn [job_load]; try lia; pose proof (again_le s' t); lia. } lia.
Qed.
Lemma loads_upd n s ws w k0 k : nth_error ws w = Some k0 -> loads n s (upd ws w k) + load n s k0 = loads n s ws + load n s k.
Proof.
  unfold loads. revert w. induction ws as [|x ws IH]; intros [|w] N; try discriminate.
  - injection N as <-. cbn [upd map list_sum fold_right]. change (fold_right Nat.add 0) with list_sum. lia.
  - cbn [upd map list_sum fold_right]. change (fold_right Nat.add 0) with list_sum. specialize (IH w N). lia.
Qed.
Lemma again_set t a s u : again (set_flag t a s) u = if u =? t then match a with TRunning true => 3 | _ => 0 end else again s u.
Proof. unfold again, set_flag, set_at. cbn [sc_flag]. destruct (u =? t); auto. Qed.
Lemma again_push t s u : again (push t s) u = if u =? t then 0 else again s u.
Proof. unfold again, push, set_at. cbn [sc_flag]. destruct (u =? t); auto. Qed.

Lemma unstarted_sched c t y : nth_error (g_tasks c) t = Some y -> tk_sched y = false -> S (unstarted (g_tasks (with_task c t set_sched))) = unstarted (g_tasks c).
Proof.
  intros N F. unfold with_task. cbn [g_tasks]. rewrite N. unfold unstarted. revert t N. induction (g_tasks c) as [|x ts IH]; intros [|t] N; try discriminate.
  - injection N as ->. cbn [upd filter set_sched tk_sched negb]. rewrite F. reflexivity.
  - cbn [upd filter]. specialize (IH t N). destruct (negb (tk_sched x)); cbn [length]; lia.
Qed.

Section Rest.
Variables chash mhash : list nat -> nat.
Notation work_step := (ExecModel.work_step chash mhash).
Notation exec_step := (ExecModel.exec_step chash mhash).

Lemma rest_drop c s t : Rest c -> drop_step mhash c s t = DEnd.
Proof.
  intros ((x & s0 & l & k & N & E & C) & H). unfold drop_step, stack_of, SearchModel.drop_frame. destruct (nth_error (g_tasks c) t) as [y|] eqn:Ny; auto.
  destruct t as [|t]. { rewrite N in Ny. injection Ny as <-. rewrite E, C. reflexivity. }
  rewrite (H (S t) y) by (auto; lia). destruct (negb (tk_cancel y)); auto.
Qed.
Lemma rest_poll c s t fresh : Rest c -> poll_step chash mhash c s t fresh = Some (c, set_flag t TIdle s, mkWorker [] JNone) \/ poll_step chash mhash c s t fresh = Some (c, s, mkWorker [] (JPark t)).
Proof.
  intros ((x & s0 & l & k & N & E & C) & H). unfold poll_step, stack_of. destruct (nth_error (g_tasks c) t) as [y|] eqn:Ny; auto.
  destruct t as [|t].
  - rewrite N in Ny. injection Ny as <-. rewrite E. cbn [at_pend andb]. right. unfold SearchModel.task_step. rewrite N, E. destruct (negb (tk_sched x)); cbn; auto.
  - rewrite (H (S t) y) by (auto; lia). auto.
Qed.

Theorem work_less y w y' : Rest (ex_conf y) -> QI (is_scheduled (ex_conf y)) (ex_sched y) -> work_step y w = Some y' -> ex_conf y' = ex_conf y /\ to_do y' < to_do y.
Proof.
  intros R QQ. destruct y as [c s ws]. cbn [ex_conf ex_sched] in R, QQ. unfold ExecModel.work_step. destruct (nth_error ws w) as [[todo job]|] eqn:N; [|discriminate].
  set (n := length ws).
  (* a step that keeps the tasks *)
  assert (X : forall s' todo' job', (forall ws', length ws' = n -> loads n s' ws' + load n s (mkWorker todo' job') + 4 * length (sc_queue s') < loads n s ws' + load n s (mkWorker todo job) + 4 * length (sc_queue s)) ->
    ex_conf (mkExec c s' (upd ws w (mkWorker todo' job'))) = c /\ to_do (mkExec c s' (upd ws w (mkWorker todo' job'))) < to_do (mkExec c s ws)).
  { intros s' todo' job' H. split; auto. unfold to_do. cbn [ex_workers ex_sched ex_conf]. rewrite upd_length. fold n.
    pose proof (loads_upd n s ws w _ (mkWorker todo' job') N) as U. specialize (H (upd ws w (mkWorker todo' job'))). rewrite upd_length in H. specialize (H eq_refl). lia. }
  assert (LM : forall s' ws', (forall t, again s' t <= again s t) -> loads n s' ws' <= loads n s ws') by (intros; now apply loads_mono).
  destruct todo as [|[t|t] todo].
  - destruct job as [|t fresh|t|t].
    + destruct (sc_queue s) as [|t q] eqn:Q; [discriminate|]. intros H. injection H as <-. apply X. intros ws' L.
      assert (A : loads n (mkSched (set_at (sc_flag s) t (TRunning false)) q (sc_awaiter s) (sc_waits s)) ws' <= loads n s ws').
      { apply LM. intros u. unfold again, set_at. cbn [sc_flag]. destruct (u =? t); lia. }
      cbn [sc_queue length]. rewrite ?Q. cbn [length]. 
      assert (B : again s t = 0). { destruct QQ as (_ & QQ & _). destruct (proj1 (QQ t)) as (F & _). rewrite Q. now left. unfold again. now rewrite F. }
      unfold load. cbn [wk_todo wk_job length]. destruct (is_cancelled c t); cbn [job_load]; lia.
    + destruct (rest_poll c s t fresh R) as [-> | ->]; intros H; injection H as <-; apply X; intros ws' L; unfold load; cbn [wk_todo wk_job length job_load].
      * assert (A : loads n (set_flag t TIdle s) ws' <= loads n s ws'). { apply LM. intros u. rewrite again_set. destruct (u =? t); lia. } cbn [set_flag sc_queue]. lia.
      * lia.
    + unfold park_step. destruct (is_cancelled c t) eqn:Ec. { intros H. injection H as <-. apply X. intros ws' L. unfold load. cbn [wk_todo wk_job length job_load]. lia. }
      assert (I : loads n (set_flag t TIdle s) (upd ws w (mkWorker [] JNone)) <= loads n s (upd ws w (mkWorker [] JNone))). { apply LM. intros u. rewrite again_set. destruct (u =? t); lia. }
      assert (I' : forall ws', loads n (set_flag t TIdle s) ws' <= loads n s ws'). { intros ws'. apply LM. intros u. rewrite again_set. destruct (u =? t); lia. }
      destruct (sc_flag s t) as [| |[|]] eqn:F; intros H; injection H as <-; apply X; intros ws' L; unfold load; cbn [wk_todo wk_job length job_load].
      1, 2, 4: specialize (I' ws'); cbn [set_flag sc_queue]; lia.
      assert (A : loads n (push t s) ws' <= loads n s ws'). { apply LM. intros u. rewrite again_push. destruct (u =? t); lia. }
      cbn [push sc_queue]. rewrite app_length. cbn [length]. assert (again s t = 3) as -> by (unfold again; now rewrite F). lia.
    + rewrite (rest_drop c s t R). intros H. injection H as <-. apply X. intros ws' L. unfold load. cbn [wk_todo wk_job length job_load].
      assert (A : loads n (set_flag t TIdle s) ws' <= loads n s ws'). { apply LM. intros u. rewrite again_set. destruct (u =? t); lia. } cbn [set_flag sc_queue]. lia.
  - intros H. injection H as <-. apply X. intros ws' L. unfold load. cbn [wk_todo wk_job length]. unfold wake. destruct (nth_error (g_tasks c) t) as [y|]; [|lia]. destruct (ExecModel.ended y); [lia|].
    destruct (sc_flag s t) as [| |b] eqn:F; [|lia|].
    + assert (A : loads n (push t s) ws' <= loads n s ws'). { apply LM. intros u. rewrite again_push. destruct (u =? t); lia. } cbn [push sc_queue]. rewrite app_length. cbn [length]. lia.
    + pose proof (loads_more n s (set_flag t (TRunning true) s) ws') as A. rewrite L in A. cbn [set_flag sc_queue]. lia.
  - destruct (is_scheduled c t). { intros H. injection H as <-. apply X. intros ws' L. unfold load. cbn [wk_todo wk_job length]. lia. }
    rewrite (rest_drop c s t R). intros H. injection H as <-. apply X. intros ws' L. unfold load. cbn [wk_todo wk_job length]. lia.
Qed.
Theorem exec_less y y' : Rest (ex_conf y) -> QI (is_scheduled (ex_conf y)) (ex_sched y) -> exec_step y y' -> Rest (ex_conf y') /\ to_do y' < to_do y.
Proof.
  intros R Q S. destruct S as [y w y' W|c s ws t x N P F].
  - destruct (work_less y w y' R Q W) as (-> & L). auto.
  - cbn [ex_conf] in *. split. { now apply rest_sched. } unfold to_do. cbn [ex_workers ex_sched ex_conf]. pose proof (unstarted_sched c t x N F) as U.
    assert (A : loads (length ws) (push t s) ws <= loads (length ws) s ws). { apply loads_mono. intros u. rewrite again_push. destruct (u =? t); lia. }
    cbn [push sc_queue]. rewrite app_length. cbn [length]. lia.
Qed.
(* a worker with something to do can do it *)
Lemma work_some y w k : Rest (ex_conf y) -> nth_error (ex_workers y) w = Some k -> k <> mkWorker [] JNone -> exists y', work_step y w = Some y'.
Proof.
  intros R N D. destruct y as [c s ws]. cbn [ex_conf ex_workers] in *. unfold ExecModel.work_step. rewrite N. destruct k as [[|[t|t] todo] [|t0 fresh|t0|t0]]; try congruence; eauto.
  - destruct (rest_poll c s t0 fresh R) as [-> | ->]; eauto.
  - destruct (park_step c s t0). eauto.
  - rewrite (rest_drop c s t0 R). eauto.
  - destruct (is_scheduled c t); eauto. rewrite (rest_drop c s t R). eauto.
  - destruct (is_scheduled c t); eauto. rewrite (rest_drop c s t R). eauto.
  - destruct (is_scheduled c t); eauto. rewrite (rest_drop c s t R). eauto.
  - destruct (is_scheduled c t); eauto. rewrite (rest_drop c s t R). eauto.
Qed.
End Rest.
