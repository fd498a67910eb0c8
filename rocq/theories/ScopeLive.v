(* The scope returns: all workers end, in every execution in which every thread goes on. *)
From Coq Require Import List Arith Bool Lia Permutation.
Import ListNotations.
From Verif Require Import Spec Vec Net Graded Bits Util OutputSetModel OutputSetProofs PruneProofs PackProofs HuffmanModel HuffmanProofs CanonModel TreeModel StatesModel StatesProofs StatesBounds.
From Verif Require Import MachineModel MachineProofs CanonMachModel StatesMachModel StatesMachProofs PoolModel PoolProofs.
From Verif Require Import SearchModel SearchFair SearchFacts SearchInv SearchEdges SearchStep SearchFrames SearchGlobal SearchRun SearchSafe SearchWaits SearchGood SearchReady SearchPend SearchOwned SearchEnds SearchRest SearchMachModel SearchMachReq SearchMachProofs SearchMachRun.
From Verif Require Import ExecModel ExecFacts ExecInv ExecStep ExecRun ExecOther ExecLive ExecRest ProgModel ProgProofs ProgLive.
From Verif Require Import PropSearch PropFair PropSearchMach PropProg ScopeModel ScopeProofs ScopeRest.

(* ---- three numbers in lexicographic order ---- *)
Definition lt3 (a b : nat * nat * nat) : Prop :=
  let '(a1, a2, a3) := a in let '(b1, b2, b3) := b in a1 < b1 \/ a1 = b1 /\ (a2 < b2 \/ a2 = b2 /\ a3 < b3).
Lemma lt3_wf : well_founded lt3.
Proof.
  intros ((a, b), c). revert b c. induction a as [a IHa] using lt_wf_ind. induction b as [b IHb] using lt_wf_ind. induction c as [c IHc] using lt_wf_ind.
  constructor. intros ((a', b'), c') [H|(-> & [H|(-> & H)])]; auto.
Qed.
Lemma lt3_trans a b c : lt3 a b -> lt3 b c -> lt3 a c.
Proof. destruct a as ((a1, a2), a3), b as ((b1, b2), b3), c as ((c1, c2), c3). unfold lt3. lia. Qed.

Section Scope.
Variables chash mhash : list nat -> nat.
Notation prog_step := (ProgModel.prog_step chash mhash).
Notation prog_run := (ProgModel.prog_run chash mhash).
Notation worker_step := (ScopeModel.worker_step chash mhash).
Notation scope_step := (ScopeModel.scope_step chash mhash).
Notation scope_run := (ScopeModel.scope_run chash mhash).

Section Run.
Variables workers threads : nat.
Variable initial : OutputSet.
Variable limit : option nat.
Hypothesis K : start_ok initial.

Lemma main_result_spec c k : main_result c = Some k <-> mach_result c k.
Proof.
  unfold main_result, mach_result. split.
  - destruct (nth_error (m_tasks c) 0) as [y|]; [|discriminate]. destruct (tk_stack y) as [|[s l pc| |] [|]] eqn:E; try discriminate; destruct pc; try discriminate. intros H. injection H as ->. eauto 6.
  - intros (y & s & l & N & E). now rewrite N, E.
Qed.
Lemma result_next tr x w x' evs k : prog_run workers threads initial limit tr x -> prog_step x w = PDone x' evs -> main_result (pr_mach x) = Some k -> main_result (pr_mach x') = Some k.
Proof.
  intros R E H. apply main_result_spec in H. apply main_result_spec. destruct (C54_same_search _ _ _ _ _ _ _ _ K R) as (M & _).
  destruct (run_all chash mhash workers threads initial limit tr x (start_okset _ K) R) as (P & _ & _ & Ex).
  destruct (run_sim chash mhash threads initial limit tr (pr_mach x) (start_okset _ K) M) as (c & Sr & Rl & _). apply rel_conf in Rl. subst c.
  destruct (nth_error (pr_workers x) w) as [kk|] eqn:N. 2: { destruct x as [c s ws]. cbn [ProgModel.prog_step pr_workers] in *. rewrite N in E. discriminate. }
  destruct (run_inv' chash mhash workers threads initial limit tr x (start_okset _ K) R) as (I & PP). pose proof (prog_sim chash mhash x w kk I PP N) as S. rewrite E in S. destruct S as (_ & Sn & _).
  apply (result_stays chash mhash threads initial limit (fun i => match i with 0 => conf_of (pr_mach x) | _ => conf_of (pr_mach x') end) K Sr) with (i := 0) (j := 1); auto.
  intros [|i]; auto. destruct (seen_exec chash mhash x w kk x' Sn) as [Z|Z].
  - left. change (ex_conf (exec_of x') = ex_conf (exec_of x)). now rewrite Z.
  - destruct (exec_conf chash mhash _ _ Z) as [Z'|Z']; [left|right]; exact Z'.
Qed.

(* what holds in every state of the scope *)
Record SI (x : Scope) : Prop := {
  si_run : exists tr, prog_run workers threads initial limit tr (sp_prog x);
  si_length : length (sp_gone x) = workers;
  si_gone : forall w, nth_error (sp_gone x) w = Some true -> nth_error (pr_workers (sp_prog x)) w = Some (mkPWorker None [] PlRecv) /\ Dead (sp_prog x) /\ pool_dropped (sp_main x) = true;
  si_main : match sp_main x with
            | MIn => True
            | MJoin k => main_result (pr_mach (sp_prog x)) = Some k
            | MBack k => main_result (pr_mach (sp_prog x)) = Some k /\ forall w, w < workers -> nth_error (sp_gone x) w = Some true
            end }.

Lemma gone_false (l : list bool) w : nth w l true = false -> nth_error l w = Some false.
Proof. intros H. destruct (nth_error l w) as [b|] eqn:N. apply (nth_error_nth _ _ true) in N. congruence. apply nth_error_None in N. rewrite nth_overflow in H by auto. discriminate. Qed.
(* the steps of a worker *)
Lemma worker_cases x w : match worker_step x w with
  | SWait => nth w (sp_gone x) true = true \/ prog_step (sp_prog x) w = PWait
  | SPanic => prog_step (sp_prog x) w = PPanic
  | SDone x' evs => sp_main x' = sp_main x /\ nth_error (sp_gone x) w = Some false /\
      (prog_step (sp_prog x) w = PDone (sp_prog x') evs /\ sp_gone x' = sp_gone x /\
         (nth_error (pr_workers (sp_prog x)) w = Some (mkPWorker None [] PlRecv) -> pool_dropped (sp_main x) = true -> Dead (sp_prog x) -> False) \/
       sp_prog x' = sp_prog x /\ sp_gone x' = upd (sp_gone x) w true /\ nth_error (pr_workers (sp_prog x)) w = Some (mkPWorker None [] PlRecv) /\ Dead (sp_prog x) /\ pool_dropped (sp_main x) = true)
  end.
Proof.
  destruct x as [p gone m]. unfold ScopeModel.worker_step. cbn [sp_gone sp_prog sp_main]. destruct (nth w gone true) eqn:G; auto. apply gone_false in G.
  assert (Y : forall b : Prop, (nth_error (pr_workers p) w = Some (mkPWorker None [] PlRecv) -> pool_dropped m = true -> Dead p -> False) ->
    match (match prog_step p w with PWait => SWait | PPanic => SPanic | PDone p' evs => SDone (mkScope p' gone m) evs end) with
    | SWait => true = false \/ prog_step p w = PWait
    | SPanic => prog_step p w = PPanic
    | SDone x' evs => sp_main x' = m /\ nth_error gone w = Some false /\
       (prog_step p w = PDone (sp_prog x') evs /\ sp_gone x' = gone /\ (nth_error (pr_workers p) w = Some (mkPWorker None [] PlRecv) -> pool_dropped m = true -> Dead p -> False) \/
        sp_prog x' = p /\ sp_gone x' = upd gone w true /\ nth_error (pr_workers p) w = Some (mkPWorker None [] PlRecv) /\ Dead p /\ pool_dropped m = true)
    end).
  { intros _ H. destruct (prog_step p w) as [| |p' evs]; auto. cbn [sp_main sp_prog sp_gone]. split; [reflexivity|]. split; [exact G|]. left. split; [reflexivity|]. split; [reflexivity|exact H]. }
  assert (Y' : (nth_error (pr_workers p) w = Some (mkPWorker None [] PlRecv) -> pool_dropped m = true -> Dead p -> False) ->
    match (match prog_step p w with PWait => SWait | PPanic => SPanic | PDone p' evs => SDone (mkScope p' gone m) evs end) with
    | SWait => false = true \/ prog_step p w = PWait
    | SPanic => prog_step p w = PPanic
    | SDone x' evs => sp_main x' = m /\ nth_error gone w = Some false /\
       (prog_step p w = PDone (sp_prog x') evs /\ sp_gone x' = gone /\ (nth_error (pr_workers p) w = Some (mkPWorker None [] PlRecv) -> pool_dropped m = true -> Dead p -> False) \/
        sp_prog x' = p /\ sp_gone x' = upd gone w true /\ nth_error (pr_workers p) w = Some (mkPWorker None [] PlRecv) /\ Dead p /\ pool_dropped m = true)
    end).
  { intros H. specialize (Y True H). destruct (prog_step p w); auto. }
  clear Y. destruct (nth_error (pr_workers p) w) as [[[e|] [|a td] pl]|] eqn:N; try (apply Y'; discriminate). destruct pl; try (apply Y'; discriminate).
  destruct (pool_dropped m && negb (some_task p)) eqn:E.
  - apply andb_prop in E. destruct E as (E1 & E2). apply negb_true_iff, dead_spec in E2. cbn [sp_main sp_prog sp_gone]. split; [reflexivity|]. split; [exact G|]. right. auto.
  - apply Y'. intros _ H1 H2. apply dead_spec in H2. rewrite H1, H2 in E. discriminate.
Qed.

Lemma SI_step x x' : SI x -> scope_step x x' -> SI x'.
Proof.
  intros [(tr & R) L G M] S. destruct (run_all chash mhash workers threads initial limit tr _ (start_okset _ K) R) as (_ & _ & Lw & _). destruct S as [w evs S|S].
  - pose proof (worker_cases x w) as C. rewrite S in C. destruct C as (Em & Gw & [(E & Eg & _)|(Ep & Eg & N & D & P)]).
    + constructor; rewrite ?Eg, ?Em; auto.
      * exists (tr ++ evs). eapply prog_run_step; eauto.
      * intros v Gv. destruct (G v Gv) as (A & B & C). destruct (dead_step chash mhash _ w _ evs B E) as (B' & _ & _ & k & k' & _ & Ew & _). split; auto. rewrite Ew. rewrite nth_error_upd_neq; auto. intros ->. congruence.
      * destruct (sp_main x) as [|k|k]; auto; [|destruct M as (M & M'); split; auto]; eapply result_next; eauto.
    + constructor; rewrite ?Eg, ?Em, ?Ep; eauto.
      * now rewrite upd_length.
      * intros v Gv. destruct (Nat.eq_dec v w) as [->|D']; auto. rewrite nth_error_upd_neq in Gv by auto. now apply G.
      * destruct (sp_main x) as [|k|k]; auto. destruct M as (M & M'). split; auto. intros v Hv. destruct (Nat.eq_dec v w) as [->|D']. { apply nth_error_upd_eq. rewrite L. auto. } rewrite nth_error_upd_neq by auto. auto.
  - destruct x as [p gone m]. cbn [sp_prog sp_gone sp_main ScopeModel.main_step] in *. destruct m as [|k|k]; [| |discriminate].
    + destruct (main_result (pr_mach p)) as [k|] eqn:Er; [|discriminate]. injection S as <-. constructor; cbn [sp_prog sp_gone sp_main]; eauto. intros w Gw. destruct (G w Gw) as (A & B & C). auto.
    + destruct (forallb (fun b => b) gone) eqn:F; [|discriminate]. injection S as <-. constructor; cbn [sp_prog sp_gone sp_main]; eauto.
      split; auto. intros w Hw. destruct (nth_error gone w) as [b|] eqn:N. 2: { apply nth_error_None in N. lia. } rewrite forallb_forall in F. f_equal. apply F. eapply nth_error_In; eauto.
Qed.
Theorem run_SI x : scope_run workers threads initial limit x -> SI x.
Proof.
  intros R. induction R as [x E|x x' R IH S]; [|eapply SI_step; eauto]. unfold scope_start in E. destruct (prog_start chash workers threads initial limit) as [(p, evs)|] eqn:Ep; [|discriminate]. injection E as <-.
  constructor; cbn [sp_prog sp_gone sp_main]; auto.
  - exists evs. now apply prog_run_start.
  - apply repeat_length.
  - intros w N. apply nth_error_In, repeat_spec in N. discriminate.
Qed.

(* ---- the last steps: no task is left and the pool was dropped ---- *)
Definition place_rank (pl : Place) : nat := match pl with PlTop => 4 | PlLock => 3 | PlHold => 2 | _ => 1 end.
Definition rank (k : PWorker) : nat := place_rank (pw_place k) + match pw_send k with Some _ => 1 | None => 0 end.
Fixpoint ranks (ws : list PWorker) (gone : list bool) : nat :=
  match ws, gone with
  | k :: ws, b :: gone => (if b then 0 else rank k) + ranks ws gone
  | _, _ => 0
  end.
Definition still (x : Scope) : nat * nat * nat :=
  (ranks (pr_workers (sp_prog x)) (sp_gone x), rounds (m_pool (pr_mach (sp_prog x))), left_over (m_pool (pr_mach (sp_prog x)))).
Lemma ranks_upd ws : forall gone w k k', nth_error ws w = Some k -> nth_error gone w = Some false -> ranks (upd ws w k') gone + rank k = ranks ws gone + rank k'.
Proof.
  induction ws as [|y ws IH]; intros gone [|w] k k' H G; try discriminate; destruct gone as [|b gone]; try discriminate; cbn [nth_error upd ranks] in *.
  - injection H as ->. injection G as ->. lia.
  - pose proof (IH gone w k k' H G). lia.
Qed.
Lemma ranks_gone ws : forall gone w k, nth_error ws w = Some k -> nth_error gone w = Some false -> ranks ws (upd gone w true) + rank k = ranks ws gone.
Proof.
  induction ws as [|y ws IH]; intros gone [|w] k H G; try discriminate; destruct gone as [|b gone]; try discriminate; cbn [nth_error upd ranks] in *.
  - injection H as ->. injection G as ->. lia.
  - pose proof (IH gone w k H G). lia.
Qed.

Lemma still_step x w x' evs : SI x -> Dead (sp_prog x) -> pool_dropped (sp_main x) = true -> worker_step x w = SDone x' evs -> lt3 (still x') (still x).
Proof.
  intros I D P E. pose proof (worker_cases x w) as C. rewrite E in C. destruct C as (Em & Gw & [(E' & Eg & C)|(Ep & Eg & N & _)]).
  - destruct (dead_step chash mhash _ w _ evs D E') as (_ & _ & _ & k & k' & N & Ew & Q). unfold still. rewrite Eg, Ew.
    pose proof (ranks_upd _ _ w k k' N Gw) as RU. destruct k as [sd td pl]. cbn [pw_send pw_place] in Q.
    destruct Q as [(H1 & -> & L)|[(H1 & H2 & -> & H3)|[(H1 & H2 & -> & H3)|[(H1 & H2 & ->)|(H1 & H2 & H3 & ->)]]]].
    + destruct sd; [|congruence]. unfold rank in RU. cbn [pw_send pw_place] in RU. left. lia.
    + subst. unfold rank in RU. cbn [pw_send pw_place place_rank] in RU. left. lia.
    + subst. exfalso. apply C; auto. rewrite N. pose proof (dd_workers _ D w _ N) as H. unfold in_hand in H. cbn [pw_todo pw_place] in H. destruct td; [reflexivity|discriminate].
    + subst. unfold rank in RU. cbn [pw_send pw_place place_rank] in RU. left. lia.
    + subst. destruct I as [(tr & R) _ _ _]. destruct (run_inv' chash mhash workers threads initial limit tr _ (start_okset _ K) R) as (_ & PP).
      assert (HW : worker (m_pool (pr_mach (sp_prog x))) <> WFree). { intros Z. pose proof (pi_lock _ _ PP) as L. unfold lock_ok in L. rewrite Z in L. exact (L w _ N eq_refl). }
      pose proof (lock_less _ HW) as LL. cbv zeta in LL. rewrite <- H3 in LL. unfold rank in RU. cbn [pw_send pw_place place_rank] in RU.
      destruct (worker (m_pool (pr_mach (sp_prog x')))) eqn:EW; cbn [place_rank] in RU; try (left; lia); right; (split; [lia|]); destruct LL as [LL|LL]; try discriminate; exact LL.
  - unfold still. rewrite Ep, Eg. pose proof (ranks_gone _ _ w _ N Gw) as RG. unfold rank in RG. cbn [pw_send pw_place place_rank] in RG. left. lia.
Qed.
(* some worker that has not ended can step *)
Lemma still_moves x : SI x -> Dead (sp_prog x) -> pool_dropped (sp_main x) = true -> ~ (forall w, w < workers -> nth_error (sp_gone x) w = Some true) ->
  exists w, w < workers /\ worker_step x w <> SWait.
Proof.
  intros [(tr & R) L G M] D P H. destruct (run_all chash mhash workers threads initial limit tr _ (start_okset _ K) R) as (_ & _ & Lw & _).
  destruct (run_inv' chash mhash workers threads initial limit tr _ (start_okset _ K) R) as (I & PP).
  assert (A : exists w, w < workers /\ nth_error (sp_gone x) w = Some false).
  { rewrite <- L in *. clear - H. induction (sp_gone x) as [|b l IH]. { exfalso. apply H. intros w Hw. simpl in Hw. lia. }
    destruct b. 2: { exists 0. split; [simpl; lia|reflexivity]. } destruct IH as (w & Hw & E). 2: { exists (S w). split; [simpl; lia|exact E]. }
    intros Z. apply H. intros [|w] Hw; [reflexivity|]. apply Z. simpl in Hw. lia. }
  assert (B : forall w k, nth_error (pr_workers (sp_prog x)) w = Some k -> nth_error (sp_gone x) w = Some false -> (k = mkPWorker None [] PlLock -> worker (m_pool (pr_mach (sp_prog x))) = WFree) -> worker_step x w <> SWait).
  { intros w k N Gw W E. pose proof (worker_cases x w) as C. rewrite E in C. destruct C as [C|C]. { apply (nth_error_nth _ _ true) in Gw. congruence. }
    pose proof (prog_sim chash mhash _ w k I PP N) as S. rewrite C in S. destruct S as (S1 & S2). auto. }
  destruct A as (w & Hw & Gw). pose proof (pi_lock _ _ PP) as LK. unfold lock_ok in LK.
  destruct (worker (m_pool (pr_mach (sp_prog x)))) eqn:EW.
  1: { destruct (nth_error (pr_workers (sp_prog x)) w) as [k|] eqn:N. 2: { apply nth_error_None in N. lia. } exists w. split; auto. eapply B; eauto. }
  all: destruct LK as (h & Hh & LK); destruct (nth_error (pr_workers (sp_prog x)) h) as [k|] eqn:N; [|apply nth_error_None in N; lia];
    pose proof (proj2 (LK h k N) eq_refl) as Hk; exists h; (split; [lia|]); apply (B h k N).
  all: try (intros ->; discriminate).
  all: destruct (nth_error (sp_gone x) h) as [[|]|] eqn:Gh; [|reflexivity|apply nth_error_None in Gh; lia]; destruct (G h Gh) as (Z & _); rewrite N in Z; injection Z as ->; discriminate.
Qed.

(* ---- executions ---- *)
Section Live.
Variable X : nat -> Scope.
Hypothesis HW : 0 < workers.
Hypothesis H0 : scope_run workers threads initial limit (X 0).
Hypothesis HT : scope_trace chash mhash X.
Hypothesis HG : scope_goes chash mhash X.

Lemma X_run i : scope_run workers threads initial limit (X i).
Proof. induction i as [|i IH]; auto. destruct (HT i) as [E|S]; [now rewrite E|]. eapply scope_run_step; eauto. Qed.
Lemma X_SI i : SI (X i).
Proof. apply run_SI, X_run. Qed.
Lemma workers_at i : length (pr_workers (sp_prog (X i))) = workers.
Proof. destruct (X_SI i) as [(tr & R) _ _ _]. apply (run_all chash mhash workers threads initial limit tr _ (start_okset _ K) R). Qed.

Lemma main_keeps x x' : main_step x = Some x' -> sp_prog x' = sp_prog x /\ sp_gone x' = sp_gone x.
Proof.
  destruct x as [p gone m]. cbn [ScopeModel.main_step sp_prog sp_gone]. destruct m; [| |discriminate].
  - destruct (main_result (pr_mach p)); [|discriminate]. intros S. injection S as <-. auto.
  - destruct (forallb _ gone); [|discriminate]. intros S. injection S as <-. auto.
Qed.
(* what stays *)
Lemma gone_next i w : nth_error (sp_gone (X i)) w = Some true -> nth_error (sp_gone (X (S i))) w = Some true.
Proof.
  intros G. destruct (HT i) as [E|[v evs S|S]]; [now rewrite E| |].
  - pose proof (worker_cases (X i) v) as C. rewrite S in C. destruct C as (_ & Gv & [(_ & Eg & _)|(_ & Eg & _)]); rewrite Eg; auto. rewrite nth_error_upd_neq; auto. intros ->. congruence.
  - apply main_keeps in S. destruct S as (_ & ->). auto.
Qed.
Lemma dead_next i : Dead (sp_prog (X i)) -> Dead (sp_prog (X (S i))).
Proof.
  intros D. destruct (HT i) as [E|[v evs S|S]]; [now rewrite E| |].
  - pose proof (worker_cases (X i) v) as C. rewrite S in C. destruct C as (_ & Gv & [(E & _)|(E & _)]). apply (dead_step chash mhash _ v _ evs D E). now rewrite E.
  - apply main_keeps in S. destruct S as (-> & _). auto.
Qed.
Lemma main_next i : main_result (pr_mach (sp_prog (X i))) <> None -> main_result (pr_mach (sp_prog (X (S i)))) <> None.
Proof.
  intros D. destruct (HT i) as [E|[v evs S|S]]; [now rewrite E| |].
  - pose proof (worker_cases (X i) v) as C. rewrite S in C. destruct C as (_ & Gv & [(E & _)|(E & _)]); [|now rewrite E].
    destruct (X_SI i) as [(tr & R) _ _ _]. destruct (main_result (pr_mach (sp_prog (X i)))) as [k|] eqn:Er; [|congruence]. rewrite (result_next tr _ v _ evs k R E Er). discriminate.
  - apply main_keeps in S. destruct S as (-> & _). auto.
Qed.
Lemma dropped_next i : pool_dropped (sp_main (X i)) = true -> pool_dropped (sp_main (X (S i))) = true.
Proof.
  intros D. destruct (HT i) as [E|[v evs S|S]]; [now rewrite E| |].
  - pose proof (worker_cases (X i) v) as C. rewrite S in C. destruct C as (-> & _). auto.
  - destruct (X i) as [p gone m]. cbn [ScopeModel.main_step sp_main] in *. destruct m; [discriminate| |discriminate]. destruct (forallb _ gone); [|discriminate]. now injection S as <-.
Qed.
Lemma back_next i k : sp_main (X i) = MBack k -> sp_main (X (S i)) = MBack k.
Proof.
  intros D. destruct (HT i) as [E|[v evs S|S]]; [now rewrite E| |].
  - pose proof (worker_cases (X i) v) as C. rewrite S in C. destruct C as (-> & _). auto.
  - destruct (X i) as [p gone m]. cbn [ScopeModel.main_step sp_main] in *. subst. discriminate.
Qed.
Lemma later (P : Scope -> Prop) : (forall i, P (X i) -> P (X (S i))) -> forall i j, i <= j -> P (X i) -> P (X j).
Proof. intros H i j L. induction L; auto. Qed.

(* ---- the tasks are all dropped: as long as no worker has ended this is an execution of the program without the scope;
   from then on let the workers take turns ---- *)
Definition someone (i : nat) : bool := existsb (fun b => b) (sp_gone (X i)).
Lemma someone_spec i : someone i = true <-> exists w, nth_error (sp_gone (X i)) w = Some true.
Proof.
  unfold someone. rewrite existsb_exists. split.
  - intros (b & I & ->). apply In_nth_error in I. exact I.
  - intros (w & N). exists true. split; auto. eapply nth_error_In; eauto.
Qed.
Lemma someone_next i : someone i = true -> someone (S i) = true.
Proof. rewrite !someone_spec. intros (w & N). exists w. now apply gone_next. Qed.
Fixpoint X' (i : nat) : Prog :=
  match i with
  | 0 => sp_prog (X 0)
  | S i => if someone (S i) then turn_step chash mhash workers (X' i) i else sp_prog (X (S i))
  end.
Lemma X'_same i : someone i = false -> X' i = sp_prog (X i).
Proof. destruct i; auto. intros H. cbn [X']. now rewrite H. Qed.
Lemma someone_before i : someone (S i) = false -> someone i = false.
Proof. intros H. destruct (someone i) eqn:E; auto. apply someone_next in E. congruence. Qed.
Lemma X'_trace : prog_trace chash mhash X'.
Proof.
  intros i. destruct (someone (S i)) eqn:E.
  - cbn [X']. rewrite E. unfold turn_step. destruct (prog_step (X' i) (i mod workers)) as [| |y evs] eqn:Ep; auto. right. exists (i mod workers), evs. exact Ep.
  - rewrite (X'_same (S i) E), (X'_same i (someone_before i E)). destruct (HT i) as [Es|[v evs S|S]]; [left; now rewrite Es| |].
    + pose proof (worker_cases (X i) v) as C. rewrite S in C. destruct C as (_ & Gv & [(E' & _)|(E' & _)]); [right; now exists v, evs|now left].
    + left. apply main_keeps in S. destruct S as (-> & _). auto.
Qed.
Lemma X'_run i : exists tr, prog_run workers threads initial limit tr (X' i).
Proof.
  induction i as [|i (tr & R)]. { apply (si_run _ (X_SI 0)). } destruct (X'_trace i) as [E|(w & evs & E)]; [rewrite E; eauto|]. exists (tr ++ evs). eapply prog_run_step; eauto.
Qed.
Lemma X'_goes : threads_go chash mhash X'.
Proof.
  intros w i Hw. assert (Lw : w < workers). { destruct (X'_run i) as (tr & R). destruct (run_all chash mhash workers threads initial limit tr _ (start_okset _ K) R) as (_ & _ & L & _). lia. }
  destruct HG as (HG1 & _). destruct (HG1 w i) as (j & Hj & T). { rewrite workers_at. auto. }
  destruct (someone (S j)) eqn:E.
  - exists (S j * workers + w). split. nia. assert (E' : someone (S (S j * workers + w)) = true).
    { assert (Y : forall n, someone (n + S j) = true). { induction n; auto. now apply someone_next. } replace (S (S j * workers + w)) with ((S (S j * workers + w) - S j) + S j) by nia. apply Y. }
    change (X' (S (S j * workers + w))) with (if someone (S (S j * workers + w)) then turn_step chash mhash workers (X' (S j * workers + w)) (S j * workers + w) else sp_prog (X (S (S j * workers + w)))). rewrite E'.
    unfold turn_step. replace ((S j * workers + w) mod workers) with w. 2: { rewrite Nat.add_comm, Nat.mod_add by lia. symmetry. now apply Nat.mod_small. }
    destruct (X'_run (S j * workers + w)) as (tr & R). pose proof (proj2 (C54_no_check_fails chash mhash workers threads initial limit K) tr _ w R) as NP.
    destruct (prog_step (X' (S j * workers + w)) w) as [| |y evs] eqn:Ep; [now right|congruence|left; now exists evs].
  - exists j. split; auto. rewrite (X'_same (S j) E), (X'_same j (someone_before j E)). pose proof (worker_cases (X j) w) as C. destruct T as [(evs & T)|T]; rewrite T in C.
    + destruct C as (_ & Gv & [(E' & _)|(_ & E' & _)]); [left; now exists evs|]. exfalso. assert (someone (S j) = true); [|congruence]. apply someone_spec. exists w. rewrite E'. apply nth_error_upd_eq. apply nth_error_lt in Gv. auto.
    + destruct C as [C|C]; [|now right]. exfalso. assert (someone j = true); [|pose proof (someone_before j E); congruence]. apply someone_spec. exists w. pose proof (si_length _ (X_SI j)) as Lg.
      destruct (nth_error (sp_gone (X j)) w) as [b|] eqn:N. 2: { apply nth_error_None in N. lia. } apply (nth_error_nth _ _ true) in N. congruence.
Qed.
Lemma gets_dead : exists i, Dead (sp_prog (X i)) /\ pool_dropped (sp_main (X i)) = true.
Proof.
  destruct (all_tasks_dropped chash mhash workers threads initial limit X' (start_okset _ K) HW (X'_run 0) X'_trace X'_goes) as (i & D & Rs).
  destruct (someone i) eqn:E.
  - apply someone_spec in E. destruct E as (w & N). exists i. destruct (si_gone _ (X_SI i) w N) as (_ & A & B). auto.
  - rewrite (X'_same i E) in *. assert (Er : main_result (pr_mach (sp_prog (X i))) <> None).
    { destruct Rs as ((y & s & l & k & N & Es & _) & _). unfold main_result. change (g_tasks (conf_of (pr_mach (sp_prog (X i))))) with (m_tasks (pr_mach (sp_prog (X i)))) in N. rewrite N, Es. discriminate. }
    destruct HG as (_ & HG2). destruct (HG2 i) as (j & Hj & T). pose proof (later (fun x => Dead (sp_prog x)) dead_next i j Hj D) as Dj. pose proof (later (fun x => main_result (pr_mach (sp_prog x)) <> None) main_next i j Hj Er) as Rj.
    destruct (sp_main (X j)) as [|k|k] eqn:Em. 2,3: exists j; rewrite Em; auto.
    destruct T as [T|T]. 2: { destruct (X j) as [p gone m]. cbn [ScopeModel.main_step sp_main sp_prog] in *. subst m. destruct (main_result (pr_mach p)); congruence. }
    exists (S j). split. now apply dead_next. destruct (X j) as [p gone m]. cbn [ScopeModel.main_step sp_main sp_prog] in *. subst m. destruct (main_result (pr_mach p)); [|congruence]. injection T as <-. reflexivity.
Qed.

(* ---- the workers end ---- *)
Definition all_gone (x : Scope) : Prop := forall w, w < workers -> nth_error (sp_gone x) w = Some true.
Lemma still_later i j : i <= j -> Dead (sp_prog (X i)) -> pool_dropped (sp_main (X i)) = true ->
  lt3 (still (X j)) (still (X i)) \/ sp_prog (X j) = sp_prog (X i) /\ sp_gone (X j) = sp_gone (X i).
Proof.
  intros L D P. induction L as [|j L IH]; auto. pose proof (later (fun x => Dead (sp_prog x)) dead_next i j L D) as Dj. pose proof (later (fun x => pool_dropped (sp_main x) = true) dropped_next i j L P) as Pj.
  assert (A : lt3 (still (X (S j))) (still (X j)) \/ sp_prog (X (S j)) = sp_prog (X j) /\ sp_gone (X (S j)) = sp_gone (X j)).
  { destruct (HT j) as [E|[v evs S|S]]; [right; now rewrite E|left; eapply still_step; eauto; apply X_SI|]. right. now apply main_keeps. }
  destruct A as [A|(A1 & A2)].
  - left. destruct IH as [IH|(I1 & I2)]. eapply lt3_trans; eauto. unfold still in *. now rewrite I1, I2 in A.
  - rewrite A1, A2. destruct IH as [IH|IH]; auto. left. unfold still in *. now rewrite A1, A2.
Qed.
Lemma gets_gone i : Dead (sp_prog (X i)) -> pool_dropped (sp_main (X i)) = true -> exists j, i <= j /\ all_gone (X j).
Proof.
  remember (still (X i)) as m eqn:Em. revert i Em. induction m as [m IH] using (well_founded_induction lt3_wf). intros i -> D P.
  destruct (forallb (fun b => b) (sp_gone (X i))) eqn:F.
  - exists i. split; auto. intros w Hw. pose proof (si_length _ (X_SI i)) as Lg. destruct (nth_error (sp_gone (X i)) w) as [b|] eqn:N. 2: { apply nth_error_None in N. lia. }
    rewrite forallb_forall in F. f_equal. apply F. eapply nth_error_In; eauto.
  - destruct (still_moves (X i) (X_SI i) D P) as (w & Hw & M).
    { intros A. assert (forallb (fun b => b) (sp_gone (X i)) = true); [|congruence]. apply forallb_forall. intros b I. apply In_nth_error in I. destruct I as (w & N). pose proof (nth_error_lt _ _ _ N) as Lw. rewrite (si_length _ (X_SI i)) in Lw. rewrite (A w Lw) in N. now injection N as <-. }
    destruct HG as (HG1 & _). destruct (HG1 w i) as (j & Hj & T). { rewrite workers_at. auto. }
    pose proof (later (fun x => Dead (sp_prog x)) dead_next i j Hj D) as Dj. pose proof (later (fun x => pool_dropped (sp_main x) = true) dropped_next i j Hj P) as Pj.
    assert (B : exists n, i <= n /\ lt3 (still (X n)) (still (X i))).
    { destruct (still_later i j Hj D P) as [L|(E1 & E2)]; [eauto|]. destruct T as [(evs & T)|T].
      - exists (S j). split; [lia|]. pose proof (still_step (X j) w _ evs (X_SI j) Dj Pj T) as L. unfold still in L at 2. rewrite E1, E2 in L. exact L.
      - exfalso. apply M. revert T. unfold ScopeModel.worker_step. destruct (X i) as [p gone m], (X j) as [p' gone' m']. cbn [sp_prog sp_gone sp_main] in *. subst p' gone'.
        destruct m; [discriminate P| |]; (destruct m'; [discriminate Pj| |]); cbn [pool_dropped]; repeat match goal with |- context [match ?z with _ => _ end] => destruct z end; auto; discriminate. }
    destruct B as (n & Hn & L). destruct (IH _ L n eq_refl) as (q & Hq & A). { exact (later (fun x => Dead (sp_prog x)) dead_next i n Hn D). } { exact (later (fun x => pool_dropped (sp_main x) = true) dropped_next i n Hn P). }
    exists q. split; [lia|auto].
Qed.
Theorem scope_returns : exists i k, forall j, i <= j -> sp_main (X j) = MBack k.
Proof.
  destruct gets_dead as (i & D & P). destruct (gets_gone i D P) as (j & Hj & A).
  pose proof (later (fun x => pool_dropped (sp_main x) = true) dropped_next i j Hj P) as Pj. destruct HG as (_ & HG2). destruct (HG2 j) as (n & Hn & T).
  assert (An : all_gone (X n)). { intros w Hw. exact (later (fun x => nth_error (sp_gone x) w = Some true) (fun i => gone_next i w) j n Hn (A w Hw)). }
  pose proof (later (fun x => pool_dropped (sp_main x) = true) dropped_next j n Hn Pj) as Pn.
  assert (F : forallb (fun b => b) (sp_gone (X n)) = true).
  { apply forallb_forall. intros b I. apply In_nth_error in I. destruct I as (w & N). pose proof (nth_error_lt _ _ _ N) as Lw. rewrite (si_length _ (X_SI n)) in Lw. rewrite (An w Lw) in N. now injection N as <-. }
  assert (B : exists k q, sp_main (X q) = MBack k).
  { cbv beta in Pn. destruct (sp_main (X n)) as [|k|k] eqn:Em; [discriminate Pn| |eauto]. destruct T as [T|T].
    - exists k, (S n). destruct (X n) as [p gone m]. cbn [ScopeModel.main_step sp_main sp_gone] in *. subst m. rewrite F in T. now injection T as <-.
    - destruct (X n) as [p gone m]. cbn [ScopeModel.main_step sp_main sp_gone] in *. subst m. rewrite F in T. discriminate. }
  destruct B as (k & q & B). exists q, k. intros j' Hj'. exact (later (fun x => sp_main x = MBack k) (fun i => back_next i k) q j' Hj' B).
Qed.
End Live.
End Run.
End Scope.
