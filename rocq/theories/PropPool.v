(* C35: the pending queue of the thread pool. *)
From Coq Require Import List Arith Bool Lia Sorted.
Import ListNotations.
From Verif Require Import Spec Vec PoolModel PoolProofs SearchEdges.

(* the calls of schedule that returned true, in order *)
Definition true_calls (tr : list Event) : list nat :=
  flat_map (fun ev => match ev with EvStarted t => [t] | EvTaken e => [snd e] | _ => [] end) tr.

Lemma true_calls_In tr t : In t (true_calls tr) <-> was_started tr t.
Proof.
  unfold true_calls, was_started, starts. rewrite in_flat_map. split.
  - intros (ev & I & H). exists ev. split; auto. destruct ev as [| |u|u| |(k, u)]; cbn in H; try easy; destruct H as [->|[]]; eauto.
  - intros (ev & I & [->|(k & ->)]); eexists; split; eauto; cbn; auto.
Qed.
Lemma true_calls_snoc tr ev : true_calls (tr ++ [ev]) = true_calls tr ++ match ev with EvStarted t => [t] | EvTaken e => [snd e] | _ => [] end.
Proof. unfold true_calls. rewrite flat_map_app. cbn. now rewrite app_nil_r. Qed.

Lemma NoDup_snoc {A} (l : list A) x : NoDup l -> ~ In x l -> NoDup (l ++ [x]).
Proof. intros N I. rewrite <- (rev_involutive (l ++ [x])), rev_app_distr. apply NoDup_rev. cbn. constructor. now rewrite <- in_rev. now apply NoDup_rev. Qed.

(* schedule returns true once for each task on which it is called, and these tasks are what is sent to
   the run queue *)
Theorem C35_started_once : forall tr p, prun tr p ->
  NoDup (true_calls tr) /\ runq p = true_calls tr /\
  (forall t a b, tr = a ++ EvRefused t :: b -> In t (true_calls a)).
Proof.
  induction 1 as [|tr p ev p' R (N & Q & F) S]. { split; [constructor|]. split; auto. intros t a b E. now destruct a. }
  rewrite true_calls_snoc. split; [|split].
  - destruct ev as [| |u|u| |(k, u)]; rewrite ?app_nil_r; auto; apply NoDup_snoc; auto; rewrite true_calls_In.
    all: intros W; assert (A : is_waiting p u = true) by (eapply starts_waiting; [exact S|unfold starts; eauto]).
    all: apply (started_iff _ _ _ R (waiting_lt _ _ A)) in W; congruence.
  - rewrite <- Q. destruct S; cbn; now rewrite ?app_nil_r.
  - intros t a b E. destruct b as [|x b] using rev_ind.
    + apply app_inj_tail in E. destruct E as (-> & ->). apply true_calls_In.
      assert (A : is_waiting p t = false /\ t < length (cells p)).
      { inversion S as [| | | |? ? Al W| | | | | | | | | | | | | |? e Hw W|]; subst; (split; [exact W|]). now apply alive_lt.
        apply (po_task _ (pool_ok_run _ _ R)). unfold all, inside. rewrite Hw. cbn. rewrite !in_app_iff. cbn. auto. }
      apply (started_iff _ _ _ R); tauto.
    + clear IHb. rewrite app_comm_cons, app_assoc in E. apply app_inj_tail in E. destruct E as (E & _). eauto.
Qed.
Print Assumptions C35_started_once.

(* all Schedule of a task have been dropped *)
Definition dropped (p : Pool) (t : nat) : Prop := exists c, nth_error (cells p) t = Some c /\ owners c = 0.

Lemma gone_spec tr p t : prun tr p -> t < length (cells p) -> gone p t -> was_started tr t \/ dropped p t.
Proof.
  intros R L [A|A]. right. unfold alive in A. apply nth_error_Some in L. destruct (nth_error (cells p) t) as [c|] eqn:E; [|easy]. exists c. split; auto.
  apply Nat.ltb_ge in A. lia. left. now apply (started_iff _ _ _ R L).
Qed.

(* an entry given to add_pending stays in the channel, in the map or with the worker until its task is
   started or all its Schedule are dropped: neither garbage collection nor the map loses it *)
Theorem C35_not_lost : forall tr p e, prun tr p -> In (EvAdded e) tr ->
  In (snd e) (true_calls tr) \/ dropped p (snd e) \/ In e (chan p) \/ In e (queue p) \/ In e (held (worker p)).
Proof.
  intros tr p e R A. destruct (added_kept _ _ _ R A) as (L & [C|[C|C]]); auto.
  - unfold inside in C. rewrite in_app_iff in C. tauto.
  - rewrite true_calls_In. destruct (gone_spec _ _ _ R L C); auto.
Qed.
Print Assumptions C35_not_lost.

(* smaller or equal priority; of two entries with the same priority the older one comes first *)
Definition before (k l : Key) : Prop :=
  let '(((a, b), c), i) := k in let '(((a', b'), c'), i') := l in
  a < a' \/ (a = a' /\ (b < b' \/ (b = b' /\ (c < c' \/ (c = c' /\ i <= i'))))).

(* a worker that took the lock and then started the task of e has chosen the smallest priority among the
   tasks that were handed to add_pending before it took the lock and are not started or dropped *)
Theorem C35_smallest_first : forall tr1 tr2 e p, prun (tr1 ++ EvLock :: tr2 ++ [EvTaken e]) p -> ~ In EvLock tr2 ->
  ~ In (snd e) (true_calls (tr1 ++ EvLock :: tr2)) /\
  forall e', In (EvAdded e') tr1 ->
    In (snd e') (true_calls (tr1 ++ EvLock :: tr2)) \/ dropped p (snd e') \/ before (fst e) (fst e').
Proof.
  intros tr1 tr2 e p' R N. rewrite app_comm_cons, app_assoc in R. inversion R as [E|tr p ev p2 R1 S E].
  { destruct (tr1 ++ EvLock :: tr2); discriminate. }
  apply app_inj_tail in E. destruct E as (-> & ->). subst p2. inversion S as [| | | | | | | | | | | | | | | | |q e0 Hw Hs| |]; subst. clear S. split.
  { rewrite true_calls_In. intros W. apply (started_iff _ _ _ R1 (waiting_lt _ _ Hs)) in W. congruence. }
  assert (K := pool_ok_run _ _ R1). intros e' A. destruct (drained _ _ R1 _ _ _ eq_refl N A) as [C|[C|C]].
  - rewrite Hw in C. destruct C.
  - right. right. pose proof (po_worker _ K) as So. rewrite Hw in So. inversion So as [|x0 l0 _ F E0]. subst x0 l0. unfold inside in C. rewrite Hw in C. cbn in C. destruct C as [<-|C].
    + destruct e as ((((a, b), c), i), t). cbn. lia.
    + rewrite Forall_forall in F. specialize (F _ C). unfold ent_lt in F. apply key_lt_spec in F. unfold before. destruct (fst e) as (((a, b), c), i), (fst e') as (((a', b'), c'), i'). lia.
  - destruct (added_kept _ _ e' R1) as (L & _). { apply in_app_iff. auto. }
    rewrite true_calls_In. destruct (gone_spec _ _ _ R1 L C) as [D|(c & D & O)]; auto. right. left. unfold dropped, start. cbn.
    destruct (nth_error (cells p) (snd e)) as [ce|] eqn:Ee; [|eauto]. rewrite nth_error_upd. assert (L2 := waiting_lt _ _ Hs). apply Nat.ltb_lt in L2. rewrite L2.
    destruct (Nat.eqb_spec (snd e') (snd e)) as [Eq|]; cbn [andb]; [|eauto]. eexists. split; eauto. cbn. congruence.
Qed.
Print Assumptions C35_smallest_first.

(* a worker that took the lock and gave it back without starting a task has left nothing to do *)
Theorem C35_idle_only_when_empty : forall tr1 tr2 p, prun (tr1 ++ EvLock :: tr2) p -> ~ In EvLock tr2 -> (forall e, ~ In (EvTaken e) tr2) -> worker p = WFree ->
  forall e, In (EvAdded e) tr1 -> In (snd e) (true_calls (tr1 ++ EvLock :: tr2)) \/ dropped p (snd e).
Proof.
  assert (Q : forall tr p, prun tr p -> forall tr1 tr2, tr = tr1 ++ EvLock :: tr2 -> ~ In EvLock tr2 -> (forall e, ~ In (EvTaken e) tr2) -> worker p = WFree -> queue p = []).
  { induction 1 as [|tr p ev p' R IH S]; intros tr1 tr2 E N T W. destruct tr1; discriminate.
    destruct (no_lock_snoc _ _ _ _ E N) as [(-> & -> & ->)|(tr3 & -> & -> & N3 & NL)]. { inversion S; subst. discriminate. }
    assert (T3 : forall e, ~ In (EvTaken e) tr3) by (intros e I; apply (T e); apply in_app_iff; auto).
    specialize (IH _ _ eq_refl N3 T3). assert (Tn : forall e, ev <> EvTaken e) by (intros e ->; apply (T e); apply in_app_iff; cbn; auto).
    destruct S; cbn in W |- *; auto; try discriminate; try (destruct (l <=? S n); discriminate). now elim (Tn e). }
  intros tr1 tr2 p R N T W e A. destruct (added_kept _ _ e R) as (L & _). { apply in_app_iff. auto. }
  destruct (drained _ _ R _ _ _ eq_refl N A) as [C|[C|C]].
  - rewrite W in C. destruct C.
  - unfold inside in C. rewrite W, (Q _ _ R _ _ eq_refl N T W) in C. destruct C.
  - rewrite true_calls_In. destruct (gone_spec _ _ _ R L C); auto.
Qed.
Print Assumptions C35_idle_only_when_empty.

(* Three tasks with priorities (1, 5, 0), (0, 7, 2) and (0, 0, 0); the Schedule of the third is dropped
   while a worker is about to receive the entries.  The worker collects garbage at the first entry (next_gc
   is 0), skips the third task, and starts the second; a later call of schedule for it returns false. *)
Tactic Notation "ahead" hyp(R) uconstr(c) := eapply prun_step in R; [|eapply c; try reflexivity; cbn -[Nat.max Nat.mul]; lia]; cbn -[Nat.max Nat.mul] in R.
Example C35_case : exists p, prun ([EvNone; EvNone; EvNone; EvNone; EvNone; EvNone; EvAdded ((1, 5, 0), 0, 0); EvAdded ((0, 7, 2), 1, 1); EvAdded ((0, 0, 0), 2, 2); EvLock; EvNone] ++
    repeat EvNone 7 ++ [EvTaken ((0, 7, 2), 1, 1); EvRefused 1]) p /\ In ((1, 5, 0), 0, 0) (queue p).
Proof.
  assert (R := prun_new).
  do 3 ahead R (ESpawn _).
  ahead R (EId _ (1, 5, 0) 0). ahead R (EId _ (0, 7, 2) 1). ahead R (EId _ (0, 0, 0) 2).
  ahead R (ESend _ [_; _] _ []). ahead R (ESend _ [_] _ []). ahead R (ESend _ [] _ []).
  ahead R (WLock _). ahead R (EDrop _ 2 _).
  ahead R (WRecvGc _ _ _ _ _).
  ahead R (WGcDone _ _ _ _ _).
  ahead R (WRecv _ _ _ _ _).
  ahead R (WRecv _ _ _ _ _).
  ahead R (WEmpty _ _ _).
  ahead R (WTakeDead _ _ _).
  ahead R (WTakeAlive _ _ _).
  ahead R (WTakeStart _ _).
  ahead R (ERefuse _ 1).
  eexists. split. exact R. cbn. auto.
Qed.
