(* What the accesses of a task do to the executor of ExecModel: the run queue, the wakers, the drops. *)
From Coq Require Import List Arith Bool Lia Permutation.
Import ListNotations.
From Verif Require Import Spec Vec Net Graded Bits Util CountProofs OutputSetModel OutputSetProofs PruneProofs PackProofs HuffmanModel HuffmanProofs CanonModel TreeModel StatesModel StatesProofs StatesBounds SearchModel SearchFair SearchFacts SearchInv SearchEdges SearchStep SearchFrames SearchGlobal SearchRun SearchSafe SearchOrder SearchWaits SearchMain SearchClosed SearchSlack SearchGood SearchQuiet SearchReach SearchNext SearchHuff SearchLive SearchReady SearchCost SearchSpend SearchWork SearchPend PipeProofs ExecModel.

(* ---- the run queue holds the scheduled tasks that are marked so ---- *)
Definition QI (sg : nat -> bool) (s : Sched) : Prop :=
  NoDup (sc_queue s) /\ (forall t, In t (sc_queue s) <-> sc_flag s t = TQueued /\ sg t = true) /\ (forall t, sg t = false -> sc_flag s t = TQueued).

Lemma set_at_eq {A} (f : nat -> A) t a : set_at f t a t = a.
Proof. unfold set_at. now rewrite Nat.eqb_refl. Qed.
Lemma set_at_neq {A} (f : nat -> A) t a u : u <> t -> set_at f t a u = f u.
Proof. intros D. unfold set_at. now destruct (Nat.eqb_spec u t). Qed.

Lemma QI_ext sg sg' s : (forall t, sg' t = sg t) -> QI sg s -> QI sg' s.
Proof. intros E (A & B & C). split; [|split]; auto. intros t. now rewrite E. intros t. rewrite E. auto. Qed.
Lemma QI_push sg sg' s u : QI sg s -> sg' u = true -> (forall v, v <> u -> sg' v = sg v) -> (sc_flag s u <> TQueued \/ sg u = false) -> QI sg' (push u s).
Proof.
  intros (A & B & C) Su So D. assert (N : ~ In u (sc_queue s)) by (rewrite B; intros (H1 & H2); destruct D; congruence).
  split; [|split]; cbn [push sc_queue sc_flag].
  - apply NoDup_app_intro; auto. constructor; [intros []|constructor]. intros v Hv [<-|[]]. tauto.
  - intros t. rewrite in_app_iff, B. destruct (Nat.eq_dec t u) as [->|Dt]. rewrite set_at_eq. cbn. tauto.
    rewrite set_at_neq, So by auto. cbn. intuition congruence.
  - intros t Ht. destruct (Nat.eq_dec t u) as [->|Dt]. now rewrite set_at_eq. rewrite set_at_neq by auto. apply C. rewrite <- So; auto.
Qed.
Lemma QI_flag sg s u a : QI sg s -> sg u = true -> sc_flag s u <> TQueued -> a <> TQueued -> QI sg (set_flag u a s).
Proof.
  intros (A & B & C) Su D Da. split; [|split]; cbn [set_flag sc_queue sc_flag]; auto.
  - intros t. rewrite B. destruct (Nat.eq_dec t u) as [->|Dt]. rewrite set_at_eq. tauto. now rewrite set_at_neq.
  - intros t Ht. destruct (Nat.eq_dec t u) as [->|Dt]. congruence. rewrite set_at_neq; auto.
Qed.
Lemma QI_pop sg s t q a : QI sg s -> sc_queue s = t :: q -> a <> TQueued -> QI sg (mkSched (set_at (sc_flag s) t a) q (sc_awaiter s) (sc_waits s)).
Proof.
  intros (A & B & C) E Da. rewrite E in *. inversion A as [|? ? N1 N2]; subst. split; [|split]; cbn [sc_queue sc_flag]; auto.
  - intros v. destruct (Nat.eq_dec v t) as [->|D]. rewrite set_at_eq. tauto. rewrite set_at_neq by auto. rewrite <- B. cbn. intuition congruence.
  - intros v Hv. destruct (Nat.eq_dec v t) as [->|D]; [|rewrite set_at_neq; auto]. destruct (proj1 (B t)) as (_ & H). now left. congruence.
Qed.

(* ---- flags ---- *)
Definition flag_grows (s s' : Sched) : Prop := forall v, sc_flag s' v = sc_flag s v \/ sc_flag s v = TIdle /\ sc_flag s' v = TQueued.
Lemma grows_refl s : flag_grows s s.
Proof. intros v. auto. Qed.
Lemma grows_trans a b c : flag_grows a b -> flag_grows b c -> flag_grows a c.
Proof. intros H1 H2 v. destruct (H1 v) as [E1|(E1 & F1)], (H2 v) as [E2|(E2 & F2)]; try congruence; [left|right|right]; split || idtac; congruence. Qed.
Lemma grows_idle s s' v : flag_grows s s' -> sc_flag s v <> TIdle -> sc_flag s' v <> TIdle.
Proof. intros G H. destruct (G v) as [->|(E & E')]; congruence. Qed.

(* ---- the wakers that are taken are called, those of handles that stay are kept; u is polled by t ---- *)
Definition wakers_kept (s s' : Sched) (acts : list Act) : Prop :=
  forall v, sc_awaiter s' v = sc_awaiter s v \/ forall p, sc_awaiter s v = Some p -> In (AWake p) acts.
Definition waits_kept (s s' : Sched) (acts : list Act) : Prop :=
  forall id v, In (id, v) (sc_waits s) -> In (id, v) (sc_waits s') \/ In (AWake v) acts.

Lemma notify_flag u s : sc_flag (fst (notify u s)) = sc_flag s /\ sc_queue (fst (notify u s)) = sc_queue s /\ sc_waits (fst (notify u s)) = sc_waits s.
Proof. unfold notify. destruct (sc_awaiter s u); cbn; auto. Qed.
Lemma notify_kept u s : wakers_kept s (fst (notify u s)) (snd (notify u s)).
Proof.
  intros v. unfold notify. destruct (sc_awaiter s u) as [p|] eqn:E; cbn; auto. destruct (Nat.eq_dec v u) as [->|D].
  - right. intros q Hq. rewrite E in Hq. injection Hq as ->. now left.
  - left. now apply set_at_neq.
Qed.
Lemma notify_takes u s p : sc_awaiter s u = Some p -> In (AWake p) (snd (notify u s)).
Proof. intros E. unfold notify. rewrite E. now left. Qed.
Lemma notify_no_drop u s v : ~ In (ADrop v) (snd (notify u s)).
Proof. unfold notify. destruct (sc_awaiter s u); cbn; [intros [H|[]]; discriminate|tauto]. Qed.
Lemma QI_notify sg u s : QI sg s -> QI sg (fst (notify u s)).
Proof. destruct (notify_flag u s) as (E1 & E2 & _). unfold QI. now rewrite E1, E2. Qed.

Lemma push_flag u s v : sc_flag (push u s) v = if v =? u then TQueued else sc_flag s v.
Proof. reflexivity. Qed.

(* one cancelled handle *)
Lemma cancel_facts c p u : let p' := cancel c p u in
  flag_grows (fst p) (fst p') /\ sc_waits (fst p') = sc_waits (fst p) /\ incl (snd p) (snd p') /\
  wakers_kept (fst p) (fst p') (snd p') /\
  (forall y, nth_error (g_tasks c) u = Some y -> ended y = false -> if tk_sched y then sc_flag (fst p') u <> TIdle else In (ADrop u) (snd p')) /\
  (QI (is_scheduled c) (fst p) -> QI (is_scheduled c) (fst p')).
Proof.
  cbv zeta. destruct p as (s, acts). unfold cancel. destruct (nth_error (g_tasks c) u) as [y|] eqn:N; cbn [fst snd].
  2: { split; [apply grows_refl|]. split; [auto|]. split; [intros z Hz; exact Hz|]. split; [intros v; auto|]. split; [discriminate|auto]. }
  destruct (ended y) eqn:En; cbn [fst snd].
  { split; [apply grows_refl|]. split; [auto|]. split; [intros z Hz; exact Hz|]. split; [intros v; auto|]. split; auto. intros y0 H. injection H as <-. congruence. }
  set (s1 := if tk_sched y then match sc_flag s u with TIdle => push u s | _ => s end else s).
  assert (S1 : flag_grows s s1 /\ sc_waits s1 = sc_waits s /\ sc_awaiter s1 = sc_awaiter s /\ (tk_sched y = true -> sc_flag s1 u <> TIdle) /\ (QI (is_scheduled c) s -> QI (is_scheduled c) s1)).
  { unfold s1. destruct (tk_sched y) eqn:Sy. 2: { split; [apply grows_refl|]. split; [auto|]. split; [auto|]. split; [discriminate|auto]. }
    destruct (sc_flag s u) eqn:F; try (split; [apply grows_refl|]; split; [auto|]; split; [auto|]; split; [congruence|auto]; fail).
    split. { intros v. rewrite push_flag. destruct (Nat.eqb_spec v u) as [->|D]; auto. }
    split; [auto|]. split; [auto|]. split. { intros _. rewrite push_flag, Nat.eqb_refl. discriminate. }
    intros Q. apply (QI_push (is_scheduled c)); auto. unfold is_scheduled. now rewrite N. left. congruence. }
  destruct S1 as (G1 & W1 & A1 & F1 & Q1). destruct (notify_flag u s1) as (E1 & E2 & E3). pose proof (notify_kept u s1) as K1. pose proof (QI_notify (is_scheduled c) u s1) as Q2.
  destruct (notify u s1) as (s2, a2). cbn [fst snd] in *. split. { intros v. rewrite E1. apply G1. } split. congruence.
  split. { intros z Hz. apply in_or_app. auto. }
  split. { intros v. destruct (K1 v) as [E|H]; rewrite A1 in *; auto. right. intros q Hq. apply in_or_app. right. apply in_or_app. auto. }
  split; auto. intros y0 H _. injection H as <-. destruct (tk_sched y). rewrite E1. auto. apply in_or_app. right. apply in_or_app. right. now left.
Qed.
Lemma kept_trans s1 s2 s3 a1 a2 : incl a1 a2 -> wakers_kept s1 s2 a1 -> wakers_kept s2 s3 a2 -> wakers_kept s1 s3 a2.
Proof. intros I H1 H2 v. destruct (H1 v) as [E|E]; [|right; intros p Hp; apply I; auto]. destruct (H2 v) as [E2|E2]; rewrite E in *; auto. Qed.
Lemma cancels_facts c ts : forall p, let p' := fold_left (cancel c) ts p in
  flag_grows (fst p) (fst p') /\ sc_waits (fst p') = sc_waits (fst p) /\ incl (snd p) (snd p') /\
  wakers_kept (fst p) (fst p') (snd p') /\
  (forall u y, In u ts -> nth_error (g_tasks c) u = Some y -> ended y = false -> if tk_sched y then sc_flag (fst p') u <> TIdle else In (ADrop u) (snd p')) /\
  (QI (is_scheduled c) (fst p) -> QI (is_scheduled c) (fst p')).
Proof.
  induction ts as [|t ts IH]; intros p; cbv zeta; cbn [fold_left].
  - split; [apply grows_refl|]. split; [auto|]. split; [intros z Hz; exact Hz|]. split; [intros v; auto|]. split; [intros u y []|auto].
  - destruct (cancel_facts c p t) as (A1 & A2 & A3 & A4 & A5 & A6). destruct (IH (cancel c p t)) as (B1 & B2 & B3 & B4 & B5 & B6).
    split; [eapply grows_trans; eauto|]. split; [congruence|]. split; [eapply incl_tran; eauto|]. split; [eapply kept_trans; eauto|].
    split; auto. intros u y [<-|Hu] N E; [|eapply B5; eauto]. specialize (A5 y N E). destruct (tk_sched y); auto. eapply grows_idle; eauto.
Qed.

Lemma send_facts id s : let p' := send id s in
  sc_flag (fst p') = sc_flag s /\ sc_queue (fst p') = sc_queue s /\ sc_awaiter (fst p') = sc_awaiter s /\
  waits_kept s (fst p') (snd p') /\ (forall v, In (id, v) (sc_waits s) -> In (AWake v) (snd p')).
Proof.
  cbv zeta. cbn [send fst snd sc_flag sc_queue sc_awaiter]. split; auto. split; auto. split; auto.
  assert (X : forall v, In (id, v) (sc_waits s) -> In (AWake v) (map (fun w => AWake (snd w)) (filter (fun w => fst w =? id) (sc_waits s)))).
  { intros v H. apply in_map_iff. exists (id, v). split; auto. apply filter_In. split; auto. cbn. apply Nat.eqb_refl. }
  split; auto. intros i v H. destruct (Nat.eq_dec i id) as [->|D]; auto. left. cbn [sc_waits]. apply filter_In. split; auto. cbn. now destruct (Nat.eqb_spec i id).
Qed.

(* ---- a whole access, or the drop of a frame ---- *)
Record Effect (c : Config) (s : Sched) (c' : Config) (s' : Sched) (acts : list Act) (polled : nat -> Prop) (t : nat) : Prop := {
  ef_flag : flag_grows s s';
  ef_queue : QI (is_scheduled c) s -> QI (is_scheduled c') s';
  ef_wakers : forall v, sc_awaiter s' v = sc_awaiter s v \/ (forall p, sc_awaiter s v = Some p -> In (AWake p) acts) \/ polled v /\ sc_awaiter s' v = Some t;
  ef_waits : waits_kept s s' acts;
  ef_sent : forall id, In id (g_sent c') -> In id (g_sent c) \/ forall v, In (id, v) (sc_waits s) -> In (AWake v) acts;
  ef_cancel : forall u y y', nth_error (g_tasks c) u = Some y -> nth_error (g_tasks c') u = Some y' -> ended y = false -> tk_cancel y' = true ->
    if tk_sched y then sc_flag s' u <> TIdle else In (ADrop u) acts }.

Section Facts.
Variables chash mhash : list nat -> nat.
Notation access := (access mhash).
Notation drop_frame := (drop_frame mhash).

Definition polls (r : Req) (u : nat) : Prop := match r with RPoll v _ => v = u | _ => False end.

Lemma same_effect c s c' polled t : (forall u, is_scheduled c' u = is_scheduled c u) -> g_sent c' = g_sent c ->
  (forall u y y', nth_error (g_tasks c) u = Some y -> nth_error (g_tasks c') u = Some y' -> tk_cancel y' = tk_cancel y) -> Effect c s c' s [] polled t.
Proof.
  intros Es Et Ec. constructor; auto using grows_refl.
  - apply QI_ext. auto.
  - intros id v H; auto.
  - rewrite Et. auto.
  - intros u y y' N N' En C. rewrite (Ec u y y' N N') in C. unfold ended in En. rewrite C in En. discriminate.
Qed.
Lemma access_effect c t r s c1 k : access c r = ADone c1 k -> QI (is_scheduled c) s ->
  Effect c s c1 (fst (react c t r s)) (snd (react c t r s)) (polls r) t.
Proof.
  intros Ea Q0. assert (SE : forall c', g_tasks c' = g_tasks c -> g_sent c' = g_sent c -> Effect c s c' s [] (polls r) t).
  { intros c' Et Es. apply same_effect; auto. intros u. unfold is_scheduled. now rewrite Et. intros u y y' N N'. rewrite Et in N'. congruence. }
  destruct r; cbn [SearchModel.access react] in *; try discriminate; cbn [fst snd].
  - destruct (sm_get mhash (g_map c) s0); [|discriminate]. injection Ea as <- _. now apply SE.
  - destruct (sm_set mhash (g_map c) s0 st); [|discriminate]. injection Ea as <- _. now apply SE.
  - destruct (sm_get_lock mhash (g_map c) s0 (g_next c)) as [[id|m]|]; try discriminate; injection Ea as <- _; now apply SE.
  - destruct (sm_unlock mhash (g_map c) s0); [|discriminate]. injection Ea as <- _.
    destruct (send_facts id s) as (F1 & F2 & F3 & F4 & F5). constructor.
    + intros v. rewrite F1. auto.
    + unfold QI. rewrite F1, F2. auto.
    + intros v. rewrite F3. auto.
    + auto.
    + cbn [g_sent]. intros i [<-|Hi]; auto.
    + cbn [g_tasks]. intros u y y' N N' En C. rewrite N in N'. injection N' as <-. unfold ended in En. rewrite C in En. discriminate.
  - destruct (existsb (Nat.eqb id) (g_sent c)); [|discriminate]. injection Ea as <- _. now apply SE.
  - destruct (nth_error (g_tasks c) t0) as [y|] eqn:N; [|discriminate]. destruct (tk_result y) as [v|] eqn:Ry. { injection Ea as <- _. now apply SE. }
    destruct (tk_cancel y); [discriminate|]. injection Ea as <- _. constructor; cbn [set_awaiter sc_awaiter]; auto.
    + intros v. left. reflexivity.
    + intros v. destruct (Nat.eq_dec v t0) as [->|D]. right. right. split. reflexivity. apply set_at_eq. left. now apply set_at_neq.
    + intros id v H. left. exact H.
    + intros u z z' Nz Nz' En C. rewrite Nz in Nz'. injection Nz' as <-. unfold ended in En. rewrite C in En. discriminate.
  - injection Ea as <- _. apply same_effect; auto.
    + intros u. unfold is_scheduled. cbn [g_tasks]. destruct (Nat.lt_ge_cases u (length (g_tasks c))) as [L|L]. now rewrite nth_error_app1.
      rewrite nth_error_app2 by auto. replace (nth_error (g_tasks c) u) with (@None Task) by (symmetry; now apply nth_error_None).
      destruct (u - length (g_tasks c)) as [|n]; cbn; auto. destruct n; auto.
    + cbn [g_tasks]. intros u y y' N N'. rewrite nth_error_app1 in N' by (eapply nth_error_lt; eauto). congruence.
  - injection Ea as <- _. destruct (nth_error (g_tasks c) t0) as [y|] eqn:N.
    2: { apply same_effect; auto. intros u. unfold is_scheduled. rewrite with_task_nth. destruct (Nat.eqb_spec u t0) as [->|]; auto. now rewrite N.
         intros u z z' Nz Nz'. rewrite with_task_nth in Nz'. destruct (Nat.eqb_spec u t0) as [->|]; congruence. }
    assert (CC : forall u z z', nth_error (g_tasks c) u = Some z -> nth_error (g_tasks (with_task c t0 set_sched)) u = Some z' -> tk_cancel z' = tk_cancel z).
    { intros u z z' Nz Nz'. rewrite with_task_nth, Nz in Nz'. destruct (u =? t0); cbn in Nz'; injection Nz' as <-; auto. }
    destruct (tk_sched y) eqn:Sy.
    + apply same_effect; auto. intros u. unfold is_scheduled. rewrite with_task_nth. destruct (Nat.eqb_spec u t0) as [->|]; auto. rewrite N. cbn. auto.
    + assert (F0 : sc_flag s t0 = TQueued). { apply Q0. unfold is_scheduled. now rewrite N. } constructor; cbn [push sc_awaiter]; auto.
      * intros v. rewrite push_flag. destruct (Nat.eqb_spec v t0) as [->|D]; auto.
      * intros Q. apply (QI_push (is_scheduled c)); auto.
        -- unfold is_scheduled. rewrite with_task_nth, Nat.eqb_refl, N. reflexivity.
        -- intros v D. unfold is_scheduled. rewrite with_task_nth. now destruct (Nat.eqb_spec v t0).
        -- right. unfold is_scheduled. now rewrite N.
      * intros id v H. left. exact H.
      * intros u z z' Nz Nz' En C. rewrite (CC u z z' Nz Nz') in C. unfold ended in En. rewrite C in En. discriminate.
  - injection Ea as <- _. destruct (cancels_facts c ts (s, [])) as (A1 & A2 & A3 & A4 & A5 & A6). cbn [fst snd] in *. constructor; auto.
    + intros Q. apply (QI_ext (is_scheduled c)); auto. intros u. unfold is_scheduled. destruct (nth_error (g_tasks c) u) as [y|] eqn:N.
      destruct (cancel_all_evolve chash mhash ts c u y N) as (y1 & -> & _ & E). auto.
      replace (nth_error (g_tasks (cancel_all ts c)) u) with (@None Task); auto. symmetry. apply nth_error_None. rewrite cancel_all_length. now apply nth_error_None.
    + intros v. destruct (A4 v); auto.
    + intros id v H. left. now rewrite A2.
    + destruct (cancel_all_shared ts c) as (_ & _ & ->). auto.
    + intros u y y' N N' En C. apply (A5 u y); auto. destruct (in_dec Nat.eq_dec u ts) as [H|H]; auto. rewrite cancel_all_nth in N' by auto.
      rewrite N in N'. injection N' as <-. unfold ended in En. rewrite C in En. discriminate.
  - injection Ea as <- _. now apply SE.
Qed.

Lemma dropped_effect c t x f rest c' s : nth_error (g_tasks c) t = Some x -> tk_stack x = f :: rest -> drop_frame c t = Stepped c' ->
  Effect c s c' (fst (dropped c f s)) (snd (dropped c f s)) (fun _ => False) t.
Proof.
  intros N E H. unfold SearchModel.drop_frame in H. rewrite N, E in H. destruct (tk_cancel x) eqn:Cx; [|discriminate]. cbn [negb] in H. cbv zeta in H.
  set (ts := all_running (frame_edges f)) in *. unfold dropped. fold ts.
  assert (Tk : g_tasks c' = g_tasks (with_task (cancel_all ts c) t (set_stack rest))).
  { destruct (held f) as [(s0, id)|]; [|now injection H as <-]. destruct (sm_unlock mhash _ s0); [|discriminate]. now injection H as <-. }
  assert (Sn : g_sent c' = match held f with Some (_, id) => id :: g_sent c | None => g_sent c end).
  { destruct (cancel_all_shared ts c) as (_ & _ & Es). destruct (held f) as [(s0, id)|]; [|injection H as <-; exact Es]. destruct (sm_unlock mhash _ s0); [|discriminate].
    injection H as <-. cbn [g_sent with_task]. now rewrite Es. }
  assert (Sg : forall u, is_scheduled c' u = is_scheduled c u).
  { intros u. unfold is_scheduled. rewrite Tk, with_task_nth. destruct (nth_error (g_tasks c) u) as [y|] eqn:Ny.
    - destruct (cancel_all_evolve chash mhash ts c u y Ny) as (y1 & -> & _ & E1). destruct (u =? t); cbn; auto.
    - replace (nth_error (g_tasks (cancel_all ts c)) u) with (@None Task). now destruct (u =? t). symmetry. apply nth_error_None. rewrite cancel_all_length. now apply nth_error_None. }
  assert (Cn : forall u y y', nth_error (g_tasks c) u = Some y -> nth_error (g_tasks c') u = Some y' -> ended y = false -> tk_cancel y' = true -> In u ts).
  { intros u y y' Ny Ny' En C. destruct (in_dec Nat.eq_dec u ts) as [Hu|Hu]; auto. rewrite Tk, with_task_nth, cancel_all_nth, Ny in Ny' by auto.
    destruct (u =? t); cbn in Ny'; injection Ny' as <-; cbn in C; unfold ended in En; rewrite C in En; discriminate. }
  destruct (cancels_facts c ts (s, [])) as (A1 & A2 & A3 & A4 & A5 & A6). destruct (fold_left (cancel c) ts (s, [])) as (s1, a1). cbn [fst snd] in *.
  destruct (held f) as [(s0, id)|].
  - destruct (send_facts id s1) as (F1 & F2 & F3 & F4 & F5). destruct (send id s1) as (s2, a2). cbn [fst snd] in *. constructor.
    + intros v. rewrite F1. apply A1.
    + intros Q. apply (QI_ext (is_scheduled c)); auto. specialize (A6 Q). unfold QI in *. now rewrite F1, F2.
    + intros v. rewrite F3. destruct (A4 v) as [A|A]; auto. right. left. intros p Hp. apply in_or_app. auto.
    + intros i v Hi. rewrite <- A2 in Hi. destruct (F4 i v Hi); auto. right. apply in_or_app. auto.
    + rewrite Sn. intros i [<-|Hi]; auto. right. intros v Hv. apply in_or_app. right. apply F5. now rewrite A2.
    + intros u y y' Ny Ny' En C. specialize (A5 u y (Cn u y y' Ny Ny' En C) Ny En). destruct (tk_sched y). now rewrite F1. apply in_or_app. auto.
  - constructor; cbn [fst snd].
    + auto.
    + intros Q. apply (QI_ext (is_scheduled c)); auto.
    + intros v. destruct (A4 v); auto.
    + intros i v Hi. left. now rewrite A2.
    + rewrite Sn. auto.
    + intros u y y' Ny Ny' En C. exact (A5 u y (Cn u y y' Ny Ny' En C) Ny En).
Qed.
End Facts.
