(* Invariants of the pending queue. *)
From Coq Require Import List Arith Bool Lia Sorted RelationClasses.
Import ListNotations.
From Verif Require Import Spec Vec PoolModel SearchEdges.

(* the order of the keys *)
Lemma then_lt c d : then_cmp c d = Lt <-> c = Lt \/ (c = Eq /\ d = Lt).
Proof. destruct c, d; cbn; intuition congruence. Qed.
Lemma then_eq c d : then_cmp c d = Eq <-> c = Eq /\ d = Eq.
Proof. destruct c, d; cbn; intuition congruence. Qed.
Lemma then_gt c d : then_cmp c d = Gt <-> c = Gt \/ (c = Eq /\ d = Gt).
Proof. destruct c, d; cbn; intuition congruence. Qed.
Lemma key_eq k l : key_cmp k l = Eq <-> k = l.
Proof.
  destruct k as (((a, b), c), i), l as (((a', b'), c'), i'). unfold key_cmp, prio_cmp. cbn [fst snd]. rewrite !then_eq, !Nat.compare_eq_iff. split.
  - intros ((-> & -> & ->) & ->). reflexivity.
  - intros E. injection E as -> -> -> ->. auto.
Qed.
Definition key_lt (k l : Key) : Prop := key_cmp k l = Lt.
Lemma key_lt_spec k l : key_lt k l <-> let '(((a, b), c), i) := k in let '(((a', b'), c'), i') := l in
  a < a' \/ (a = a' /\ (b < b' \/ (b = b' /\ (c < c' \/ (c = c' /\ i < i'))))).
Proof.
  destruct k as (((a, b), c), i), l as (((a', b'), c'), i'). unfold key_lt, key_cmp, prio_cmp. cbn [fst snd].
  rewrite !then_lt, !then_eq, !Nat.compare_eq_iff, !Nat.compare_lt_iff. tauto.
Qed.
Lemma key_gt k l : key_cmp k l = Gt <-> key_lt l k.
Proof.
  rewrite key_lt_spec. destruct k as (((a, b), c), i), l as (((a', b'), c'), i'). unfold key_cmp, prio_cmp. cbn [fst snd].
  rewrite !then_gt, !then_eq, !Nat.compare_eq_iff, !Nat.compare_gt_iff. intuition lia.
Qed.
Lemma key_lt_trans k l m : key_lt k l -> key_lt l m -> key_lt k m.
Proof. rewrite !key_lt_spec. destruct k as (((a, b), c), i), l as (((a', b'), c'), i'), m as (((a2, b2), c2), i2). lia. Qed.

Definition ent_lt (x y : Entry) : Prop := key_lt (fst x) (fst y).
#[global] Instance ent_lt_trans : Transitive ent_lt.
Proof. intros x y z. apply key_lt_trans. Qed.
Notation sorted := (StronglySorted ent_lt).

Lemma map_insert_In e q x : In x (map_insert e q) -> x = e \/ In x q.
Proof. induction q as [|y q IH]; cbn; [intuition|]. destruct key_cmp; cbn; intuition. Qed.
Lemma map_insert_sorted e q : sorted q -> sorted (map_insert e q).
Proof.
  induction 1 as [|y q S IH F]; cbn. repeat constructor. destruct (key_cmp (fst e) (fst y)) eqn:C.
  - apply key_eq in C. constructor; auto. rewrite Forall_forall in *. intros z Hz. specialize (F z Hz). unfold ent_lt in *. congruence.
  - constructor. constructor; auto. constructor. exact C. rewrite Forall_forall in *. intros z Hz. eapply ent_lt_trans. exact C. auto.
  - apply key_gt in C. constructor; auto. rewrite Forall_forall in *. intros z Hz. apply map_insert_In in Hz. destruct Hz as [->|Hz]; auto.
Qed.
Lemma map_insert_new e q x : (forall y, In y q -> fst y <> fst e) -> x = e \/ In x q -> In x (map_insert e q).
Proof.
  induction q as [|y q IH]; cbn; intros N H. intuition. destruct (key_cmp (fst e) (fst y)) eqn:C.
  - apply key_eq in C. exfalso. apply (N y); auto.
  - cbn. intuition.
  - cbn. destruct H as [H|[H|H]]; auto.
Qed.

Definition kid (e : Entry) : nat := snd (fst e).
Definition cnt i l := count_occ Nat.eq_dec (map kid l) i.
Definition cnt1 i e := cnt i [e].
Lemma cnt_app i a b : cnt i (a ++ b) = cnt i a + cnt i b.
Proof. unfold cnt. rewrite map_app. apply count_occ_app. Qed.
Lemma cnt_cons i x a : cnt i (x :: a) = cnt1 i x + cnt i a.
Proof. exact (cnt_app i [x] a). Qed.
Lemma cnt_nil i : cnt i [] = 0.
Proof. reflexivity. Qed.
Lemma map_insert_cnt i e q : cnt i (map_insert e q) <= cnt1 i e + cnt i q.
Proof.
  induction q as [|y q IH]; cbn [map_insert]. rewrite !cnt_cons. lia. destruct key_cmp; rewrite !cnt_cons; lia.
Qed.
Ltac cnts := repeat rewrite ?cnt_app, ?cnt_cons, ?cnt_nil in *.

(* the entries that the worker has in its hands *)
Definition held (w : Worker) : list Entry :=
  match w with
  | WGc k t m _ _ => m :: k ++ t
  | WGcHold k e t m _ _ => m :: k ++ e :: t
  | WTakeHold e => [e]
  | _ => []
  end.
Definition inside (p : Pool) : list Entry := held (worker p) ++ queue p.
Definition all (p : Pool) : list Entry := sending p ++ chan p ++ inside p.

Lemma step_len p ev p' : pstep p ev p' -> length (cells p) <= length (cells p').
Proof.
  destruct 1; cbn; rewrite ?app_length, ?upd_length; auto; try lia; unfold start; cbn; destruct nth_error; rewrite ?upd_length; auto.
Qed.

Definition starts (ev : Event) (t : nat) : Prop := ev = EvStarted t \/ exists k, ev = EvTaken (k, t).

Lemma alive_lt p t : alive p t = true -> t < length (cells p).
Proof. unfold alive. intros H. apply nth_error_Some. destruct nth_error; congruence. Qed.
Lemma waiting_lt p t : is_waiting p t = true -> t < length (cells p).
Proof. unfold is_waiting. intros H. apply nth_error_Some. destruct nth_error; congruence. Qed.

Lemma start_waiting p t w u : is_waiting (start p t w) u = is_waiting p u && negb (u =? t).
Proof.
  unfold is_waiting, start. cbn. destruct (nth_error (cells p) t) as [c|] eqn:E.
  - rewrite nth_error_upd. assert (L : t < length (cells p)) by (apply nth_error_Some; congruence). apply Nat.ltb_lt in L. rewrite L.
    destruct (Nat.eqb_spec u t); cbn. subst. rewrite E. now rewrite andb_false_r. now rewrite andb_true_r.
  - destruct (Nat.eqb_spec u t); cbn. subst. now rewrite E. now rewrite andb_true_r.
Qed.
Lemma start_alive p t w u : alive (start p t w) u = alive p u.
Proof.
  unfold alive, start. cbn. destruct (nth_error (cells p) t) as [c|] eqn:E; auto.
  rewrite nth_error_upd. assert (L : t < length (cells p)) by (apply nth_error_Some; congruence). apply Nat.ltb_lt in L. rewrite L.
  destruct (Nat.eqb_spec u t); cbn; auto. subst. now rewrite E.
Qed.

Lemma step_waiting p ev p' t : pstep p ev p' -> t < length (cells p) ->
  (is_waiting p' t = true <-> is_waiting p t = true /\ ~ starts ev t).
Proof.
  assert (N : forall ev, (forall t, ev <> EvStarted t) -> (forall k, ev <> EvTaken k) -> ~ starts ev t).
  { intros e A B [->|(k & ->)]. now apply (A t). now apply (B (k, t)). }
  assert (U : forall p c o, nth_error (cells p) t = Some c \/ True -> forall u c, nth_error (cells p) u = Some c ->
    is_waiting (set_cells p (upd (cells p) u (mkCell (waiting c) o))) t = is_waiting p t).
  { clear. intros p _ o _ u c E. unfold is_waiting. cbn. rewrite nth_error_upd. assert (L : u < length (cells p)) by (apply nth_error_Some; congruence). apply Nat.ltb_lt in L. rewrite L.
    destruct (Nat.eqb_spec t u); cbn; auto. subst. now rewrite E. }
  intros S L. destruct S; try (change (is_waiting p t = true <-> is_waiting p t = true /\ ~ starts EvNone t); split; [intros A; split; [auto|apply N; discriminate]|tauto]);
    try (split; [intros A; split; [exact A|apply N; discriminate]|intros (A & _); exact A]).
  - unfold is_waiting. cbn. rewrite nth_error_app1 by auto. split; [intros A; split; [auto|apply N; discriminate]|tauto].
  - rewrite (U p c _ (or_intror I) _ _ H). split; [intros A; split; [auto|apply N; discriminate]|tauto].
  - rewrite (U p c _ (or_intror I) _ _ H). split; [intros A; split; [auto|apply N; discriminate]|tauto].
  - rewrite start_waiting, andb_true_iff, negb_true_iff, Nat.eqb_neq. split; intros (A & B); split; auto.
    + intros [C|(k & C)]; congruence.
    + intros ->. apply B. left. reflexivity.
  - rewrite start_waiting, andb_true_iff, negb_true_iff, Nat.eqb_neq. split; intros (A & B); split; auto.
    + intros [C|(k & C)]; [discriminate|]. injection C as ->. auto.
    + intros ->. apply B. right. exists (fst e). now destruct e.
Qed.

Lemma step_alive p ev p' t : pstep p ev p' -> t < length (cells p) -> alive p' t = true -> alive p t = true.
Proof.
  assert (U : forall p o u c, nth_error (cells p) u = Some c -> 0 < owners c ->
    alive (set_cells p (upd (cells p) u (mkCell (waiting c) o))) t = true -> alive p t = true).
  { clear. intros p o u c E O. unfold alive. cbn. rewrite nth_error_upd. assert (L : u < length (cells p)) by (apply nth_error_Some; congruence). apply Nat.ltb_lt in L. rewrite L.
    destruct (Nat.eqb_spec t u); cbn; auto. subst. rewrite E. intros _. destruct (owners c); [lia|reflexivity]. }
  intros S L A. destruct S; try exact A; try (now rewrite start_alive in A); try (eapply U; eauto; fail).
  unfold alive in *. cbn in A. now rewrite nth_error_app1 in A.
Qed.

(* every entry has its own number and belongs to a task *)
Record pool_ok (p : Pool) : Prop := {
  po_nodup : NoDup (map kid (all p));
  po_small : forall e, In e (all p) -> kid e < ids p;
  po_task : forall e, In e (all p) -> snd e < length (cells p);
  po_sorted : sorted (queue p);
  po_worker : match worker p with
              | WGc k t _ _ _ => sorted (k ++ t) /\ queue p = []
              | WGcHold k e t _ _ _ => sorted (k ++ e :: t) /\ queue p = []
              | WTakeHold e => sorted (e :: queue p)
              | _ => True
              end }.

Lemma cnt_In i l : In i (map kid l) <-> 0 < cnt i l.
Proof. unfold cnt. rewrite (count_occ_In Nat.eq_dec). lia. Qed.

Lemma nodup_cnt l : NoDup (map kid l) <-> forall i, cnt i l <= 1.
Proof. apply (NoDup_count_occ Nat.eq_dec). Qed.

(* a step adds no entries but the new one *)
Lemma step_all_cnt p ev p' : pstep p ev p' ->
  (ids p' = ids p /\ forall i, cnt i (all p') <= cnt i (all p)) \/
  (ids p' = S (ids p) /\ exists pr t, alive p t = true /\ cells p' = cells p /\ all p' = (pr, ids p, t) :: all p).
Proof.
  unfold all, inside. destruct 1; cbn [ids cells sending chan queue worker set_cells set_sending set_chan set_worker start do_insert held];
    try (left; split; [reflexivity|]; intros i; rewrite ?H, ?H0; cbn [held]; cnts; lia).
  - right. split; auto. exists prio, t. auto.
  - left. split; auto. intros i. rewrite H, H0. pose proof (map_insert_cnt i e (queue p)). destruct (l <=? S n); cbn [held]; cnts; lia.
  - left. split; auto. intros i. rewrite H. cbn [held]. destruct (is_waiting p (snd e)); cnts; lia.
  - left. split; auto. intros i. pose proof (map_insert_cnt i m k). rewrite H. destruct (l <=? S n); cbn [held]; cnts; lia.
Qed.

Lemma in_all_step p ev p' e : pstep p ev p' -> In e (all p') -> In e (all p) \/
  (exists pr t, alive p t = true /\ cells p' = cells p /\ e = (pr, ids p, t) /\ ids p' = S (ids p)).
Proof.
  unfold all, inside. destruct 1; cbn [ids cells sending chan queue worker set_cells set_sending set_chan set_worker start do_insert held]; intros I; rewrite ?H, ?H0 in *; cbn [held] in *.
  all: repeat (rewrite ?in_app_iff in *; cbn [In app] in * ).
  all: try tauto.
  - destruct I as [[I|I]|I]; try tauto. right. exists prio, t. subst e. auto.
  - left. destruct I as [I|[I|[I|I]]]; try tauto. destruct (l <=? S n); destruct I. apply map_insert_In in I. intuition.
  - left. destruct (is_waiting p (snd e0)); repeat (rewrite ?in_app_iff in *; cbn [In app] in * ); tauto.
  - left. destruct I as [I|[I|[I|I]]]; try tauto. destruct (l <=? S n); destruct I. apply map_insert_In in I. intuition.
Qed.

Lemma sorted_skip a (x : Entry) b : sorted (a ++ x :: b) -> sorted (a ++ b).
Proof.
  induction a as [|y a IH]; cbn; intros S; inversion S; subst; auto. constructor; auto.
  apply Forall_forall. intros z Hz. rewrite Forall_forall in H2. apply H2. rewrite in_app_iff in *. cbn. tauto.
Qed.

Lemma pool_ok_step p ev p' : pool_ok p -> pstep p ev p' -> pool_ok p'.
Proof.
  intros K S. split.
  - destruct (step_all_cnt _ _ _ S) as [(E & C)|(E & pr & t & A & B & ->)].
    + apply nodup_cnt. intros i. specialize (C i). pose proof (proj1 (nodup_cnt _) (po_nodup _ K) i). lia.
    + cbn [map]. constructor; [|apply K]. intros I. apply in_map_iff in I. destruct I as (e & Ee & I). apply (po_small _ K) in I. cbn in Ee. lia.
  - intros e I. assert (ids p <= ids p'). { destruct (step_all_cnt _ _ _ S) as [(E & C)|(E & _)]; lia. }
    destruct (in_all_step _ _ _ _ S I) as [J|(pr & t & A & B & -> & ->)]. apply (po_small _ K) in J. lia. cbn. lia.
  - intros e I. destruct (in_all_step _ _ _ _ S I) as [J|(pr & t & A & B & -> & _)].
    apply (po_task _ K) in J. pose proof (step_len _ _ _ S). lia. cbn. rewrite B. now apply alive_lt.
  - destruct S; cbn; try apply K; try constructor.
    + apply map_insert_sorted, K.
    + apply map_insert_sorted. pose proof (po_worker _ K) as W. rewrite H in W. destruct W as (W & _). now rewrite app_nil_r in W.
    + pose proof (po_sorted _ K) as W. rewrite H0 in W. now inversion W.
    + pose proof (po_sorted _ K) as W. rewrite H0 in W. now inversion W.
  - pose proof (po_worker _ K) as W. destruct S; cbn; auto.
    + destruct (l <=? S n); auto.
    + split; auto. apply K.
    + rewrite H in W. destruct W as (W & Q). split; auto. now apply sorted_skip in W.
    + rewrite H in W. auto.
    + rewrite H in W. destruct W as (W & Q). split; auto. destruct is_waiting. now rewrite <- app_assoc. now apply sorted_skip in W.
    + destruct (l <=? S n); auto.
    + rewrite <- H0. apply K.
Qed.

Lemma pool_ok_run tr p : prun tr p -> pool_ok p.
Proof.
  induction 1. split; cbn; auto; try constructor; intros ? []. eapply pool_ok_step; eauto.
Qed.

(* an entry that is not in the channel any more stays inside until its task is gone *)
Definition gone (p : Pool) (t : nat) : Prop := alive p t = false \/ is_waiting p t = false.

Lemma gone_step p ev p' t : pstep p ev p' -> t < length (cells p) -> gone p t -> gone p' t.
Proof.
  intros S L [A|A]; [left|right]; apply not_true_iff_false; intros B.
  - apply (step_alive _ _ _ _ S L) in B. congruence.
  - apply (step_waiting _ _ _ _ S L) in B. destruct B; congruence.
Qed.

Lemma inside_step p ev p' e : pool_ok p -> pstep p ev p' -> In e (inside p) -> In e (inside p') \/ gone p' (snd e).
Proof.
  intros K S I. assert (Al : In e (all p)) by (unfold all; rewrite !in_app_iff; auto). assert (Lt := po_task _ K _ Al). revert I. unfold inside.
  assert (Nd := proj1 (nodup_cnt _) (po_nodup _ K)). unfold all, inside in Nd.
  assert (Fresh : forall m q, (forall i, cnt1 i m + cnt i q <= 1) -> forall y, In y q -> fst y <> fst m).
  { intros m q C y Hy E. specialize (C (kid y)). assert (0 < cnt (kid y) q) by (apply cnt_In; now apply in_map).
    assert (0 < cnt1 (kid y) m). { apply cnt_In. left. unfold kid. congruence. } lia. }
  destruct S; cbn [chan queue worker set_cells set_sending set_chan set_worker start do_insert held];
    rewrite ?H, ?H0; cbn [held]; repeat (rewrite ?in_app_iff; cbn [In app]); intros I; try tauto.
  - left. right. apply map_insert_new; [|tauto]. apply Fresh. intros i. specialize (Nd i). rewrite H, H0 in Nd. cbn [held] in Nd. cnts. lia.
  - destruct I as [[I|[I|[I|I]]]|I]; try tauto. subst e0. right. left. exact H0.
  - destruct (is_waiting p (snd e0)) eqn:W; repeat (rewrite ?in_app_iff; cbn [In app]); try tauto.
    destruct I as [[I|[I|[I|I]]]|I]; try tauto. subst e0. right. right. exact W.
  - left. right. apply map_insert_new; [|]. apply Fresh. intros i. specialize (Nd i). rewrite H in Nd. cbn [held] in Nd. cnts. lia.
    pose proof (po_worker _ K) as W. rewrite H in W. destruct W as (_ & Q). rewrite Q in I. destruct I as [[I|[I|[]]]|[]]; auto.
  - destruct I as [[]|[I|I]]; auto. subst e0. right. left. exact H1.
  - destruct I as [[I|[]]|I]; auto. subst e0. right. right. rewrite start_waiting, Nat.eqb_refl. apply andb_false_r.
  - destruct I as [[I|[]]|I]; auto. subst e0. right. right. exact H0.
Qed.

Lemma chan_step p ev p' e : pool_ok p -> pstep p ev p' -> In e (chan p) -> In e (chan p') \/ In e (inside p').
Proof.
  intros K S. unfold inside. assert (Nd := proj1 (nodup_cnt _) (po_nodup _ K)). unfold all, inside in Nd.
  destruct S; cbn [chan queue worker set_cells set_sending set_chan set_worker start do_insert held];
    rewrite ?H, ?H0; cbn [held]; repeat (rewrite ?in_app_iff; cbn [In app]); intros I; try tauto.
  destruct I as [I|I]; auto. subst e0. right. right. apply map_insert_new; auto. intros y Hy E. specialize (Nd (kid y)). rewrite H, H0 in Nd. cbn [held] in Nd. cnts.
  assert (0 < cnt (kid y) (queue p)) by (apply cnt_In; now apply in_map). assert (0 < cnt1 (kid y) e). { apply cnt_In. left. unfold kid. congruence. } lia.
Qed.

(* what a trace says *)
Definition added (tr : list Event) (e : Entry) : Prop := In (EvAdded e) tr.
Definition was_started (tr : list Event) (t : nat) : Prop := exists ev, In ev tr /\ starts ev t.

Lemma was_started_snoc tr ev t : was_started (tr ++ [ev]) t <-> was_started tr t \/ starts ev t.
Proof.
  unfold was_started. setoid_rewrite in_app_iff. cbn [In]. split.
  - intros (x & [I|[I|[]]] & H); [left|right]; subst; eauto.
  - intros [(x & I & H)|H]; eauto.
Qed.

Lemma starts_waiting p ev p' t : pstep p ev p' -> starts ev t -> is_waiting p t = true.
Proof. intros S [->|(k & ->)]; inversion S; subst; auto. Qed.

Lemma started_iff tr p t : prun tr p -> t < length (cells p) -> (was_started tr t <-> is_waiting p t = false).
Proof.
  intros R. revert t. assert (Out : forall t, length (cells p) <= t -> ~ was_started tr t).
  { induction R as [|tr p ev p' R IH S]. intros t _ (ev & [] & _). intros t L W. pose proof (step_len _ _ _ S). apply was_started_snoc in W. destruct W as [W|W].
    - apply (IH t); auto. lia.
    - pose proof (waiting_lt _ _ (starts_waiting _ _ _ _ S W)). lia. }
  revert Out. induction R as [|tr p ev p' R IH S]; intros Out t L. cbn in L. lia.
  assert (Out' : forall t, length (cells p) <= t -> ~ was_started tr t).
  { intros u Lu W. assert (u < length (cells p') \/ length (cells p') <= u) as [C|C] by lia.
    2: { apply (Out u C). apply was_started_snoc. auto. }
    clear - R W Lu. revert u Lu W. induction R as [|tr p ev p' R IH S]. intros t _ (ev & [] & _). intros t L W. pose proof (step_len _ _ _ S). apply was_started_snoc in W. destruct W as [W|W].
    - apply (IH t); auto. lia.
    - pose proof (waiting_lt _ _ (starts_waiting _ _ _ _ S W)). lia. }
  rewrite was_started_snoc. destruct (Nat.lt_ge_cases t (length (cells p))) as [Lt|Ge].
  - rewrite (IH Out' t Lt), <- !not_true_iff_false, (step_waiting _ _ _ _ S Lt). split.
    + intros [A|A] (B & C); auto.
    + intros A. destruct (is_waiting p t) eqn:E; [|left; discriminate]. right.
      assert (D : starts ev t \/ ~ starts ev t).
      { destruct ev as [| |u|u| |(k, u)]; try (right; intros [X|(? & X)]; discriminate); destruct (Nat.eq_dec u t) as [->|N]; try (left; left; reflexivity); try (right; intros [X|(? & X)]; congruence). left. right. eauto. }
      destruct D as [D|D]; auto. exfalso. apply A. auto.
  - assert (W : is_waiting p' t = true).
    { destruct S; cbn in L |- *; rewrite ?upd_length in L; try lia; try (unfold start in L; cbn in L; destruct nth_error in L; rewrite ?upd_length in L; lia).
      rewrite app_length in L. cbn in L. unfold is_waiting. cbn. replace t with (length (cells p)) by lia. rewrite nth_error_app2, Nat.sub_diag by lia. reflexivity. }
    rewrite W. split; [|discriminate]. intros [A|A]. now apply Out' in A. pose proof (waiting_lt _ _ (starts_waiting _ _ _ _ S A)). lia.
Qed.

Lemma added_kept tr p e : prun tr p -> added tr e ->
  snd e < length (cells p) /\ (In e (chan p) \/ In e (inside p) \/ gone p (snd e)).
Proof.
  induction 1 as [|tr p ev p' R IH S]. intros []. intros A. unfold added in A. apply in_app_iff in A. assert (K := pool_ok_run _ _ R). assert (K' := pool_ok_step _ _ _ K S).
  destruct A as [A|[A|[]]].
  - destruct (IH A) as (L & C). pose proof (step_len _ _ _ S). split. lia. destruct C as [C|[C|C]].
    + destruct (chan_step _ _ _ _ K S C); auto.
    + destruct (inside_step _ _ _ _ K S C); auto.
    + right. right. eapply gone_step; eauto.
  - subst ev. inversion S; subst. split.
    + apply (po_task _ K'). unfold all. cbn. rewrite !in_app_iff. cbn. auto.
    + left. cbn. apply in_app_iff. cbn. auto.
Qed.

(* how many of the entries that were in the channel when the lock was taken are still there, at most *)
Definition budget (w : Worker) : nat :=
  match w with
  | WDrain l n => l / 2 - n
  | WGc _ _ _ l n | WGcHold _ _ _ _ l n => l / 2 - S n
  | _ => 0
  end.

Lemma firstn_app_In {A} n (a b : list A) x : In x (firstn n a) -> In x (firstn n (a ++ b)).
Proof. rewrite firstn_app, in_app_iff. auto. Qed.

Lemma old_step p ev p' e : pool_ok p -> pstep p ev p' -> In e (firstn (budget (worker p)) (chan p)) -> ev <> EvLock ->
  In e (firstn (budget (worker p')) (chan p')) \/ In e (inside p').
Proof.
  intros K S I NL. assert (Ins := chan_step _ _ _ e K S). destruct S; cbn [chan queue worker set_cells set_sending set_chan set_worker start do_insert held budget] in *; auto;
    try (rewrite H in I; cbn in I; destruct I; fail); try (rewrite H in I; cbn [budget] in I; auto; fail).
  - left. now apply firstn_app_In.
  - rewrite H0, firstn_nil in I. destruct I.
  - rewrite H, H0 in I. cbn [budget] in I. destruct (l / 2 - n) as [|b] eqn:B; cbn in I. destruct I. destruct I as [I|I].
    + subst e0. right. destruct Ins as [Ins|Ins]; auto. rewrite H0. now left. exfalso.
      assert (Nd := proj1 (nodup_cnt _) (po_nodup _ K) (kid e)). unfold all, inside in Nd. rewrite H0 in Nd. cnts.
      assert (0 < cnt (kid e) r) by (apply cnt_In; now apply in_map). assert (0 < cnt1 (kid e) e). { apply cnt_In. now left. } lia.
    + left. destruct (Nat.leb_spec l (S n)); cbn [budget]. pose proof (Nat.div_le_mono l (S n) 2). pose proof (Nat.div_lt (S n) 2). lia.
      replace (l / 2 - S n) with b by lia. exact I.
  - rewrite H, H0 in I. cbn [budget] in I. destruct (l / 2 - n) as [|b] eqn:B; cbn in I. destruct I. destruct I as [I|I].
    + right. left. exact I.
    + left. replace (l / 2 - S n) with b by lia. exact I.
  - rewrite H in I. cbn [budget] in I. left. destruct (Nat.leb_spec l (S n)); cbn [budget]; auto. pose proof (Nat.div_le_upper_bound l 2 (S n)). replace (l / 2 - S n) with 0 in I by lia. destruct I.
Qed.

Lemma no_lock_snoc tr ev tr1 tr2 : tr ++ [ev] = tr1 ++ EvLock :: tr2 -> ~ In EvLock tr2 ->
  (tr2 = [] /\ ev = EvLock /\ tr1 = tr) \/ exists tr3, tr2 = tr3 ++ [ev] /\ tr = tr1 ++ EvLock :: tr3 /\ ~ In EvLock tr3 /\ ev <> EvLock.
Proof.
  intros E N. destruct tr2 as [|x tr2] using rev_ind.
  - left. apply app_inj_tail in E. destruct E as (-> & ->). auto.
  - right. clear IHtr2. rewrite app_comm_cons, app_assoc in E. apply app_inj_tail in E. destruct E as (-> & ->). exists tr2. rewrite in_app_iff in N. cbn in N. intuition.
Qed.

Lemma drained tr p : prun tr p -> forall tr1 tr2 e, tr = tr1 ++ EvLock :: tr2 -> ~ In EvLock tr2 -> added tr1 e ->
  In e (firstn (budget (worker p)) (chan p)) \/ In e (inside p) \/ gone p (snd e).
Proof.
  induction 1 as [|tr p ev p' R IH S]; intros tr1 tr2 e E N A. destruct tr1; discriminate.
  assert (K := pool_ok_run _ _ R). destruct (no_lock_snoc _ _ _ _ E N) as [(-> & -> & ->)|(tr3 & -> & -> & N3 & NL)].
  - destruct (added_kept _ _ _ R A) as (L & [C|[C|C]]).
    + left. inversion S; subst. cbn [worker chan set_worker budget]. rewrite Nat.div_mul, Nat.sub_0_r, firstn_all by lia. exact C.
    + right. destruct (inside_step _ _ _ _ K S C); auto.
    + right. right. eapply gone_step; eauto.
  - destruct (added_kept _ _ e R) as (L & _). { apply in_app_iff. auto. }
    destruct (IH _ _ _ eq_refl N3 A) as [C|[C|C]].
    + destruct (old_step _ _ _ _ K S C NL); auto.
    + right. destruct (inside_step _ _ _ _ K S C); auto.
    + right. right. eapply gone_step; eauto.
Qed.
