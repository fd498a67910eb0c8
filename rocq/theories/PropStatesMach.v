(* C50: the state map of src/search/states.rs with the types of the code (StatesMachModel.v). *)
From Coq Require Import List Arith Bool Lia.
Import ListNotations.
From Verif Require Import Spec Vec Util OutputSetModel OutputSetProofs PackProofs TreeModel MachineModel MachineProofs
  StatesModel StatesProofs StatesBounds PropStates StatesMachModel StatesMachProofs.

(* the calls of a client of the map: get, set, lock, the drop of the lock with channel id, and a poll of the
   channel id of a lock that another one holds *)
Inductive Op :=
| OGet (s : OutputSet)
| OSet (s : OutputSet) (st : State)
| OLock (s : OutputSet)
| ODrop (id : nat)
| OPoll (id : nat).

(* what the client sees *)
Inductive Out :=
| TState (st : State)
| TUnit
| TGot (id : nat)
| TBusy (id : nat)
| TReady (b : bool).

Definition run_op (hash : list nat -> nat) (m : States) (o : Op) : option (Out * States) :=
  match o with
  | OGet s => st <- states_get hash m s;; Some (TState st, m)
  | OSet s st => m' <- states_set hash m s st;; Some (TUnit, m')
  | OLock s => r <- states_lock hash m s;; Some (match fst r with inl id => TBusy id | inr id => TGot id end, snd r)
  | ODrop id => m' <- states_unlock m id;; Some (TUnit, m')
  | OPoll id => b <- states_await m id;; Some (TReady b, m)
  end.

Fixpoint run_ops (hash : list nat -> nat) (m : States) (l : list Op) : option (list Out * States) :=
  match l with
  | [] => Some ([], m)
  | o :: r => x <- run_op hash m o;; y <- run_ops hash (snd x) r;; Some (fst x :: fst y, snd y)
  end.

(* what it should do: the sets in the order they were set, the locks that are out, the number of locks so far *)
Record Book := mkBook { b_sets : list (OutputSet * State); b_held : list (OutputSet * nat); b_next : nat }.

Definition held_by (s : OutputSet) (l : list (OutputSet * nat)) : option nat :=
  option_map snd (find (fun e => if os_eq_dec (fst e) s then true else false) l).

(* None: the client drops a lock it does not hold, or polls a channel that does not exist *)
Definition book_op (b : Book) (o : Op) : option (Out * Book) :=
  match o with
  | OGet s => Some (TState (match last_set (b_sets b) s with Some st => st | None => default_state s end), b)
  | OSet s st => Some (TUnit, mkBook (b_sets b ++ [(s, st)]) (b_held b) (b_next b))
  | OLock s => match held_by s (b_held b) with
               | Some id => Some (TBusy id, b)
               | None => Some (TGot (b_next b), mkBook (b_sets b) ((s, b_next b) :: b_held b) (S (b_next b)))
               end
  | ODrop id => if existsb (fun e => snd e =? id) (b_held b)
                then Some (TUnit, mkBook (b_sets b) (filter (fun e => negb (snd e =? id)) (b_held b)) (b_next b)) else None
  | OPoll id => if id <? b_next b then Some (TReady (negb (existsb (fun e => snd e =? id) (b_held b))), b) else None
  end.

Fixpoint book_ops (b : Book) (l : list Op) : option (list Out * Book) :=
  match l with
  | [] => Some ([], b)
  | o :: r => x <- book_op b o;; y <- book_ops (snd x) r;; Some (fst x :: fst y, snd y)
  end.

Definition op_ok (o : Op) : Prop :=
  match o with
  | OGet s => wf s /\ channels s <= 11
  | OSet s _ | OLock s => wf s /\ 3 <= channels s /\ channels s <= 11
  | _ => True
  end.

Record Rel (hash : list nat -> nat) (threads : nat) (m : States) (b : Book) : Prop := {
  rel_maps : maps_ok m;
  rel_ok : sm_ok hash (erase_states m);
  rel_hist : forall t st, In (t, st) (b_sets b) -> wf t /\ 3 <= channels t /\ channels t <= 11;
  rel_sets : exists M, run_sets hash (b_sets b) (sm_default threads) = Some M /\ state_shards M = map erase (st_shards m);
  rel_next : b_next b = length (locks m);
  rel_held : held_inv hash (erase_states m) (length (locks m)) (sent m) (b_held b);
  rel_table : table_ok hash m (b_held b) }.

Lemma held_by_spec s l : (forall id, held_by s l = Some id -> In (s, id) l) /\ (held_by s l = None -> ~ In s (map fst l)).
Proof.
  unfold held_by. split.
  - intros id E. destruct (find _ l) as [(t, j)|] eqn:F; [|discriminate]. apply find_some in F. destruct F as (I & F).
    cbn [fst] in F. destruct (os_eq_dec t s) as [->|]; [|discriminate]. cbn in E. injection E as ->. exact I.
  - intros E I. destruct (find _ l) as [e|] eqn:F; [discriminate|]. apply in_map_iff in I. destruct I as (e & <- & I).
    pose proof (find_none _ _ F e I) as N. cbv beta in N. destruct (os_eq_dec (fst e) (fst e)); congruence.
Qed.

Lemma filter_out A s id B : NoDup (map snd (A ++ (s, id) :: B)) ->
  filter (fun e : OutputSet * nat => negb (snd e =? id)) (A ++ (s, id) :: B) = A ++ B.
Proof.
  intros N. rewrite map_app in N. cbn [map snd] in N. apply NoDup_remove_2 in N. rewrite <- map_app in N.
  assert (G : forall l, (forall e, In e l -> In e (A ++ B)) -> filter (fun e : OutputSet * nat => negb (snd e =? id)) l = l).
  { induction l as [|e l IH]; intros H; auto. cbn [filter]. destruct (Nat.eqb_spec (snd e) id) as [Ei|].
    - exfalso. apply N. apply in_map_iff. exists e. split; auto. apply H. now left.
    - cbn [negb]. f_equal. apply IH. intros x I. apply H. now right. }
  rewrite filter_app. cbn [filter snd]. rewrite Nat.eqb_refl. cbn [negb]. f_equal; apply G; intros e I; apply in_app_iff; auto.
Qed.

Lemma run_sets_snoc hash hist s st m : run_sets hash (hist ++ [(s, st)]) m = (m' <- run_sets hash hist m;; sm_set hash m' s st).
Proof.
  unfold run_sets. revert m. induction hist as [|(t, x) hist IH]; intros m; cbn [fold_opt app fst snd].
  - destruct (sm_set hash m s st); reflexivity.
  - destruct (sm_set hash m t x); auto.
Qed.

Lemma sm_set_same_shards hash M M' s st R : state_shards M = state_shards M' -> sm_set hash M' s st = Some R ->
  exists Q, sm_set hash M s st = Some Q /\ state_shards Q = state_shards R.
Proof.
  intros E. unfold sm_set. rewrite E. destruct (packed s) as [p|]; [|discriminate]. destruct (nth_error _ _) as [x|]; [|discriminate].
  destruct (set_with_packed x _ _ _); [|discriminate]. intros H. injection H as <-. eexists. split; [reflexivity|]. reflexivity.
Qed.

Lemma rel_stored hash threads m b s : Rel hash threads m b -> wf s -> stored hash (erase_states m) s = last_set (b_sets b) s.
Proof.
  intros [_ _ H (M & E & S) _ _ _] W. destruct (run_sets_spec hash (b_sets b) (sm_default threads) (sm_default_ok hash threads) H) as (M' & E' & _ & _ & F).
  assert (M' = M) by congruence. subst M'. specialize (F s W). unfold stored in *. unfold erase_states. cbn [state_shards]. rewrite <- S, F.
  destruct (last_set (b_sets b) s); auto. exact (sm_default_stored hash threads s).
Qed.

Lemma run_op_rel hash threads m b o out b' : Rel hash threads m b -> op_ok o -> book_op b o = Some (out, b') ->
  exists m', run_op hash m o = Some (out, m') /\ Rel hash threads m' b'.
Proof.
  intros R Ho E. pose proof R as [RM RK RH RS RN RL RT]. destruct o as [s|s st|s|id|id]; cbn [book_op run_op op_ok] in *.
  - injection E as <- <-. destruct Ho as (W & C). rewrite states_get_same by auto. rewrite sm_get_cur by auto.
    exists m. split; auto. unfold cur. rewrite (rel_stored hash threads m b) by auto. reflexivity.
  - injection E as <- <-. destruct (states_set_same hash m s st RM RK Ho) as (m' & -> & ES & RM' & EL & El & Es). exists m'. split; auto.
    destruct (sm_set_spec hash (erase_states m) s st RK Ho) as (M & EM & KM & LM & _). assert (M = erase_states m') by congruence. subst M.
    constructor; cbn [b_sets b_held b_next]; auto.
    + intros t x I. apply in_app_iff in I. destruct I as [I|[I|[]]]; [now apply (RH t x)|]. now injection I as <- <-.
    + destruct RS as (M & EM' & SM). rewrite run_sets_snoc, EM'. exact (sm_set_same_shards hash M (erase_states m) s st (erase_states m') SM ES).
    + congruence.
    + rewrite El, Es. destruct RL as (A & B & CC & D & F). split; auto. split; auto. split; auto. intros t i Wt. rewrite <- CC by auto.
      unfold lock_of. rewrite LM. reflexivity.
    + destruct RT as (T & H). split.
      * intros t i I. destruct (T t i I) as (Ht & Et). split; auto. unfold lock_for in *. now rewrite El, EL.
      * now rewrite El, Es.
  - pose proof (states_lock_same hash m s RM RK Ho) as SL. destruct (held_by s (b_held b)) as [id|] eqn:EH.
    + apply held_by_spec in EH. destruct RL as (_ & _ & CC & _). apply CC in EH; [|apply Ho]. rewrite EH in SL. destruct SL as (-> & _).
      injection E as <- <-. exists m. split; auto.
    + apply held_by_spec in EH. injection E as <- <-. destruct (lock_of hash (erase_states m) s) as [i|] eqn:EF.
      { exfalso. apply EH. apply RL in EF; [|apply Ho]. apply in_map_iff. exists (s, i). auto. }
      destruct SL as (m' & -> & EG & RM' & ES & ELL & El & Es). exists m'. cbn [fst snd]. rewrite RN. split; auto.
      pose proof (sm_get_lock_spec hash (erase_states m) s (length (locks m)) RK Ho) as G. rewrite EF in G.
      destruct G as (M & EM & KM & _ & LM). assert (M = erase_states m') by congruence. subst M.
      constructor; cbn [b_sets b_held b_next]; auto.
      * destruct RS as (M & EM' & SM). exists M. split; auto. now rewrite ES.
      * rewrite El, app_length. cbn [length]. lia.
      * rewrite El, Es, app_length. cbn [length]. destruct RL as (A & B & CC & D & F). cbn [map fst snd]. split; [|split; [|split; [|split]]].
        -- constructor; auto.
        -- constructor; auto. intros I. apply in_map_iff in I. destruct I as ((t, j) & Ej & I). cbn [snd] in Ej. subst j. apply D in I. lia.
        -- intros t i Wt. rewrite LM by auto. cbn [In]. destruct (os_eq_dec t s) as [->|N].
           ++ split; [intros X; left; congruence|]. intros [X|X]; [congruence|]. exfalso. apply EH. apply in_map_iff. exists (s, i). auto.
           ++ rewrite CC by auto. split; auto. intros [X|X]; auto. congruence.
        -- intros t i [X|X]; [injection X as <- <-|apply D in X; split; [lia|tauto]]. split; [lia|]. intros X. apply F in X. lia.
        -- intros i I. apply F in I. lia.
      * now apply (table_new hash m).
  - destruct (existsb (fun e => snd e =? id) (b_held b)) eqn:EX; [|discriminate]. injection E as <- <-.
    apply existsb_exists in EX. destruct EX as ((s, j) & I & Ej). cbn [snd] in Ej. apply Nat.eqb_eq in Ej. subst j.
    destruct (states_unlock_same hash m (b_held b) s id RM RK RL RT I) as (m' & -> & EU & RM' & ES & ELL & El & Es). exists m'. split; auto.
    destruct (proj1 RT s id I) as (Hs & _). destruct (sm_unlock_spec hash (erase_states m) s RK Hs) as (M & EM & KM & _ & LM).
    assert (M = erase_states m') by congruence. subst M.
    apply in_split in I. destruct I as (A & B & EAB). rewrite EAB in *. pose proof RL as (N1 & N2 & CC & D & F). rewrite filter_out by auto.
    constructor; cbn [b_sets b_held b_next]; auto.
    + destruct RS as (M & EM' & SM). exists M. split; auto. now rewrite ES.
    + rewrite El, upd_length. exact RN.
    + rewrite El, Es, upd_length. rewrite map_app in N1, N2. cbn [map fst snd] in N1, N2. split; [|split; [|split; [|split]]].
      * rewrite map_app. eapply NoDup_remove_1; eauto.
      * rewrite map_app. eapply NoDup_remove_1; eauto.
      * intros t i Wt. rewrite LM by auto. destruct (os_eq_dec t s) as [->|N].
        -- split; [discriminate|]. intros I. exfalso. apply NoDup_remove_2 in N1. apply N1. rewrite <- map_app. apply in_map_iff. exists (s, i). auto.
        -- rewrite CC by auto. rewrite !in_app_iff. cbn [In]. split; intros X; [|tauto]. destruct X as [X|[X|X]]; auto. congruence.
      * intros t i I. assert (i <> id). { intros ->. apply NoDup_remove_2 in N2. apply N2. rewrite <- map_app. apply in_map_iff. exists (t, id). auto. }
        destruct (D t i) as (D1 & D2). { rewrite in_app_iff in *. cbn [In]. tauto. } split; auto. intros [X|X]; [congruence|auto].
      * intros i [<-|X]; auto. destruct (D s id); auto. rewrite in_app_iff. cbn [In]. auto.
    + eapply (table_free hash m m' A s id B); eauto.
  - destruct (Nat.ltb_spec id (b_next b)) as [Hi|]; [|discriminate]. injection E as <- <-. rewrite RN in Hi.
    rewrite (states_await_same hash m (b_held b)) by auto. exists m. split; [|exact R]. do 2 f_equal. f_equal.
    destruct RL as (_ & _ & _ & D & _). destruct (existsb (fun e => snd e =? id) (b_held b)) eqn:EX; cbn [negb].
    + apply existsb_exists in EX. destruct EX as ((s, j) & I & Ej). cbn [snd] in Ej. apply Nat.eqb_eq in Ej. subst j. apply D in I.
      destruct (existsb (Nat.eqb id) (sent m)) eqn:ES; auto. apply existsb_exists in ES. destruct ES as (j & J & Ej). apply Nat.eqb_eq in Ej. subst j. tauto.
    + destruct (proj2 RT id Hi) as [I|I].
      * apply in_map_iff in I. destruct I as (e & Ee & I). exfalso.
        assert (existsb (fun e : OutputSet * nat => snd e =? id) (b_held b) = true) by (apply existsb_exists; exists e; split; auto; now apply Nat.eqb_eq). congruence.
      * apply existsb_exists. exists id. split; auto. apply Nat.eqb_refl.
Qed.

Lemma run_ops_rel hash threads l : forall m b outs b', Rel hash threads m b -> (forall o, In o l -> op_ok o) -> book_ops b l = Some (outs, b') ->
  exists m', run_ops hash m l = Some (outs, m') /\ Rel hash threads m' b'.
Proof.
  induction l as [|o l IH]; intros m b outs b' R H E; cbn [book_ops run_ops] in *.
  - injection E as <- <-. eauto.
  - destruct (book_op b o) as [(out, b1)|] eqn:E1; [|discriminate]. cbn [fst snd] in E.
    destruct (book_ops b1 l) as [(outs1, b2)|] eqn:E2; [|discriminate]. cbn [fst snd] in E. injection E as <- <-.
    destruct (run_op_rel hash threads m b o out b1 R (H o (or_introl eq_refl)) E1) as (m1 & -> & R1). cbn [fst snd].
    destruct (IH m1 b1 outs1 b2 R1) as (m2 & -> & R2); auto. { intros x I. apply H. now right. }
    cbn [fst snd]. eauto.
Qed.

Lemma rel_start hash threads : Rel hash threads (states_default threads) (mkBook [] [] 0).
Proof.
  destruct (states_default_ok threads) as (M & E). constructor; cbn [b_sets b_held b_next]; auto.
  - rewrite E. apply sm_default_ok.
  - intros t st [].
  - exists (sm_default threads). split; auto. rewrite <- E. reflexivity.
  - rewrite E. split; [constructor|split; [constructor|split; [|split]]].
    + intros s id W. rewrite sm_default_lock. split; [discriminate|intros []].
    + intros s id [].
    + intros id [].
  - split; [intros s id []|]. cbn. intros id H. lia.
Qed.

(* Whatever the hash function, the number of threads and the calls of the clients, as long as they drop only
   locks they hold: no index is out of range, no capacity is exceeded, no unwrap fails; a get returns what was
   set last; a lock is given exactly if the set is not locked, and waiting for a lock ends exactly when it was
   dropped. *)
Theorem C50_no_check_fails : forall hash threads l outs b,
  (forall o, In o l -> op_ok o) -> book_ops (mkBook [] [] 0) l = Some (outs, b) ->
  exists m, run_ops hash (states_default threads) l = Some (outs, m).
Proof.
  intros hash threads l outs b H E. destruct (run_ops_rel hash threads l _ _ outs b (rel_start hash threads) H E) as (m & Em & _). eauto.
Qed.
Print Assumptions C50_no_check_fails.

(* Afterwards len is the number of distinct sets that were set, and the drained items are the sets with the
   states they were given last, each once, under their packed bytes. *)
Theorem C50_len_and_drain : forall hash threads l outs b m,
  (forall o, In o l -> op_ok o) -> book_ops (mkBook [] [] 0) l = Some (outs, b) ->
  run_ops hash (states_default threads) l = Some (outs, m) ->
  states_len m = length (nodup os_eq_dec (map fst (b_sets b))) /\
  let items := flat_map (fun x => fst (smap_drain x)) (states_into_shards m) in
  NoDup (map fst items) /\
  forall c bytes st, In (c, bytes, st) items <->
    exists s, wf s /\ channels s = c /\ packed s = Some bytes /\ last_set (b_sets b) s = Some st.
Proof.
  intros hash threads l outs b m H E Em. destruct (run_ops_rel hash threads l _ _ outs b (rel_start hash threads) H E) as (m' & Em' & R).
  assert (m' = m) by congruence. subst m'. destruct R as [_ _ RH (M & EM & SM) _ _ _].
  assert (X : flat_map (fun x => fst (smap_drain x)) (states_into_shards m) = flat_map drain_packed (into_shards M)).
  { unfold states_into_shards, into_shards. rewrite SM. clear. induction (st_shards m) as [|x l IH]; auto. cbn [flat_map map].
    rewrite IH, smap_drain_erase. reflexivity. }
  split.
  - rewrite <- (C16_len hash threads (b_sets b) M RH EM). unfold states_len, sm_len. rewrite SM. generalize 0. clear.
    induction (st_shards m) as [|x l IH]; intros a; auto. cbn [map fold_left]. rewrite IH, smap_len_erase. reflexivity.
  - cbv zeta. rewrite X. apply (C16_drain hash threads (b_sets b) M RH EM).
Qed.
Print Assumptions C50_len_and_drain.

(* A set with more than 11 channels cannot be stored or locked: the program panics. *)
Theorem C50_too_many_channels : forall hash m s st, 11 < channels s ->
  states_set hash m s st = None /\ states_lock hash m s = None.
Proof.
  intros hash m s st H. assert (A : forall T (x : SetMap T) p v, smap_set x (channels s) p v = None /\ smap_get x (channels s) p = Some None).
  { intros T x p v. unfold smap_set, smap_get. destruct (channels s) as [|[|[|[|[|[|[|[|[|[|[|[|c]]]]]]]]]]]] eqn:E; try lia. split; reflexivity. }
  split.
  - unfold states_set. destruct (packed_pvec_c s); auto. destruct (shard_c _ _ _); auto. destruct (rd _ _); auto.
    match goal with |- context [smap_set ?x _ ?p ?v] => rewrite (proj1 (A _ x p v)) end. reflexivity.
  - unfold states_lock. destruct (packed s) as [p|]; auto. destruct (shard_c _ _ _); auto. destruct (rd _ _) as [x|]; auto.
    rewrite (proj2 (A _ x p 0)), (proj1 (A _ x p _)). reflexivity.
Qed.
Print Assumptions C50_too_many_channels.

(* a run on sets with 3, 9 and 11 channels: two locks for different sets, a refused lock, its release *)
Definition ex_9 : OutputSet := mkOutputSet 9 (map (fun i => i mod 3 =? 0) (seq 0 512)).
Definition ex_11 : OutputSet := mkOutputSet 11 (map (fun i => i mod 5 =? 0) (seq 0 2048)).
Definition ex_ops : list Op :=
  [OLock ex_9; OSet ex_9 (mkState 3 20 1 20); OLock ex_11; OLock ex_9; OPoll 0; OGet ex_9; OSet ex_a (mkState 2 2 1 3);
   OSet ex_11 (mkState 4 30 1 35); OSet ex_9 (mkState 4 20 1 20); ODrop 0; OPoll 0; OPoll 1; OLock ex_9; OGet ex_9; OGet ex_11; OGet ex_a; OGet ex_b].
Example C50_case_ops : forall o, In o ex_ops -> op_ok o.
Proof.
  assert (A : wf ex_9 /\ wf ex_11 /\ wf ex_a /\ wf ex_b).
  { unfold wf. split; [|split; [|split]].
    - change (channels ex_9) with 9. unfold ex_9. cbn [bitmap]. rewrite map_length, seq_length. reflexivity.
    - change (channels ex_11) with 11. unfold ex_11. cbn [bitmap]. rewrite map_length, seq_length. reflexivity.
    - reflexivity.
    - reflexivity. }
  destruct A as (A & B & C & D). assert (E9 : channels ex_9 = 9) by reflexivity. assert (E11 : channels ex_11 = 11) by reflexivity.
  assert (Ea : channels ex_a = 3) by reflexivity. assert (Eb : channels ex_b = 4) by reflexivity.
  intros o I. unfold ex_ops in I. cbn [In] in I.
  repeat (destruct I as [<-|I]; [cbn [op_ok]; first [exact Logic.I | split; [assumption|lia]]|]). destruct I.
Qed.
Example C50_case_book : option_map fst (book_ops (mkBook [] [] 0) ex_ops) =
  Some [TGot 0; TUnit; TGot 1; TBusy 0; TReady false; TState (mkState 3 20 1 20); TUnit; TUnit; TUnit; TUnit; TReady true; TReady false;
        TGot 2; TState (mkState 4 20 1 20); TState (mkState 4 30 1 35); TState (mkState 2 2 1 3); TState (mkState 1 5 1 5)].
Proof. vm_compute. reflexivity. Qed.
Example C50_case_run : option_map fst (run_ops (fun l => fold_left Nat.add l 3) (states_default 1) ex_ops) =
  option_map fst (book_ops (mkBook [] [] 0) ex_ops).
Proof. vm_compute. reflexivity. Qed.
(* the drop of a lock that was dropped already, and a wait for a lock whose sender is gone, are noticed *)
Example C50_case_double : run_ops (fun _ => 0) (states_default 1) [OLock ex_a; ODrop 0; ODrop 0] = None /\
  run_ops (fun _ => 0) (mkStates [smap_empty] [smap_empty] [mkStateLock None 3 [3] 0] []) [OPoll 0] = None.
Proof. vm_compute. split; reflexivity. Qed.
