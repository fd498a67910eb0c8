(* Runs of the search that do not change the map. *)
From Coq Require Import List Arith Bool Lia Permutation.
Import ListNotations.
From Verif Require Import Spec Vec Net Graded Bits Util CountProofs OutputSetModel OutputSetProofs PruneProofs PackProofs HuffmanModel HuffmanProofs CanonModel TreeModel StatesModel StatesProofs StatesBounds SearchModel SearchFacts SearchInv SearchEdges SearchStep SearchFrames SearchGlobal SearchRun SearchSafe SearchOrder SearchWaits SearchMain SearchClosed SearchSlack SearchGood.

Section Quiet.
Variables chash mhash : list nat -> nat.
Notation cur := (cur mhash).
Notation map_inv := (map_inv chash mhash).
Notation Inv := (Inv chash mhash).
Notation Good := (Good chash mhash).
Notation frame_req := (frame_req chash).
Notation frame_ok := (frame_ok chash mhash).
Notation stack_ok := (stack_ok chash mhash).
Notation fits := (fits mhash).
Notation edges_ok := (edges_ok mhash).
Notation access := (access mhash).
Notation task_step := (task_step chash mhash).
Notation drop_frame := (drop_frame mhash).
Notation sys_step := (sys_step chash mhash).
Notation search_run := (search_run chash mhash).
Notation lock_of := (lock_of mhash).
Notation potential := (potential mhash).

(* several steps of the system *)
Inductive sys_steps (c : Config) : Config -> Prop :=
| steps_refl : sys_steps c c
| steps_step c1 c2 : sys_steps c c1 -> sys_step c1 c2 -> sys_steps c c2.
Lemma steps_trans a b c : sys_steps a b -> sys_steps b c -> sys_steps a c.
Proof. intros H K. induction K; auto. econstructor; eauto. Qed.
Lemma steps_one a b : sys_step a b -> sys_steps a b.
Proof. intros H. econstructor; [constructor|auto]. Qed.
Lemma steps_good a b : sys_steps a b -> Good a -> Good b.
Proof. intros H G. induction H as [|c1 c2 H IH Hs]; auto. apply (good_step chash mhash c1 c2); auto. Qed.
Lemma steps_run threads initial limit a b : sys_steps a b -> search_run threads initial limit a -> search_run threads initial limit b.
Proof. intros H R. induction H as [|c1 c2 H IH Hs]; auto. apply (run_step chash mhash threads initial limit c1 c2); auto. Qed.

(* ---- what a frame returns ---- *)
Definition ctl_ret (m : StateMap) (s : OutputSet) (k : Ctl) : Prop := match k with CReturn v => v = cur m s | _ => True end.
Definition req_ret (m : StateMap) (s : OutputSet) (r : Req) : Prop :=
  match r with
  | RGet s' k => okset s' /\ ctl_ret m s (k (cur m s'))
  | RSet s' st k => match k with CReturn _ => False | _ => True end
  | RLock s' got busy => (forall id, ctl_ret m s (got id)) /\ forall id, ctl_ret m s (busy id)
  | RUnlock s' id k => ctl_ret m s k
  | RWait id k => ctl_ret m s k
  | RPoll u k => forall v b, ctl_ret m s (k v b)
  | RSpawn prev s' pend k => forall u, ctl_ret m s (k u)
  | RSchedule u k => ctl_ret m s k
  | RCancel ts k => ctl_ret m s k
  | RTau k => ctl_ret m s k
  | RNone => True
  end.
Lemma next_req_ret m s order e np go done : (forall e', ctl_ret m s (done e')) -> req_ret m s (next_req order e np (fun e np => go e np) done).
Proof.
  intros D. destruct np as [ids finished nr block| |index ids block|ids block t]; cbn [next_req].
  - destruct ids as [|id ids].
    + cbn [req_ret]. destruct (retain_closed e); [|exact Logic.I]. destruct (finished || _); auto. destruct (block && _); exact Logic.I.
    + destruct (nth_error (targets e) id) as [x|]; [|exact Logic.I]. destruct (tg_run x); cbn [req_ret]; [|exact Logic.I].
      intros [v|] b; exact Logic.I.
  - exact Logic.I.
  - destruct ids as [|id ids]. exact Logic.I. destruct (nth_error (targets e) id) as [x|]; [|exact Logic.I]. destruct (tg_run x).
    + destruct (index =? 0); exact Logic.I.
    + destruct (closed (tg_state x)); [exact Logic.I|]. cbn [req_ret]. intros u. exact Logic.I.
  - exact Logic.I.
Qed.
Lemma add_edge_ret m s e t k : okset t -> (forall e' id, ctl_ret m s (k e' id)) -> req_ret m s (add_edge_req e t k).
Proof. intros K H. unfold add_edge_req. destruct (find_target t (targets e) 0); cbn [req_ret]; auto. split; auto. destruct (push_target e t _). auto. Qed.
Lemma after_check_ret m s prev lk st : ctl_ret m s (after_check chash prev s lk st).
Proof.
  assert (AE : ctl_ret m s (after_extremal prev s lk st)) by (unfold after_extremal; destruct (lo st <? hhi st); exact Logic.I).
  unfold after_check. destruct (extremal_channels s false) as [|c0 [|c1 l]], (extremal_channels s true) as [|d0 [|d1 l']]; auto;
    match goal with |- context [prune_canon ?a ?b ?c ?d] => destruct (prune_canon a b c d); exact Logic.I end.
Qed.
Lemma frame_req_ret m goal root rest f : map_inv m -> frame_ok m goal f -> fits m root (hd_error rest) f -> stack_ok m goal root rest ->
  req_ret m (fset f) (frame_req f).
Proof.
  intros IM F Fi Sk. pose proof (frame_req_ok chash mhash m goal root rest f IM F Fi Sk) as RO.
  assert (OK : forall s' k, frame_req f = RGet s' k -> okset s'). { intros s' k E. rewrite E in RO. apply RO. }
  clear RO.
  destruct f as [s lim pc|prev s pc|s pc]; cbn [SearchModel.frame_req fset] in *.
  - destruct pc; cbn [main_req req_ret]; try exact Logic.I. split. eapply OK; reflexivity. exact Logic.I. destruct (closed st || _); exact Logic.I.
  - destruct F as (K & F). destruct pc; cbn [imp_req]; try exact Logic.I; try (cbn [req_ret ctl_ret]; auto; fail).
    + cbn [req_ret]. split; auto. destruct (negb _); [reflexivity|]. destruct (closed _); [reflexivity|exact Logic.I].
    + cbn [req_ret]. split; auto. destruct (negb _); [exact Logic.I|]. destruct (closed _); [exact Logic.I|]. apply after_check_ret.
    + cbn [req_ret]. split. eapply OK; reflexivity. exact Logic.I.
    + destruct (hi pst <? hi st); cbn [req_ret]; [destruct (closed _)|]; exact Logic.I.
    + destruct (lo st <? lo pst); cbn [req_ret ctl_ret]; exact Logic.I.
    + destruct todo as [|(i, j) todo]; [exact Logic.I|]. cbn [imp_req] in OK. destruct (apply_comparator s i j) as (t, ch). destruct ch; [|exact Logic.I].
      destruct (canon chash t) as [t'|]; [|exact Logic.I]. cbn beta iota in OK. unfold add_edge_req in *. destruct (find_target t' (targets e) 0); cbn [req_ret ctl_ret]; auto.
      split. eapply OK; reflexivity. destruct (push_target _ _ _). exact Logic.I.
    + destruct (m0 <- list_min (map hi (edge_states e));; u8_succ m0) as [ub|]; [|exact Logic.I].
      destruct (ub <? hi st); cbn [req_ret]; [destruct (closed _)|]; exact Logic.I.
    + destruct (m0 <- list_min (map lo (edge_states e));; u8_succ m0) as [ub|]; [|exact Logic.I].
      destruct (lo st <? ub); cbn [req_ret]; exact Logic.I.
    + apply next_req_ret; intros; exact Logic.I.
    + cbn [req_ret ctl_ret]. destruct F as (_ & F & _). auto.
  - destruct F as (K & Wk & F).
    assert (HW : forall st ids0 ids1 uh0 uh1 e, ctl_ret m s (huff_while s st ids0 ids1 uh0 uh1 e)).
    { intros. unfold huff_while. destruct (lo st <? hhi st); exact Logic.I. }
    assert (HA : forall st ids0 ids1 uh0 uh1 e pol, ctl_ret m s (huff_after s st ids0 ids1 uh0 uh1 e pol)).
    { intros. unfold huff_after. destruct pol; exact Logic.I. }
    assert (HA' : forall st ids0 ids1 uh0 uh1 e pol, match huff_after s st ids0 ids1 uh0 uh1 e pol with CReturn _ => False | _ => True end).
    { intros. unfold huff_after. destruct pol; exact Logic.I. }
    destruct pc; cbn [huff_req]; try exact Logic.I; try (cbn [req_ret]; auto; fail).
    + cbn [req_ret]. split; auto. destruct (hhi _ <=? lo _); [reflexivity|exact Logic.I].
    + destruct todo as [|(pol, c) todo]; [apply HW|]. cbn [huff_req] in OK. destruct (prune_canon chash s pol c) as [t'|]; [|exact Logic.I].
      unfold add_edge_req in *. destruct (find_target t' (targets e) 0); cbn [req_ret ctl_ret]. destruct pol; exact Logic.I.
      split. eapply OK; reflexivity. destruct (push_target _ _ _). destruct pol; exact Logic.I.
    + destruct (lo st <? (if pol then uh1 else uh0)); [|apply HA].
      match goal with |- context [match ?a with _ => _ end] => destruct a as [(lh, uh)|] end; [|exact Logic.I].
      destruct (uh <=? lo st); [|exact Logic.I]. destruct (retain_edges _ e). exact Logic.I.
    + destruct (hlo st <? lh); [|apply HA]. destruct (lo st <? lh); [exact Logic.I|apply HA'].
    + destruct (Nat.max uh0 uh1 <? hhi st); exact Logic.I.
    + apply next_req_ret. intros e'. apply HW.
    + cbn [req_ret ctl_ret]. destruct F as (F & _). auto.
Qed.

Lemma return_cur c t x f rest c1 v : Inv c -> nth_error (g_tasks c) t = Some x -> tk_stack x = f :: rest ->
  access c (frame_req f) = ADone c1 (CReturn v) -> v = cur (g_map c) (fset f).
Proof.
  intros I N E Ea. destruct (stack_split chash mhash c t x f rest I N E) as (Fo & Fi & Sk).
  pose proof (frame_req_ret _ _ _ _ _ (inv_map _ _ c I) Fo Fi Sk) as R. destruct (frame_req f); cbn [SearchModel.access req_ret] in *; try discriminate.
  - destruct R as (K & R). rewrite (sm_get_cur mhash _ _ (mi_ok _ _ _ (inv_map _ _ c I)) (proj1 K)) in Ea. injection Ea as _ Ea. now rewrite Ea in R.
  - destruct (sm_set mhash (g_map c) s st); [|discriminate]. injection Ea as _ Ea. rewrite Ea in R. destruct R.
  - destruct R as (L1 & L2). destruct (sm_get_lock mhash (g_map c) s (g_next c)) as [[id|m]|]; try discriminate; injection Ea as _ Ea.
    specialize (L2 id). now rewrite Ea in L2. specialize (L1 (g_next c)). now rewrite Ea in L1.
  - destruct (sm_unlock mhash (g_map c) s); [|discriminate]. injection Ea as _ Ea. now rewrite Ea in R.
  - destruct (existsb (Nat.eqb id) (g_sent c)); [|discriminate]. injection Ea as _ Ea. now rewrite Ea in R.
  - destruct (nth_error (g_tasks c) t0) as [z|]; [|discriminate]. destruct (tk_result z) as [r|].
    injection Ea as _ Ea. specialize (R (Some r) (tk_sched z)). now rewrite Ea in R.
    destruct (tk_cancel z); [discriminate|]. injection Ea as _ Ea. specialize (R None (tk_sched z)). now rewrite Ea in R.
  - injection Ea as _ Ea. specialize (R (length (g_tasks c))). now rewrite Ea in R.
  - injection Ea as _ Ea. now rewrite Ea in R.
  - injection Ea as _ Ea. now rewrite Ea in R.
  - injection Ea as _ Ea. now rewrite Ea in R.
Qed.

(* ---- quiet runs: the map keeps its states; only tasks whose innermost frame is allowed by P move ---- *)
Record quiet (P : nat -> OutputSet -> Prop) (c c' : Config) : Prop := {
  q_steps : sys_steps c c';
  q_map : state_shards (g_map c') = state_shards (g_map c);
  q_sent : incl (g_sent c) (g_sent c');
  q_task : forall v x, nth_error (g_tasks c) v = Some x -> exists x', nth_error (g_tasks c') v = Some x' /\
    tk_prev x' = tk_prev x /\ tk_set x' = tk_set x /\ (tk_sched x = true -> tk_sched x' = true) /\
    (forall r, tk_result x = Some r -> tk_result x' = Some r) /\
    (tk_result x = None -> forall r, tk_result x' = Some r -> r = cur (g_map c) (tk_set x)) /\
    ((forall f rest, tk_stack x = f :: rest -> ~ P v (fset f)) -> tk_stack x' = tk_stack x) }.

Lemma quiet_refl P c : quiet P c c.
Proof.
  constructor; auto. constructor. intros z Hz; auto. intros v x N. exists x. split; auto. split; auto. split; auto. split; auto. split; auto. split; auto.
  intros E r E'. congruence.
Qed.
Lemma quiet_trans P a b c : quiet P a b -> quiet P b c -> quiet P a c.
Proof.
  intros A B. constructor.
  - eapply steps_trans; eapply q_steps; eauto.
  - rewrite (q_map _ _ _ B). apply (q_map _ _ _ A).
  - intros z Hz. apply (q_sent _ _ _ B), (q_sent _ _ _ A), Hz.
  - intros v x N. destruct (q_task _ _ _ A v x N) as (y & Ny & A1 & A2 & A3 & A4 & A5 & A6).
    destruct (q_task _ _ _ B v y Ny) as (z & Nz & B1 & B2 & B3 & B4 & B5 & B6). exists z. split; auto.
    split; [congruence|]. split; [congruence|]. split; auto. split; auto. split.
    + intros E r Hr. destruct (tk_result y) as [r'|] eqn:Ey.
      * rewrite (B4 r' eq_refl) in Hr. injection Hr as <-. now apply A5.
      * rewrite <- A2, <- (same_cur mhash (g_map a) (g_map b) (tk_set y)) by apply (q_map _ _ _ A). now apply B5.
    + intros H. rewrite B6; [now apply A6|]. intros f rest E. rewrite (A6 H) in E. now apply (H f rest).
Qed.
Lemma quiet_mono (P P' : nat -> OutputSet -> Prop) c c' : (forall v x, P v x -> P' v x) -> quiet P c c' -> quiet P' c c'.
Proof.
  intros H Q. constructor; try apply Q. intros v x N. destruct (q_task _ _ _ Q v x N) as (y & Ny & A1 & A2 & A3 & A4 & A5 & A6).
  exists y. repeat (split; auto). intros Hn. apply A6. intros f rest E Hp. apply (Hn f rest E). auto.
Qed.
Lemma quiet_cur P c c' s : quiet P c c' -> cur (g_map c') s = cur (g_map c) s.
Proof. intros Q. apply same_cur. apply Q. Qed.
Lemma quiet_potential P c c' : quiet P c c' -> potential (g_map c') = potential (g_map c).
Proof. intros Q. apply potential_same. apply Q. Qed.

Definition at_frame (c : Config) (t : nat) (f : Frame) (rest : list Frame) : Prop :=
  exists x, nth_error (g_tasks c) t = Some x /\ tk_sched x = true /\ tk_stack x = f :: rest.

(* where task t is after the sequential code k *)
Definition ends (k : Ctl) (rest : list Frame) (c : Config) (t : nat) : Prop :=
  match k with
  | CGo f => at_frame c t f rest
  | CCall f g => at_frame c t g (f :: rest)
  | CReturn v =>
      match rest with
      | [] => exists x, nth_error (g_tasks c) t = Some x /\ tk_result x = Some v /\ tk_stack x = []
      | f :: r => exists f', resume f v = Some f' /\ at_frame c t f' r
      end
  | CPanic => False
  end.

Lemma quiet_at (P : nat -> OutputSet -> Prop) c c' t f rest : quiet P c c' -> ~ P t (fset f) -> at_frame c t f rest -> at_frame c' t f rest.
Proof.
  intros Q H (x & N & S & E). destruct (q_task _ _ _ Q t x N) as (y & Ny & _ & _ & A3 & _ & _ & A6). exists y. split; auto. split; auto.
  rewrite <- E. apply A6. intros g r E'. rewrite E in E'. injection E' as <- <-. auto.
Qed.

Lemma good_inv c : Good c -> Inv c.
Proof. apply gd_inv. Qed.

(* one step of a task that does not write *)
Lemma advance (P : nat -> OutputSet -> Prop) c t f rest : Good c -> at_frame c t f rest -> P t (fset f) ->
  (exists c', sys_step c c' /\ potential (g_map c') < potential (g_map c)) \/ access c (frame_req f) = ABlocked \/
  exists c1 k c', access c (frame_req f) = ADone c1 k /\ quiet P c c' /\ Good c' /\ ends k rest c' t /\
    (forall s st k', frame_req f <> RSet s st k') /\
    g_map c' = g_map c1 /\ g_sent c' = g_sent c1 /\ (forall u, u <> t -> nth_error (g_tasks c') u = nth_error (g_tasks c1) u).
Proof.
  intros G (x & N & Sx & E) HP. pose proof (good_inv c G) as I.
  pose proof (task_step_inv chash mhash c t I) as TI. pose proof (access_ok chash mhash c t (core x) f rest I (nth_cores c t x N) E) as AO.
  destruct (access c (frame_req f)) as [| |c1 k] eqn:Ea; auto. { destruct AO. }
  unfold SearchModel.task_step in TI. rewrite N, Sx, E in TI. cbn [negb] in TI. rewrite Ea in TI.
  destruct (run_ctl c1 t rest k) as [| |c'] eqn:Er.
  - exfalso. destruct k; cbn [run_ctl] in Er; try discriminate. destruct rest as [|f0 r]; try discriminate. destruct (resume f0 v); discriminate.
  - destruct TI.
  - assert (St : sys_step c c'). { apply (SysTask chash mhash c t). unfold SearchModel.task_step. rewrite N, Sx, E. cbn [negb]. now rewrite Ea. }
    pose proof (good_step chash mhash c c' G St) as G'.
    assert (D : (exists s st k', frame_req f = RSet s st k') \/ forall s st k', frame_req f <> RSet s st k').
    { destruct (frame_req f); try (right; discriminate). left; eauto. }
    destruct (run_ctl_map c1 t rest k c' Er) as (M1 & _ & M2).
    destruct D as [(s & st & k' & R)|D].
    { left. exists c'. split; auto. destruct (write_lower chash mhash c t x f rest s st k' I (gd_hb _ _ c G) N E R) as (m' & Ew & L & _).
      rewrite R, Ew in Ea. injection Ea as <- _. rewrite M1. auto. }
    right. right. exists c1, k, c'. split; auto.
    pose proof (access_shards mhash c _ c1 k Ea D) as Sh.
    destruct (access_old chash mhash c _ c1 k Ea t x N) as (x1 & N1 & (V1 & V2 & V3 & V4 & V5 & V6)).
    assert (Rn : tk_result x = None).
    { destruct (tk_result x) as [v|] eqn:Ev; auto. destruct (inv_core _ _ c I _ (nth_error_In _ _ (nth_cores c t x N))) as (_ & _ & H).
      destruct (H v Ev) as (_ & H'). cbn in H'. congruence. }
    assert (Oth : forall u, u <> t -> nth_error (g_tasks c') u = nth_error (g_tasks c1) u).
    { intros u Du. assert (X : forall g, nth_error (g_tasks (with_task c1 t g)) u = nth_error (g_tasks c1) u).
      { intros g. rewrite with_task_nth. destruct (Nat.eqb_spec u t); auto. contradiction. }
      destruct k as [f'|f' g|v|]; cbn [run_ctl] in Er; try discriminate.
      - injection Er as <-. apply X.
      - injection Er as <-. apply X.
      - destruct rest as [|f0 r]. injection Er as <-. apply X. destruct (resume f0 v); [|discriminate]. injection Er as <-. apply X. }
    assert (Me : exists x', nth_error (g_tasks c') t = Some x' /\ tk_prev x' = tk_prev x /\ tk_set x' = tk_set x /\ tk_sched x' = true /\
              ((exists ns, tk_stack x' = ns /\ tk_result x' = None /\ match k with CGo f' => ns = f' :: rest | CCall f' g => ns = g :: f' :: rest
                  | CReturn v => exists f0 r f', rest = f0 :: r /\ resume f0 v = Some f' /\ ns = f' :: r | CPanic => False end) \/
               (exists v, k = CReturn v /\ rest = [] /\ tk_stack x' = [] /\ tk_result x' = Some v))).
    { assert (X : forall g, nth_error (g_tasks (with_task c1 t g)) t = Some (g x1)).
      { intros g. rewrite with_task_nth, Nat.eqb_refl, N1. reflexivity. }
      destruct k as [f'|f' g|v|]; cbn [run_ctl] in Er; try discriminate.
      - injection Er as <-. exists (set_stack (f' :: rest) x1). split; auto. cbn. split; auto. split; auto. split; auto. left. exists (f' :: rest). split; auto. split; auto. congruence.
      - injection Er as <-. exists (set_stack (g :: f' :: rest) x1). split; auto. cbn. split; auto. split; auto. split; auto. left. eexists. split; [reflexivity|]. split; auto. congruence.
      - destruct rest as [|f0 r].
        + injection Er as <-. exists (set_result v x1). split; auto. cbn. split; auto. split; auto. split; auto. right. eauto.
        + destruct (resume f0 v) as [f'|] eqn:Ef; [|discriminate]. injection Er as <-. exists (set_stack (f' :: r) x1). split; auto. cbn. split; auto. split; auto. split; auto.
          left. eexists. split; [reflexivity|]. split. congruence. eauto 6. }
    destruct Me as (x' & N' & X1 & X2 & X3 & X4).
    assert (Sn : incl (g_sent c) (g_sent c1)).
    { clear - Ea. destruct (frame_req f); cbn [SearchModel.access] in Ea; try discriminate; intros z Hz.
      - destruct (sm_get mhash (g_map c) s); [|discriminate]. now injection Ea as <- _.
      - destruct (sm_set mhash (g_map c) s st); [|discriminate]. now injection Ea as <- _.
      - destruct (sm_get_lock mhash (g_map c) s (g_next c)) as [[id|m]|]; try discriminate; now injection Ea as <- _.
      - destruct (sm_unlock mhash (g_map c) s); [|discriminate]. injection Ea as <- _. now right.
      - destruct (existsb (Nat.eqb id) (g_sent c)); [|discriminate]. now injection Ea as <- _.
      - destruct (nth_error (g_tasks c) t) as [y|]; [|discriminate]. destruct (tk_result y). now injection Ea as <- _.
        destruct (tk_cancel y); [discriminate|]. now injection Ea as <- _.
      - now injection Ea as <- _.
      - now injection Ea as <- _.
      - injection Ea as <- _. destruct (cancel_all_shared ts c) as (_ & _ & ->). auto.
      - now injection Ea as <- _. }
    split; [|split; [exact G'|split; [|split; [exact D|split; [exact M1|split; [exact M2|exact Oth]]]]]].
    + constructor.
      * now apply steps_one.
      * now rewrite M1.
      * now rewrite M2.
      * intros v y Ny. destruct (Nat.eq_dec v t) as [->|Dv].
        -- rewrite N in Ny. injection Ny as <-. exists x'. split; auto. split; auto. split; auto. split; auto. split; [|split].
           ++ intros r Hr. congruence.
           ++ intros _ r Hr. destruct X4 as [(ns & _ & Hn & _)|(v & -> & -> & _ & Hv)]; [congruence|]. rewrite Hv in Hr. injection Hr as <-.
              rewrite (return_cur c t x f [] c1 v I N E Ea). f_equal.
              destruct (stack_split chash mhash c t x f [] I N E) as (_ & Fi & _). destruct f as [s lim pc|prev s pc|s pc]; cbn in Fi.
              ** exfalso. cbn [SearchModel.frame_req] in Ea. destruct pc; cbn [main_req SearchModel.access] in Ea; try discriminate.
                 destruct (sm_get _ _ _); discriminate. destruct (closed st || _); discriminate.
              ** cbn [fset]. congruence.
              ** destruct Fi.
           ++ intros H. exfalso. apply (H f rest E HP).
        -- rewrite (Oth v Dv). destruct (access_old chash mhash c _ c1 k Ea v y Ny) as (y1 & Ny1 & (W1 & W2 & W3 & W4 & W5 & W6)).
           exists y1. split; auto. split; auto. split; auto. split; auto. split; [congruence|]. split; auto. congruence.
    + destruct k as [f'|f' g|v|]; cbn [ends].
      * exists x'. split; auto. split; auto. destruct X4 as [(ns & <- & _ & H)|(v & H & _)]; [auto|discriminate].
      * exists x'. split; auto. split; auto. destruct X4 as [(ns & <- & _ & H)|(v & H & _)]; [auto|discriminate].
      * destruct X4 as [(ns & Hs & _ & (f0 & r & f' & -> & Ef & Hns))|(v' & Hv & -> & H1 & H2)].
        -- exists f'. split; auto. exists x'. split; auto. split; auto. congruence.
        -- injection Hv as <-. exists x'. auto.
      * destruct X4 as [(ns & _ & _ & [])|(v' & Hv & _)]. discriminate.
Qed.

(* dropping the innermost frame of a cancelled task *)
Lemma quiet_drop (P : nat -> OutputSet -> Prop) c t x f rest : Good c -> nth_error (g_tasks c) t = Some x -> tk_cancel x = true -> tk_stack x = f :: rest ->
  P t (fset f) -> exists c', quiet P c c' /\ Good c' /\
    (exists x', nth_error (g_tasks c') t = Some x' /\ tk_stack x' = rest) /\
    (forall s id, held f = Some (s, id) -> In id (g_sent c') /\ lock_of (g_map c') s = None).
Proof.
  intros G N Cx E HP. pose proof (good_inv c G) as I. pose proof (drop_inv chash mhash c t I) as DI.
  unfold SearchModel.drop_frame in DI. rewrite N, Cx, E in DI. cbn [negb] in DI.
  set (c1 := cancel_all (all_running (frame_edges f)) c) in *. cbv zeta in DI. set (c2 := with_task c1 t (set_stack rest)) in *.
  destruct (cancel_all_evolve chash mhash (all_running (frame_edges f)) c t x N) as (x1 & N1 & (V1 & V2 & V3 & V4 & V5 & V6) & _). fold c1 in N1.
  assert (Rn : tk_result x = None).
  { destruct (tk_result x) as [v|] eqn:Ev; auto. destruct (inv_core _ _ c I _ (nth_error_In _ _ (nth_cores c t x N))) as (_ & _ & H).
    destruct (H v Ev) as (_ & H'). cbn in H'. congruence. }
  assert (X : exists c', drop_frame c t = Stepped c' /\ g_tasks c' = g_tasks c2 /\ state_shards (g_map c') = state_shards (g_map c) /\
            incl (g_sent c) (g_sent c') /\ (forall s id, held f = Some (s, id) -> In id (g_sent c') /\ lock_of (g_map c') s = None)).
  { unfold SearchModel.drop_frame. rewrite N, Cx, E. cbn [negb]. fold c1. cbv zeta. fold c2.
    assert (Ms : g_map c2 = g_map c /\ g_sent c2 = g_sent c).
    { unfold c2, c1. cbn [with_task g_map g_sent]. destruct (cancel_all_shared (all_running (frame_edges f)) c) as (-> & _ & ->). auto. }
    destruct Ms as (M1 & M2).
    destruct (held f) as [(s, id)|] eqn:Eh.
    - destruct (stack_split chash mhash c t x f rest I N E) as (Fo & _). destruct (held_work chash mhash _ _ f s id Fo Eh) as (K & Wk).
      destruct (sm_unlock_spec mhash (g_map c) s (mi_ok _ _ _ (inv_map _ _ c I)) (work_okk _ K Wk)) as (m' & Em & _ & Es & El).
      rewrite M1, Em. eexists. split; [reflexivity|]. cbn [g_tasks g_map g_sent]. split; auto. split; auto. split. rewrite M2. intros z Hz; now right.
      intros s' id' H. injection H as <- <-. split. now left. rewrite El by apply K. destruct (os_eq_dec s s); [auto|contradiction].
    - eexists. split; [reflexivity|]. split; auto. rewrite M1, M2. split; auto. split. intros z Hz; auto. discriminate. }
  destruct X as (c' & Ed & Et & Es & Hi & Hh). exists c'.
  assert (St : sys_step c c') by now apply (SysDrop chash mhash c t).
  split; [|split; [now apply (good_step chash mhash c)|split; [|exact Hh]]].
  - constructor; auto. now apply steps_one. intros v y Ny. rewrite Et. unfold c2. rewrite with_task_nth.
    destruct (cancel_all_evolve chash mhash (all_running (frame_edges f)) c v y Ny) as (y1 & Ny1 & (W1 & W2 & W3 & W4 & W5 & W6) & _). fold c1 in Ny1.
    rewrite Ny1. destruct (Nat.eqb_spec v t) as [->|Dv]; cbn [option_map].
    + rewrite N in Ny. injection Ny as <-. eexists. split; [reflexivity|]. cbn. split; auto. split; auto. split; auto. split; [congruence|]. split; [congruence|].
      intros H. exfalso. now apply (H f rest).
    + exists y1. split; auto. split; auto. split; auto. split; auto. split; [congruence|]. split; auto. congruence.
  - rewrite Et. unfold c2. rewrite with_task_nth, Nat.eqb_refl, N1. eexists. split; [reflexivity|]. reflexivity.
Qed.
End Quiet.
