(* A quantity that every change of the map decreases. *)
From Coq Require Import List Arith Bool Lia Permutation.
Import ListNotations.
From Verif Require Import Spec Vec Net Graded Bits Util CountProofs OutputSetModel OutputSetProofs PruneProofs PackProofs HuffmanModel HuffmanProofs CanonModel TreeModel StatesModel StatesProofs StatesBounds SearchModel SearchFacts SearchInv SearchEdges SearchStep SearchFrames SearchGlobal SearchRun SearchSafe SearchOrder SearchWaits SearchMain SearchClosed.

(* ---- a finite list of sets that contains all sets of the search ---- *)
Fixpoint bool_lists (n : nat) : list (list bool) :=
  match n with
  | 0 => [[]]
  | S k => flat_map (fun l => [true :: l; false :: l]) (bool_lists k)
  end.
Lemma bool_lists_In n : forall l, In l (bool_lists n) <-> length l = n.
Proof.
  induction n as [|n IH]; intros l; cbn [bool_lists].
  - split. intros [<-|[]]; auto. destruct l; [left; auto|discriminate].
  - rewrite in_flat_map. split.
    + intros (r & Hr & [<-|[<-|[]]]); cbn [length]; f_equal; now apply IH.
    + destruct l as [|b r]; [discriminate|]. cbn [length]. intros H. injection H as H. exists r. split. now apply IH. destruct b; simpl; auto.
Qed.
Definition universe : list OutputSet :=
  flat_map (fun c => map (mkOutputSet c) (bool_lists (2 ^ c))) (seq 0 12).
Lemma universe_In s : In s universe <-> wf s /\ channels s <= 11.
Proof.
  unfold universe. rewrite in_flat_map. split.
  - intros (c & Hc & H). apply in_map_iff in H. destruct H as (l & <- & H). apply in_seq in Hc. apply bool_lists_In in H. unfold wf. cbn [channels bitmap]. split; [auto|lia].
  - intros (W & H). exists (channels s). split. apply in_seq; lia. apply in_map_iff. exists (bitmap s). destruct s as [c b]. cbn [channels bitmap] in *.
    split; auto. apply bool_lists_In. exact W.
Qed.
Global Opaque universe.

Lemma sumf_less {A} (f g : A -> nat) l a : In a l -> f a < g a -> (forall b, In b l -> f b <= g b) -> sumf f l < sumf g l.
Proof.
  induction l as [|b l IH]; intros H L B; [destruct H|]. unfold sumf in *. cbn [fold_right].
  assert (R : fold_right (fun a s => f a + s) 0 l <= fold_right (fun a s => g a + s) 0 l).
  { clear IH H. induction l as [|x l IH]; auto. cbn [fold_right]. specialize (B x) as Bx. cbn in Bx.
    assert (f x <= g x) by (apply Bx; auto). assert (H' : forall b0, In b0 (b :: l) -> f b0 <= g b0). { intros y [<-|Hy]; apply B; simpl; auto. }
    specialize (IH H'). lia. }
  destruct H as [<-|H]. lia. specialize (B b (or_introl eq_refl)) as Bb. specialize (IH H L (fun x Hx => B x (or_intror Hx))). lia.
Qed.

(* what a state may still improve *)
Definition slack (st : State) : nat := (hi st - lo st) * 100 + (35 - hlo st) + hhi st.

Section Slack.
Variables chash mhash : list nat -> nat.
Notation cur := (cur mhash).
Notation map_inv := (map_inv chash mhash).
Notation Inv := (Inv chash mhash).
Notation frame_req := (frame_req chash).
Notation frame_ok := (frame_ok chash mhash).
Notation stack_ok := (stack_ok chash mhash).
Notation fits := (fits mhash).
Notation access := (access mhash).
Notation task_step := (task_step chash mhash).
Notation sys_step := (sys_step chash mhash).
Notation search_run := (search_run chash mhash).

Definition potential (m : StateMap) : nat := sumf (fun s => slack (cur m s)) universe.

(* the bounds for the Huffman part *)
Definition hbounds (m : StateMap) : Prop := forall s, okset s -> hlo (cur m s) <= lo (cur m s) /\ hhi (cur m s) <= 35.

Lemma potential_same m m' : state_shards m' = state_shards m -> potential m' = potential m.
Proof. intros H. unfold potential. apply sumf_ext. intros s _. now rewrite (same_cur mhash m m' s H). Qed.

Lemma potential_set m m' s : okset s -> slack (cur m' s) < slack (cur m s) -> (forall t, wf t -> t <> s -> cur m' t = cur m t) ->
  potential m' < potential m.
Proof.
  intros K L O. unfold potential. apply (sumf_less _ _ universe s); auto.
  - apply universe_In. split; apply K.
  - intros t Ht. apply universe_In in Ht. destruct Ht as (W & _).
    assert (D : {t = s} + {t <> s}) by (repeat decide equality). destruct D as [->|D]. lia. now rewrite (O t W D).
Qed.

(* what is written improves the state *)
Definition improves (m : StateMap) (s : OutputSet) (st : State) : Prop :=
  okset s /\ hlo st <= lo st /\ hhi st <= 35 /\ slack st < slack (cur m s).

Lemma next_req_set order e np go done s st k : next_req order e np go done <> RSet s st k.
Proof.
  destruct np as [ids f nr b| |ix ids b|ids b t]; cbn [next_req]; try discriminate.
  - destruct ids as [|id ids]; [discriminate|]. destruct (nth_error (targets e) id) as [x|]; [|discriminate]. destruct (tg_run x); discriminate.
  - destruct ids as [|id ids]; [discriminate|]. destruct (nth_error (targets e) id) as [x|]; [|discriminate]. destruct (tg_run x).
    destruct (ix =? 0); discriminate. destruct (closed (tg_state x)); discriminate.
Qed.
Lemma add_edge_set e t k s st k' : add_edge_req e t k <> RSet s st k'.
Proof. unfold add_edge_req. destruct (find_target t (targets e) 0); discriminate. Qed.

Lemma closed_false st : closed st = false -> lo st <> hi st.
Proof. unfold closed. intros H. now apply Nat.eqb_neq in H. Qed.

Lemma write_improves m goal root rest f s st k : map_inv m -> hbounds m -> frame_ok m goal f -> fits m root (hd_error rest) f ->
  stack_ok m goal root rest -> frame_req f = RSet s st k -> improves m s st.
Proof.
  intros IM HB F Fi SO R.
  assert (LH : forall s, okset s -> lo (cur m s) <= hi (cur m s) /\ hi (cur m s) <= 35).
  { intros t K. destruct (mi_valid chash mhash m IM t K) as (L & U). pose proof (lower_upper _ _ _ _ L U). pose proof (mi_small chash mhash m IM t K). lia. }
  destruct f as [s0 lim pc|prev s0 pc|s0 pc]; cbn [SearchModel.frame_req] in R.
  - destruct pc; cbn [main_req] in R; try discriminate. destruct (closed st0 || _); discriminate.
  - destruct F as (K & F). destruct (HB s0 K) as (B1 & B2). destruct (LH s0 K) as (L1 & L2).
    destruct pc; cbn [imp_req] in R; try discriminate.
    + (* IPrUpper *)
      destruct F as ((_ & C & _ & Cl) & _ & P). apply closed_false in Cl. destruct (Nat.ltb_spec (hi pst) (hi st0)) as [Hu|Hu]; [|discriminate].
      injection R as <- <- <-. split; auto. rewrite C in *. unfold slack. cbn [lo hi hlo hhi]. destruct P as (_ & _ & P). split; [lia|]. split; lia.
    + (* IPrLower *)
      destruct F as ((_ & C & _ & Cl) & _ & P). apply closed_false in Cl. destruct (Nat.ltb_spec (lo st0) (lo pst)) as [Hu|Hu]; [|discriminate].
      injection R as <- <- <-. split; auto. rewrite C in *. unfold slack. cbn [lo hi hlo hhi]. split; [lia|]. split; lia.
    + destruct todo as [|(i, j) todo]; [discriminate|]. destruct (apply_comparator s0 i j) as (t, ch). destruct ch; [|discriminate].
      destruct (canon chash t); [|discriminate]. now apply add_edge_set in R.
    + (* IUpper *)
      destruct F as ((_ & C & _ & Cl) & _). apply closed_false in Cl. destruct (m0 <- list_min (map hi (edge_states e));; u8_succ m0) as [ub|]; [|discriminate].
      destruct (Nat.ltb_spec ub (hi st0)) as [Hu|Hu]; [|discriminate]. injection R as <- <- <-. split; auto. rewrite C in *. unfold slack. cbn [lo hi hlo hhi].
      destruct (Nat.ltb_spec ub (hhi st0)); split; try lia; split; lia.
    + destruct (m0 <- list_min (map lo (edge_states e));; u8_succ m0) as [ub|]; [|discriminate]. destruct (lo st0 <? ub); discriminate.
    + (* ILowSet *)
      destruct F as ((_ & C & _ & Cl) & _ & Hl & Hn & _). apply closed_false in Cl. injection R as <- <- <-. split; auto. rewrite C in *.
      remember (lo new) as b. rewrite Hn. unfold slack. cbn [lo hi hlo hhi]. split; [lia|]. split; lia.
    + now apply next_req_set in R.
  - destruct F as (K & Wk & F). destruct (HB s0 K) as (B1 & B2). destruct (LH s0 K) as (L1 & L2).
    apply (fits_huff chash) in Fi. destruct Fi as (prev & lk & st0 & Eh & Hr). destruct rest as [|g rest]; [discriminate|]. cbn [hd_error] in Eh. injection Eh as ->.
    destruct SO as (Fg & _). destruct Fg as (_ & _ & _ & Cl). apply closed_false in Cl.
    destruct pc; cbn [huff_req] in R; try discriminate.
    + destruct todo as [|(pol, c) todo]; [destruct (huff_while _ _ _ _ _ _ _); discriminate|]. destruct (prune_canon chash s0 pol c); [|discriminate]. now apply add_edge_set in R.
    + destruct (lo st1 <? (if pol then uh1 else uh0)); [|discriminate].
      match goal with H : context [match ?a with _ => _ end] |- _ => destruct a as [(lh, uh)|] end; [|discriminate].
      destruct (uh <=? lo st1); [|discriminate]. destruct (retain_edges _ e); discriminate.
    + (* HPolSet *)
      cbn [huff_rel] in Hr. destruct Hr as (E1 & E2). destruct F as ((C & _) & pol' & r & Er & Hlh).
      destruct (Nat.ltb_spec (hlo st1) lh) as [H1|H1]; [|discriminate]. rewrite C in *.
      destruct (Nat.ltb_spec (lo st1) lh) as [H2|H2]; injection R as <- <- <-; split; auto; unfold slack; rewrite ?C; cbn [lo hi hlo hhi]; split; try lia; split; lia.
    + (* HMax *)
      destruct F as (C & _). destruct (Nat.ltb_spec (Nat.max uh0 uh1) (hhi st1)) as [H1|H1]; [|discriminate]. rewrite C in *.
      injection R as <- <- <-; split; auto; unfold slack; rewrite ?C; cbn [lo hi hlo hhi]; split; [lia|]; split; lia.
    + now apply next_req_set in R.
Qed.

(* only set changes the states *)
Lemma access_shards c r c1 k : access c r = ADone c1 k -> (forall s st k', r <> RSet s st k') -> state_shards (g_map c1) = state_shards (g_map c).
Proof.
  intros Ea Ns. destruct r as [s k0|s st k0|s got busy|s id k0|id k0|u k0|prev s pend k0|u k0|ts k0|k0|]; cbn [SearchModel.access] in Ea; try discriminate.
  - destruct (sm_get mhash (g_map c) s); [|discriminate]. now injection Ea as <- _.
  - now destruct (Ns s st k0).
  - destruct (sm_get_lock mhash (g_map c) s (g_next c)) as [[id|m]|] eqn:El; try discriminate; injection Ea as <- _. auto.
    cbn [g_map]. eapply lock_shards_same; eauto.
  - destruct (sm_unlock mhash (g_map c) s) eqn:El; [|discriminate]. injection Ea as <- _. cbn [g_map]. eapply unlock_shards; eauto.
  - destruct (existsb (Nat.eqb id) (g_sent c)); [|discriminate]. now injection Ea as <- _.
  - destruct (nth_error (g_tasks c) u) as [y|]; [|discriminate]. destruct (tk_result y). now injection Ea as <- _.
    destruct (tk_cancel y); [discriminate|]. now injection Ea as <- _.
  - now injection Ea as <- _.
  - now injection Ea as <- _.
  - injection Ea as <- _. now rewrite cancel_all_map.
  - now injection Ea as <- _.
Qed.

Lemma run_ctl_map c t rest k c' : run_ctl c t rest k = Stepped c' -> g_map c' = g_map c /\ g_next c' = g_next c /\ g_sent c' = g_sent c.
Proof.
  destruct k as [f|f g|v|]; cbn [run_ctl]; try discriminate.
  - intros H. now injection H as <-.
  - intros H. now injection H as <-.
  - destruct rest as [|f0 r]. intros H. now injection H as <-. destruct (resume f0 v); [|discriminate]. intros H. now injection H as <-.
Qed.

Lemma stack_split c t x f rest : Inv c -> nth_error (g_tasks c) t = Some x -> tk_stack x = f :: rest ->
  frame_ok (g_map c) (goal_in (cores c)) f /\ fits (g_map c) (tk_prev x, tk_set x) (hd_error rest) f /\
  stack_ok (g_map c) (goal_in (cores c)) (tk_prev x, tk_set x) rest.
Proof.
  intros I N E. pose proof (inv_core _ _ c I (core x) (nth_error_In _ _ (nth_cores c t x N))) as (_ & Sk & _). cbn [c_stack core c_root] in Sk. rewrite E in Sk.
  exact Sk.
Qed.

Lemma hbounds_same m m' : state_shards m' = state_shards m -> hbounds m -> hbounds m'.
Proof. intros E H s K. rewrite (same_cur mhash m m' s E). auto. Qed.

Lemma write_lower c t x f rest s st k : Inv c -> hbounds (g_map c) -> nth_error (g_tasks c) t = Some x -> tk_stack x = f :: rest ->
  frame_req f = RSet s st k ->
  exists m', access c (RSet s st k) = ADone (set_map c m') k /\ potential m' < potential (g_map c) /\ hbounds m'.
Proof.
  intros I HB N E R. destruct (stack_split c t x f rest I N E) as (Fo & Fi & Sk).
  pose proof (frame_req_ok chash mhash _ _ _ _ f (inv_map _ _ c I) Fo Fi Sk) as RO. rewrite R in RO.
  destruct RO as (_ & K & Wk & L & U & JL & JU & _).
  destruct (write_improves _ _ _ _ _ _ _ _ (inv_map _ _ c I) HB Fo Fi Sk R) as (_ & H1 & H2 & H3).
  destruct (set_map_inv chash mhash (g_map c) s st (inv_map _ _ c I) K Wk L U JL JU) as (m' & Em & _ & _ & _ & Cs & Co).
  exists m'. cbn [SearchModel.access]. rewrite Em. split; auto. split.
  - apply (potential_set (g_map c) m' s); auto. now rewrite Cs.
  - intros t0 K0. destruct (os_eq_dec t0 s) as [->|D]. rewrite Cs; auto. rewrite (Co t0 (proj1 K0) D). auto.
Qed.

Lemma step_slack c c' : Inv c -> hbounds (g_map c) -> sys_step c c' ->
  hbounds (g_map c') /\ (state_shards (g_map c') = state_shards (g_map c) \/ potential (g_map c') < potential (g_map c)).
Proof.
  intros I HB H.
  assert (SAME : state_shards (g_map c') = state_shards (g_map c) ->
    hbounds (g_map c') /\ (state_shards (g_map c') = state_shards (g_map c) \/ potential (g_map c') < potential (g_map c))).
  { intros E. split; auto. now apply (hbounds_same (g_map c)). }
  destruct H as [c t c' H|c t x N P|c t c' H].
  - unfold SearchModel.task_step in H. destruct (nth_error (g_tasks c) t) as [x|] eqn:N; [|discriminate]. destruct (negb (tk_sched x)); [discriminate|].
    destruct (tk_stack x) as [|f rest] eqn:E; [discriminate|].
    destruct (access c (frame_req f)) as [| |c1 k] eqn:Ea; try discriminate.
    apply run_ctl_map in H. destruct H as (Hm & _).
    assert (D : (exists s st k', frame_req f = RSet s st k') \/ forall s st k', frame_req f <> RSet s st k').
    { destruct (frame_req f); try (right; discriminate). left; eauto. }
    destruct D as [(s & st & k' & R)|D].
    + destruct (write_lower c t x f rest s st k' I HB N E R) as (m' & Ew & L & HB'). rewrite R, Ew in Ea. injection Ea as <- _.
      rewrite Hm. cbn [g_map set_map]. auto.
    + apply SAME. rewrite Hm. apply (access_shards c (frame_req f) c1 k); auto.
  - apply SAME. reflexivity.
  - apply SAME. unfold drop_frame in H. destruct (nth_error (g_tasks c) t) as [x|] eqn:N; [|discriminate]. destruct (negb (tk_cancel x)); [discriminate|].
    destruct (tk_stack x) as [|f rest] eqn:E; [discriminate|].
    destruct (held f) as [(s, id)|].
    + match type of H with context [sm_unlock ?h ?m ?x] => destruct (sm_unlock h m x) eqn:El; [|discriminate] end. injection H as <-.
      cbn [g_map]. apply unlock_shards in El. rewrite El, with_task_map, cancel_all_map. reflexivity.
    + injection H as <-. now rewrite with_task_map, cancel_all_map.
Qed.

Lemma start_hbounds threads : hbounds (sm_default threads).
Proof.
  intros s K. unfold StatesBounds.cur. rewrite sm_default_stored. destruct K as (_ & M & _). unfold default_state. destruct (is_sorted s). cbn; lia.
  destruct (Nat.leb_spec (channels s) 2). cbn; lia. cbn [hi hhi lo hlo]. split; auto.
  generalize dependent (channels s). intros n M _. do 12 (destruct n as [|n]; [vm_compute; lia|]). lia.
Qed.
End Slack.
