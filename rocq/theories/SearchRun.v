(* Every step of the search keeps the invariant, and no step panics. *)
From Coq Require Import List Arith Bool Lia Permutation.
Import ListNotations.
From Verif Require Import Spec Vec Net Graded Bits Util OutputSetModel OutputSetProofs PruneProofs PackProofs HuffmanModel HuffmanProofs CanonModel TreeModel StatesModel StatesProofs StatesBounds SearchModel SearchFacts SearchInv SearchEdges SearchStep SearchFrames SearchGlobal.

Section Run.
Variables chash mhash : list nat -> nat.
Notation cur := (cur mhash).
Notation succs := (succs chash).
Notation succ1 := (succ1 chash).
Notation prunes := (prunes chash).
Notation prune_of := (prune_of chash).
Notation map_inv := (map_inv chash mhash).
Notation past := (past mhash).
Notation edges_ok := (edges_ok mhash).
Notation justL := (justL chash mhash).
Notation justU := (justU chash mhash).
Notation tight := (tight mhash).
Notation frame_ok := (frame_ok chash mhash).
Notation fits := (fits mhash).
Notation stack_ok := (stack_ok chash mhash).
Notation result_ok := (result_ok mhash).
Notation imp_ok := (imp_ok chash mhash).
Notation huff_ok := (huff_ok chash mhash).
Notation huff_edges := (huff_edges chash mhash).
Notation succ_edges := (succ_edges chash mhash).
Notation base := (base mhash).
Notation frame_req := (frame_req chash).
Notation ctl_ok := (ctl_ok chash mhash).
Notation req_ok := (req_ok chash mhash).
Notation access := (access mhash).
Notation lock_of := (lock_of mhash).
Notation core_ok := (core_ok chash mhash).
Notation Inv := (Inv chash mhash).
Notation lock_inv := (lock_inv mhash).

Lemma same_cur m m' s : state_shards m' = state_shards m -> cur m' s = cur m s.
Proof. intros E. unfold StatesBounds.cur, stored. now rewrite E. Qed.

Lemma same_tight m m' : state_shards m' = state_shards m -> tight m m'.
Proof. intros E s K. rewrite (same_cur m m' s E). auto. Qed.

Lemma same_map_inv m m' : state_shards m' = state_shards m -> sm_ok mhash m' -> map_inv m -> map_inv m'.
Proof.
  intros E O I. destruct m as [a b], m' as [a' b']. cbn in E. subst a'. destruct I as [I1 I2 I3 I4 I5 I6]. constructor; assumption.
Qed.

Lemma set_map_inv m s st : map_inv m -> okset s -> work s -> lo (cur m s) <= lo st -> hi st <= hi (cur m s) ->
  justL m s (lo st) -> justU m s (hi st) ->
  exists m', sm_set mhash m s st = Some m' /\ lock_shards m' = lock_shards m /\ map_inv m' /\ tight m m' /\ cur m' s = st /\
    forall t, wf t -> t <> s -> cur m' t = cur m t.
Proof.
  intros I K Wk Hl Hh JL JU. destruct (sm_set_spec mhash m s st (mi_ok _ _ _ I) (work_okk s K Wk)) as (m' & E & O & Lk & St).
  assert (Cs : cur m' s = st). { unfold StatesBounds.cur. rewrite St by apply K. destruct (os_eq_dec s s); congruence. }
  assert (Co : forall t, wf t -> t <> s -> cur m' t = cur m t).
  { intros t Wt N. unfold StatesBounds.cur. rewrite St by auto. destruct (os_eq_dec t s); congruence. }
  assert (T : tight m m').
  { intros t Kt. destruct (os_eq_dec t s) as [->|N]. rewrite Cs. auto. rewrite Co; auto. apply Kt. }
  assert (So : map_sound mhash m').
  { intros t Kt. destruct (os_eq_dec t s) as [->|N].
    - rewrite Cs. split. split. now apply (justL_sound chash mhash m). now apply (justU_sound chash mhash m).
      pose proof (mi_small _ _ _ I s K). lia.
    - rewrite Co; auto; [|apply Kt]. now apply (map_inv_sound chash). }
  exists m'. split; auto. split; auto. split; [|auto]. constructor; auto.
  - intros t Kt. now apply So.
  - intros t Kt. now apply So.
  - intros t Kt. apply (justL_tight chash mhash m m'); auto. destruct (os_eq_dec t s) as [->|N]. now rewrite Cs.
    rewrite Co; auto; [|apply Kt]. now apply (mi_justL chash mhash m I).
  - intros t Kt. apply (justU_tight chash mhash m m'); auto. destruct (os_eq_dec t s) as [->|N]. now rewrite Cs.
    rewrite Co; auto; [|apply Kt]. now apply (mi_justU chash mhash m I).
  - intros t st' Wt. rewrite St by auto. destruct (os_eq_dec t s) as [->|N]; auto. apply (mi_stored chash mhash m I); auto.
Qed.

Lemma lock_of_same m m' s : lock_shards m' = lock_shards m -> lock_of m' s = lock_of m s.
Proof. intros E. unfold StatesBounds.lock_of. now rewrite E. Qed.

Lemma ctl_ok_same m m' goal goal' root rest k H K : (forall s, cur m' s = cur m s) -> map_inv m' -> okset (snd root) ->
  later_goal goal goal' -> ctl_ok m goal root rest k H K -> ctl_ok m' goal' root rest k H K.
Proof.
  intros C I Kr L. assert (T : tight m m') by (intros s _; rewrite C; auto).
  assert (FO : forall f, frame_ok m goal f -> frame_ok m' goal' f).
  { intros f. apply frame_ok_later; auto. }
  assert (FI : forall b f, fits m root b f -> fits m' root b f).
  { intros b f. apply (fits_later mhash m m'); auto. }
  destruct k; cbn [SearchStep.ctl_ok]; auto.
  - intros (A & B & D). auto.
  - intros (A & B & D & E & F). do 4 (split; auto).
  - intros (A & B & D). split; auto. split; auto. destruct rest as [|f r].
    + apply (result_ok_later mhash m m'); auto.
    + destruct D as (f' & D1 & D2 & D3 & D4). exists f'. split; auto.
Qed.

Lemma lock_inv_same m m' next sent L : lock_shards m' = lock_shards m -> lock_inv m next sent L -> lock_inv m' next sent L.
Proof.
  intros E (A & B & C & D). split; auto. split; auto. split; auto. intros s id W. rewrite (lock_of_same m m' s E). auto.
Qed.

(* tasks that differ in flags only *)
Lemma with_task_core c u g : (forall y, core (g y) = core y) -> cores (with_task c u g) = cores c.
Proof.
  intros H. unfold cores, with_task. cbn [g_tasks]. destruct (nth_error (g_tasks c) u) as [y|] eqn:E; auto.
  destruct (upd_split _ _ _ (g y) E) as (l1 & l2 & -> & _ & ->). rewrite !map_app. cbn [map]. now rewrite H.
Qed.
Lemma with_task_nth c u g v : nth_error (g_tasks (with_task c u g)) v =
  if v =? u then option_map g (nth_error (g_tasks c) v) else nth_error (g_tasks c) v.
Proof.
  unfold with_task. cbn [g_tasks]. destruct (Nat.eqb_spec v u) as [->|N].
  - destruct (nth_error (g_tasks c) u) as [y|] eqn:E; [|now rewrite E]. rewrite nth_error_upd_eq; auto. now apply nth_error_lt in E.
  - destruct (nth_error (g_tasks c) u) as [y|] eqn:E; auto. now rewrite nth_error_upd_neq.
Qed.
Lemma with_task_core_upd c u g x y : nth_error (g_tasks c) u = Some x -> core (g x) = y -> cores (with_task c u g) = upd (cores c) u y.
Proof.
  intros E H. unfold cores, with_task. cbn [g_tasks]. rewrite E. destruct (upd_split _ _ _ (g x) E) as (l1 & l2 & -> & L & ->).
  rewrite !map_app. cbn [map]. rewrite H. clear -L. revert u L. induction l1 as [|a l1 IH]; intros u L; simpl in *; subst; auto.
  simpl. f_equal. now apply IH.
Qed.

Lemma cancel_all_core ts : forall c, cores (cancel_all ts c) = cores c.
Proof.
  induction ts as [|u ts IH]; intros c; simpl; auto. unfold cancel_all in *. rewrite IH. apply with_task_core. auto.
Qed.
Lemma cancel_all_shared ts : forall c, g_map (cancel_all ts c) = g_map c /\ g_next (cancel_all ts c) = g_next c /\ g_sent (cancel_all ts c) = g_sent c.
Proof. induction ts as [|u ts IH]; intros c; simpl; auto. unfold cancel_all in *. destruct (IH (with_task c u set_cancel)) as (-> & -> & ->). auto. Qed.
Lemma cancel_all_nth ts v : ~ In v ts -> forall c, nth_error (g_tasks (cancel_all ts c)) v = nth_error (g_tasks c) v.
Proof.
  induction ts as [|u ts IH]; intros N c; simpl; auto. unfold cancel_all in *. rewrite IH; [|simpl in N; tauto]. rewrite with_task_nth.
  destruct (Nat.eqb_spec v u) as [->|]; auto. simpl in N. tauto.
Qed.

Lemma NoDup_app_inv {A} (l l' : list A) : NoDup (l ++ l') -> NoDup l /\ NoDup l' /\ forall x, In x l -> ~ In x l'.
Proof.
  induction l as [|a l IH]; simpl; intros N. { split. constructor. auto. }
  inversion N as [|? ? N1 N2]; subst. destruct (IH N2) as (A1 & A2 & A3). split; [|split; auto].
  - constructor; auto. intros H. apply N1. apply in_app_iff. auto.
  - intros x [<-|Hx]; auto. intros H. apply N1. apply in_app_iff. auto.
Qed.

Definition added (l : list Core) : Prop := l = [] \/ exists prev s, okset s /\ l = [mkCore (prev, s) [FImp prev s ILook] None].

Definition step_ok (c : Config) (root : State * OutputSet) (f : Frame) (rest : list Frame) (c1 : Config) (k : Ctl) : Prop :=
  exists new H1 K1, cores c1 = cores c ++ new /\ added new /\
    map_inv (g_map c1) /\ tight (g_map c) (g_map c1) /\
    (forall s, wf s -> own f <> Some s -> cur (g_map c1) s = cur (g_map c) s) /\
    ctl_ok (g_map c1) (goal_in (cores c1)) root rest k H1 K1 /\
    (forall R, Permutation (flat_map hl (frames (cores c))) (hl f ++ R) ->
       lock_inv (g_map c1) (g_next c1) (g_sent c1) (H1 ++ R) /\
       (forall id, sent_or_held (g_sent c) (hl f ++ R) id -> sent_or_held (g_sent c1) (H1 ++ R) id) /\
       (forall id, In id (ctl_waits k) -> sent_or_held (g_sent c1) (H1 ++ R) id)) /\
    (forall R, Permutation (flat_map kids (frames (cores c))) (kids f ++ R) -> kid_inv (g_tasks c1) (K1 ++ R)).

Lemma goal_app l new : later_goal (goal_in l) (goal_in (l ++ new)).
Proof.
  intros t g. unfold goal_in. destruct (nth_error l t) as [y|] eqn:E; [|discriminate]. rewrite nth_error_app1. now rewrite E.
  now apply nth_error_lt in E.
Qed.

Theorem access_ok c t x f rest : Inv c -> nth_error (cores c) t = Some x -> c_stack x = f :: rest ->
  match access c (frame_req f) with
  | APanic => False
  | ABlocked => True
  | ADone c1 k => step_ok c (c_root x) f rest c1 k
  end.
Proof.
  intros I N E. pose proof (inv_core _ _ c I x (nth_error_In _ _ N)) as (Kr & S & _). rewrite E in S. destruct S as (F & Ft & S).
  pose proof (frame_req_ok chash mhash _ _ _ _ _ (inv_map _ _ c I) F Ft S) as R. pose proof (frame_req_waits chash f) as Wt.
  pose proof (inv_lock _ _ c I) as IL. pose proof (inv_kid _ _ c I) as IK.
  assert (LG : later_goal (goal_in (cores c)) (goal_in (cores c))) by (intros u g; auto).
  (* accesses that leave everything but the flags of tasks as it is *)
  assert (SAME : forall c1 k K1, g_map c1 = g_map c -> g_next c1 = g_next c -> g_sent c1 = g_sent c -> cores c1 = cores c ->
            ctl_ok (g_map c) (goal_in (cores c)) (c_root x) rest k (hl f) K1 -> ctl_waits k = [] ->
            (forall R, Permutation (flat_map kids (frames (cores c))) (kids f ++ R) -> kid_inv (g_tasks c1) (K1 ++ R)) ->
            step_ok c (c_root x) f rest c1 k).
  { intros c1 k K1 E1 E2 E3 E4 C W KI. exists [], (hl f), K1. rewrite E1, E2, E3, E4, app_nil_r. split; auto. split. left; auto.
    split. apply I. split. apply tight_refl. split; auto. split; auto. split; auto. intros R0 P. split. apply (lock_inv_perm mhash _ _ _ _ _ P IL).
    split; auto. rewrite W. intros id []. }
  assert (KS : forall R, Permutation (flat_map kids (frames (cores c))) (kids f ++ R) -> kid_inv (g_tasks c) (kids f ++ R)).
  { intros R0 P. apply (kid_inv_perm _ _ _ P IK). }
  destruct (frame_req f) as [s k|s st k|s got busy|s id k|id k|u k|prev s pend k|u k|ts k|k|] eqn:EF;
    cbn [SearchModel.access]; cbn [SearchStep.req_ok] in R; cbn [req_waits] in Wt.
  - (* get *)
    destruct R as (K & R). rewrite (sm_get_cur mhash _ s (mi_ok _ _ _ (inv_map _ _ c I)) (proj1 K)).
    apply (SAME c _ (kids f)); auto.
  - (* set *)
    destruct R as (Ow & K & Wk & Hl & Hh & JL & JU & R).
    destruct (set_map_inv _ s st (inv_map _ _ c I) K Wk Hl Hh JL JU) as (m' & -> & Lk & I' & T & Cs & Co).
    exists [], (hl f), (kids f). unfold cores. cbn [set_map g_map g_next g_sent g_tasks]. rewrite app_nil_r. split; auto.
    split. left; auto. split; auto. split; auto. split. { intros s' W' N'. apply Co; auto. congruence. } split. now apply R.
    split; auto. intros R0 P. split. { apply (lock_inv_same (g_map c)); auto. apply (lock_inv_perm mhash _ _ _ _ _ P IL). }
    split; auto. rewrite Wt. intros id [].
  - (* lock *)
    destruct R as (K & Wk & Hf & Kf & Rg & Rb). destruct Wt as (Wg & Wb).
    pose proof (sm_get_lock_spec mhash (g_map c) s (g_next c) (mi_ok _ _ _ (inv_map _ _ c I)) (work_okk s K Wk)) as G.
    destruct (lock_of (g_map c) s) as [i|] eqn:EL.
    + rewrite G. exists [], [], []. rewrite app_nil_r. split; auto. split. left; auto. split. apply I. split. apply tight_refl.
      split; auto. split. apply Rb. rewrite Hf, Kf in *. split; auto.
      * intros R0 P. split. apply (lock_inv_perm mhash _ _ _ _ _ P IL). split; auto. rewrite Wb. intros j [<-|[]]. right.
        apply (Permutation_in _ P). destruct IL as (_ & _ & IL & _). apply IL in EL; [|apply K]. auto.
    + destruct G as (m' & -> & O & Ss & Lo). exists [], [(s, g_next c)], []. unfold cores. cbn [g_map g_next g_sent g_tasks]. rewrite app_nil_r.
      assert (I' : map_inv m') by (apply (same_map_inv (g_map c)); auto; apply I).
      split; auto. split. left; auto. split; auto. split. now apply same_tight. split. { intros. now apply same_cur. }
      split. { apply (ctl_ok_same (g_map c) m' (goal_in (cores c)) (goal_in (map core (g_tasks c)))); auto. intros s'. now apply same_cur. }
      rewrite Kf in KS. split; [|rewrite Kf; exact KS]. rewrite Hf. intros R0 P.
      destruct (lock_inv_perm mhash _ _ _ _ _ P IL) as (A & A' & B & C & D). cbn [app] in *. split; [|split].
      * split; [|split; [|split; [|split]]].
        -- cbn [map fst]. constructor; auto. intros H. apply in_map_iff in H. destruct H as ((s', i) & Es & Hi). cbn in Es. subst s'.
           apply B in Hi; [congruence|apply K].
        -- cbn [map snd]. constructor; auto. intros H. apply in_map_iff in H. destruct H as ((s', i) & Es & Hi). cbn in Es. subst i.
           apply C in Hi. lia.
        -- intros s' i W'. rewrite Lo by auto. destruct (os_eq_dec s' s) as [->|Ne].
           ++ split. { intros H. injection H as <-. simpl. auto. } intros [H|H]; [congruence|]. apply B in H; auto. congruence.
           ++ rewrite (B s' i W'). simpl. split; auto. intros [H|H]; auto. congruence.
        -- intros s' i [H|H]. { injection H as <- <-. split; auto. intros Hs. apply D in Hs. lia. }
           destruct (C s' i H). split; auto.
        -- intros i Hi. apply D in Hi. auto.
      * intros i [H|H]; [left; auto|right; simpl; auto].
      * rewrite Wg. intros i [].
  - (* unlock *)
    destruct R as (Hf & K & Wk & Kf & R). destruct (sm_unlock_spec mhash (g_map c) s (mi_ok _ _ _ (inv_map _ _ c I)) (work_okk s K Wk)) as (m' & -> & O & Ss & Lo).
    exists [], [], []. unfold cores. cbn [g_map g_next g_sent g_tasks]. rewrite app_nil_r.
    assert (I' : map_inv m') by (apply (same_map_inv (g_map c)); auto; apply I).
    split; auto. split. left; auto. split; auto. split. now apply same_tight. split. { intros. now apply same_cur. }
    split. { apply (ctl_ok_same (g_map c) m' (goal_in (cores c)) (goal_in (map core (g_tasks c)))); auto. intros s'. now apply same_cur. }
    rewrite Kf in KS. split; [|rewrite Kf; exact KS]. unfold hl. rewrite Hf. cbn [opt_list app]. intros R0 P. fold (hl) in P.
    destruct (lock_inv_perm mhash _ _ _ _ _ P IL) as (A & A' & B & C & D). cbn [map fst snd] in A, A'.
    inversion A as [|? ? A1 A2]; subst. inversion A' as [|? ? A1' A2']; subst. split; [|split].
    + split; auto. split; auto. split; [|split].
      * intros s' i W'. rewrite Lo by auto. destruct (os_eq_dec s' s) as [->|Ne].
        -- split; [discriminate|]. intros H. exfalso. apply A1. apply in_map_iff. exists (s, i). auto.
        -- rewrite (B s' i W'). simpl. split; auto. intros [H|H]; auto. congruence.
      * intros s' i H. destruct (C s' i (or_intror H)) as (C1 & C2). split; auto. intros [<-|Hi]; auto.
        apply A1'. apply in_map_iff. exists (s', id). auto.
      * intros i [<-|Hi]; auto. apply (C s id). simpl. auto.
    + intros (s', i) [H|[H|H]]; [left; simpl; auto|injection H as <- <-; left; simpl; auto|right; auto].
    + rewrite Wt. intros i [].
  - (* wait *)
    destruct (existsb _ _); auto. apply (SAME c _ (kids f)); auto.
  - (* poll *)
    destruct R as (Hu & Rn & Rs).
    assert (Ku : In u (flat_map kids (frames (cores c)))).
    { apply in_flat_map. exists f. split; auto. apply in_flat_map. exists x. split. eapply nth_error_In; eauto. rewrite E. simpl. auto. }
    destruct IK as (IK1 & IK2). destruct (IK2 u Ku) as (_ & y & Ny & Cy). rewrite Ny.
    destruct (tk_result y) as [v|] eqn:Ry.
    + apply in_split in Hu. destruct Hu as (k1 & k2 & Ek). assert (PK : Permutation (u :: k1 ++ k2) (kids f)).
      { rewrite Ek. apply Permutation_middle. }
      apply (SAME c _ (k1 ++ k2)); auto.
      * assert (Ny' : nth_error (cores c) u = Some (core y)) by (unfold cores; now rewrite nth_error_map, Ny).
        apply (Rs v (tk_sched y) (tk_prev y, tk_set y)); auto.
        -- unfold goal_in. now rewrite Ny'.
        -- destruct (inv_core _ _ c I (core y) (nth_error_In _ _ Ny')) as (_ & _ & H). now apply H.
      * intros R0 P. destruct (KS R0 P) as (A & B). rewrite <- PK in A. cbn in A. inversion A; subst. split; auto.
        intros w Hw. apply B. rewrite <- PK. simpl. auto.
    + rewrite Cy. apply (SAME c _ (kids f)); auto.
  - (* spawn *)
    destruct R as (K & R). set (c1 := mkConfig _ _ _ _).
    assert (Ec : cores c1 = cores c ++ [mkCore (prev, s) [FImp prev s ILook] None]) by (unfold cores, c1; cbn [g_tasks]; now rewrite map_app).
    exists [mkCore (prev, s) [FImp prev s ILook] None], (hl f), (length (g_tasks c) :: kids f). rewrite Ec. split; auto.
    split. { right. eauto. } split. apply I. split. apply tight_refl. split; auto. split; [|split].
    + apply R. apply goal_app. unfold goal_in. rewrite nth_error_app2; unfold cores; rewrite map_length; auto. now rewrite Nat.sub_diag.
    + intros R0 P. split. apply (lock_inv_perm mhash _ _ _ _ _ P IL). split; auto. rewrite Wt. intros i [].
    + intros R0 P. destruct (KS R0 P) as (A & B). cbn [app]. split.
      * constructor; auto. intros H. destruct (B _ H) as (_ & y & Ny & _). apply nth_error_lt in Ny. lia.
      * intros w [<-|Hw].
        -- assert (0 < length (g_tasks c)). { apply nth_error_lt in N. unfold cores in N. rewrite map_length in N. lia. }
           split; auto. cbn [c1 g_tasks]. rewrite nth_error_app2, Nat.sub_diag by auto. simpl. eauto.
        -- destruct (B w Hw) as (B0 & y & Ny & Cy). split; auto. exists y. split; auto. cbn [c1 g_tasks]. rewrite nth_error_app1; auto.
           now apply nth_error_lt in Ny.
  - (* schedule *)
    apply (SAME _ _ (kids f)); auto. { apply with_task_core. auto. }
    intros R0 P. destruct (KS R0 P) as (A & B). split; auto. intros w Hw. destruct (B w Hw) as (B0 & y & Ny & Cy). split; auto.
    rewrite with_task_nth, Ny. destruct (w =? u); simpl; eauto.
  - (* cancel *)
    destruct R as (K & PK & R). destruct (cancel_all_shared ts c) as (E1 & E2 & E3).
    apply (SAME _ _ K); auto. { apply cancel_all_core. }
    intros R0 P. destruct (KS R0 P) as (A & B). rewrite PK, <- app_assoc in A. apply NoDup_app_inv in A. destruct A as (_ & A & D).
    split; auto. intros w Hw. destruct (B w) as (B0 & y & Ny & Cy). { rewrite PK, <- app_assoc. apply in_app_iff. auto. }
    split; auto. rewrite cancel_all_nth; eauto. intros Hs. apply (D w Hs Hw).
  - apply (SAME c _ (kids f)); auto.
  - auto.
Qed.
End Run.
