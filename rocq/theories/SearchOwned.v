(* Every task except the main task that is neither cancelled nor finished is held by a frame of some task. *)
From Coq Require Import List Arith Bool Lia Permutation.
Import ListNotations.
From Verif Require Import Spec Vec Net Graded Bits Util OutputSetModel OutputSetProofs PruneProofs PackProofs HuffmanModel HuffmanProofs CanonModel TreeModel StatesModel StatesProofs StatesBounds SearchModel SearchFacts SearchInv SearchEdges SearchStep SearchFrames SearchGlobal SearchRun SearchSafe SearchGood.

(* the tasks ts that are neither cancelled nor finished are in K *)
Definition own_inv (ts : list Task) (K : list nat) : Prop :=
  forall u y, 0 < u -> nth_error ts u = Some y -> tk_cancel y = false -> tk_stack y <> [] -> In u K.
Definition Owned (c : Config) : Prop := own_inv (g_tasks c) (flat_map kids (frames (cores c))).

Lemma own_inv_perm ts K K' : Permutation K K' -> own_inv ts K -> own_inv ts K'.
Proof. intros P H u y A B C D. apply (Permutation_in _ P). eapply H; eauto. Qed.
Lemma cancelled_in ts : forall c u y1, In u ts -> nth_error (g_tasks (cancel_all ts c)) u = Some y1 -> tk_cancel y1 = true.
Proof.
  unfold cancel_all. induction ts as [|t ts IH]; intros c u y1 H N; [destruct H|]. cbn [fold_left] in N. destruct (Nat.eq_dec u t) as [->|D].
  - destruct (nth_error (g_tasks (with_task c t set_cancel)) t) as [y|] eqn:Ny.
    + destruct (cancel_all_evolve (fun _ => 0) (fun _ => 0) ts (with_task c t set_cancel) t y Ny) as (y2 & N2 & (_ & _ & _ & _ & _ & Cc) & _). unfold cancel_all in N2. rewrite N2 in N. injection N as <-. apply Cc.
      rewrite with_task_nth, Nat.eqb_refl in Ny. destruct (nth_error (g_tasks c) t) as [z|]; [|discriminate]. injection Ny as <-. reflexivity.
    + apply nth_error_None in Ny. pose proof (nth_error_lt _ _ _ N) as L. pose proof (cancel_all_length ts (with_task c t set_cancel)) as Ll. unfold cancel_all in Ll. lia.
  - destruct H as [->|H]; [congruence|]. eapply IH; eauto.
Qed.
Lemma own_cancel ts c K K' : own_inv (g_tasks c) K -> Permutation K (ts ++ K') -> own_inv (g_tasks (cancel_all ts c)) K'.
Proof.
  intros H P u y P0 N C S. destruct (in_dec Nat.eq_dec u ts) as [I|I]. { pose proof (cancelled_in ts c u y I N). congruence. }
  rewrite cancel_all_nth in N by auto. pose proof (H u y P0 N C S) as X. apply (Permutation_in _ P) in X. apply in_app_iff in X. destruct X; tauto.
Qed.

Section Owned.
Variables chash mhash : list nat -> nat.
Notation Inv := (SearchGlobal.Inv chash mhash).
Notation access := (SearchModel.access mhash).
Notation frame_req := (SearchModel.frame_req chash).
Notation task_step := (SearchModel.task_step chash mhash).
Notation drop_frame := (SearchModel.drop_frame mhash).
Notation sys_step := (SearchModel.sys_step chash mhash).
Notation search_run := (SearchModel.search_run chash mhash).

(* the running tasks after the sequential code *)
Definition ctl_kids (rest : list Frame) (k : Ctl) (K : list nat) : Prop :=
  match k with
  | CGo f => Permutation (kids f) K
  | CCall f g => kids g = [] /\ Permutation (kids f) K
  | CReturn v => K = [] /\ match rest with [] => True | f :: r => exists f', resume f v = Some f' /\ kids f' = [] /\ kids f = [] end
  | CPanic => False
  end.
Lemma ctl_ok_kids m goal root rest k H K : SearchStep.ctl_ok chash mhash m goal root rest k H K -> ctl_kids rest k K.
Proof.
  destruct k; cbn [SearchStep.ctl_ok ctl_kids]; try tauto.
  intros (A & B & C). split; auto. destruct rest as [|f r]; auto. destruct C as (f' & C1 & _ & _ & _ & C2). exists f'. auto.
Qed.

Lemma access_own c t x f rest c1 k : Inv c -> nth_error (cores c) t = Some x -> c_stack x = f :: rest -> access c (frame_req f) = ADone c1 k ->
  exists new K1, cores c1 = cores c ++ new /\ flat_map kids (frames new) = [] /\ ctl_kids rest k K1 /\
    forall R, own_inv (g_tasks c) (kids f ++ R) -> own_inv (g_tasks c1) (K1 ++ R).
Proof.
  intros I N E A. pose proof (inv_core _ _ c I x (nth_error_In _ _ N)) as (Kr & S & _). rewrite E in S. destruct S as (F & Ft & S).
  pose proof (frame_req_ok chash mhash _ _ _ _ _ (inv_map _ _ c I) F Ft S) as R.
  assert (SAME : forall c1 k, g_tasks c1 = g_tasks c -> ctl_kids rest k (kids f) -> exists new K1, cores c1 = cores c ++ new /\ flat_map kids (frames new) = [] /\ ctl_kids rest k K1 /\
    forall R, own_inv (g_tasks c) (kids f ++ R) -> own_inv (g_tasks c1) (K1 ++ R)).
  { clear. intros c1 k E C. exists [], (kids f). rewrite E, app_nil_r. split. { unfold cores. now rewrite E. } split; auto. }
  destruct (frame_req f) as [s kk|s st kk|s got busy|s id kk|id kk|u kk|prev s pend kk|u kk|ts kk|kk|]; cbn [SearchModel.access SearchStep.req_ok] in A, R.
  - destruct R as (Ks & R). rewrite (sm_get_cur mhash _ s (mi_ok _ _ _ (inv_map _ _ c I)) (proj1 Ks)) in A. injection A as <- <-. apply SAME; auto. eapply ctl_ok_kids; eauto.
  - destruct R as (_ & Ks & Wk & L1 & L2 & J1 & J2 & R). destruct (set_map_inv chash mhash (g_map c) s st (inv_map _ _ c I) Ks Wk L1 L2 J1 J2) as (m' & Em & _ & M & T & Cu & O). rewrite Em in A. injection A as <- <-.
    apply SAME; auto. eapply ctl_ok_kids; eauto.
  - destruct R as (_ & _ & _ & Kf & R1 & R2). destruct (sm_get_lock mhash (g_map c) s (g_next c)) as [[id|m]|]; [| |discriminate]; injection A as <- <-; apply SAME; auto; rewrite Kf; eapply ctl_ok_kids; eauto.
  - destruct R as (_ & _ & _ & Kf & R). destruct (sm_unlock mhash (g_map c) s) as [m|]; [|discriminate]. injection A as <- <-. apply SAME; auto. rewrite Kf. eapply ctl_ok_kids; eauto.
  - destruct (existsb (Nat.eqb id) (g_sent c)); [|discriminate]. injection A as <- <-. apply SAME; auto. eapply ctl_ok_kids; eauto.
  - destruct R as (Hu & R1 & R2). destruct (nth_error (g_tasks c) u) as [y|] eqn:Ny; [|discriminate]. destruct (tk_result y) as [v|] eqn:Ev.
    + injection A as <- <-. pose proof (nth_cores c u y Ny) as Nc. destruct (inv_core _ _ c I _ (nth_error_In _ _ Nc)) as (_ & _ & Hr). destruct (Hr v Ev) as (Rv & Sv). cbn [core c_stack] in Sv.
      destruct (in_split _ _ Hu) as (K2 & K3 & EK). assert (P : Permutation (u :: K2 ++ K3) (kids f)) by (rewrite EK; apply Permutation_middle).
      exists [], (K2 ++ K3). rewrite app_nil_r. split; auto. split; auto. split.
      * eapply ctl_ok_kids, R2; eauto. unfold goal_in. rewrite Nc. reflexivity.
      * intros R H w z P0 Nw C Sw. pose proof (H w z P0 Nw C Sw) as X. rewrite <- P in X. cbn [app] in X. destruct X as [<-|X]; auto. rewrite Ny in Nw. injection Nw as <-. congruence.
    + destruct (tk_cancel y); [discriminate|]. injection A as <- <-. apply SAME; auto. eapply ctl_ok_kids; eauto.
  - destruct R as (Ks & R). injection A as <- <-. exists [mkCore (prev, s) [FImp prev s ILook] None], (length (g_tasks c) :: kids f).
    split. { unfold cores. cbn [g_tasks]. now rewrite map_app. } split; auto. split.
    + eapply (ctl_ok_kids (g_map c) (goal_in (cores c ++ [mkCore (prev, s) [FImp prev s ILook] None]))), R. apply goal_app.
      unfold goal_in. rewrite nth_error_app2; unfold cores; rewrite map_length; auto. now rewrite Nat.sub_diag.
    + intros R1 H w z P0 Nw C Sw. cbn [g_tasks] in Nw. destruct (Nat.lt_ge_cases w (length (g_tasks c))) as [L|L].
      * rewrite nth_error_app1 in Nw by auto. right. exact (H w z P0 Nw C Sw).
      * rewrite nth_error_app2 in Nw by auto. destruct (w - length (g_tasks c)) as [|[|]] eqn:Ew; try discriminate. left. lia.
  - injection A as <- <-. exists [], (kids f). rewrite app_nil_r. split. { now apply with_task_core. } split; auto. split. { eapply ctl_ok_kids; eauto. }
    intros R1 H w z P0 Nw C Sw. rewrite with_task_nth in Nw. destruct (w =? u); [|now apply (H w z)].
    destruct (nth_error (g_tasks c) w) as [z0|] eqn:Nz; [|discriminate]. injection Nw as <-. now apply (H w z0).
  - destruct R as (K & P & R). injection A as <- <-. exists [], K. rewrite app_nil_r. split. { apply cancel_all_core. } split; auto. split. { eapply ctl_ok_kids; eauto. }
    intros R1 H. apply (own_cancel ts c _ _ H). rewrite P, app_assoc. reflexivity.
  - injection A as <- <-. apply SAME; auto. eapply ctl_ok_kids; eauto.
  - discriminate.
Qed.

Lemma finish_own c t x f rest c1 new K1 g ns : nth_error (cores c) t = Some x -> c_stack x = f :: rest -> cores c1 = cores c ++ new -> flat_map kids (frames new) = [] ->
  (forall R, own_inv (g_tasks c) (kids f ++ R) -> own_inv (g_tasks c1) (K1 ++ R)) -> Owned c ->
  (forall y, tk_stack (g y) = ns /\ tk_cancel (g y) = tk_cancel y) -> Permutation (flat_map kids ns) (K1 ++ flat_map kids rest) ->
  Owned (with_task c1 t g).
Proof.
  intros N E Ec Nw O1 O St Pk.
  assert (N1 : nth_error (cores c1) t = Some x). { rewrite Ec. rewrite nth_error_app1; auto. now apply nth_error_lt in N. }
  assert (Nt : exists y, nth_error (g_tasks c1) t = Some y /\ core y = x).
  { unfold cores in N1. rewrite nth_error_map in N1. destruct (nth_error (g_tasks c1) t) as [y|]; [|discriminate]. injection N1 as N1. eauto. }
  destruct Nt as (y & Ny & Cy). destruct (frames_split (cores c1) t x f rest N1 E) as (O2 & P & U & _). destruct (St y) as (St1 & _).
  specialize (U (core (g y)) ns St1). rewrite <- (with_task_core_upd c1 t g y (core (g y)) Ny eq_refl) in U.
  assert (X : flat_map kids (frames (cores c1)) = flat_map kids (frames (cores c))). { rewrite Ec. unfold frames in *. rewrite !flat_map_app, Nw. now rewrite app_nil_r. }
  assert (Y : own_inv (g_tasks c1) (K1 ++ flat_map kids rest ++ flat_map kids O2)).
  { apply O1. apply (own_inv_perm _ (flat_map kids (frames (cores c)))); auto. rewrite <- X, (flat_map_perm kids _ _ P). cbn [flat_map]. now rewrite flat_map_app. }
  apply (own_inv_perm _ (K1 ++ flat_map kids rest ++ flat_map kids O2)). { rewrite (flat_map_perm kids _ _ U), flat_map_app, Pk, <- app_assoc. reflexivity. }
  intros u z P0 Nu C S. rewrite with_task_nth in Nu. destruct (Nat.eqb_spec u t) as [->|D]; [|now apply (Y u z)].
  rewrite Ny in Nu. injection Nu as <-. apply (Y t y P0 Ny). { now rewrite <- (proj2 (St y)). } change (tk_stack y) with (c_stack (core y)). rewrite Cy, E. discriminate.
Qed.

Theorem own_step c c' : Inv c -> Owned c -> sys_step c c' -> Owned c'.
Proof.
  intros I O H. destruct H as [c t c' H|c t x N P|c t c' H].
  - unfold SearchModel.task_step in H. destruct (nth_error (g_tasks c) t) as [y|] eqn:Ny; [|discriminate]. destruct (negb (tk_sched y)); [discriminate|].
    destruct (tk_stack y) as [|f rest] eqn:Es; [discriminate|]. pose proof (nth_cores c t y Ny) as N. destruct (access c (frame_req f)) as [| |c1 k] eqn:A; try discriminate.
    destruct (access_own c t (core y) f rest c1 k I N Es A) as (new & K1 & Ec & Nw & CK & O1).
    destruct k as [f'|f' g|v|]; cbn [ctl_kids run_ctl] in CK, H.
    + injection H as <-. apply (finish_own c t (core y) f rest c1 new K1 (set_stack (f' :: rest)) (f' :: rest)); auto. cbn [flat_map]. now rewrite CK.
    + destruct CK as (C1 & C2). injection H as <-. apply (finish_own c t (core y) f rest c1 new K1 (set_stack (g :: f' :: rest)) (g :: f' :: rest)); auto. cbn [flat_map]. now rewrite C1, C2.
    + destruct CK as (-> & C). destruct rest as [|f1 r].
      * injection H as <-. apply (finish_own c t (core y) f [] c1 new [] (set_result v) []); auto.
      * destruct C as (f2 & Er & E1 & E2). rewrite Er in H. injection H as <-. apply (finish_own c t (core y) f (f1 :: r) c1 new [] (set_stack (f2 :: r)) (f2 :: r)); auto. cbn [flat_map app]. now rewrite E1, E2.
    + contradiction.
  - unfold Owned. rewrite (with_task_core c t set_sched) by auto. intros u z P0 Nu C S. rewrite with_task_nth in Nu. destruct (u =? t); [|now apply (O u z)].
    destruct (nth_error (g_tasks c) u) as [z0|] eqn:Nz; [|discriminate]. injection Nu as <-. now apply (O u z0).
  - unfold SearchModel.drop_frame in H. destruct (nth_error (g_tasks c) t) as [y|] eqn:Ny; [|discriminate]. destruct (negb (tk_cancel y)); [discriminate|].
    destruct (tk_stack y) as [|f rest] eqn:Es; [discriminate|]. pose proof (nth_cores c t y Ny) as N.
    assert (A : Owned (with_task (cancel_all (kids f) c) t (set_stack rest))).
    { apply (finish_own c t (core y) f rest (cancel_all (kids f) c) [] [] (set_stack rest) rest); auto. { rewrite app_nil_r. apply cancel_all_core. }
      intros R H1. apply (own_cancel (kids f) c _ _ H1). reflexivity. }
    change (all_running (frame_edges f)) with (kids f) in H. destruct (held f) as [(s, id)|]; [|now injection H as <-].
    destruct (sm_unlock _ _ _) as [m|]; [|discriminate]. injection H as <-. exact A.
Qed.
Theorem run_owned threads initial limit c : okset initial -> search_run threads initial limit c -> Owned c.
Proof.
  intros K H. induction H as [c H|c c' H IH Hs].
  - unfold search_start in H. destruct (canon chash initial) as [i|]; [|discriminate]. cbn in H. injection H as <-. intros u y P0 N. destruct u as [|[|u]]; [lia|discriminate|discriminate].
  - apply (own_step c); auto. eapply run_inv; eauto.
Qed.
End Owned.
