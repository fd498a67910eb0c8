(* The invariant holds in every configuration of a search. *)
From Coq Require Import List Arith Bool Lia Permutation.
Import ListNotations.
From Verif Require Import Spec Vec Net Graded Bits Util OutputSetModel OutputSetProofs PruneProofs PackProofs HuffmanModel HuffmanProofs CanonModel TreeModel StatesModel StatesProofs StatesBounds SearchModel SearchFacts SearchInv SearchEdges SearchStep SearchFrames SearchGlobal SearchRun.

Section Safe.
Variables chash mhash : list nat -> nat.
Notation cur := (cur mhash).
Notation succs := (succs chash).
Notation succ1 := (succ1 chash).
Notation prunes := (prunes chash).
Notation prune_of := (prune_of chash).
Notation map_inv := (map_inv chash mhash).
Notation past := (past mhash).
Notation edges_ok := (edges_ok mhash).
Notation justL := (justL chash mhash).
Notation justU := (justU chash mhash).
Notation tight := (tight mhash).
Notation frame_ok := (frame_ok chash mhash).
Notation fits := (fits mhash).
Notation stack_ok := (stack_ok chash mhash).
Notation result_ok := (result_ok mhash).
Notation imp_ok := (imp_ok chash mhash).
Notation huff_ok := (huff_ok chash mhash).
Notation huff_edges := (huff_edges chash mhash).
Notation succ_edges := (succ_edges chash mhash).
Notation base := (base mhash).
Notation frame_req := (frame_req chash).
Notation ctl_ok := (ctl_ok chash mhash).
Notation req_ok := (req_ok chash mhash).
Notation access := (access mhash).
Notation lock_of := (lock_of mhash).
Notation core_ok := (core_ok chash mhash).
Notation Inv := (Inv chash mhash).
Notation lock_inv := (lock_inv mhash).
Notation step_ok := (step_ok chash mhash).
Notation task_step := (task_step chash mhash).
Notation drop_frame := (drop_frame mhash).
Notation sys_step := (sys_step chash mhash).

Lemma goal_upd l t x x' : nth_error l t = Some x -> c_root x' = c_root x -> forall u, goal_in (upd l t x') u = goal_in l u.
Proof.
  intros N E u. unfold goal_in. rewrite nth_error_upd. destruct (Nat.eqb_spec u t) as [->|]; auto. cbn [andb].
  destruct (t <? length l) eqn:L; auto. rewrite N. cbn. now rewrite E.
Qed.

Lemma added_nil {B} (g : Frame -> list B) new : (forall prev s, g (FImp prev s ILook) = []) -> added new -> flat_map g (frames new) = [].
Proof. intros H [->|(prev & s & _ & ->)]; auto. cbn. now rewrite H. Qed.

Lemma stack_frame_ok m goal root l f : stack_ok m goal root l -> In f l -> frame_ok m goal f.
Proof. induction l as [|a l IH]; simpl; [tauto|]. intros (A & _ & B) [<-|H]; auto. Qed.

Lemma own_okset m goal f s : frame_ok m goal f -> own f = Some s -> okset s.
Proof.
  destruct f as [s' lim pc|prev s' pc|s' pc]; simpl; try discriminate.
  - intros (K & _) H. destruct pc; try discriminate; injection H as <-; auto.
  - intros (K & _) H. injection H as <-. auto.
Qed.

Lemma held_work m goal f s id : frame_ok m goal f -> held f = Some (s, id) -> okset s /\ work s.
Proof.
  destruct f as [s' lim pc|prev s' pc|s' pc]; simpl; try discriminate.
  intros (K & F) H. destruct pc; try discriminate; injection H as <- <-; (split; [exact K|]); try exact F; try exact (proj1 F);
    try exact (proj1 (proj1 F)).
Qed.

Lemma finish c t x f rest c1 k ns r new H1 K1 c2 : Inv c -> nth_error (cores c) t = Some x -> c_stack x = f :: rest ->
  cores c1 = cores c ++ new -> added new ->
  map_inv (g_map c1) -> tight (g_map c) (g_map c1) ->
  (forall s, wf s -> own f <> Some s -> cur (g_map c1) s = cur (g_map c) s) ->
  (forall R, Permutation (flat_map hl (frames (cores c))) (hl f ++ R) ->
     lock_inv (g_map c1) (g_next c1) (g_sent c1) (H1 ++ R) /\
     (forall id, sent_or_held (g_sent c) (hl f ++ R) id -> sent_or_held (g_sent c1) (H1 ++ R) id) /\
     (forall id, In id (ctl_waits k) -> sent_or_held (g_sent c1) (H1 ++ R) id)) ->
  (forall R, Permutation (flat_map kids (frames (cores c))) (kids f ++ R) -> kid_inv (g_tasks c1) (K1 ++ R)) ->
  (* the new stack *)
  (stack_ok (g_map c1) (goal_in (cores c1)) (c_root x) rest -> stack_ok (g_map c1) (goal_in (cores c1)) (c_root x) ns) ->
  Permutation (flat_map hl ns) (H1 ++ flat_map hl rest) -> Permutation (flat_map kids ns) (K1 ++ flat_map kids rest) ->
  (forall id, In id (flat_map waits ns) -> In id (ctl_waits k ++ flat_map waits rest)) ->
  (forall v, r = Some v -> result_ok (g_map c1) (c_root x) v /\ ns = []) ->
  g_map c2 = g_map c1 -> g_next c2 = g_next c1 -> g_sent c2 = g_sent c1 -> cores c2 = upd (cores c1) t (mkCore (c_root x) ns r) ->
  (forall u y, nth_error (g_tasks c1) u = Some y -> tk_cancel y = false -> exists y', nth_error (g_tasks c2) u = Some y' /\ tk_cancel y' = false) ->
  Inv c2.
Proof.
  intros I N E Ec Ad Im T Cu Lk Kd Sk Ph Pk Pw Rs E1 E2 E3 E4 Tc.
  assert (N1 : nth_error (cores c1) t = Some x). { rewrite Ec, nth_error_app1; auto. now apply nth_error_lt in N. }
  set (x' := mkCore (c_root x) ns r) in *.
  destruct (frames_split (cores c) t x f rest N E) as (O0 & P0 & _ & I0).
  destruct (frames_split (cores c1) t x f rest N1 E) as (O & P & P2 & _). specialize (P2 x' ns eq_refl).
  assert (G1 : later_goal (goal_in (cores c)) (goal_in (cores c1))) by (rewrite Ec; apply goal_app).
  assert (G2 : later_goal (goal_in (cores c1)) (goal_in (cores c2))).
  { intros u g. rewrite E4, (goal_upd _ _ _ x' N1 eq_refl u). auto. }
  assert (GT : later_goal (goal_in (cores c)) (goal_in (cores c2))) by (intros u g H; auto).
  assert (FL : forall B (g : Frame -> list B), (forall prev s, g (FImp prev s ILook) = []) ->
            Permutation (flat_map g (frames (cores c))) (g f ++ flat_map g rest ++ flat_map g O)).
  { intros B g H. assert (X : flat_map g (frames (cores c)) = flat_map g (frames (cores c1))).
    { rewrite Ec. unfold frames. rewrite flat_map_app, flat_map_app. fold (frames new). rewrite (added_nil g new H Ad). now rewrite app_nil_r. }
    rewrite X, (flat_map_perm g _ _ P). cbn [flat_map]. now rewrite flat_map_app. }
  assert (OO : forall g s, In g (rest ++ O0) -> own g = Some s -> okset s -> cur (g_map c1) s = cur (g_map c) s).
  { intros g s Hg Eg Ks. apply Cu. apply Ks. apply (own_other chash mhash c f (rest ++ O0) g s I P0 Hg Eg). }
  pose proof (inv_core _ _ c I) as IC.
  assert (SO : forall y, In y (cores c) -> incl (c_stack y) (rest ++ O0) -> core_ok (g_map c1) (goal_in (cores c2)) y).
  { intros y Hy Hi. destruct (IC y Hy) as (A & B & C). split; auto. split.
    - apply (stack_ok_later chash mhash (g_map c) (g_map c1) (goal_in (cores c)) (goal_in (cores c2))); auto.
      intros g s Hg Eg. apply (OO g); auto. eapply own_okset; eauto. eapply stack_frame_ok; eauto.
    - intros v Hv. destruct (C v Hv) as (C1 & C2). split; auto. apply (result_ok_later mhash (g_map c)); auto. }
  constructor; rewrite ?E1, ?E2, ?E3.
  - exact Im.
  - intros y Hy. rewrite E4 in Hy. apply In_nth_error in Hy. destruct Hy as (u & Hu). rewrite nth_error_upd in Hu.
    destruct (Nat.eq_dec u t) as [Eu|Nu]; [rewrite Eu, Nat.eqb_refl in Hu|rewrite (proj2 (Nat.eqb_neq u t) Nu) in Hu].
    + assert (Lt : t < length (cores c1)) by (now apply nth_error_lt in N1). apply Nat.ltb_lt in Lt. rewrite Lt in Hu. cbn in Hu.
      injection Hu as <-. destruct (IC x (nth_error_In _ _ N)) as (A & B & _). rewrite E in B. destruct B as (B1 & B2 & B3).
      split; auto. cbn [x' c_root c_stack c_result]. split; auto.
      apply (stack_ok_later chash mhash (g_map c1) (g_map c1) (goal_in (cores c1)) (goal_in (cores c2))); auto. apply tight_refl.
      apply Sk. apply (stack_ok_later chash mhash (g_map c) (g_map c1) (goal_in (cores c)) (goal_in (cores c1))); auto.
      intros g s Hg Eg. apply (OO g); auto. apply in_app_iff; auto.
      apply (own_okset (g_map c) (goal_in (cores c)) g s); auto. apply (stack_frame_ok _ _ (c_root x) rest); auto.
    + cbn in Hu. rewrite Ec in Hu. destruct (Nat.lt_ge_cases u (length (cores c))) as [Lu|Lu].
      * rewrite nth_error_app1 in Hu by auto. apply SO. eapply nth_error_In; eauto. intros g Hg. apply in_app_iff. right. apply (I0 u y); auto.
      * rewrite nth_error_app2 in Hu by auto. destruct Ad as [->|(prev & s & Ks & ->)]. { destruct (u - length (cores c)); discriminate. }
        destruct (u - length (cores c)) as [|q]; cbn in Hu; [|destruct q; discriminate]. injection Hu as <-.
        split; auto. cbn [c_root c_stack c_result]. split; [|discriminate]. split; [|split; exact Logic.I || auto]. split; auto. split; auto.
  - rewrite E4. apply (lock_inv_perm mhash _ _ _ (H1 ++ flat_map hl rest ++ flat_map hl O)).
    + rewrite (flat_map_perm hl _ _ P2), flat_map_app, Ph, <- app_assoc. reflexivity.
    + apply Lk. apply FL. auto.
  - rewrite E4. apply (kid_inv_perm _ (K1 ++ flat_map kids rest ++ flat_map kids O)).
    + rewrite (flat_map_perm kids _ _ P2), flat_map_app, Pk, <- app_assoc. reflexivity.
    + destruct (Kd _ (FL _ kids ltac:(auto))) as (A & B). split; auto. intros u Hu. destruct (B u Hu) as (B0 & y & Ny & Cy).
      split; auto. eapply Tc; eauto.
  - intros id Hid. rewrite E4 in *. apply (sent_or_held_perm _ (H1 ++ flat_map hl rest ++ flat_map hl O)).
    { rewrite (flat_map_perm hl _ _ P2), flat_map_app, Ph, <- app_assoc. reflexivity. }
    assert (PH : Permutation (flat_map hl (frames (cores c))) (hl f ++ flat_map hl rest ++ flat_map hl O)) by (apply FL; auto).
    destruct (Lk _ PH) as (_ & Lk2 & Lk3).
    apply (Permutation_in _ (flat_map_perm waits _ _ P2)) in Hid. rewrite flat_map_app in Hid. apply in_app_iff in Hid.
    assert (Old : In id (flat_map waits rest ++ flat_map waits O) -> sent_or_held (g_sent c1) (H1 ++ flat_map hl rest ++ flat_map hl O) id).
    { intros Ho. apply Lk2. apply (sent_or_held_perm _ _ _ _ PH). apply (inv_wait _ _ c I).
      apply (Permutation_in _ (Permutation_sym (FL _ waits ltac:(auto)))). apply in_app_iff. auto. }
    destruct Hid as [Hid|Hid].
    + apply Pw in Hid. apply in_app_iff in Hid. destruct Hid as [Hid|Hid]; auto. apply Old. apply in_app_iff. auto.
    + apply Old. apply in_app_iff. auto.
Qed.

Lemma nth_cores c t x : nth_error (g_tasks c) t = Some x -> nth_error (cores c) t = Some (core x).
Proof. intros H. unfold cores. now rewrite nth_error_map, H. Qed.

Theorem task_step_inv c t : Inv c ->
  match task_step c t with
  | Panicked => False
  | Blocked => True
  | Stepped c' => Inv c' /\ tight (g_map c) (g_map c')
  end.
Proof.
  intros I. unfold SearchModel.task_step. destruct (nth_error (g_tasks c) t) as [x|] eqn:N; auto. destruct (negb (tk_sched x)); auto.
  destruct (tk_stack x) as [|f rest] eqn:E; auto. pose proof (nth_cores c t x N) as Nc.
  pose proof (access_ok chash mhash c t (core x) f rest I Nc E) as A. destruct (access c (frame_req f)) as [| |c1 k]; auto.
  destruct A as (new & H1 & K1 & Ec & Ad & Im & T & Cu & Ct & Lk & Kd).
  assert (exists x1, nth_error (g_tasks c1) t = Some x1 /\ core x1 = core x) as (x1 & N1 & C1).
  { assert (X : nth_error (cores c1) t = Some (core x)). { rewrite Ec, nth_error_app1; auto. now apply nth_error_lt in Nc. }
    unfold cores in X. rewrite nth_error_map in X. destruct (nth_error (g_tasks c1) t) as [y|]; [|discriminate]. exists y. split; auto. cbn [option_map] in X. congruence. }
  assert (Rt : (tk_prev x1, tk_set x1) = (tk_prev x, tk_set x)) by (injection C1; congruence).
  assert (R1 : tk_result x1 = tk_result x) by (injection C1; congruence).
  assert (Rn : tk_result x = None).
  { destruct (tk_result x) as [v|] eqn:Ev; auto. destruct (inv_core _ _ c I _ (nth_error_In _ _ Nc)) as (_ & _ & H).
    destruct (H v Ev) as (_ & H'). cbn in H'. congruence. }
  assert (ST : forall ns, cores (with_task c1 t (set_stack ns)) = upd (cores c1) t (mkCore (tk_prev x, tk_set x) ns None)).
  { intros ns. apply (with_task_core_upd c1 t (set_stack ns) x1); auto. unfold core, set_stack. cbn. congruence. }
  assert (TC : forall g, (forall y, tk_cancel (g y) = tk_cancel y) -> forall u y, nth_error (g_tasks c1) u = Some y -> tk_cancel y = false ->
            exists y', nth_error (g_tasks (with_task c1 t g)) u = Some y' /\ tk_cancel y' = false).
  { intros g Hg u y Ny Cy. rewrite with_task_nth, Ny. destruct (u =? t); cbn; [exists (g y)|exists y]; rewrite ?Hg; auto. }
  destruct k as [f'|f' g|v|]; cbn [run_ctl SearchStep.ctl_ok] in *.
  - destruct Ct as (C2 & C3 & C4 & C5). split; [|exact T].
    apply (finish c t (core x) f rest c1 (CGo f') (f' :: rest) None new H1 K1); auto.
    + simpl. auto.
    + cbn [flat_map]. now rewrite C4.
    + cbn [flat_map]. now rewrite C5.
    + discriminate.
    + apply TC. auto.
  - destruct Ct as (C2 & C3 & C4 & C5 & C6 & C7 & C8 & C9). split; [|exact T].
    apply (finish c t (core x) f rest c1 (CCall f' g) (g :: f' :: rest) None new H1 K1); auto.
    + simpl. auto.
    + cbn [flat_map]. unfold hl at 1. rewrite C7. cbn. now rewrite C6.
    + cbn [flat_map]. rewrite C8. cbn. now rewrite C9.
    + intros id. cbn [flat_map ctl_waits]. rewrite !in_app_iff. tauto.
    + discriminate.
    + apply TC. auto.
  - destruct Ct as (-> & -> & C4). destruct rest as [|f0 r].
    + split; [|exact T]. apply (finish c t (core x) f [] c1 (CReturn v) [] (Some v) new [] []); auto.
      * intros v' Hv. injection Hv as <-. auto.
      * apply (with_task_core_upd c1 t (set_result v) x1); auto. unfold core, set_result. cbn. congruence.
      * apply TC. auto.
    + destruct C4 as (f' & Er & C2 & C3 & C5 & C6 & C7). rewrite Er. split; [|exact T].
      apply (finish c t (core x) f (f0 :: r) c1 (CReturn v) (f' :: r) None new [] []); auto.
      * simpl. tauto.
      * cbn [flat_map app]. unfold hl at 1 3. now rewrite C5.
      * cbn [flat_map app]. now rewrite C6, C7.
      * intros id. cbn [flat_map ctl_waits app]. rewrite (resume_waits _ _ _ Er). cbn [app]. intros H. apply in_app_iff. auto.
      * discriminate.
      * apply TC. auto.
  - destruct Ct.
Qed.

Lemma pool_inv c t : Inv c -> Inv (with_task c t set_sched).
Proof.
  intros I. assert (E : cores (with_task c t set_sched) = cores c) by (apply with_task_core; auto).
  destruct I as [I1 I2 I3 I4 I5]. constructor; rewrite ?E; auto. destruct I4 as (A & B). split; auto. intros u Hu.
  destruct (B u Hu) as (B0 & y & Ny & Cy). split; auto. rewrite with_task_nth, Ny. destruct (u =? t); cbn; eauto.
Qed.

Theorem drop_inv c t : Inv c ->
  match drop_frame c t with
  | Panicked => False
  | Blocked => True
  | Stepped c' => Inv c' /\ tight (g_map c) (g_map c')
  end.
Proof.
  intros I. unfold SearchModel.drop_frame. destruct (nth_error (g_tasks c) t) as [x|] eqn:N; auto. destruct (negb (tk_cancel x)) eqn:Cx; auto.
  apply negb_false_iff in Cx.
  destruct (tk_stack x) as [|f rest] eqn:E; auto. pose proof (nth_cores c t x N) as Nc.
  set (c0 := cancel_all (all_running (frame_edges f)) c).
  assert (Ec0 : cores c0 = cores c) by apply cancel_all_core. destruct (cancel_all_shared (all_running (frame_edges f)) c) as (S1 & S2 & S3). fold c0 in S1, S2, S3.
  pose proof (inv_core _ _ c I _ (nth_error_In _ _ Nc)) as (Kr & Sk & Rs). cbn [core c_stack c_root c_result] in Sk, Rs. rewrite E in Sk.
  destruct Sk as (Fo & Ft & Sk).
  assert (Rn : tk_result x = None).
  { destruct (tk_result x) as [v|] eqn:Ev; auto. destruct (Rs v eq_refl) as (_ & H'). congruence. }
  assert (exists x0, nth_error (g_tasks c0) t = Some x0 /\ core x0 = core x) as (x0 & N0 & C0).
  { assert (X : nth_error (cores c0) t = Some (core x)). { now rewrite Ec0. }
    unfold cores in X. rewrite nth_error_map in X. destruct (nth_error (g_tasks c0) t) as [y|]; [|discriminate]. exists y. split; auto. cbn [option_map] in X. congruence. }
  set (c1 := with_task c0 t (set_stack rest)).
  assert (Ec1 : cores c1 = upd (cores c0) t (mkCore (tk_prev x, tk_set x) rest None)).
  { apply (with_task_core_upd c0 t (set_stack rest) x0); auto. unfold core, set_stack in *. cbn. injection C0. intros. congruence. }
  assert (KD : forall R, Permutation (flat_map kids (frames (cores c))) (kids f ++ R) -> kid_inv (g_tasks c0) ([] ++ R)).
  { intros R P. destruct (kid_inv_perm _ _ _ P (inv_kid _ _ c I)) as (A & B). apply NoDup_app_inv in A. destruct A as (_ & A & D).
    split; auto. intros u Hu. destruct (B u) as (B0 & y & Ny & Cy). { apply in_app_iff. auto. } split; auto.
    unfold c0. rewrite cancel_all_nth; eauto. intros Hs. apply (D u Hs Hu). }
  assert (TC : forall u y, nth_error (g_tasks c0) u = Some y -> tk_cancel y = false -> exists y', nth_error (g_tasks c1) u = Some y' /\ tk_cancel y' = false).
  { intros u y Ny Cy. unfold c1. rewrite with_task_nth, Ny. destruct (u =? t); cbn; eauto. }
  destruct (held f) as [(s, id)|] eqn:Hf.
  - destruct (held_work _ _ _ _ _ Fo Hf) as (Ks & Wk).
    assert (M1 : g_map c1 = g_map c) by (unfold c1, with_task; cbn [g_map]; auto).
    destruct (sm_unlock_spec mhash (g_map c1) s) as (m' & Eu & O & Ss & Lo). { rewrite M1. apply I. } { now apply work_okk. }
    rewrite Eu. assert (Im : map_inv m'). { apply (same_map_inv _ _ (g_map c1)); auto. rewrite M1. apply I. }
    split; [|cbn [g_map]; apply same_tight; congruence].
    apply (finish c t (core x) f rest (mkConfig m' (g_next c0) (id :: g_sent c0) (g_tasks c0)) CPanic rest None [] [] []); auto.
    + unfold cores in *. cbn [g_tasks]. now rewrite app_nil_r.
    + now left.
    + cbn [g_map]. apply same_tight. congruence.
    + intros s' _ _. cbn [g_map]. apply same_cur. congruence.
    + cbn [g_map g_next g_sent]. rewrite S2, S3. unfold hl at 2 3. rewrite Hf. cbn [opt_list app]. intros R P.
      destruct (lock_inv_perm mhash _ _ _ _ _ P (inv_lock _ _ c I)) as (A & A' & B & C & D). cbn [map fst snd] in A, A'.
      inversion A as [|? ? A1 A2]; subst. inversion A' as [|? ? A1' A2']; subst. split; [|split].
      * split; auto. split; auto. split; [|split].
        -- intros s' i W'. rewrite Lo by auto. rewrite M1. destruct (os_eq_dec s' s) as [->|Ne].
           ++ split; [discriminate|]. intros H. exfalso. apply A1. apply in_map_iff. exists (s, i). auto.
           ++ rewrite (B s' i W'). simpl. split; auto. intros [H|H]; auto. congruence.
        -- intros s' i H. destruct (C s' i (or_intror H)) as (C1 & C2). split; auto. intros [<-|Hi]; auto.
           apply A1'. apply in_map_iff. exists (s', id). auto.
        -- intros i [<-|Hi]; auto. apply (C s id). simpl. auto.
      * intros (s', i) [H|[H|H]]; [left; simpl; auto|injection H as <- <-; left; simpl; auto|right; auto].
      * intros i [].
    + discriminate.
  - assert (M1 : g_map c1 = g_map c) by (unfold c1, with_task; cbn [g_map]; auto).
    split; [|rewrite M1; apply tight_refl].
    apply (finish c t (core x) f rest c0 CPanic rest None [] [] []); auto.
    + now rewrite app_nil_r.
    + now left.
    + rewrite S1. apply I.
    + rewrite S1. apply tight_refl.
    + intros. now rewrite S1.
    + rewrite S1, S2, S3. unfold hl at 2 3. rewrite Hf. cbn [opt_list app]. intros R P.
      split. apply (lock_inv_perm mhash _ _ _ _ _ P (inv_lock _ _ c I)). split; auto. intros i [].
    + discriminate.
Qed.

Theorem sys_step_inv c c' : Inv c -> sys_step c c' -> Inv c' /\ tight (g_map c) (g_map c').
Proof.
  intros I H. destruct H as [c t c' H|c t x N P|c t c' H].
  - pose proof (task_step_inv c t I) as X. now rewrite H in X.
  - split. now apply pool_inv. apply tight_refl.
  - pose proof (drop_inv c t I) as X. now rewrite H in X.
Qed.

(* ---- the start ---- *)
Lemma start_map_inv threads : map_inv (sm_default threads).
Proof.
  assert (C : forall s, cur (sm_default threads) s = default_state s).
  { intros s. unfold StatesBounds.cur. now rewrite sm_default_stored. }
  constructor.
  - apply sm_default_ok.
  - intros s K. rewrite C. apply default_state_valid. apply K. destruct K as (_ & M & _). lia.
  - intros s K. rewrite C. destruct K as (_ & M & _). unfold default_state. destruct (is_sorted s). cbn; lia. 
    destruct (Nat.leb_spec (channels s) 2). cbn; lia. cbn [hi].
    generalize dependent (channels s). intros n M _. do 12 (destruct n as [|n]; [vm_compute; lia|]). lia.
  - intros s K. rewrite C. unfold default_state. destruct (is_sorted s) eqn:Es. now left. right. split; auto. left. destruct (channels s <=? 2); cbn; lia.
  - intros s K. rewrite C. now left.
  - intros s st W H. rewrite sm_default_stored in H. discriminate.
Qed.

Theorem start_inv threads initial limit c : okset initial -> search_start chash threads initial limit = Some c -> Inv c.
Proof.
  intros K H. unfold search_start in H. rewrite (canon_canon_of chash initial K) in H. cbn in H. injection H as <-.
  assert (Ki : okset (canon_of chash initial)).
  { destruct (canon_spec chash initial K) as (t & inv & p & E & Kt & _). unfold canon_of. now rewrite E. }
  constructor; cbn [g_map g_next g_sent g_tasks cores map frames core c_stack flat_map app tk_stack].
  - apply start_map_inv.
  - intros x [<-|[]]. split; auto. split; [|discriminate]. split; [|split; exact Logic.I]. split; auto.
  - split; [constructor|]. split; [constructor|]. split; [|split; [intros s id []|intros id []]].
    intros s id W. rewrite sm_default_lock. split; [discriminate|intros []].
  - split. constructor. intros u [].
  - intros id [].
Qed.

Theorem run_inv threads initial limit c : okset initial -> search_run chash mhash threads initial limit c -> Inv c.
Proof. intros K H. induction H. eapply start_inv; eauto. eapply sys_step_inv; eauto. Qed.
End Safe.
