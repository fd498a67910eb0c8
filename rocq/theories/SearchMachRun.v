(* Every run of the checked search is a run of SearchModel and of PoolModel. *)
From Coq Require Import List Arith Bool Lia Permutation.
Import ListNotations.
From Verif Require Import Spec Vec Net Graded Bits Util OutputSetModel OutputSetProofs PruneProofs PackProofs HuffmanModel HuffmanProofs CanonModel TreeModel StatesModel StatesProofs StatesBounds.
From Verif Require Import MachineModel MachineProofs CanonMachModel PropMachine PropCanonMach StatesMachModel StatesMachProofs PoolModel PoolProofs.
From Verif Require Import SearchModel SearchFacts SearchInv SearchEdges SearchStep SearchFrames SearchGlobal SearchRun SearchSafe SearchMachModel SearchMachReq SearchMachProofs.

(* ---- what stays ---- *)
(* a task keeps its set, its previous state and whether it was added as pending; levels stay *)
Definition later (mc mc1 : Mach) : Prop :=
  (forall u x, nth_error (m_tasks mc) u = Some x -> exists x', nth_error (m_tasks mc1) u = Some x' /\
     tk_pend x' = tk_pend x /\ tk_set x' = tk_set x /\ tk_prev x' = tk_prev x) /\
  levels_kept mc mc1.

Lemma later_refl mc mc1 : m_tasks mc1 = m_tasks mc -> m_levels mc1 = m_levels mc -> later mc mc1.
Proof. intros E L. split. rewrite E. intros u x H. exists x. auto. intros u lv. now rewrite L. Qed.
Lemma later_trans a b c : later a b -> later b c -> later a c.
Proof.
  intros (A1 & A2) (B1 & B2). split.
  - intros u x H. destruct (A1 u x H) as (y & Hy & E1 & E2 & E3). destruct (B1 u y Hy) as (z & Hz & F1 & F2 & F3). exists z. repeat split; auto; congruence.
  - intros u lv H. apply B2. now apply A2.
Qed.
Lemma later_task mc t g : keeps g -> later mc (with_mtask mc t g).
Proof.
  intros G. split; [|intros u lv; auto]. intros u x H. cbn [with_mtask m_tasks]. destruct (nth_error (m_tasks mc) t) as [y|] eqn:Ey; [|exists x; auto].
  destruct (Nat.eq_dec u t) as [->|N].
  - rewrite nth_error_upd_eq by (now apply nth_error_lt in Ey). exists (g y). rewrite H in Ey. injection Ey as <-. destruct (G x) as (A & B & C). auto.
  - rewrite nth_error_upd_neq by auto. exists x. auto.
Qed.

Lemma later_drop mc u mc1 : drop_schedule mc u = Some mc1 -> later mc mc1.
Proof.
  unfold drop_schedule. destruct (rd _ _); [|discriminate]. destruct (sub_u _ _); [|discriminate]. destruct (wr _ _ _); [|discriminate].
  intros H. injection H as <-. now apply later_refl.
Qed.
Lemma later_drop_all ts : forall mc mc1, drop_all ts mc = Some mc1 -> later mc mc1.
Proof.
  induction ts as [|u ts IH]; intros mc mc1; unfold drop_all in *; cbn [fold_opt].
  - intros H. injection H as <-. now apply later_refl.
  - unfold drop_running at 1. destruct (drop_schedule (with_mtask mc u set_cancel) u) as [m|] eqn:E; [|discriminate]. intros H.
    apply later_trans with (with_mtask mc u set_cancel). apply later_task, keeps_cancel. apply later_trans with m; auto. now apply (later_drop _ u).
Qed.

Lemma keeps_sched : keeps set_sched.
Proof. intros x. auto. Qed.

Section Run.
Variables chash mhash : list nat -> nat.
Notation task_step_m := (SearchMachModel.task_step_m chash mhash).
Notation access_m := (SearchMachModel.access_m mhash).
Notation mach_step := (SearchMachModel.mach_step chash mhash).
Notation mach_run := (SearchMachModel.mach_run chash mhash).
Notation search_run := (SearchModel.search_run chash mhash).
Notation Inv := (SearchGlobal.Inv chash mhash).
Notation Rel := (SearchMachProofs.Rel mhash).

(* an entry is added or taken *)
Definition entry_of (ev : Event) (e : Entry) : Prop := ev = EvAdded e \/ ev = EvTaken e.
Definition no_adds (evs : list Event) : Prop := forall ev e, entry_of ev e -> ~ In ev evs.

Ltac na := intros ev0 e0 E0 H0; cbn [In] in H0; unfold entry_of in E0; intuition congruence.

Lemma nones_no_adds {A} (l : list A) : no_adds (map (fun _ => EvNone) l).
Proof. intros ev e E H. apply in_map_iff in H. destruct H as (x & H & _). unfold entry_of in E. intuition congruence. Qed.

Lemma access_later mc t r mc1 evs k : access_m mc t r = MADone mc1 evs k -> later mc mc1 /\ no_adds evs.
Proof.
  destruct r as [r|prev s prio k0]; cbn [SearchMachModel.access_m].
  - destruct r as [s k0|s st k0|s got busy|s id k0|id k0|u k0|prev s pend k0|u k0|ts k0|k0|].
    + destruct (states_get _ _ _); [|discriminate]. intros H. injection H as <- <- <-. split. now apply later_refl. na.
    + destruct (states_set _ _ _ _); [|discriminate]. intros H. injection H as <- <- <-. split. now apply later_refl. na.
    + destruct (states_lock _ _ _) as [([i|i], m)|]; [| |discriminate]; intros H; injection H as <- <- <-; (split; [now apply later_refl|na]).
    + destruct (states_unlock _ _); [|discriminate]. intros H. injection H as <- <- <-. split. now apply later_refl. na.
    + destruct (states_await _ _) as [[|]|]; try discriminate. intros H. injection H as <- <- <-. split. now apply later_refl. na.
    + destruct (nth_error (m_tasks mc) u) as [y|]; [|discriminate]. destruct (tk_result y).
      * destruct (drop_schedule mc u) as [m|] eqn:E; [|discriminate]. intros H. injection H as <- <- <-. split. now apply (later_drop _ u).
        na.
      * destruct (tk_cancel y); [discriminate|]. intros H. injection H as <- <- <-. split. now apply later_refl. na.
    + discriminate.
    + unfold schedule. destruct (negb _); [discriminate|]. destruct (is_waiting _ _); intros H; injection H as <- <- <-.
      * split. { eapply later_trans; [|apply later_task, keeps_sched]. now apply later_refl. } na.
      * split. now apply later_refl. na.
    + destruct (drop_all ts mc) as [m|] eqn:E; [|discriminate]. intros H. injection H as <- <- <-. split. now apply (later_drop_all ts). apply nones_no_adds.
    + intros H. injection H as <- <- <-. split. now apply later_refl. na.
    + discriminate.
  - unfold spawn. destruct (rd (m_levels mc) t) as [lv|]; [|discriminate]. 
    assert (X : forall y p, later mc (mkMach (m_states mc) (m_tasks mc ++ [y]) (m_levels mc ++ [lv + 1]) p)).
    { intros y p. split; [intros u x H; exists x|intros u l H]; cbn [m_tasks m_levels]; rewrite nth_error_app1; auto; now apply nth_error_lt in H. }
    destruct prio as [(len, b)|]; intros H; injection H as <- <- <-; (split; [apply X|]).
    + na.
    + na.
Qed.

Lemma task_later mc t mc1 evs : task_step_m mc t = MStepped mc1 evs -> later mc mc1 /\ no_adds evs.
Proof.
  unfold SearchMachModel.task_step_m. destruct (nth_error (m_tasks mc) t) as [x|]; [|discriminate]. destruct (is_waiting _ _); [discriminate|].
  destruct (tk_stack x) as [|f rest]; [discriminate|]. destruct (access_m mc t _) as [| |c1 ev k] eqn:E; try discriminate.
  destruct (access_later _ _ _ _ _ _ E) as (L & NA). destruct k as [f'|f' g|v|]; cbn [run_ctl_m]; try discriminate.
  - intros H. injection H as <- <-. split; auto. eapply later_trans; [exact L|apply later_task, keeps_stack].
  - intros H. injection H as <- <-. split; auto. eapply later_trans; [exact L|apply later_task, keeps_stack].
  - destruct rest as [|f2 r].
    + intros H. injection H as <- <-. split; auto. eapply later_trans; [exact L|apply later_task, keeps_result].
    + destruct (resume f2 v); [|discriminate]. intros H. injection H as <- <-. split; auto. eapply later_trans; [exact L|apply later_task, keeps_stack].
Qed.

Lemma drop_later mc t mc1 evs : drop_frame_m mc t = MStepped mc1 evs -> later mc mc1 /\ no_adds evs.
Proof.
  unfold drop_frame_m. destruct (nth_error (m_tasks mc) t) as [x|]; [|discriminate]. destruct (negb _); [discriminate|].
  destruct (tk_stack x) as [|f rest]; [discriminate|]. destruct (drop_all _ mc) as [c0|] eqn:E; [|discriminate]. apply later_drop_all in E.
  assert (X : later mc (with_mtask c0 t (set_stack rest))) by (eapply later_trans; [exact E|apply later_task, keeps_stack]).
  cbv zeta. destruct (SearchModel.held f) as [(s, id)|].
  - destruct (states_unlock _ id) as [m|]; [|discriminate]. intros H. injection H as <- <-. split; [|apply nones_no_adds].
    eapply later_trans; [exact X|]. now apply later_refl.
  - intros H. injection H as <- <-. split; auto. apply nones_no_adds.
Qed.

Lemma entry_later mc mc1 e : later mc mc1 -> entry_fine (m_tasks mc) (m_levels mc) e -> entry_fine (m_tasks mc1) (m_levels mc1) e.
Proof.
  intros (A & B) (x & lv & N & P & L & E). destruct (A _ _ N) as (x' & N' & P' & S' & V'). exists x', lv. rewrite P', S', V'. auto.
Qed.

Lemma step_later mc evs mc1 : mach_step mc evs mc1 -> later mc mc1.
Proof.
  intros S. destruct S as [mc t mc' evs E|mc t mc' evs E|mc a e b E|mc ev p' Ws].
  - now apply task_later in E.
  - now apply drop_later in E.
  - now apply later_refl.
  - destruct ev; try (now apply later_refl). eapply later_trans; [|apply later_task, keeps_sched]. now apply later_refl.
Qed.

(* ---- the steps of the pool ---- *)
Lemma send_sim mc c a e b : Rel mc c -> sending (m_pool mc) = a ++ e :: b ->
  Rel (with_pool mc (set_chan (m_pool mc) (a ++ b) (chan (m_pool mc) ++ [e]))) c.
Proof.
  intros [[A B C D T Lv Cs W En] TB OW FN LV] E. constructor; auto. constructor; auto.
  intros x Hx. apply En. cbn [with_pool m_pool] in Hx. unfold all in *. cbn [set_chan sending chan worker queue inside] in Hx. rewrite E.
  unfold inside in *. cbn [set_chan worker queue] in Hx. rewrite !in_app_iff in *. cbn [In] in *. tauto.
Qed.

Lemma work_sim mc c ev p' : Rel mc c -> worker_step (m_pool mc) ev p' -> exists c',
  Rel (taken ev (with_pool mc p')) c' /\ (c' = c \/ exists t x, nth_error (g_tasks c) t = Some x /\ tk_pend x = true /\ c' = with_task c t set_sched).
Proof.
  intros [[A B C D T Lv Cs W En] TB OW FN LV] (S & Ei & Es & Ec).
  assert (AL : forall e, In e (all p') -> In e (all (m_pool mc))).
  { intros e He. destruct (in_all_step _ _ _ _ S He) as [H|(pr & t & _ & _ & _ & H)]; auto. lia. }
  destruct ev as [|t|t|e| |e].
  all: try (destruct Ec as [Ec|(e' & Ee)]; [|discriminate]; exists c; split; [|now left]; constructor; cbn [taken with_pool m_pool m_states]; auto;
    [constructor; cbn [with_pool m_pool m_states m_tasks m_levels]; rewrite ?Ec; auto; intros u x Hx; rewrite <- (W u x Hx); unfold is_waiting; now rewrite Ec
    |apply (own_same (m_pool mc)); auto; intros u; now rewrite Ec]).
  inversion S as [| | | | | | | | | | | | | | | | |q e1 Hw Hwt E1 E2 E3| |]; subst; clear Ec.
  destruct (En e) as (x & lv & N & P & L & K). { unfold all, inside. rewrite Hw. cbn [PoolProofs.held]. rewrite !in_app_iff. simpl. auto. }
  exists (with_task c (snd e) set_sched). split; [|right; exists (snd e), x; auto].
  destruct (nth_error (cells (m_pool mc)) (snd e)) as [cell|] eqn:Ece.
  2: { unfold is_waiting in Hwt. rewrite Ece in Hwt. discriminate. }
  assert (Cl : cells (start (m_pool mc) (snd e) WFree) = upd (cells (m_pool mc)) (snd e) (mkCell false (owners cell))).
  { unfold start. rewrite Ece. reflexivity. }
  assert (CO : cores (with_task c (snd e) set_sched) = cores c) by (apply with_task_core; auto).
  constructor; rewrite ?CO; auto.
  - constructor; auto.
    + apply tasks_with. exact T.
    + rewrite with_task_length. exact Lv.
    + rewrite with_task_length. cbn [taken with_mtask with_pool m_pool]. rewrite Cl, upd_length. exact Cs.
    + intros v z. rewrite with_task_nth. cbn [taken with_mtask with_pool m_pool]. rewrite start_waiting. destruct (Nat.eqb_spec v (snd e)) as [->|Ne].
      * rewrite N. cbn [option_map]. intros H. injection H as <-. now rewrite andb_false_r.
      * rewrite andb_true_r. apply W.
    + intros e' He'. apply entry_with. apply keeps_sched. apply En. apply AL. exact He'.
  - apply (own_same (m_pool mc)); auto. intros u. apply own_start.
Qed.

(* ---- runs ---- *)
Lemma start_sim threads initial limit mc evs : okset initial -> mach_start chash threads initial limit = Some (mc, evs) ->
  exists c, search_start chash threads initial limit = Some c /\ Rel mc c /\ prun evs (m_pool mc) /\ no_adds evs.
Proof.
  intros (W & M & G). unfold mach_start, search_start. rewrite (bvec_ok initial W M). rewrite canon_same by auto.
  destruct (canon chash initial) as [i|]; [|discriminate]. intros H. injection H as <- <-. eexists. split; [reflexivity|]. split; [|split].
  - destruct (states_default_ok threads) as (A & B). constructor.
    + constructor; auto.
      * intros u x. destruct u as [|u]; cbn. intros H. injection H as <-. reflexivity. destruct u; discriminate.
      * intros e [].
    + cbn. split. intros s id []. intros id Hid. cbn in Hid. lia.
    + split. intros u []. intros [|[|u]] cell Hc; try discriminate. injection Hc as <-. reflexivity.
    + intros f [<-|[]]. split; [|exact Logic.I]. intros z [].
    + intros t x u Hx Hu. destruct t as [|t]. injection Hx as <-. destruct Hu. destruct t; discriminate.
  - cbn [m_pool]. apply (prun_psteps [] pool_new [EvNone; EvStarted 0; EvNone]). constructor.
    apply ps_cons with (set_cells pool_new [mkCell true 1]). apply (ESpawn pool_new).
    apply ps_cons with (start (set_cells pool_new [mkCell true 1]) 0 WFree). apply EStart; reflexivity.
    apply ps_one. apply (EDrop (start (set_cells pool_new [mkCell true 1]) 0 WFree) 0 (mkCell false 1)); cbn; auto.
  - na.
Qed.

Lemma mach_start_some threads initial limit : okset initial -> exists mc evs, mach_start chash threads initial limit = Some (mc, evs).
Proof.
  intros (W & M & G). unfold mach_start. rewrite (bvec_ok initial W M), canon_same by auto.
  destruct (canon chash initial) as [i|] eqn:E; eauto. exfalso. rewrite (canon_canon_of chash) in E by (split; auto). discriminate.
Qed.

Theorem run_sim threads initial limit tr mc : okset initial -> mach_run threads initial limit tr mc ->
  exists c, search_run threads initial limit c /\ Rel mc c /\ prun tr (m_pool mc) /\
    forall ev e, entry_of ev e -> In ev tr -> entry_fine (m_tasks mc) (m_levels mc) e.
Proof.
  intros K R. induction R as [mc evs E|tr mc evs mc' R IH S].
  - destruct (start_sim threads initial limit mc evs K E) as (c & Ec & RR & P & NA). exists c. split. now constructor. split; auto. split; auto.
    intros ev e En He. destruct (NA ev e En He).
  - destruct IH as (c & SR & RR & P & AD). pose proof (run_inv chash mhash _ _ _ _ K SR) as I.
    assert (ADD : later mc mc' -> (forall ev e, entry_of ev e -> In ev evs -> entry_fine (m_tasks mc') (m_levels mc') e) ->
              forall ev e, entry_of ev e -> In ev (tr ++ evs) -> entry_fine (m_tasks mc') (m_levels mc') e).
    { intros L X ev e En He. apply in_app_iff in He. destruct He as [He|He]; [|now apply (X ev)]. apply (entry_later mc); auto. now apply (AD ev). }
    destruct S as [mc t mc' evs E|mc t mc' evs E|mc a e b E|mc ev p' Ws].
    + pose proof (task_sim chash mhash mc c t I RR) as T. rewrite E in T. destruct T as (c' & Ec & R' & PS). exists c'.
      split. { eapply run_step; eauto. now apply SysTask with t. } split; auto. split. { eapply prun_psteps; eauto. }
      destruct (task_later _ _ _ _ E) as (L & NA). apply ADD; auto. intros ev e En He. destruct (NA ev e En He).
    + pose proof (drop_sim chash mhash mc c t I RR) as T. rewrite E in T. destruct T as (c' & Ec & R' & PS). exists c'.
      split. { eapply run_step; eauto. now apply SysDrop with t. } split; auto. split. { eapply prun_psteps; eauto. }
      destruct (drop_later _ _ _ _ E) as (L & NA). apply ADD; auto. intros ev e En He. destruct (NA ev e En He).
    + exists c. split; auto. split. { now apply send_sim. } split. { eapply prun_step; eauto. now apply ESend. }
      apply ADD. now apply later_refl. intros ev e' En [He|[]]. assert (e' = e) by (unfold entry_of in En; intuition congruence). subst e'. cbn [with_pool m_tasks m_levels].
      destruct RR as [R0 _ _ _ _]. rewrite (r_tasks _ _ R0). apply (r_entry _ _ R0). unfold all. rewrite E, !in_app_iff. simpl. auto.
    + destruct (work_sim mc c ev p' RR Ws) as (c' & R' & X). exists c'. split.
      { destruct X as [->|(t & x & N & Pe & ->)]; auto. eapply run_step; eauto. now apply SysPool with x. }
      assert (PP : m_pool (taken ev (with_pool mc p')) = p') by (destruct ev; reflexivity).
      split; auto. split. { rewrite PP. eapply prun_step; eauto. apply Ws. }
      apply ADD.
      * destruct ev; try (now apply later_refl). eapply later_trans; [|apply later_task, keeps_sched]. now apply later_refl.
      * intros ev0 e En [He|[]]. subst ev0. destruct Ws as (S & _ & Es & _). destruct En as [->| ->].
        -- exfalso. inversion S; subst.
           cbn [set_chan sending] in Es. match goal with H : sending _ = _ |- _ => rewrite H in Es end. apply (f_equal (@length _)) in Es.
           rewrite !app_length in Es. cbn [length] in Es. lia.
        -- apply (entry_later mc). { cbn [taken]. eapply later_trans; [|apply later_task, keeps_sched]. now apply later_refl. }
           destruct RR as [R0 _ _ _ _]. rewrite (r_tasks _ _ R0). apply (r_entry _ _ R0). unfold all, inside.
           inversion S; subst. match goal with H : worker _ = _ |- _ => rewrite H end. cbn [PoolProofs.held]. rewrite !in_app_iff. simpl. auto.
Qed.
End Run.
