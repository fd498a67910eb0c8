(* Every step of the checked search is a step of SearchModel, and no check fails. *)
From Coq Require Import List Arith Bool Lia Permutation.
Import ListNotations.
From Verif Require Import Spec Vec Net Graded Bits Util OutputSetModel OutputSetProofs PruneProofs PackProofs HuffmanModel HuffmanProofs CanonModel TreeModel StatesModel StatesProofs StatesBounds.
From Verif Require Import MachineModel CanonMachModel PropMachine PropCanonMach StatesMachModel StatesMachProofs PoolModel PoolProofs.
From Verif Require Import SearchModel SearchFacts SearchInv SearchEdges SearchStep SearchFrames SearchGlobal SearchRun SearchSafe SearchMachModel SearchMachReq.

(* ---- several steps of the pool ---- *)
Inductive psteps : Pool -> list Event -> Pool -> Prop :=
| ps_nil p : psteps p [] p
| ps_cons p ev p' evs p'' : pstep p ev p' -> psteps p' evs p'' -> psteps p (ev :: evs) p''.

Lemma prun_psteps tr p evs p' : prun tr p -> psteps p evs p' -> prun (tr ++ evs) p'.
Proof.
  intros R S. revert tr R. induction S as [p|p ev p1 evs p2 S1 S2 IH]; intros tr R. now rewrite app_nil_r.
  change (ev :: evs) with ([ev] ++ evs). rewrite app_assoc. apply IH. eapply prun_step; eauto.
Qed.
Lemma ps_one p ev p' : pstep p ev p' -> psteps p [ev] p'.
Proof. intros S. econstructor; [exact S|constructor]. Qed.

(* ---- the relation between the checked search and SearchModel, without what depends on the frames ---- *)
Definition entry_fine (tasks : list Task) (levels : list nat) (e : Entry) : Prop :=
  exists x lv, nth_error tasks (snd e) = Some x /\ tk_pend x = true /\ nth_error levels (snd e) = Some lv /\
    fst (fst e) = (lv, os_len (tk_set x), lo (tk_prev x)).

(* the owners of a cell are the frames that hold a handle to its task *)
Definition own_ok (p : Pool) (K : list nat) : Prop :=
  (forall u, In u K -> u < length (cells p)) /\
  forall u cell, nth_error (cells p) u = Some cell -> owners cell = count_occ Nat.eq_dec K u.

Lemma own_perm p K K' : Permutation K K' -> own_ok p K -> own_ok p K'.
Proof.
  intros P (A & B). split.
  - intros u Hu. apply A. apply (Permutation_in _ (Permutation_sym P) Hu).
  - intros u cell E. rewrite (B u cell E). apply (Permutation_count_occ Nat.eq_dec). exact P.
Qed.
Lemma own_same p p' K : (forall u, option_map owners (nth_error (cells p') u) = option_map owners (nth_error (cells p) u)) -> own_ok p K -> own_ok p' K.
Proof.
  intros H (A & B). split.
  - intros u Hu. apply nth_error_Some. apply A in Hu. apply nth_error_Some in Hu. specialize (H u).
    destruct (nth_error (cells p') u), (nth_error (cells p) u); cbn in H; congruence.
  - intros u cell E. specialize (H u). rewrite E in H. destruct (nth_error (cells p) u) as [c|] eqn:Ec; [|discriminate]. cbn in H. injection H as ->. now apply B.
Qed.
Lemma own_in p K u : own_ok p K -> In u K -> exists cell, nth_error (cells p) u = Some cell /\ 0 < owners cell.
Proof.
  intros (A & B) Hu. destruct (nth_error (cells p) u) as [cell|] eqn:E.
  - exists cell. split; auto. rewrite (B u cell E). now apply count_occ_In.
  - apply nth_error_None in E. apply A in Hu. lia.
Qed.
Lemma own_start p t w u : option_map owners (nth_error (cells (start p t w)) u) = option_map owners (nth_error (cells p) u).
Proof.
  unfold start. cbn [cells]. destruct (nth_error (cells p) t) as [c|] eqn:E; auto. destruct (Nat.eq_dec u t) as [->|N].
  - rewrite nth_error_upd_eq by (now apply nth_error_lt in E). now rewrite E.
  - now rewrite nth_error_upd_neq.
Qed.

Lemma table_perm hash m L L' : Permutation L L' -> table_ok hash m L -> table_ok hash m L'.
Proof.
  intros P (A & B). split.
  - intros s id H. apply A. apply (Permutation_in _ (Permutation_sym P) H).
  - intros id H. destruct (B id H) as [H'|H']; auto. left. eapply Permutation_in; [|exact H']. now apply Permutation_map.
Qed.

Lemma upd_same_task {A} (l : list A) : forall i x y, nth_error l i = Some x -> y = x -> upd l i y = l.
Proof. induction l as [|a l IH]; intros [|i] x y E H; simpl in *; try discriminate; auto. congruence. f_equal. now apply (IH i x). Qed.

Section Sim.
Variables chash mhash : list nat -> nat.
Notation access := (SearchModel.access mhash).
Notation frame_req := (SearchModel.frame_req chash).
Notation frame_req_c := (SearchMachModel.frame_req_c chash).
Notation access_m := (SearchMachModel.access_m mhash).
Notation Inv := (SearchGlobal.Inv chash mhash).

(* levels that were given stay *)
Definition levels_kept (mc mc1 : Mach) : Prop := forall u lv, nth_error (m_levels mc) u = Some lv -> nth_error (m_levels mc1) u = Some lv.
(* the level of u is one more than that of t *)
Definition level_below (mc : Mach) (t u : nat) : Prop := exists lv, nth_error (m_levels mc) t = Some lv /\ nth_error (m_levels mc) u = Some (lv + 1).

Record Rel0 (mc : Mach) (c : Config) : Prop := {
  r_map : erase_states (m_states mc) = g_map c;
  r_maps : maps_ok (m_states mc);
  r_next : length (locks (m_states mc)) = g_next c;
  r_sent : sent (m_states mc) = g_sent c;
  r_tasks : m_tasks mc = g_tasks c;
  r_levels : length (m_levels mc) = length (g_tasks c);
  r_cells : length (cells (m_pool mc)) = length (g_tasks c);
  r_wait : forall u x, nth_error (g_tasks c) u = Some x -> is_waiting (m_pool mc) u = negb (tk_sched x);
  r_entry : forall e, In e (all (m_pool mc)) -> entry_fine (g_tasks c) (m_levels mc) e }.

Definition keeps (g : Task -> Task) : Prop :=
  forall x, tk_pend (g x) = tk_pend x /\ tk_set (g x) = tk_set x /\ tk_prev (g x) = tk_prev x.

Lemma entry_with c levels t g e : keeps g -> entry_fine (g_tasks c) levels e -> entry_fine (g_tasks (with_task c t g)) levels e.
Proof.
  intros G (x & lv & N & P & L & E). unfold entry_fine. rewrite with_task_nth. rewrite N. destruct (snd e =? t); cbn [option_map].
  - exists (g x), lv. destruct (G x) as (-> & -> & ->). auto.
  - exists x, lv. auto.
Qed.

Lemma with_task_length c t g : length (g_tasks (with_task c t g)) = length (g_tasks c).
Proof. unfold with_task. cbn [g_tasks]. destruct (nth_error (g_tasks c) t) as [x|] eqn:E; auto. now rewrite (upd_length _ _ _ _ E) || apply upd_length. Qed.

Lemma tasks_with mc c t g : m_tasks mc = g_tasks c -> m_tasks (with_mtask mc t g) = g_tasks (with_task c t g).
Proof. intros E. unfold with_mtask, with_task. cbn [m_tasks g_tasks]. now rewrite E. Qed.

Lemma rel0_task mc c t g : keeps g -> (forall x, tk_sched (g x) = tk_sched x) -> Rel0 mc c -> Rel0 (with_mtask mc t g) (with_task c t g).
Proof.
  intros G S [A B C D E F I J K]. constructor; auto.
  - now apply tasks_with.
  - rewrite with_task_length. exact F.
  - rewrite with_task_length. exact I.
  - intros u x. rewrite with_task_nth. cbn [with_mtask m_pool]. destruct (u =? t).
    + destruct (nth_error (g_tasks c) u) as [y|] eqn:Ey; [|discriminate]. intros H. injection H as <-. rewrite S. auto.
    + auto.
  - intros e He. apply entry_with; [exact G|]. apply K. exact He.
Qed.

Lemma rel0_states mc c m : Rel0 mc c -> maps_ok m -> Rel0 (with_states mc m) (mkConfig (erase_states m) (length (locks m)) (sent m) (g_tasks c)).
Proof. intros [A B C D E F I J K] X. constructor; auto. Qed.

(* ---- dropping handles ---- *)
Lemma keeps_cancel : keeps set_cancel.
Proof. intros x. auto. Qed.

Lemma waiting_set p cs u : (forall v, option_map waiting (nth_error cs v) = option_map waiting (nth_error (cells p) v)) ->
  is_waiting (set_cells p cs) u = is_waiting p u.
Proof.
  intros H. unfold is_waiting. cbn [set_cells cells]. specialize (H u). destruct (nth_error cs u), (nth_error (cells p) u); cbn in H; congruence.
Qed.

Lemma drop_schedule_ok mc c u K : Rel0 mc c -> own_ok (m_pool mc) (u :: K) -> exists mc',
  drop_schedule mc u = Some mc' /\ m_states mc' = m_states mc /\ m_tasks mc' = m_tasks mc /\ m_levels mc' = m_levels mc /\ Rel0 mc' c /\
  own_ok (m_pool mc') K /\ psteps (m_pool mc) [EvNone] (m_pool mc').
Proof.
  intros R O. destruct (own_in _ _ u O (or_introl eq_refl)) as (cell & Ec & Eo). unfold drop_schedule, rd. rewrite Ec. unfold sub_u.
  destruct (Nat.leb_spec 1 (owners cell)) as [_|H]; [|lia]. rewrite (wr_lt (cells (m_pool mc)) u _ (nth_error_lt _ _ _ Ec)).
  set (cs := upd (cells (m_pool mc)) u (mkCell (waiting cell) (owners cell - 1))).
  assert (Wt : forall v, option_map waiting (nth_error cs v) = option_map waiting (nth_error (cells (m_pool mc)) v)).
  { intros v. unfold cs. destruct (Nat.eq_dec v u) as [->|Ne]. rewrite nth_error_upd_eq, Ec; auto. now apply nth_error_lt in Ec. now rewrite nth_error_upd_neq. }
  eexists. split; [reflexivity|]. split; auto. split; auto. split; auto. split; [|split].
  - destruct R as [A B C D E F I J L]. constructor; auto.
    + cbn [with_pool m_pool set_cells cells]. unfold cs. rewrite upd_length. exact I.
    + intros v x Hx. cbn [with_pool m_pool]. rewrite waiting_set by auto. auto.
  - destruct O as (OA & OB). cbn [with_pool m_pool]. unfold own_ok. cbn [set_cells cells]. unfold cs. rewrite upd_length. split.
    + intros v Hv. apply OA. simpl. auto.
    + intros v cl Hv. destruct (Nat.eq_dec v u) as [->|Ne].
      * rewrite nth_error_upd_eq in Hv by (now apply nth_error_lt in Ec). injection Hv as <-. cbn [owners]. rewrite (OB u cell Ec).
        rewrite count_occ_cons_eq by auto. lia.
      * rewrite nth_error_upd_neq in Hv by auto. rewrite (OB v cl Hv), count_occ_cons_neq by auto. reflexivity.
  - apply ps_one. cbn [with_pool m_pool]. unfold cs. now apply EDrop.
Qed.

Lemma drop_all_ok ts : forall mc c K, Rel0 mc c -> own_ok (m_pool mc) (ts ++ K) -> exists mc',
  drop_all ts mc = Some mc' /\ m_states mc' = m_states mc /\ m_levels mc' = m_levels mc /\ Rel0 mc' (cancel_all ts c) /\
  own_ok (m_pool mc') K /\ psteps (m_pool mc) (map (fun _ => EvNone) ts) (m_pool mc').
Proof.
  induction ts as [|u ts IH]; intros mc c K R O.
  - exists mc. cbn. split; auto. split; auto. split; auto. split; auto. split; auto. constructor.
  - cbn [app] in O.
    pose proof (rel0_task mc c u set_cancel keeps_cancel (fun _ => eq_refl) R) as R1.
    destruct (drop_schedule_ok (with_mtask mc u set_cancel) (with_task c u set_cancel) u (ts ++ K) R1 O) as (mc1 & E1 & S1 & T1 & L1 & R2 & O2 & P1).
    destruct (IH mc1 (with_task c u set_cancel) K R2 O2) as (mc2 & E2 & S2 & V2 & R3 & O3 & P2).
    exists mc2. unfold drop_all in *. cbn [fold_opt]. unfold drop_running at 1. rewrite E1. split; [exact E2|]. split. { rewrite S2, S1. reflexivity. } split. { rewrite V2, L1. reflexivity. }
    split. exact R3. split; auto. cbn [map]. inversion P1 as [|? ? p1 ? ? Q1 Q2]; subst. inversion Q2; subst. econstructor; eauto.
Qed.

(* ---- the locks and running tasks after the sequential code ---- *)
Definition ctl_res (rest : list Frame) (k : Ctl) (H : list (OutputSet * nat)) (K : list nat) : Prop :=
  match k with
  | CGo f => hl f = H /\ Permutation (kids f) K
  | CCall f g => hl f = H /\ held g = None /\ kids g = [] /\ Permutation (kids f) K
  | CReturn v => H = [] /\ K = [] /\
      match rest with
      | [] => True
      | f :: r => exists f', resume f v = Some f' /\ held f' = held f /\ kids f' = [] /\ kids f = []
      end
  | CPanic => False
  end.
Lemma ctl_ok_res m goal root rest k H K : ctl_ok chash mhash m goal root rest k H K -> ctl_res rest k H K.
Proof.
  destruct k; cbn [SearchStep.ctl_ok ctl_res]; auto; try tauto.
  intros (A & B & C). split; auto. split; auto. destruct rest as [|f r]; auto. destruct C as (f' & C1 & _ & _ & C2). exists f'. auto.
Qed.

(* what one access does to the locks and to the running tasks of the frame *)
Definition access_sim (mc : Mach) (c : Config) (t : nat) (f : Frame) (rest : list Frame) (L : list (OutputSet * nat)) (K : list nat)
    (mc1 : Mach) (evs : list Event) (c1 : Config) (k : Ctl) : Prop :=
  Rel0 mc1 c1 /\ psteps (m_pool mc) evs (m_pool mc1) /\ ctl_fine k /\
  exists new H1 K1, cores c1 = cores c ++ new /\ SearchRun.added new /\ ctl_res rest k H1 K1 /\
    (forall R, Permutation L (hl f ++ R) -> table_ok mhash (m_states mc1) (H1 ++ R)) /\
    (forall R, Permutation K (kids f ++ R) -> own_ok (m_pool mc1) (K1 ++ R)) /\
    levels_kept mc mc1 /\ (forall u, In u K1 -> In u (kids f) \/ level_below mc1 t u).

Lemma levels_refl mc mc1 : m_levels mc1 = m_levels mc -> levels_kept mc mc1.
Proof. intros E u lv. now rewrite E. Qed.

Lemma wait_in f id k : frame_req f = RWait id k -> exists s, In (s, id) (waits f).
Proof.
  assert (X : forall order e np go done, next_req order e np go done <> RWait id k).
  { intros order e np go done. destruct np as [ids finished nr block| |index ids block|ids block t]; cbn [next_req]; try discriminate.
    - destruct ids as [|i ids]; [discriminate|]. destruct (nth_error (targets e) i) as [x|]; [|discriminate]. destruct (tg_run x); discriminate.
    - destruct ids as [|i ids]; [discriminate|]. destruct (nth_error (targets e) i) as [x|]; [|discriminate].
      destruct (tg_run x) as [t|]; [destruct (index =? 0); discriminate|]. destruct (closed _); discriminate. }
  destruct f as [s lim pc|prev s pc|s pc]; cbn [SearchModel.frame_req].
  - destruct pc; cbn [main_req]; try discriminate. destruct (closed st || _); discriminate.
  - destruct pc; cbn [imp_req]; try discriminate; try (intros H; exfalso; revert H; apply X).
    + intros H. injection H as <- _. exists s. simpl. auto.
    + destruct (hi pst <? hi st); discriminate.
    + destruct (lo st <? lo pst); discriminate.
    + destruct todo as [|(i, j) todo]; [discriminate|]. destruct (apply_comparator s i j) as (t, ch). destruct ch; [|discriminate].
      destruct (canon chash t); [|discriminate]. unfold add_edge_req. destruct (find_target _ _ _); discriminate.
    + destruct (m <- list_min (map hi (edge_states e));; u8_succ m); [|discriminate]. destruct (_ <? hi st); discriminate.
    + destruct (m <- list_min (map lo (edge_states e));; u8_succ m); [|discriminate]. destruct (lo st <? _); discriminate.
  - destruct pc; cbn [huff_req]; try discriminate; try (intros H; exfalso; revert H; apply X).
    + destruct todo as [|(pol, c) todo]; [discriminate|]. destruct (prune_canon chash s pol c); [|discriminate].
      unfold add_edge_req. destruct (find_target _ _ _); discriminate.
    + destruct (lo st <? (if pol then uh1 else uh0)); [|discriminate].
      match goal with |- context [match ?a with _ => _ end] => destruct a as [(lh, uh)|] end; [|discriminate].
      destruct (uh <=? lo st); [|discriminate]. destruct (retain_edges _ e); discriminate.
    + destruct (hlo st <? lh); [|discriminate]. destruct (lo st <? lh); discriminate.
    + destruct (Nat.max uh0 uh1 <? hhi st); discriminate.
Qed.

Theorem access_sim_ok mc c t x f rest : Inv c -> Rel0 mc c -> nth_error (cores c) t = Some x -> c_stack x = f :: rest ->
  table_ok mhash (m_states mc) (flat_map hl (frames (cores c))) -> own_ok (m_pool mc) (flat_map kids (frames (cores c))) -> fine f ->
  match access_m mc t (frame_req_c f) with
  | MAPanic => False
  | MABlocked => access c (frame_req f) = ABlocked
  | MADone mc1 evs k => exists c1, access c (frame_req f) = ADone c1 k /\
      access_sim mc c t f rest (flat_map hl (frames (cores c))) (flat_map kids (frames (cores c))) mc1 evs c1 k
  end.
Proof.
  intros I R0 N E TB OW FN. pose proof (inv_core _ _ c I x (nth_error_In _ _ N)) as (Kr & S & _). rewrite E in S. destruct S as (F & Ft & S).
  pose proof (frame_req_ok chash mhash _ _ _ _ _ (inv_map _ _ c I) F Ft S) as R. pose proof (frame_same chash mhash _ _ _ F) as SM.
  pose proof (frame_req_fine chash f FN) as RF.
  pose proof (mi_ok _ _ _ (inv_map _ _ c I)) as MO. rewrite <- (r_map _ _ R0) in MO.
  set (L := flat_map hl (frames (cores c))) in *. set (K := flat_map kids (frames (cores c))) in *.
  assert (HI : held_inv mhash (erase_states (m_states mc)) (length (locks (m_states mc))) (sent (m_states mc)) L).
  { rewrite (r_map _ _ R0), (r_next _ _ R0), (r_sent _ _ R0). exact (inv_lock _ _ c I). }
  assert (Ff : In f (frames (cores c))).
  { apply in_flat_map. exists x. split. eapply nth_error_In; eauto. rewrite E. simpl. auto. }
  assert (KSUB : forall u, In u (kids f) -> In u K) by (intros u Hu; apply in_flat_map; exists f; auto).
  assert (TBF : forall R, Permutation L (hl f ++ R) -> table_ok mhash (m_states mc) (hl f ++ R)) by (intros R1 P; now apply (table_perm mhash _ L)).
  assert (OWF : forall R, Permutation K (kids f ++ R) -> own_ok (m_pool mc) (kids f ++ R)) by (intros R1 P; now apply (own_perm _ K)).
  (* nothing but the states changes, and not the locks *)
  assert (SAME : forall k, ctl_res rest k (hl f) (kids f) -> ctl_fine k ->
     access_sim mc c t f rest L K mc [] c k).
  { intros k CR CF. split; auto. split. constructor. split; auto. exists [], (hl f), (kids f). rewrite app_nil_r. split; auto.
    split. left; auto. split; auto. split; auto. split; auto. split. now apply levels_refl. auto. }
  destruct (frame_req_c f) as [r|prev s prio k] eqn:EM.
  2: { (* spawn *)
    cbn [mreq_same] in SM. rewrite SM in R, RF |- *. cbn [SearchStep.req_ok] in R. cbn [req_fine] in RF. destruct R as (Ks & R).
    assert (TL : t < length (g_tasks c)). { apply nth_error_lt in N. unfold cores in N. now rewrite map_length in N. }
    cbn [SearchMachModel.access_m]. unfold spawn, rd. destruct (nth_error (m_levels mc) t) as [lv|] eqn:El.
    2: { apply nth_error_None in El. rewrite (r_levels _ _ R0) in El. lia. }
    set (p1 := set_cells (m_pool mc) (cells (m_pool mc) ++ [mkCell true 1])).
    set (y := mkTask prev s [FImp prev s ILook] false match prio with Some _ => true | None => false end false None).
    assert (CC : ctl_res rest (k (length (g_tasks c))) (hl f) (length (g_tasks c) :: kids f)).
    { apply (ctl_ok_res (g_map c) (goal_in (cores c ++ [mkCore (prev, s) [FImp prev s ILook] None])) (c_root x)). apply R. apply goal_app.
      unfold goal_in. rewrite nth_error_app2; unfold cores; rewrite map_length; auto. now rewrite Nat.sub_diag. }
    set (c1 := mkConfig (g_map c) (g_next c) (g_sent c) (g_tasks c ++ [y])).
    assert (G : forall p2 evs, cells p2 = cells p1 -> psteps (m_pool mc) evs p2 ->
        (forall e, In e (all p2) -> In e (all (m_pool mc)) \/ exists len b i, prio = Some (len, b) /\ e = ((lv + 1, len, b), i, length (g_tasks c))) ->
        access_sim mc c t f rest L K (mkMach (m_states mc) (m_tasks mc ++ [y]) (m_levels mc ++ [lv + 1]) p2) evs c1 (k (length (g_tasks c)))).
    { intros p2 evs Ecs PS AL. split; [|split; [exact PS|split; [apply RF|]]].
      - destruct R0 as [A B C D T Lv Cl W En]. constructor; auto.
        + cbn [m_tasks c1 g_tasks]. now rewrite T.
        + cbn [m_levels c1 g_tasks]. rewrite !app_length. cbn [length]. lia.
        + cbn [m_pool c1 g_tasks]. rewrite Ecs. unfold p1. cbn [set_cells cells]. rewrite !app_length. cbn [length]. lia.
        + intros u z Hz. cbn [m_pool c1 g_tasks] in *. unfold is_waiting. rewrite Ecs. unfold p1. cbn [set_cells cells].
          destruct (Nat.lt_ge_cases u (length (g_tasks c))) as [Hu|Hu].
          * rewrite nth_error_app1 in Hz by auto. rewrite nth_error_app1 by lia. exact (W u z Hz).
          * rewrite nth_error_app2 in Hz by auto. rewrite nth_error_app2 by lia. rewrite Cl.
            destruct (u - length (g_tasks c)) as [|[|]]; try discriminate. injection Hz as <-. reflexivity.
        + intros e He. cbn [m_pool m_levels c1 g_tasks] in *. destruct (AL e He) as [H|(len & b & i & Ep & Ee)].
          * destruct (En e H) as (z & l & X1 & X2 & X3 & X4). exists z, l. split. { rewrite nth_error_app1; auto. now apply nth_error_lt in X1. }
            split; auto. split; auto. rewrite nth_error_app1; auto. now apply nth_error_lt in X3.
          * exists y, (lv + 1). subst e. cbn [snd fst]. split. { rewrite nth_error_app2, Nat.sub_diag by auto. reflexivity. }
            split. { unfold y. rewrite Ep. reflexivity. } split. { rewrite nth_error_app2, Lv, Nat.sub_diag by lia. reflexivity. }
            rewrite Ep in EM. destruct (spawn_prio chash f prev s len b k FN EM) as (-> & ->). reflexivity.
      - exists [mkCore (prev, s) [FImp prev s ILook] None], (hl f), (length (g_tasks c) :: kids f). split. { unfold cores, c1. cbn [g_tasks]. now rewrite map_app. }
        split. { right. eauto. } split; auto. split; auto. split.
        2: { split. { intros u l Hl. cbn [m_levels]. rewrite nth_error_app1; auto. now apply nth_error_lt in Hl. }
             intros u [<-|Hu]; [right|now left]. exists lv. cbn [m_levels]. split. { rewrite nth_error_app1; auto. now apply nth_error_lt in El. }
             rewrite nth_error_app2, (r_levels _ _ R0), Nat.sub_diag by (rewrite (r_levels _ _ R0); auto). reflexivity. }
        intros R1 P. destruct (OWF R1 P) as (OA & OB). cbn [app]. unfold own_ok. cbn [m_pool]. rewrite Ecs. unfold p1. cbn [set_cells cells]. rewrite app_length. cbn [length].
        pose proof (r_cells _ _ R0) as Cl. split.
        + intros u [<-|Hu]; [lia|]. apply OA in Hu. lia.
        + intros u cl Hu. destruct (Nat.lt_ge_cases u (length (cells (m_pool mc)))) as [H|H].
          * rewrite nth_error_app1 in Hu by auto. rewrite (OB u cl Hu), count_occ_cons_neq by lia. reflexivity.
          * rewrite nth_error_app2 in Hu by auto. destruct (u - length (cells (m_pool mc))) as [|[|]] eqn:Eu; try discriminate. injection Hu as <-. cbn [owners].
            assert (u = length (g_tasks c)) by lia. subst u. rewrite count_occ_cons_eq by auto. f_equal. symmetry. apply count_occ_not_In.
            intros Hi. apply OA in Hi. lia. }
    rewrite (r_tasks _ _ R0) in G |- *.
    destruct prio as [(len, b)|]; cbv zeta beta iota.
    - exists c1. split. reflexivity. apply G.
      + reflexivity.
      + apply ps_cons with p1. apply ESpawn. apply ps_one. apply EId. unfold alive, p1. cbn [set_cells cells].
        rewrite nth_error_app2; rewrite (r_cells _ _ R0); auto. now rewrite Nat.sub_diag.
      + intros e He. unfold all in He. cbn [set_sending sending] in He. cbn [app] in He. destruct He as [<-|He]; [|left; exact He]. right. eauto.
    - exists c1. split. reflexivity. apply G.
      + reflexivity.
      + apply ps_one. apply ESpawn.
      + intros e He. left. exact He. }
  destruct SM as (NS & SM).
  destruct r as [s k|s st k|s got busy|s id k|id k|u k|prev s pend k|u k|ts k|k|].
  all: cbn [SearchMachModel.access_m].
  - (* get *)
    destruct (frame_req f) as [s' k'|s' st' k'|s' got' busy'|s' id' k'|id' k'|u' k'|prev' s' pend' k'|u' k'|ts' k'|k'|] eqn:EF; cbn [req_same] in SM; try discriminate.
    destruct SM as (<- & SK). cbn [SearchStep.req_ok] in R. cbn [req_fine] in RF. destruct R as (Ks & R).
    rewrite (states_get_same mhash (m_states mc) s (r_maps _ _ R0) MO (proj1 Ks) (proj1 (proj2 Ks))). cbn [SearchModel.access]. rewrite (r_map _ _ R0).
    rewrite (sm_get_cur mhash _ s (mi_ok _ _ _ (inv_map _ _ c I)) (proj1 Ks)). exists c. rewrite SK. split; auto. apply SAME; auto. eapply ctl_ok_res; eauto.
  - (* set *)
    cbn [req_same] in SM. rewrite <- SM in R, RF |- *. cbn [SearchStep.req_ok] in R. cbn [req_fine] in RF.
    destruct R as (Ow & Ks & Wk & Hl & Hh & JL & JU & R).
    destruct (states_set_same mhash (m_states mc) s st (r_maps _ _ R0) MO (work_okk s Ks Wk)) as (m' & E1 & E2 & M' & Lk & Lo & Se).
    rewrite E1. cbn [SearchModel.access]. rewrite (r_map _ _ R0) in E2. rewrite E2. eexists. split; [reflexivity|].
    destruct (set_map_inv chash mhash _ s st (inv_map _ _ c I) Ks Wk Hl Hh JL JU) as (m2 & E2' & _ & I2 & T2 & Cs & Co).
    rewrite E2 in E2'. injection E2' as <-.
    pose proof (rel0_states mc c m' R0 M') as R1. rewrite Lo, Se, (r_next _ _ R0), (r_sent _ _ R0) in R1.
    split; [exact R1|split; [constructor|split; [exact RF|]]]. exists [], (hl f), (kids f). rewrite app_nil_r. split; [reflexivity|].
    split. left; auto. split. { apply (ctl_ok_res (erase_states m') (goal_in (cores c)) (c_root x)). apply R; auto. }
    split; [|split; [exact OWF|split; [now apply levels_refl|auto]]]. intros R2 P. pose proof (TBF R2 P) as (X1 & X2). cbn [with_states m_states]. split.
    + intros s' i Hi. rewrite Lo. unfold lock_for. rewrite Lk. exact (X1 s' i Hi).
    + intros i. rewrite Lo, Se. auto.
  - (* lock *)
    cbn [req_same] in SM. rewrite <- SM in R, RF |- *. cbn [SearchStep.req_ok] in R. cbn [req_fine] in RF.
    destruct R as (Ks & Wk & Hf & Kf & Rg & Rb). destruct RF as (RF1 & RF2).
    pose proof (states_lock_same mhash (m_states mc) s (r_maps _ _ R0) MO (work_okk s Ks Wk)) as G. cbn [SearchModel.access].
    destruct (lock_of mhash (erase_states (m_states mc)) s) as [i|] eqn:EL.
    + destruct G as (-> & G). rewrite (r_map _ _ R0), (r_next _ _ R0) in G. rewrite G. exists c. split; auto.
      assert (Em : with_states mc (m_states mc) = mc) by (destruct mc; reflexivity). rewrite Em.
      apply SAME; auto. rewrite Hf, Kf. eapply ctl_ok_res; apply Rb.
    + destruct G as (m' & -> & G & M' & Ss & Lk & Lo & Se). rewrite (r_map _ _ R0), (r_next _ _ R0) in G. rewrite G. eexists. split; [rewrite (r_next _ _ R0); reflexivity|].
      pose proof (rel0_states mc c m' R0 M') as R1. rewrite Lo, Se, app_length, (r_next _ _ R0), (r_sent _ _ R0) in R1. cbn [length] in R1. rewrite Nat.add_1_r in R1.
      split; [exact R1|split; [constructor|split; [apply RF1|]]]. exists [], [(s, g_next c)], []. rewrite app_nil_r. split; [reflexivity|].
      split. left; auto. split. { rewrite <- (r_next _ _ R0). eapply ctl_ok_res; apply Rg. }
      rewrite Hf, Kf in *. split; [|split; [exact OWF|split; [now apply levels_refl|auto]]]. intros R2 P. rewrite <- (r_next _ _ R0). exact (table_new mhash (m_states mc) m' R2 s (TBF R2 P) (work_okk s Ks Wk) Lk Lo Se).
  - (* unlock *)
    cbn [req_same] in SM. rewrite <- SM in R, RF |- *. cbn [SearchStep.req_ok] in R. cbn [req_fine] in RF.
    destruct R as (Hf & Ks & Wk & Kf & R).
    assert (HL : In (s, id) L). { apply in_flat_map. exists f. split; auto. unfold hl. rewrite Hf. simpl. auto. }
    destruct (states_unlock_same mhash (m_states mc) L s id (r_maps _ _ R0) MO HI TB HL) as (m' & -> & G & M' & Ss & Lk & Lo & Se).
    cbn [SearchModel.access]. rewrite (r_map _ _ R0) in G. rewrite G. eexists. split; [reflexivity|].
    pose proof (rel0_states mc c m' R0 M') as R1. rewrite Lo, Se in R1.
    assert (Ll : length (upd (locks (m_states mc)) id (mkStateLock None (channels s) (pk s) (shard_of mhash (length (lk_shards (m_states mc))) (pk s)))) = g_next c).
    { rewrite <- (r_next _ _ R0). apply upd_length. }
    rewrite Ll, (r_sent _ _ R0) in R1.
    split; [exact R1|split; [constructor|split; [exact RF|]]]. exists [], [], []. rewrite app_nil_r. split; [reflexivity|].
    split. left; auto. split. { eapply ctl_ok_res; apply R. }
    rewrite Kf in *. split; [|split; [exact OWF|split; [now apply levels_refl|auto]]]. intros R2 P. unfold hl in P. rewrite Hf in P. cbn [opt_list app] in P. fold hl in P.
    apply (table_free mhash (m_states mc) m' [] s id R2); auto.
    + cbn [app]. now apply (table_perm mhash _ L).
    + cbn [app]. destruct HI as (_ & N2 & _). apply (Permutation_NoDup (Permutation_map snd P) N2).
    + eauto.
  - (* wait *)
    cbn [req_same] in SM. rewrite <- SM in R, RF |- *. cbn [SearchStep.req_ok] in R. cbn [req_fine] in RF.
    destruct (wait_in f id k (eq_sym SM)) as (s & Hw).
    assert (Lt : id < length (locks (m_states mc))).
    { destruct (inv_wait _ _ c I (s, id)) as [H|H]. { apply in_flat_map. exists f. auto. }
      - apply HI. rewrite (r_sent _ _ R0). exact H.
      - destruct HI as (_ & _ & _ & HI & _). now apply (HI s id). }
    rewrite (states_await_same mhash (m_states mc) L id TB Lt). cbn [SearchModel.access]. rewrite (r_sent _ _ R0).
    destruct (existsb (Nat.eqb id) (g_sent c)); auto. exists c. split; auto. apply SAME; auto. eapply ctl_ok_res; eauto.
  - (* poll *)
    cbn [req_same] in SM. rewrite <- SM in R, RF |- *. cbn [SearchStep.req_ok] in R. cbn [req_fine] in RF.
    destruct R as (Hu & Rn & Rs). cbn [SearchModel.access]. destruct (inv_kid _ _ c I) as (IK1 & IK2).
    destruct (IK2 u (KSUB u Hu)) as (_ & y & Ny & Cy). rewrite (r_tasks _ _ R0), Ny, (r_wait _ _ R0 u y Ny), negb_involutive, Cy.
    destruct (tk_result y) as [v|] eqn:Ry.
    + apply in_split in Hu. destruct Hu as (k1 & k2 & Ek). assert (PK : Permutation (u :: k1 ++ k2) (kids f)).
      { rewrite Ek. apply Permutation_middle. }
      assert (X : exists R, Permutation K (kids f ++ R)).
      { destruct (frames_split (cores c) t x f rest N E) as (O & P & _). exists (flat_map kids (rest ++ O)). unfold K. rewrite (flat_map_perm kids _ _ P). reflexivity. }
      destruct X as (R2 & P2). assert (P3 : Permutation K (u :: (k1 ++ k2) ++ R2)) by (rewrite P2, <- PK; reflexivity).
      destruct (drop_schedule_ok mc c u ((k1 ++ k2) ++ R2) R0) as (mc' & -> & S1 & T1 & L1 & R1 & O1 & PS); auto.
      { apply (own_perm _ K); auto. }
      exists c. split; auto. split; auto. split; auto. split. { apply RF. }
      exists [], (hl f), (k1 ++ k2). rewrite app_nil_r. split; auto. split. left; auto. split.
      * assert (Ny' : nth_error (cores c) u = Some (core y)) by (unfold cores; now rewrite nth_error_map, Ny).
        eapply ctl_ok_res. apply (Rs v (tk_sched y) (tk_prev y, tk_set y)); auto.
        -- unfold goal_in. now rewrite Ny'.
        -- destruct (inv_core _ _ c I (core y) (nth_error_In _ _ Ny')) as (_ & _ & H). now apply H.
      * split. { rewrite S1. exact TBF. } split.
        2: { split. now apply levels_refl. intros w Hw. left. rewrite Ek. apply in_app_iff in Hw. apply in_app_iff. simpl. tauto. }
        intros R4 P4. apply (own_perm _ ((k1 ++ k2) ++ R2)); auto.
        apply Permutation_cons_inv with u. rewrite <- P3, P4, <- PK. reflexivity.
    + exists c. split; auto. apply SAME; auto. eapply ctl_ok_res; apply Rn.
  - exfalso. eapply NS. reflexivity.
  - (* schedule *)
    cbn [req_same] in SM. rewrite <- SM in R, RF |- *. cbn [SearchStep.req_ok] in R. cbn [req_fine] in RF.
    pose proof (sched_in chash f u k FN (eq_sym SM)) as Hu. destruct (own_in _ _ u OW (KSUB u Hu)) as (cell & Ec & Eo).
    assert (Al : alive (m_pool mc) u = true). { unfold alive. rewrite Ec. apply Nat.ltb_lt. exact Eo. }
    destruct (inv_kid _ _ c I) as (_ & IK2). destruct (IK2 u (KSUB u Hu)) as (_ & y & Ny & Cy).
    unfold schedule. rewrite Al. cbn [negb]. cbn [SearchModel.access]. destruct (is_waiting (m_pool mc) u) eqn:Wt.
    + exists (with_task c u set_sched). split; auto.
      assert (Cl : cells (start (m_pool mc) u (worker (m_pool mc))) = upd (cells (m_pool mc)) u (mkCell false (owners cell))).
      { unfold start. rewrite Ec. reflexivity. }
      split; [|split; [|split; [exact RF|]]].
      * destruct R0 as [A B C D T Lv Cs W En]. constructor; auto.
        -- apply tasks_with. exact T.
        -- rewrite with_task_length. exact Lv.
        -- rewrite with_task_length. cbn [with_mtask with_pool m_pool]. rewrite Cl, upd_length. exact Cs.
        -- intros v z. rewrite with_task_nth. cbn [with_mtask with_pool m_pool]. unfold is_waiting. rewrite Cl.
           destruct (Nat.eqb_spec v u) as [->|Ne].
           ++ rewrite nth_error_upd_eq by (now apply nth_error_lt in Ec). rewrite Ny. cbn [option_map]. intros H. injection H as <-. reflexivity.
           ++ rewrite nth_error_upd_neq by auto. apply W.
        -- intros e He. apply entry_with. intros z; auto. apply En. cbn [with_mtask with_pool m_pool] in He. unfold start in He. rewrite Ec in He. exact He.
      * apply ps_one. now apply EStart.
      * exists [], (hl f), (kids f). rewrite app_nil_r. split. { apply with_task_core. auto. } split. left; auto.
        split. { eapply ctl_ok_res; eauto. } split; [exact TBF|]. split; [|split; [now apply levels_refl|auto]]. intros R2 P. apply (own_same (m_pool mc)); auto. intros v. apply own_start.
    + assert (Es : tk_sched y = true). { pose proof (r_wait _ _ R0 u y Ny) as H. rewrite Wt in H. now destruct (tk_sched y). }
      assert (Ew : g_tasks (with_task c u set_sched) = g_tasks c).
      { unfold with_task. cbn [g_tasks]. rewrite Ny. apply upd_same_task with y; auto. destruct y; cbn in *; subst; reflexivity. }
      exists (with_task c u set_sched). split; auto. split; [|split; [|split; [exact RF|]]].
      * destruct R0 as [A B C D T Lv Cs W En]. constructor; rewrite ?Ew; auto.
      * apply ps_one. now apply ERefuse.
      * exists [], (hl f), (kids f). rewrite app_nil_r. split. { unfold cores. now rewrite Ew. } split. left; auto.
        split. { eapply ctl_ok_res; eauto. } split; auto. split; auto. split; [now apply levels_refl|auto].
  - (* cancel *)
    cbn [req_same] in SM. rewrite <- SM in R, RF |- *. cbn [SearchStep.req_ok] in R. cbn [req_fine] in RF.
    destruct R as (K1 & PK & R).
    assert (X : exists R, Permutation K (kids f ++ R)).
    { destruct (frames_split (cores c) t x f rest N E) as (O & P & _). exists (flat_map kids (rest ++ O)). unfold K. rewrite (flat_map_perm kids _ _ P). reflexivity. }
    destruct X as (R2 & P2). assert (P3 : Permutation K (ts ++ K1 ++ R2)) by (rewrite P2, PK, <- app_assoc; reflexivity).
    destruct (inv_kid _ _ c I) as (IK1 & _).
    destruct (drop_all_ok ts mc c (K1 ++ R2) R0) as (mc' & -> & S1 & V1 & R1 & O1 & PS).
    { now apply (own_perm _ K). }
    cbn [SearchModel.access]. eexists. split; [reflexivity|]. split; auto. split; auto. split; auto.
    exists [], (hl f), K1. rewrite app_nil_r. split. { apply cancel_all_core. } split. left; auto. split. { eapply ctl_ok_res; eauto. }
    split. { rewrite S1. exact TBF. } split.
    2: { split. now apply levels_refl. intros w Hw. left. apply (Permutation_in _ (Permutation_sym PK)). apply in_app_iff. auto. }
    intros R4 P4. apply (own_perm _ (K1 ++ R2)); auto.
    apply Permutation_app_inv_l with ts. rewrite <- P3, P4, PK, <- app_assoc. reflexivity.
  - (* tau *)
    destruct (frame_req f) as [s' k'|s' st' k'|s' got' busy'|s' id' k'|id' k'|u' k'|prev' s' pend' k'|u' k'|ts' k'|k'|] eqn:EF; cbn [req_same] in SM; try discriminate.
    subst k'. cbn [SearchStep.req_ok] in R. cbn [req_fine] in RF. exists c. split; auto. apply SAME; auto. eapply ctl_ok_res; eauto.
  - (* none *)
    cbn [req_same] in SM. rewrite <- SM. reflexivity.
Qed.

(* ---- whole steps ---- *)
Record Rel (mc : Mach) (c : Config) : Prop := {
  rel_base : Rel0 mc c;
  rel_table : table_ok mhash (m_states mc) (flat_map hl (frames (cores c)));
  rel_own : own_ok (m_pool mc) (flat_map kids (frames (cores c)));
  rel_fine : forall f, In f (frames (cores c)) -> fine f;
  rel_level : forall t x u, nth_error (cores c) t = Some x -> In u (flat_map kids (c_stack x)) -> level_below mc t u }.

Lemma finish_sim mc c t x f rest mc1 c1 new H1 K1 g ns : nth_error (cores c) t = Some x -> c_stack x = f :: rest ->
  (forall f', In f' (frames (cores c)) -> fine f') -> Rel0 mc1 c1 -> cores c1 = cores c ++ new -> SearchRun.added new ->
  (forall R, Permutation (flat_map hl (frames (cores c))) (hl f ++ R) -> table_ok mhash (m_states mc1) (H1 ++ R)) ->
  (forall R, Permutation (flat_map kids (frames (cores c))) (kids f ++ R) -> own_ok (m_pool mc1) (K1 ++ R)) ->
  keeps g -> (forall y, tk_sched (g y) = tk_sched y) -> (forall y, tk_stack (g y) = ns) ->
  Permutation (flat_map hl ns) (H1 ++ flat_map hl rest) -> Permutation (flat_map kids ns) (K1 ++ flat_map kids rest) ->
  (forall f', In f' ns -> fine f') ->
  (forall t x u, nth_error (cores c) t = Some x -> In u (flat_map kids (c_stack x)) -> level_below mc t u) ->
  levels_kept mc mc1 -> (forall u, In u K1 -> In u (kids f) \/ level_below mc1 t u) ->
  Rel (with_mtask mc1 t g) (with_task c1 t g).
Proof.
  intros N E FI R0 Ec Ad TB OW G S St Ph Pk Fn LV LK LN.
  assert (N1 : nth_error (cores c1) t = Some x). { rewrite Ec. rewrite nth_error_app1; auto. now apply nth_error_lt in N. }
  assert (Nt : exists y, nth_error (g_tasks c1) t = Some y /\ core y = x).
  { unfold cores in N1. rewrite nth_error_map in N1. destruct (nth_error (g_tasks c1) t) as [y|]; [|discriminate]. injection N1 as N1. eauto. }
  destruct Nt as (y & Ny & Cy). destruct (frames_split (cores c1) t x f rest N1 E) as (O & P & U & _).
  specialize (U (core (g y)) ns (St y)). rewrite <- (with_task_core_upd c1 t g y (core (g y)) Ny eq_refl) in U.
  assert (FR : frames (cores c1) = frames (cores c) ++ frames new). { rewrite Ec. unfold frames. apply flat_map_app. }
  constructor.
  - apply rel0_task; auto.
  - assert (X : flat_map hl (frames (cores c1)) = flat_map hl (frames (cores c))).
    { rewrite FR, flat_map_app, (added_nil hl new), app_nil_r; auto. }
    apply (table_perm mhash _ (H1 ++ flat_map hl rest ++ flat_map hl O)).
    + rewrite (flat_map_perm hl _ _ U), flat_map_app, Ph, <- app_assoc. reflexivity.
    + apply TB. rewrite <- X, (flat_map_perm hl _ _ P). cbn [flat_map]. rewrite flat_map_app. reflexivity.
  - assert (X : flat_map kids (frames (cores c1)) = flat_map kids (frames (cores c))).
    { rewrite FR, flat_map_app, (added_nil kids new), app_nil_r; auto. }
    apply (own_perm _ (K1 ++ flat_map kids rest ++ flat_map kids O)).
    + rewrite (flat_map_perm kids _ _ U), flat_map_app, Pk, <- app_assoc. reflexivity.
    + apply OW. rewrite <- X, (flat_map_perm kids _ _ P). cbn [flat_map]. rewrite flat_map_app. reflexivity.
  - intros f' Hf'. apply (Permutation_in _ U) in Hf'. apply in_app_iff in Hf'. destruct Hf' as [H|H]; auto.
    assert (In f' (frames (cores c1))). { apply (Permutation_in _ (Permutation_sym P)). right. apply in_app_iff. auto. }
    rewrite FR in H0. apply in_app_iff in H0. destruct H0 as [H0|H0]; auto. destruct Ad as [->|(prev & s & _ & ->)]; [destruct H0|].
    cbn in H0. destruct H0 as [<-|[]]. split; [|exact Logic.I]. intros z [].
  - assert (LB : forall v u, level_below mc v u -> level_below (with_mtask mc1 t g) v u).
    { intros v u (lv & A1 & A2). exists lv. split; apply LK; auto. }
    intros v z u Hz Hu. rewrite (with_task_core_upd c1 t g y (core (g y)) Ny eq_refl) in Hz. destruct (Nat.eq_dec v t) as [->|Nv].
    + rewrite nth_error_upd_eq in Hz by (now apply nth_error_lt in N1). injection Hz as <-. cbn [core c_stack] in Hu. rewrite St in Hu.
      apply (Permutation_in _ Pk) in Hu. apply in_app_iff in Hu. assert (X : In u (kids f) \/ In u (flat_map kids rest) -> level_below (with_mtask mc1 t g) t u).
      { intros Hk. apply LB. apply (LV t x u N). rewrite E. cbn [flat_map]. now apply in_app_iff. }
      destruct Hu as [Hu|Hu]; [|auto]. destruct (LN u Hu) as [Hk|Hk]; [auto|]. exact Hk.
    + rewrite nth_error_upd_neq in Hz by auto. rewrite Ec in Hz. destruct (Nat.lt_ge_cases v (length (cores c))) as [Hv|Hv].
      * rewrite nth_error_app1 in Hz by auto. apply LB. now apply (LV v z).
      * rewrite nth_error_app2 in Hz by auto. destruct Ad as [->|(prev & s & _ & ->)]. { destruct (v - length (cores c)); discriminate. }
        destruct (v - length (cores c)) as [|[|]]; try discriminate. injection Hz as <-. destruct Hu.
Qed.

Notation task_step_m := (SearchMachModel.task_step_m chash mhash).
Notation task_step := (SearchModel.task_step chash mhash).
Notation drop_frame_m := SearchMachModel.drop_frame_m.
Notation drop_frame := (SearchModel.drop_frame mhash).

Lemma keeps_stack l : keeps (set_stack l).
Proof. intros x. auto. Qed.
Lemma keeps_result v : keeps (set_result v).
Proof. intros x. auto. Qed.

Lemma hl_held f g : held f = held g -> hl f = hl g.
Proof. unfold hl. now intros ->. Qed.

Theorem task_sim mc c t : Inv c -> Rel mc c ->
  match task_step_m mc t with
  | MPanicked => False
  | MBlocked => task_step c t = Blocked
  | MStepped mc' evs => exists c', task_step c t = Stepped c' /\ Rel mc' c' /\ psteps (m_pool mc) evs (m_pool mc')
  end.
Proof.
  intros I [R0 TB OW FN LV]. unfold SearchMachModel.task_step_m, SearchModel.task_step. rewrite (r_tasks _ _ R0).
  destruct (nth_error (g_tasks c) t) as [y|] eqn:Ny; auto. rewrite (r_wait _ _ R0 t y Ny). destruct (tk_sched y); cbn [negb]; auto.
  destruct (tk_stack y) as [|f rest] eqn:Es; auto. pose proof (nth_cores c t y Ny) as N.
  assert (In f (frames (cores c))). { apply in_flat_map. exists (core y). split. eapply nth_error_In; eauto. cbn [core c_stack]. rewrite Es. simpl. auto. }
  assert (FR : forall f', In f' rest -> fine f').
  { intros f' Hf'. apply FN. apply in_flat_map. exists (core y). split. eapply nth_error_In; eauto. cbn [core c_stack]. rewrite Es. simpl. auto. }
  pose proof (access_sim_ok mc c t (core y) f rest I R0 N Es TB OW (FN f H)) as A.
  destruct (access_m mc t (frame_req_c f)) as [| |mc1 evs k]; [now rewrite A|exact A|].
  destruct A as (c1 & -> & R1 & PS & CF & new & H1 & K1 & Ec & Ad & CR & T1 & O1 & LK & LN).
  destruct k as [f'|f' g|v|]; cbn [ctl_res ctl_fine] in CR, CF; cbn [run_ctl_m run_ctl].
  - destruct CR as (C1 & C2). eexists. split; [reflexivity|]. split; [|exact PS].
    apply (finish_sim mc c t (core y) f rest mc1 c1 new H1 K1 (set_stack (f' :: rest)) (f' :: rest)); auto using keeps_stack.
    + cbn [flat_map]. rewrite C1. reflexivity.
    + cbn [flat_map]. rewrite C2. reflexivity.
    + intros f2 [<-|H2]; auto.
  - destruct CR as (C1 & C2 & C3 & C4). destruct CF as (CF1 & CF2). eexists. split; [reflexivity|]. split; [|exact PS].
    apply (finish_sim mc c t (core y) f rest mc1 c1 new H1 K1 (set_stack (g :: f' :: rest)) (g :: f' :: rest)); auto using keeps_stack.
    + cbn [flat_map]. rewrite C1. unfold hl at 1. rewrite C2. reflexivity.
    + cbn [flat_map]. rewrite C3, C4. reflexivity.
    + intros f2 [<-|[<-|H2]]; auto.
  - destruct CR as (-> & -> & C3). destruct rest as [|f1 r].
    + eexists. split; [reflexivity|]. split; [|exact PS].
      apply (finish_sim mc c t (core y) f [] mc1 c1 new [] [] (set_result v) []); auto using keeps_result.
    + destruct C3 as (f2 & Er & Eh & Ek & Ek1). rewrite Er. eexists. split; [reflexivity|]. split; [|exact PS].
      apply (finish_sim mc c t (core y) f (f1 :: r) mc1 c1 new [] [] (set_stack (f2 :: r)) (f2 :: r)); auto using keeps_stack.
      * cbn [flat_map app]. now rewrite (hl_held _ _ Eh).
      * cbn [flat_map app]. now rewrite Ek, Ek1.
      * intros f3 [<-|H3]; [|apply FR; simpl; auto]. apply (resume_fine f1 v); auto. 
  - contradiction.
Qed.

Theorem drop_sim mc c t : Inv c -> Rel mc c ->
  match drop_frame_m mc t with
  | MPanicked => False
  | MBlocked => drop_frame c t = Blocked
  | MStepped mc' evs => exists c', drop_frame c t = Stepped c' /\ Rel mc' c' /\ psteps (m_pool mc) evs (m_pool mc')
  end.
Proof.
  intros I [R0 TB OW FN LV]. unfold SearchMachModel.drop_frame_m, SearchModel.drop_frame. rewrite (r_tasks _ _ R0).
  destruct (nth_error (g_tasks c) t) as [y|] eqn:Ny; auto. destruct (tk_cancel y); cbn [negb]; auto.
  destruct (tk_stack y) as [|f rest] eqn:Es; auto. pose proof (nth_cores c t y Ny) as N.
  assert (FR : forall f', In f' rest -> fine f').
  { intros f' Hf'. apply FN. apply in_flat_map. exists (core y). split. eapply nth_error_In; eauto. cbn [core c_stack]. rewrite Es. simpl. auto. }
  assert (Ff : In f (frames (cores c))). { apply in_flat_map. exists (core y). split. eapply nth_error_In; eauto. cbn [core c_stack]. rewrite Es. simpl. auto. }
  set (ts := all_running (frame_edges f)). change ts with (kids f) in *. clear ts.
  destruct (frames_split (cores c) t (core y) f rest N Es) as (O & P & _).
  assert (P2 : Permutation (flat_map kids (frames (cores c))) (kids f ++ flat_map kids (rest ++ O))) by (rewrite (flat_map_perm kids _ _ P); reflexivity).
  destruct (drop_all_ok (kids f) mc c (flat_map kids (rest ++ O)) R0) as (mc0 & -> & S1 & V1 & R1 & O1 & PS).
  { now apply (own_perm _ _ _ P2). }
  assert (Ec : cores (cancel_all (kids f) c) = cores c ++ []) by (rewrite app_nil_r; apply cancel_all_core).
  assert (OWN : forall R, Permutation (flat_map kids (frames (cores c))) (kids f ++ R) -> own_ok (m_pool mc0) ([] ++ R)).
  { intros R PR. apply (own_perm _ (flat_map kids (rest ++ O))); auto. apply Permutation_app_inv_l with (kids f). rewrite <- P2, PR. reflexivity. }
  destruct (cancel_all_shared (kids f) c) as (G1 & G2 & G3).
  destruct (held f) as [(s, id)|] eqn:Hf.
  - pose proof (mi_ok _ _ _ (inv_map _ _ c I)) as MO. rewrite <- (r_map _ _ R0) in MO.
    assert (HI : held_inv mhash (erase_states (m_states mc)) (length (locks (m_states mc))) (sent (m_states mc)) (flat_map hl (frames (cores c)))).
    { rewrite (r_map _ _ R0), (r_next _ _ R0), (r_sent _ _ R0). exact (inv_lock _ _ c I). }
    assert (HL : In (s, id) (flat_map hl (frames (cores c)))). { apply in_flat_map. exists f. split; auto. unfold hl. rewrite Hf. simpl. auto. }
    destruct (states_unlock_same mhash (m_states mc) _ s id (r_maps _ _ R0) MO HI TB HL) as (m' & E1 & G & M' & Ss & Lk & Lo & Se).
    cbn [with_mtask m_states]. rewrite S1, E1. cbn [with_task g_map g_next g_sent]. rewrite G1, G2, G3. rewrite (r_map _ _ R0) in G. rewrite G.
    eexists. split; [reflexivity|]. split; [|exact PS].
    pose proof (rel0_states mc0 (cancel_all (kids f) c) m' R1 M') as R2. rewrite Lo, Se in R2.
    assert (Ll : length (upd (locks (m_states mc)) id (mkStateLock None (channels s) (pk s) (shard_of mhash (length (lk_shards (m_states mc))) (pk s)))) = g_next c).
    { rewrite <- (r_next _ _ R0). apply upd_length. }
    rewrite Ll, (r_sent _ _ R0) in R2.
    apply (finish_sim mc c t (core y) f rest (with_states mc0 m') (mkConfig (erase_states m') (g_next c) (id :: g_sent c) (g_tasks (cancel_all (kids f) c))) [] [] [] (set_stack rest) rest);
      auto using keeps_stack.
    + left; auto.
    + intros R PR. unfold hl in PR at 2. rewrite Hf in PR. cbn [opt_list app] in PR.
      apply (table_free mhash (m_states mc) m' [] s id R); auto.
      * cbn [app]. now apply (table_perm mhash _ (flat_map hl (frames (cores c)))).
      * cbn [app]. destruct HI as (_ & N2 & _). apply (Permutation_NoDup (Permutation_map snd PR) N2).
      * eauto.
    + now apply levels_refl.
    + intros u [].
  - eexists. split; [reflexivity|]. split; [|exact PS].
    apply (finish_sim mc c t (core y) f rest mc0 (cancel_all (kids f) c) [] [] [] (set_stack rest) rest); auto using keeps_stack.
    + left; auto.
    + intros R PR. rewrite S1. unfold hl in PR at 2. rewrite Hf in PR. cbn [opt_list app] in PR. now apply (table_perm mhash _ (flat_map hl (frames (cores c)))).
    + now apply levels_refl.
    + intros u [].
Qed.
End Sim.
