(* C51: the whole search on the checked machine: no check fails, it does what SearchModel does, and the pool takes
   pending tasks in the order of their priorities. *)
From Coq Require Import List Arith Bool Lia Permutation.
Import ListNotations.
From Verif Require Import Spec Vec Net Graded Bits Util OutputSetModel OutputSetProofs PruneProofs PackProofs HuffmanModel HuffmanProofs CanonModel TreeModel StatesModel StatesProofs StatesBounds.
From Verif Require Import MachineModel StatesMachModel StatesMachProofs PoolModel PoolProofs PropPool.
From Verif Require Import SearchModel SearchFacts SearchInv SearchEdges SearchGlobal SearchRun SearchSafe PropOutputSet PropSearch SearchMachModel SearchMachReq SearchMachProofs SearchMachRun.

(* The start succeeds, and at every moment of every execution no step of a task and no drop of a cancelled task
   fails a check. *)
Theorem C51_no_check_fails : forall chash mhash threads initial limit, start_ok initial ->
  (exists c evs, mach_start chash threads initial limit = Some (c, evs)) /\
  forall tr c t, mach_run chash mhash threads initial limit tr c ->
    task_step_m chash mhash c t <> MPanicked /\ drop_frame_m c t <> MPanicked.
Proof.
  intros chash mhash threads initial limit K. apply start_okset in K. split. now apply mach_start_some.
  intros tr c t R. destruct (run_sim chash mhash _ _ _ _ _ K R) as (c0 & SR & RR & _). pose proof (run_inv chash mhash _ _ _ _ K SR) as I. split; intros E.
  - pose proof (task_sim chash mhash c c0 t I RR) as T. now rewrite E in T.
  - pose proof (drop_sim chash mhash c c0 t I RR) as T. now rewrite E in T.
Qed.
Print Assumptions C51_no_check_fails.

(* Every execution is one of SearchModel with the same tasks and the same map, and in corresponding moments a task
   can take a step in one exactly if it can in the other. *)
Theorem C51_same_search : forall chash mhash threads initial limit tr c, start_ok initial ->
  mach_run chash mhash threads initial limit tr c ->
  exists c0, search_run chash mhash threads initial limit c0 /\ g_tasks c0 = m_tasks c /\ g_map c0 = erase_states (m_states c) /\
    forall t, (task_step_m chash mhash c t = MBlocked <-> task_step chash mhash c0 t = Blocked) /\
              (drop_frame_m c t = MBlocked <-> drop_frame mhash c0 t = Blocked).
Proof.
  intros chash mhash threads initial limit tr c K R. apply start_okset in K.
  destruct (run_sim chash mhash _ _ _ _ _ K R) as (c0 & SR & RR & _). pose proof (run_inv chash mhash _ _ _ _ K SR) as I.
  exists c0. split; auto. destruct (rel_base _ _ _ RR) as [A B C D T _ _ _ _]. split; auto. split; auto. intros t. split.
  - pose proof (task_sim chash mhash c c0 t I RR) as X. destruct (task_step_m chash mhash c t) as [| |c' evs].
    + tauto.
    + contradiction.
    + destruct X as (c1 & -> & _). split; discriminate.
  - pose proof (drop_sim chash mhash c c0 t I RR) as X. destruct (drop_frame_m c t) as [| |c' evs].
    + tauto.
    + contradiction.
    + destruct X as (c1 & -> & _). split; discriminate.
Qed.
Print Assumptions C51_same_search.

(* What the main loop returns. *)
Theorem C51_search_returns_minimal_size : forall chash mhash threads n tr c k, n <= 11 ->
  mach_run chash mhash threads (all_values n) None tr c -> mach_result c k -> minimal_size n k.
Proof.
  intros chash mhash threads n tr c k Hn R (x & s & l & N & E).
  destruct (C51_same_search chash mhash _ _ _ _ _ (all_values_start n Hn) R) as (c0 & SR & T & _ & _).
  apply (C19_search_returns_minimal_size chash mhash threads n c0 k Hn SR). exists x, s, l. now rewrite T.
Qed.
Print Assumptions C51_search_returns_minimal_size.

Theorem C51_search_returns_optimum : forall chash mhash threads initial tr c k, start_ok initial ->
  mach_run chash mhash threads initial None tr c -> mach_result c k -> optimum (channels initial) (vs initial) k.
Proof.
  intros chash mhash threads initial tr c k K R (x & s & l & N & E).
  destruct (C51_same_search chash mhash _ _ _ _ _ K R) as (c0 & SR & T & _ & _).
  apply (C19_search_returns_optimum chash mhash threads initial c0 k K SR). exists x, s, l. now rewrite T.
Qed.
Print Assumptions C51_search_returns_optimum.

(* What is stored at any moment: drained from the nine trees of each shard. *)
Theorem C51_stored_bounds_valid : forall chash mhash threads initial limit tr c, start_ok initial ->
  mach_run chash mhash threads initial limit tr c ->
  forall ch bytes st, In (ch, bytes, st) (flat_map (fun x => fst (smap_drain x)) (states_into_shards (m_states c))) ->
  exists s, wf s /\ channels s = ch /\ packed s = Some bytes /\ graded ch (vs s) /\
    lower_bound ch (vs s) (lo st) /\ upper_bound ch (vs s) (hi st) /\
    forall k, optimum ch (vs s) k -> lo st <= k <= hi st.
Proof.
  intros chash mhash threads initial limit tr c K R ch bytes st H.
  destruct (C51_same_search chash mhash _ _ _ _ _ K R) as (c0 & SR & T & M & _).
  apply (C18_stored_bounds_valid chash mhash threads initial limit c0 K SR). rewrite M.
  replace (flat_map drain_packed (into_shards (erase_states (m_states c)))) with (flat_map (fun x => fst (smap_drain x)) (states_into_shards (m_states c))); auto.
  unfold states_into_shards, into_shards, erase_states. cbn [state_shards]. clear. induction (st_shards (m_states c)) as [|x l IH]; auto.
  cbn [flat_map map]. rewrite IH, smap_drain_erase. reflexivity.
Qed.
Print Assumptions C51_stored_bounds_valid.

(* The Schedules: there is a cell for every task; a task runs exactly after one call of schedule on its cell returned
   true.  A cell has one owner while a frame waits for its task (so that the pool does not discard it), and then the
   level of the task is one more than that of the waiting task; otherwise it has no owner (so that the pool discards
   the entry if the task did not start).  The main task has level 0. *)
Definition waits_on (c : Mach) (t u : nat) : Prop :=
  exists x f, nth_error (m_tasks c) t = Some x /\ In f (tk_stack x) /\ In u (all_running (frame_edges f)).

Theorem C51_cells : forall chash mhash threads initial limit tr c, start_ok initial ->
  mach_run chash mhash threads initial limit tr c ->
  NoDup (true_calls tr) /\
  (forall t x, nth_error (m_tasks c) t = Some x -> (tk_sched x = true <-> In t (true_calls tr))) /\
  nth_error (m_levels c) 0 = Some 0 /\
  (forall t u, waits_on c t u -> exists level, nth_error (m_levels c) t = Some level /\ nth_error (m_levels c) u = Some (level + 1)) /\
  length (cells (m_pool c)) = length (m_tasks c) /\
  forall u cell, nth_error (cells (m_pool c)) u = Some cell ->
    ((exists t, waits_on c t u) -> owners cell = 1) /\ (~ (exists t, waits_on c t u) -> owners cell = 0).
Proof.
  intros chash mhash threads initial limit tr c K R. apply start_okset in K.
  destruct (run_sim chash mhash _ _ _ _ _ K R) as (c0 & SR & RR & P & _). pose proof (run_inv chash mhash _ _ _ _ K SR) as I.
  split. { apply (C35_started_once tr (m_pool c) P). } destruct RR as [R0 TB OW FN LV].
  assert (WK : forall u, In u (flat_map kids (frames (cores c0))) <-> exists t, waits_on c t u).
  { intros u. rewrite in_flat_map. unfold waits_on. rewrite (r_tasks _ _ R0). split.
    - intros (f & Hf & Hu). apply in_flat_map in Hf. destruct Hf as (y & Hy & Hf). unfold cores in Hy. apply in_map_iff in Hy.
      destruct Hy as (x & <- & Hx). apply In_nth_error in Hx. destruct Hx as (t & Hx). exists t, x, f. auto.
    - intros (t & x & f & Hx & Hf & Hu). exists f. split; auto. apply in_flat_map. exists (core x). split; auto.
      apply (nth_error_In _ t). now apply nth_cores. }
  split; [|split; [|split; [|split]]].
  - intros t x N. rewrite true_calls_In. rewrite (r_tasks _ _ R0) in N. rewrite (started_iff tr (m_pool c) t P).
    + rewrite (r_wait _ _ R0 t x N). destruct (tk_sched x); split; auto; discriminate.
    + rewrite (r_cells _ _ R0). now apply nth_error_lt in N.
  - clear -R. induction R as [c evs E|tr c evs c' R IH S].
    + unfold mach_start in E. destruct (to_owned_bvec_c initial) as [o|]; [|discriminate]. destruct (canon_c chash o); [|discriminate].
      injection E as <- <-. reflexivity.
    + apply (step_later chash mhash c evs c' S). exact IH.
  - intros t u (x & f & N & Hf & Hu). rewrite (r_tasks _ _ R0) in N. apply (LV t (core x) u (nth_cores c0 t x N)). apply in_flat_map. exists f. auto.
  - rewrite (r_cells _ _ R0), (r_tasks _ _ R0). reflexivity.
  - intros u cell E. destruct OW as (_ & OW). rewrite (OW u cell E). split; intros H.
    + apply WK in H. apply NoDup_count_occ'; auto. apply (inv_kid _ _ c0 I).
    + apply count_occ_not_In. intros Hi. apply H. now apply WK.
Qed.
Print Assumptions C51_cells.

(* The order in which the workers take pending tasks: when a worker that locked the queue after tr1 takes task u
   (its entry has the number i), then every task u' that was added before and neither started nor lost its Schedule
   comes later in the lexicographic order of level, number of vectors of the set, lower bound with which it was
   made, and number of the entry. *)
Theorem C51_priority : forall chash mhash threads initial limit tr1 tr2 e c, start_ok initial ->
  mach_run chash mhash threads initial limit (tr1 ++ EvLock :: tr2 ++ [EvTaken e]) c -> ~ In EvLock tr2 ->
  exists x level, nth_error (m_tasks c) (snd e) = Some x /\ nth_error (m_levels c) (snd e) = Some level /\
  forall e', In (EvAdded e') tr1 ->
    exists x' level', nth_error (m_tasks c) (snd e') = Some x' /\ nth_error (m_levels c) (snd e') = Some level' /\
    (In (snd e') (true_calls (tr1 ++ EvLock :: tr2)) \/ dropped (m_pool c) (snd e') \/
     before ((level, os_len (tk_set x), lo (tk_prev x)), snd (fst e)) ((level', os_len (tk_set x'), lo (tk_prev x')), snd (fst e'))).
Proof.
  intros chash mhash threads initial limit tr1 tr2 e c K R NL. apply start_okset in K.
  destruct (run_sim chash mhash _ _ _ _ _ K R) as (c0 & SR & RR & P & AD).
  destruct (AD (EvTaken e) e (or_intror eq_refl)) as (x & lv & N & _ & L & Ek). { rewrite !in_app_iff. right. right. rewrite in_app_iff. right. now left. }
  exists x, lv. split; auto. split; auto. intros e' He'.
  destruct (AD (EvAdded e') e' (or_introl eq_refl)) as (x' & lv' & N' & _ & L' & Ek'). { rewrite in_app_iff. auto. }
  exists x', lv'. split; auto. split; auto. rewrite <- Ek, <- Ek'.
  destruct (C35_smallest_first tr1 tr2 e (m_pool c) P NL) as (_ & H). destruct e as ((pr, i), u), e' as ((pr', i'), u'). exact (H _ He').
Qed.
Print Assumptions C51_priority.

(* ---- an executable schedule, for the examples ---- *)
(* the step of the worker with the queue *)
Definition work_next (p : Pool) : Event * Pool :=
  match worker p with
  | WFree => (EvLock, set_worker p (chan p) (queue p) (next_gc p) (WDrain (length (chan p) * 2) 0))
  | WDrain l n =>
      match chan p with
      | [] => (EvNone, set_worker p [] (queue p) (next_gc p) WTake)
      | e :: r => if length (queue p) <? next_gc p
                  then (EvNone, do_insert (set_worker p r (queue p) (next_gc p) (worker p)) (queue p) (next_gc p) e l n)
                  else (EvNone, set_worker p r [] (next_gc p) (WGc [] (queue p) e l n))
      end
  | WGc k [] m l n => (EvNone, do_insert p k (Nat.max (length k) 5000 * 2) m l n)
  | WGc k (e :: r) m l n => (EvNone, set_worker p (chan p) (queue p) (next_gc p) (if alive p (snd e) then WGcHold k e r m l n else WGc k r m l n))
  | WGcHold k e r m l n => (EvNone, set_worker p (chan p) (queue p) (next_gc p) (WGc (if is_waiting p (snd e) then k ++ [e] else k) r m l n))
  | WTake =>
      match queue p with
      | [] => (EvNone, set_worker p (chan p) [] (next_gc p) WFree)
      | e :: r => (EvNone, set_worker p (chan p) r (next_gc p) (if alive p (snd e) then WTakeHold e else WTake))
      end
  | WTakeHold e => if is_waiting p (snd e) then (EvTaken e, start p (snd e) WFree)
                   else (EvRefused (snd e), set_worker p (chan p) (queue p) (next_gc p) WTake)
  end.
Ltac fin := split; [reflexivity|split; [reflexivity|left; reflexivity]].
Lemma work_next_step p : worker_step p (fst (work_next p)) (snd (work_next p)).
Proof.
  unfold work_next, worker_step. destruct (worker p) as [|l n|k t m l n|k e t m l n| |e] eqn:Ew.
  - split; [now apply WLock|fin].
  - destruct (chan p) as [|e r] eqn:Ec. { split; [now apply (WEmpty p l n)|fin]. }
    destruct (Nat.ltb_spec (length (queue p)) (next_gc p)) as [H|H].
    + cbn [fst snd]. rewrite <- Ew. split; [now apply WRecv|fin].
    + split; [now apply WRecvGc|fin].
  - destruct t as [|e r]. { split; [now apply WGcDone|fin]. } destruct (alive p (snd e)) eqn:Ea; (split; [|fin]). now apply WGcAlive. now apply (WGcDead p k e).
  - split; [now apply WGcTest|fin].
  - destruct (queue p) as [|e r] eqn:Eq. { split; [now apply WTakeNone|fin]. } destruct (alive p (snd e)) eqn:Ea; (split; [|fin]). now apply WTakeAlive. now apply (WTakeDead p e).
  - destruct (is_waiting p (snd e)) eqn:Ea. { split; [now apply WTakeStart|]. split; [reflexivity|split; [reflexivity|right; eexists; reflexivity]]. } split; [now apply WTakeRefuse|fin].
Qed.

(* the moves of a schedule: a task, the sender of the first entry about to be sent, the worker *)
Inductive Move := MvTask (t : nat) | MvSend | MvWork.
Definition move (c : Mach) (v : Move) : option (Mach * list Event) :=
  match v with
  | MvTask t => match task_step_m h0 h0 c t with
                | MStepped c' evs => Some (c', evs)
                | _ => match drop_frame_m c t with MStepped c' evs => Some (c', evs) | _ => None end
                end
  | MvSend => match sending (m_pool c) with
              | e :: b => Some (with_pool c (set_chan (m_pool c) b (chan (m_pool c) ++ [e])), [EvAdded e])
              | [] => None
              end
  | MvWork => let w := work_next (m_pool c) in Some (taken (fst w) (with_pool c (snd w)), [fst w])
  end.
Lemma move_step c v c' evs : move c v = Some (c', evs) -> mach_step h0 h0 c evs c'.
Proof.
  destruct v as [t| |]; cbn [move]; intros E.
  - destruct (task_step_m h0 h0 c t) as [| |c1 ev1] eqn:E1.
    + destruct (drop_frame_m c t) as [| |c1 ev1] eqn:E2; try discriminate. injection E as <- <-. now apply MachDrop with t.
    + destruct (drop_frame_m c t) as [| |c1 ev1] eqn:E2; try discriminate. injection E as <- <-. now apply MachDrop with t.
    + injection E as <- <-. now apply MachTask with t.
  - destruct (sending (m_pool c)) as [|e b] eqn:Es; [discriminate|]. injection E as <- <-. now apply (MachSend h0 h0 c [] e b).
  - injection E as <- <-. apply MachWork. apply work_next_step.
Qed.
Fixpoint moves (l : list Move) (tr : list Event) (c : Mach) : list Event * Mach :=
  match l with
  | [] => (tr, c)
  | v :: l' => match move c v with Some (c', evs) => moves l' (tr ++ evs) c' | None => moves l' tr c end
  end.
Lemma moves_run threads initial limit l : forall tr c, mach_run h0 h0 threads initial limit tr c ->
  mach_run h0 h0 threads initial limit (fst (moves l tr c)) (snd (moves l tr c)).
Proof.
  induction l as [|v l IH]; intros tr c H; auto. cbn [moves]. destruct (move c v) as [(c', evs)|] eqn:E; auto.
  apply IH. eapply mach_run_step; [exact H|]. now apply (move_step c v).
Qed.
Definition machine (s : OutputSet) (l : list Move) : list Event * Mach :=
  match mach_start h0 2 s None with
  | Some (c, evs) => moves l evs c
  | None => ([], mkMach (states_default 1) [] [] (mkPool [] 0 [] [] [] 0 [] WFree))
  end.
Lemma machine_run s l : start_ok s -> mach_run h0 h0 2 s None (fst (machine s l)) (snd (machine s l)).
Proof.
  intros H. unfold machine. destruct (mach_start_some h0 2 s None (start_okset _ H)) as (c & evs & E). rewrite E.
  apply moves_run. now constructor.
Qed.
(* all tasks in turn, then the sender *)
Definition cycles (tasks n : nat) : list Move := concat (repeat (map MvTask (seq 0 tasks) ++ [MvSend]) n).
Definition ended (c : Mach) : option nat :=
  match nth_error (m_tasks c) 0 with
  | Some (mkTask _ _ [FMain _ _ (MDone k)] _ _ _ _) => Some k
  | _ => None
  end.
Lemma ended_result c k : ended c = Some k -> mach_result c k.
Proof.
  unfold ended, mach_result. destruct (nth_error (m_tasks c) 0) as [[p1 p2 [|[s l [| | |]| |] [|]] p4 p5 p6 p7]|]; try discriminate.
  intros H. injection H as ->. eexists. exists s, l. split; reflexivity.
Qed.

(* the search on three and four channels ends with 3 and 5 ... *)
Example C51_case_three : ended (snd (machine (all_values 3) (cycles 1 40))) = Some 3.
Proof. vm_compute. reflexivity. Qed.
Example C51_case_four : ended (snd (machine (all_values 4) (cycles 2 100))) = Some 5.
Proof. vm_compute. reflexivity. Qed.
(* ... so that, by the theorem, 5 is the size of a smallest network on four channels *)
Example C51_four : minimal_size 4 5.
Proof.
  apply (C51_search_returns_minimal_size h0 h0 2 4 _ _ 5) with (2 := machine_run (all_values 4) (cycles 2 100) (all_values_start 4 ltac:(lia))).
  lia. apply ended_result. exact C51_case_four.
Qed.
(* what is stored then *)
Example C51_case_stored : map (fun e => (fst (fst e), snd e)) (flat_map (fun x => fst (smap_drain x)) (states_into_shards (m_states (snd (machine (all_values 3) (cycles 1 40)))))) = [(3, mkState 3 3 3 3)].
Proof. vm_compute. reflexivity. Qed.

(* a search from the set after two comparators: task 0 has made four tasks, of which task 2 made task 3; task 5 was
   added as pending with level 1, 8 vectors, lower bound 1, and the worker takes it *)
Lemma ex4_start : start_ok ex4.
Proof. split. now vm_compute. split. vm_compute. lia. exact ex4_derived. Qed.
Definition ex_run : list Event * Mach := machine ex4 (cycles 6 135 ++ repeat MvWork 6).
Example C51_case_pending :
  let '(tr, c) := ex_run in
  skipn 27 tr = [EvAdded ((1, 8, 1), 0, 5); EvLock; EvNone; EvNone; EvNone; EvNone; EvTaken ((1, 8, 1), 0, 5)] /\
  m_levels c = [0; 1; 1; 2; 1; 1] /\ map owners (cells (m_pool c)) = [0; 0; 0; 0; 1; 1] /\
  map (fun x => (tk_sched x, tk_pend x, os_len (tk_set x), lo (tk_prev x), length (tk_stack x))) (m_tasks c) =
    [(true, false, 9, 0, 2); (true, false, 6, 1, 0); (true, false, 6, 2, 0); (true, false, 5, 1, 0); (true, false, 8, 1, 1); (true, true, 8, 1, 1)].
Proof. vm_compute. auto. Qed.
Example C51_case_is_run : mach_run h0 h0 2 ex4 None (fst ex_run) (snd ex_run).
Proof. apply machine_run. exact ex4_start. Qed.
