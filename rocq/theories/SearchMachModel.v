(* The search of SearchModel once more, with the checks the machine makes and with the parts of the other
   checked models (line numbers without a file name refer to src/search.rs):
   - the sets are pruned, compared and canonicalized by the functions of MachineModel and CanonMachModel, in
     which an index out of range, a vector that is too small and a failing assertion are None;
   - the vectors of capacity MAX_CHANNELS (CVec; 157, 273, 309, 313), the accesses targets[id] (404, 442, 462,
     473) and the subtraction channels() - 1 (169, 293) are checked;
   - the map is the one of StatesMachModel, with its key types, its stored locks and its oneshot channels;
   - the tasks have their level, and the pool is the one of PoolModel: add_pending puts an entry with the
     priority of 495 into the queue, and a pending task starts when a worker takes its entry from there.
   The places of the functions (frames), what follows an access and the granularity of the steps are those of
   SearchModel; where the code between two accesses has no check that SearchModel leaves out, its function is
   used.
   Simplifications, besides those of SearchModel about waking, logging and the info task: target_to_id is the
   list of targets searched for an equal set.  level (a usize) is a natural number. *)
From Coq Require Import List Arith Bool Lia.
Import ListNotations.
From Verif Require Import Spec Util OutputSetModel HuffmanModel CanonModel TreeModel StatesModel.
From Verif Require Import MachineModel CanonMachModel StatesMachModel PoolModel SearchModel.

(* the next access to shared data: one of SearchModel, or spawn_delayed and add_pending (485-500) where prio is
   the second and third component of the priority of 495, if add_pending is called *)
Inductive MReq :=
| MPlain (r : Req)
| MSpawn (prev : State) (s : OutputSet) (prio : option (nat * nat)) (k : nat -> Ctl).

(* a check of the code before the next access fails (e.g. src/output_set.rs:522, search.rs:445) *)
Definition panic_req : MReq := MPlain (RTau CPanic).

(* 157-165, 273-281 the extremal channels of one polarity, collected in a CVec *)
Definition extremal_c (s : OutputSet) (pol : bool) : option (list nat) :=
  fold_opt (fun acc c => b <- channel_is_extremal_c s pol c;; if b : bool then push CVEC acc c else Some acc)
           (seq 0 (channels s)) [].

(* 460-477 sort_by_key: every key reads targets[id] *)
Definition sort_active_c (order : option nat) (e : Edges) : option Edges :=
  _ <- map_opt (rd (targets e)) (active e);; Some (sort_active order e).

(* 441-448 retain with its assertion; it reads targets[id] *)
Definition retain_closed_c (e : Edges) : option Edges :=
  _ <- map_opt (rd (targets e)) (active e);; retain_closed e.

(* 399-408 retain_edges; targets[id] is accessed for the ids that are not kept *)
Definition retain_edges_c (keep : nat -> bool) (e : Edges) : option (Edges * list nat) :=
  _ <- map_opt (rd (targets e)) (filter (fun id => negb (keep id)) (active e));; Some (retain_edges keep e).

(* 411-509 improve_next, with the arguments of SearchModel.next_req *)
Definition next_req_c (order : option nat) (e : Edges) (np : NextPc)
    (go : Edges -> NextPc -> Frame) (done : Edges -> Ctl) : MReq :=
  let sorted e := match sort_active_c order e with
                  | None => CPanic
                  | Some e2 => CGo (go e2 (NSpawn 0 (active e2) true))
                  end in
  match np with
  | NPoll [] finished num_running block =>
      MPlain (RTau match retain_closed_c e with
                   | None => CPanic
                   | Some e' =>
                       if finished || match active e' with [] => true | _ => false end then done e'
                       else if block && (0 <? num_running) then CGo (go e' NPend)
                       else sorted e'
                   end)
  | NPend => MPlain (RTau (sorted e))
  | NSpawn index (id :: ids) block =>
      match rd (targets e) id with
      | None => panic_req
      | Some x =>
          match tg_run x with
          | None =>
              if closed (tg_state x) then panic_req   (* assert_ne 483 *)
              else
                let pend := negb (index =? 0) &&
                            match order with Some limit => lo (tg_state x) <? limit | None => false end in
                MSpawn (tg_state x) (tg_set x) (if pend then Some (tg_len x, lo (tg_state x)) else None) (fun t =>
                  let e' := set_target e id (fun x => mkTarget (tg_set x) (tg_state x) (tg_len x) (Some t)) in
                  CGo (go e' (if index =? 0 then NSched ids false t else NSpawn (S index) ids false)))
          | Some _ => MPlain (next_req order e np go done)
          end
      end
  | _ => MPlain (next_req order e np go done)
  end.

Section Search.
Variable chash : list nat -> nat.   (* FxHasher in canonicalize *)
Variable mhash : list nat -> nat.   (* FxHasher in StateMap *)

(* canonicalize(true) (44, 176, 222, 295) *)
Definition canon_c (s : OutputSet) : option OutputSet := r <- mach_canonicalize chash s true;; Some (fst r).

(* 169-176, 293-295: prune an extremal channel into a set made by all_values, and canonicalize *)
Definition prune_canon_c (s : OutputSet) (pol : bool) (c : nat) : option OutputSet :=
  n <- sub_u (channels s) 1;;
  target <- all_values_c n;;
  p <- prune_extremal_channel_into_c s pol c target;;
  canon_c p.

(* 157-176 the single extremal channel, or 208 *)
Definition after_check_c (prev : State) (s : OutputSet) (lk : nat) (st : State) : Ctl :=
  let enter pol c := match prune_canon_c s pol c with
                     | Some p => CGo (FImp prev s (IPrGet lk st p))
                     | None => CPanic
                     end in
  match extremal_c s false, extremal_c s true with
  | Some l0, Some l1 =>
      match l0 with
      | [c] => enter false c
      | _ => match l1 with
             | [c] => enter true c
             | _ => after_extremal prev s lk st
             end
      end
  | _, _ => CPanic
  end.

(* 127-259 improve *)
Definition imp_req_c (prev : State) (s : OutputSet) (pc : ImpPc) : MReq :=
  let go pc := CGo (FImp prev s pc) in
  match pc with
  | ICheck lk => MPlain (RGet s (fun st =>
      if negb (state_eqb st prev) then go (IUnlock lk st)
      else if closed st then go (IUnlock lk st)
      else after_check_c prev s lk st))
  | IEdge lk st ((i, j) :: todo) e =>
      match apply_comparator_c s i j with
      | None => panic_req
      | Some (t, changed) =>
          if changed : bool then
            match canon_c t with
            | None => panic_req
            | Some target => MPlain (add_edge_req e target (fun e' _ => go (IEdge lk st todo e')))
            end
          else MPlain (RTau (go (IEdge lk st todo e)))
      end
  | INext lk st e np =>
      next_req_c (Some (lo st)) e np (fun e' np' => FImp prev s (INext lk st e' np')) (fun e' => go (IUpper lk st e'))
  | _ => MPlain (imp_req chash prev s pc)
  end.

(* 261-347 improve_huffman *)
Definition huff_req_c (s : OutputSet) (pc : HuffPc) : MReq :=
  let go pc := CGo (FHuff s pc) in
  match pc with
  | HGet => MPlain (RGet s (fun st =>
      if hhi st <=? lo st then CReturn st
      else match extremal_c s false, extremal_c s true with
           | Some l0, Some l1 => go (HEdge st (map (pair false) l0 ++ map (pair true) l1) [] [] no_edges)
           | _, _ => CPanic
           end))
  | HEdge st ((pol, c) :: todo) ids0 ids1 e =>
      match prune_canon_c s pol c with
      | None => panic_req
      | Some target => MPlain (add_edge_req e target (fun e' id =>
          if pol then go (HEdge st todo ids0 (ids1 ++ [id]) e') else go (HEdge st todo (ids0 ++ [id]) ids1 e')))
      end
  | HPol st ids0 ids1 uh0 uh1 e pol =>
      let ids := if pol then ids1 else ids0 in
      let other := if pol then ids0 else ids1 in
      if lo st <? (if pol then uh1 else uh0) then
        match states <- map_opt (edge_state e) ids;;
              lower <- collect CVEC (map lo states);;
              upper <- collect CVEC (map hi states);;
              lh <- max_plus_1_huffman lower;;
              uh <- max_plus_1_huffman upper;;
              Some (lh, uh) with
        | None => panic_req
        | Some (lh, uh) =>
            let uh0' := if pol then uh0 else uh in
            let uh1' := if pol then uh else uh1 in
            if uh <=? lo st then
              match retain_edges_c (fun id => existsb (Nat.eqb id) other) e with
              | None => panic_req
              | Some (e', dropped) => MPlain (RCancel dropped (go (HPolSet st ids0 ids1 uh0' uh1' e' pol lh)))
              end
            else MPlain (RTau (go (HPolSet st ids0 ids1 uh0' uh1' e pol lh)))
        end
      else MPlain (RTau (huff_after s st ids0 ids1 uh0 uh1 e pol))
  | HNext st ids0 ids1 uh0 uh1 e np =>
      next_req_c None e np (fun e' np' => FHuff s (HNext st ids0 ids1 uh0 uh1 e' np'))
                 (fun e' => huff_while s st ids0 ids1 uh0 uh1 e')
  | _ => MPlain (huff_req chash s pc)
  end.

(* the next access of a frame (58-67, 127-259, 261-347) *)
Definition frame_req_c (f : Frame) : MReq :=
  match f with
  | FMain s limit pc => MPlain (main_req s limit pc)
  | FImp prev s pc => imp_req_c prev s pc
  | FHuff s pc => huff_req_c s pc
  end.

(* the shared data: the map (24-26), the tasks, the argument level of each task's improve (130, 264, 415), the
   pool (46; its cells are the Schedule of the tasks) *)
Record Mach := mkMach { m_states : States; m_tasks : list Task; m_levels : list nat; m_pool : Pool }.

(* the result of a step: the task has to wait (or has nothing to do), a check fails, or it steps, which the pool
   shows as events (thread_pool.rs:148, 194) *)
Inductive MOutcome :=
| MBlocked
| MPanicked
| MStepped (c : Mach) (evs : list Event).

(* assignments to the states, a task (src/thread_pool.rs:33-40) and the pool *)
Definition with_states (c : Mach) (m : States) : Mach := mkMach m (m_tasks c) (m_levels c) (m_pool c).
(* see with_states (thread_pool.rs:99-107) *)
Definition with_mtask (c : Mach) (t : nat) (f : Task -> Task) : Mach :=
  mkMach (m_states c) (match nth_error (m_tasks c) t with Some x => upd (m_tasks c) t (f x) | None => m_tasks c end)
         (m_levels c) (m_pool c).
(* see with_states (thread_pool.rs:26-31) *)
Definition with_pool (c : Mach) (p : Pool) : Mach := mkMach (m_states c) (m_tasks c) (m_levels c) p.

(* the Schedule of task u is dropped (433, 404, the drop of targets): its cell has one owner less *)
Definition drop_schedule (c : Mach) (u : nat) : option Mach :=
  cell <- rd (cells (m_pool c)) u;;
  left <- sub_u (owners cell) 1;;
  cs <- wr (cells (m_pool c)) u (mkCell (waiting cell) left);;
  Some (with_pool c (set_cells (m_pool c) cs)).

(* the pair of handle and Schedule of task u is dropped: src/thread_pool.rs:67-71 cancels the task *)
Definition drop_running (c : Mach) (u : nat) : option Mach := drop_schedule (with_mtask c u set_cancel) u.

(* 404 for several targets, and the drop of edges at the end of 127-259 and 261-347 *)
Definition drop_all (ts : list nat) (c : Mach) : option Mach := fold_opt drop_running ts c.

(* src/thread_pool.rs:43-50 schedule by the owner of the Schedule of u; the unwrap of 505 is the check that there
   is an owner *)
Definition schedule (c : Mach) (u : nat) : option (Mach * list Event) :=
  if negb (alive (m_pool c) u) then None
  else if is_waiting (m_pool c) u
  then Some (with_mtask (with_pool c (start (m_pool c) u (worker (m_pool c)))) u set_sched, [EvStarted u])
  else Some (c, [EvRefused u]).

(* 485-500, src/thread_pool.rs:83-114 spawn_delayed and 116-119 the first half of add_pending: the entry with its
   number is about to be sent; t is the task that spawns, whose level + 1 is the argument of improve_next (256,
   343) *)
Definition spawn (c : Mach) (t : nat) (prev : State) (s : OutputSet) (prio : option (nat * nat)) : option (Mach * nat * list Event) :=
  level <- rd (m_levels c) t;;
  let u := length (m_tasks c) in
  let p1 := set_cells (m_pool c) (cells (m_pool c) ++ [mkCell true 1]) in
  let '(p2, evs) := match prio with
                    | Some (len, bound) =>
                        (set_sending p1 (S (ids p1)) ((((level + 1, len, bound), ids p1), u) :: sending p1), [EvNone; EvNone])
                    | None => (p1, [EvNone])
                    end in
  Some (mkMach (m_states c)
          (m_tasks c ++ [mkTask prev s [FImp prev s ILook] false (match prio with Some _ => true | None => false end) false None])
          (m_levels c ++ [level + 1]) p2, u, evs).

(* one access to the shared data by task t: the shared data after it, what the pool shows, and what the task does
   next (search.rs:135-148, 374, 431, 485-505) *)
Inductive MAccess :=
| MABlocked
| MAPanic
| MADone (c : Mach) (evs : list Event) (k : Ctl).

(* the accesses, see SearchModel.access.  A spawn is always an MSpawn; is_scheduled (435) reads the cell of the
   task *)
Definition access_m (c : Mach) (t : nat) (r : MReq) : MAccess :=
  match r with
  | MPlain (RGet s k) => match states_get mhash (m_states c) s with
                         | None => MAPanic
                         | Some st => MADone c [] (k st)
                         end
  | MPlain (RSet s st k) => match states_set mhash (m_states c) s st with
                            | None => MAPanic
                            | Some m => MADone (with_states c m) [] k
                            end
  | MPlain (RLock s got busy) => match states_lock mhash (m_states c) s with
                                 | None => MAPanic
                                 | Some (inl id, m) => MADone (with_states c m) [] (busy id)
                                 | Some (inr id, m) => MADone (with_states c m) [] (got id)
                                 end
  | MPlain (RUnlock _ id k) => match states_unlock (m_states c) id with
                               | None => MAPanic
                               | Some m => MADone (with_states c m) [] k
                               end
  | MPlain (RWait id k) => match states_await (m_states c) id with
                           | None => MAPanic
                           | Some true => MADone c [] k
                           | Some false => MABlocked
                           end
  | MPlain (RPoll u k) =>
      match nth_error (m_tasks c) u with
      | None => MAPanic
      | Some y => match tk_result y with
                  | Some v => match drop_schedule c u with
                              | None => MAPanic
                              | Some c' => MADone c' [EvNone] (k (Some v) (negb (is_waiting (m_pool c) u)))
                              end
                  | None => if tk_cancel y then MAPanic else MADone c [] (k None (negb (is_waiting (m_pool c) u)))
                  end
      end
  | MPlain (RSpawn _ _ _ _) => MAPanic
  | MSpawn prev s prio k => match spawn c t prev s prio with
                            | None => MAPanic
                            | Some (c', u, evs) => MADone c' evs (k u)
                            end
  | MPlain (RSchedule u k) => match schedule c u with
                              | None => MAPanic
                              | Some (c', evs) => MADone c' evs k
                              end
  | MPlain (RCancel ts k) => match drop_all ts c with
                             | None => MAPanic
                             | Some c' => MADone c' (map (fun _ => EvNone) ts) k
                             end
  | MPlain (RTau k) => MADone c [] k
  | MPlain RNone => MABlocked
  end.

(* the sequential code of task t, see SearchModel.run_ctl (search.rs:58-68, 134-347, 416-509) *)
Definition run_ctl_m (c : Mach) (evs : list Event) (t : nat) (rest : list Frame) (k : Ctl) : MOutcome :=
  match k with
  | CGo f => MStepped (with_mtask c t (set_stack (f :: rest))) evs
  | CCall f g => MStepped (with_mtask c t (set_stack (g :: f :: rest))) evs
  | CReturn v => match rest with
                 | [] => MStepped (with_mtask c t (set_result v)) evs
                 | f :: r => match resume f v with
                             | Some f' => MStepped (with_mtask c t (set_stack (f' :: r))) evs
                             | None => MPanicked
                             end
                 end
  | CPanic => MPanicked
  end.

(* one step of task t; a task runs only after its Task was taken from its cell (src/thread_pool.rs:43-50) *)
Definition task_step_m (c : Mach) (t : nat) : MOutcome :=
  match nth_error (m_tasks c) t with
  | None => MBlocked
  | Some x =>
      if is_waiting (m_pool c) t then MBlocked else
      match tk_stack x with
      | [] => MBlocked
      | f :: rest => match access_m c t (frame_req_c f) with
                     | MABlocked => MBlocked
                     | MAPanic => MPanicked
                     | MADone c' evs k => run_ctl_m c' evs t rest k
                     end
      end
  end.

(* dropping the innermost frame of a cancelled task, see SearchModel.drop_frame (thread_pool.rs:67-71, search.rs:134, 361) *)
Definition drop_frame_m (c : Mach) (t : nat) : MOutcome :=
  match nth_error (m_tasks c) t with
  | None => MBlocked
  | Some x =>
      if negb (tk_cancel x) then MBlocked else
      match tk_stack x with
      | [] => MBlocked
      | f :: rest =>
          match drop_all (all_running (frame_edges f)) c with
          | None => MPanicked
          | Some c0 =>
              let c1 := with_mtask c0 t (set_stack rest) in
              let evs := map (fun _ => EvNone) (all_running (frame_edges f)) in
              match held f with
              | None => MStepped c1 evs
              | Some (_, id) => match states_unlock (m_states c1) id with
                                | None => MPanicked
                                | Some m => MStepped (with_states c1 m) evs
                                end
              end
          end
      end
  end.

(* a step of a worker in src/thread_pool.rs:147-203: the steps of PoolModel that leave pending_id and the entries
   about to be sent as they are, and leave the cells as they are unless they start a pending task *)
Definition worker_step (p : Pool) (ev : Event) (p' : Pool) : Prop :=
  pstep p ev p' /\ ids p' = ids p /\ sending p' = sending p /\ (cells p' = cells p \/ exists e, ev = EvTaken e).

(* the task that starts with an event of a worker (src/thread_pool.rs:185) *)
Definition taken (ev : Event) (c : Mach) : Mach :=
  match ev with EvTaken e => with_mtask c (snd e) set_sched | _ => c end.

(* all steps of the system.  An entry of add_pending is sent at any moment after it got its number
   (src/thread_pool.rs:120-121); in the code the task that adds it goes on only afterwards *)
Inductive mach_step : Mach -> list Event -> Mach -> Prop :=
| MachTask c t c' evs : task_step_m c t = MStepped c' evs -> mach_step c evs c'
| MachDrop c t c' evs : drop_frame_m c t = MStepped c' evs -> mach_step c evs c'
| MachSend c a e b : sending (m_pool c) = a ++ e :: b ->
    mach_step c [EvAdded e] (with_pool c (set_chan (m_pool c) (a ++ b) (chan (m_pool c) ++ [e])))
| MachWork c ev p' : worker_step (m_pool c) ev p' -> mach_step c [ev] (taken ev (with_pool c p')).

(* 31-67 search: the map is empty, initial is copied and canonicalized; pool.spawn makes the cell of the main task,
   schedules it and drops the Schedule (src/thread_pool.rs:74-81) *)
Definition mach_start (threads : nat) (initial : OutputSet) (limit : option nat) : option (Mach * list Event) :=
  owned <- to_owned_bvec_c initial;;
  i <- canon_c owned;;
  Some (mkMach (states_default threads) [mkTask (mkState 0 0 0 0) i [FMain i limit MGet] true false false None] [0]
          (mkPool [mkCell false 0] 0 [] [] [] 0 [0] WFree),
        [EvNone; EvStarted 0; EvNone]).

(* what can happen during search (31-78): the events of the pool so far and the shared data *)
Inductive mach_run (threads : nat) (initial : OutputSet) (limit : option nat) : list Event -> Mach -> Prop :=
| mach_run_start c evs : mach_start threads initial limit = Some (c, evs) -> mach_run threads initial limit evs c
| mach_run_step tr c evs c' : mach_run threads initial limit tr c -> mach_step c evs c' ->
    mach_run threads initial limit (tr ++ evs) c'.

(* 62, 69: the main loop ended with k *)
Definition mach_result (c : Mach) (k : nat) : Prop :=
  exists x s limit, nth_error (m_tasks c) 0 = Some x /\ tk_stack x = [FMain s limit (MDone k)].
End Search.
