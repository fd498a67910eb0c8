(* Model of src/search.rs (line numbers without a file name refer to it), with the parts of
   src/thread_pool.rs and src/search/states.rs that the search uses.

   A task is a stack of frames, one frame per call of an async function (main loop, improve,
   improve_huffman; improve_next runs inside the frame of its caller).  A frame is the function's local
   variables and the place where it is.  Between two accesses to shared data the code is sequential, so
   a step of the model is one access to shared data (one get, set, get_lock, unlock, wait, poll, spawn,
   schedule, cancel) together with the sequential code up to the next access.  The scheduler picks any
   task that may run, any task that was handed to add_pending may become scheduled at any moment, and a
   cancelled task may go on running or have its innermost frame dropped at any moment.  This allows at
   least the executions of the Rust program, where a cancelled task is dropped at an await point.

   Simplifications.  The argument level and the priority given to add_pending only choose between
   pending tasks and are left out (C35 is about the queue).  Waking is not modelled: after pending!() a
   task may go on at any time, which only adds executions.  target_to_id is the list of targets searched
   for an equal set.  Logging and the info task (47-56) are left out.  The u8 additions "+ 1" at 231 and
   244 panic on overflow here (in a release build they wrap); the theorems show that they stay small. *)
From Coq Require Import List Arith Bool Lia.
Import ListNotations.
From Verif Require Import Spec Util OutputSetModel HuffmanModel CanonModel TreeModel StatesModel.

(* 357-362 struct EdgeTarget; the pair (Handle, Schedule) is the number of the task *)
Record Target := mkTarget { tg_set : OutputSet; tg_state : State; tg_len : nat; tg_run : option nat }.

(* 350-355 struct Edges *)
Record Edges := mkEdges { targets : list Target; active : list nat }.

(* 350 derive(Default) *)
Definition no_edges : Edges := mkEdges [] [].

(* 370 the entry lookup in target_to_id *)
Fixpoint find_target (t : OutputSet) (l : list Target) (i : nat) : option nat :=
  match l with
  | [] => None
  | x :: r => if os_eqb (tg_set x) t then Some i else find_target t r (S i)
  end.

(* the tests state.bounds[0] == state.bounds[1] (61, 139, 153, 187, 239, 382, 443, 483) *)
Definition closed (st : State) : bool := lo st =? hi st.

(* 372-387 the vacant case of add_edge, after the get of 374 returned state *)
Definition push_target (e : Edges) (target : OutputSet) (state : State) : Edges * nat :=
  let id := length (targets e) in
  (mkEdges (targets e ++ [mkTarget target state (os_len target) None])
           (if closed state then active e else active e ++ [id]), id).

(* 391-393 states *)
Definition edge_states (e : Edges) : list State := map tg_state (targets e).

(* 395-397 state *)
Definition edge_state (e : Edges) (id : nat) : option State := option_map tg_state (nth_error (targets e) id).

(* targets[id].running = None and other assignments to a target (search.rs:404, 432, 501) *)
Definition set_target (e : Edges) (id : nat) (f : Target -> Target) : Edges :=
  mkEdges (match nth_error (targets e) id with Some x => upd (targets e) id (f x) | None => targets e end) (active e).

(* 404, 433 targets[id].running = None *)
Definition stop_target (x : Target) : Target := mkTarget (tg_set x) (tg_state x) (tg_len x) None.

(* the task of a target, whose handle is dropped at 404 *)
Definition running_of (e : Edges) (id : nat) : list nat :=
  match nth_error (targets e) id with
  | Some x => match tg_run x with Some t => [t] | None => [] end
  | None => []
  end.
(* 399-408 retain_edges; the second component are the tasks whose handles are dropped (404; 67-71 of
   thread_pool.rs) *)
Definition retain_edges (keep : nat -> bool) (e : Edges) : Edges * list nat :=
  (fold_left (fun e id => set_target e id stop_target) (filter (fun id => negb (keep id)) (active e))
     (mkEdges (targets e) (filter keep (active e))),
   flat_map (running_of e) (filter (fun id => negb (keep id)) (active e))).

(* all running tasks of an Edges: their handles are dropped with it (search.rs:350-362) *)
Definition all_running (e : Edges) : list nat :=
  flat_map (fun x => match tg_run x with Some t => [t] | None => [] end) (targets e).

(* where improve_next (411-509) is *)
Inductive NextPc :=
| NPoll (ids : list nat) (finished : bool) (num_running : nat) (block : bool)  (* 427-439 the loop over active_ids *)
| NPend                                                                        (* 455 after pending!() *)
| NSpawn (index : nat) (ids : list nat) (block : bool)                         (* 479-507 *)
| NSched (ids : list nat) (block : bool) (task : nat).                          (* 504-506 with index 0, after a spawn *)

(* where improve is; lk is the oneshot channel of the lock it holds, st its variable state (search.rs:127-259) *)
Inductive ImpPc :=
| ILook                                                        (* 135 get in the lock loop *)
| ILock                                                        (* 143, states.rs:114 get_lock *)
| IWait (id : nat)                                             (* 143, states.rs:116 lock.await *)
| ICheck (lk : nat)                                            (* 148 get *)
| IPrGet (lk : nat) (st : State) (p : OutputSet)               (* 178 get *)
| IPrUpper (lk : nat) (st : State) (p : OutputSet) (pst : State)   (* 181-190 *)
| IPrLower (lk : nat) (st : State) (p : OutputSet) (pst : State)   (* 192-203 *)
| IPrCall (lk : nat) (st : State) (p : OutputSet)              (* 201-203 waiting for improve *)
| IHuff (lk : nat) (st : State)                                (* 209 waiting for improve_huffman *)
| IEdge (lk : nat) (st : State) (todo : list (nat * nat)) (e : Edges)  (* 218-227 *)
| IUpper (lk : nat) (st : State) (e : Edges)                   (* 230-242 *)
| ILower (lk : nat) (st : State) (e : Edges)                   (* 244-253 *)
| ILowGet (lk : nat) (st : State) (b : nat) (e : Edges)        (* 248 get *)
| ILowSet (lk : nat) (st new : State) (e : Edges)              (* 250 set *)
| INext (lk : nat) (st : State) (e : Edges) (np : NextPc)      (* 255-257 improve_next *)
| IRet (lk : nat) (v : State) (e : Edges)                      (* return: edges is dropped *)
| IUnlock (lk : nat) (v : State).                              (* return: _locked is dropped *)

(* where improve_huffman is; ids = pruned_ids, uh0 and uh1 = upper_huffman_bounds *)
Inductive HuffPc :=
| HGet                                                                          (* 267 get *)
| HEdge (st : State) (todo : list (bool * nat)) (ids0 ids1 : list nat) (e : Edges)   (* 287-299 *)
| HPol (st : State) (ids0 ids1 : list nat) (uh0 uh1 : nat) (e : Edges) (pol : bool)  (* 304-322 *)
| HPolSet (st : State) (ids0 ids1 : list nat) (uh0 uh1 : nat) (e : Edges) (pol : bool) (lh : nat) (* 324-332 *)
| HMax (st : State) (ids0 ids1 : list nat) (uh0 uh1 : nat) (e : Edges)          (* 336-341 *)
| HNext (st : State) (ids0 ids1 : list nat) (uh0 uh1 : nat) (e : Edges) (np : NextPc)  (* 343 *)
| HRet (v : State) (e : Edges).                                                 (* return: edges is dropped *)

(* where the main loop (58-67) is *)
Inductive MainPc :=
| MGet               (* 59 *)
| MCheck (st : State) (* 61-63 *)
| MCall              (* 64 waiting for improve *)
| MDone (k : nat).   (* 62 *)

(* the call of an async function: the main loop (58-67), improve (127-132), improve_huffman (261-266) *)
Inductive Frame :=
| FMain (s : OutputSet) (limit : option nat) (pc : MainPc)
| FImp (prev : State) (s : OutputSet) (pc : ImpPc)
| FHuff (s : OutputSet) (pc : HuffPc).

(* what the sequential code after an access leads to (search.rs:127-347, 411-509) *)
Inductive Ctl :=
| CGo (f : Frame)               (* the frame goes on as f *)
| CCall (f callee : Frame)      (* the frame becomes f and waits for callee *)
| CReturn (v : State)
| CPanic.

(* the next access to shared data (search.rs:135, 143, 148, 374, 431, 485, 505) *)
Inductive Req :=
| RGet (s : OutputSet) (k : State -> Ctl)                        (* states.rs:48 get *)
| RSet (s : OutputSet) (st : State) (k : Ctl)                    (* states.rs:91 set *)
| RLock (s : OutputSet) (got : nat -> Ctl) (busy : nat -> Ctl)   (* states.rs:129 get_lock *)
| RUnlock (s : OutputSet) (id : nat) (k : Ctl)                   (* states.rs:162 drop *)
| RWait (id : nat) (k : Ctl)                                     (* states.rs:116 *)
| RPoll (t : nat) (k : option State -> bool -> Ctl)              (* 431-437 poll!(handle), is_scheduled *)
| RSpawn (prev : State) (s : OutputSet) (pending : bool) (k : nat -> Ctl)  (* 485-500 spawn_delayed, add_pending *)
| RSchedule (t : nat) (k : Ctl)                                  (* 505 schedule *)
| RCancel (ts : list nat) (k : Ctl)                              (* handles dropped *)
| RTau (k : Ctl)                                                 (* no access *)
| RNone.                                                         (* waits for a callee, or is finished *)

(* iter().min() (231, 244) *)
Definition list_min (l : list nat) : option nat :=
  match l with
  | [] => None
  | a :: r => Some (fold_left Nat.min r a)
  end.

(* the u8 addition of 231 and 244 *)
Definition u8_succ (v : nat) : option nat := if v + 1 <=? 255 then Some (v + 1) else None.

(* 157-165, 273-281: the channels in 0..channels that are extremal *)
Definition extremal_channels (s : OutputSet) (pol : bool) : list nat :=
  filter (channel_is_extremal s pol) (seq 0 (channels s)).

(* 218-219: the pairs (i, j) with i in 0..channels, j in 0..i *)
Definition pairs (n : nat) : list (nat * nat) := flat_map (fun i => map (fun j => (i, j)) (seq 0 i)) (seq 0 n).

Section Search.
Variable chash : list nat -> nat.   (* FxHasher in canonicalize *)
Variable mhash : list nat -> nat.   (* FxHasher in StateMap *)

(* canonicalize(true) (44, 176, 222, 295) *)
Definition canon (s : OutputSet) : option OutputSet := r <- canonicalize chash s true;; Some (fst r).

(* 169-176, 293-295: prune an extremal channel and canonicalize *)
Definition prune_canon (s : OutputSet) (pol : bool) (c : nat) : option OutputSet :=
  p <- prune_extremal_channel_into s pol c (channels s - 1);; canon p.

(* 460-477 the keys of the sort *)
Definition sort_key (order : option nat) (x : Target) : list nat :=
  match order with
  | Some limit => [Nat.b2n (limit <=? lo (tg_state x)); tg_len x; lo (tg_state x); hi (tg_state x)]
  | None => [lo (tg_state x); tg_len x; hi (tg_state x)]
  end.
(* Ord on the key tuples of 464-477 *)
Definition key_leb (a b : list nat) : bool := match list_cmp Nat.compare a b with Gt => false | _ => true end.
(* targets[id] (442, 462, 473); ids are in range *)
Definition target_at (e : Edges) (id : nat) : Target :=
  nth id (targets e) (mkTarget (mkOutputSet 0 []) (mkState 0 0 0 0) 0 None).
(* 460-477 the sort of active_ids (stable) *)
Definition sort_active (order : option nat) (e : Edges) : Edges :=
  mkEdges (targets e)
    (isort (fun a b => key_leb (sort_key order (target_at e a)) (sort_key order (target_at e b))) (active e)).

(* 441-448 the retain with its assertion *)
Definition retain_closed (e : Edges) : option Edges :=
  if forallb (fun id => negb (closed (tg_state (target_at e id))) ||
                        match tg_run (target_at e id) with None => true | Some _ => false end) (active e)
  then Some (mkEdges (targets e) (filter (fun id => negb (closed (tg_state (target_at e id)))) (active e)))
  else None.

(* improve_next (411-509): go is the frame of the caller with improve_next at some place, done what
   follows its return *)
Definition next_req (order : option nat) (e : Edges) (np : NextPc)
    (go : Edges -> NextPc -> Frame) (done : Edges -> Ctl) : Req :=
  match np with
  | NPoll (id :: ids) finished num_running block =>
      match nth_error (targets e) id with
      | None => RTau CPanic
      | Some x =>
          match tg_run x with
          | None => RTau (CGo (go e (NPoll ids finished num_running block)))
          | Some t => RPoll t (fun result scheduled =>
              match result with
              | Some new_state =>
                  CGo (go (set_target e id (fun x => mkTarget (tg_set x) new_state (tg_len x) None))
                          (NPoll ids true num_running block))
              | None => CGo (go e (NPoll ids finished (if scheduled then S num_running else num_running) block))
              end)
          end
      end
  | NPoll [] finished num_running block =>
      RTau match retain_closed e with
           | None => CPanic
           | Some e' =>
               if finished || match active e' with [] => true | _ => false end then done e'
               else if block && (0 <? num_running) then CGo (go e' NPend)
               else let e2 := sort_active order e' in CGo (go e2 (NSpawn 0 (active e2) true))
           end
  | NPend => RTau (let e2 := sort_active order e in CGo (go e2 (NSpawn 0 (active e2) true)))
  | NSpawn _ [] block => RTau (CGo (go e (NPoll (active e) false 0 block)))
  | NSpawn index (id :: ids) block =>
      match nth_error (targets e) id with
      | None => RTau CPanic
      | Some x =>
          match tg_run x with
          | None =>
              if closed (tg_state x) then RTau CPanic   (* assert_ne 483 *)
              else
                let pend := negb (index =? 0) &&
                            match order with Some limit => lo (tg_state x) <? limit | None => false end in
                RSpawn (tg_state x) (tg_set x) pend (fun t =>
                  let e' := set_target e id (fun x => mkTarget (tg_set x) (tg_state x) (tg_len x) (Some t)) in
                  CGo (go e' (if index =? 0 then NSched ids false t else NSpawn (S index) ids false)))
          | Some t =>
              if index =? 0 then RSchedule t (CGo (go e (NSpawn (S index) ids block)))
              else RTau (CGo (go e (NSpawn (S index) ids block)))
          end
      end
  | NSched ids block t => RSchedule t (CGo (go e (NSpawn 1 ids block)))
  end.

(* 420-427 improve_next starts *)
Definition next_start (e : Edges) : NextPc := NPoll (active e) false 0 false.

(* one iteration of add_edge (365-389): the get happens only in the vacant case *)
Definition add_edge_req (e : Edges) (target : OutputSet) (k : Edges -> nat -> Ctl) : Req :=
  match find_target target (targets e) 0 with
  | Some id => RTau (k e id)
  | None => RGet target (fun st => let '(e', id) := push_target e target st in k e' id)
  end.

(* 208-214 the decision to call improve_huffman *)
Definition after_extremal (prev : State) (s : OutputSet) (lk : nat) (st : State) : Ctl :=
  if lo st <? hhi st then CCall (FImp prev s (IHuff lk st)) (FHuff s HGet)
  else CGo (FImp prev s (IEdge lk st (pairs (channels s)) no_edges)).

(* 157-176 the single extremal channel, or 208 *)
Definition after_check (prev : State) (s : OutputSet) (lk : nat) (st : State) : Ctl :=
  let enter pol c := match prune_canon s pol c with
                     | Some p => CGo (FImp prev s (IPrGet lk st p))
                     | None => CPanic
                     end in
  match extremal_channels s false with
  | [c] => enter false c
  | _ => match extremal_channels s true with
         | [c] => enter true c
         | _ => after_extremal prev s lk st
         end
  end.

(* improve (127-259) *)
Definition imp_req (prev : State) (s : OutputSet) (pc : ImpPc) : Req :=
  let go pc := CGo (FImp prev s pc) in
  match pc with
  | ILook => RGet s (fun st =>
      if negb (state_eqb st prev) then CReturn st
      else if closed st then CReturn st
      else go ILock)
  | ILock => RLock s (fun lk => go (ICheck lk)) (fun id => go (IWait id))
  | IWait id => RWait id (go ILook)
  | ICheck lk => RGet s (fun st =>
      if negb (state_eqb st prev) then go (IUnlock lk st)
      else if closed st then go (IUnlock lk st)
      else after_check prev s lk st)
  | IPrGet lk st p => RGet p (fun pst => go (IPrUpper lk st p pst))
  | IPrUpper lk st p pst =>
      if hi pst <? hi st then
        let st' := mkState (lo st) (hi pst) (hlo st) (hi pst) in
        RSet s st' (if closed st' then go (IUnlock lk st') else go (IPrLower lk st' p pst))
      else RTau (go (IPrLower lk st p pst))
  | IPrLower lk st p pst =>
      if lo st <? lo pst then
        let st' := mkState (lo pst) (hi st) (lo pst) (hhi st) in
        RSet s st' (go (IUnlock lk st'))
      else RTau (CCall (FImp prev s (IPrCall lk st p)) (FImp pst p ILook))
  | IPrCall _ _ _ => RNone
  | IHuff _ _ => RNone
  | IEdge lk st [] e => RTau (go (IUpper lk st e))
  | IEdge lk st ((i, j) :: todo) e =>
      let '(t, changed) := apply_comparator s i j in
      if changed then
        match canon t with
        | None => RTau CPanic
        | Some target => add_edge_req e target (fun e' _ => go (IEdge lk st todo e'))
        end
      else RTau (go (IEdge lk st todo e))
  | IUpper lk st e =>
      match m <- list_min (map hi (edge_states e));; u8_succ m with
      | None => RTau CPanic
      | Some ub =>
          if ub <? hi st then
            let st' := mkState (lo st) ub (hlo st) (if ub <? hhi st then ub else hhi st) in
            RSet s st' (if closed st' then go (IRet lk st' e) else go (ILower lk st' e))
          else RTau (go (ILower lk st e))
      end
  | ILower lk st e =>
      match m <- list_min (map lo (edge_states e));; u8_succ m with
      | None => RTau CPanic
      | Some lb =>
          if lo st <? lb then RTau (go (ILowGet lk st lb e))
          else RTau (go (INext lk st e (next_start e)))
      end
  | ILowGet lk st b e => RGet s (fun st' => go (ILowSet lk st (mkState b (hi st') (hlo st') (hhi st')) e))
  | ILowSet lk _ new e => RSet s new (go (IRet lk new e))
  | INext lk st e np =>
      next_req (Some (lo st)) e np (fun e' np' => FImp prev s (INext lk st e' np')) (fun e' => go (IUpper lk st e'))
  | IRet lk v e => RCancel (all_running e) (go (IUnlock lk v))
  | IUnlock lk v => RUnlock s lk (CReturn v)
  end.

(* 303 the condition of the while loop of improve_huffman *)
Definition huff_while (s : OutputSet) (st : State) (ids0 ids1 : list nat) (uh0 uh1 : nat) (e : Edges) : Ctl :=
  if lo st <? hhi st then CGo (FHuff s (HPol st ids0 ids1 uh0 uh1 e false))
  else CGo (FHuff s (HRet st e)).

(* 304, 334: what follows the body of the for loop for one polarity *)
Definition huff_after (s : OutputSet) (st : State) (ids0 ids1 : list nat) (uh0 uh1 : nat) (e : Edges) (pol : bool) : Ctl :=
  if pol then CGo (FHuff s (HMax st ids0 ids1 uh0 uh1 e))
  else CGo (FHuff s (HPol st ids0 ids1 uh0 uh1 e true)).

(* improve_huffman (261-347) *)
Definition huff_req (s : OutputSet) (pc : HuffPc) : Req :=
  let go pc := CGo (FHuff s pc) in
  match pc with
  | HGet => RGet s (fun st =>
      if hhi st <=? lo st then CReturn st
      else go (HEdge st (map (pair false) (extremal_channels s false) ++ map (pair true) (extremal_channels s true)) [] [] no_edges))
  | HEdge st [] ids0 ids1 e => RTau (huff_while s st ids0 ids1 (hhi st) (hhi st) e)
  | HEdge st ((pol, c) :: todo) ids0 ids1 e =>
      match prune_canon s pol c with
      | None => RTau CPanic
      | Some target => add_edge_req e target (fun e' id =>
          if pol then go (HEdge st todo ids0 (ids1 ++ [id]) e') else go (HEdge st todo (ids0 ++ [id]) ids1 e'))
      end
  | HPol st ids0 ids1 uh0 uh1 e pol =>
      let ids := if pol then ids1 else ids0 in
      let other := if pol then ids0 else ids1 in
      if lo st <? (if pol then uh1 else uh0) then
        match states <- map_opt (edge_state e) ids;;
              lh <- max_plus_1_huffman (map lo states);;
              uh <- max_plus_1_huffman (map hi states);;
              Some (lh, uh) with
        | None => RTau CPanic
        | Some (lh, uh) =>
            let uh0' := if pol then uh0 else uh in
            let uh1' := if pol then uh else uh1 in
            if uh <=? lo st then
              let '(e', dropped) := retain_edges (fun id => existsb (Nat.eqb id) other) e in
              RCancel dropped (go (HPolSet st ids0 ids1 uh0' uh1' e' pol lh))
            else RTau (go (HPolSet st ids0 ids1 uh0' uh1' e pol lh))
        end
      else RTau (huff_after s st ids0 ids1 uh0 uh1 e pol)
  | HPolSet st ids0 ids1 uh0 uh1 e pol lh =>
      if hlo st <? lh then
        if lo st <? lh then
          let st' := mkState lh (hi st) lh (hhi st) in
          RSet s st' (go (HRet st' e))
        else
          let st' := mkState (lo st) (hi st) lh (hhi st) in
          RSet s st' (huff_after s st' ids0 ids1 uh0 uh1 e pol)
      else RTau (huff_after s st ids0 ids1 uh0 uh1 e pol)
  | HMax st ids0 ids1 uh0 uh1 e =>
      let mx := Nat.max uh0 uh1 in
      if mx <? hhi st then
        let st' := mkState (lo st) (hi st) (hlo st) mx in
        RSet s st' (go (HNext st' ids0 ids1 uh0 uh1 e (next_start e)))
      else RTau (go (HNext st ids0 ids1 uh0 uh1 e (next_start e)))
  | HNext st ids0 ids1 uh0 uh1 e np =>
      next_req None e np (fun e' np' => FHuff s (HNext st ids0 ids1 uh0 uh1 e' np'))
               (fun e' => huff_while s st ids0 ids1 uh0 uh1 e')
  | HRet v e => RCancel (all_running e) (CReturn v)
  end.

(* the main loop (58-67) *)
Definition main_req (s : OutputSet) (limit : option nat) (pc : MainPc) : Req :=
  match pc with
  | MGet => RGet s (fun st => CGo (FMain s limit (MCheck st)))
  | MCheck st =>
      if closed st || match limit with Some l => l <=? lo st | None => false end
      then RTau (CGo (FMain s limit (MDone (lo st))))
      else RTau (CCall (FMain s limit MCall) (FImp st s ILook))
  | MCall => RNone
  | MDone _ => RNone
  end.

(* the next access of a frame (search.rs:58-68, 127-347) *)
Definition frame_req (f : Frame) : Req :=
  match f with
  | FMain s limit pc => main_req s limit pc
  | FImp prev s pc => imp_req prev s pc
  | FHuff s pc => huff_req s pc
  end.

(* the code after the await of a callee that returned v (64-65, 201-204, 209-213) *)
Definition resume (f : Frame) (v : State) : option Frame :=
  match f with
  | FMain s limit MCall => Some (FMain s limit (MCheck v))
  | FImp prev s (IPrCall lk st p) => Some (FImp prev s (IPrUpper lk st p v))
  | FImp prev s (IHuff lk st) =>
      if lo st <? lo v then Some (FImp prev s (IUnlock lk v))
      else Some (FImp prev s (IEdge lk v (pairs (channels s)) no_edges))
  | _ => None
  end.

(* A task.  prev and set are the arguments of its outermost improve (for the main task: not used);
   sched: Schedule::task was taken (thread_pool.rs:43-50); pend: handed to add_pending; result: the
   future is finished. *)
Record Task := mkTask {
  tk_prev : State; tk_set : OutputSet; tk_stack : list Frame;
  tk_sched : bool; tk_pend : bool; tk_cancel : bool; tk_result : option State }.

(* the shared data: the map (24-26), the number of the next oneshot channel, the channels that were
   sent to, the tasks *)
Record Config := mkConfig { g_map : StateMap; g_next : nat; g_sent : list nat; g_tasks : list Task }.

(* the result of a step: the task has to wait (or has nothing to do), panics, or steps (thread_pool.rs:148, 194) *)
Inductive Outcome :=
| Blocked
| Panicked
| Stepped (c : Config).

(* an assignment to task t (thread_pool.rs:33-40) *)
Definition with_task (c : Config) (t : nat) (f : Task -> Task) : Config :=
  mkConfig (g_map c) (g_next c) (g_sent c)
    (match nth_error (g_tasks c) t with Some x => upd (g_tasks c) t (f x) | None => g_tasks c end).
(* where task t is after some of its code (async_task, not in /repo) (see thread_pool.rs:148, 194) *)
Definition set_stack (st : list Frame) (x : Task) : Task :=
  mkTask (tk_prev x) (tk_set x) st (tk_sched x) (tk_pend x) (tk_cancel x) (tk_result x).
(* the future is finished with value v; thread_pool.rs:57-65 hands v to the owner of the handle *)
Definition set_result (v : State) (x : Task) : Task :=
  mkTask (tk_prev x) (tk_set x) [] (tk_sched x) (tk_pend x) (tk_cancel x) (Some v).
(* thread_pool.rs:43-50 schedule *)
Definition set_sched (x : Task) : Task :=
  mkTask (tk_prev x) (tk_set x) (tk_stack x) true (tk_pend x) (tk_cancel x) (tk_result x).
(* thread_pool.rs:67-71 drop of a handle *)
Definition set_cancel (x : Task) : Task :=
  mkTask (tk_prev x) (tk_set x) (tk_stack x) (tk_sched x) (tk_pend x) true (tk_result x).
(* thread_pool.rs:67-71 drop of several handles (404, and the drop of targets at the end of 127-259, 261-347) *)
Definition cancel_all (ts : list nat) (c : Config) : Config := fold_left (fun c t => with_task c t set_cancel) ts c.

(* the sequential code of task t, with rest below the frame that made the access (search.rs:58-68, 127-347, 411-509) *)
Definition run_ctl (c : Config) (t : nat) (rest : list Frame) (k : Ctl) : Outcome :=
  match k with
  | CGo f => Stepped (with_task c t (set_stack (f :: rest)))
  | CCall f g => Stepped (with_task c t (set_stack (g :: f :: rest)))
  | CReturn v => match rest with
                 | [] => Stepped (with_task c t (set_result v))
                 | f :: r => match resume f v with
                             | Some f' => Stepped (with_task c t (set_stack (f' :: r)))
                             | None => Panicked
                             end
                 end
  | CPanic => Panicked
  end.

(* an assignment to the map (24-26) *)
Definition set_map (c : Config) (m : StateMap) : Config := mkConfig m (g_next c) (g_sent c) (g_tasks c).

(* one access to the shared data: the shared data after it, and what the task does next (search.rs:135-148, 374, 431, 485-505) *)
Inductive Access :=
| ABlocked
| APanic
| ADone (c : Config) (k : Ctl).

(* the accesses: states.rs:48 get, 91 set, 129-144 get_lock, 162-169 drop, 116 await of a lock;
   thread_pool.rs:57-65 poll of a handle, 83-114 spawn_delayed, 43-50 schedule, 67-71 drop of a handle *)
Definition access (c : Config) (r : Req) : Access :=
  match r with
  | RGet s k => match sm_get mhash (g_map c) s with
                | None => APanic
                | Some st => ADone c (k st)
                end
  | RSet s st k => match sm_set mhash (g_map c) s st with
                   | None => APanic
                   | Some m => ADone (set_map c m) k
                   end
  | RLock s got busy =>
      match sm_get_lock mhash (g_map c) s (g_next c) with
      | None => APanic
      | Some (inl id) => ADone c (busy id)
      | Some (inr m) => ADone (mkConfig m (S (g_next c)) (g_sent c) (g_tasks c)) (got (g_next c))
      end
  | RUnlock s id k =>
      match sm_unlock mhash (g_map c) s with
      | None => APanic
      | Some m => ADone (mkConfig m (g_next c) (id :: g_sent c) (g_tasks c)) k
      end
  | RWait id k => if existsb (Nat.eqb id) (g_sent c) then ADone c k else ABlocked
  | RPoll u k =>
      match nth_error (g_tasks c) u with
      | None => APanic
      | Some y => match tk_result y with
                  | Some v => ADone c (k (Some v) (tk_sched y))
                  | None => if tk_cancel y then APanic else ADone c (k None (tk_sched y))
                  end
      end
  | RSpawn prev s pend k =>
      ADone (mkConfig (g_map c) (g_next c) (g_sent c)
               (g_tasks c ++ [mkTask prev s [FImp prev s ILook] false pend false None]))
            (k (length (g_tasks c)))
  | RSchedule u k => ADone (with_task c u set_sched) k
  | RCancel ts k => ADone (cancel_all ts c) k
  | RTau k => ADone c k
  | RNone => ABlocked
  end.

(* one step of task t (thread_pool.rs:147-149, 193-195 run a task; a task runs only after schedule) *)
Definition task_step (c : Config) (t : nat) : Outcome :=
  match nth_error (g_tasks c) t with
  | None => Blocked
  | Some x =>
      if negb (tk_sched x) then Blocked else
      match tk_stack x with
      | [] => Blocked
      | f :: rest => match access c (frame_req f) with
                     | ABlocked => Blocked
                     | APanic => Panicked
                     | ADone c' k => run_ctl c' t rest k
                     end
      end
  end.

(* the lock held by a frame: the variable _locked of improve (134) *)
Definition held (f : Frame) : option (OutputSet * nat) :=
  match f with
  | FImp _ s pc =>
      match pc with
      | ILook | ILock | IWait _ => None
      | ICheck lk | IPrGet lk _ _ | IPrUpper lk _ _ _ | IPrLower lk _ _ _ | IPrCall lk _ _ | IHuff lk _
      | IEdge lk _ _ _ | IUpper lk _ _ | ILower lk _ _ | ILowGet lk _ _ _ | ILowSet lk _ _ _ | INext lk _ _ _
      | IRet lk _ _ | IUnlock lk _ => Some (s, lk)
      end
  | _ => None
  end.
(* the variable edges (216, 283) of a frame *)
Definition frame_edges (f : Frame) : Edges :=
  match f with
  | FImp _ _ (IEdge _ _ _ e) | FImp _ _ (IUpper _ _ e) | FImp _ _ (ILower _ _ e) | FImp _ _ (ILowGet _ _ _ e)
  | FImp _ _ (ILowSet _ _ _ e) | FImp _ _ (INext _ _ e _) | FImp _ _ (IRet _ _ e)
  | FHuff _ (HEdge _ _ _ _ e) | FHuff _ (HPol _ _ _ _ _ e _) | FHuff _ (HPolSet _ _ _ _ _ e _ _)
  | FHuff _ (HMax _ _ _ _ _ e) | FHuff _ (HNext _ _ _ _ _ e _) | FHuff _ (HRet _ e) => e
  | _ => no_edges
  end.

(* dropping the innermost frame of a cancelled task: handles of its edges are dropped (cancelled), its
   lock is released (states.rs:162-169) *)
Definition drop_frame (c : Config) (t : nat) : Outcome :=
  match nth_error (g_tasks c) t with
  | None => Blocked
  | Some x =>
      if negb (tk_cancel x) then Blocked else
      match tk_stack x with
      | [] => Blocked
      | f :: rest =>
          let c1 := with_task (cancel_all (all_running (frame_edges f)) c) t (set_stack rest) in
          match held f with
          | None => Stepped c1
          | Some (s, id) => match sm_unlock mhash (g_map c1) s with
                            | None => Panicked
                            | Some m => Stepped (mkConfig m (g_next c1) (id :: g_sent c1) (g_tasks c1))
                            end
          end
      end
  end.

(* all steps of the system; thread_pool.rs:182-189 makes a pending task scheduled *)
Inductive sys_step : Config -> Config -> Prop :=
| SysTask c t c' : task_step c t = Stepped c' -> sys_step c c'
| SysPool c t x : nth_error (g_tasks c) t = Some x -> tk_pend x = true -> sys_step c (with_task c t set_sched)
| SysDrop c t c' : drop_frame c t = Stepped c' -> sys_step c c'.

(* 31-67 search: the map is empty, initial is canonicalized, the main loop is spawned and scheduled *)
Definition search_start (threads : nat) (initial : OutputSet) (limit : option nat) : option Config :=
  i <- canon initial;;
  Some (mkConfig (sm_default threads) 0 []
          [mkTask (mkState 0 0 0 0) i [FMain i limit MGet] true false false None]).

(* the configurations that can occur during search (31-78) *)
Inductive search_run (threads : nat) (initial : OutputSet) (limit : option nat) : Config -> Prop :=
| run_start c : search_start threads initial limit = Some c -> search_run threads initial limit c
| run_step c c' : search_run threads initial limit c -> sys_step c c' -> search_run threads initial limit c'.

(* 62, 69: the main loop ended with k *)
Definition search_result (c : Config) (k : nat) : Prop :=
  exists x s limit, nth_error (g_tasks c) 0 = Some x /\ tk_stack x = [FMain s limit (MDone k)].
End Search.
