(* C18-C23: the search of src/search.rs, for every schedule. *)
From Coq Require Import List Arith Bool Lia Permutation Relations.
Import ListNotations.
From Verif Require Import Spec Vec Net Graded Bits Util OutputSetModel OutputSetProofs PruneProofs PackProofs CountProofs HuffmanModel HuffmanProofs CanonModel TreeModel StatesModel StatesProofs StatesBounds SearchModel SearchFacts SearchInv SearchEdges SearchStep SearchFrames SearchGlobal SearchRun SearchSafe SearchOrder SearchWaits SearchMain.

(* the sets a search may start from: well formed, at most 11 channels, arising from all inputs *)
Definition start_ok (s : OutputSet) : Prop := wf s /\ channels s <= 11 /\ derived (channels s) (vs s).

Lemma start_okset s : start_ok s -> okset s.
Proof. intros (W & C & D). split; auto. split; auto. now apply derived_graded. Qed.
Lemma all_values_start n : n <= 11 -> start_ok (all_values n).
Proof.
  intros H. split. apply all_values_wf. split. exact H. apply derived_all. apply all_values_vs.
Qed.

(* ---- an executable schedule, for the examples ---- *)
Definition h0 (l : list nat) : nat := fold_left (fun a b => (a * 31 + b) mod 1009) l 7.
Definition next_step (c : Config) (t : nat) : option Config :=
  match task_step h0 h0 c t with
  | Stepped c' => Some c'
  | _ => match drop_frame h0 c t with
         | Stepped c' => Some c'
         | _ => match nth_error (g_tasks c) t with
                | Some x => if tk_pend x then Some (with_task c t set_sched) else None
                | None => None
                end
         end
  end.
Definition result_of (c : Config) : option nat :=
  match nth_error (g_tasks c) 0 with
  | Some x => match tk_stack x with [FMain _ _ (MDone k)] => Some k | _ => None end
  | None => None
  end.
Fixpoint round_robin (fuel : nat) (c : Config) (t : nat) : Config :=
  match fuel with
  | 0 => c
  | S f =>
      match result_of c with
      | Some _ => c
      | None => let c' := match next_step c t with Some c' => c' | None => c end in
                round_robin f c' (if S t <? length (g_tasks c') then S t else 0)
      end
  end.
Lemma round_robin_run threads initial limit fuel : forall c t, search_run h0 h0 threads initial limit c ->
  search_run h0 h0 threads initial limit (round_robin fuel c t).
Proof.
  induction fuel as [|f IH]; intros c t H; cbn [round_robin]; auto. destruct (result_of c); auto. cbv zeta. apply IH.
  destruct (next_step c t) as [c'|] eqn:E; auto. apply run_step with c; auto. unfold next_step in E.
  destruct (task_step h0 h0 c t) eqn:E1; [| |injection E as <-; eapply SysTask; eauto];
  (destruct (drop_frame h0 c t) eqn:E2; [| |injection E as <-; eapply SysDrop; eauto]);
  (destruct (nth_error (g_tasks c) t) as [x|] eqn:E3; [|discriminate]); (destruct (tk_pend x) eqn:E4; [|discriminate]); injection E as <-; eapply SysPool; eauto.
Qed.
Definition example_run (n : nat) (limit : option nat) (fuel : nat) : Config :=
  match search_start h0 2 (all_values n) limit with
  | Some c => round_robin fuel c 0
  | None => mkConfig (sm_default 1) 0 [] []
  end.
Lemma example_is_run n limit fuel : n <= 11 -> search_run h0 h0 2 (all_values n) limit (example_run n limit fuel).
Proof.
  intros Hn. unfold example_run. pose proof (canon_canon_of h0 _ (start_okset _ (all_values_start n Hn))) as E.
  unfold search_start. rewrite E. cbn. apply round_robin_run. apply run_start. unfold search_start. now rewrite E.
Qed.

(* ---- C18 ---- *)
(* Every item that into_shards/drain_packed would hand out at any moment is a set with valid bounds. *)
Theorem C18_stored_bounds_valid : forall chash mhash threads initial limit c,
  start_ok initial -> search_run chash mhash threads initial limit c ->
  forall ch bytes st, In (ch, bytes, st) (flat_map drain_packed (into_shards (g_map c))) ->
  exists s, wf s /\ channels s = ch /\ packed s = Some bytes /\ graded ch (vs s) /\
    lower_bound ch (vs s) (lo st) /\ upper_bound ch (vs s) (hi st) /\
    forall k, optimum ch (vs s) k -> lo st <= k <= hi st.
Proof.
  intros chash mhash threads initial limit c K R ch bytes st H. pose proof (run_inv chash mhash _ _ _ _ (start_okset _ K) R) as I.
  destruct (inv_map _ _ c I) as [M1 M2 _ _ _ M6]. change (flat_map drain_packed (into_shards (g_map c))) with (drain_all (state_shards (g_map c))) in H.
  apply (drain_all_In mhash) in H; [|apply M1]. destruct H as (s & Hs & <- & <- & Fs).
  destruct (M6 s st) as (Ks & _); [apply Hs|exact Fs|]. pose proof (M2 s Ks) as V. unfold cur in V.
  replace (stored mhash (g_map c) s) with (Some st) in V by (symmetry; exact Fs). destruct V as (L & U).
  exists s. split. apply Ks. split; auto. split. { apply packed_pk. apply Hs. } split. apply Ks. split; auto. split; auto.
  intros k (Lk & Uk). split. eapply lower_upper; eauto. eapply lower_upper; eauto.
Qed.
Print Assumptions C18_stored_bounds_valid.

(* What get returns, for stored sets and for the others. *)
Theorem C18_get_bounds_valid : forall chash mhash threads initial limit c,
  start_ok initial -> search_run chash mhash threads initial limit c ->
  forall s, wf s -> channels s <= 11 -> graded (channels s) (vs s) ->
  exists st, sm_get mhash (g_map c) s = Some st /\
    lower_bound (channels s) (vs s) (lo st) /\ upper_bound (channels s) (vs s) (hi st).
Proof.
  intros chash mhash threads initial limit c K R s W C G. pose proof (run_inv chash mhash _ _ _ _ (start_okset _ K) R) as I.
  destruct (inv_map _ _ c I) as [M1 M2 _ _ _ M6]. exists (cur mhash (g_map c) s). split. now apply sm_get_cur. apply M2. split; auto.
Qed.
Print Assumptions C18_get_bounds_valid.

(* No task and no drop ever panics (index out of range, unwrap of None, failed assertion, overflow). *)
Theorem C18_never_panics : forall chash mhash threads initial limit c t,
  start_ok initial -> search_run chash mhash threads initial limit c ->
  task_step chash mhash c t <> Panicked /\ drop_frame mhash c t <> Panicked.
Proof.
  intros chash mhash threads initial limit c t K R. pose proof (run_inv chash mhash _ _ _ _ (start_okset _ K) R) as I.
  split; intros E.
  - pose proof (task_step_inv chash mhash c t I) as X. now rewrite E in X.
  - pose proof (drop_inv chash mhash c t I) as X. now rewrite E in X.
Qed.
Print Assumptions C18_never_panics.

(* after 80 steps the search for 4 channels has stored bounds 3, 3 for a set on 3 channels and 3, 5 for one on 4 *)
Example C18_case : map (fun e => (fst (fst e), snd e)) (flat_map drain_packed (into_shards (g_map (example_run 4 None 80)))) =
  [(3, mkState 3 3 3 3); (4, mkState 3 5 3 5)].
Proof. vm_compute. reflexivity. Qed.

(* ---- C19 ---- *)
Lemma main_result chash mhash threads initial limit c k : okset initial ->
  search_run chash mhash threads initial limit c -> search_result c k ->
  lower_bound (channels initial) (vs initial) k /\
  (upper_bound (channels initial) (vs initial) k \/ exists l, limit = Some l /\ l <= k).
Proof.
  intros K R (x & s & lim & N & E). pose proof (run_inv chash mhash _ _ _ _ K R) as I.
  destruct (run_main chash mhash _ _ _ _ K R) as (_ & M). specialize (M 0 x N). rewrite E in M. destruct M as (n & M).
  destruct n as [|n]; cbn in M. 2:{ destruct n; discriminate. } injection M as -> ->.
  destruct (inv_core _ _ c I _ (nth_error_In _ _ (nth_cores c 0 x N))) as (_ & S & _). cbn [core c_stack] in S. rewrite E in S.
  destruct S as ((Ks & st & (P1 & P2 & _) & -> & D) & _).
  pose proof (mi_valid _ _ _ (inv_map _ _ c I) _ Ks) as (L & U).
  destruct (canon_spec chash initial K) as (t & inv & p & Ec & Kt & Ct & P & Iso).
  assert (Et : canon_of chash initial = t) by (unfold canon_of; now rewrite Ec). rewrite Et in *. rewrite Ct in *.
  assert (W : width (channels initial) (vs initial)) by (apply K).
  assert (L' : lower_bound (channels initial) (vs t) (lo st)) by (apply (lower_bound_le _ _ (lo (cur mhash (g_map c) t))); auto).
  split. apply (iso_lower _ _ (vs t) inv p); auto.
  destruct D as [D|D]; [left|right; auto]. unfold closed in D. apply Nat.eqb_eq in D.
  apply (iso_upper _ _ (vs t) inv p); auto. apply (upper_bound_le _ _ (hi (cur mhash (g_map c) t))); auto. lia.
Qed.

(* Without a limit, the number that search returns on all inputs of n channels is the least number of
   comparators of a sorting network on n channels. *)
Theorem C19_search_returns_minimal_size : forall chash mhash threads n c k, n <= 11 ->
  search_run chash mhash threads (all_values n) None c -> search_result c k -> minimal_size n k.
Proof.
  intros chash mhash threads n c k Hn R H.
  destruct (main_result chash mhash threads (all_values n) None c k (start_okset _ (all_values_start n Hn)) R H) as (L & U).
  destruct U as [U|(l & E & _)]; [|discriminate]. apply minimal_size_optimum. split.
  - apply (lower_bound_same n (vs (all_values n))); auto. apply all_values_vs.
  - apply (upper_bound_same n _ (vs (all_values n))); auto. intros x. symmetry. apply all_values_vs.
Qed.
Print Assumptions C19_search_returns_minimal_size.

(* With a limit, the number is a lower bound for every sorting network; and it is minimal or reached the
   limit. *)
Theorem C19_search_with_limit : forall chash mhash threads n limit c k, n <= 11 ->
  search_run chash mhash threads (all_values n) limit c -> search_result c k ->
  (forall net, sorting_network n net -> k <= length net) /\
  (minimal_size n k \/ exists l, limit = Some l /\ l <= k).
Proof.
  intros chash mhash threads n limit c k Hn R H.
  destruct (main_result chash mhash threads (all_values n) limit c k (start_okset _ (all_values_start n Hn)) R H) as (L & U).
  assert (L' : lower_bound n (all_inputs n) k) by (apply (lower_bound_same n (vs (all_values n))); auto; apply all_values_vs).
  split. { now apply lower_size_all. }
  destruct U as [U|U]; [left|right; auto]. apply minimal_size_optimum. split; auto.
  apply (upper_bound_same n _ (vs (all_values n))); auto. intros x. symmetry. apply all_values_vs.
Qed.
Print Assumptions C19_search_with_limit.

(* For any starting set: the optimum of the set. *)
Theorem C19_search_returns_optimum : forall chash mhash threads initial c k, start_ok initial ->
  search_run chash mhash threads initial None c -> search_result c k -> optimum (channels initial) (vs initial) k.
Proof.
  intros chash mhash threads initial c k K R H.
  destruct (main_result chash mhash threads initial None c k (start_okset _ K) R H) as (L & [U|(l & E & _)]); [|discriminate]. now split.
Qed.
Print Assumptions C19_search_returns_optimum.

Lemma result_of_spec c k : result_of c = Some k -> search_result c k.
Proof.
  unfold result_of, search_result. destruct (nth_error (g_tasks c) 0) as [x|] eqn:E; [|discriminate].
  destruct (tk_stack x) as [|[s l [| | |k']| |] [|f r]] eqn:S; try discriminate. intros H. injection H as <-. eauto 6.
Qed.
Example C19_case4 : search_result (example_run 4 None 100) 5.
Proof. apply result_of_spec. vm_compute. reflexivity. Qed.
Example C19_case5 : search_result (example_run 5 (Some 6) 120) 6.
Proof. apply result_of_spec. vm_compute. reflexivity. Qed.
(* example_run 5 None (250 * 100) ends with the result 9 after 24420 steps; left out, since checking it takes long *)
(* and so, by the theorem, 5 comparators are needed on 4 channels *)
Example C19_four : minimal_size 4 5.
Proof. apply (C19_search_returns_minimal_size h0 h0 2 4 (example_run 4 None 100)). lia. apply example_is_run. lia. apply C19_case4. Qed.

(* ---- C20 ---- *)
Definition sys_steps chash mhash : Config -> Config -> Prop := clos_refl_trans Config (sys_step chash mhash).

(* Between any two moments of any execution, bounds have only tightened. *)
Theorem C20_bounds_tighten : forall chash mhash threads initial limit c c',
  start_ok initial -> search_run chash mhash threads initial limit c -> sys_steps chash mhash c c' ->
  forall s st st', wf s -> channels s <= 11 -> graded (channels s) (vs s) ->
  sm_get mhash (g_map c) s = Some st -> sm_get mhash (g_map c') s = Some st' -> lo st <= lo st' /\ hi st' <= hi st.
Proof.
  intros chash mhash threads initial limit c c' K R H s st st' W C G E E'.
  assert (X : search_run chash mhash threads initial limit c' /\ tight mhash (g_map c) (g_map c')).
  { clear - K R H. induction H as [c c' H|c|c c1 c2 H1 IH1 H2 IH2].
    - split. eapply run_step; eauto. apply (sys_step_inv chash mhash c c'); auto. apply (run_inv chash mhash threads initial limit); auto. now apply start_okset.
    - split; auto. apply tight_refl.
    - destruct (IH1 R) as (R1 & T1). destruct (IH2 R1) as (R2 & T2). split; auto. eapply tight_trans; eauto. }
  destruct X as (R' & T). pose proof (run_inv chash mhash _ _ _ _ (start_okset _ K) R) as I. pose proof (run_inv chash mhash _ _ _ _ (start_okset _ K) R') as I'.
  rewrite sm_get_cur in E by (auto; apply I). rewrite sm_get_cur in E' by (auto; apply I').
  injection E as <-. injection E' as <-. apply T. split; auto.
Qed.
Print Assumptions C20_bounds_tighten.

Example C20_case :
  map (fun fuel => option_map (fun st => (lo st, hi st)) (sm_get h0 (g_map (example_run 4 None fuel)) (all_values 4))) [0; 20; 40; 60; 80; 100]
  = [Some (1, 5); Some (3, 5); Some (3, 5); Some (3, 5); Some (3, 5); Some (5, 5)].
Proof. vm_compute. reflexivity. Qed.

(* ---- C21 ---- *)
(* the frame at place i (0 = innermost) of task t *)
Definition frame_at (c : Config) (t i : nat) (f : Frame) : Prop :=
  exists x, nth_error (g_tasks c) t = Some x /\ nth_error (tk_stack x) i = Some f.

Lemma frame_at_In c t i f : frame_at c t i f -> In f (frames (cores c)).
Proof. intros (x & N & H). apply (frames_nth c t x); auto. eapply nth_error_In; eauto. Qed.

Lemma flat_map_nth_unique {A B} (g : A -> list B) l : NoDup (flat_map g l) -> forall i j a b y,
  nth_error l i = Some a -> nth_error l j = Some b -> In y (g a) -> In y (g b) -> i = j.
Proof.
  induction l as [|a0 l IH]; intros N i j a b y Hi Hj Ha Hb; [destruct i; discriminate|]. cbn in N. apply NoDup_app_inv in N.
  destruct N as (N1 & N2 & N3). destruct i as [|i], j as [|j]; cbn in Hi, Hj; auto.
  - exfalso. injection Hi as ->. apply (N3 y Ha). apply in_flat_map. exists b. split; auto. eapply nth_error_In; eauto.
  - exfalso. injection Hj as ->. apply (N3 y Hb). apply in_flat_map. exists a. split; auto. eapply nth_error_In; eauto.
  - f_equal. eapply IH; eauto.
Qed.
Lemma NoDup_flat_map_In {A B} (g : A -> list B) l a : NoDup (flat_map g l) -> In a l -> NoDup (g a).
Proof.
  induction l as [|b l IH]; intros N H; [destruct H|]. cbn in N. apply NoDup_app_inv in N. destruct N as (N1 & N2 & _). destruct H as [->|H]; auto.
Qed.
Lemma map_flat_map {A B C} (g : A -> list B) (f : B -> C) l : map f (flat_map g l) = flat_map (fun a => map f (g a)) l.
Proof. induction l as [|a l IH]; cbn; auto. now rewrite map_app, IH. Qed.
Lemma flat_map_flat_map {A B C} (g : A -> list B) (f : B -> list C) l : flat_map f (flat_map g l) = flat_map (fun a => flat_map f (g a)) l.
Proof. induction l as [|a l IH]; cbn; auto. now rewrite flat_map_app, IH. Qed.

(* Two frames that hold the lock of the same set are the same frame of the same task. *)
Theorem C21_lock_exclusive : forall chash mhash threads initial limit c,
  start_ok initial -> search_run chash mhash threads initial limit c ->
  forall t1 i1 f1 id1 t2 i2 f2 id2 s, frame_at c t1 i1 f1 -> frame_at c t2 i2 f2 ->
  held f1 = Some (s, id1) -> held f2 = Some (s, id2) -> t1 = t2 /\ i1 = i2 /\ id1 = id2.
Proof.
  intros chash mhash threads initial limit c K R t1 i1 f1 id1 t2 i2 f2 id2 s (x1 & N1 & F1) (x2 & N2 & F2) H1 H2.
  pose proof (run_inv chash mhash _ _ _ _ (start_okset _ K) R) as I. destruct (inv_lock _ _ c I) as (Nd & _).
  unfold frames, cores in Nd. rewrite !map_flat_map, flat_map_flat_map in Nd.
  set (G := fun f => map fst (hl f)) in Nd.
  assert (Q : forall f id, held f = Some (s, id) -> In s (G f)). { intros f id H. unfold G, hl. rewrite H. simpl. auto. }
  assert (Et : t1 = t2).
  { apply (flat_map_nth_unique (fun a => flat_map G (c_stack a)) (map core (g_tasks c)) Nd t1 t2 (core x1) (core x2) s).
    - rewrite nth_error_map, N1. auto.
    - rewrite nth_error_map, N2. auto.
    - apply in_flat_map. exists f1. split. eapply nth_error_In; eauto. eauto.
    - apply in_flat_map. exists f2. split. eapply nth_error_In; eauto. eauto. }
  subst t2. rewrite N1 in N2. injection N2 as <-. split; auto.
  assert (Ei : i1 = i2).
  { apply (flat_map_nth_unique G (tk_stack x1)) with (a := f1) (b := f2) (y := s); eauto.
    apply (NoDup_flat_map_In (fun a => flat_map G (c_stack a)) _ (core x1) Nd). apply in_map. eapply nth_error_In; eauto. }
  subst i2. split; auto. rewrite F1 in F2. injection F2 as <-. congruence.
Qed.
Print Assumptions C21_lock_exclusive.

(* A set is written only by a task that holds its lock. *)
Theorem C21_write_needs_lock : forall chash mhash threads initial limit c,
  start_ok initial -> search_run chash mhash threads initial limit c ->
  forall t x f rest s st k, nth_error (g_tasks c) t = Some x -> tk_stack x = f :: rest ->
  frame_req chash f = RSet s st k -> exists g id, In g (f :: rest) /\ held g = Some (s, id).
Proof.
  intros chash mhash threads initial limit c K R t x f rest s st k N E H.
  pose proof (run_inv chash mhash _ _ _ _ (start_okset _ K) R) as I.
  destruct (inv_core _ _ c I _ (nth_error_In _ _ (nth_cores c t x N))) as (_ & S & _). cbn [core c_stack c_root] in S. rewrite E in S.
  pose proof S as (Fo & Ft & S'). pose proof (frame_req_ok chash mhash _ _ _ _ _ (inv_map _ _ c I) Fo Ft S') as Q. rewrite H in Q. cbn in Q.
  destruct Q as (Ow & _). destruct (owns_stack chash mhash _ _ _ _ S) as ((L & P) & _).
  assert (X : In s (map fst (flat_map hl (f :: rest)))).
  { apply (Permutation_in _ (Permutation_sym P)). apply in_app_iff. left. unfold owns. cbn [flat_map]. rewrite Ow. now left. }
  apply in_map_iff in X. destruct X as ((s', id) & Es & X). cbn in Es. subst s'. apply in_flat_map in X. destruct X as (g & Hg & X).
  exists g, id. split; auto. unfold hl in X. destruct (held g) as [(s', id')|]; [|destruct X]. destruct X as [X|[]]. now rewrite X.
Qed.
Print Assumptions C21_write_needs_lock.

(* The lock map says that a set is locked exactly if some frame holds it: once a task is finished or
   dropped (its frames are gone), get_lock on its set succeeds, unless another task got it since. *)
Theorem C21_locked_iff_held : forall chash mhash threads initial limit c,
  start_ok initial -> search_run chash mhash threads initial limit c ->
  forall s, wf s -> 3 <= channels s <= 11 ->
  (forall id, sm_get_lock mhash (g_map c) s (g_next c) = Some (inl id) <-> exists t i f, frame_at c t i f /\ held f = Some (s, id)) /\
  ((exists m, sm_get_lock mhash (g_map c) s (g_next c) = Some (inr m)) <-> forall t i f id, frame_at c t i f -> held f <> Some (s, id)).
Proof.
  intros chash mhash threads initial limit c K R s W C.
  pose proof (run_inv chash mhash _ _ _ _ (start_okset _ K) R) as I. destruct (inv_lock _ _ c I) as (_ & _ & Lk & _).
  assert (FA : forall id, In (s, id) (flat_map hl (frames (cores c))) <-> exists t i f, frame_at c t i f /\ held f = Some (s, id)).
  { intros id. split.
    - intros H. apply in_flat_map in H. destruct H as (f & Hf & H). apply frames_In in Hf. destruct Hf as (t & x & N & Hf).
      apply In_nth_error in Hf. destruct Hf as (i & Hf). exists t, i, f. split. exists x. auto.
      unfold hl in H. destruct (held f) as [(s', id')|]; [|destruct H]. destruct H as [H|[]]. now rewrite H.
    - intros (t & i & f & Hf & H). apply in_flat_map. exists f. split. eapply frame_at_In; eauto. unfold hl. rewrite H. now left. }
  pose proof (sm_get_lock_spec mhash (g_map c) s (g_next c) (mi_ok _ _ _ (inv_map _ _ c I)) (conj W C)) as G.
  destruct (lock_of mhash (g_map c) s) as [i|] eqn:E.
  - rewrite G. pose proof (proj1 (Lk s i W) E) as Hi. split.
    + intros id. rewrite <- FA. split. intros H. injection H as <-. auto. intros H. apply Lk in H; auto. congruence.
    + split. intros (m & H). discriminate. intros H. apply FA in Hi. destruct Hi as (t & j & f & Hf & Hd). destruct (H t j f i Hf Hd).
  - destruct G as (m & G & _). rewrite G. split.
    + intros id. rewrite <- FA. split. discriminate. intros H. apply Lk in H; auto. congruence.
    + split; [|eauto]. intros _ t j f id Hf Hd. assert (X : In (s, id) (flat_map hl (frames (cores c)))) by (apply FA; eauto). apply Lk in X; auto. congruence.
Qed.
Print Assumptions C21_locked_iff_held.

(* A finished task has no frames, so it holds no lock. *)
Theorem C21_finished_holds_nothing : forall chash mhash threads initial limit c,
  start_ok initial -> search_run chash mhash threads initial limit c ->
  forall t x v, nth_error (g_tasks c) t = Some x -> tk_result x = Some v -> tk_stack x = [].
Proof.
  intros chash mhash threads initial limit c K R t x v N H.
  pose proof (run_inv chash mhash _ _ _ _ (start_okset _ K) R) as I.
  destruct (inv_core _ _ c I _ (nth_error_In _ _ (nth_cores c t x N))) as (_ & _ & Q). apply (Q v H).
Qed.
Print Assumptions C21_finished_holds_nothing.

(* after 50 steps the lock of a set on 4 channels is held by the main task (by the frame waiting for
   improve_huffman), that of a set on 3 channels by task 1 *)
Example C21_case : map (fun x => map (fun f => option_map (fun h => channels (fst h)) (held f)) (tk_stack x)) (g_tasks (example_run 4 None 50))
  = [[None; Some 4; None]; [None; Some 3]].
Proof. vm_compute. reflexivity. Qed.

(* ---- C22 ---- *)
(* The order is well founded ... *)
Theorem C22_order_well_founded : well_founded smaller.
Proof. exact smaller_wf. Qed.
Print Assumptions C22_order_well_founded.

(* ... and every set that is improved for the sake of s is below s: the sets after pruning an extremal
   channel, and the successors. *)
Theorem C22_targets_smaller : forall chash s t, wf s -> channels s <= 11 -> graded (channels s) (vs s) ->
  (forall pol c, In c (extremal_channels s pol) -> prune_canon chash s pol c = Some t -> smaller t s) /\
  (forall i j u, i < channels s -> j < i -> apply_comparator s i j = (u, true) -> canon chash u = Some t -> smaller t s).
Proof.
  intros chash s t W C G. assert (K : okset s) by (split; auto). split.
  - intros pol c H E. apply (prunes_smaller chash s pol); auto. unfold prunes. apply in_map_iff. exists c. split; auto. unfold prune_of. now rewrite E.
  - intros i j u Hi Hj E Ec. apply (succs_smaller chash s); auto. unfold succs. apply in_flat_map. exists (i, j). split. apply pairs_In; auto.
    unfold succ1. cbn [fst snd]. rewrite E. left. unfold canon_of. now rewrite Ec.
Qed.
Print Assumptions C22_targets_smaller.

(* A frame that waits for the lock of s is above frames that hold strictly larger sets only. *)
Theorem C22_waits_below_held : forall chash mhash threads initial limit c,
  start_ok initial -> search_run chash mhash threads initial limit c ->
  forall t x prev s id rest g u i, nth_error (g_tasks c) t = Some x -> tk_stack x = FImp prev s (IWait id) :: rest ->
  In g rest -> held g = Some (u, i) -> smaller s u.
Proof.
  intros chash mhash threads initial limit c K R t x prev s id rest g u i N E Hg Hh.
  pose proof (run_inv chash mhash _ _ _ _ (start_okset _ K) R) as I.
  destruct (inv_core _ _ c I _ (nth_error_In _ _ (nth_cores c t x N))) as (_ & S & _). cbn [core c_stack c_root] in S. rewrite E in S.
  destruct (stack_order chash mhash _ _ _ _ _ S) as (_ & O). apply (O ltac:(discriminate) g u i); auto.
Qed.
Print Assumptions C22_waits_below_held.

(* A task that is being awaited by a frame working on s was started with a set below s. *)
Theorem C22_children_smaller : forall chash mhash threads initial limit c,
  start_ok initial -> search_run chash mhash threads initial limit c ->
  forall t i f u, frame_at c t i f -> In u (all_running (frame_edges f)) ->
  exists y, nth_error (g_tasks c) u = Some y /\ smaller (tk_set y) (fset f).
Proof.
  intros chash mhash threads initial limit c K R t i f u Hf Hu.
  pose proof (run_inv chash mhash _ _ _ _ (start_okset _ K) R) as I. apply frame_at_In in Hf.
  apply (kid_goal chash mhash c f u I Hf Hu). apply (run_small chash mhash threads initial limit c (start_okset _ K) R f Hf).
Qed.
Print Assumptions C22_children_smaller.

(* No task waits, directly or through others, for itself. *)
Theorem C22_no_waiting_cycle : forall chash mhash threads initial limit c,
  start_ok initial -> search_run chash mhash threads initial limit c ->
  forall A, ~ clos_trans nat (waits_for c) A A.
Proof.
  intros chash mhash threads initial limit c K R A H.
  pose proof (run_inv chash mhash _ _ _ _ (start_okset _ K) R) as I.
  pose proof (run_small chash mhash threads initial limit c (start_okset _ K) R) as S.
  pose proof (run_main chash mhash threads initial limit c (start_okset _ K) R) as M.
  assert (X : forall A B, clos_trans nat (waits_for c) A B ->
     exists xa xb, nth_error (g_tasks c) A = Some xa /\ nth_error (g_tasks c) B = Some xb /\ rank_lt xb xa).
  { clear A H. intros A B H. induction H as [A B H|A B C H1 IH1 H2 IH2].
    - apply (waits_rank chash mhash c A B); eauto.
    - destruct IH1 as (xa & xb & Na & Nb & Rab). destruct IH2 as (xb' & xc & Nb' & Nc & Rbc). rewrite Nb in Nb'. injection Nb' as <-.
      exists xa, xc. split; auto. split; auto. eapply rank_trans; eauto. }
  destruct (X A A H) as (xa & xb & Na & Nb & Rk). rewrite Na in Nb. injection Nb as <-. apply (rank_irrefl _ Rk).
Qed.
Print Assumptions C22_no_waiting_cycle.

(* Listed are the tasks with the numbers of the locks that their frames hold or wait for, and the tasks they wait
   for: after 50 steps on 4 channels the main task waits for task 1. (After 4308 steps on 5 channels task 0 waits for
   7, that for 11, that for 17, that for 27, which waits for a lock held by task 26, a subtask of 22; left out,
   since checking it takes long.) *)
Definition who_waits (c : Config) : list (nat * (list nat * list nat * list nat)) :=
  flat_map (fun t => match nth_error (g_tasks c) t with
                     | None => []
                     | Some x => match tk_stack x with
                                 | [] => []
                                 | st => [(t, (flat_map (fun f => map snd (hl f)) st, flat_map (fun f => map snd (waits f)) st,
                                              flat_map (fun f => all_running (frame_edges f)) st))]
                                 end
                     end) (seq 0 (length (g_tasks c))).
Example C22_case : who_waits (example_run 4 None 50) = [(0, ([1], [], [1])); (1, ([2], [], []))].
Proof. vm_compute. reflexivity. Qed.

(* ---- C23 ---- *)
(* When the innermost frame of a task is a call of improve(prev, s) and returns v at this step, then v is
   closed or differs from prev. *)
Theorem C23_improve_progress : forall chash mhash threads initial limit c,
  start_ok initial -> search_run chash mhash threads initial limit c ->
  forall t x prev s pc rest c1 v, nth_error (g_tasks c) t = Some x -> tk_stack x = FImp prev s pc :: rest ->
  access mhash c (frame_req chash (FImp prev s pc)) = ADone c1 (CReturn v) -> lo v = hi v \/ v <> prev.
Proof.
  intros chash mhash threads initial limit c K R t x prev s pc rest c1 v N E H.
  pose proof (run_inv chash mhash _ _ _ _ (start_okset _ K) R) as I.
  destruct (inv_core _ _ c I _ (nth_error_In _ _ (nth_cores c t x N))) as (_ & S & _). cbn [core c_stack c_root] in S. rewrite E in S.
  destruct S as ((_ & F) & _). cbn [SearchModel.frame_req] in H.
  assert (NX : forall order e np go, (forall e' np' w, CGo (go e' np') <> CReturn w) -> forall done, (forall e' w, done e' <> CReturn w) ->
            access mhash c (next_req order e np go done) <> ADone c1 (CReturn v)).
  { intros order e np go G done D X. destruct np as [[|id ids] finished nr block| |index [|id ids] block|ids block u]; cbn [next_req] in X.
    - cbn in X. destruct (retain_closed e); [|discriminate]. destruct (finished || _). injection X as _ X. now apply D in X. destruct (block && _); discriminate.
    - destruct (nth_error (targets e) id) as [y|]; [|discriminate]. destruct (tg_run y); [|discriminate]. cbn in X.
      destruct (nth_error (g_tasks c) n) as [z|]; [|discriminate]. destruct (tk_result z); [discriminate|]. destruct (tk_cancel z); discriminate.
    - discriminate.
    - discriminate.
    - destruct (nth_error (targets e) id) as [y|]; [|discriminate]. destruct (tg_run y). destruct (index =? 0); discriminate.
      destruct (closed (tg_state y)); discriminate.
    - discriminate. }
  assert (GT : forall s' k, access mhash c (RGet s' k) = ADone c1 (CReturn v) -> exists st, k st = CReturn v).
  { intros s' k X. cbn in X. destruct (sm_get mhash (g_map c) s') as [st|]; [|discriminate]. injection X as _ X. eauto. }
  destruct pc; cbn [imp_req] in H; try (cbn in H; discriminate).
  - apply GT in H. destruct H as (st & H). destruct (state_eqb st prev) eqn:Q; cbn in H.
    + destruct (closed st) eqn:Cl; [|discriminate]. injection H as <-. left. now apply Nat.eqb_eq.
    + injection H as <-. right. intros ->. rewrite (proj2 (state_eqb_eq prev prev) eq_refl) in Q. discriminate.
  - cbn in H. destruct (sm_get_lock mhash (g_map c) s (g_next c)) as [[?|?]|]; discriminate.
  - cbn in H. destruct (existsb (Nat.eqb id) (g_sent c)); discriminate.
  - apply GT in H. destruct H as (st & H). destruct (negb _); [discriminate|]. destruct (closed st); [discriminate|]. exfalso.
    unfold after_check, after_extremal in H.
    destruct (extremal_channels s false) as [|c0 [|c1' l]], (extremal_channels s true) as [|d0 [|d1 l']];
      repeat match type of H with context [prune_canon ?a ?b ?d ?e] => destruct (prune_canon a b d e) | context [if ?b then _ else _] => destruct b end; discriminate.
  - apply GT in H. destruct H as (st' & H). discriminate.
  - destruct (hi pst <? hi st); cbn in H; [|discriminate]. destruct (sm_set _ _ _ _); [|discriminate]. match type of H with context [if ?b then _ else _] => destruct b end; discriminate.
  - destruct (lo st <? lo pst); cbn in H; [|discriminate]. destruct (sm_set _ _ _ _); discriminate.
  - exfalso. destruct todo as [|(i, j) todo]; [discriminate|]. destruct (apply_comparator s i j) as (t', ch). destruct ch; [|discriminate].
    destruct (canon chash t'); [|discriminate]. unfold add_edge_req in H. destruct (find_target _ _ _); [discriminate|].
    apply GT in H. destruct H as (st' & H). destruct (push_target _ _ _). discriminate.
  - exfalso. destruct (m <- list_min (map hi (edge_states e));; u8_succ m) as [ub|]; [|discriminate].
    destruct (ub <? hi st); cbn in H; [|discriminate]. destruct (sm_set _ _ _ _); [|discriminate]. match type of H with context [if ?b then _ else _] => destruct b end; discriminate.
  - exfalso. destruct (m <- list_min (map lo (edge_states e));; u8_succ m) as [ub|]; [|discriminate]. destruct (lo st <? ub); discriminate.
  - apply GT in H. destruct H as (st' & H). discriminate.
  - cbn in H. destruct (sm_set _ _ _ _); discriminate.
  - exfalso. revert H. apply NX; discriminate.
  - cbn in H. destruct (sm_unlock _ _ _); [|discriminate]. injection H as _ <-. destruct F as (_ & _ & [F|F]); auto. left. now apply Nat.eqb_eq.
Qed.
Print Assumptions C23_improve_progress.

(* The same for the value a finished task hands to the owner of its handle. *)
Theorem C23_task_progress : forall chash mhash threads initial limit c,
  start_ok initial -> search_run chash mhash threads initial limit c ->
  forall t x v, nth_error (g_tasks c) t = Some x -> tk_result x = Some v -> lo v = hi v \/ v <> tk_prev x.
Proof.
  intros chash mhash threads initial limit c K R t x v N H.
  pose proof (run_inv chash mhash _ _ _ _ (start_okset _ K) R) as I.
  destruct (inv_core _ _ c I _ (nth_error_In _ _ (nth_cores c t x N))) as (_ & _ & Q). destruct (Q v H) as ((_ & D) & _).
  cbn in D. destruct D as [D|D]; auto. left. now apply Nat.eqb_eq.
Qed.
Print Assumptions C23_task_progress.

(* task 1 was started on the set of all inputs on 3 channels with bounds 1, 3 and returned 3, 3 *)
Example C23_case : map (fun x => (lo (tk_prev x), hi (tk_prev x), option_map (fun v => (lo v, hi v)) (tk_result x))) (tl (g_tasks (example_run 4 None 80)))
  = [(1, 3, Some (3, 3))].
Proof. vm_compute. reflexivity. Qed.
