(* One access of a frame keeps the invariant of the frame. *)
From Coq Require Import List Arith Bool Lia Permutation.
Import ListNotations.
From Verif Require Import Spec Vec Net Graded Bits Util OutputSetModel OutputSetProofs PruneProofs PackProofs HuffmanModel HuffmanProofs CanonModel TreeModel StatesModel StatesProofs StatesBounds SearchModel SearchFacts SearchInv SearchEdges.

Section Step.
Variables chash mhash : list nat -> nat.
Notation cur := (cur mhash).
Notation succs := (succs chash).
Notation succ1 := (succ1 chash).
Notation prunes := (prunes chash).
Notation prune_of := (prune_of chash).
Notation map_inv := (map_inv chash mhash).
Notation past := (past mhash).
Notation edges_ok := (edges_ok mhash).
Notation justL := (justL chash mhash).
Notation justU := (justU chash mhash).
Notation tight := (tight mhash).
Notation frame_ok := (frame_ok chash mhash).
Notation fits := (fits mhash).
Notation stack_ok := (stack_ok chash mhash).
Notation result_ok := (result_ok mhash).
Notation imp_ok := (imp_ok chash mhash).
Notation huff_ok := (huff_ok chash mhash).
Notation huff_edges := (huff_edges chash mhash).
Notation succ_edges := (succ_edges chash mhash).
Notation base := (base mhash).
Notation frame_req := (frame_req chash).

Definition hl (f : Frame) : list (OutputSet * nat) := opt_list (held f).

(* what the continuation of an access must satisfy: H are the locks and K the running tasks that the
   frame is responsible for *)
Definition ctl_ok (m : StateMap) (goal : Goal) (root : State * OutputSet) (rest : list Frame) (k : Ctl)
    (H : list (OutputSet * nat)) (K : list nat) : Prop :=
  match k with
  | CGo f => frame_ok m goal f /\ fits m root (hd_error rest) f /\ hl f = H /\ Permutation (kids f) K
  | CCall f g => frame_ok m goal f /\ fits m root (hd_error rest) f /\ frame_ok m goal g /\ fits m root (Some f) g /\
      hl f = H /\ held g = None /\ kids g = [] /\ Permutation (kids f) K
  | CReturn v => H = [] /\ K = [] /\
      match rest with
      | [] => result_ok m root v
      | f :: r => exists f', resume f v = Some f' /\ frame_ok m goal f' /\ fits m root (hd_error r) f' /\
                    held f' = held f /\ kids f' = [] /\ kids f = []
      end
  | CPanic => False
  end.

Definition req_ok (m : StateMap) (goal : Goal) (root : State * OutputSet) (rest : list Frame) (f : Frame) (r : Req) : Prop :=
  match r with
  | RGet s k => okset s /\ ctl_ok m goal root rest (k (cur m s)) (hl f) (kids f)
  | RSet s st k => own f = Some s /\ okset s /\ work s /\ lo (cur m s) <= lo st /\ hi st <= hi (cur m s) /\
      justL m s (lo st) /\ justU m s (hi st) /\
      forall m', map_inv m' -> tight m m' -> cur m' s = st -> (forall t, wf t -> t <> s -> cur m' t = cur m t) ->
        ctl_ok m' goal root rest k (hl f) (kids f)
  | RLock s got busy => okset s /\ work s /\ hl f = [] /\ kids f = [] /\
      (forall id, ctl_ok m goal root rest (got id) [(s, id)] []) /\ forall id, ctl_ok m goal root rest (busy id) [] []
  | RUnlock s id k => held f = Some (s, id) /\ okset s /\ work s /\ kids f = [] /\ ctl_ok m goal root rest k [] []
  | RWait id k => ctl_ok m goal root rest k (hl f) (kids f)
  | RPoll u k => In u (kids f) /\ (forall b, ctl_ok m goal root rest (k None b) (hl f) (kids f)) /\
      forall v b g K, goal u = Some g -> result_ok m g v -> Permutation (u :: K) (kids f) ->
        ctl_ok m goal root rest (k (Some v) b) (hl f) K
  | RSpawn prev s pend k => okset s /\
      forall u goal', later_goal goal goal' -> goal' u = Some (prev, s) -> ctl_ok m goal' root rest (k u) (hl f) (u :: kids f)
  | RSchedule u k => ctl_ok m goal root rest k (hl f) (kids f)
  | RCancel ts k => exists K, Permutation (kids f) (ts ++ K) /\ ctl_ok m goal root rest k (hl f) K
  | RTau k => ctl_ok m goal root rest k (hl f) (kids f)
  | RNone => True
  end.

Lemma ctl_ok_perm m goal root rest k H K K' : Permutation K K' -> ctl_ok m goal root rest k H K -> ctl_ok m goal root rest k H K'.
Proof.
  intros P. destruct k; simpl; auto.
  - intros (A & B & C & D). split; auto. split; auto. split; auto. now rewrite D.
  - intros (A & B & C & D & E & F & G & I). do 7 (split; auto). now rewrite I.
  - intros (A & -> & B). split; auto. split; auto. now apply Permutation_nil.
Qed.

(* ---- returns ---- *)
Lemma imp_fits m root below prev s pc pc' : fits m root below (FImp prev s pc) -> fits m root below (FImp prev s pc').
Proof. destruct below as [[]|]; simpl; auto. Qed.
Lemma main_fits m root below s limit pc pc' : fits m root below (FMain s limit pc) -> fits m root below (FMain s limit pc').
Proof. destruct below as [[? ? []|? ? []|]|]; simpl; auto. Qed.

Lemma imp_return m goal root rest prev s pc v : okset s -> past m s v -> (closed v = true \/ v <> prev) ->
  fits m root (hd_error rest) (FImp prev s pc) -> stack_ok m goal root rest -> ctl_ok m goal root rest (CReturn v) [] [].
Proof.
  intros K P C F S. simpl. split; auto. split; auto. destruct rest as [|f r]; simpl in F.
  - subst root. split; auto.
  - destruct S as (A & B & S). destruct f as [s' l pc'|prev' s' pc'|s' pc']; [..|tauto].
    + destruct pc'; try tauto. subst s'. eexists. split; [reflexivity|]. split; [split; auto|].
      split; [|auto]. apply (main_fits _ _ _ _ _ _ _ B).
    + destruct pc'; try tauto. subst s. eexists. split; [reflexivity|]. split; [|split; [|auto]].
      * destruct A as (A1 & A2 & A3). split; [|split; [|split]]; auto.
      * apply (imp_fits _ _ _ _ _ _ _ B).
Qed.

Lemma fits_huff m root below s pc : fits m root below (FHuff s pc) <->
  exists prev lk st0, below = Some (FImp prev s (IHuff lk st0)) /\ huff_rel mhash m s st0 pc.
Proof.
  split.
  - destruct below as [[s' l pc'|prev' s' pc'|s' pc']|]; simpl; try (destruct pc'; tauto); try tauto.
    destruct pc'; try tauto. intros (-> & H). eauto.
  - intros (prev & lk & st0 & -> & H). simpl. auto.
Qed.

Lemma huff_return m goal root rest s v prev lk st0 : okset s -> cur m s = v -> (lo st0 < lo v \/ same_bounds v st0) ->
  hd_error rest = Some (FImp prev s (IHuff lk st0)) -> stack_ok m goal root rest -> ctl_ok m goal root rest (CReturn v) [] [].
Proof.
  intros K C R E S. simpl. split; auto. split; auto. destruct rest as [|f r]; [discriminate|]. injection E as ->.
  destruct S as (A & B & S). destruct A as (_ & Wk & Lp & Cl). cbn [resume].
  destruct (Nat.ltb_spec (lo st0) (lo v)) as [Hl|Hl].
  - eexists. split; [reflexivity|]. split; [|split; [apply (imp_fits _ _ _ _ _ _ _ B)|auto]].
    split; auto. split; auto. split; auto. right. intros ->. lia.
  - destruct R as [R|(R1 & R2)]; [lia|]. eexists. split; [reflexivity|]. split; [|split; [apply (imp_fits _ _ _ _ _ _ _ B)|auto]].
    split; auto. split; [|split].
    + split; auto. split; auto. split; [lia|]. unfold closed in *. now rewrite R1, R2.
    + split; [|split]. intros x []. constructor. intros id [].
    + exists []. split; auto. simpl. tauto.
Qed.

(* ---- improve_next ---- *)
Lemma next_req_ok m goal root rest f order e np go done : map_inv m -> edges_ok m goal e -> np_ok e np -> kids f = all_running e ->
  (forall e' np' goal', later_goal goal goal' -> edges_ok m goal' e' -> sets e' = sets e -> np_ok e' np' ->
     ctl_ok m goal' root rest (CGo (go e' np')) (hl f) (all_running e')) ->
  (forall e', edges_ok m goal e' -> sets e' = sets e -> ctl_ok m goal root rest (done e') (hl f) (all_running e')) ->
  req_ok m goal root rest f (next_req order e np go done).
Proof.
  intros I E N KF GO DN. assert (LG : later_goal goal goal) by (intros t g; auto).
  assert (AT : forall e', targets e' = targets e -> all_running e' = kids f).
  { intros e' H. rewrite KF. unfold all_running. now rewrite H. }
  assert (ST : forall e', targets e' = targets e -> sets e' = sets e).
  { intros e' H. unfold sets. now rewrite H. }
  destruct np as [ids finished nr block| |index ids block|ids block t]; cbn [next_req].
  - destruct ids as [|id ids].
    + cbn [req_ok]. destruct (retain_closed_spec mhash m goal e E) as (e' & -> & T & E' & O').
      destruct (finished || _).
      * rewrite <- (AT e' T). apply DN; auto.
      * destruct (block && _).
        { rewrite <- (AT e' T). apply GO; auto. }
        destruct (sort_active_spec mhash m goal order e' E' O') as (E2 & T2 & O2).
        rewrite <- (AT (sort_active order e')); [|congruence]. apply GO; auto.
    + assert (Hid : id < length (targets e)) by (apply N; simpl; auto).
      destruct (target_at_In e id Hid) as (Ix & Nx). rewrite Nx. set (x := target_at e id) in *.
      assert (N' : forall j, In j ids -> j < length (targets e)) by (intros j Hj; apply N; simpl; auto).
      destruct (proj1 E x Ix) as (Kx & Px & Cx & Gx).
      destruct (tg_run x) as [t|] eqn:Rx; cbn [req_ok].
      * split; [|split].
        { rewrite KF. apply (In_running e x); auto. }
        { intros b. rewrite KF. apply GO; auto. }
        { intros v b g K Hg Rv P. set (fx := fun x : Target => _). set (e' := set_target e id fx).
          assert (SE : sets e' = sets e) by (apply set_target_sets; auto).
          pose proof (all_running_set e id fx x Nx) as PA. unfold run_list in PA. rewrite Rx in PA. cbn [fx tg_run app] in PA.
          apply (ctl_ok_perm _ _ _ _ _ _ (all_running e')).
          { apply (Permutation_cons_inv (a := t)). rewrite P, KF. symmetry. exact PA. }
          apply GO; auto.
          - destruct E as (A & B & C). split; [|split; auto].
            + intros y Hy. destruct (set_target_In _ _ _ _ _ Nx Hy) as [->|Hy']; auto.
              rewrite (Gx t eq_refl) in Hg. injection Hg as <-. destruct Rv as (Rv & _). split; auto. split; auto. split; auto. discriminate.
            + cbn [active set_target]. rewrite (sets_length e e' SE). auto.
          - cbn [np_ok]. fold e'. rewrite (sets_length e e' SE). auto. }
      * rewrite KF. apply GO; auto.
  - cbn [req_ok]. destruct (sort_active_spec mhash m goal order e E N) as (E2 & T2 & O2).
    rewrite <- (AT (sort_active order e) T2). apply GO; auto.
  - destruct ids as [|id ids].
    + cbn [req_ok]. rewrite KF. apply GO; auto. simpl. apply E.
    + assert (N' : open_ids e ids) by (intros j Hj; apply N; simpl; auto).
      destruct (N id (or_introl eq_refl)) as (Hid & Cl).
      destruct (target_at_In e id Hid) as (Ix & Nx). rewrite Nx. set (x := target_at e id) in *.
      destruct (proj1 E x Ix) as (Kx & Px & Cx & Gx).
      destruct (tg_run x) as [t|] eqn:Rx.
      * destruct (index =? 0); cbn [req_ok]; rewrite KF; apply GO; auto.
      * rewrite Cl. cbn [req_ok]. split; auto. intros u goal' L Hu.
        set (fx := fun x : Target => _). set (e' := set_target e id fx).
        assert (SE : sets e' = sets e) by (apply set_target_sets; auto).
        pose proof (all_running_set e id fx x Nx) as PA. unfold run_list in PA. rewrite Rx in PA. cbn [fx tg_run app] in PA.
        apply (ctl_ok_perm _ _ _ _ _ _ (all_running e')). { rewrite KF. symmetry. exact PA. }
        assert (E' : edges_ok m goal' e').
        { destruct E as (A & B & C). split; [|split; auto].
          - intros y Hy. destruct (set_target_In _ _ _ _ _ Nx Hy) as [->|Hy'].
            + split; auto. split; auto. cbn [fx tg_run tg_state tg_set]. split. { intros Hc. congruence. }
              intros t Ht. injection Ht as <-. auto.
            + destruct (A y Hy') as (B1 & B2 & B3 & B4). split; auto.
          - cbn [active set_target]. rewrite (sets_length e e' SE). auto. }
        assert (O' : open_ids e' ids).
        { intros j Hj. destruct (N' j Hj) as (Lj & Cj). rewrite (sets_length e e' SE). split; auto.
          unfold e'. rewrite set_target_at. destruct (Nat.eqb_spec j id) as [->|]; auto. cbn [andb].
          destruct (id <? length (targets e)); auto. }
        apply GO; auto. destruct (index =? 0); simpl; auto.
  - cbn [req_ok]. rewrite KF. apply GO; auto.
Qed.

(* ---- add_edge ---- *)
Lemma add_edge_ok m goal root rest f e t k : map_inv m -> edges_ok m goal e -> okset t -> kids f = all_running e ->
  (forall e' id, edges_ok m goal e' -> (forall x, In x (sets e') <-> In x (sets e) \/ x = t) -> id < length (targets e') ->
     tg_set (target_at e' id) = t -> length (targets e) <= length (targets e') ->
     (forall j, j < length (targets e) -> target_at e' j = target_at e j) ->
     ctl_ok m goal root rest (k e' id) (hl f) (all_running e')) ->
  req_ok m goal root rest f (add_edge_req e t k).
Proof.
  intros I E K KF H. unfold add_edge_req. destruct (find_target t (targets e) 0) as [id|] eqn:F.
  - cbn [req_ok]. destruct (find_target_spec t (targets e) 0 id) as (_ & x & Nx & Ex); auto.
    { intros y Hy. destruct (proj1 E y Hy) as ((W & _) & _). auto. } { apply K. }
    rewrite Nat.sub_0_r in Nx. rewrite KF. apply H; auto.
    + intros y. split; auto. intros [Hy|Hy]; auto. subst y t. unfold sets. apply in_map. eapply nth_error_In; eauto.
    + now apply nth_error_lt in Nx.
    + now rewrite (target_at_nth _ _ _ Nx).
  - cbn [req_ok]. split; auto. destruct (push_target e t (cur m t)) as (e', id) eqn:P.
    destruct (push_target_spec mhash m goal e t (cur m t) e' id E K (past_cur chash mhash m t I K) P) as (E' & S & R & -> & L & A & B).
    rewrite KF, <- R. apply H; auto; [|lia|lia]. intros y. rewrite S, in_app_iff. simpl. intuition.
Qed.
End Step.
