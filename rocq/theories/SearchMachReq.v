(* The checked code between two accesses of the search asks for the same access as SearchModel. *)
From Coq Require Import List Arith Bool Lia Permutation.
Import ListNotations.
From Verif Require Import Spec Vec Net Graded Bits Util OutputSetModel OutputSetProofs PruneProofs PackProofs HuffmanModel HuffmanProofs CanonModel TreeModel StatesModel StatesProofs StatesBounds.
From Verif Require Import MachineModel CanonMachModel PropMachine PropCanonMach StatesMachModel PoolModel.
From Verif Require Import SearchModel SearchFacts SearchInv SearchEdges SearchStep SearchFrames SearchMachModel.

(* ---- the sets ---- *)
Lemma fold_extremal s pol : wf s -> channels s <= MAX_CHANNELS -> forall l acc,
  (forall c, In c l -> c < channels s) -> length acc + length l <= CVEC ->
  fold_opt (fun acc c => b <- channel_is_extremal_c s pol c;; if b : bool then push CVEC acc c else Some acc) l acc
  = Some (acc ++ filter (channel_is_extremal s pol) l).
Proof.
  intros W M. destruct (C45_reads_in_range s W M) as (_ & _ & _ & _ & _ & R).
  induction l as [|c l IH]; intros acc B L; cbn [fold_opt filter]. { now rewrite app_nil_r. }
  destruct (R c) as (_ & _ & _ & E & _). { apply B. simpl. auto. }
  rewrite E. cbn [length] in L. destruct (channel_is_extremal s pol c).
  - unfold push. destruct (Nat.ltb_spec (length acc) CVEC) as [H|H]; [|lia]. rewrite IH.
    + now rewrite <- app_assoc.
    + intros d Hd. apply B. simpl. auto.
    + rewrite app_length. cbn [length]. lia.
  - apply IH. intros d Hd. apply B. simpl. auto. lia.
Qed.

Lemma extremal_same s pol : okset s -> extremal_c s pol = Some (extremal_channels s pol).
Proof.
  intros (W & M & _). unfold extremal_c. rewrite fold_extremal; auto.
  - intros c H. apply in_seq in H. lia.
  - rewrite seq_length. exact M.
Qed.

Section Same.
Variable chash : list nat -> nat.

Lemma canon_same s : wf s -> channels s <= MAX_CHANNELS -> canon_c chash s = canon chash s.
Proof. intros W M. destruct (C49_checked_same_result chash s true W M) as (r & E & E'). unfold canon_c, canon. now rewrite E, E'. Qed.

Lemma prune_canon_same s pol c : okset s -> In c (extremal_channels s pol) -> prune_canon_c chash s pol c = prune_canon chash s pol c.
Proof.
  intros K H. pose proof K as (W & M & _). apply extremal_In in H; auto. destruct H as (Hc & He).
  unfold prune_canon_c, prune_canon, sub_u. destruct (Nat.leb_spec 1 (channels s)) as [_|]; [|lia].
  unfold all_values_c. destruct (Nat.leb_spec (channels s - 1) MAX_CHANNELS) as [_|X]; [|unfold MAX_CHANNELS in X; lia].
  change (mkOutputSet (channels s - 1) (repeat true (2 ^ (channels s - 1)))) with (all_values (channels s - 1)).
  destruct (C45_writes_in_range s W M) as (_ & P). rewrite P by (auto using all_values_wf).
  destruct (prune_extremal_spec s pol c W Hc M He) as (u & E & Cu & Wu & _). cbn [channels all_values]. rewrite E.
  apply canon_same; auto. rewrite Cu. unfold MAX_CHANNELS. lia.
Qed.

(* ---- equal requests; continuations are compared pointwise ---- *)
Definition req_same (a b : Req) : Prop :=
  match a, b with
  | RGet s k, RGet s' k' => s = s' /\ forall st, k st = k' st
  | RTau k, RTau k' => k = k'
  | _, _ => a = b
  end.
Definition mreq_same (a : MReq) (b : Req) : Prop :=
  match a with
  | MPlain r => (forall p s q k, r <> RSpawn p s q k) /\ req_same r b
  | MSpawn prev s prio k => b = RSpawn prev s (match prio with Some _ => true | None => false end) k
  end.

Lemma req_same_refl r : req_same r r.
Proof. destruct r; simpl; auto. Qed.
Lemma plain_same r : (forall p s q k, r <> RSpawn p s q k) -> mreq_same (MPlain r) r.
Proof. intros H. split; auto. apply req_same_refl. Qed.
Lemma tau_same k k' : k = k' -> mreq_same (MPlain (RTau k)) (RTau k').
Proof. intros ->. apply plain_same. discriminate. Qed.
Lemma get_same s k k' : (forall st, k st = k' st) -> mreq_same (MPlain (RGet s k)) (RGet s k').
Proof. intros H. split. discriminate. split; auto. Qed.

(* ---- edges ---- *)
Lemma map_opt_rd {A} (l : list A) ids : (forall id, In id ids -> id < length l) -> exists r, map_opt (rd l) ids = Some r.
Proof.
  induction ids as [|i ids IH]; intros H; cbn [map_opt]; eauto. unfold rd at 1.
  destruct (nth_error l i) eqn:E. 2: { apply nth_error_None in E. specialize (H i (or_introl eq_refl)). lia. }
  destruct IH as (r & ->). { intros j Hj. apply H. simpl. auto. } eauto.
Qed.

Section Edges.
Variable mhash : list nat -> nat.
Notation edges_ok := (edges_ok mhash).

Lemma sort_active_same m goal order e : edges_ok m goal e -> sort_active_c order e = Some (sort_active order e).
Proof.
  intros (_ & _ & R). unfold sort_active_c. destruct (map_opt_rd (targets e) (active e) R) as (r & ->). reflexivity.
Qed.

Lemma retain_closed_same m goal e : edges_ok m goal e -> retain_closed_c e = retain_closed e.
Proof.
  intros (_ & _ & R). unfold retain_closed_c. destruct (map_opt_rd (targets e) (active e) R) as (r & ->). reflexivity.
Qed.

Lemma retain_edges_same m goal keep e : edges_ok m goal e -> retain_edges_c keep e = Some (retain_edges keep e).
Proof.
  intros (_ & _ & R). unfold retain_edges_c.
  destruct (map_opt_rd (targets e) (filter (fun id => negb (keep id)) (active e))) as (r & ->); [|reflexivity].
  intros id H. apply filter_In in H. apply R. tauto.
Qed.

Lemma next_same m goal order e np go done : edges_ok m goal e -> np_ok e np ->
  mreq_same (next_req_c order e np go done) (next_req order e np go done).
Proof.
  intros E N. destruct np as [ids fin nr block| |index ids block|ids block t].
  - destruct ids as [|id ids].
    + cbn [next_req_c next_req]. apply tau_same. rewrite (retain_closed_same m goal e E).
      destruct (retain_closed_spec mhash m goal e E) as (e' & -> & T & E' & O).
      destruct (fin || _); auto. destruct (block && _); auto. rewrite (sort_active_same m goal order e' E'). reflexivity.
    + cbn [next_req_c]. apply plain_same. cbn [next_req]. destruct (nth_error (targets e) id) as [x|]; [|discriminate].
      destruct (tg_run x); discriminate.
  - cbn [next_req_c next_req]. apply tau_same. rewrite (sort_active_same m goal order e E). reflexivity.
  - destruct ids as [|id ids].
    + cbn [next_req_c]. apply plain_same. discriminate.
    + cbn [next_req_c]. unfold rd. destruct (nth_error (targets e) id) as [x|] eqn:Ex.
      * destruct (tg_run x) as [t|] eqn:Er.
        -- apply plain_same. cbn [next_req]. rewrite Ex, Er. destruct (index =? 0); discriminate.
        -- cbn [next_req]. rewrite Ex, Er. destruct (closed (tg_state x)). { apply plain_same. discriminate. }
           cbn [mreq_same]. cbv zeta. destruct (negb (index =? 0) && _); reflexivity.
      * cbn [next_req]. rewrite Ex. apply plain_same. discriminate.
  - cbn [next_req_c]. apply plain_same. discriminate.
Qed.
End Edges.

Lemma add_edge_plain e t k : forall p s q k', add_edge_req e t k <> RSpawn p s q k'.
Proof. unfold add_edge_req. intros p s q k'. destruct (find_target t (targets e) 0); discriminate. Qed.

Lemma after_check_same prev s lk st : okset s -> after_check_c chash prev s lk st = after_check chash prev s lk st.
Proof.
  intros K. unfold after_check_c, after_check. rewrite !extremal_same by auto.
  assert (P : forall pol c, extremal_channels s pol = [c] -> prune_canon_c chash s pol c = prune_canon chash s pol c).
  { intros pol c E. apply prune_canon_same; auto. rewrite E. simpl. auto. }
  pose proof (P false) as P0. pose proof (P true) as P1.
  destruct (extremal_channels s false) as [|c0 [|c1 l]], (extremal_channels s true) as [|d0 [|d1 l']]; auto;
    rewrite ?P0, ?P1 by reflexivity; reflexivity.
Qed.

Lemma imp_same mhash m goal prev s pc : imp_ok chash mhash m goal prev s pc ->
  mreq_same (imp_req_c chash prev s pc) (imp_req chash prev s pc).
Proof.
  intros (K & H). pose proof K as (W & M & _). destruct pc; cbn [imp_req_c]; try (apply plain_same; cbn [imp_req]; discriminate).
  - (* check *) cbn [imp_req]. apply get_same. intros st. destruct (negb _); auto. destruct (closed st); auto. now apply after_check_same.
  - (* pruned upper *) apply plain_same. cbn [imp_req]. destruct (hi pst <? hi st); discriminate.
  - apply plain_same. cbn [imp_req]. destruct (lo st <? lo pst); discriminate.
  - (* edge *) destruct H as (B & E & done & Ep & _). destruct todo as [|(i, j) todo]. { apply plain_same. discriminate. }
    assert (Hp : In (i, j) (pairs (channels s))) by (rewrite Ep; apply in_app_iff; simpl; auto). apply pairs_In in Hp. destruct Hp as (Hi & Hj).
    destruct (C45_writes_in_range s W M) as (P & _). destruct (P i j) as (_ & A); try lia. rewrite A by lia. cbn [imp_req].
    pose proof (comparator_ok s i j K Hi Hj) as Kt. destruct (apply_comparator s i j) as (t, ch). cbn [fst] in Kt.
    destruct ch; [|now apply tau_same]. rewrite canon_same by apply Kt. destruct (canon chash t). 2: now apply tau_same.
    apply plain_same. apply add_edge_plain.
  - apply plain_same. cbn [imp_req]. destruct (m0 <- _;; u8_succ m0); [|discriminate]. destruct (_ <? hi st); discriminate.
  - apply plain_same. cbn [imp_req]. destruct (m0 <- _;; u8_succ m0); [|discriminate]. destruct (lo st <? _); discriminate.
  - (* next *) destruct H as (B & (E & _) & N). cbn [imp_req]. eapply next_same; eauto.
Qed.

Lemma huff_same mhash m goal s pc : huff_ok chash mhash m goal s pc ->
  mreq_same (huff_req_c chash s pc) (huff_req chash s pc).
Proof.
  intros (K & Wk & H). destruct pc; cbn [huff_req_c].
  - cbn [huff_req]. apply get_same. intros st. destruct (hhi st <=? lo st); auto. now rewrite !extremal_same.
  - destruct H as (_ & E & d0 & r0 & d1 & r1 & X0 & X1 & T & _). destruct todo as [|(pol, c) todo].
    { apply plain_same. cbn [huff_req]. discriminate. }
    assert (Hc : In c (extremal_channels s pol)).
    { assert (I : In (pol, c) (map (pair false) r0 ++ map (pair true) r1)) by (rewrite <- T; simpl; auto).
      apply in_app_iff in I. destruct I as [I|I]; apply in_map_iff in I; destruct I as (c' & Ec & I); injection Ec as <- <-.
      rewrite X0. apply in_app_iff. auto. rewrite X1. apply in_app_iff. auto. }
    cbn [huff_req]. rewrite prune_canon_same by auto. destruct (prune_canon chash s pol c); [|now apply tau_same].
    apply plain_same. apply add_edge_plain.
  - destruct H as (_ & E & I0 & I1). cbn [huff_req].
    destruct (lo st <? (if pol then uh1 else uh0)); [|now apply tau_same].
    assert (I : ids_ok e (if pol then ids1 else ids0) (prunes chash s pol)) by (destruct pol; auto).
    rewrite (ids_states e _ _ I). pose proof (prunes_small chash s pol K) as L.
    assert (L' : length (if pol then ids1 else ids0) <= CVEC). { destruct I as (I & _). rewrite <- I, map_length in L. exact L. }
    unfold collect. rewrite !map_length. destruct (Nat.leb_spec (length (if pol then ids1 else ids0)) CVEC) as [_|]; [|lia].
    match goal with |- mreq_same (match ?a with _ => _ end) _ => destruct a as [(lh, uh)|] end; [|now apply tau_same].
    destruct (uh <=? lo st); [|now apply tau_same]. rewrite (retain_edges_same mhash m goal _ e E).
    destruct (retain_edges _ e) as (e', dr). apply plain_same. discriminate.
  - apply plain_same. cbn [huff_req]. destruct (hlo st <? lh); [|discriminate]. destruct (lo st <? lh); discriminate.
  - apply plain_same. cbn [huff_req]. destruct (_ <? hhi st); discriminate.
  - destruct H as ((_ & E & _) & N). cbn [huff_req]. eapply next_same; eauto.
  - apply plain_same. cbn [huff_req]. discriminate.
Qed.

Theorem frame_same mhash m goal f : frame_ok chash mhash m goal f -> mreq_same (frame_req_c chash f) (frame_req chash f).
Proof.
  destruct f as [s l pc|prev s pc|s pc]; cbn [frame_ok frame_req_c frame_req].
  - intros _. apply plain_same. destruct pc; try discriminate. cbn [main_req]. destruct (closed st || _); discriminate.
  - apply imp_same.
  - apply huff_same.
Qed.
End Same.

(* ---- facts about the edges of a frame that no access can spoil ---- *)
Definition lens_ok (e : Edges) : Prop := forall x, In x (targets e) -> tg_len x = os_len (tg_set x).
Definition np_fine (e : Edges) (np : NextPc) : Prop :=
  match np with NSched _ _ t => In t (all_running e) | _ => True end.
Definition fine (f : Frame) : Prop :=
  lens_ok (frame_edges f) /\
  match f with
  | FImp _ _ (INext _ _ e np) => np_fine e np
  | FHuff _ (HNext _ _ _ _ _ e np) => np_fine e np
  | _ => True
  end.
Definition ctl_fine (k : Ctl) : Prop :=
  match k with CGo f => fine f | CCall f g => fine f /\ fine g | _ => True end.
Definition req_fine (r : Req) : Prop :=
  match r with
  | RGet s k => forall st, ctl_fine (k st)
  | RSet s st k => ctl_fine k
  | RLock s got busy => (forall id, ctl_fine (got id)) /\ forall id, ctl_fine (busy id)
  | RUnlock s id k => ctl_fine k
  | RWait id k => ctl_fine k
  | RPoll u k => forall v b, ctl_fine (k v b)
  | RSpawn prev s pend k => forall u, ctl_fine (k u)
  | RSchedule u k => ctl_fine k
  | RCancel ts k => ctl_fine k
  | RTau k => ctl_fine k
  | RNone => True
  end.

Lemma lens_targets e e' : targets e' = targets e -> lens_ok e -> lens_ok e'.
Proof. intros E H x. rewrite E. apply H. Qed.
Lemma lens_set e id f : (forall x, tg_len (f x) = tg_len x /\ tg_set (f x) = tg_set x) -> lens_ok e -> lens_ok (set_target e id f).
Proof.
  intros F H x Hx. unfold set_target in Hx. cbn [targets] in Hx. destruct (nth_error (targets e) id) as [y|] eqn:E; [|now apply H].
  destruct (upd_split _ _ _ (f y) E) as (l1 & l2 & E1 & _ & E2). rewrite E2 in Hx. apply in_app_iff in Hx.
  destruct Hx as [Hx|[<-|Hx]].
  - apply H. rewrite E1. apply in_app_iff. auto.
  - destruct (F y) as (-> & ->). apply H. rewrite E1. apply in_app_iff. simpl. auto.
  - apply H. rewrite E1. apply in_app_iff. simpl. auto.
Qed.
Lemma lens_no_edges : lens_ok no_edges.
Proof. intros x []. Qed.
Lemma lens_retain keep e e' dr : lens_ok e -> retain_edges keep e = (e', dr) -> lens_ok e'.
Proof.
  intros H E. injection E as <- _. generalize (filter (fun id => negb (keep id)) (active e)). intros D.
  assert (H' : lens_ok (mkEdges (targets e) (filter keep (active e)))) by exact H. revert H'.
  generalize (mkEdges (targets e) (filter keep (active e))). induction D as [|d D IH]; intros e0 H0; cbn [fold_left]; auto.
  apply IH. apply lens_set; auto.
Qed.

Lemma next_fine order e np go done : lens_ok e -> np_fine e np ->
  (forall e' np', lens_ok e' -> np_fine e' np' -> fine (go e' np')) -> (forall e', lens_ok e' -> ctl_fine (done e')) ->
  req_fine (next_req order e np go done).
Proof.
  intros L N G D. destruct np as [ids finished nr block| |index ids block|ids block t]; cbn [next_req].
  - destruct ids as [|id ids].
    + cbn [req_fine]. unfold retain_closed. destruct (forallb _ _); [|exact Logic.I]. 
      destruct (finished || _); [apply D; exact L|]. destruct (block && _); cbn [ctl_fine]; apply G; try exact Logic.I; exact L.
    + destruct (nth_error (targets e) id) as [x|]; [|exact Logic.I]. destruct (tg_run x); cbn [req_fine ctl_fine]; [|now apply G].
      intros [v|] b; cbn [ctl_fine]; apply G; try exact Logic.I; auto. apply lens_set; auto.
  - cbn [req_fine ctl_fine]. apply G; [exact L|exact Logic.I].
  - destruct ids as [|id ids]. { cbn [req_fine ctl_fine]. now apply G. }
    destruct (nth_error (targets e) id) as [x|] eqn:Ex; [|exact Logic.I]. destruct (tg_run x) as [t|] eqn:Er.
    + destruct (index =? 0); cbn [req_fine ctl_fine]; now apply G.
    + destruct (closed (tg_state x)); [exact Logic.I|]. cbn [req_fine ctl_fine]. intros u. cbv zeta. apply G. { apply lens_set; auto. }
      destruct (index =? 0); [|exact Logic.I]. cbn [np_fine].
      pose proof (all_running_set e id (fun x => mkTarget (tg_set x) (tg_state x) (tg_len x) (Some u)) x Ex) as P.
      unfold run_list in P. cbn [tg_run] in P. rewrite Er in P. cbn [app] in P. apply (Permutation_in _ P). simpl. auto.
  - cbn [req_fine ctl_fine]. apply G; [exact L|exact Logic.I].
Qed.

Lemma add_edge_fine e t k : lens_ok e -> (forall e' id, lens_ok e' -> ctl_fine (k e' id)) -> req_fine (add_edge_req e t k).
Proof.
  intros L H. unfold add_edge_req. destruct (find_target t (targets e) 0); cbn [req_fine]; auto. intros st.
  destruct (push_target e t st) as (e', id) eqn:E. apply H. injection E as <- _. intros x Hx. cbn [targets] in Hx. apply in_app_iff in Hx.
  destruct Hx as [Hx|[<-|[]]]; auto.
Qed.

Section Fine.
Variable chash : list nat -> nat.

Lemma after_check_fine prev s lk st : ctl_fine (after_check chash prev s lk st).
Proof.
  assert (AE : ctl_fine (after_extremal prev s lk st)).
  { unfold after_extremal. destruct (lo st <? hhi st); cbn [ctl_fine]; [split|]; (split; [apply lens_no_edges|exact Logic.I]). }
  assert (AP : forall pol c, ctl_fine match prune_canon chash s pol c with Some p => CGo (FImp prev s (IPrGet lk st p)) | None => CPanic end).
  { intros pol c. destruct (prune_canon chash s pol c); [|exact Logic.I]. split; [apply lens_no_edges|exact Logic.I]. }
  unfold after_check. destruct (extremal_channels s false) as [|c0 [|c1 l]], (extremal_channels s true) as [|d0 [|d1 l']]; auto.
Qed.

Ltac nofr := split; [apply lens_no_edges|exact Logic.I].
Ltac same := split; [assumption|exact Logic.I].

Lemma huff_while_fine s st ids0 ids1 uh0 uh1 e : lens_ok e -> ctl_fine (huff_while s st ids0 ids1 uh0 uh1 e).
Proof. intros L. unfold huff_while. destruct (lo st <? hhi st); same. Qed.
Lemma huff_after_fine s st ids0 ids1 uh0 uh1 e pol : lens_ok e -> ctl_fine (huff_after s st ids0 ids1 uh0 uh1 e pol).
Proof. intros L. unfold huff_after. destruct pol; same. Qed.

Lemma frame_req_fine f : fine f -> req_fine (frame_req chash f).
Proof.
  intros (L & N). destruct f as [s lim pc|prev s pc|s pc]; cbn [SearchModel.frame_req].
  - destruct pc; cbn [main_req].
    + cbn [req_fine]. intros st. nofr.
    + destruct (closed st || _); cbn [req_fine ctl_fine]. nofr. split; nofr.
    + exact Logic.I.
    + exact Logic.I.
  - destruct pc; cbn [imp_req]; cbn [frame_edges] in L.
    + cbn [req_fine]. intros st. destruct (negb _); [exact Logic.I|]. destruct (closed st); [exact Logic.I|]. nofr.
    + split; intros id; nofr.
    + nofr.
    + cbn [req_fine]. intros st. destruct (negb _); [nofr|]. destruct (closed st); [nofr|]. apply after_check_fine.
    + cbn [req_fine]. intros st0. nofr.
    + destruct (hi pst <? hi st); cbn [req_fine]; [|nofr]. destruct (closed _); nofr.
    + destruct (lo st <? lo pst); cbn [req_fine]; [nofr|split; nofr].
    + exact Logic.I.
    + exact Logic.I.
    + destruct todo as [|(i, j) todo]; [same|]. destruct (apply_comparator s i j) as (t, ch). destruct ch; [|same].
      destruct (canon chash t); [|exact Logic.I]. apply add_edge_fine; auto. intros e' _ L'. same.
    + destruct (m <- list_min (map hi (edge_states e));; u8_succ m) as [ub|]; [|exact Logic.I].
      destruct (ub <? hi st); cbn [req_fine]; [|same]. destruct (closed _); same.
    + destruct (m <- list_min (map lo (edge_states e));; u8_succ m) as [ub|]; [|exact Logic.I].
      destruct (lo st <? ub); cbn [req_fine]; same.
    + cbn [req_fine]. intros st0. same.
    + same.
    + apply next_fine; auto.
      * intros e' np' L' N'. split; auto.
      * intros e' L'. same.
    + nofr.
    + exact Logic.I.
  - destruct pc; cbn [huff_req]; cbn [frame_edges] in L.
    + cbn [req_fine]. intros st. destruct (hhi st <=? lo st); [exact Logic.I|nofr].
    + destruct todo as [|(pol, c) todo]; [now apply huff_while_fine|]. destruct (prune_canon chash s pol c); [|exact Logic.I].
      apply add_edge_fine; auto. intros e' id L'. destruct pol; same.
    + destruct (lo st <? (if pol then uh1 else uh0)); [|now apply huff_after_fine].
      match goal with |- context [match ?a with _ => _ end] => destruct a as [(lh, uh)|] end; [|exact Logic.I].
      destruct (uh <=? lo st); [|same]. destruct (retain_edges _ e) as (e', dr) eqn:E. pose proof (lens_retain _ _ _ _ L E) as L'. same.
    + destruct (hlo st <? lh); [|now apply huff_after_fine]. destruct (lo st <? lh); [same|now apply huff_after_fine].
    + destruct (Nat.max uh0 uh1 <? hhi st); same.
    + apply next_fine; auto.
      * intros e' np' L' N'. split; auto.
      * intros e' L'. now apply huff_while_fine.
    + exact Logic.I.
Qed.

Lemma resume_fine f v f' : resume f v = Some f' -> fine f'.
Proof.
  destruct f as [s lim pc|prev s pc|s pc]; try discriminate; destruct pc; try discriminate; cbn [resume].
  - intros H. injection H as <-. nofr.
  - intros H. injection H as <-. nofr.
  - destruct (lo st <? lo v); intros H; injection H as <-; nofr.
Qed.

(* the task that is scheduled belongs to a target *)
Lemma sched_in f u k : fine f -> frame_req chash f = RSchedule u k -> In u (kids f).
Proof.
  intros (L & N). assert (X : forall order e np go done, np_fine e np -> next_req order e np go done = RSchedule u k -> In u (all_running e)).
  { intros order e np go done Ne. destruct np as [ids finished nr block| |index ids block|ids block t]; cbn [next_req]; try discriminate.
    - destruct ids as [|id ids]; [discriminate|]. destruct (nth_error (targets e) id) as [x|]; [|discriminate]. destruct (tg_run x); discriminate.
    - destruct ids as [|id ids]; [discriminate|]. destruct (nth_error (targets e) id) as [x|] eqn:Ex; [|discriminate].
      destruct (tg_run x) as [t|] eqn:Er; [|destruct (closed _); discriminate]. destruct (index =? 0); [|discriminate].
      intros H. injection H as <- _. eapply In_running; eauto. eapply nth_error_In; eauto.
    - intros H. injection H as <- _. exact Ne. }
  unfold kids. destruct f as [s lim pc|prev s pc|s pc]; cbn [SearchModel.frame_req].
  - destruct pc; cbn [main_req]; try discriminate. destruct (closed st || _); discriminate.
  - destruct pc; cbn [imp_req]; try discriminate; try (now apply X).
    + destruct (hi pst <? hi st); discriminate.
    + destruct (lo st <? lo pst); discriminate.
    + destruct todo as [|(i, j) todo]; [discriminate|]. destruct (apply_comparator s i j) as (t, ch). destruct ch; [|discriminate].
      destruct (canon chash t); [|discriminate]. unfold add_edge_req. destruct (find_target _ _ _); discriminate.
    + destruct (m <- list_min (map hi (edge_states e));; u8_succ m); [|discriminate]. destruct (_ <? hi st); discriminate.
    + destruct (m <- list_min (map lo (edge_states e));; u8_succ m); [|discriminate]. destruct (lo st <? _); discriminate.
  - destruct pc; cbn [huff_req]; try discriminate; try (now apply X).
    + destruct todo as [|(pol, c) todo]; [discriminate|]. destruct (prune_canon chash s pol c); [|discriminate].
      unfold add_edge_req. destruct (find_target _ _ _); discriminate.
    + destruct (lo st <? (if pol then uh1 else uh0)); [|discriminate].
      match goal with |- context [match ?a with _ => _ end] => destruct a as [(lh, uh)|] end; [|discriminate].
      destruct (uh <=? lo st); [|discriminate]. destruct (retain_edges _ e); discriminate.
    + destruct (hlo st <? lh); [|discriminate]. destruct (lo st <? lh); discriminate.
    + destruct (Nat.max uh0 uh1 <? hhi st); discriminate.
Qed.

(* the priority of a spawned task *)
Lemma spawn_prio f prev s len b k : fine f -> frame_req_c chash f = MSpawn prev s (Some (len, b)) k -> len = os_len s /\ b = lo prev.
Proof.
  intros (L & N). assert (X : forall order e np go done, lens_ok e -> next_req_c order e np go done = MSpawn prev s (Some (len, b)) k ->
    len = os_len s /\ b = lo prev).
  { intros order e np go done Le. destruct np as [ids finished nr block| |index ids block|ids block t]; cbn [next_req_c]; try discriminate.
    - destruct ids; discriminate.
    - destruct ids as [|id ids]; [discriminate|]. unfold rd. destruct (nth_error (targets e) id) as [x|] eqn:Ex; [|discriminate].
      destruct (tg_run x); [discriminate|]. destruct (closed _); [discriminate|]. cbv zeta. destruct (negb _ && _); [|discriminate].
      intros H. injection H as <- <- <- <- _. split; auto. apply Le. eapply nth_error_In; eauto. }
  destruct f as [s' lim pc|prev' s' pc|s' pc]; cbn [frame_req_c]; try discriminate.
  - destruct pc; cbn [imp_req_c]; try discriminate.
    + destruct todo as [|(i, j) todo]; [discriminate|]. destruct (apply_comparator_c s' i j) as [(t, ch)|]; [|discriminate].
      destruct ch; [|discriminate]. destruct (canon_c chash t); discriminate.
    + now apply X.
  - destruct pc; cbn [huff_req_c]; try discriminate.
    + destruct todo as [|(pol, c) todo]; [discriminate|]. destruct (prune_canon_c chash s' pol c); discriminate.
    + destruct (lo st <? (if pol then uh1 else uh0)); [|discriminate].
      match goal with |- context [match ?a with _ => _ end] => destruct a as [(lh, uh)|] end; [|discriminate].
      destruct (uh <=? lo st); [|discriminate]. destruct (retain_edges_c _ e) as [(e', dr)|]; discriminate.
    + now apply X.
Qed.
End Fine.
