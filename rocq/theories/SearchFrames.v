(* The accesses of main loop, improve and improve_huffman keep the invariants of the frames. *)
From Coq Require Import List Arith Bool Lia Permutation.
Import ListNotations.
From Verif Require Import Spec Vec Net Graded Bits Util OutputSetModel OutputSetProofs PruneProofs PackProofs HuffmanModel HuffmanProofs CanonModel TreeModel StatesModel StatesProofs StatesBounds SearchModel SearchFacts SearchInv SearchEdges SearchStep.

Section Frames.
Variables chash mhash : list nat -> nat.
Notation cur := (cur mhash).
Notation succs := (succs chash).
Notation succ1 := (succ1 chash).
Notation prunes := (prunes chash).
Notation prune_of := (prune_of chash).
Notation map_inv := (map_inv chash mhash).
Notation past := (past mhash).
Notation edges_ok := (edges_ok mhash).
Notation justL := (justL chash mhash).
Notation justU := (justU chash mhash).
Notation tight := (tight mhash).
Notation frame_ok := (frame_ok chash mhash).
Notation fits := (fits mhash).
Notation stack_ok := (stack_ok chash mhash).
Notation result_ok := (result_ok mhash).
Notation imp_ok := (imp_ok chash mhash).
Notation huff_ok := (huff_ok chash mhash).
Notation huff_edges := (huff_edges chash mhash).
Notation succ_edges := (succ_edges chash mhash).
Notation base := (base mhash).
Notation frame_req := (frame_req chash).
Notation ctl_ok := (ctl_ok chash mhash).
Notation req_ok := (req_ok chash mhash).

Lemma main_req_ok m goal root rest s limit pc : map_inv m ->
  frame_ok m goal (FMain s limit pc) -> fits m root (hd_error rest) (FMain s limit pc) -> stack_ok m goal root rest ->
  req_ok m goal root rest (FMain s limit pc) (frame_req (FMain s limit pc)).
Proof.
  intros I F Ft S. cbn [SearchModel.frame_req]. destruct F as (K & F). destruct pc; cbn [main_req]; try exact Logic.I.
  - cbn [SearchStep.req_ok]. split; auto. split; [|split; [apply (main_fits _ _ _ _ _ _ _ _ Ft)|split; auto]]. split; auto.
    now apply (past_cur chash).
  - destruct (closed st || _) eqn:E; cbn [SearchStep.req_ok].
    + split; [|split; [apply (main_fits _ _ _ _ _ _ _ _ Ft)|split; auto]]. split; auto. exists st. split; auto. split; auto.
      apply orb_true_iff in E. destruct E as [E|E]; auto. right. destruct limit as [l|]; [|discriminate]. exists l. split; auto.
      now apply Nat.leb_le.
    + split; [split; auto|]. split. apply (main_fits _ _ _ _ _ _ _ _ Ft). split. { split; auto. } simpl. auto.
Qed.

Lemma single_spec s p : okset s -> single chash s p -> okset p /\ channels p + 1 = channels s.
Proof.
  intros K (pol & c & E & ->). apply (prunes_okset chash s pol); auto. unfold SearchFacts.prunes. apply in_map. rewrite E. simpl. auto.
Qed.

Lemma single_justL m s p b : map_inv m -> okset s -> work s -> single chash s p -> b <= lo (cur m p) -> justL m s b.
Proof.
  intros I K Wk Sg H. pose proof (single_spec s p K Sg) as (Kp & _). destruct Sg as (pol & c & E & ->). right. split. apply Wk.
  right. left. exists pol. unfold SearchFacts.prunes. rewrite E. cbn [map].
  destruct (huffman_total_small [lo (cur m (prune_of s pol c))]) as (r & Er). simpl; lia.
  { intros v [<-|[]]. apply (past_lo_le chash mhash m (prune_of s pol c)); auto. now apply (past_cur chash). }
  exists r. split; auto. apply huffman_single in Er. lia.
Qed.

Lemma after_extremal_ok m goal root rest prev s lk st : map_inv m -> okset s -> base m prev s st ->
  fits m root (hd_error rest) (FImp prev s ILook) -> ctl_ok m goal root rest (after_extremal prev s lk st) [(s, lk)] [].
Proof.
  intros I K B Ft. pose proof (fun pc => imp_fits mhash m root (hd_error rest) prev s ILook pc Ft) as Fi.
  destruct B as (Wk & C & L & Cl). unfold after_extremal. destruct (lo st <? hhi st); cbn [SearchStep.ctl_ok].
  - split; [|split; [apply Fi|]]. { split; auto. } split. { split; auto. } split. { cbn [SearchInv.fits]. split; auto. } auto.
  - split; [|split; [apply Fi|auto]]. split; auto. split; [|split]. { split; auto. }
    + split; [|split]. intros x []. constructor. intros id [].
    + exists []. split; auto. simpl. tauto.
Qed.

Lemma after_check_ok m goal root rest prev s lk st : map_inv m -> okset s -> base m prev s st ->
  fits m root (hd_error rest) (FImp prev s ILook) -> ctl_ok m goal root rest (after_check chash prev s lk st) [(s, lk)] [].
Proof.
  intros I K B Ft. pose proof (fun pc => imp_fits mhash m root (hd_error rest) prev s ILook pc Ft) as Fi.
  assert (EN : forall pol c, extremal_channels s pol = [c] ->
    ctl_ok m goal root rest match prune_canon chash s pol c with
                     | Some p => CGo (FImp prev s (IPrGet lk st p))
                     | None => CPanic
                     end [(s, lk)] []).
  { intros pol c E. destruct (prune_of_spec chash s pol c K) as (-> & _). { rewrite E. simpl. auto. }
    split; [|split; [apply Fi|auto]]. split; auto. split; auto. exists pol, c. auto. }
  unfold after_check. pose proof (EN false) as E0. pose proof (EN true) as E1.
  pose proof (after_extremal_ok m goal root rest prev s lk st I K B Ft) as AE.
  destruct (extremal_channels s false) as [|c0 [|c1 l]]; [..|]; try (now apply E0).
  - destruct (extremal_channels s true) as [|d0 [|d1 l']]; auto.
  - destruct (extremal_channels s true) as [|d0 [|d1 l']]; auto.
Qed.

Lemma u8_succ_small v : v <= 35 -> u8_succ v = Some (v + 1).
Proof. intros H. unfold u8_succ. destruct (Nat.leb_spec (v + 1) 255); auto. lia. Qed.

Lemma succ_edges_min m goal s e (g : State -> nat) : map_inv m -> okset s -> work s -> succ_edges m goal s e ->
  (forall st, In st (edge_states e) -> g st <= 35) ->
  exists v, (x <- list_min (map g (edge_states e));; u8_succ x) = Some (v + 1) /\
    (exists x, In x (targets e) /\ g (tg_state x) = v /\ In (tg_set x) (succs s)) /\
    (forall x, In x (targets e) -> v <= g (tg_state x)).
Proof.
  intros I K Wk (E & Sc) Hs.
  assert (NE : map g (edge_states e) <> []).
  { intros H. apply (succs_nonempty chash s K). apply Wk. destruct (succs s) as [|t l] eqn:Es; auto. exfalso.
    assert (Ht : In t (sets e)) by (apply Sc; simpl; auto). unfold sets, edge_states in *. destruct (targets e); [destruct Ht|discriminate]. }
  destruct (list_min_spec _ NE) as (v & -> & Iv & Mv). exists v. cbn.
  apply in_map_iff in Iv. destruct Iv as (st & <- & Ist). rewrite (u8_succ_small _ (Hs st Ist)). split; auto. split.
  - unfold edge_states in Ist. apply in_map_iff in Ist. destruct Ist as (x & <- & Hx). exists x. split; auto. split; auto.
    apply Sc. unfold sets. now apply in_map.
  - intros x Hx. apply Mv. unfold edge_states. apply in_map. now apply in_map.
Qed.

Lemma imp_req_ok m goal root rest prev s pc : map_inv m ->
  frame_ok m goal (FImp prev s pc) -> fits m root (hd_error rest) (FImp prev s pc) -> stack_ok m goal root rest ->
  req_ok m goal root rest (FImp prev s pc) (frame_req (FImp prev s pc)).
Proof.
  intros I F Ft S. cbn [SearchModel.frame_req]. destruct F as (K & F).
  pose proof (fun pc' => imp_fits mhash m root (hd_error rest) prev s pc pc' Ft) as Fi.
  assert (Fi' : forall m' pc', fits m' root (hd_error rest) (FImp prev s pc')).
  { intros m' pc'. generalize (Fi pc'). destruct (hd_error rest) as [[]|]; auto. }
  assert (RT : forall v, past m s v -> (closed v = true \/ v <> prev) -> ctl_ok m goal root rest (CReturn v) [] []).
  { intros v P C. eapply imp_return; eauto. }
  assert (SE0 : edges_ok m goal no_edges). { split; [|split]. intros x []. constructor. intros id []. }
  assert (LE : forall e, edges_ok m goal e -> forall x, In x (targets e) -> okset (tg_set x) /\ past m (tg_set x) (tg_state x)).
  { intros e E x Hx. destruct (proj1 E x Hx) as (A & B & _). auto. }
  pose proof (edges_ok_later mhash m) as EL.
  assert (LG : later_goal goal goal) by (intros t g; auto).
  assert (BT : forall m' st st', base m prev s st -> cur m' s = st' -> lo st' = lo st -> closed st' = false -> base m' prev s st').
  { intros m' st st' (Wk & C & L & Cl) C' L' Cl'. split; auto. split; auto. split; auto. lia. }
  destruct pc; cbn [imp_req].
  - (* ILook *)
    cbn [SearchStep.req_ok]. split; auto. destruct (state_eqb (cur m s) prev) eqn:E; cbn [negb].
    + destruct (closed (cur m s)) eqn:Cl.
      * apply RT; auto. now apply (past_cur chash).
      * split; [|split; auto]. split; auto. apply (unclosed_work chash mhash m); auto.
    + apply RT. now apply (past_cur chash). right. intros H. apply state_eqb_eq in H. congruence.
  - (* ILock *)
    cbn [SearchStep.req_ok]. split; auto. split; auto. split; auto. split; auto. split; intros id.
    + split; [|split; auto]. split; auto.
    + split; [|split; auto]. split; auto.
  - (* IWait *)
    cbn [SearchStep.req_ok]. split; [|split; auto]. split; auto.
  - (* ICheck *)
    cbn [SearchStep.req_ok]. split; auto. destruct (state_eqb (cur m s) prev) eqn:E; cbn [negb].
    + apply state_eqb_eq in E. destruct (closed (cur m s)) eqn:Cl.
      * split; [|split; auto]. split; auto.
      * apply after_check_ok; auto. split; auto. split; auto. split; auto. now rewrite E.
    + split; [|split; auto]. split; auto. split; auto. split; auto. right. intros H. apply state_eqb_eq in H. congruence.
  - (* IPrGet *)
    destruct F as (B & Sg). destruct (single_spec s p K Sg) as (Kp & _). cbn [SearchStep.req_ok]. split; auto.
    split; [|split; auto]. split; auto. split; auto. split; auto. now apply (past_cur chash).
  - (* IPrUpper *)
    destruct F as (B & Sg & P). destruct (single_spec s p K Sg) as (Kp & _). pose proof B as (Wk & C & L & Cl).
    destruct (Nat.ltb_spec (hi pst) (hi st)) as [Hu|Hu]; cbn [SearchStep.req_ok].
    + split; auto. split; auto. split; auto. cbn [lo hi]. rewrite C. split; auto. split; [lia|].
      split. { rewrite <- C. now apply (mi_justL chash mhash m I). }
      split. { right. left. destruct Sg as (pol & c & Ec & ->). exists pol, c. split; auto. apply P. }
      intros m' I' T C' O. match goal with |- context [if closed ?a then _ else _] => destruct (closed a) eqn:Cl' end.
      * split; [|split; auto]. split; auto.
      * split; [|split; auto]. split; auto. split; [|split; auto]. { eapply BT; eauto. }
        apply (past_tight mhash m); auto.
    + split; [|split; auto]. split; auto.
  - (* IPrLower *)
    destruct F as (B & Sg & P). destruct (single_spec s p K Sg) as (Kp & _). pose proof B as (Wk & C & L & Cl).
    destruct (Nat.ltb_spec (lo st) (lo pst)) as [Hu|Hu]; cbn [SearchStep.req_ok].
    + split; auto. split; auto. split; auto. cbn [lo hi]. rewrite C. split; [lia|]. split; [lia|].
      split. { apply (single_justL m s p); auto. apply P. }
      split. { rewrite <- C. now apply (mi_justU chash mhash m I). }
      intros m' I' T C' O. split; [|split; auto]. split; auto. split; auto. split; auto. right. intros <-. cbn [lo] in L. lia.
    + split; [|split; [apply Fi|]]. { split; auto. } split. { split; auto. } simpl. auto.
  - exact Logic.I.
  - exact Logic.I.
  - (* IEdge *)
    destruct F as (B & E & done & Ep & Sd). pose proof B as (Wk & C & L & Cl). destruct todo as [|(i, j) todo].
    + cbn [SearchStep.req_ok]. split; [|split; auto]. split; auto. split; auto. split; auto.
      intros t. rewrite Sd. unfold SearchFacts.succs. rewrite Ep, app_nil_r. tauto.
    + assert (Hij : i < channels s /\ j < i). { apply pairs_In. rewrite Ep. apply in_app_iff. right. simpl. auto. }
      destruct Hij as (Hi & Hj). pose proof (comparator_ok s i j K Hi Hj) as Kt.
      assert (Ep' : pairs (channels s) = (done ++ [(i, j)]) ++ todo) by (rewrite <- app_assoc; auto).
      assert (S1 : succ1 s (i, j) = if snd (apply_comparator s i j) then [canon_of chash (fst (apply_comparator s i j))] else []).
      { unfold SearchFacts.succ1. cbn [fst snd]. destruct (apply_comparator s i j) as (t, ch). auto. }
      destruct (apply_comparator s i j) as (t, ch). cbn [fst snd] in *. destruct ch.
      * rewrite (canon_canon_of chash t Kt). destruct (canon_spec chash t Kt) as (t' & inv & p & Ec & Kt' & _).
        assert (E' : canon_of chash t = t') by (unfold SearchFacts.canon_of; now rewrite Ec). rewrite E' in *.
        apply add_edge_ok; auto. intros e' id Ee Se Hid Ht Hle At.
        split; [|split; auto]. split; auto. split; auto. split; auto. exists (done ++ [(i, j)]). split; auto.
        intros x. rewrite Se, Sd, flat_map_app, in_app_iff. cbn [flat_map]. rewrite S1. simpl. intuition.
      * cbn [SearchStep.req_ok]. split; [|split; auto]. split; auto. split; auto. split; auto. exists (done ++ [(i, j)]). split; auto.
        intros x. rewrite Sd, flat_map_app, in_app_iff. cbn [flat_map]. rewrite S1. simpl. intuition.
  - (* IUpper *)
    destruct F as (B & SE). pose proof B as (Wk & C & L & Cl).
    destruct (succ_edges_min m goal s e hi I K Wk SE) as (v & -> & (x & Hx & Ev & Is) & Mn).
    { intros st0 H0. unfold edge_states in H0. apply in_map_iff in H0. destruct H0 as (y & <- & Hy).
      destruct (LE e (proj1 SE) y Hy) as (_ & P). apply P. }
    destruct (LE e (proj1 SE) x Hx) as (Kx & Px).
    destruct (Nat.ltb_spec (v + 1) (hi st)) as [Hu|Hu]; cbn [SearchStep.req_ok].
    + split; auto. split; auto. split; auto. cbn [lo hi]. rewrite C. split; auto. split; [lia|].
      split. { rewrite <- C. now apply (mi_justL chash mhash m I). }
      split. { right. right. exists (tg_set x). split; auto. destruct Px as (_ & Px & _). lia. }
      intros m' I' T C' O. match goal with |- context [if closed ?a then _ else _] => destruct (closed a) eqn:Cl' end.
      * split; [|split; auto]. split; auto. split; auto. split; auto. split; auto. apply (EL m' goal goal); auto. apply SE.
      * split; [|split; auto]. split; auto. split. { eapply BT; eauto. } split. apply (EL m' goal goal); auto. apply SE. apply SE.
    + split; [|split; auto]. split; auto.
  - (* ILower *)
    destruct F as (B & SE). pose proof B as (Wk & C & L & Cl).
    destruct (succ_edges_min m goal s e lo I K Wk SE) as (v & -> & (x & Hx & Ev & Is) & Mn).
    { intros st0 H0. unfold edge_states in H0. apply in_map_iff in H0. destruct H0 as (y & <- & Hy).
      destruct (LE e (proj1 SE) y Hy) as (Ky & P). apply (past_lo_le chash mhash m (tg_set y)); auto. }
    destruct (Nat.ltb_spec (lo st) (v + 1)) as [Hu|Hu]; cbn [SearchStep.req_ok].
    + split; [|split; auto]. split; auto. split; auto. split; auto. split; auto.
      intros t Ht. apply SE in Ht. unfold sets in Ht. apply in_map_iff in Ht. destruct Ht as (y & <- & Hy).
      destruct (LE e (proj1 SE) y Hy) as (Ky & P). specialize (Mn y Hy). destruct P as (P & _). lia.
    + split; [|split; auto]. split; auto. split; auto. split; auto. unfold next_start. simpl. apply SE.
  - (* ILowGet *)
    destruct F as (B & SE & Hb & Hs). pose proof B as (Wk & C & L & Cl). cbn [SearchStep.req_ok]. split; auto.
    split; [|split; auto]. split; auto. cbn [lo hi]. rewrite C. auto.
  - (* ILowSet *)
    destruct F as (B & SE & Hb & Hn & Hs). assert (Hh : hi new = hi st) by (rewrite Hn; auto). pose proof B as (Wk & C & L & Cl). cbn [SearchStep.req_ok]. split; auto. split; auto. split; auto.
    rewrite C. split; [lia|]. split; [lia|]. split. { right. split. apply Wk. auto. }
    split. { rewrite Hh, <- C. now apply (mi_justU chash mhash m I). }
    intros m' I' T C' O. split; [|split; auto]. split; auto. split; auto. split; auto. split. right; lia. apply (EL m' goal goal); auto. apply SE.
  - (* INext *)
    destruct F as (B & SE & N). apply next_req_ok; auto. apply SE.
    + intros e' np' goal' L E' S' N'. split; [|split; auto]. split; auto. split; auto. split; auto. split; auto.
      intros t. rewrite S'. apply SE.
    + intros e' E' S'. split; [|split; auto]. split; auto. split; auto. split; auto. intros t. rewrite S'. apply SE.
  - (* IRet *)
    destruct F as (Wk & C & R & E). cbn [SearchStep.req_ok]. exists []. rewrite app_nil_r. split; auto.
    split; [|split; auto]. split; auto. split; auto. split; auto. destruct R as [R|R]; auto. right. intros ->. lia.
  - (* IUnlock *)
    destruct F as (Wk & C & R). cbn [SearchStep.req_ok]. split; auto. split; auto. split; auto. split; auto.
    apply RT; auto. rewrite <- C. now apply (past_cur chash).
Qed.

(* ---- improve_huffman ---- *)
Lemma ids_states e ids l : ids_ok e ids l -> map_opt (edge_state e) ids = Some (map (fun id => tg_state (target_at e id)) ids).
Proof.
  intros (_ & B). induction ids as [|id ids IH]; simpl; auto. destruct (target_at_In e id) as (_ & N). apply B; simpl; auto.
  unfold edge_state at 1. rewrite N. simpl. rewrite IH; auto. intros j Hj. apply B. simpl. auto.
Qed.

Lemma ids_bounds e ids l (g : State -> nat) : ids_ok e ids l -> length l <= 11 ->
  (forall st, In st (edge_states e) -> g st <= 35) ->
  exists r, max_plus_1_huffman (map (fun id => g (tg_state (target_at e id))) ids) = Some r.
Proof.
  intros (A & B) L H. apply huffman_total_small.
  - rewrite map_length. rewrite <- A, map_length in L. auto.
  - intros v Hv. apply in_map_iff in Hv. destruct Hv as (id & <- & Hid). apply H. unfold edge_states. apply in_map.
    apply target_at_In. auto.
Qed.

Lemma prunes_small s pol : okset s -> length (prunes s pol) <= 11.
Proof. intros K. unfold SearchFacts.prunes. rewrite map_length. etransitivity. apply extremal_length. apply K. Qed.

Lemma ids_just m goal s e ids pol lh : map_inv m -> okset s -> edges_ok m goal e -> ids_ok e ids (prunes s pol) ->
  max_plus_1_huffman (map (fun id => lo (tg_state (target_at e id))) ids) = Some lh ->
  exists r, max_plus_1_huffman (map (fun p => lo (cur m p)) (prunes s pol)) = Some r /\ lh <= r.
Proof.
  intros I K E (A & B) H. destruct (huffman_total_small (map (fun p => lo (cur m p)) (prunes s pol))) as (r & Er).
  - rewrite map_length. now apply prunes_small.
  - intros v Hv. apply in_map_iff in Hv. destruct Hv as (p & <- & Hp). destruct (prunes_okset chash s pol p K Hp) as (Kp & _).
    apply (past_lo_le chash mhash m p); auto. now apply (past_cur chash).
  - exists r. split; auto. rewrite <- A, map_map in Er.
    apply (huffman_mono (fun id => lo (tg_state (target_at e id))) (fun id => lo (cur m (tg_set (target_at e id)))) ids); auto.
    intros id Hid. destruct (target_at_In e id (B id Hid)) as (Ix & _). destruct (proj1 E _ Ix) as (_ & (P & _) & _). auto.
Qed.

Lemma ids_ok_grow e e' ids l id t : length (targets e) <= length (targets e') ->
  (forall j, j < length (targets e) -> target_at e' j = target_at e j) -> ids_ok e ids l ->
  ids_ok e' ids l /\ (id < length (targets e') -> tg_set (target_at e' id) = t -> ids_ok e' (ids ++ [id]) (l ++ [t])).
Proof.
  intros L At (A & B). assert (X : ids_ok e' ids l).
  { split. rewrite <- A. apply map_ext_in. intros j Hj. rewrite At; auto. intros j Hj. specialize (B j Hj). lia. }
  split; auto. intros Hid Ht. destruct X as (X1 & X2). split.
  - rewrite map_app. cbn [map]. congruence.
  - intros j Hj. apply in_app_iff in Hj. destruct Hj as [Hj|[<-|[]]]; auto.
Qed.

Lemma huff_req_ok m goal root rest s pc : map_inv m ->
  frame_ok m goal (FHuff s pc) -> fits m root (hd_error rest) (FHuff s pc) -> stack_ok m goal root rest ->
  req_ok m goal root rest (FHuff s pc) (frame_req (FHuff s pc)).
Proof.
  intros I F Ft S. cbn [SearchModel.frame_req]. destruct F as (K & Wk & F).
  apply (fits_huff chash) in Ft. destruct Ft as (prev & lk & st0 & Eb & R).
  assert (Fi : forall m' pc', huff_rel mhash m' s st0 pc' -> fits m' root (hd_error rest) (FHuff s pc')).
  { intros m' pc' H. apply (fits_huff chash). eauto. }
  assert (LG : later_goal goal goal) by (intros t g; auto).
  assert (HE : forall m' st st' ids0 ids1 e, tight m m' -> cur m' s = st' -> huff_edges m goal s st ids0 ids1 e -> huff_edges m' goal s st' ids0 ids1 e).
  { intros m' st st' ids0 ids1 e T C (A & B & D). split; auto. split; auto. apply (edges_ok_later mhash m m' goal goal); auto. }
  assert (SB : forall e, edges_ok m goal e -> forall st, In st (edge_states e) -> lo st <= 35 /\ hi st <= 35).
  { intros e E st H. unfold edge_states in H. apply in_map_iff in H. destruct H as (x & <- & Hx).
    destruct (proj1 E x Hx) as (Kx & P & _). split. apply (past_lo_le chash mhash m (tg_set x)); auto. apply P. }
  assert (HW : forall st ids0 ids1 uh0 uh1 e, huff_edges m goal s st ids0 ids1 e -> same_bounds st st0 ->
            ctl_ok m goal root rest (huff_while s st ids0 ids1 uh0 uh1 e) [] (all_running e)).
  { intros st ids0 ids1 uh0 uh1 e H B. unfold huff_while. destruct (lo st <? hhi st).
    - split; [|split; [apply Fi; auto|auto]]. split; auto.
    - split; [|split; [apply Fi; simpl; auto|auto]]. split; auto. split; auto. destruct H as (A1 & A2 & _). auto. }
  assert (HA : forall m' st ids0 ids1 uh0 uh1 e pol, huff_edges m' goal s st ids0 ids1 e -> same_bounds st st0 ->
            ctl_ok m' goal root rest (huff_after s st ids0 ids1 uh0 uh1 e pol) [] (all_running e)).
  { intros m' st ids0 ids1 uh0 uh1 e pol H B. unfold huff_after. destruct pol.
    - split; [|split; [apply Fi; auto|auto]]. split; auto.
    - split; [|split; [apply Fi; auto|auto]]. split; auto. }
  assert (KeepB : forall st, cur m s = st -> justL m s (lo st) /\ justU m s (hi st)).
  { intros st <-. split. now apply (mi_justL chash mhash m I). now apply (mi_justU chash mhash m I). }
  destruct pc; cbn [huff_req].
  - (* HGet *)
    cbn [huff_rel] in R. cbn [SearchStep.req_ok]. split; auto. destruct (hhi (cur m s) <=? lo (cur m s)).
    + eapply huff_return; eauto. right. rewrite R. split; auto.
    + split; [|split; [apply Fi; simpl; rewrite R; split; auto|auto]]. split; auto. split; auto. split; auto. split.
      { split; [|split]. intros x []. constructor. intros id []. }
      exists [], (extremal_channels s false), [], (extremal_channels s true). split; auto. split; auto. split; auto.
      split; (split; [auto|intros id []]).
  - (* HEdge *)
    cbn [huff_rel] in R. destruct F as (C & E & d0 & r0 & d1 & r1 & E0 & E1 & Et & I0 & I1).
    destruct todo as [|(pol, c) todo].
    + cbn [SearchStep.req_ok]. apply HW; auto. split; auto. split; auto.
      symmetry in Et. apply app_eq_nil in Et. destruct Et as (T0 & T1). apply map_eq_nil in T0, T1. subst r0 r1.
      rewrite app_nil_r in E0, E1. unfold SearchFacts.prunes. rewrite E0, E1. auto.
    + assert (Ic : In c (extremal_channels s pol)).
      { assert (X : In (pol, c) (map (pair false) r0 ++ map (pair true) r1)) by (rewrite <- Et; simpl; auto).
        apply in_app_iff in X. destruct X as [X|X]; apply in_map_iff in X; destruct X as (c' & Ec & Hc); injection Ec as <- <-;
          rewrite ?E0, ?E1; apply in_app_iff; auto. }
      destruct (prune_of_spec chash s pol c K Ic) as (-> & Kp & _).
      apply add_edge_ok; auto. intros e' id E' _ Hid Hset Hle At.
      destruct r0 as [|c0 r0].
      * destruct r1 as [|c1 r1]; [discriminate|]. cbn in Et. injection Et as -> -> ->.
        split; [|split; [apply Fi; auto|auto]]. split; auto. split; auto. split; auto. split; auto.
        exists d0, [], (d1 ++ [c1]), r1. split; auto. split. { rewrite <- app_assoc. auto. } split; auto.
        rewrite map_app. cbn [map].
        destruct (ids_ok_grow e e' _ _ id (prune_of s true c1) Hle At I0). destruct (ids_ok_grow e e' _ _ id (prune_of s true c1) Hle At I1). auto.
      * cbn in Et. injection Et as -> -> ->.
        split; [|split; [apply Fi; auto|auto]]. split; auto. split; auto. split; auto. split; auto.
        exists (d0 ++ [c0]), r0, d1, r1. split. { rewrite <- app_assoc. auto. } split; auto. split; auto.
        rewrite map_app. cbn [map].
        destruct (ids_ok_grow e e' _ _ id (prune_of s false c0) Hle At I0). destruct (ids_ok_grow e e' _ _ id (prune_of s false c0) Hle At I1). auto.
  - (* HPol *)
    cbn [huff_rel] in R. pose proof F as (C & E & I0 & I1).
    destruct (lo st <? (if pol then uh1 else uh0)).
    + assert (Ip : ids_ok e (if pol then ids1 else ids0) (prunes s pol)) by (destruct pol; auto).
      rewrite (ids_states _ _ _ Ip).
      destruct (ids_bounds e _ _ lo Ip (prunes_small s pol K)) as (lh & Hl). { intros x Hx. now apply (SB e E). }
      destruct (ids_bounds e _ _ hi Ip (prunes_small s pol K)) as (uh & Hu). { intros x Hx. now apply (SB e E). }
      cbn beta iota. rewrite !map_map, Hl, Hu.
      destruct (ids_just m goal s e _ pol lh I K E Ip Hl) as (r & Er & Hr).
      destruct (uh <=? lo st).
      * destruct (retain_edges _ e) as (e', dropped) eqn:Ee.
        destruct (retain_edges_spec mhash m goal _ e e' dropped E Ee) as (E' & S' & P').
        cbn [SearchStep.req_ok]. exists (all_running e'). split; auto.
        split; [|split; [apply Fi; auto|auto]]. split; auto. split; auto. split; [|eauto].
        split; auto. split; auto. split; apply (ids_ok_sets e e'); auto.
      * cbn [SearchStep.req_ok]. split; [|split; [apply Fi; auto|auto]]. split; auto. split; auto. split; [|eauto].
        split; auto.
    + cbn [SearchStep.req_ok]. apply HA; auto.
  - (* HPolSet *)
    cbn [huff_rel] in R. destruct F as (F & pl & r & Er & Hr). pose proof F as (C & E & I0 & I1).
    destruct (KeepB st C) as (JL & JU).
    destruct (hlo st <? lh).
    + destruct (Nat.ltb_spec (lo st) lh) as [Hl|Hl]; cbn [SearchStep.req_ok].
      * split; auto. split; auto. split; auto. cbn [lo hi]. rewrite C. split; [lia|]. split; auto.
        split. { right. split. apply Wk. right. left. eauto. } split; auto.
        intros m' I' T C' O. split; [|split; [apply Fi|auto]].
        { split; auto. split; auto. split; auto. apply (edges_ok_later mhash m m' goal goal); auto. }
        { left. cbn [lo]. destruct R. lia. }
      * split; auto. split; auto. split; auto. cbn [lo hi]. rewrite C. split; auto. split; auto. split; auto. split; auto.
        intros m' I' T C' O. apply HA. { eapply HE; eauto. } exact R.
    + cbn [SearchStep.req_ok]. apply HA; auto.
  - (* HMax *)
    cbn [huff_rel] in R. pose proof F as (C & E & I0 & I1). destruct (KeepB st C) as (JL & JU).
    destruct (Nat.max uh0 uh1 <? hhi st); cbn [SearchStep.req_ok].
    + split; auto. split; auto. split; auto. cbn [lo hi]. rewrite C. split; auto. split; auto. split; auto. split; auto.
      intros m' I' T C' O. split; [|split; [apply Fi; exact R|auto]]. split; auto. split; auto. split. { eapply HE; eauto. } simpl. apply E.
    + split; [|split; [apply Fi; exact R|auto]]. split; auto. split; auto. split; auto. simpl. apply E.
  - (* HNext *)
    cbn [huff_rel] in R. destruct F as (F & N). pose proof F as (C & E & I0 & I1). apply next_req_ok; auto.
    + intros e' np' goal' L E' S' N'. split; [|split; [apply Fi; exact R|auto]]. split; auto. split; auto. split; auto.
      split; auto. split; auto. split; apply (ids_ok_sets e e'); auto.
    + intros e' E' S'. apply HW; auto. split; auto. split; auto. split; apply (ids_ok_sets e e'); auto.
  - (* HRet *)
    cbn [huff_rel] in R. destruct F as (C & E). cbn [SearchStep.req_ok]. exists []. rewrite app_nil_r. split; auto.
    eapply huff_return; eauto.
Qed.

Theorem frame_req_ok m goal root rest f : map_inv m ->
  frame_ok m goal f -> fits m root (hd_error rest) f -> stack_ok m goal root rest -> req_ok m goal root rest f (frame_req f).
Proof. destruct f. apply main_req_ok. apply imp_req_ok. apply huff_req_ok. Qed.
End Frames.
