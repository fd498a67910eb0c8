(* More facts about single frames: what the loops of improve and improve_huffman know when they go round. *)
From Coq Require Import List Arith Bool Lia Permutation.
Import ListNotations.
From Verif Require Import Spec Vec Net Graded Bits Util CountProofs OutputSetModel OutputSetProofs PruneProofs PackProofs HuffmanModel HuffmanProofs CanonModel TreeModel StatesModel StatesProofs StatesBounds SearchModel SearchFacts SearchInv SearchEdges SearchStep SearchFrames SearchGlobal SearchRun SearchSafe SearchOrder SearchWaits SearchMain SearchClosed SearchSlack SearchGood IndexProofs.

(* the ids that improve_next still visits are active *)
Definition np_in (e : Edges) (np : NextPc) : Prop :=
  match np with
  | NPoll ids _ _ _ => incl ids (active e)
  | NPend => True
  | NSpawn _ ids _ => incl ids (active e)
  | NSched ids _ _ => incl ids (active e)
  end.

(* one of the edges ids is active and not closed *)
Definition open_on (e : Edges) (ids : list nat) : Prop :=
  exists id, In id ids /\ In id (active e) /\ closed (tg_state (target_at e id)) = false.

(* the same; the other case does not happen, which is known for states of the map *)
Definition open_in (st : State) (e : Edges) (ids : list nat) : Prop := open_on e ids \/ lo st < hlo st.

Definition ready_frame (f : Frame) : Prop :=
  match f with
  | FMain _ _ _ => True
  | FImp prev _ pc => closed prev = false /\
      match pc with
      | IPrLower _ st _ pst => hi st <= hi pst
      | ILower _ st e => forall x, In x (targets e) -> hi st <= hi (tg_state x) + 1
      | INext _ _ e np => np_in e np
      | _ => True
      end
  | FHuff _ pc =>
      match pc with
      | HPol st ids0 ids1 uh0 uh1 e pol => lo st < hhi st /\ (pol = true -> lo st < uh0 -> open_in st e ids0)
      | HPolSet st ids0 ids1 uh0 uh1 e pol lh => lo st < hhi st /\
          (if pol then (lo st < uh0 -> open_in st e ids0) /\ (lo st < uh1 -> open_on e ids1 \/ lo st < lh)
           else lo st < uh0 -> open_on e ids0 \/ lo st < lh)
      | HMax st ids0 ids1 uh0 uh1 e => lo st < hhi st /\ (lo st < uh0 -> open_in st e ids0) /\ (lo st < uh1 -> open_in st e ids1)
      | HNext _ _ _ _ _ e np => np_in e np
      | _ => True
      end
  end.
Definition cr_frame (f : Frame) : Prop := cov_frame f /\ ready_frame f.

Lemma set_target_active e id h : active (set_target e id h) = active e.
Proof. reflexivity. Qed.
Lemma ctl_all_and (P Q : Frame -> Prop) k : ctl_all P k -> ctl_all Q k -> ctl_all (fun f => P f /\ Q f) k.
Proof. destruct k; cbn; tauto. Qed.
Lemma req_all_and (P Q : Frame -> Prop) r : req_all P r -> req_all Q r -> req_all (fun f => P f /\ Q f) r.
Proof.
  destruct r; cbn [req_all]; intros A B; auto using ctl_all_and.
  - destruct A, B. split; intros; apply ctl_all_and; auto.
  - destruct A, B. split. split; auto. intros; apply ctl_all_and; auto.
Qed.

Section Ready.
Variables chash mhash : list nat -> nat.
Notation cur := (cur mhash).
Notation map_inv := (map_inv chash mhash).
Notation Inv := (Inv chash mhash).
Notation frame_req := (frame_req chash).
Notation frame_ok := (frame_ok chash mhash).
Notation edges_ok := (edges_ok mhash).
Notation sys_step := (sys_step chash mhash).
Notation search_run := (search_run chash mhash).


Lemma sort_active_In' order e id : In id (active (sort_active order e)) <-> In id (active e).
Proof. unfold sort_active. cbn [active]. split; apply Permutation_in; [|apply Permutation_sym]; apply isort_perm'. Qed.

Lemma next_req_ready order e np go done : np_in e np ->
  (forall e' np', np_in e' np' -> ready_frame (go e' np')) -> (forall e', ctl_all ready_frame (done e')) ->
  req_all ready_frame (next_req order e np go done).
Proof.
  intros N G D. destruct np as [ids fin nr b| |i ids b|ids b t]; cbn [next_req np_in] in *.
  - destruct ids as [|id ids].
    + cbn [req_all]. destruct (retain_closed e) as [e'|]; [|exact Logic.I]. destruct (fin || _); auto.
      destruct (b && _); cbn [ctl_all]; apply G; cbn [np_in]; auto. apply incl_refl.
    + assert (N' : incl ids (active e)) by (intros a Ha; apply N; now right).
      destruct (nth_error (targets e) id) as [x|] eqn:Nx; [|exact Logic.I]. destruct (tg_run x) eqn:Rx; cbn [req_all ctl_all]; [|apply G; auto].
      intros [v|] b'; apply G; auto.
  - cbn [req_all ctl_all]. apply G. cbn [np_in]. apply incl_refl.
  - destruct ids as [|id ids]. cbn [req_all ctl_all]. apply G; cbn [np_in]. apply incl_refl.
    assert (N' : incl ids (active e)) by (intros a Ha; apply N; now right).
    destruct (nth_error (targets e) id) as [x|] eqn:Nx; [|exact Logic.I]. destruct (tg_run x).
    + destruct (i =? 0); cbn [req_all ctl_all]; apply G; auto.
    + destruct (closed (tg_state x)) eqn:Ec; [exact Logic.I|]. cbn [req_all]. split. split; auto. intros u. cbn [ctl_all].
      apply G. destruct (i =? 0); cbn [np_in]; auto.
  - cbn [req_all ctl_all]. apply G. auto.
Qed.
Lemma add_edge_ready e t k : (forall e' id, ctl_all ready_frame (k e' id)) -> req_all ready_frame (add_edge_req e t k).
Proof. intros H. unfold add_edge_req. destruct (find_target t (targets e) 0); cbn [req_all]; auto. intros st. destruct (push_target e t st). auto. Qed.
Lemma after_check_ready prev s lk st : closed prev = false -> ctl_all ready_frame (after_check chash prev s lk st).
Proof.
  intros Hc. assert (AE : ctl_all ready_frame (after_extremal prev s lk st)) by (unfold after_extremal; destruct (lo st <? hhi st); cbn; auto).
  unfold after_check. destruct (extremal_channels s false) as [|c0 [|c1 l]], (extremal_channels s true) as [|d0 [|d1 l']]; auto;
    match goal with |- context [prune_canon ?a ?b ?c ?d] => destruct (prune_canon a b c d); cbn; auto end.
Qed.

Lemma state_order m s : map_inv m -> okset s -> lo (cur m s) <= hi (cur m s).
Proof. intros I K. destruct (mi_valid chash mhash _ I s K) as (L & U). exact (lower_upper _ _ _ _ L U). Qed.

(* the huffman bound of lower bounds equals that of upper bounds if all edges are closed *)
Lemma open_on_huff e ids lh uh : max_plus_1_huffman (map lo (map (fun id => tg_state (target_at e id)) ids)) = Some lh ->
  max_plus_1_huffman (map hi (map (fun id => tg_state (target_at e id)) ids)) = Some uh -> lh < uh -> cov_on e ids -> open_on e ids.
Proof.
  intros Elh Euh L Ci.
  destruct (existsb (fun id => negb (closed (tg_state (target_at e id)))) ids) eqn:Ex.
  - apply existsb_exists in Ex. destruct Ex as (id & Hi & Hc). apply negb_true_iff in Hc. exists id. split; auto. split; auto.
    destruct (Ci id Hi); auto. congruence.
  - exfalso. rewrite !map_map in *. assert (E : map (fun id => lo (tg_state (target_at e id))) ids = map (fun id => hi (tg_state (target_at e id))) ids).
    { apply map_ext_in. intros id Hi. destruct (closed (tg_state (target_at e id))) eqn:Ecl. now apply Nat.eqb_eq in Ecl.
      exfalso. assert (Y : existsb (fun id => negb (closed (tg_state (target_at e id)))) ids = true). { apply existsb_exists. exists id. rewrite Ecl. auto. } congruence. }
    rewrite E in Elh. rewrite Elh in Euh. injection Euh as ->. lia.
Qed.
Lemma open_on_retain keep e e' dr ids : retain_edges keep e = (e', dr) -> (forall id, In id ids -> keep id = true) -> open_on e ids -> open_on e' ids.
Proof.
  intros E K (id & Hi & Ha & Hc). unfold retain_edges in E. injection E as <- _.
  fold (stops (filter (fun id => negb (keep id)) (active e)) (mkEdges (targets e) (filter keep (active e)))).
  exists id. split; auto. split. rewrite stops_active. cbn [active]. apply filter_In. auto. rewrite stops_state. exact Hc.
Qed.

Lemma ready_req m goal f : map_inv m -> frame_ok m goal f -> cr_frame f -> req_all ready_frame (frame_req f).
Proof.
  intros IM F (Cv & S). destruct f as [s lim pc|prev s pc|s pc]; cbn [SearchModel.frame_req].
  - destruct pc; cbn [main_req req_all]; try exact Logic.I; intros; try exact Logic.I.
    destruct (closed st) eqn:Ec; cbn [orb]. exact Logic.I. destruct (match lim with Some l => _ | None => _ end); cbn; auto.
  - destruct F as (K & F). destruct S as (Sc & S).
    destruct pc; cbn [imp_req]; try exact Logic.I.
    + cbn [req_all]. intros st. destruct (negb _); [exact Logic.I|]. destruct (closed st); cbn; auto.
    + cbn [req_all]. split; intros; cbn; auto.
    + cbn; auto.
    + cbn [req_all]. intros st. destruct (negb _). cbn; auto. destruct (closed st). cbn; auto. now apply after_check_ready.
    + cbn [req_all]. intros. cbn; auto.
    + destruct (Nat.ltb_spec (hi pst) (hi st)); cbn [req_all]; [match goal with |- ctl_all _ (if ?a then _ else _) => destruct a end|]; cbn; auto.
    + destruct (Nat.ltb_spec (lo st) (lo pst)) as [Hl|Hl]; cbn [req_all ctl_all]; cbn; auto. split; auto. split; auto.
      destruct F as ((Wk & Ec & _ & Cl) & _ & _). apply Nat.eqb_neq in Cl. apply Nat.eqb_neq.
      pose proof (state_order m s IM K) as O. rewrite Ec in O. lia.
    + destruct todo as [|(i, j) todo]; [cbn; auto|]. destruct (apply_comparator s i j) as (t, ch) eqn:Ea. destruct ch; [|cbn; auto].
      destruct (canon chash t) as [t'|] eqn:Et; [|exact Logic.I]. apply add_edge_ready. intros e' id. cbn; auto.
    + destruct (m0 <- list_min (map hi (edge_states e));; u8_succ m0) as [ub|] eqn:Eu; [|exact Logic.I].
      assert (M : forall x, In x (targets e) -> ub <= hi (tg_state x) + 1).
      { intros x Hx. assert (Hh : In (hi (tg_state x)) (map hi (edge_states e))). { unfold edge_states. rewrite map_map. apply in_map_iff. eauto. }
        destruct (list_min_spec (map hi (edge_states e))) as (v & Ev & _ & Mv). { intros E0. rewrite E0 in Hh. destruct Hh. }
        rewrite Ev in Eu. cbv beta iota in Eu. unfold u8_succ in Eu. destruct (v + 1 <=? 255); [|discriminate]. injection Eu as <-. specialize (Mv _ Hh). lia. }
      destruct (Nat.ltb_spec ub (hi st)); cbn [req_all]; [match goal with |- ctl_all _ (if ?a then _ else _) => destruct a end|]; cbn; auto. split; auto. intros x Hx. specialize (M x Hx). lia.
    + destruct (m0 <- list_min (map lo (edge_states e));; u8_succ m0) as [ub|]; [|exact Logic.I].
      destruct (lo st <? ub); cbn; auto. split; auto. apply incl_refl.
    + cbn [req_all]. intros. cbn; auto.
    + cbn; auto.
    + apply next_req_ready; auto; intros; cbn; auto.
    + cbn; auto.
  - destruct F as (K & Wk & F).
    assert (HW : forall st ids0 ids1 uh0 uh1 e, ctl_all ready_frame (huff_while s st ids0 ids1 uh0 uh1 e)).
    { intros st ids0 ids1 uh0 uh1 e. unfold huff_while. destruct (Nat.ltb_spec (lo st) (hhi st)); cbn; auto. split; auto. discriminate. }
    destruct pc; cbn [huff_req]; try exact Logic.I.
    + cbn [req_all]. intros st. destruct (hhi st <=? lo st); exact Logic.I.
    + destruct todo as [|(pol, c) todo]; [apply HW|].
      destruct (prune_canon chash s pol c) as [t|] eqn:Et; [|exact Logic.I]. apply add_edge_ready. intros e' id. destruct pol; exact Logic.I.
    + cbn in S. destruct S as (Sl & S). destruct Cv as (C0 & C1). destruct F as (_ & _ & I0 & I1).
      destruct (Nat.ltb_spec (lo st) (if pol then uh1 else uh0)) as [Hl|Hl].
      2: { destruct pol; cbn; repeat split; auto; intros; try lia. }
      assert (Ii : exists l, ids_ok e (if pol then ids1 else ids0) l) by (destruct pol; eauto). destruct Ii as (l & Ii).
      rewrite (ids_states e _ l Ii). cbv beta iota.
      destruct (max_plus_1_huffman (map lo (map (fun id => tg_state (target_at e id)) (if pol then ids1 else ids0)))) as [lh|] eqn:Elh; [|exact Logic.I].
      destruct (max_plus_1_huffman (map hi (map (fun id => tg_state (target_at e id)) (if pol then ids1 else ids0)))) as [uh|] eqn:Euh; [|exact Logic.I].
      cbv beta iota.
      assert (X : forall id l, In id l -> existsb (Nat.eqb id) l = true).
      { intros id l0 H. apply existsb_exists. exists id. split; auto. apply Nat.eqb_refl. }
      assert (Op : lo st < uh -> open_on e (if pol then ids1 else ids0) \/ lo st < lh).
      { intros Hu. destruct (Nat.lt_ge_cases (lo st) lh) as [|Hlh]; [now right|left]. apply (open_on_huff e _ lh uh); auto. lia.
        destruct pol; auto. }
      destruct (Nat.leb_spec uh (lo st)) as [Hu|Hu].
      * destruct (retain_edges _ e) as (e', dr) eqn:Er. cbn [req_all ctl_all ready_frame]. split; auto.
        destruct pol; [split|]; intros H; try lia. destruct (S eq_refl H) as [S1|S1]; [left|right; auto]. apply (open_on_retain _ e e' dr ids0 Er); auto.
      * cbn [req_all ctl_all ready_frame]. split; auto. destruct pol; auto.
    + cbn in S. destruct S as (Sl & S).
      destruct (Nat.ltb_spec (hlo st) lh) as [H1|H1]; [destruct (Nat.ltb_spec (lo st) lh) as [H2|H2]; [exact Logic.I|]|]; unfold huff_after;
        destruct pol; cbn; unfold open_in in *; cbn [lo hlo hhi].
      all: repeat match goal with X : _ /\ _ |- _ => destruct X end; repeat split; auto; intros;
        repeat match goal with H : ?v < ?u, X : ?v < ?u -> _ \/ _ |- _ => destruct (X H); clear X end; auto; try lia; right; lia.
    + destruct (Nat.max uh0 uh1 <? hhi st); cbn; apply incl_refl.
    + cbn in S. apply next_req_ready; auto.
Qed.
Lemma ready_resume f v f' : resume f v = Some f' -> ready_frame f -> ready_frame f'.
Proof.
  destruct f as [s lim pc|prev s pc|s pc]; try discriminate; destruct pc; try discriminate; cbn [resume].
  - intros H _. injection H as <-. exact Logic.I.
  - intros H (A & _). injection H as <-. cbn; auto.
  - destruct (lo st <? lo v); intros H (A & _); injection H as <-; cbn; auto.
Qed.

Lemma cr_req m goal f : map_inv m -> frame_ok m goal f -> cr_frame f -> req_all cr_frame (frame_req f).
Proof. intros I F C. apply req_all_and. apply (cov_req chash mhash m goal); auto. apply C. now apply (ready_req m goal). Qed.
Lemma cr_resume f v f' : resume f v = Some f' -> cr_frame f -> cr_frame f'.
Proof. intros E (A & B). split. eapply cov_resume; eauto. eapply ready_resume; eauto. Qed.

Record Ready (c : Config) : Prop := {
  rd_good : Good chash mhash c;
  rd_frames : all_frames cr_frame c }.
Lemma ready_step c c' : Ready c -> sys_step c c' -> Ready c'.
Proof.
  intros (G & A) H. constructor. now apply (good_step chash mhash c c').
  apply (step_all chash mhash cr_frame cr_req cr_resume c c'); auto. apply (gd_inv _ _ c G).
Qed.
Lemma run_ready threads initial limit c : okset initial -> search_run threads initial limit c -> Ready c.
Proof.
  intros K H. induction H as [c H|c c' H IH Hs]; [|now apply (ready_step c)]. constructor.
  - apply (run_good chash mhash threads initial limit); auto. now constructor.
  - unfold search_start in H. destruct (canon chash initial) as [i|]; [|discriminate]. cbn in H. injection H as <-.
    intros f Hf. cbn in Hf. destruct Hf as [<-|[]]. split; exact Logic.I.
Qed.
End Ready.
