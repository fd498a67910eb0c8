(* Facts about the operations on Edges and about improve_next. *)
From Coq Require Import List Arith Bool Lia Permutation.
Import ListNotations.
From Verif Require Import Spec Vec Net Graded Bits Util OutputSetModel OutputSetProofs PruneProofs PackProofs HuffmanModel HuffmanProofs CanonModel TreeModel StatesModel StatesProofs StatesBounds SearchModel SearchFacts SearchInv.

Lemma upd_split {A} (l : list A) i x v : nth_error l i = Some x ->
  exists l1 l2, l = l1 ++ x :: l2 /\ length l1 = i /\ upd l i v = l1 ++ v :: l2.
Proof.
  revert i. induction l as [|a l IH]; intros [|i] H; try discriminate; simpl in H.
  - injection H as ->. exists [], l. auto.
  - destruct (IH i H) as (l1 & l2 & E & L & U). exists (a :: l1), l2. simpl. rewrite U, <- L, E. auto.
Qed.

Lemma nth_error_upd {A} (l : list A) i v j : nth_error (upd l i v) j = if (j =? i) && (i <? length l) then Some v else nth_error l j.
Proof.
  revert i j. induction l as [|a l IH]; intros i j.
  - simpl. rewrite andb_false_r. destruct j; auto.
  - destruct i, j; cbn [upd nth_error length]; auto. rewrite IH. auto.
Qed.

Lemma nth_error_upd_eq {A} (l : list A) i v : i < length l -> nth_error (upd l i v) i = Some v.
Proof. intros H. rewrite nth_error_upd, Nat.eqb_refl. apply Nat.ltb_lt in H. now rewrite H. Qed.
Lemma nth_error_upd_neq {A} (l : list A) i v j : j <> i -> nth_error (upd l i v) j = nth_error l j.
Proof. intros H. rewrite nth_error_upd. apply Nat.eqb_neq in H. now rewrite H. Qed.

Lemma nth_error_lt {A} (l : list A) i x : nth_error l i = Some x -> i < length l.
Proof. intros H. apply nth_error_Some. congruence. Qed.

Lemma fold_min_spec l : forall a, In (fold_left Nat.min l a) (a :: l) /\ forall x, In x (a :: l) -> fold_left Nat.min l a <= x.
Proof.
  induction l as [|b l IH]; intros a; cbn [fold_left].
  - split. now left. intros x [<-|[]]; auto.
  - destruct (IH (Nat.min a b)) as (I & H). split.
    + destruct I as [I|I]; [|right; now right]. rewrite <- I. destruct (Nat.le_ge_cases a b).
      * left. lia.
      * right. left. lia.
    + pose proof (H _ (or_introl eq_refl)). intros x [<-|[<-|Hx]]; [lia|lia|]. apply H. now right.
Qed.

Lemma list_min_spec l : l <> [] -> exists v, list_min l = Some v /\ In v l /\ forall x, In x l -> v <= x.
Proof.
  destruct l as [|a l]; [congruence|]. intros _. exists (fold_left Nat.min l a). split; [reflexivity|]. apply fold_min_spec.
Qed.

Lemma target_at_nth e id x : nth_error (targets e) id = Some x -> target_at e id = x.
Proof. intros H. unfold target_at. now apply nth_error_nth. Qed.
Lemma target_at_In e id : id < length (targets e) -> In (target_at e id) (targets e) /\ nth_error (targets e) id = Some (target_at e id).
Proof.
  intros H. split. now apply nth_In. unfold target_at. now apply nth_error_nth'.
Qed.

Lemma sets_at e e' id : sets e' = sets e -> tg_set (target_at e' id) = tg_set (target_at e id).
Proof.
  intros H. unfold target_at. rewrite <- !(map_nth tg_set). fold (sets e) (sets e'). now rewrite H.
Qed.
Lemma sets_length e e' : sets e' = sets e -> length (targets e') = length (targets e).
Proof. unfold sets. intros H. apply (f_equal (@length _)) in H. now rewrite !map_length in H. Qed.

Lemma ids_ok_sets e e' ids l : sets e' = sets e -> ids_ok e ids l -> ids_ok e' ids l.
Proof.
  intros H (A & B). split.
  - rewrite <- A. apply map_ext. intros. now apply sets_at.
  - rewrite (sets_length e e' H). auto.
Qed.

Lemma set_target_sets e id f : (forall x, tg_set (f x) = tg_set x) -> sets (set_target e id f) = sets e.
Proof.
  intros H. unfold sets, set_target. cbn [targets]. destruct (nth_error (targets e) id) as [x|] eqn:E; auto.
  destruct (upd_split _ _ _ (f x) E) as (l1 & l2 & -> & _ & ->). rewrite !map_app. cbn [map]. now rewrite H.
Qed.

Lemma set_target_In e id f x y : nth_error (targets e) id = Some x -> In y (targets (set_target e id f)) -> y = f x \/ In y (targets e).
Proof.
  intros E. unfold set_target. cbn [targets]. rewrite E. destruct (upd_split _ _ _ (f x) E) as (l1 & l2 & -> & _ & ->).
  rewrite !in_app_iff. simpl. intuition.
Qed.

Lemma set_target_at e id f j : target_at (set_target e id f) j =
  if (j =? id) && (id <? length (targets e)) then f (target_at e id) else target_at e j.
Proof.
  unfold set_target. destruct (nth_error (targets e) id) as [x|] eqn:E.
  - unfold target_at at 1. cbn [targets]. rewrite upd_nth. rewrite (target_at_nth e id x E). auto.
  - apply nth_error_None in E. destruct (Nat.ltb_spec id (length (targets e))); [lia|]. rewrite andb_false_r. auto.
Qed.

Definition run_list (x : Target) : list nat := match tg_run x with Some t => [t] | None => [] end.

Lemma all_running_set e id f x : nth_error (targets e) id = Some x ->
  Permutation (run_list (f x) ++ all_running e) (run_list x ++ all_running (set_target e id f)).
Proof.
  intros E. unfold all_running, set_target. cbn [targets]. rewrite E.
  destruct (upd_split _ _ _ (f x) E) as (l1 & l2 & -> & _ & ->). rewrite !flat_map_app. cbn [flat_map].
  fold (run_list x) (run_list (f x)). set (a := flat_map _ l1). set (b := flat_map _ l2).
  rewrite !app_assoc. apply Permutation_app_tail. rewrite <- !app_assoc.
  rewrite (Permutation_app_comm a (run_list x)), (Permutation_app_comm a (run_list (f x))), !app_assoc.
  apply Permutation_app_tail. apply Permutation_app_comm.
Qed.

Lemma running_In e t : In t (all_running e) -> exists x, In x (targets e) /\ tg_run x = Some t.
Proof.
  unfold all_running. rewrite in_flat_map. intros (x & Hx & H). exists x. split; auto. destruct (tg_run x); simpl in H; [|tauto].
  destruct H as [->|[]]; auto.
Qed.
Lemma In_running e x t : In x (targets e) -> tg_run x = Some t -> In t (all_running e).
Proof. intros H E. unfold all_running. rewrite in_flat_map. exists x. rewrite E. simpl. auto. Qed.

Lemma running_of_at e id : id < length (targets e) -> running_of e id = run_list (target_at e id).
Proof. intros H. destruct (target_at_In e id H) as (_ & E). unfold running_of. rewrite E. auto. Qed.

Lemma flat_map_ext_on {A B} (f g : A -> list B) l : (forall x, In x l -> f x = g x) -> flat_map f l = flat_map g l.
Proof.
  induction l as [|a l IH]; intros H; simpl; auto. rewrite (H a (or_introl eq_refl)), IH; auto. intros x Hx. apply H. now right.
Qed.

(* ---- retain_edges ---- *)
Definition stops (D : list nat) (e : Edges) : Edges := fold_left (fun e id => set_target e id stop_target) D e.

Lemma stops_sets D : forall e, sets (stops D e) = sets e.
Proof. induction D as [|d D IH]; intros e; simpl; auto. unfold stops in *. rewrite IH. apply set_target_sets. auto. Qed.
Lemma stops_active D : forall e, active (stops D e) = active e.
Proof. induction D as [|d D IH]; intros e; simpl; auto. unfold stops in *. rewrite IH. auto. Qed.
Lemma stops_kids D : forall e, NoDup D -> (forall d, In d D -> d < length (targets e)) ->
  Permutation (all_running e) (flat_map (running_of e) D ++ all_running (stops D e)).
Proof.
  induction D as [|d D IH]; intros e N H; simpl; auto. inversion N as [|? ? N1 N2]; subst.
  assert (Hd : d < length (targets e)) by (apply H; simpl; auto).
  destruct (target_at_In e d Hd) as (_ & E).
  pose proof (all_running_set e d stop_target _ E) as P. cbn [run_list stop_target tg_run app] in P.
  etransitivity. exact P. rewrite <- app_assoc. rewrite (running_of_at e d Hd). apply Permutation_app_head.
  assert (L : length (targets (set_target e d stop_target)) = length (targets e)).
  { apply sets_length. apply set_target_sets. auto. }
  etransitivity. apply (IH (set_target e d stop_target)); auto. { intros j Hj. rewrite L. apply H. simpl. auto. }
  apply Permutation_app_tail. rewrite (flat_map_ext_on _ (running_of e)). reflexivity.
  intros j Hj. rewrite !running_of_at; [|apply H; simpl; auto|rewrite L; apply H; simpl; auto].
  rewrite set_target_at. destruct (Nat.eqb_spec j d); [subst; tauto|]. auto.
Qed.

Section Edges.
Variables chash mhash : list nat -> nat.
Notation cur := (cur mhash).
Notation map_inv := (map_inv chash mhash).
Notation past := (past mhash).
Notation edges_ok := (edges_ok mhash).
Notation target_ok := (target_ok mhash).

Lemma stops_ok m goal D : forall e, edges_ok m goal e -> edges_ok m goal (stops D e).
Proof.
  induction D as [|d D IH]; intros e H; simpl; auto. unfold stops in *. apply IH.
  destruct H as (A & B & C). split; [|split; auto].
  - intros x Hx. destruct (nth_error (targets e) d) as [y|] eqn:E.
    + destruct (set_target_In _ _ _ _ _ E Hx) as [->|Hy]; auto.
      destruct (A y) as (K & P & _). { eapply nth_error_In; eauto. } split; auto. split; auto. split; auto. discriminate.
    + unfold set_target in Hx. rewrite E in Hx. auto.
  - intros id Hid. rewrite (sets_length e); [|now apply set_target_sets]. apply C. auto.
Qed.

Lemma retain_edges_spec m goal keep e e' dropped : edges_ok m goal e -> retain_edges keep e = (e', dropped) ->
  edges_ok m goal e' /\ sets e' = sets e /\ Permutation (all_running e) (dropped ++ all_running e').
Proof.
  intros (A & B & C) H. unfold retain_edges in H. injection H as <- <-.
  set (D := filter (fun id => negb (keep id)) (active e)). set (e0 := mkEdges (targets e) (filter keep (active e))).
  fold (stops D e0).
  assert (K0 : edges_ok m goal e0).
  { split; auto. cbn [active e0 targets]. split. now apply NoDup_filter. intros id H. apply filter_In in H. apply C, H. }
  split; [|split].
  - now apply stops_ok.
  - rewrite stops_sets. auto.
  - apply (stops_kids D e0). now apply NoDup_filter. intros d Hd. apply C. apply filter_In in Hd. apply Hd.
Qed.

(* ---- add_edge ---- *)
Lemma find_target_spec t l i id : (forall x, In x l -> wf (tg_set x)) -> wf t -> find_target t l i = Some id ->
  i <= id /\ exists x, nth_error l (id - i) = Some x /\ tg_set x = t.
Proof.
  revert i. induction l as [|x l IH]; intros i Hw W H; simpl in H; [discriminate|].
  destruct (os_eqb (tg_set x) t) eqn:E.
  - injection H as <-. split; auto. exists x. rewrite Nat.sub_diag. simpl. split; auto. apply os_eqb_eq; auto. apply Hw. simpl. auto.
  - apply IH in H; auto. { destruct H as (L & y & Ny & Ey). split; [lia|]. exists y. replace (id - i) with (S (id - S i)) by lia. auto. }
    intros y Hy. apply Hw. simpl. auto.
Qed.

Lemma push_target_spec m goal e t st e' id : edges_ok m goal e -> okset t -> past m t st -> push_target e t st = (e', id) ->
  edges_ok m goal e' /\ sets e' = sets e ++ [t] /\ all_running e' = all_running e /\ id = length (targets e) /\
  length (targets e') = S (length (targets e)) /\ tg_set (target_at e' id) = t /\
  forall j, j < length (targets e) -> target_at e' j = target_at e j.
Proof.
  intros (A & B & C) K P H. unfold push_target in H. injection H as <- <-. cbn [targets active].
  assert (AO : forall id, In id (if closed st then active e else active e ++ [length (targets e)]) -> id <= length (targets e)).
  { intros id Hi. assert (In id (active e) \/ id = length (targets e)).
    { destruct (closed st); auto. apply in_app_iff in Hi. destruct Hi as [|[|[]]]; auto. }
    destruct H as [H| ->]; auto. apply C in H. lia. }
  split; [split; [|split]|split; [|split; [|split; [|split; [|split]]]]].
  - intros x Hx. apply in_app_iff in Hx. destruct Hx as [Hx|[<-|[]]]; auto. cbn. split; auto. split; auto. split; auto. discriminate.
  - cbn [active]. destruct (closed st); auto. apply NoDup_app_intro'; auto. constructor; [simpl; tauto|constructor].
    intros x Hx [<-|[]]. apply C in Hx. lia.
  - cbn [active targets]. intros id Hi. rewrite app_length. cbn [length]. apply AO in Hi. lia.
  - unfold sets. cbn [targets]. now rewrite map_app.
  - unfold all_running. cbn [targets]. rewrite flat_map_app. simpl. now rewrite app_nil_r.
  - auto.
  - rewrite app_length. simpl. lia.
  - unfold target_at. cbn [targets]. rewrite app_nth2, Nat.sub_diag; auto.
  - intros j Hj. unfold target_at. cbn [targets]. now rewrite app_nth1.
Qed.

(* ---- improve_next ---- *)
Lemma retain_closed_spec m goal e : edges_ok m goal e -> exists e', retain_closed e = Some e' /\
  targets e' = targets e /\ edges_ok m goal e' /\ open_ids e' (active e').
Proof.
  intros (A & B & C). unfold retain_closed.
  assert (F : forallb (fun id => negb (closed (tg_state (target_at e id))) ||
                        match tg_run (target_at e id) with None => true | Some _ => false end) (active e) = true).
  { apply forallb_forall. intros id Hid. destruct (target_at_In e id (C id Hid)) as (I & _). destruct (A _ I) as (_ & _ & R & _).
    destruct (closed (tg_state (target_at e id))); auto. now rewrite R. }
  rewrite F. eexists. split; [reflexivity|]. cbn [targets]. split; auto.
  assert (C' : forall id, In id (filter (fun id => negb (closed (tg_state (target_at e id)))) (active e)) -> id < length (targets e)).
  { intros id H. apply filter_In in H. apply C, H. }
  split.
  - split; auto. cbn [active targets]. split; auto. now apply NoDup_filter.
  - intros id H. cbn [active targets] in *. split; auto. apply filter_In in H. destruct H as (_ & H). now apply negb_true_iff in H.
Qed.

Lemma sort_active_spec m goal order e : edges_ok m goal e -> open_ids e (active e) ->
  let e2 := sort_active order e in edges_ok m goal e2 /\ targets e2 = targets e /\ open_ids e2 (active e2).
Proof.
  intros (A & B & C) O. cbn zeta. unfold sort_active. cbn [targets active].
  set (leb := fun a b => key_leb _ _). pose proof (isort_perm leb (active e)) as P. split; [|split; auto].
  - split; auto. cbn [active targets]. split. { apply (Permutation_NoDup (l := active e)); auto. now symmetry. }
    intros id H. apply C. apply (Permutation_in _ P H).
  - intros id H. apply O. apply (Permutation_in _ P H).
Qed.
End Edges.
