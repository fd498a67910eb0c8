(* The flat vectors of FlatModel.v hold what the lists of TreeModel.v hold, through every function of tree.rs. *)
From Coq Require Import List Arith Bool Lia.
Import ListNotations.
From Verif Require Import Spec Util OutputSetModel SubsumeModel TreeModel IndexModel FlatModel.

(* ---------------------------------------------------------------- vectors of slots *)

Lemma upd_len {A} (l : list A) : forall i v, length (upd l i v) = length l.
Proof. induction l as [|a l IH]; intros [|i] v; cbn; auto. Qed.
Lemma map_upd_ {A B} (g : A -> B) l : forall i v, map g (upd l i v) = upd (map g l) i (g v).
Proof. induction l as [|a l IH]; intros [|i] v; cbn; auto. rewrite IH. auto. Qed.
Lemma Forall_upd {A} (P : A -> Prop) l : forall i v, Forall P l -> P v -> Forall P (upd l i v).
Proof. induction l as [|a l IH]; intros [|i] v H Hv; cbn; auto; inversion H; subst; constructor; auto. Qed.
Lemma Forall_nth_error {A} (P : A -> Prop) l i x : Forall P l -> nth_error l i = Some x -> P x.
Proof. intros H E. eapply Forall_forall; eauto using nth_error_In. Qed.
Lemma upd_self {A} (l : list A) : forall i x, nth_error l i = Some x -> upd l i x = l.
Proof. induction l as [|a l IH]; intros [|i] x E; cbn in *; try discriminate; try congruence. rewrite IH; auto. Qed.

Section Slots.
Context {A : Type}.
Variable dim : nat.
Let full (l : list (list A)) := Forall (fun x => length x = dim) l.

Lemma full_length l : full l -> length (concat l) = length l * dim.
Proof. induction 1; cbn [concat length]; auto. rewrite app_length. lia. Qed.

Lemma full_firstn l : full l -> forall i, firstn (i * dim) (concat l) = concat (firstn i l).
Proof.
  induction 1 as [|x l Hx Hl IH]; intros i; [destruct i; cbn; rewrite ?firstn_nil; auto|].
  destruct i as [|i]; auto. cbn [concat firstn]. rewrite firstn_app, firstn_all2 by (rewrite Hx; lia).
  f_equal. rewrite Hx. replace (S i * dim - dim) with (i * dim) by lia. apply IH.
Qed.

Lemma full_skipn l : full l -> forall i, skipn (i * dim) (concat l) = concat (skipn i l).
Proof.
  induction 1 as [|x l Hx Hl IH]; intros i; [destruct i; cbn; rewrite ?skipn_nil; auto|].
  destruct i as [|i]; auto. cbn [concat skipn]. rewrite skipn_app, skipn_all2 by (rewrite Hx; lia).
  rewrite Hx. replace (S i * dim - dim) with (i * dim) by lia. apply IH.
Qed.

Lemma full_skipn_part l i : full l -> full (skipn i l).
Proof. intros H. unfold full in *. revert i. induction H; intros [|i]; cbn; auto. Qed.
Lemma full_firstn_part l i : full l -> full (firstn i l).
Proof. intros H. unfold full in *. revert i. induction H; intros [|i]; cbn; auto. Qed.

Lemma nth_skipn l : forall i (x : list A), nth_error l i = Some x -> skipn i l = x :: skipn (S i) l.
Proof. induction l as [|a l IH]; intros [|i] x E; cbn in *; try discriminate; try congruence. apply IH. auto. Qed.

Lemma slot_concat l i x : full l -> nth_error l i = Some x -> slot (concat l) dim i = Some x.
Proof.
  intros H E. unfold slot. rewrite full_length by auto. pose proof (nth_error_Some l i) as N. rewrite E in N.
  assert (L : i < length l) by (apply N; discriminate). destruct (Nat.leb_spec (i * dim + dim) (length l * dim)); [|nia].
  rewrite full_skipn by auto. rewrite (nth_skipn _ _ _ E). cbn [concat].
  assert (Hx : length x = dim) by (eapply (Forall_nth_error (fun x => length x = dim)); eauto).
  rewrite firstn_app, firstn_all2, Hx, Nat.sub_diag by lia. cbn. rewrite app_nil_r. auto.
Qed.

Lemma upd_decomp (l : list (list A)) : forall i y x, nth_error l i = Some y -> upd l i x = firstn i l ++ x :: skipn (S i) l.
Proof. induction l as [|a l IH]; intros [|i] y x E; cbn in *; try discriminate; auto. rewrite (IH _ _ _ E). auto. Qed.

Lemma put_concat l i x : full l -> i < length l -> put (concat l) dim i x = concat (upd l i x).
Proof.
  intros H L. unfold put. destruct (nth_error l i) as [y|] eqn:E; [|apply nth_error_None in E; lia].
  rewrite (upd_decomp _ _ _ x E), concat_app. cbn [concat].
  rewrite full_firstn by auto. replace (i * dim + dim) with (S i * dim) by lia. rewrite full_skipn by auto. auto.
Qed.

Lemma slice_concat l a b m : full l -> slice_c l a b = Some m -> slice_c (concat l) (a * dim) (b * dim) = Some (concat m).
Proof.
  unfold slice_c. intros H E. rewrite full_length by auto.
  destruct (Nat.leb_spec a b); destruct (Nat.leb_spec b (length l)); cbn in E; try discriminate.
  destruct (Nat.leb_spec (a * dim) (b * dim)); [|nia]. destruct (Nat.leb_spec (b * dim) (length l * dim)); [|nia].
  cbn. inversion E. unfold slice. rewrite full_skipn by auto. rewrite <- Nat.mul_sub_distr_r.
  rewrite full_firstn by (apply full_skipn_part; auto). auto.
Qed.

Lemma nth_concat l : full l -> forall i d x c, nth_error l i = Some x -> nth_error x d = Some c -> nth_error (concat l) (i * dim + d) = Some c.
Proof.
  induction 1 as [|y l Hy Hl IH]; intros i d x c E E'; [destruct i; discriminate|].
  destruct i as [|i]; cbn [nth_error concat] in *.
  - injection E as E. rewrite E in *. change (0 * dim + d) with d. rewrite nth_error_app1; auto. apply nth_error_Some. rewrite E'. discriminate.
  - rewrite nth_error_app2 by lia. replace (S i * dim + d - length y) with (i * dim + d) by lia. eauto.
Qed.

Lemma chunks_f_concat l : 0 < dim -> full l -> forall fuel, length (concat l) <= fuel -> chunks_f fuel dim (concat l) = l.
Proof.
  intros D. induction 1 as [|x l Hx Hl IH]; intros fuel F; [destruct fuel; auto|].
  cbn [concat] in *. rewrite app_length in F. destruct fuel as [|fuel]; [lia|]. cbn [chunks_f].
  rewrite firstn_app, firstn_all2, Hx, Nat.sub_diag by lia.
  rewrite skipn_app, skipn_all2, Hx, Nat.sub_diag by lia. cbn [firstn skipn app]. rewrite app_nil_r, IH by lia.
  destruct x as [|a x]; auto. cbn in Hx. lia.
Qed.
Lemma chunks_concat l : 0 < dim -> full l -> chunks dim (concat l) = l.
Proof. intros D H. apply chunks_f_concat; auto. Qed.

End Slots.

(* ---------------------------------------------------------------- the relation *)

Definition LIM : nat := 2 ^ 16 - 1.
Lemma LIM_eq : S LIM = 2 ^ 16. Proof. unfold LIM. assert (2 ^ 16 <> 0) by (apply Nat.pow_nonzero; lia). lia. Qed.
Lemma LIM_pos : 0 < LIM. Proof. unfold LIM. assert (2 ^ 1 <= 2 ^ 16) by (apply Nat.pow_le_mono_r; lia). change (2 ^ 1) with 2 in *. lia. Qed.
Global Opaque LIM.

Definition ent_ok (dim pdim : nat) (e : Entry) : Prop :=
  length (e_point e) = dim /\ Forall (fun c => c < LIM) (e_point e) /\ length (e_packed e) = pdim.

Record VRep (dim pdim : nat) (v : Vecs) (es : list Entry) : Prop := {
  VR_points : v_points v = concat (map e_point es);
  VR_packed : v_packed v = concat (map e_packed es);
  VR_values : v_values v = map e_value es;
  VR_ok : Forall (ent_ok dim pdim) es }.

Definition rg_ok (dim : nat) (rg : list (nat * nat)) : Prop := length rg = dim /\ Forall (fun r : nat * nat => fst r <= snd r /\ snd r < LIM) rg.

Record Rep (dim pdim : nat) (f : Flat) (t : Tree) : Prop := {
  R_dim : f_dim f = dim;
  R_tdim : t_dim t = dim;
  R_pdim : f_pdim f = pdim;
  R_nodes : f_nodes f = t_nodes t;
  R_vecs : VRep dim pdim (f_vecs f) (t_ents t);
  R_ranges : f_ranges f = concat (t_ranges t);
  R_rok : Forall (rg_ok dim) (t_ranges t) }.

(* an operation that works on the lists works on the vectors, with related results *)
Definition orel {A B} (R : A -> B -> Prop) (a : option A) (b : option B) : Prop :=
  match b with Some y => exists x, a = Some x /\ R x y | None => True end.
Lemma orel_bind {A B C D} (R : A -> B -> Prop) (Q : C -> D -> Prop) a b (g : A -> option C) (h : B -> option D) :
  orel R a b -> (forall x y, a = Some x -> b = Some y -> R x y -> orel Q (g x) (h y)) -> orel Q (x <- a ;; g x) (y <- b ;; h y).
Proof. intros H K. destruct b as [y|]; cbn in *; auto. destruct H as (x & -> & H). apply K; auto. Qed.
Lemma orel_some {A B} (R : A -> B -> Prop) x y : R x y -> orel R (Some x) (Some y).
Proof. intros H. exists x. auto. Qed.
Lemma orel_eq {A} (a b : option A) : a = b -> orel eq a b.
Proof. intros ->. destruct b; cbn; eauto. Qed.
Lemma orel_none {A B} (R : A -> B -> Prop) a : orel R a None.
Proof. exact Logic.I. Qed.

Section Vec.
Variables dim pdim : nat.

Lemma points_full es : Forall (ent_ok dim pdim) es -> Forall (fun x => length x = dim) (map e_point es).
Proof. induction 1 as [|e es He Hes IH]; cbn; constructor; auto. apply He. Qed.
Lemma packed_full es : Forall (ent_ok dim pdim) es -> Forall (fun x => length x = pdim) (map e_packed es).
Proof. induction 1 as [|e es He Hes IH]; cbn; constructor; auto. apply He. Qed.

Lemma V_len v es : VRep dim pdim v es -> length (v_values v) = length es.
Proof. intros []. rewrite VR_values0, map_length. auto. Qed.

Lemma V_entry v es i e : VRep dim pdim v es -> nth_error es i = Some e -> entry_at dim pdim v i = Some e.
Proof.
  intros [P K X O] E. unfold entry_at. rewrite P, K, X.
  rewrite (slot_concat dim (map e_point es) i (e_point e)) by (auto using points_full, map_nth_error).
  rewrite (slot_concat pdim (map e_packed es) i (e_packed e)) by (auto using packed_full, map_nth_error).
  rewrite (map_nth_error e_value _ _ E). destruct e; auto.
Qed.

Lemma V_store v es i e x : VRep dim pdim v es -> nth_error es i = Some e -> VRep dim pdim (store_value v i x) (upd es i (mkEntry (e_point e) (e_packed e) x)).
Proof.
  intros [P K X O] E. unfold store_value. constructor; cbn [v_points v_packed v_values].
  - rewrite map_upd_. cbn [e_point]. rewrite upd_self by (apply map_nth_error; auto). auto.
  - rewrite map_upd_. cbn [e_packed]. rewrite upd_self by (apply map_nth_error; auto). auto.
  - rewrite map_upd_, X. auto.
  - apply Forall_upd; auto. apply (Forall_nth_error _ _ _ _ O E).
Qed.

Lemma V_push v es e : VRep dim pdim v es -> ent_ok dim pdim e -> VRep dim pdim (push_entry v e) (es ++ [e]).
Proof.
  intros [P K X O] E. unfold push_entry. constructor; cbn [v_points v_packed v_values].
  - rewrite map_app, concat_app, P. cbn. rewrite app_nil_r. auto.
  - rewrite map_app, concat_app, K. cbn. rewrite app_nil_r. auto.
  - rewrite map_app, X. auto.
  - apply Forall_app. auto.
Qed.

Lemma V_nil : VRep dim pdim (mkVecs [] [] []) [].
Proof. constructor; auto. Qed.

Lemma V_swap v es l r : VRep dim pdim v es -> orel (VRep dim pdim) (flat_swap dim pdim v l r) (swap_entries es l r).
Proof.
  intros V. pose proof V as [P K X O]. unfold flat_swap, swap_entries. destruct (l =? r); [apply orel_some; auto|].
  destruct (nth_error es l) as [x|] eqn:El; [|exact Logic.I]. destruct (nth_error es r) as [y|] eqn:Er; [|exact Logic.I].
  assert (Ll : l < length es) by (apply nth_error_Some; congruence). assert (Lr : r < length es) by (apply nth_error_Some; congruence).
  rewrite P, K, X.
  rewrite (slot_concat dim _ l (e_point x)) by (auto using points_full, map_nth_error).
  rewrite (slot_concat dim _ r (e_point y)) by (auto using points_full, map_nth_error).
  rewrite (slot_concat pdim _ l (e_packed x)) by (auto using packed_full, map_nth_error).
  rewrite (slot_concat pdim _ r (e_packed y)) by (auto using packed_full, map_nth_error).
  rewrite (map_nth_error e_value _ _ El), (map_nth_error e_value _ _ Er).
  cbv beta iota zeta. apply orel_some.
  pose proof (Forall_nth_error _ _ _ _ O El) as Ox. pose proof (Forall_nth_error _ _ _ _ O Er) as Oy.
  constructor; cbn [v_points v_packed v_values].
  - rewrite !map_upd_. rewrite put_concat by (rewrite ?map_length; auto using points_full).
    rewrite put_concat; auto; [|rewrite upd_len, map_length; auto]. apply Forall_upd; auto using points_full. apply Oy.
  - rewrite !map_upd_. rewrite put_concat by (rewrite ?map_length; auto using packed_full).
    rewrite put_concat; auto; [|rewrite upd_len, map_length; auto]. apply Forall_upd; auto using packed_full. apply Oy.
  - rewrite !map_upd_. auto.
  - apply Forall_upd; auto. apply Forall_upd; auto.
Qed.

Lemma V_coord v es i e d c : VRep dim pdim v es -> nth_error es i = Some e -> nth_error (e_point e) d = Some c ->
  nth_error (v_points v) (i * dim + d) = Some c.
Proof.
  intros [P K X O] E E'. rewrite P. eapply nth_concat; eauto using points_full. apply map_nth_error. auto.
Qed.

Lemma V_scan_left v es d at_ stop : VRep dim pdim v es -> forall fuel left,
  orel eq (flat_scan_left fuel (v_points v) dim d at_ stop left) (scan_left fuel es d at_ stop left).
Proof.
  intros V. induction fuel as [|fuel IH]; intros left; cbn [flat_scan_left scan_left]; [exact Logic.I|].
  destruct (left <? stop); [|apply orel_some; auto]. destruct (nth_error es left) as [e|] eqn:E; [|exact Logic.I].
  destruct (nth_error (e_point e) d) as [c|] eqn:Ec; [|exact Logic.I]. rewrite (V_coord _ _ _ _ _ _ V E Ec).
  destruct (c <? at_); [apply IH|apply orel_some; auto].
Qed.
Lemma V_scan_right v es d at_ start : VRep dim pdim v es -> forall fuel right,
  orel eq (flat_scan_right fuel (v_points v) dim d at_ start right) (scan_right fuel es d at_ start right).
Proof.
  intros V. induction fuel as [|fuel IH]; intros right; cbn [flat_scan_right scan_right]; [exact Logic.I|].
  destruct (start <? right); [|apply orel_some; auto]. destruct (nth_error es right) as [e|] eqn:E; [|exact Logic.I].
  destruct (nth_error (e_point e) d) as [c|] eqn:Ec; [|exact Logic.I]. rewrite (V_coord _ _ _ _ _ _ V E Ec).
  destruct (at_ <=? c); [apply IH|apply orel_some; auto].
Qed.

Definition prel (x : Vecs * nat) (y : list Entry * nat) : Prop := VRep dim pdim (fst x) (fst y) /\ snd x = snd y.

Lemma V_part_loop d at_ start stop : forall fuel v es left right, VRep dim pdim v es ->
  orel prel (flat_part_loop fuel dim pdim v d at_ start stop left right) (part_loop fuel es d at_ start stop left right).
Proof.
  induction fuel as [|fuel IH]; intros v es left right V; cbn [flat_part_loop part_loop]; [exact Logic.I|].
  eapply orel_bind; [apply V_scan_left; auto|]. intros l ? _ _ <-.
  eapply orel_bind; [apply V_scan_right; auto|]. intros r ? _ _ <-.
  destruct (r <=? l); [apply orel_some; split; auto|].
  eapply orel_bind; [apply V_swap; eauto|]. intros v' es' _ _ V'. apply IH. auto.
Qed.
Lemma V_partition d at_ start stop v es : VRep dim pdim v es ->
  orel prel (flat_partition dim pdim v d at_ start stop) (partition es d at_ start stop).
Proof.
  intros V. unfold flat_partition, partition. destruct (stop - start =? 0); [apply orel_some; split; auto|].
  apply V_part_loop. auto.
Qed.

Lemma V_aug es : flat_aug (map e_value es) = aug_of es.
Proof.
  destruct es as [|e es]; auto. cbn [flat_aug aug_of map]. f_equal.
  assert (M : forall (g : nat -> nat -> nat) a, fold_left g (map e_value es) a = fold_left (fun m x => g m (e_value x)) es a).
  { intros g. induction es; intros a0; cbn; auto. }
  rewrite !M. cbn [length]. rewrite map_length. auto.
Qed.

Lemma V_slice_vals v es a b m : VRep dim pdim v es -> slice_c es a b = Some m -> slice_c (v_values v) a b = Some (map e_value m).
Proof.
  intros [P K X O]. rewrite X. unfold slice_c. rewrite map_length. destruct ((a <=? b) && (b <=? length es)); [|discriminate].
  intros [= <-]. unfold slice. rewrite <- firstn_map, <- skipn_map. auto.
Qed.
Lemma slice_map {A B} (g : A -> B) l a b m : slice_c l a b = Some m -> slice_c (map g l) a b = Some (map g m).
Proof.
  unfold slice_c. rewrite map_length. destruct ((a <=? b) && (b <=? length l)); [|discriminate].
  intros [= <-]. unfold slice. rewrite <- firstn_map, <- skipn_map. auto.
Qed.
Lemma V_slice_points v es a b m : VRep dim pdim v es -> slice_c es a b = Some m ->
  slice_c (v_points v) (a * dim) (b * dim) = Some (concat (map e_point m)).
Proof.
  intros [P K X O] E. rewrite P. apply slice_concat; auto using points_full. apply slice_map. auto.
Qed.
Lemma slice_Forall {A} (Q : A -> Prop) l a b m : Forall Q l -> slice_c l a b = Some m -> Forall Q m.
Proof.
  intros H E. unfold slice_c in E. destruct ((a <=? b) && (b <=? length l)); [|discriminate]. inversion E. unfold slice.
  apply Forall_forall. intros x I0. eapply Forall_forall; [exact H|].
  assert (I1 : In x (skipn a l)) by (rewrite <- (firstn_skipn (b - a) (skipn a l)); apply in_or_app; auto).
  rewrite <- (firstn_skipn a l). apply in_or_app. auto.
Qed.

Lemma zip_app {A B} (g : A -> B -> A) l : forall m r, length l = length m -> zip_with g l (m ++ r) = zip_with g l m.
Proof. induction l as [|a l IH]; intros [|b m] r L; cbn in *; try lia; auto. rewrite IH by lia. auto. Qed.
Lemma zip_const {B} (l : list (nat * nat)) : forall (m : list B) (g : B -> nat * nat), length l = length m -> zip_with (fun _ c => g c) l m = map g m.
Proof. induction l as [|a l IH]; intros [|b m] g L; cbn in *; try lia; auto. rewrite IH by lia. auto. Qed.
Lemma zip_widen rg : forall p, length rg = length p -> zip_with (fun r c => (Nat.min (fst r) c, Nat.max (snd r) c)) rg p = widen rg p.
Proof. induction rg as [|a l IH]; intros [|b m] L; cbn in *; try lia; auto. rewrite IH by lia. auto. Qed.
Lemma widen_length rg p : length rg = length p -> length (widen rg p) = length rg.
Proof. intros L. unfold widen. rewrite map_length, combine_length. lia. Qed.

Lemma widen_ok rg p : rg_ok dim rg -> length p = dim -> Forall (fun c => c < LIM) p -> rg_ok dim (widen rg p).
Proof.
  intros [L F] Lp Fp. split; [rewrite widen_length; lia|]. unfold widen. apply Forall_forall. intros x Hx.
  apply in_map_iff in Hx. destruct Hx as ((r, c) & <- & I0). pose proof (in_combine_l _ _ _ _ I0). pose proof (in_combine_r _ _ _ _ I0).
  rewrite Forall_forall in F, Fp. specialize (F _ H). specialize (Fp _ H0). cbn. lia.
Qed.

Lemma compute_ok es rg : Forall (ent_ok dim pdim) es -> compute_ranges dim es = Some rg -> rg_ok dim rg.
Proof.
  intros O. unfold compute_ranges. destruct (dim =? 0) eqn:D; [discriminate|].
  destruct es as [|e es]; intros [= <-].
  - split; [apply repeat_length|]. apply Forall_forall. intros x Hx. apply repeat_spec in Hx. subst x. cbn [fst snd].
    split; auto using LIM_pos.
  - inversion O as [|? ? (Le & Fe & _) Oes]; subst x l.
    assert (B : rg_ok dim (map (fun c => (c, c)) (e_point e))).
    { split; [rewrite map_length; auto|]. apply Forall_forall. intros x Hx. apply in_map_iff in Hx.
      destruct Hx as (c & <- & Hc). rewrite Forall_forall in Fe. specialize (Fe _ Hc). cbn. lia. }
    revert B. generalize (map (fun c => (c, c)) (e_point e)). clear - Oes. induction Oes as [|x es (Lx & Fx & _) _ IH]; intros rg B; cbn; auto.
    apply IH, widen_ok; auto.
Qed.

Lemma V_ranges es : Forall (ent_ok dim pdim) es -> flat_ranges (repeat (0, 0) dim) (concat (map e_point es)) = compute_ranges dim es.
Proof.
  intros O. unfold flat_ranges, compute_ranges. rewrite repeat_length. destruct (dim =? 0) eqn:D; auto. apply Nat.eqb_neq in D.
  rewrite chunks_concat by (try lia; auto using points_full).
  destruct es as [|e es]; [cbn; destruct dim; auto|]. f_equal. cbn [map concat skipn].
  inversion O as [|? ? (Le & Fe & _) Oes]; subst x l.
  rewrite zip_app by (rewrite repeat_length; auto). rewrite (zip_const _ _ (fun c => (c, c))) by (rewrite repeat_length; auto).
  assert (B : length (map (fun c => (c, c)) (e_point e)) = dim) by (rewrite map_length; auto).
  revert B. generalize (map (fun c => (c, c)) (e_point e)). clear - Oes. induction Oes as [|x es (Lx & Fx & _) _ IH]; intros rg B; cbn; auto.
  rewrite zip_widen by lia. rewrite IH; auto. rewrite widen_length; lia.
Qed.

Lemma widths_ok rg : rg_ok dim rg -> exists l, map_opt (fun r : nat * nat => sub16 (snd r) (fst r)) rg = Some l.
Proof.
  intros [_ F]. induction F as [|(a, b) rg [H _] _ [l IH]]; [exists []; auto|]. exists (b - a :: l). cbn [map_opt fst snd] in *.
  assert (E : sub16 b a = Some (b - a)) by (unfold sub16; destruct (Nat.leb_spec a b); [auto|lia]). rewrite E, IH. auto.
Qed.

Lemma widest_range rg : forall i best r, Forall (fun r : nat * nat => fst r <= snd r /\ snd r < LIM) rg -> widest i rg best = Some r ->
  (forall b, best = Some b -> fst (snd b) + snd (snd b) < LIM) -> fst (snd r) + snd (snd r) < LIM.
Proof.
  induction rg as [|(lo, hi) rg IH]; intros i best r F E B; cbn [widest] in E; [auto|].
  inversion F as [|? ? [H1 H2] F']; subst. cbn [fst snd] in *. refine (IH _ _ _ F' E _).
  intros b Eb. destruct best as [[j [bw bl]]|].
  - destruct (bw <=? hi - lo); [inversion Eb; subst b; cbn; lia|apply B; auto].
  - inversion Eb; subst b; cbn; lia.
Qed.

Lemma split_at_ok range low : range + low < LIM -> flat_split_at low range = Some (low + (range + 1) / 2).
Proof.
  intros H. pose proof LIM_eq. unfold flat_split_at, add16. destruct (Nat.ltb_spec (range + 1) (2 ^ 16)); [|lia].
  cbv beta iota. assert ((range + 1) / 2 <= range + 1) by (apply Nat.div_le_upper_bound; lia).
  destruct (Nat.ltb_spec (low + (range + 1) / 2) (2 ^ 16)); auto. lia.
Qed.

Lemma V_widest rg r : rg_ok dim rg -> widest 0 rg None = Some r -> flat_widest rg = Some r /\ fst (snd r) + snd (snd r) < LIM.
Proof.
  intros H E. split.
  - unfold flat_widest. destruct (widths_ok _ H) as [l ->]. auto.
  - eapply widest_range; [apply H|exact E|]. discriminate.
Qed.

End Vec.

(* ---------------------------------------------------------------- nodes only *)

Section Nodes.
Variables (f : Flat) (t : Tree).
Hypothesis N : f_nodes f = t_nodes t.

Lemma N_enter dir id : traversal_enter (only_nodes f) dir id = traversal_enter t dir id.
Proof. unfold traversal_enter, only_nodes. cbn [t_nodes]. rewrite N. auto. Qed.
Lemma N_skip dir id : traversal_skip (only_nodes f) dir id = traversal_skip t dir id.
Proof.
  unfold traversal_skip. cbn [only_nodes t_nodes]. rewrite N. generalize (length (t_nodes t)). intros k. revert id.
  induction k as [|k IH]; intros id; cbn [traversal_skip_f only_nodes t_nodes]; auto. rewrite N.
  destruct (id =? 0); auto. destruct (nth_error (t_nodes t) id); auto. destruct (eqb _ _); auto.
Qed.
Lemma N_next dir id index : traversal_next (only_nodes f) dir id index = traversal_next t dir id index.
Proof. unfold traversal_next. cbn [only_nodes t_nodes]. rewrite N. destruct (nth_error (t_nodes t) id) as [n|]; auto. destruct (n_links n); auto. destruct (_ =? _); auto using N_skip. Qed.
Lemma N_build id : build_next (length (f_nodes f)) (only_nodes f) id = build_next (length (t_nodes t)) t id.
Proof.
  rewrite N. generalize (length (t_nodes t)). intros k. revert id.
  induction k as [|k IH]; intros id; cbn [build_next only_nodes t_nodes]; auto. rewrite N.
  destruct (nth_error (t_nodes t) id); auto. destruct (n_right n); auto. destruct (id =? 0); auto.
Qed.
Lemma N_root : traversal_root (only_nodes f) = traversal_root t.
Proof. unfold traversal_root. cbn [only_nodes t_nodes]. rewrite N. auto. Qed.
Lemma N_len : flat_len f = tree_len t.
Proof. unfold flat_len, tree_len. cbn [only_nodes t_nodes]. rewrite N. auto. Qed.
Lemma N_is_empty : flat_is_empty f = tree_is_empty t.
Proof. unfold flat_is_empty, tree_is_empty. cbn [only_nodes t_nodes]. rewrite N. auto. Qed.
End Nodes.

(* ---------------------------------------------------------------- trees *)

Section TreeRep.
Variables dim pdim : nat.
Let R := Rep dim pdim.

Lemma R_set_nodes f t l : R f t -> R (set_nodes f l) (mkTree (t_dim t) (t_ents t) l (t_ranges t)).
Proof. intros []. constructor; auto. Qed.
Lemma R_upd f t id nd : R f t -> R (set_nodes f (upd (f_nodes f) id nd)) (set_node t id nd).
Proof. intros H. pose proof (R_nodes _ _ _ _ H) as E. rewrite E. apply R_set_nodes. auto. Qed.
Lemma R_set_vecs f t v es : R f t -> VRep dim pdim v es -> R (set_vecs f v) (set_ents t es).
Proof. intros [] V. constructor; auto. Qed.

Lemma R_range f t id rg : R f t -> nth_error (t_ranges t) id = Some rg -> slot (f_ranges f) (f_dim f) id = Some rg /\ rg_ok dim rg.
Proof.
  intros [] E. rewrite R_ranges0, R_dim0. split; [|eapply Forall_nth_error; eauto].
  apply slot_concat; auto. eapply Forall_impl; [|exact R_rok0]. intros a [L _]. auto.
Qed.

Definition crel (x : Flat * nat) (y : Tree * nat) : Prop := R (fst x) (fst y) /\ snd x = snd y.

Lemma R_new_child f t parent right start stop : R f t -> orel crel (flat_new_child f parent right start stop) (new_child t parent right start stop).
Proof.
  intros H. pose proof H as [D TD PD Nd V Rg Rok]. unfold flat_new_child, new_child.
  destruct (slice_c (t_ents t) start stop) as [es|] eqn:E; [|exact Logic.I].
  rewrite D. rewrite (V_slice_points _ _ _ _ _ _ _ V E), (V_slice_vals _ _ _ _ _ _ _ V E).
  assert (O : Forall (ent_ok dim pdim) es) by (eapply slice_Forall; [apply V|eauto]).
  rewrite (V_ranges _ _ _ O), V_aug, TD. destruct (compute_ranges dim es) as [rg|] eqn:Er; [|exact Logic.I].
  destruct (aug_of es) as [ag|]; [|exact Logic.I]. apply orel_some. rewrite Nd. split; cbn [fst snd]; auto.
  constructor; cbn; auto.
  - rewrite concat_app, Rg. cbn. rewrite app_nil_r. auto.
  - apply Forall_app. split; auto. constructor; auto. eapply compute_ok; eauto.
Qed.

Lemma R_build : forall fuel f t id, R f t -> orel R (flat_build fuel f id) (build_tree fuel t id).
Proof.
  induction fuel as [|fuel IH]; intros f t id H; cbn [flat_build build_tree]; [exact Logic.I|].
  rewrite (R_nodes _ _ _ _ H) at 1. destruct (nth_error (t_nodes t) id) as [nd|] eqn:En; [|exact Logic.I].
  destruct (n_links nd) as [start stop|]; [|exact Logic.I]. cbv zeta.
  assert (NX : forall f' t', R f' t' -> orel R
     (r <- build_next (length (f_nodes f')) (only_nodes f') id ;; match r with None => Some f' | Some id' => flat_build fuel f' id' end)
     (r <- build_next (length (t_nodes t')) t' id ;; match r with None => Some t' | Some id' => build_tree fuel t' id' end)).
  { intros f' t' H'. rewrite (N_build f' t') by (apply H'). destruct (build_next _ t' id) as [[id'|]|]; [apply IH; auto|apply orel_some; auto|exact Logic.I]. }
  destruct (SPLIT_THRESHOLD <? stop - start); [|apply NX; auto].
  destruct (nth_error (t_ranges t) id) as [rg|] eqn:Er; [|exact Logic.I].
  destruct (R_range _ _ _ _ H Er) as [-> Ok].
  destruct (widest 0 rg None) as [w|] eqn:Ew; [|exact Logic.I].
  destruct (V_widest dim rg w Ok Ew) as [-> Bw].
  destruct w as (d, (range, low)). cbn [fst snd] in Bw. rewrite split_at_ok by auto.
  rewrite (R_dim _ _ _ _ H), (R_pdim _ _ _ _ H).
  eapply orel_bind; [apply V_partition; apply H|]. intros (v, mid) (es, mid') _ _ [V' Em]. cbn [fst snd] in *. subst mid'.
  pose proof (R_set_vecs _ _ _ _ H V') as H1.
  destruct (negb (start =? mid) && negb (mid =? stop)); [|apply NX; auto].
  eapply orel_bind; [apply R_new_child; exact H1|]. intros (f2, i2) (t2, i2') _ _ [H2 E2]. cbn [fst snd] in *. subst i2'.
  eapply orel_bind; [apply R_new_child; exact H2|]. intros (f3, i3) (t3, i3') _ _ [H3 E3]. cbn [fst snd] in *. subst i3'.
  rewrite (R_nodes _ _ _ _ H3). destruct (nth_error (t_nodes t3) id) as [nd'|]; [|exact Logic.I].
  apply IH. rewrite <- (R_nodes _ _ _ _ H3). apply R_upd. auto.
Qed.

Lemma R_new v es : VRep dim pdim v es -> orel R (flat_new dim pdim v) (tree_new dim es).
Proof.
  intros V. pose proof V as [P K X O]. unfold flat_new.
  assert (L1 : length (v_values v) * dim = length (v_points v)).
  { rewrite P, X, map_length, (full_length dim _ (points_full _ _ _ O)), map_length. auto. }
  assert (L2 : length (v_values v) * pdim = length (v_packed v)).
  { rewrite K, X, map_length, (full_length pdim _ (packed_full _ _ _ O)), map_length. auto. }
  apply Nat.eqb_eq in L1, L2. rewrite L1, L2. cbn [negb]. rewrite (V_len _ _ _ _ V), X, V_aug, P, (V_ranges dim pdim) by auto.
  destruct es as [|e es].
  - cbn. apply orel_some. constructor; cbn; auto. 
  - cbn [map]. unfold tree_new. destruct (aug_of (e :: es)) as [ag|]; [|exact Logic.I].
    destruct (compute_ranges dim (e :: es)) as [rg|] eqn:Er; [|exact Logic.I].
    apply R_build. constructor; cbn [f_dim t_dim f_pdim f_nodes t_nodes f_vecs t_ents f_ranges t_ranges]; auto.
    + cbn. rewrite app_nil_r. auto.
    + constructor; auto. eapply compute_ok; eauto.
Qed.

Lemma R_update_f : forall fuel f t id, R f t -> orel R (flat_update_f fuel f id) (update_augmentation_f fuel t id).
Proof.
  induction fuel as [|fuel IH]; intros f t id H; cbn [flat_update_f update_augmentation_f]; [exact Logic.I|].
  rewrite (R_nodes _ _ _ _ H). destruct (nth_error (t_nodes t) id) as [nd|] eqn:En; [|exact Logic.I].
  eapply (orel_bind eq).
  - destruct (n_links nd) as [start stop|c0 c1].
    + destruct (slice_c (t_ents t) start stop) as [es|] eqn:E; [|exact Logic.I].
      rewrite (R_dim _ _ _ _ H), (V_slice_points _ _ _ _ _ _ _ (R_vecs _ _ _ _ H) E), (V_slice_vals _ _ _ _ _ _ _ (R_vecs _ _ _ _ H) E), V_aug.
      apply orel_eq. auto.
    + apply orel_eq. auto.
  - intros ag ? _ _ <-. cbv zeta. pose proof (R_upd f t id (mkNode ag (n_parent nd) (n_right nd) (n_links nd)) H) as H'.
    rewrite (R_nodes _ _ _ _ H) in H'. destruct (_ && _); [apply IH; auto|apply orel_some; auto].
Qed.
Lemma R_update f t id : R f t -> orel R (flat_update f id) (update_augmentation t id).
Proof. intros H. unfold flat_update, update_augmentation. rewrite (R_nodes _ _ _ _ H). apply R_update_f. auto. Qed.

Lemma R_move f t dst src : R f t -> orel R (flat_move_ranges f dst src) (move_node_ranges t dst src).
Proof.
  intros H. pose proof H as [D TD PD Nd V Rg Rok]. unfold flat_move_ranges, move_node_ranges. destruct (dst =? src); [apply orel_some; auto|].
  destruct (nth_error (t_ranges t) src) as [rg|] eqn:Es; [|exact Logic.I].
  destruct (Nat.ltb_spec dst (length (t_ranges t))) as [L|L]; [|exact Logic.I].
  destruct (nth_error (t_ranges t) dst) as [rd|] eqn:Ed; [|apply nth_error_None in Ed; lia].
  destruct (R_range _ _ _ _ H Ed) as [-> _]. destruct (R_range _ _ _ _ H Es) as [-> Ok].
  apply orel_some. constructor; cbn; auto.
  - rewrite Rg, D. apply put_concat; auto. eapply Forall_impl; [|exact Rok]. intros a [La _]. auto.
  - apply Forall_upd; auto.
Qed.

Definition srel (x : Flat * TState) (y : Tree * TState) : Prop := R (fst x) (fst y) /\ snd x = snd y.

Lemma R_skip f t dir id : R f t -> orel srel (st <- traversal_skip (only_nodes f) dir id ;; Some (f, st)) (st <- traversal_skip t dir id ;; Some (t, st)).
Proof. intros H. rewrite (N_skip f t) by apply H. destruct (traversal_skip t dir id); [|exact Logic.I]. apply orel_some. split; auto. Qed.

(* after set_parent only the nodes differ *)
Lemma P_set_parent f t id parent : f_nodes f = t_nodes t ->
  set_parent (only_nodes f) id parent = match set_parent t id parent with Some t' => Some (mkTree (f_dim f) [] (t_nodes t') []) | None => None end.
Proof. intros E. unfold set_parent, only_nodes, set_node. cbn [t_nodes t_dim t_ents t_ranges]. rewrite E. destruct (nth_error (t_nodes t) id); auto. Qed.
Lemma set_parent_rest t id parent t' : set_parent t id parent = Some t' -> t' = mkTree (t_dim t) (t_ents t) (t_nodes t') (t_ranges t).
Proof. unfold set_parent. destruct (nth_error (t_nodes t) id); [|discriminate]. intros [= <-]. auto. Qed.

Lemma R_unlink f t dir id : R f t -> orel srel (flat_unlink f dir id) (traversal_unlink t dir id).
Proof.
  intros H. pose proof (R_nodes _ _ _ _ H) as Nd. unfold flat_unlink, traversal_unlink.
  destruct (id =? 0); [apply orel_some; split; auto; apply R_set_nodes; auto|]. rewrite Nd.
  destruct (nth_error (t_nodes t) id) as [nd|] eqn:E1; [|exact Logic.I]. cbv zeta.
  destruct (nth_error (t_nodes t) (n_parent nd)) as [pn|] eqn:E2; [|exact Logic.I].
  destruct (n_links pn) as [|c0 c1]; [exact Logic.I|].
  set (sib := if n_right nd then c0 else c1). destruct (sib =? id); [exact Logic.I|].
  destruct (nth_error (t_nodes t) sib) as [moved|] eqn:E3; [|exact Logic.I].
  eapply (orel_bind (fun (a b : Tree) => R (set_nodes f (t_nodes a)) b)).
  - destruct (n_links moved) as [|d0 d1].
    + apply orel_some. cbn [only_nodes t_nodes]. rewrite Nd. rewrite <- Nd. destruct f; exact H.
    + rewrite (P_set_parent f t) by auto. destruct (set_parent t d0 (n_parent nd)) as [t1|] eqn:S1; [|exact Logic.I].
      pose proof (P_set_parent (set_nodes f (t_nodes t1)) t1 d1 (n_parent nd) eq_refl) as PS. unfold only_nodes in PS. cbn [set_nodes f_dim f_nodes] in PS.
      rewrite PS. destruct (set_parent t1 d1 (n_parent nd)) as [t2|] eqn:S2; [|exact Logic.I]. apply orel_some. cbn [t_nodes].
      rewrite (set_parent_rest _ _ _ _ S2), (set_parent_rest _ _ _ _ S1). cbn [t_dim t_ents t_ranges t_nodes]. apply R_set_nodes. auto.
  - intros a t1 _ _ H1. cbn [set_nodes f_nodes]. pose proof (R_nodes _ _ _ _ H1) as Nd1. cbn [set_nodes f_nodes] in Nd1. rewrite Nd1.
    destruct (nth_error (t_nodes t1) (n_parent nd)) as [pn1|] eqn:E4; [|exact Logic.I].
    pose proof (R_upd _ _ (n_parent nd) (mkNode (n_aug moved) (n_parent pn1) (n_right pn1) (n_links moved)) H1) as H2.
    cbn [set_nodes f_nodes f_dim f_pdim f_vecs f_ranges] in H2. rewrite Nd1 in H2.
    eapply orel_bind; [apply R_move; exact H2|]. intros f3 t3 _ _ H3.
    eapply (orel_bind R).
    + destruct (n_parent nd =? 0); [apply orel_some; auto|apply R_update; auto].
    + intros f4 t4 _ _ H4. destruct (negb _); [apply orel_some; split; auto|]. apply R_skip. auto.
Qed.

Lemma R_remove f t dir id index : R f t -> orel srel (flat_remove f dir id index) (traversal_remove t dir id index).
Proof.
  intros H. pose proof (R_nodes _ _ _ _ H) as Nd. unfold flat_remove, traversal_remove. rewrite Nd.
  destruct (nth_error (t_nodes t) id) as [nd|] eqn:E1; [|exact Logic.I]. destruct (n_links nd) as [start stop|]; [|exact Logic.I].
  destruct (stop =? 0); [exact Logic.I|]. cbv zeta.
  pose proof (R_upd f t id (mkNode (n_aug nd) (n_parent nd) (n_right nd) (Leaf start (stop - 1))) H) as H1. rewrite Nd in H1.
  destruct (start =? stop - 1); [apply R_unlink; auto|].
  rewrite (R_dim _ _ _ _ H), (R_pdim _ _ _ _ H).
  eapply orel_bind; [apply V_swap; apply H1|]. intros v es _ _ V'.
  eapply orel_bind; [apply R_update; apply R_set_vecs; eauto|]. intros f2 t2 _ _ H2.
  destruct (index =? stop - 1); [apply R_skip; auto|apply orel_some; split; auto].
Qed.

Section Act.
Context {S_ T_ : Type}.
(* the user states may differ, as when the action collects entries *)
Variable Q : S_ -> T_ -> Prop.
Variables (filt : S_ -> Aug -> list (nat * nat) -> bool) (filt' : T_ -> Aug -> list (nat * nat) -> bool).
Hypothesis Hf : forall u w g rg, Q u w -> filt u g rg = filt' w g rg.
Variables (act : S_ -> Entry -> option (S_ * bool)) (act' : T_ -> Entry -> option (T_ * bool)).
Hypothesis Ha : forall u w e, ent_ok dim pdim e -> Q u w -> orel (fun x y => Q (fst x) (fst y) /\ snd x = snd y) (act u e) (act' w e).

Lemma R_traverse_f f t dir : R f t -> forall fuel u w st, Q u w -> orel Q (flat_traverse_f filt act fuel f dir u st) (traverse_f filt' act' fuel t dir w st).
Proof.
  intros H. pose proof (R_nodes _ _ _ _ H) as Nd. induction fuel as [|fuel IH]; intros u w st HQ.
  - destruct st; cbn; auto. exists u. auto.
  - destruct st as [|id|id index]; cbn [flat_traverse_f traverse_f].
    + apply orel_some. auto.
    + rewrite Nd. destruct (nth_error (t_nodes t) id) as [nd|]; [|exact Logic.I].
      destruct (nth_error (t_ranges t) id) as [rg|] eqn:Er; [|exact Logic.I]. destruct (R_range _ _ _ _ H Er) as [-> _].
      rewrite (Hf _ _ _ _ HQ), (N_enter f t), (N_skip f t) by auto. destruct (if filt' w (n_aug nd) rg then _ else _); [|exact Logic.I]. apply IH. auto.
    + destruct (nth_error (t_ents t) index) as [e|] eqn:Ee; [|exact Logic.I]. rewrite (R_dim _ _ _ _ H), (R_pdim _ _ _ _ H).
      rewrite (V_entry _ _ _ _ _ _ (R_vecs _ _ _ _ H) Ee).
      eapply orel_bind; [apply Ha; eauto; apply (Forall_nth_error _ _ _ _ (VR_ok _ _ _ _ (R_vecs _ _ _ _ H)) Ee)|].
      intros (u', go) (w', go') _ _ [HQ' Eg]. cbn [fst snd] in *. subst go'. destruct go; [|apply orel_some; auto].
      rewrite (N_next f t) by auto. destruct (traversal_next t dir id index); [|exact Logic.I]. apply IH. auto.
Qed.
Lemma R_traverse f t dir u w : R f t -> Q u w -> orel Q (flat_traverse f u dir filt act) (traverse t w dir filt' act').
Proof.
  intros H HQ. unfold flat_traverse, traverse. rewrite (R_nodes _ _ _ _ H), (V_len _ _ _ _ (R_vecs _ _ _ _ H)), (N_root f t) by apply H.
  apply R_traverse_f; auto.
Qed.
End Act.

Definition mrel {S_} (x : S_ * Flat) (y : S_ * Tree) : Prop := fst x = fst y /\ R (snd x) (snd y).

Lemma R_traverse_mut_f {S_} (filt : S_ -> Aug -> list (nat * nat) -> bool) act dir : forall fuel f t us st, R f t ->
  orel mrel (flat_traverse_mut_f filt act fuel f dir us st) (traverse_mut_f filt act fuel t dir us st).
Proof.
  induction fuel as [|fuel IH]; intros f t us st H; pose proof (R_nodes _ _ _ _ H) as Nd.
  - destruct st; cbn; auto. exists (us, f). split; auto. split; auto.
  - destruct st as [|id|id index]; cbn [flat_traverse_mut_f traverse_mut_f].
    + apply orel_some. split; auto.
    + rewrite Nd. destruct (nth_error (t_nodes t) id) as [nd|]; [|exact Logic.I].
      destruct (nth_error (t_ranges t) id) as [rg|] eqn:Er; [|exact Logic.I]. destruct (R_range _ _ _ _ H Er) as [-> _].
      rewrite (N_enter f t), (N_skip f t) by auto. destruct (if filt us (n_aug nd) rg then _ else _); [|exact Logic.I]. apply IH. auto.
    + destruct (nth_error (t_ents t) index) as [e|] eqn:Ee; [|exact Logic.I]. rewrite (R_dim _ _ _ _ H), (R_pdim _ _ _ _ H).
      rewrite (V_entry _ _ _ _ _ _ (R_vecs _ _ _ _ H) Ee). destruct (act us e) as [[us' res]|]; [|exact Logic.I].
      assert (St : forall v, R (set_vecs f (store_value (f_vecs f) index v)) (set_ents t (upd (t_ents t) index (mkEntry (e_point e) (e_packed e) v)))).
      { intros v. apply R_set_vecs; auto. apply V_store; auto. apply H. }
      destruct res as [v|v|v].
      * apply orel_some. split; auto. apply St.
      * eapply (orel_bind R).
        { destruct (v =? e_value e); [apply orel_some; apply St|apply R_update; apply St]. }
        intros f' t' _ _ H'. rewrite (N_next f' t') by apply H'. destruct (traversal_next t' dir id index); [|exact Logic.I]. apply IH. auto.
      * eapply orel_bind; [apply R_remove; apply St|]. intros (f', st') (t', st'') _ _ [H' Es]. cbn [fst snd] in *. subst st''. apply IH. auto.
Qed.
Lemma R_traverse_mut {S_} (filt : S_ -> Aug -> list (nat * nat) -> bool) act dir f t us : R f t ->
  orel mrel (flat_traverse_mut f us dir filt act) (traverse_mut t us dir filt act).
Proof.
  intros H. unfold flat_traverse_mut, traverse_mut. rewrite (R_nodes _ _ _ _ H), (V_len _ _ _ _ (R_vecs _ _ _ _ H)), (N_root f t) by apply H.
  apply R_traverse_mut_f. auto.
Qed.

End TreeRep.
