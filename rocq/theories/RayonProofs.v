(* Every schedule of a parallel call has the same outcome. *)
From Coq Require Import List Arith Bool Lia.
Import ListNotations.
From Verif Require Import Spec Util OutputSetModel TreeModel IndexModel FileModel LogModel ProofGenModel RayonModel.

(* the sequential outcome *)
Fixpoint seq_call {A B} (f : A -> option (list B)) (items : list A) : option (list B) :=
  match items with
  | [] => Some []
  | x :: r => match f x, seq_call f r with Some y, Some z => Some (y ++ z) | _, _ => None end
  end.

Section Job.
Context {A B : Type} (f : A -> option (list B)).

Lemma seq_app l1 l2 : seq_call f (l1 ++ l2) =
  match seq_call f l1, seq_call f l2 with Some a, Some b => Some (a ++ b) | _, _ => None end.
Proof.
  induction l1 as [|x l1 IH]; simpl. destruct (seq_call f l2); auto. rewrite IH.
  destruct (f x), (seq_call f l1), (seq_call f l2); simpl; auto. now rewrite app_assoc.
Qed.

(* what a job will give *)
Fixpoint will (j : Job A B) : option (list B) :=
  match j with
  | Todo items out => option_map (app out) (seq_call f items)
  | Fork l r => match will l, will r with Some a, Some b => Some (a ++ b) | _, _ => None end
  | Dead => None
  end.

(* the items still to do *)
Fixpoint left_over (j : Job A B) : nat :=
  match j with Todo items _ => length items | Fork l r => left_over l + left_over r | Dead => 0 end.

(* a bound on the steps still to come *)
Fixpoint measure (j : Job A B) : nat :=
  match j with
  | Todo [] _ => 0
  | Todo (_ :: r) _ => 4 * length r + 2
  | Fork l r => S (measure l + measure r)
  | Dead => 0
  end.

Lemma step_will x y : job_step f x y -> will (fst y) = will (fst x).
Proof.
  intros S. induction S; cbn [fst will seq_call] in *; auto.
  - rewrite seq_app. destruct (seq_call f l1), (seq_call f l2); simpl; auto.
  - rewrite H. destruct (seq_call f r); simpl; auto. now rewrite app_assoc.
  - now rewrite H.
  - now rewrite IHS.
  - now rewrite IHS.
  - simpl. now rewrite !app_nil_r.
  - destruct (will l); auto.
Qed.

Lemma step_count x y : job_step f x y -> will (fst x) <> None -> snd y + left_over (fst y) = snd x + left_over (fst x).
Proof.
  intros S. induction S; cbn [fst snd left_over length will seq_call] in *; intros W.
  - rewrite app_length. lia.
  - lia.
  - rewrite H in W. now elim W.
  - destruct (will l); [|now elim W]. specialize (IHS ltac:(discriminate)). lia.
  - destruct (will l), (will r); try (now elim W). specialize (IHS ltac:(discriminate)). lia.
  - lia.
  - now elim W.
  - destruct (will l); now elim W.
Qed.

Lemma step_measure x y : job_step f x y -> measure (fst y) < measure (fst x).
Proof.
  intros S. induction S; cbn [fst measure length app] in *; try lia.
  - destruct l1 as [|a l1]; [congruence|]. destruct l2 as [|b l2]; [congruence|]. cbn [app]. rewrite app_length. cbn [length]. lia.
  - destruct r; cbn [length]; lia.
Qed.

Lemma can_step j : forall c, ended j = false -> exists y, job_step f (j, c) y.
Proof.
  induction j as [items out|l IHl r IHr|]; intros c E; [|clear E|discriminate].
  - destruct items as [|x items]; [discriminate|]. destruct (f x) as [ys|] eqn:Ex; eexists; [apply step_item|apply step_panic]; eauto.
  - destruct (ended l) eqn:El.
    + destruct (ended r) eqn:Er.
      * destruct l as [[|? ?] o1|?|]; try discriminate.
        -- destruct r as [[|? ?] o2|?|]; try discriminate; eexists; [apply step_join|apply step_dead_right; reflexivity].
        -- eexists. now apply step_dead_left.
      * destruct (IHr c eq_refl) as ((r', c') & S). eexists. apply step_right, S.
    + destruct (IHl c eq_refl) as ((l', c') & S). eexists. apply step_left, S.
Qed.

Lemma steps_inv k : forall x y, job_steps f k x y -> will (fst y) = will (fst x) /\ k + measure (fst y) <= measure (fst x) /\
  (will (fst x) <> None -> snd y + left_over (fst y) = snd x + left_over (fst x)).
Proof.
  intros x y S. induction S as [|k x y z S1 S (IW & IM & IC)]. auto.
  pose proof (step_will _ _ S1) as W. pose proof (step_measure _ _ S1). repeat split. congruence. lia.
  intros N. rewrite IC by congruence. now apply step_count.
Qed.

Lemma steps_end j : forall c, exists k y, job_steps f k (j, c) y /\ ended (fst y) = true.
Proof.
  remember (measure j) as m eqn:E. revert j E. induction m as [m IH] using lt_wf_ind. intros j -> c.
  destruct (ended j) eqn:E. exists 0, (j, c). split; [constructor|exact E].
  destruct (can_step j c E) as ((j', c') & S). pose proof (step_measure _ _ S) as M. cbn [fst] in M.
  destruct (IH _ M j' eq_refl c') as (k & y & K & D). exists (Datatypes.S k), y. split; auto. econstructor; eauto.
Qed.

Lemma ended_will j : ended j = true -> match will j with Some out => j = Todo [] out | None => j = Dead end.
Proof. destruct j as [[|? ?] out|?|]; simpl; intros E; try discriminate; auto. now rewrite app_nil_r. Qed.

Lemma will_start items : will (Todo items []) = seq_call f items.
Proof. simpl. now destruct (seq_call f items). Qed.

Lemma par_call_iff items res : par_call f items res <-> res = seq_call f items.
Proof.
  split.
  - intros (k & j & c & S & E). destruct (steps_inv _ _ _ S) as (W & _). rewrite <- (will_start items).
    change (will (Todo items [])) with (will (fst (Todo items (@nil B), 0))). rewrite <- W. cbn [fst]. destruct res; subst j; simpl; auto. now rewrite app_nil_r.
  - intros ->. destruct (steps_end (Todo items []) 0) as (k & (j, c) & S & E). exists k, j, c. split; auto.
    apply ended_will in E. destruct (steps_inv _ _ _ S) as (W & _). cbn [fst] in *. rewrite will_start in W. now rewrite W in E.
Qed.
End Job.

(* ---------- prune and prove_all ---------- *)

Lemma filter_seq channels stride data ix ids : seq_call (prune_closure channels stride data ix) ids = filter_ids channels stride data ix ids.
Proof.
  induction ids as [|id ids IH]; cbn [seq_call filter_ids]; auto. rewrite IH. unfold prune_closure.
  destruct (get_set _ _ _ _); auto. destruct (lookup _ _ _) as [found|]; auto. destruct (filter_ids _ _ _ _ _); auto.
  destruct found; auto.
Qed.

Lemma groups_iff channels stride data gs : forall st res,
  groups_par channels stride data gs st res <-> res = fold_opt (prune_group channels stride data) gs st.
Proof.
  induction gs as [|g gs IH]; intros st res; cbn [fold_opt].
  - split; [intros G; now inversion G|intros ->; constructor].
  - unfold prune_group. split.
    + intros G. inversion G as [|? ? ? P|? ? ? ids P W|? ? ? ids st' ? P W N]; subst; rewrite par_call_iff, filter_seq in P; rewrite <- P; auto.
      * now rewrite W.
      * rewrite W. now apply IH.
    + intros ->. destruct (filter_ids channels stride data (fst st) (snd g)) as [ids|] eqn:F.
      * assert (P : par_call (prune_closure channels stride data (fst st)) (snd g) (Some ids)) by (rewrite par_call_iff, filter_seq; auto).
        destruct (fold_opt (write_id channels stride data) ids st) as [st'|] eqn:W.
        -- eapply groups_next; eauto. now apply IH.
        -- eapply groups_write_panic; eauto.
      * apply groups_panic. rewrite par_call_iff, filter_seq. auto.
Qed.

Lemma prune_data_iff channels data res : prune_data_par channels data res <-> res = prune_data channels data.
Proof.
  unfold prune_data_par, prune_data. destruct (chunks _ data) as [ps|]; [|tauto]. split.
  - intros (r & G & ->). apply groups_iff in G. rewrite <- G. now destruct r.
  - intros ->. exists (fold_opt (prune_group channels (packed_len_for_channels channels) data) (by_state_len ps) (index_new LowerInvert channels, [])). split. now apply groups_iff. now destruct (fold_opt _ _ _).
Qed.

Lemma prove_seq g l : seq_call (prove_closure g) l = map_opt (fun e => st <- find_step g (snd e) (fst e) ;; Some (fst e, st)) l.
Proof.
  induction l as [|e l IH]; cbn [seq_call map_opt]; auto. rewrite IH. unfold prove_closure.
  destruct (find_step g (snd e) (fst e)); auto.
Qed.

Lemma prove_all_iff g res : prove_all_par g res <-> res = prove_all g.
Proof.
  unfold prove_all_par, prove_all. split.
  - intros (r & P & ->). rewrite par_call_iff, prove_seq in P. rewrite <- P. now destruct r.
  - intros ->. eexists. split. rewrite par_call_iff, prove_seq. reflexivity. now destruct (map_opt _ _).
Qed.
