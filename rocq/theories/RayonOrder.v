(* The certificate does not depend on the order in which the HashMap gives its entries. *)
From Coq Require Import List Arith Bool Lia Permutation.
Import ListNotations.
From Verif Require Import Spec Util OutputSetModel TreeModel IndexModel FileModel LogModel DecodeModel ProofGenModel CanonLoop CrashProofs RayonModel RayonProofs.

Lemma os_eqb_refl s : os_eqb s s = true. Proof. now apply os_eqb_bitmap. Qed.

(* the keys of a map *)
Definition keys {V} (l : list (OutputSet * V)) : list (list bool) := map (fun e => bitmap (fst e)) l.

Lemma put_keys {V} s (v : V) l : keys (set_put s v l) = keys l \/ (~ In (bitmap s) (keys l) /\ keys (set_put s v l) = keys l ++ [bitmap s]).
Proof.
  induction l as [|(k, w) l IH]; simpl; auto. destruct (os_eqb k s) eqn:E; simpl; auto.
  destruct IH as [->|(N & ->)]; auto. right. split; auto. intros [H|H]; auto. apply (proj2 (os_eqb_bitmap k s)) in H. congruence.
Qed.

Lemma put_NoDup {V} s (v : V) l : NoDup (keys l) -> NoDup (keys (set_put s v l)).
Proof.
  intros N. destruct (put_keys s v l) as [->|(I & ->)]; auto.
  apply (Permutation_NoDup (Permutation_cons_append _ _)). constructor; auto.
Qed.

Lemma put_new {V} s (v : V) l : ~ In (bitmap s) (keys l) -> set_put s v l = l ++ [(s, v)].
Proof.
  induction l as [|(k, w) l IH]; simpl; auto. intros N. destruct (os_eqb k s) eqn:E.
  - apply os_eqb_bitmap in E. elim N. auto.
  - f_equal. auto.
Qed.

Lemma collect_id sts : NoDup (keys sts) -> collect_steps sts = sts.
Proof.
  unfold collect_steps. assert (H : forall acc, NoDup (keys (acc ++ sts)) -> fold_left (fun l e => set_put (fst e) (snd e) l) sts acc = acc ++ sts).
  { induction sts as [|(s, v) sts IH]; intros acc N; simpl. now rewrite app_nil_r. cbn [fst snd]. rewrite put_new.
    - rewrite IH. now rewrite <- app_assoc. rewrite <- app_assoc. exact N.
    - unfold keys in *. rewrite map_app in N. simpl in N. apply NoDup_remove_2 in N. intros I. apply N, in_or_app. auto. }
  intros N. now apply (H []).
Qed.

Lemma get_In {V} s (l : list (OutputSet * V)) v : NoDup (keys l) -> (set_get s l = Some v <-> exists k, bitmap k = bitmap s /\ In (k, v) l).
Proof.
  induction l as [|(k, w) l IH]; simpl; intros N. { split; [discriminate|intros (k & _ & [])]. }
  inversion N as [|? ? Nk Nl]; subst. destruct (os_eqb k s) eqn:E.
  - apply os_eqb_bitmap in E. split.
    + intros H. injection H as ->. exists k. auto.
    + intros (k' & B & [Q|I]); [congruence|]. elim Nk. rewrite E, <- B. unfold keys. apply in_map_iff. now exists (k', v).
  - rewrite IH by auto. split; intros (k' & B & I); exists k'; split; auto. destruct I as [Q|I]; auto. injection Q as -> ->.
    apply (proj2 (os_eqb_bitmap k' s)) in B. congruence.
Qed.

Lemma get_perm {V} s (l l' : list (OutputSet * V)) : NoDup (keys l) -> Permutation l l' -> set_get s l' = set_get s l.
Proof.
  intros N P. assert (N' : NoDup (keys l')) by (eapply Permutation_NoDup; [apply Permutation_map, P|exact N]).
  destruct (set_get s l) as [v|] eqn:E.
  - apply get_In; auto. apply (get_In s l v N) in E. destruct E as (k & B & I). exists k. split; auto. eapply Permutation_in; eauto.
  - destruct (set_get s l') as [v|] eqn:E'; auto. apply (get_In s l' v N') in E'. destruct E' as (k & B & I).
    assert (Q : set_get s l = Some v). { apply get_In; auto. exists k. split; auto. eapply Permutation_in; [symmetry|]; eauto. } congruence.
Qed.

Lemma map_opt_perm {A B} (f : A -> option B) l l' : Permutation l l' ->
  match map_opt f l, map_opt f l' with Some r, Some r' => Permutation r r' | None, None => True | _, _ => False end.
Proof.
  intros P. induction P as [|x l l' P IH|x y l|l1 l2 l3 P1 IH1 P2 IH2]; simpl.
  - constructor.
  - destruct (f x); auto. destruct (map_opt f l), (map_opt f l'); auto.
  - destruct (f x), (f y); simpl; auto; destruct (map_opt f l); auto. apply perm_swap.
  - destruct (map_opt f l1), (map_opt f l2), (map_opt f l3); try tauto. now transitivity l0.
Qed.

Lemma gen_new_keys ixs g : gen_new ixs = Some g -> NoDup (keys (output_sets g)) /\ step_ids g = [] /\ step_data g = [].
Proof.
  unfold gen_new. assert (H : forall l r, NoDup (keys l) -> fold_opt (fun l e => es <- for_each (snd e) ;;
    Some (fold_left (fun l x => set_put (fst (fst x)) (snd x) l) es l)) ixs l = Some r -> NoDup (keys r)).
  { induction ixs as [|e ixs IH]; intros l r N; cbn [fold_opt]. now intros H; injection H as <-.
    destruct (for_each (snd e)) as [es|]; [|discriminate]. apply IH. clear - N. revert l N.
    induction es as [|x es IHe]; intros l N; simpl; auto. apply IHe. now apply put_NoDup. }
  destruct (fold_opt _ ixs []) as [sets|] eqn:E; [|discriminate]. intros Q. injection Q as <-. cbn [output_sets step_ids step_data].
  split; auto. eapply H; [|exact E]. constructor.
Qed.

(* ---------- encoding reads the steps only by key ---------- *)

Definition same_but (g g' : GenProof) : Prop :=
  pruned_indexes g = pruned_indexes g' /\ output_sets g = output_sets g' /\ step_ids g = step_ids g' /\ step_data g = step_data g' /\
  forall s, set_get s (steps g) = set_get s (steps g').

Definition same_res {X} (r r' : option (GenProof * X)) : Prop :=
  match r, r' with Some (g, x), Some (g', x') => same_but g g' /\ x = x' | None, None => True | _, _ => False end.

Lemma witnesses_same enc : (forall g g' t, same_but g g' -> same_res (enc g t) (enc g' t)) ->
  forall ws g g' data, same_but g g' -> same_res (encode_witnesses enc ws g data) (encode_witnesses enc ws g' data).
Proof.
  intros He. unfold encode_witnesses. induction ws as [|w ws IH]; intros g g' data S; cbn [fold_opt]. simpl. auto.
  destruct w as [((invert, perm), s)|]; [|auto]. specialize (He g g' s S). unfold same_res in He.
  destruct (enc g s) as [(h, i)|], (enc g' s) as [(h', i')|]; try tauto. destruct He as (S' & ->). now apply IH.
Qed.

Lemma encode_same : forall fuel g g' t, same_but g g' -> same_res (encode_proof fuel g t) (encode_proof fuel g' t).
Proof.
  induction fuel as [|f IH]; intros g g' t S; cbn [encode_proof]. exact I.
  pose proof S as (E1 & E2 & E3 & E4 & E5). rewrite <- E3, <- E2, <- E5. destruct (set_get t (step_ids g)). simpl; auto.
  destruct (set_get t (output_sets g)) as [bound|]; [|exact I]. destruct (packed t) as [pk|]; [|exact I].
  destruct (set_get t (steps g)) as [st|]; [|exact I].
  assert (Q : forall ws data, same_res
     (r <- encode_witnesses (encode_proof f) ws g data ;;
      let '(g', d) := r in let id := length (step_data g') in
      Some (mkGen (pruned_indexes g') (output_sets g') (steps g') (set_put t id (step_ids g')) (step_data g' ++ [d]), Some id))
     (r <- encode_witnesses (encode_proof f) ws g' data ;;
      let '(g', d) := r in let id := length (step_data g') in
      Some (mkGen (pruned_indexes g') (output_sets g') (steps g') (set_put t id (step_ids g')) (step_data g' ++ [d]), Some id))).
  { intros ws data. pose proof (witnesses_same (encode_proof f) (IH) ws g g' data S) as W. unfold same_res in W.
    destruct (encode_witnesses _ ws g data) as [(h, d)|], (encode_witnesses _ ws g' data) as [(h', d')|]; try tauto.
    destruct W as ((F1 & F2 & F3 & F4 & F5) & ->). simpl. rewrite F1, F2, F3, F4. repeat split; auto. }
  destruct st; try exact (conj S eq_refl); apply Q.
Qed.

Lemma gen_proof_iff fuel fs res : gen_proof_par fuel fs res <-> res = gen_proof fuel fs.
Proof.
  unfold gen_proof_par, gen_proof. destruct (load_indexes fs) as [ixs|]; [|tauto]. destruct (max_channels ixs) as [n|]; [|tauto].
  destruct (gen_new ixs) as [g|] eqn:G; [|tauto]. destruct (gen_new_keys _ _ G) as (N & _).
  assert (Q : forall order, Permutation (output_sets g) order ->
    (sts <- seq_call (prove_closure g) order ;;
     e <- encode_proof fuel (mkGen (pruned_indexes g) (output_sets g) (collect_steps sts) (step_ids g) (step_data g)) (all_values n) ;;
     Some (write_proof (step_data (fst e)))) =
    (g0 <- prove_all g ;; r <- encode_proof fuel g0 (all_values n) ;; Some (write_proof (step_data (fst r))))).
  { intros order P. rewrite prove_seq. unfold prove_all.
    set (h := fun e => st <- find_step g (snd e) (fst e) ;; Some (fst e, st)).
    pose proof (map_opt_perm h _ _ P) as M. destruct (map_opt h (output_sets g)) as [sts|] eqn:E, (map_opt h order) as [sts'|]; try tauto.
    assert (K : keys sts = keys (output_sets g)).
    { clear - E. revert sts E. induction (output_sets g) as [|e l IH]; intros sts E; simpl in E. now injection E as <-.
      unfold h in E at 1. destruct (find_step g (snd e) (fst e)); [|discriminate]. destruct (map_opt h l) as [r|]; [|discriminate].
      injection E as <-. unfold keys in *. simpl. f_equal. now apply IH. }
    assert (Ns : NoDup (keys sts)) by now rewrite K.
    rewrite (collect_id sts') by (eapply Permutation_NoDup; [apply Permutation_map, M|exact Ns]).
    assert (S : same_but (mkGen (pruned_indexes g) (output_sets g) sts' (step_ids g) (step_data g)) (mkGen (pruned_indexes g) (output_sets g) sts (step_ids g) (step_data g))).
    { repeat split; auto. intros s. cbn [steps]. now apply get_perm. }
    pose proof (encode_same fuel _ _ (all_values n) S) as R. unfold same_res in R.
    destruct (encode_proof fuel _ (all_values n)) as [(a, x)|], (encode_proof fuel _ (all_values n)) as [(b, y)|]; try tauto.
    destruct R as ((_ & _ & _ & D & _) & _). cbn [fst]. now rewrite D. }
  split.
  - intros (order & r & P & C & ->). apply par_call_iff in C. rewrite C. now apply Q.
  - intros ->. exists (output_sets g), (seq_call (prove_closure g) (output_sets g)). split; [reflexivity|]. split.
    now apply par_call_iff. symmetry. now apply Q.
Qed.

(* ---------- the files ---------- *)

Lemma prune_ops_iff channels input fs res : prune_ops_par channels input fs res <-> res = prune_ops channels input fs.
Proof.
  unfold prune_ops_par, prune_ops. destruct (fs input) as [file|]; [|tauto]. destruct (mmap file) as [data|]; [|tauto].
  destruct (fs (with_extension input _)); [tauto|]. split.
  - intros (w & P & ->). apply prune_data_iff in P. rewrite P. now destruct (prune_data channels data).
  - intros ->. exists (prune_data channels data). split. now apply prune_data_iff. now destruct (prune_data channels data).
Qed.

Lemma prune_lines_iff ls : forall fs res, prune_lines_par ls fs res <-> res = prune_lines ls fs.
Proof.
  induction ls as [|line ls IH]; intros fs res; cbn [prune_lines_par prune_lines]. tauto.
  destruct (line_channels line) as [channels|]; [|tauto]. split.
  - intros (o & P & H). apply prune_ops_iff in P. rewrite <- P. destruct o as [ops|]; auto.
    destruct H as (rest & R & ->). apply IH in R. rewrite <- R. now destruct rest.
  - intros ->. exists (prune_ops channels line fs). split. now apply prune_ops_iff.
    destruct (prune_ops channels line fs) as [ops|]; auto. exists (prune_lines ls (fs_run ops fs)). split. now apply IH.
    now destruct (prune_lines ls (fs_run ops fs)).
Qed.

Lemma prune_all_ops_iff fs res : prune_all_ops_par fs res <-> res = prune_all_ops fs.
Proof. unfold prune_all_ops_par, prune_all_ops. destruct (fs index_name); [apply prune_lines_iff|tauto]. Qed.

Lemma prune_all_iff fs res : prune_all_par fs res <-> res = prune_all fs.
Proof.
  unfold prune_all_par, prune_all. split.
  - intros (o & P & ->). apply prune_all_ops_iff in P. rewrite <- P. now destruct o.
  - intros ->. exists (prune_all_ops fs). split. now apply prune_all_ops_iff. now destruct (prune_all_ops fs).
Qed.

Lemma crashes_iff fs fs' : crashes_par fs fs' <-> crashes fs fs'.
Proof.
  split; intros C; induction C as [|? ? ? ? C IH P].
  - constructor.
  - apply prune_all_ops_iff in P. econstructor; eauto.
  - constructor.
  - econstructor; eauto. now apply prune_all_ops_iff.
Qed.
