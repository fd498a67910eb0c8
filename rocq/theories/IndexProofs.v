(* The index keeps a multiset of entries; lookups and insertions do what IndexSpec.v says. *)
From Coq Require Import List Arith Bool Lia Permutation.
Import ListNotations.
From Verif Require Import Spec Vec Util OutputSetModel OutputSetProofs PackProofs SubsumeModel
  TreeModel TreeProofs TreeTraverse TreeMut TreeBuild IndexModel IndexSpec IndexTests.

(* ---------- walking all trees and the buffer ---------- *)

Section Scan.
Context {S_ : Type}.
Variable filt : S_ -> Aug -> list (nat * nat) -> bool.
Variable act : S_ -> Entry -> option (S_ * bool).
Hypothesis go : forall s e s1 b, act s e = Some (s1, b) -> b = true.

Lemma Walk_app s L1 s1 L2 s2 : Walk filt act s L1 s1 -> Walk filt act s1 L2 s2 -> Walk filt act s (L1 ++ L2) s2.
Proof.
  induction 1 as [s|s e s1 L s3 E W IH|s e s1 L E|s g rg es L s3 F C W IH]; cbn; auto.
  - intros H. eapply W_visit; eauto.
  - apply go in E. discriminate.
  - intros H. rewrite <- app_assoc. eapply W_skip; eauto.
Qed.

Lemma buffer_walk L s : (forall s e, In e L -> act s e <> None) ->
  exists s', fold_opt (fun us e => r <- act us e ;; Some (fst r)) L s = Some s' /\ Walk filt act s L s'.
Proof.
  revert s. induction L as [|e L IH]; intros s Ha; cbn [fold_opt].
  - exists s. split; auto. constructor.
  - destruct (act s e) as [[s1 b]|] eqn:E. 2: { apply Ha in E; cbn; auto; contradiction. }
    pose proof (go _ _ _ _ E) as ->. destruct (IH s1) as (s' & E' & W). { intros. apply Ha. cbn; auto. }
    exists s'. cbn [fst]. split; auto. eapply W_visit; eauto.
Qed.

Lemma trees_walk dir (P : list (Tree * list Entry)) s : Forall (fun p => tree_inv (fst p) (snd p)) P ->
  (forall s e, In e (concat (map snd P)) -> act s e <> None) ->
  exists s' L', fold_opt (fun us t => traverse t us dir filt act) (map fst P) s = Some s' /\
    Permutation L' (concat (map snd P)) /\ Walk filt act s L' s'.
Proof.
  revert s. induction P as [|(t, L) P IH]; intros s HP Ha; cbn [map fold_opt concat fst snd] in *.
  - exists s, []. repeat split; auto. constructor.
  - apply Forall_cons_iff in HP. destruct HP as (I & HP). cbn in I.
    destruct (traverse_ok filt act t s dir L I) as (s1 & L1 & T & P1 & W1). { intros. apply Ha. apply in_app_iff; auto. }
    rewrite T. destruct (IH s1 HP) as (s2 & L2 & T2 & P2 & W2). { intros. apply Ha. apply in_app_iff; auto. }
    exists s2, (L1 ++ L2). split; auto. split. now apply Permutation_app. eapply Walk_app; eauto.
Qed.
End Scan.

(* ---------- the invariant ---------- *)

Definition good_entry (n : nat) (e : Entry) : Prop :=
  exists s, wf s /\ channels s = n /\ e_point e = abstraction s /\ packed s = Some (e_packed e).

Definition set_of (n : nat) (e : Entry) : OutputSet :=
  match from_packed n (e_packed e) with Some s => s | None => all_values 0 end.
Definition item (n : nat) (e : Entry) : OutputSet * nat := (set_of n e, e_value e).

Lemma good_set n e : good_entry n e -> gs n (set_of n e) /\ e_point e = abstraction (set_of n e) /\
  from_packed n (e_packed e) = Some (set_of n e) /\ packed (set_of n e) = Some (e_packed e).
Proof.
  intros (s & W & C & A & P). destruct (packed_roundtrip s W) as (pk & P' & _ & _ & R). rewrite P in P'. injection P' as <-.
  rewrite C in R. unfold set_of. rewrite R. repeat split; auto.
Qed.

Definition ix_inv (d : Dir) (n : nat) (ix : Index) (L : list Entry) : Prop :=
  ix_dir ix = d /\ ix_channels ix = n /\ Forall (good_entry n) L /\
  exists P : list (Tree * list Entry), map fst P = ix_trees ix /\ Forall (fun p => tree_inv (fst p) (snd p) /\ snd p <> []) P /\
    Permutation L (concat (map snd P) ++ ix_ents ix).

Lemma ix_inv_perm d n ix L L' : Permutation L L' -> ix_inv d n ix L -> ix_inv d n ix L'.
Proof.
  intros P (A & B & G & Q & E & F & R). repeat split; auto.
  - eapply Permutation_Forall; eauto.
  - exists Q. repeat split; auto. now rewrite <- P.
Qed.

Lemma scan_ok {S_} filt act d n ix L (us : S_) : (forall s e s1 b, act s e = Some (s1, b) -> b = true) ->
  ix_inv d n ix L -> (forall s e, In e L -> act s e <> None) ->
  exists us' L', scan filt act ix us = Some us' /\ Permutation L' L /\ Walk filt act us L' us'.
Proof.
  intros Go (_ & _ & G & P & E & F & R) Ha. unfold scan.
  destruct (trees_walk filt act Go (lookup_dir (ix_dir ix)) P us) as (s1 & L1 & T & P1 & W1).
  { eapply Forall_impl; [|exact F]. now intros ? []. }
  { intros. apply Ha. eapply Permutation_in. symmetry; exact R. apply in_app_iff; auto. }
  rewrite E in T. rewrite T. destruct (buffer_walk filt act Go (ix_ents ix) s1) as (s2 & T2 & W2).
  { intros. apply Ha. eapply Permutation_in. symmetry; exact R. apply in_app_iff; auto. }
  rewrite T2. exists s2, (L1 ++ ix_ents ix). split; auto. split. rewrite R. now apply Permutation_app_tail. eapply Walk_app; eauto.
Qed.

(* ---------- for_each, len, is_empty ---------- *)

Lemma for_each_ok d n ix L : ix_inv d n ix L -> exists L', Permutation L' L /\
  for_each ix = Some (map (fun e => (set_of n e, e_point e, e_value e)) L').
Proof.
  intros I. pose proof I as (_ & C & G & _). unfold for_each.
  destruct (scan_ok (fun _ _ _ => true) (fun acc e => cand <- from_packed (ix_channels ix) (e_packed e) ;; Some (acc ++ [(cand, e_point e, e_value e)], true))
     d n ix L []) as (us & L' & T & P & W); auto.
  - intros s e s1 b. destruct (from_packed _ _); [|discriminate]. congruence.
  - intros s e He. rewrite Forall_forall in G. apply G in He. destruct (good_set n e He) as (_ & _ & F & _). rewrite C, F. discriminate.
  - exists L'. split; auto. rewrite T. f_equal.
    assert (K : forall acc M us, Walk (fun _ _ _ => true) (fun acc e => cand <- from_packed (ix_channels ix) (e_packed e) ;; Some (acc ++ [(cand, e_point e, e_value e)], true)) acc M us ->
       Forall (good_entry n) M -> us = acc ++ map (fun e => (set_of n e, e_point e, e_value e)) M).
    { clear -C. intros acc M us W. remember (fun _ _ _ => true) as fl eqn:Ef. induction W as [s|s e s1 M s3 E W IH|s e s1 M E|s g rg es M s3 F Cv W IH]; intros Hg; cbn [map].
      - now rewrite app_nil_r.
      - apply Forall_cons_iff in Hg. destruct Hg as (Ge & Hg). destruct (good_set n e Ge) as (_ & _ & Fe & _). rewrite C, Fe in E. injection E as <-.
        rewrite IH by auto. rewrite <- app_assoc. reflexivity.
      - destruct (from_packed _ _); discriminate.
      - subst fl. discriminate. }
    rewrite (K _ _ _ W). reflexivity. eapply Permutation_Forall; [symmetry; exact P|auto].
Qed.

Lemma contents_ok d n ix L : ix_inv d n ix L -> exists M, contents ix = Some M /\ Permutation M (map (item n) L).
Proof.
  intros I. destruct (for_each_ok d n ix L I) as (L' & P & E). unfold contents. rewrite E. cbn [option_map]. eexists. split; [reflexivity|].
  rewrite map_map. cbn [fst snd]. now apply (Permutation_map (item n)).
Qed.

Lemma fold_add_acc l a : fold_left Nat.add l a = a + fold_left Nat.add l 0.
Proof. revert a. induction l as [|x l IH]; intros a; cbn; auto. rewrite IH, (IH x). lia. Qed.

Lemma len_ok d n ix L : ix_inv d n ix L -> index_len ix = length L.
Proof.
  intros (_ & _ & _ & P & E & F & R). unfold index_len. rewrite (Permutation_length R), app_length, <- E, map_map.
  rewrite (Nat.add_comm (length _)). f_equal. clear R E. induction P as [|(t, M) P IH]; cbn [map fold_left concat fst snd]; auto.
  apply Forall_cons_iff in F. destruct F as ((I & _) & F). cbn [fst snd] in *. rewrite fold_add_acc, IH by auto. rewrite app_length.
  rewrite (tree_len_ok t M I). lia.
Qed.

Lemma is_empty_ok d n ix L : ix_inv d n ix L -> (index_is_empty ix = true <-> L = []).
Proof.
  intros (_ & _ & _ & P & E & F & R). unfold index_is_empty. split.
  - destruct (ix_ents ix); [|discriminate]. destruct (ix_trees ix); [|discriminate]. intros _. destruct P; [|discriminate]. cbn in R.
    apply Permutation_nil. now symmetry.
  - intros ->. apply Permutation_nil in R. apply app_eq_nil in R. destruct R as (R1 & ->). destruct P as [|(t, M) P]; cbn in E.
    + now rewrite <- E.
    + apply Forall_cons_iff in F. destruct F as ((_ & F) & _). cbn in *. apply app_eq_nil in R1. destruct R1; contradiction.
Qed.

(* ---------- lookup ---------- *)

Section Lookup.
Variables (d : Dir) (n : nat) (s : OutputSet).
Hypothesis n_pos : 0 < n.
Hypothesis n_max : n <= MAX_CHANNELS.
Hypothesis Gs : gs n s.
Context {S_ : Type}.
Variable proj : S_ -> option nat.
Variable Q : S_ -> Entry -> Prop.
Variable act : S_ -> Entry -> option (S_ * bool).
Hypothesis act_ok : forall b e, good_entry n e ->
  exists b', act b e = Some (b', true) /\
   ((b' = b /\ (does_improve d (proj b) (e_value e) = false \/ ~ covers d (set_of n e) s)) \/
    (does_improve d (proj b) (e_value e) = true /\ proj b' = Some (e_value e) /\ covers d (set_of n e) s /\ Q b' e)).
Let filt (b : S_) (g : Aug) (rg : list (nat * nat)) : bool :=
  can_improve d (proj b) (a_min g) (a_max g) && test_abstraction_range d rg (abstraction s).

Definition best_of (b : S_) (L : list Entry) : Prop :=
  match proj b with
  | None => forall e, In e L -> ~ covers d (set_of n e) s
  | Some v => (exists e, In e L /\ e_value e = v /\ covers d (set_of n e) s /\ Q b e) /\
              (forall e, In e L -> covers d (set_of n e) s -> better d v (e_value e))
  end.

Lemma best_none b e D : best_of b D -> does_improve d (proj b) (e_value e) = false \/ ~ covers d (set_of n e) s -> best_of b (e :: D).
Proof.
  unfold best_of. destruct (proj b) as [v|].
  - intros ((e0 & I0 & R0) & B) H. split. exists e0. split; [now right|auto].
    intros e1 [<-|I1] Hc; auto. destruct H as [H|H]; [|contradiction].
    unfold does_improve in H. unfold better. destruct d; apply Nat.ltb_ge in H; lia.
  - intros B H e1 [<-|I1] Hc. destruct H as [H|H]; [discriminate|contradiction]. now apply (B e1).
Qed.

Lemma best_skip b es D g rg : best_of b D -> Forall (good_entry n) es -> covered g rg es -> filt b g rg = false -> best_of b (es ++ D).
Proof.
  intros B G (_ & Cv) Hf. assert (K : forall e, In e es -> does_improve d (proj b) (e_value e) = false \/ ~ covers d (set_of n e) s).
  { intros e He. rewrite Forall_forall in G. destruct (good_set n e (G e He)) as (Ge & Ep & _). destruct (Cv e He) as (V & R).
    apply andb_false_iff in Hf. destruct Hf as [Hf|Hf].
    - left. unfold can_improve in Hf. unfold does_improve. destruct (proj b); [|discriminate].
      destruct d; apply Nat.ltb_ge in Hf; apply Nat.ltb_ge; lia.
    - right. intros Hc. rewrite (range_test n n_pos n_max d rg (e_point e) (abstraction s)) in Hf; try discriminate; auto.
      + rewrite Ep. now apply abl.
      + now apply abl.
      + rewrite Ep. now apply (abs_test n). }
  clear G Cv. induction es as [|e es IH]; cbn; auto. apply best_none. apply IH. intros; apply K; cbn; auto. apply K; cbn; auto.
Qed.

Lemma best_perm b D D' : Permutation D D' -> best_of b D -> best_of b D'.
Proof.
  intros P. unfold best_of. destruct (proj b) as [v|].
  - intros ((e0 & I0 & R0) & B). split. exists e0. split; auto. eapply Permutation_in; eauto.
    intros e He. apply B. eapply Permutation_in; [symmetry|]; eauto.
  - intros B e He. apply B. eapply Permutation_in; [symmetry|]; eauto.
Qed.

Lemma walk_best b L b' : Walk filt act b L b' -> Forall (good_entry n) L -> forall D, best_of b D -> best_of b' (L ++ D).
Proof.
  induction 1 as [b|b e b1 M b3 E W IH|b e b1 M E|b g rg es M b3 F Cv W IH]; intros G D B; cbn; auto.
  - apply Forall_cons_iff in G. destruct G as (Ge & G).
    destruct (act_ok b e Ge) as (b1' & E' & H). rewrite E in E'. injection E' as <-.
    apply (best_perm _ (M ++ e :: D)). symmetry. apply Permutation_middle. apply IH; auto.
    destruct H as [(-> & H)|(H & H1 & H2 & H3)].
    + now apply best_none.
    + unfold best_of in *. rewrite H1. split. exists e. repeat split; cbn; auto.
      intros e1 [<-|I1] Hc. destruct d; cbn; lia. destruct (proj b) as [v|].
      * destruct B as (_ & B). specialize (B e1 I1 Hc). unfold does_improve in H. unfold better in *. destruct d; apply Nat.ltb_lt in H; lia.
      * exfalso. now apply (B e1).
  - apply Forall_cons_iff in G. destruct G as (Ge & G). destruct (act_ok b e Ge) as (b1' & E' & _). rewrite E in E'. discriminate.
  - apply Forall_app in G. destruct G as (G1 & G2). rewrite <- app_assoc.
    apply (best_perm _ (M ++ es ++ D)). apply Permutation_app_swap_app. apply IH; auto. eapply best_skip; eauto.
Qed.

Lemma scan_best ix L b : ix_inv d n ix L -> proj b = None -> (forall b e b1 x, act b e = Some (b1, x) -> x = true) ->
  exists b', scan filt act ix b = Some b' /\ best_of b' L.
Proof.
  intros I Pb Go. pose proof I as (_ & _ & G & _).
  destruct (scan_ok filt act d n ix L b Go I) as (b' & L' & T & P & W).
  - intros b0 e He. rewrite Forall_forall in G. destruct (act_ok b0 e (G e He)) as (b1 & E & _). congruence.
  - exists b'. split; auto. apply (best_perm _ (L' ++ [])). now rewrite app_nil_r.
    eapply walk_best; eauto. eapply Permutation_Forall; [symmetry; exact P|auto]. unfold best_of. rewrite Pb. intros e [].
Qed.
End Lookup.

Section Ops.
Variables (d : Dir) (n : nat).
Hypothesis n_pos : 1 < n.
Hypothesis n_max : n <= MAX_CHANNELS.

Lemma subsuming_action_ok ix s b e : gs n s -> ix_dir ix = d -> ix_channels ix = n -> good_entry n e ->
  exists b', subsuming_action ix s (abstraction s) b e = Some (b', true) /\
   ((b' = b /\ (does_improve d (option_map (fun x => fst (fst x)) b) (e_value e) = false \/ ~ covers d (set_of n e) s)) \/
    (does_improve d (option_map (fun x => fst (fst x)) b) (e_value e) = true /\ option_map (fun x => fst (fst x)) b' = Some (e_value e)
      /\ covers d (set_of n e) s /\ exists w, b' = Some (e_value e, w, set_of n e) /\ valid d (set_of n e) s w)).
Proof.
  intros Gs Ed En Ge. destruct (good_set n e Ge) as (Gc & Ep & Ef & _). unfold subsuming_action. rewrite Ed, En, Ef, Ep.
  assert (Hp : 0 < n) by lia.
  destruct (does_improve d (option_map _ b) (e_value e)) eqn:Hi; cbn [negb]. 2: { exists b. auto. }
  destruct (test_abstraction d (abstraction (set_of n e)) (abstraction s)) eqn:Ht; cbn [negb].
  2: { exists b. split; auto. left. split; auto. right. intros Hc. rewrite (abs_test n Hp n_max) in Ht; auto. discriminate. }
  destruct (os_eqb (set_of n e) s) eqn:Heq.
  - apply (os_eqb_eq n) in Heq; auto. assert (V : valid d (set_of n e) s (id_perm n)). { rewrite <- Heq. now apply valid_id. }
    assert (Cs : channels s = n) by apply Gs. rewrite Cs.
    eexists. split; [reflexivity|]. right. split; auto. split; auto. split. now exists (id_perm n). eexists. split; [reflexivity|auto].
  - destruct (precise n Hp n_max d (set_of n e) s Gc Gs) as (r & Er & R). rewrite Er. destruct r as [w|].
    + eexists. split; [reflexivity|]. right. split; auto. split; auto. split. now exists w. eexists. split; [reflexivity|auto].
    + exists b. split; auto.
Qed.

Lemma lookup_action_ok ix s b e : gs n s -> ix_dir ix = d -> ix_channels ix = n -> good_entry n e ->
  exists b', lookup_action ix s (abstraction s) b e = Some (b', true) /\
   ((b' = b /\ (does_improve d b (e_value e) = false \/ ~ covers d (set_of n e) s)) \/
    (does_improve d b (e_value e) = true /\ b' = Some (e_value e) /\ covers d (set_of n e) s /\ True)).
Proof.
  intros Gs Ed En Ge. destruct (good_set n e Ge) as (Gc & Ep & Ef & _). unfold lookup_action. rewrite Ed, En, Ef, Ep.
  assert (Hp : 0 < n) by lia.
  destruct (does_improve d b (e_value e)) eqn:Hi; cbn [negb]. 2: { exists b. auto. }
  destruct (test_abstraction d (abstraction (set_of n e)) (abstraction s)) eqn:Ht; cbn [negb].
  2: { exists b. split; auto. left. split; auto. right. intros Hc. rewrite (abs_test n Hp n_max) in Ht; auto. discriminate. }
  destruct (os_eqb (set_of n e) s) eqn:Heq.
  - apply (os_eqb_eq n) in Heq; auto. assert (V : valid d (set_of n e) s (id_perm n)). { rewrite <- Heq. now apply valid_id. }
    eexists. split; [reflexivity|]. right. split; auto. split; auto. split; auto. now exists (id_perm n).
  - destruct (precise n Hp n_max d (set_of n e) s Gc Gs) as (r & Er & R). rewrite Er. destruct r as [w|].
    + eexists. split; [reflexivity|]. right. split; auto. split; auto. split; auto. now exists w.
    + exists b. split; auto.
Qed.

Lemma lookup_ok ix L s : ix_inv d n ix L -> gs n s -> exists r, lookup ix s (abstraction s) = Some r /\
  best_of d n s (fun b => b) (fun _ _ => True) r L.
Proof.
  intros I Gs. pose proof I as (Ed & En & _). unfold lookup, lookup_filter. rewrite Ed.
  assert (Hp : 0 < n) by lia.
  apply (scan_best d n s Hp n_max Gs (fun b => b) (fun _ _ => True)); auto.
  - intros b e Ge. now apply lookup_action_ok.
  - intros b e b1 x. unfold lookup_action. destruct (negb _). congruence. destruct (negb _). congruence. destruct (from_packed _ _); [|discriminate].
    destruct (os_eqb _ _). congruence. destruct (test_precise _ _ _ _ _) as [[w|]|]; congruence.
Qed.

Lemma lookup_subsuming_ok ix L s : ix_inv d n ix L -> gs n s -> exists r, lookup_subsuming ix s (abstraction s) = Some r /\
  best_of d n s (option_map (fun x => fst (fst x))) (fun b e => exists w, b = Some (e_value e, w, set_of n e) /\ valid d (set_of n e) s w) r L.
Proof.
  intros I Gs. pose proof I as (Ed & En & _). unfold lookup_subsuming, subsuming_filter. rewrite Ed.
  assert (Hp : 0 < n) by lia.
  apply (scan_best d n s Hp n_max Gs (option_map (fun x => fst (fst x))) (fun b e => exists w, b = Some (e_value e, w, set_of n e) /\ valid d (set_of n e) s w)); auto.
  - intros b e Ge. now apply subsuming_action_ok.
  - intros b e b1 x. unfold subsuming_action. destruct (negb _). congruence. destruct (negb _). congruence. destruct (from_packed _ _); [|discriminate].
    destruct (os_eqb _ _). congruence. destruct (test_precise _ _ _ _ _) as [[w|]|]; congruence.
Qed.

(* ---------- unchecked insertion ---------- *)

Lemma absorb_ok (R : list (Tree * list Entry)) ents : Forall (fun p => tree_inv (fst p) (snd p) /\ snd p <> []) R ->
  exists R1 ents', absorb d (map fst R) ents = Some (map fst R1, ents') /\
    Forall (fun p => tree_inv (fst p) (snd p) /\ snd p <> []) R1 /\ Permutation (concat (map snd R1) ++ ents') (concat (map snd R) ++ ents).
Proof.
  revert ents. induction R as [|(t, M) R IH]; intros ents F; cbn [map absorb concat fst snd] in *.
  - exists [], ents. repeat split; auto.
  - destruct (length ents <? tree_len t).
    + exists ((t, M) :: R), ents. repeat split; auto.
    + apply Forall_cons_iff in F. destruct F as ((I & _) & F). cbn [fst snd] in I.
      destruct (traverse_ok (fun _ _ _ => true) (fun es e => Some (es ++ [e], true)) t ents (lookup_dir d) M I) as (e1 & M' & T & P & W).
      { intros; discriminate. }
      rewrite T. destruct (IH e1 F) as (R1 & e2 & A & F1 & P1). exists R1, e2. split; auto. split; auto.
      rewrite P1. assert (K : e1 = ents ++ M').
      { clear -W. remember (fun _ _ _ => true) as fl eqn:Ef. revert W. generalize ents, M', e1. intros a b c W. induction W as [s|s e s1 L s3 E W IH|s e s1 L E|s g rg es L s3 F C W IH].
        - now rewrite app_nil_r. - injection E as <-. rewrite IH by auto. now rewrite <- app_assoc. - discriminate. - subst fl. discriminate. }
      rewrite K, P. rewrite (Permutation_app_comm ents M). rewrite app_assoc. apply Permutation_app_tail. apply Permutation_app_comm.
Qed.

Lemma insert_sorted_perm' {A} (leb : A -> A -> bool) a l : Permutation (insert_sorted leb a l) (a :: l).
Proof. induction l as [|b l IH]; cbn; auto. destruct (leb a b); auto. rewrite IH. apply perm_swap. Qed.
Lemma isort_perm' {A} (leb : A -> A -> bool) (l : list A) : Permutation (isort leb l) l.
Proof. induction l as [|a l IH]; cbn; auto. rewrite insert_sorted_perm'. auto. Qed.

Lemma map_concat_perm {A B} (P P' : list (A * list B)) : Permutation P P' -> Permutation (concat (map snd P)) (concat (map snd P')).
Proof.
  induction 1; cbn; auto. - now apply Permutation_app_head. - apply Permutation_app_swap_app. - etransitivity; eauto.
Qed.

Lemma unchecked_ok ix L s v : ix_inv d n ix L -> gs n s ->
  exists ix' pk, packed s = Some pk /\ insert_new_unchecked ix s (abstraction s) v = Some ix' /\ ix_inv d n ix' (mkEntry (abstraction s) pk v :: L).
Proof.
  intros I Gs. destruct (packed_roundtrip s (proj1 Gs)) as (pk & Ep & _). pose proof I as (Ed & En & G & P & E & F & R).
  unfold insert_new_unchecked. rewrite Ep. set (e := mkEntry (abstraction s) pk v).
  assert (Ge : good_entry n e) by (exists s; destruct Gs; cbn; auto).
  destruct (length (ix_ents ix ++ [e]) <? TREE_THRESHOLD).
  - eexists _, pk. split; auto. split; [reflexivity|]. split; [auto|split; [auto|split; [now constructor|]]]. cbn [ix_trees ix_ents].
    exists P. split; auto. split; auto. rewrite R, app_assoc. apply Permutation_cons_append.
  - set (srt := isort _ (ix_trees ix)).
    assert (PS : Permutation (rev srt) (map fst P)). { rewrite <- Permutation_rev. unfold srt. rewrite isort_perm'. now rewrite E. }
    apply Permutation_map_inv in PS. destruct PS as (Q & EQ & PQ). rewrite EQ, Ed.
    destruct (absorb_ok Q (ix_ents ix ++ [e])) as (R1 & ents' & A & F1 & P1). { eapply Permutation_Forall; eauto. }
    rewrite A. cbn [fst snd].
    assert (PT : Permutation (e :: L) (concat (map snd R1) ++ ents')).
    { rewrite P1, <- (map_concat_perm _ _ PQ), R, app_assoc. apply Permutation_cons_append. }
    assert (GT : Forall (good_entry n) (concat (map snd R1) ++ ents')). { eapply Permutation_Forall; [exact PT|]. now constructor. }
    assert (Dim : ix_dim ix = 4 * (n * (n - 1))). { unfold ix_dim, abstraction_len_for_channels, PAIR_ABSTRACTION_GROUPS. rewrite En. lia. }
    destruct (tree_new_ok (ix_dim ix) ents') as (t & T & It & _).
    { rewrite Dim. nia. }
    { intros x Hx. apply Forall_app in GT. destruct GT as (_ & GT). rewrite Forall_forall in GT. destruct (good_set n x (GT x Hx)) as (Gx & Ex & _).
      rewrite Ex, Dim. apply abl; auto. lia. }
    rewrite T. eexists _, pk. split; auto. split; [reflexivity|]. split; [auto|split; [auto|split; [now constructor|]]]. cbn [ix_trees ix_ents].
    exists (rev R1 ++ [(t, ents')]). split. now rewrite map_app, map_rev. split.
    + apply Forall_app. split. now apply Forall_rev. constructor; auto. cbn. split; auto. intros ->.
      clear - P1 A. assert (K : forall rt en r en', absorb d rt en = Some (r, en') -> length en <= length en').
      { induction rt as [|t rt IH]; intros en r en'; cbn [absorb]. injection 1 as <- <-. auto. destruct (length en <? tree_len t).
        injection 1 as <- <-. auto. destruct (traverse t en _ _ _) eqn:ET; [|discriminate]. intros H. apply IH in H. etransitivity; [|exact H].
        assert (M : forall fuel st dir us ts us', traverse_f (fun _ _ _ => true) (fun (es : list Entry) e => Some (es ++ [e], true)) fuel st dir us ts = Some us' -> length us <= length us').
        { clear. induction fuel as [|fuel IH]; intros st dir us ts us'; destruct ts; cbn [traverse_f]; try discriminate; try (intros [= <-]; auto; fail).
          - destruct (nth_error _ _) as [nd|]; [|discriminate]. destruct (nth_error _ _); [|discriminate]. destruct (traversal_enter _ _ _); [|discriminate]. apply IH.
          - destruct (nth_error _ _) as [nd|]; [|discriminate]. destruct (traversal_next _ _ _ _); [|discriminate]. intros H. apply IH in H. rewrite app_length in H. lia. }
        unfold traverse in ET. now apply M in ET. }
      apply K in A. rewrite app_length in A. cbn in A. lia.
    + etransitivity; [exact PT|]. rewrite map_app, concat_app. cbn [map concat snd]. rewrite !app_nil_r. apply Permutation_app_tail. apply map_concat_perm, Permutation_rev.
Qed.

End Ops.
