(* The layers of the gnp command. *)
From Coq Require Import List Arith Bool Lia Permutation.
Import ListNotations.
From Verif Require Import Spec Vec Net Graded Bits Util OutputSetModel OutputSetProofs PackProofs CanonModel CanonProofs PropCanon TreeModel IndexModel IndexSpec PropIndex
  StatesModel StatesProofs StatesBounds SearchModel SearchFacts GenLoad GenSteps GnpModel.

(* ---- whether a set can be finished with m comparators is decidable ---- *)
Lemma finite_ex' (P : vec -> Prop) n : (forall x, P x \/ ~ P x) -> (exists x, length x = n /\ P x) \/ ~ (exists x, length x = n /\ P x).
Proof. apply finite_ex. Qed.

Definition vdec (V : vset) : Prop := forall x, V x \/ ~ V x.

Lemma vdec_image n f V : width n V -> vdec V -> vdec (image f V).
Proof.
  intros W D x. destruct (finite_ex' (fun y => V y /\ f y = x) n) as [(y & _ & A & B)|N].
  - intros y. destruct (D y); [|tauto]. destruct (list_eq_dec bool_dec (f y) x); tauto.
  - left. exists y. auto.
  - right. intros (y & A & B). apply N. exists y. auto.
Qed.

Lemma opw_dec n V : width n V -> vdec V -> one_per_weight V \/ ~ one_per_weight V.
Proof.
  intros W D.
  assert (E : (exists x, length x = n /\ V x /\ exists y, length y = n /\ V y /\ weight x = weight y /\ x <> y) \/ ~ (exists x, length x = n /\ V x /\ exists y, length y = n /\ V y /\ weight x = weight y /\ x <> y)).
  { apply finite_ex'. intros x. destruct (D x) as [A|A]; [|tauto].
    destruct (finite_ex' (fun y => V y /\ weight x = weight y /\ x <> y) n) as [B|B].
    - intros y. destruct (D y); [|tauto]. destruct (Nat.eq_dec (weight x) (weight y)); [|tauto]. destruct (list_eq_dec bool_dec x y); tauto.
    - left. auto.
    - right. tauto. }
  destruct E as [(x & _ & A & y & _ & B & C & N)|N].
  - right. intros O. apply N. now apply O.
  - left. intros x y Hx Hy Hw. destruct (list_eq_dec bool_dec x y) as [E|E]; auto. elim N. exists x. split; auto. split; auto. exists y. auto.
Qed.

Lemma finite_dec {A} (l : list A) (P : A -> Prop) : (forall x, In x l -> P x \/ ~ P x) -> (exists x, In x l /\ P x) \/ (forall x, In x l -> ~ P x).
Proof.
  induction l as [|a l IH]; intros D. right. intros x []. destruct (D a) as [H|H]. now left. left. exists a. split; auto. now left.
  destruct IH as [(x & I & H')|N]. intros x I. apply D. now right. left. exists x. split; auto. now right. right. intros x [<-|I]; auto.
Qed.

Lemma upper_dec n m : forall V, width n V -> vdec V -> upper_bound n V m \/ ~ upper_bound n V m.
Proof.
  induction m as [|m IH]; intros V W D; destruct (opw_dec n V W D) as [O|O].
  1, 3: left; exists []; split; [now apply finishes_nil|cbn; lia].
  - right. intros (net & F & L). destruct net; cbn in L; [|lia]. apply O. now apply finishes_nil in F.
  - destruct (finite_dec (list_prod (seq 0 n) (seq 0 n)) (fun c => cmp_ok n c /\ upper_bound n (image (exch c) V) m)) as [((a, b) & _ & C & (net & F & L))|N].
    + intros c _. assert (Cd : cmp_ok n c \/ ~ cmp_ok n c) by (unfold cmp_ok; lia). destruct Cd as [Cd|Cd]; [|tauto].
      destruct (IH (image (exch c) V)) as [U|U]; try tauto. now apply width_exch. now apply (vdec_image n).
    + left. exists ((a, b) :: net). split; [|cbn; lia]. apply finishes_cons. auto.
    + right. intros (net & F & L). destruct net as [|c net]. { apply O. now apply finishes_nil in F. }
      apply finishes_cons in F. destruct F as (C & F). apply (N c). { destruct c as (a, b). destruct C as (C1 & C2 & _). cbn in *. apply in_prod; apply in_seq; lia. }
      split; auto. exists net. split; auto. cbn in L. lia.
Qed.

Lemma not_upper_lower n V m : ~ upper_bound n V m -> lower_bound n V (S m).
Proof. intros N net F. destruct (Nat.le_gt_cases (S m) (length net)); auto. elim N. exists net. split; auto. lia. Qed.

Lemma optimum_exists n V u : width n V -> vdec V -> upper_bound n V u -> exists k, optimum n V k.
Proof.
  intros W D. induction u as [|u IH]; intros U. exists 0. split; auto. apply lower_bound_0.
  destruct (upper_dec n u V W D) as [U'|N]; auto. exists (S u). split; auto. now apply not_upper_lower.
Qed.

(* ---- a chain inside a graded set ---- *)
Lemma graded_chain n V : graded n V -> exists C, subset C V /\ graded n C /\ one_per_weight C.
Proof.
  intros G. assert (G' := G). destruct G' as (W & _ & Up & _).
  assert (H : forall w, w <= n -> exists f : nat -> vec, (forall i, i <= w -> V (f i) /\ weight (f i) = i) /\ (forall i, i < w -> Vec.covers (f i) (f (S i)))).
  { induction w as [|w IH]; intros L.
    - exists (fun _ => repeat false n). split; [|intros; lia]. intros i Hi. split. now apply graded_zero. rewrite zero_vec_weight. lia.
    - destruct IH as (f & A & B). lia. destruct (A w ltac:(lia)) as (Vw & Ww). destruct (Up (f w) Vw ltac:(lia)) as (y & Vy & Cy).
      exists (fun i => if i <=? w then f i else y). split.
      + intros i Hi. destruct (Nat.leb_spec i w). auto. split; auto. rewrite (covers_weight _ _ Cy). lia.
      + intros i Hi. destruct (Nat.leb_spec i w), (Nat.leb_spec (S i) w); try lia. apply B. lia. replace i with w by lia. exact Cy. }
  destruct (H n (le_n n)) as (f & A & B). exists (fun x => exists i, i <= n /\ x = f i). split; [|split; [split; [|split; [|split]]|]].
  - intros x (i & Hi & ->). apply A. lia.
  - intros x (i & Hi & ->). apply W, A. lia.
  - exists (f 0), 0. split; auto. lia.
  - intros x (i & Hi & ->) Hw. rewrite (proj2 (A i Hi)) in Hw. exists (f (S i)). split. exists (S i). auto. apply B. lia.
  - intros x (i & Hi & ->) Hw. rewrite (proj2 (A i Hi)) in Hw. exists (f (i - 1)). split. exists (i - 1). split; auto. lia. replace (f i) with (f (S (i - 1))) by (f_equal; lia). apply B. lia.
  - intros x y (i & Hi & ->) (j & Hj & ->) Hw. rewrite (proj2 (A i Hi)), (proj2 (A j Hj)) in Hw. congruence.
Qed.

(* a finished set subsumes every graded set *)
Lemma finished_subsumes n V W : graded n V -> one_per_weight V -> graded n W -> exists p, is_perm n p /\ subsumes_by false p V W.
Proof.
  intros G O GW. destruct (graded_chain n W GW) as (C & Sub & GC & OC).
  destruct (chain_sorted n V G O) as (p & P & Hp). destruct (chain_sorted n C GC OC) as (q & Q & Hq).
  assert (Qi := inv_perm_is_perm n q Q). exists (comp_perm p (inv_perm n q)). split. now apply comp_perm_is_perm.
  intros x Hx. cbn. assert (Lx : length x = n) by (apply G; auto).
  assert (Wx : weight x <= n). { rewrite <- Lx. apply weight_le. }
  destruct (graded_weight n C (weight x) GC Wx) as (y & Hy & Wy). assert (Ly : length y = n) by (apply GC; auto).
  assert (E : permute p x = permute q y).
  { apply sorted_same_weight; auto. now rewrite !permute_length, (is_perm_length _ _ P), (is_perm_length _ _ Q). rewrite !(permute_weight n) by auto. auto. }
  apply Sub. replace (permute (comp_perm p (inv_perm n q)) x) with y; auto.
  rewrite <- (permute_comp n p (inv_perm n q)) by auto. rewrite E. symmetry. now apply permute_inv.
Qed.

Section Layers.
Variable chash : list nat -> nat.
Variable drain : nat -> nat -> list OutputSet -> list OutputSet.
Hypothesis Hdrain : forall a b l, NoDup l -> Permutation (drain a b l) l.
Variable n : nat.
Hypothesis Hn : 1 < n.
Hypothesis Hn' : n <= 11.

(* t is what follows s by the comparator c *)
Definition follows (c : comparator) (s t : OutputSet) : Prop :=
  okset t /\ channels t = n /\ exists p, is_perm n p /\ isomorphic_by false p (image (exch c) (vs s)) (vs t).

Lemma iso_same V V' W inv p : same_set V V' -> isomorphic_by inv p V W -> isomorphic_by inv p V' W.
Proof.
  intros E I. unfold isomorphic_by in *. eapply same_set_trans. exact I. now apply image_same.
Qed.

Lemma canon0_ok s c : okset s -> channels s = n -> In c (pairs n) ->
  exists t r, canonicalize chash (fst (apply_comparator s (fst c) (snd c))) false = Some (t, r) /\ follows (snd c, fst c) s t.
Proof.
  destruct c as (i, j). intros K C I. rewrite <- C in I. destruct (comparator_facts s i j K I) as ((Wt & Lt & Gt) & Ct & St & _). cbn [fst snd].
  destruct (C06_canonicalize_isomorphic chash (fst (apply_comparator s i j)) false Wt) as (t & inv & p & E & W & Ch & P & Iso & Inv). exact Lt.
  destruct inv. { discriminate (Inv eq_refl). }
  exists t, (false, p). split; auto. rewrite Ct in *. rewrite C in *. assert (Wd : width n (vs (fst (apply_comparator s i j)))) by apply Gt. split; [|split; [auto|]].
  - split; auto. split; auto. lia. rewrite Ch. eapply graded_same. apply same_set_sym. exact Iso. apply (graded_sym n false p); auto.
  - exists p. split; auto. eapply iso_same; eauto.
Qed.

Definition flag (s : OutputSet) (c : nat * nat) : bool := snd (apply_comparator s (fst c) (snd c)).

Lemma hs_insert_In x l y : okset x -> Forall okset l -> (In y (hs_insert x l) <-> y = x \/ In y l).
Proof.
  intros Kx Kl. unfold hs_insert. destruct existsb eqn:E.
  - apply existsb_exists in E. destruct E as (z & I & E). rewrite Forall_forall in Kl. apply os_eqb_wf in E; [|apply Kl; auto|apply Kx]. subst z. split; auto. intros [->|]; auto.
  - rewrite in_app_iff. cbn. intuition.
Qed.
Lemma hs_insert_NoDup x l : okset x -> Forall okset l -> NoDup l -> NoDup (hs_insert x l).
Proof.
  intros Kx Kl N. unfold hs_insert. destruct existsb eqn:E; auto. apply (Permutation_NoDup (l := x :: l)). apply Permutation_cons_append. constructor; auto.
  intros I. assert (existsb (fun y => os_eqb y x) l = true); [|congruence]. apply existsb_exists. exists x. split; auto. apply os_eqb_wf; auto; apply Kx.
Qed.

Lemma nexts_spec s : okset s -> channels s = n -> exists l, gnp_nexts chash n s = Some l /\ NoDup l /\
  (forall t, In t l -> exists c, In c (pairs n) /\ flag s c = true /\ follows (snd c, fst c) s t) /\
  (forall c, In c (pairs n) -> flag s c = true -> exists t, In t l /\ follows (snd c, fst c) s t).
Proof.
  intros K C. unfold gnp_nexts. set (ok := fun t => exists c, In c (pairs n) /\ flag s c = true /\ follows (snd c, fst c) s t).
  assert (H : forall ps acc, incl ps (pairs n) -> NoDup acc -> (forall t, In t acc -> ok t) -> exists l, fold_opt (gnp_try chash s) ps acc = Some l /\ NoDup l /\ incl acc l /\
    (forall t, In t l -> ok t) /\ (forall c, In c ps -> flag s c = true -> exists t, In t l /\ follows (snd c, fst c) s t)).
  { induction ps as [|c ps IH]; intros acc Sub N Ok; cbn [fold_opt].
    - exists acc. repeat split; auto. intros x I; exact I. intros c [].
    - assert (Ic : In c (pairs n)) by (apply Sub; now left). assert (Sub' : incl ps (pairs n)) by (intros x I; apply Sub; now right).
      unfold gnp_try. destruct (apply_comparator s (fst c) (snd c)) as (u, b) eqn:Eu. assert (Fl : flag s c = b) by (unfold flag; now rewrite Eu).
      destruct b.
      + destruct (canon0_ok s c K C Ic) as (t & r & Er & Ft). rewrite Eu in Er. cbn [fst] in Er. rewrite Er. cbn [fst].
        assert (Ko : Forall okset acc) by (apply Forall_forall; intros x I; destruct (Ok x I) as (? & _ & _ & D); apply D).
        destruct (IH (hs_insert t acc) Sub') as (l & E & N' & In' & Ok' & Al).
        * apply hs_insert_NoDup; auto. apply Ft.
        * intros x I. apply hs_insert_In in I; auto; [|apply Ft]. destruct I as [->|I]; auto. exists c. auto.
        * exists l. split; [exact E|]. split; auto. split. { intros x I. apply In'. apply hs_insert_In; auto. apply Ft. } split; auto.
          intros d [<-|I] Fd; auto. exists t. split; auto. apply In'. apply hs_insert_In; auto. apply Ft.
      + destruct (IH acc Sub' N Ok) as (l & E & N' & In' & Ok' & Al). exists l. split; [exact E|]. repeat split; auto. intros d [<-|I] Fd; auto. congruence. }
  destruct (H (pairs n) [] (incl_refl _)) as (l & E & N & _ & Ok & Al). constructor. intros t []. exists l. auto.
Qed.

Lemma insert_fold ts : Forall (fun t => okset t /\ channels t = n) ts -> forall H ix, reachable Lower n true H ix ->
  exists ix', fold_opt gnp_insert ts ix = Some ix' /\ reachable Lower n true (rev (map (fun t => (t, 0)) ts) ++ H) ix'.
Proof.
  induction 1 as [|t ts (K & C) F IH]; intros H ix R; cbn [fold_opt]. exists ix. auto.
  destruct (C13_checked_history Lower n H ix Hn Hn' R) as (Ins & _). destruct (Ins t 0) as (ix1 & r & E & R1); auto. apply K.
  unfold gnp_insert at 1. rewrite E. cbn [fst]. destruct (IH _ _ R1) as (ix2 & E2 & R2). exists ix2. split; auto. cbn [map rev]. rewrite <- app_assoc. exact R2.
Qed.

Lemma sets_fold count ss : Forall (fun s => okset s /\ channels s = n) ss -> forall m H ix, reachable Lower n true H ix ->
  exists m' ix' H', fold_opt (gnp_set chash drain n count) ss (m, ix) = Some (m', ix') /\ reachable Lower n true H' ix' /\
    (forall x, In x H -> In x H') /\
    (forall t v, In (t, v) H' -> In (t, v) H \/ (v = 0 /\ exists s c, In s ss /\ In c (pairs n) /\ flag s c = true /\ follows (snd c, fst c) s t)) /\
    (forall s c, In s ss -> In c (pairs n) -> flag s c = true -> exists t, In (t, 0) H' /\ follows (snd c, fst c) s t).
Proof.
  induction 1 as [|s ss (K & C) F IH]; intros m H ix R; cbn [fold_opt].
  - exists m, ix, H. repeat split; auto. intros s c [].
  - destruct (nexts_spec s K C) as (l & E & N & Ok & Al). unfold gnp_set at 1. rewrite E. cbn [fst snd].
    assert (P := Hdrain count m l N). set (ts := drain count m l) in *.
    destruct (insert_fold ts) with (H := H) (ix := ix) as (ix1 & E1 & R1); auto.
    { apply Forall_forall. intros t I. apply (Permutation_in _ P) in I. destruct (Ok t I) as (? & _ & _ & D & D' & _). auto. }
    rewrite E1. destruct (IH (S m) _ _ R1) as (m' & ix' & H' & E2 & R2 & Old & Src & Tgt). exists m', ix', H'. split; auto. split; auto. split; [|split].
    + intros x I. apply Old. apply in_app_iff. auto.
    + intros t v I. destruct (Src t v I) as [J|(-> & s' & c & J & D)].
      * apply in_app_iff in J. destruct J as [J|J]; auto. right. apply in_rev, in_map_iff in J. destruct J as (t' & Et & J). injection Et as <- <-. split; auto.
        apply (Permutation_in _ P) in J. destruct (Ok _ J) as (c & D). exists s, c. split; auto. now left.
      * right. split; auto. exists s', c. split; auto. now right.
    + intros s' c [<-|I] Ic Fc; [|now apply Tgt]. destruct (Al c Ic Fc) as (t & It & D). exists t. split; auto. apply Old. apply in_app_iff. left. apply -> in_rev. apply in_map_iff. exists t. split; auto.
      now apply (Permutation_in _ (Permutation_sym P)).
Qed.

Variable opt : nat.
Hypothesis Hopt : optimum n (all_inputs n) opt.

Record layer_inv (k : nat) (layer : Index) (M : list (OutputSet * nat)) : Prop := {
  li_reach : exists H, reachable Lower n true H layer;
  li_contents : contents layer = Some M;
  li_sets : forall s v, In (s, v) M -> v = 0 /\ okset s /\ channels s = n /\ lower_bound n (vs s) (opt - k);
  li_best : exists s, In (s, 0) M /\ upper_bound n (vs s) (opt - k) }.

Lemma contents_for_each layer M : contents layer = Some M -> exists E, for_each layer = Some E /\ map fst M = map (fun x => fst (fst x)) E.
Proof.
  unfold contents. destruct (for_each layer) as [E|]; [|discriminate]. cbn. intros H. injection H as <-. exists E. split; auto. rewrite map_map. reflexivity.
Qed.

Lemma layer_len H layer M : reachable Lower n true H layer -> contents layer = Some M ->
  index_len layer = length M /\ (index_is_empty layer = true <-> M = []).
Proof.
  intros R C. destruct (C14_for_each_len_is_empty Lower n true H layer Hn Hn' R) as (E & M' & F & C' & L & Em & _). rewrite C in C'. injection C' as <-.
  destruct (contents_for_each _ _ C) as (E' & F' & Q). rewrite F in F'. injection F' as <-.
  assert (L' : length M = length E). { apply (f_equal (@length _)) in Q. now rewrite !map_length in Q. }
  rewrite L, L'. split; auto. rewrite Em. destruct M, E; try discriminate; intuition discriminate.
Qed.

Lemma flag_iff s c : okset s -> channels s = n -> In c (pairs n) -> (flag s c = true <-> nonredundant (snd c, fst c) (vs s)).
Proof. destruct c as (i, j). intros K C I. rewrite <- C in I. apply (comparator_facts s i j K I). Qed.

Lemma pair_ok c : In c (pairs n) -> cmp_ok n (snd c, fst c).
Proof. destruct c as (i, j). intros I. apply pairs_In in I. unfold cmp_ok. cbn. lia. Qed.

Lemma layer_next k layer M : layer_inv k layer M -> exists next H', gnp_layer chash drain n k layer = Some next /\ reachable Lower n true H' next /\
    (forall t v, In (t, v) H' -> v = 0 /\ exists s c, In (s, 0) M /\ In c (pairs n) /\ flag s c = true /\ follows (snd c, fst c) s t) /\
    (forall s c, In (s, 0) M -> In c (pairs n) -> flag s c = true -> exists t, In (t, 0) H' /\ follows (snd c, fst c) s t).
Proof.
  intros I. destruct (contents_for_each _ _ (li_contents _ _ _ I)) as (E & FE & Q). unfold gnp_layer. rewrite FE. rewrite <- Q.
  assert (Z : forall s, In s (map fst M) <-> In (s, 0) M).
  { intros s. split. intros J. apply in_map_iff in J. destruct J as ((s', v) & <- & J). destruct (li_sets _ _ _ I _ _ J) as (-> & _). exact J. intros J. apply in_map_iff. exists (s, 0). auto. }
  destruct (sets_fold k (map fst M)) with (m := 0) (H := @nil (OutputSet * nat)) (ix := index_new Lower n) as (m' & next & H' & E2 & R2 & _ & Src & Tgt).
  - apply Forall_forall. intros s J. apply Z in J. destruct (li_sets _ _ _ I _ _ J) as (_ & A & B & _). auto.
  - constructor.
  - rewrite E2. exists next, H'. split; auto. split; auto. split.
    + intros t v J. destruct (Src t v J) as [[]|(-> & s & c & A & B & C & D)]. split; auto. exists s, c. rewrite <- Z. auto.
    + intros s c J. apply Tgt. now apply Z.
Qed.

Lemma layer_step k layer M : k < opt -> layer_inv k layer M -> exists next M', gnp_layer chash drain n k layer = Some next /\ layer_inv (S k) next M'.
Proof.
  intros Hk I. destruct (layer_next k layer M I) as (next & H' & E & R & Src & Tgt).
  destruct (C13_checked_history Lower n H' next Hn Hn' R) as (_ & M' & CM & Sub & Dom & _ & _). exists next, M'. split; auto. split; auto. eauto.
  - intros t v J. apply Sub in J. destruct (Src t v J) as (-> & s & c & Hs & Hc & Fc & (K & C & p & P & Iso)). repeat split; auto; try apply K.
    destruct (li_sets _ _ _ I _ _ Hs) as (_ & Ks & Cs & Lb). assert (Wd : width n (vs s)) by (rewrite <- Cs; apply Ks).
    replace (opt - S k) with (opt - k - 1) by lia. apply lower_bound_same with (V := image (sym false p) (image (exch (snd c, fst c)) (vs s))). apply same_set_sym. exact Iso.
    apply lower_bound_sym; auto. now apply width_exch. apply lower_bound_pred; auto. now apply pair_ok.
  - destruct (li_best _ _ _ I) as (s & Hs & Ub). destruct (li_sets _ _ _ I _ _ Hs) as (_ & Ks & Cs & Lb). assert (Wd : width n (vs s)) by (rewrite <- Cs; apply Ks).
    assert (No : ~ one_per_weight (vs s)). { intros O. assert (X : 0 = opt - k); [|lia]. apply Nat.le_antisymm. lia. apply (Lb []). now apply finishes_nil. }
    assert (T : exists c, In c (pairs n) /\ flag s c = true /\ upper_bound n (image (exch (snd c, fst c)) (vs s)) (opt - k - 1)).
    { destruct (finite_dec (pairs n) (fun c => flag s c = true /\ upper_bound n (image (exch (snd c, fst c)) (vs s)) (opt - k - 1))) as [(c & A & B)|N]; [|eauto|].
      - intros c Ic. destruct (flag s c); [|right; intros (D & _); discriminate]. destruct (upper_dec n (opt - k - 1) (image (exch (snd c, fst c)) (vs s))) as [U|U]; try tauto.
        now apply width_exch. apply (vdec_image n); auto. intros x. apply vs_dec.
      - exfalso. assert (L2 : lower_bound n (vs s) (opt - k + 1)).
        { rewrite <- Cs. apply (succ_lower chash s); auto. intros t It. unfold succs in It. apply in_flat_map in It. destruct It as ((i, j) & Ij & It).
          assert (Ij' := Ij). apply pairs_In in Ij'. rewrite Cs in Ij. destruct (succ1_spec chash s i j t Ks ltac:(tauto) ltac:(tauto) It) as (Kt & Ct & Nr & inv & p & P & Iso).
          rewrite Cs in *. apply lower_bound_same with (V := image (sym inv p) (image (exch (j, i)) (vs s))). apply same_set_sym. exact Iso.
          apply lower_bound_sym; auto. now apply width_exch. replace (opt - k + 1 - 1) with (S (opt - k - 1)) by lia. apply not_upper_lower. intros U. apply (N (i, j) Ij). split; auto.
          apply flag_iff; auto. }
        pose proof (lower_upper _ _ _ _ L2 Ub). lia. }
    destruct T as (c & Ic & Fc & Uc). destruct (Tgt s c Hs Ic Fc) as (t & It & (Kt & Ct & p & P & Iso)).
    destruct (Dom _ It) as ((y, v) & Iy & (w & Pw & Inv & Sb) & _). cbn [fst snd] in *. assert (Iy' := Sub _ Iy). destruct (Src y v Iy') as (-> & s2 & c2 & _ & _ & _ & (Ky & Cy & _)). exists y. split; auto.
    rewrite Cy in Pw. assert (Wy : width n (vs y)) by (rewrite <- Cy; apply Ky).
    replace (opt - S k) with (opt - k - 1) by lia.
    apply (upper_bound_sym n false (snd w)); auto. eapply upper_bound_mono with (W := vs t). { intros x (z & Hz & ->). now apply Sb. }
    apply upper_bound_same with (W := image (sym false p) (image (exch (snd c, fst c)) (vs s))). exact Iso. apply upper_bound_sym; auto. now apply width_exch.
Qed.

Lemma layer_last layer M : layer_inv opt layer M -> length M = 1 /\ exists next H', gnp_layer chash drain n opt layer = Some next /\ reachable Lower n true H' next /\ contents next = Some [].
Proof.
  intros I. destruct (li_best _ _ _ I) as (s & Hs & Ub). destruct (li_sets _ _ _ I _ _ Hs) as (_ & Ks & Cs & _). rewrite Nat.sub_diag in Ub.
  assert (O : one_per_weight (vs s)). { destruct Ub as (net & Fi & L). destruct net; cbn in L; [|lia]. now apply finishes_nil in Fi. }
  destruct (li_reach _ _ _ I) as (H & R). destruct (C13_checked_history Lower n H layer Hn Hn' R) as (_ & M0 & CM & _ & _ & _ & Und). rewrite (li_contents _ _ _ I) in CM. injection CM as <-.
  assert (Sing : M = [(s, 0)]).
  { destruct (in_split _ _ Hs) as (a & b & E).
    assert (Emp : a ++ b = []).
    { destruct (a ++ b) as [|(y, v) r] eqn:Eab; auto. exfalso.
      assert (Iy : In (y, v) M). { rewrite E. assert (In (y, v) (a ++ b)) by (rewrite Eab; now left). rewrite in_app_iff in *. cbn. tauto. }
      destruct (li_sets _ _ _ I _ _ Iy) as (-> & Ky & Cy & _).
      apply (Und (y, 0) ((s, 0) :: r)) with (y := (s, 0)).
      - rewrite E. transitivity ((s, 0) :: a ++ b). symmetry. apply Permutation_middle. rewrite Eab. apply perm_swap.
      - now left.
      - split; [|cbn; lia]. cbn [fst]. destruct (finished_subsumes n (vs s) (vs y)) as (p & P & Sb); auto. rewrite <- Cs; apply Ks. rewrite <- Cy; apply Ky.
        exists (false, p). unfold valid. cbn [fst snd]. rewrite Cs. auto. }
    apply app_eq_nil in Emp. destruct Emp as (-> & ->). exact E. }
  split. now rewrite Sing. destruct (layer_next opt layer M I) as (next & H' & E & R' & Src & _). exists next, H'. split; auto. split; auto.
  destruct (C13_checked_history Lower n H' next Hn Hn' R') as (_ & M' & CM' & Sub & _). rewrite CM'. f_equal. destruct M' as [|(t, v) M']; auto. exfalso.
  destruct (Src t v (Sub _ (or_introl eq_refl))) as (_ & s' & c & Is' & Ic & Fc & _). rewrite Sing in Is'. destruct Is' as [Es|[]]. injection Es as <-.
  apply flag_iff in Fc; auto. destruct Fc as ((x & Vx & X1 & X2) & (y & Vy & Y1 & Y2)). cbn [fst snd] in *.
  assert (Gs : graded n (vs s)) by (rewrite <- Cs; apply Ks). assert (Wd := proj1 Gs).
  destruct (chain_channels n (vs s) n Gs O (le_n n)) as (cs & _ & _ & _ & B).
  assert (Wx := weight_le x). rewrite (Wd _ Vx) in Wx. assert (Wy := weight_le y). rewrite (Wd _ Vy) in Wy.
  apply (B x Vx Wx) in X1. apply (B y Vy Wy) in Y2. apply not_true_iff_false in X2, Y1. rewrite (B x Vx Wx) in X2. rewrite (B y Vy Wy) in Y1.
  assert (Inc : forall a b (l : list nat) z, a <= b -> In z (firstn a l) -> In z (firstn b l)).
  { intros a b l z Le J. replace a with (Nat.min a b) in J by lia. rewrite <- firstn_firstn in J. rewrite <- (firstn_skipn a (firstn b l)). apply in_app_iff. auto. }
  destruct (Nat.le_ge_cases (weight x) (weight y)); [apply Y1|apply X2]; eapply Inc; eauto.
Qed.

Lemma gnp_loop_ok d : forall k layer M, opt - k = d -> k <= opt -> layer_inv k layer M -> exists out, forall fuel, d < fuel -> gnp_loop chash drain fuel n k layer = Some out /\
  map fst out = seq (S k) (S d) /\ forall l size, In (l, size) out -> (l < opt -> 0 < size) /\ (l = opt -> size = 1) /\ (opt < l -> size = 0).
Proof.
  induction d as [|d IH]; intros k layer M Hd Hk I; destruct (li_reach _ _ _ I) as (H & R); destruct (layer_len _ _ _ R (li_contents _ _ _ I)) as (_ & Em);
    assert (Ne : index_is_empty layer = false) by (apply not_true_iff_false; rewrite Em; intros ->; destruct (li_best _ _ _ I) as (? & [] & _)).
  - assert (k = opt) as -> by lia. destruct (layer_last layer M I) as (L1 & next & H' & E & R' & C'). destruct (layer_len _ _ _ R' C') as (Ln & En).
    exists [(S opt, 0)]. intros fuel Hf. destruct fuel as [|fuel]; [lia|]. cbn [gnp_loop]. rewrite Ne, E. destruct fuel; cbn [gnp_loop]; rewrite (proj2 En eq_refl), Ln. 
    all: split; [reflexivity|]; split; [reflexivity|]; intros l size [X|[]]; injection X as <- <-; lia.
  - destruct (layer_step k layer M ltac:(lia) I) as (next & M' & E & I'). destruct (IH (S k) next M' ltac:(lia) ltac:(lia) I') as (out & Ho).
    destruct (li_reach _ _ _ I') as (H' & R'). destruct (layer_len _ _ _ R' (li_contents _ _ _ I')) as (Ln & _).
    exists ((S k, index_len next) :: out). intros fuel Hf. destruct fuel as [|fuel]; [lia|]. destruct (Ho fuel ltac:(lia)) as (G & Sq & Sz). cbn [gnp_loop]. rewrite Ne, E, G. split; auto. split. { cbn [map fst]. rewrite Sq. reflexivity. }
    intros l size [X|J]; [|auto]. injection X as <- <-. rewrite Ln. split; [|split]; try lia.
    + intros _. destruct (li_best _ _ _ I') as (s & Is & _). destruct M'; [destruct Is|cbn; lia].
    + intros El. rewrite El in I'. apply (layer_last next M' I').
Qed.

Lemma cmd_gnp_ok : exists out, forall fuel, opt < fuel -> cmd_gnp chash drain fuel n = Some out /\
  map fst out = seq 1 (S opt) /\ forall l size, In (l, size) out -> (l < opt -> 0 < size) /\ (l = opt -> size = 1) /\ (opt < l -> size = 0).
Proof.
  assert (K : okset (all_values n)). { split; [apply all_values_wf|]. split; auto. cbn. eapply graded_same. apply same_set_sym. apply all_values_vs. apply graded_all. }
  destruct (C13_checked_history Lower n [] (index_new Lower n) Hn Hn' (R_new _ _ true)) as (Ins & _).
  destruct (Ins (all_values n) 0) as (ix & r & E & R). apply K. reflexivity.
  destruct (C13_checked_history Lower n _ ix Hn Hn' R) as (_ & M & CM & Sub & Dom & _).
  assert (I : layer_inv 0 ix M).
  { split; auto. eauto.
    - intros s v J. apply Sub in J. destruct J as [J|[]]. injection J as <- <-. repeat split; auto; try apply K. rewrite Nat.sub_0_r.
      eapply lower_bound_same. apply same_set_sym. apply all_values_vs. apply Hopt.
    - destruct (Dom _ (or_introl eq_refl)) as (y & Iy & _). destruct (Sub _ Iy) as [<-|[]]. exists (all_values n). split; auto. rewrite Nat.sub_0_r.
      eapply upper_bound_same. apply all_values_vs. apply Hopt. }
  destruct (gnp_loop_ok (opt - 0) 0 ix M eq_refl ltac:(lia) I) as (out & Ho). rewrite Nat.sub_0_r in Ho. exists out. intros fuel Hf. unfold cmd_gnp.
  assert (Lb : (n <=? MAX_CHANNELS) = true) by (apply Nat.leb_le; exact Hn'). rewrite Lb, E. auto.
Qed.
End Layers.
