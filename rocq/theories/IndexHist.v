(* Histories of insertions. *)
From Coq Require Import List Arith Bool Lia Permutation.
Import ListNotations.
From Verif Require Import Spec Vec Net Util OutputSetModel OutputSetProofs PackProofs SubsumeModel
  TreeModel TreeProofs TreeTraverse TreeMut TreeBuild IndexModel IndexSpec IndexTests IndexProofs IndexInsert.

(* ---------- covers is a preorder, better is one ---------- *)

Lemma subsumes_trans n i p j q U V W : is_perm n p -> is_perm n q -> width n U ->
  subsumes_by i p U V -> subsumes_by j q V W -> subsumes_by (xorb i j) (comp_perm p q) U W.
Proof.
  intros Hp Hq Wd A B x Hx. change (W (sym (xorb i j) (comp_perm p q) x)). rewrite <- (sym_comp n) by auto. apply B, A, Hx.
Qed.

Lemma covers_trans n d a b c : gs n a -> gs n b -> gs n c -> covers d a b -> covers d b c -> covers d a c.
Proof.
  intros Ga Gb Gc ((z, p) & P & V) ((y, q) & Q & W). cbn [fst snd] in *.
  assert (Ea : channels a = n) by apply Ga. assert (Eb : channels b = n) by apply Gb. rewrite Ea in P. rewrite Eb in Q.
  assert (Wa : width n (vs a)) by (rewrite <- Ea; apply vs_width). assert (Wc : width n (vs c)) by (rewrite <- (proj2 Gc); apply vs_width).
  destruct d.
  - destruct V as (-> & V), W as (-> & W). exists (false, comp_perm p q). split; cbn. rewrite Ea. now apply comp_perm_is_perm. split; auto.
    now apply (subsumes_trans n false p false q _ (vs b)).
  - exists (xorb z y, comp_perm p q). split; cbn. rewrite Ea. now apply comp_perm_is_perm. now apply (subsumes_trans n z p y q _ (vs b)).
  - destruct V as (-> & V), W as (-> & W). exists (false, comp_perm q p). split; cbn. rewrite Ea. now apply comp_perm_is_perm. split; auto.
    now apply (subsumes_trans n false q false p _ (vs b)).
Qed.

Lemma covers_refl n d a : gs n a -> covers d a a.
Proof. intros G. exists (id_perm n). now apply valid_id. Qed.

Lemma better_trans d a b c : better d a b -> better d b c -> better d a c.
Proof. destruct d; cbn; lia. Qed.
Lemma better_refl d a : better d a a.
Proof. destruct d; cbn; lia. Qed.

Lemma best_of_for d n s r L : best_of d n s (fun b => b) (fun _ _ => True) r L <-> best_for d (map (item n) L) s r.
Proof.
  unfold best_of, best_for. destruct r as [b|].
  - split.
    + intros ((e & He & Ev & Hc & _) & B). split.
      * exists (set_of n e). split; auto. apply in_map_iff. exists e. split; auto. unfold item. now rewrite Ev.
      * intros c v Hi Hcv. apply in_map_iff in Hi. destruct Hi as (e' & E & He'). injection E as <- <-. auto.
    + intros ((c & Hi & Hc) & B). apply in_map_iff in Hi. destruct Hi as (e & E & He). injection E as <- Ev. split.
      * exists e. auto.
      * intros e' He' Hc'. apply (B (set_of n e')); auto. apply in_map_iff. exists e'. auto.
  - split.
    + intros B c v Hi. apply in_map_iff in Hi. destruct Hi as (e' & E & He'). injection E as <- <-. auto.
    + intros B e He. apply (B _ (e_value e)). apply in_map_iff. exists e. auto.
Qed.

Lemma best_for_perm d M M' s r : Permutation M M' -> best_for d M s r -> best_for d M' s r.
Proof.
  intros P. unfold best_for. destruct r as [b|].
  - intros ((c & Hi & Hc) & B). split. exists c. split; auto. eapply Permutation_in; eauto.
    intros c' v Hi'. apply B. eapply Permutation_in; [symmetry|]; eauto.
  - intros B c v Hi. apply (B c v). eapply Permutation_in; [symmetry|]; eauto.
Qed.

(* M and H say the same *)
Definition summary (d : Dir) (n : nat) (H M : list (OutputSet * nat)) : Prop :=
  Forall (fun x => gs n (fst x)) H /\ (forall x, In x M -> In x H) /\
  (forall x, In x H -> exists y, In y M /\ dominated d (fst y) (snd y) x).

Lemma summary_best d n H M s r : gs n s -> summary d n H M -> best_for d M s r -> best_for d H s r.
Proof.
  intros Gs (G & I & D) B. rewrite Forall_forall in G. unfold best_for in *. destruct r as [b|].
  - destruct B as ((c & Hi & Hc) & B). split. exists c. auto. intros c' v' Hi' Hc'. destruct (D _ Hi') as ((c2, v2) & Hy & (Hcv & Hb)).
    cbn [fst snd] in *. assert (covers d c2 s). { eapply (covers_trans n d c2 c' s); eauto. apply (G (c2, v2)); auto. apply (G (c', v')); auto. }
    eapply better_trans; eauto.
  - intros c v Hi Hc. destruct (D _ Hi) as ((c2, v2) & Hy & (Hcv & Hb)). cbn [fst snd] in *. apply (B c2 v2 Hy).
    eapply (covers_trans n d c2 c s); eauto. apply (G (c2, v2)); auto. apply (G (c, v)); auto.
Qed.

(* no entry dominates another one *)
Definition antichain (d : Dir) (M : list (OutputSet * nat)) : Prop :=
  forall x M', Permutation M (x :: M') -> forall y, In y M' -> ~ dominated d (fst y) (snd y) x.

Lemma good_items n L : Forall (good_entry n) L -> forall x, In x (map (item n) L) -> gs n (fst x).
Proof. intros G x Hx. apply in_map_iff in Hx. destruct Hx as (e & <- & He). rewrite Forall_forall in G. apply good_set. now apply G. Qed.

Lemma nS_occ n s L : nS n s L = occurrences s (map (item n) L).
Proof. unfold nS, occurrences, isS. induction L as [|e L IH]; cbn; auto. destruct (os_eqb _ _); cbn; auto. Qed.
Lemma occ_perm s M M' : Permutation M M' -> occurrences s M = occurrences s M'.
Proof. unfold occurrences. induction 1; cbn; auto; repeat (destruct (os_eqb _ _)); cbn; auto; congruence. Qed.

Lemma antichain_once n d M s : 0 < n -> n <= MAX_CHANNELS -> (forall x, In x M -> gs n (fst x)) -> gs n s -> antichain d M -> occurrences s M <= 1.
Proof.
  intros Hp Hm G Gs A. destruct (le_lt_dec (occurrences s M) 1) as [|H]; auto. exfalso. unfold occurrences in H.
  assert (K : forall M : list (OutputSet * nat), (forall x, In x M -> gs n (fst x)) -> 1 < length (filter (fun x => os_eqb (fst x) s) M) ->
     exists a b M', Permutation M ((s, a) :: (s, b) :: M')).
  { clear M G A H. assert (K1 : forall M : list (OutputSet * nat), (forall x, In x M -> gs n (fst x)) -> 0 < length (filter (fun x => os_eqb (fst x) s) M) -> exists a M', Permutation M ((s, a) :: M')).
    { induction M as [|(c, a) M IH]; cbn; intros G H. lia. destruct (os_eqb c s) eqn:E.
      - apply (os_eqb_eq n) in E; auto. 2: apply (G (c, a)); auto. subst c. exists a, M. auto.
      - destruct IH as (a' & M' & P); auto. exists a', ((c, a) :: M'). rewrite P. apply perm_swap. }
    induction M as [|(c, a) M IH]; cbn; intros G H. lia. destruct (os_eqb c s) eqn:E.
    - apply (os_eqb_eq n) in E; auto. 2: apply (G (c, a)); auto. subst c. destruct (K1 M) as (b & M' & P); auto. cbn in H. lia. exists a, b, M'. now rewrite P.
    - destruct IH as (a' & b' & M' & P); auto. exists a', b', ((c, a) :: M'). rewrite P. rewrite perm_swap. apply perm_skip, perm_swap. }
  destruct (K M G H) as (a & b & M' & P). destruct (Nat.le_ge_cases a b) as [L|L], d.
  all: pose proof (A _ _ P (s, b) (or_introl eq_refl)) as A1; rewrite perm_swap in P; pose proof (A _ _ P (s, a) (or_introl eq_refl)) as A2;
    unfold dominated in *; cbn [fst snd better] in *; first [now apply A1; split; [now apply (covers_refl n)|]|now apply A2; split; [now apply (covers_refl n)|]].
Qed.

Lemma dominated_trans n d s v x y : gs n s -> gs n (fst x) -> gs n (fst y) -> dominated d s v x -> dominated d (fst x) (snd x) y -> dominated d s v y.
Proof. intros Gs Gx Gy (A & B) (A' & B'). split. now apply (covers_trans n d s (fst x)). eapply better_trans; eauto. Qed.

(* ---------- the invariant of a history ---------- *)

Lemma insert_inv d n ix L H s v : 1 < n -> n <= MAX_CHANNELS -> ix_inv d n ix L -> gs n s -> nS n s L <= 1 -> summary d n H (map (item n) L) ->
  exists ix' r L', insert ix s (abstraction s) v = Some (ix', r) /\ ix_inv d n ix' L' /\ summary d n ((s, v) :: H) (map (item n) L') /\
    (antichain d (map (item n) L) -> antichain d (map (item n) L')).
Proof.
  intros Hn Hm I Gs N (SG & S1 & S2). destruct (insert_ok d n ix L s v Hn Hm I Gs N) as [(r & B & Hb & E)|(Nb & ix' & L' & pk & kept & gone & E & I' & Ep & P & P' & K & G)].
  - exists ix, r, L. split; auto. split; auto. split; auto. split; [|split].
    + constructor; auto.
    + intros x Hx. right. auto.
    + intros x [<-|Hx]; auto. destruct B as ((e & He & Ev & Hc & _) & _). exists (item n e). split. now apply in_map. split; cbn; auto. now rewrite Ev.
  - assert (Ei : item n (mkEntry (abstraction s) pk v) = (s, v)).
    { unfold item. cbn. f_equal. destruct (packed_roundtrip s (proj1 Gs)) as (pk' & Ep' & _ & _ & R). rewrite Ep in Ep'. injection Ep' as <-.
      unfold set_of. cbn. rewrite (proj2 Gs) in R. now rewrite R. }
    assert (PM : Permutation (map (item n) L') ((s, v) :: map (item n) kept)). { rewrite P'. cbn [map]. rewrite Ei. reflexivity. }
    assert (PL : Permutation (map (item n) L) (map (item n) kept ++ map (item n) gone)). { rewrite P, map_app. reflexivity. }
    pose proof I as (_ & _ & GL & _). pose proof (good_items n L GL) as GI. rewrite Forall_forall in SG.
    exists ix', v, L'. split; auto. split; auto. split. split; [|split].
    + constructor; auto. now rewrite Forall_forall.
    + intros x Hx. apply (Permutation_in _ PM) in Hx. destruct Hx as [<-|Hx]. now left. right. apply S1. eapply Permutation_in; [symmetry; exact PL|]. apply in_app_iff; auto.
    + intros x [<-|Hx].
      * exists (s, v). split. apply (Permutation_in _ (Permutation_sym PM)). now left. split; cbn. now apply (covers_refl n). apply better_refl.
      * destruct (S2 x Hx) as (y & Hy & D). pose proof Hy as Hy0. apply (Permutation_in _ PL) in Hy. apply in_app_iff in Hy. destruct Hy as [Hy|Hy].
        -- exists y. split; auto. apply (Permutation_in _ (Permutation_sym PM)). now right.
        -- exists (s, v). split. apply (Permutation_in _ (Permutation_sym PM)). now left. cbn [fst snd].
           apply (dominated_trans n d s v y x); auto. apply in_map_iff in Hy. destruct Hy as (e & <- & He). rewrite Forall_forall in G. now apply G.
    + intros A x M' Pm y Hy D.
      assert (Pm2 : Permutation ((s, v) :: map (item n) kept) (x :: M')) by now rewrite <- PM.
      assert (Ix : In x ((s, v) :: map (item n) kept)) by (apply (Permutation_in _ (Permutation_sym Pm2)); now left).
      assert (Iy : In y ((s, v) :: map (item n) kept)) by (apply (Permutation_in _ (Permutation_sym Pm2)); now right).
      destruct Ix as [<-|Ix].
      * apply Permutation_cons_inv in Pm2. apply (Permutation_in _ (Permutation_sym Pm2)) in Hy. apply in_map_iff in Hy. destruct Hy as (e & <- & He).
        destruct D as (D1 & D2). cbn [item fst snd] in *. apply (Nb e); auto. apply (Permutation_in _ (Permutation_sym P)). apply in_app_iff; auto.
      * apply in_map_iff in Ix. destruct Ix as (e & <- & He). destruct Iy as [<-|Iy].
        -- rewrite Forall_forall in K. now apply (K e He).
        -- apply in_split in He. destruct He as (k1 & k2 & ->).
           assert (Pk : Permutation (item n e :: (s, v) :: map (item n) (k1 ++ k2)) (item n e :: M')).
           { rewrite <- Pm2. rewrite perm_swap. apply perm_skip. rewrite !map_app. cbn [map]. apply Permutation_middle. }
           apply Permutation_cons_inv in Pk. apply (Permutation_in _ (Permutation_sym Pk)) in Hy. destruct Hy as [<-|Hy].
           ++ rewrite Forall_forall in K. apply (K e); auto. apply in_app_iff; cbn; auto.
           ++ apply (A (item n e) (map (item n) (k1 ++ k2) ++ map (item n) gone)) with (y := y); auto.
              ** rewrite PL, !map_app. cbn [map]. rewrite <- !app_assoc. cbn [app]. symmetry. apply Permutation_middle.
              ** apply in_app_iff. auto.
Qed.

Theorem reachable_inv d n chk H ix : 1 < n -> n <= MAX_CHANNELS -> reachable d n chk H ix ->
  exists L, ix_inv d n ix L /\ summary d n H (map (item n) L) /\ (chk = true -> antichain d (map (item n) L)).
Proof.
  intros Hn Hm R. induction R as [chk|H ix s v ix' R (L & I & Sm & A) W C E|chk H ix s v ix' r R (L & I & Sm & A) W C O E].
  - exists []. split. apply new_inv. split. split; [|split]; cbn; auto. intros x [].
    intros _ x M' P. cbn in P. apply Permutation_nil in P. discriminate.
  - destruct (unchecked_ok d n Hn Hm ix L s v I (conj W C)) as (ix2 & pk & Ep & E2 & I2). rewrite E in E2. injection E2 as <-.
    exists (mkEntry (abstraction s) pk v :: L). split; auto. split; [|discriminate].
    assert (Ei : item n (mkEntry (abstraction s) pk v) = (s, v)).
    { unfold item. cbn. f_equal. destruct (packed_roundtrip s W) as (pk' & Ep' & _ & _ & Rt). rewrite Ep in Ep'. injection Ep' as <-.
      unfold set_of. cbn. rewrite C in Rt. now rewrite Rt. }
    cbn [map]. rewrite Ei. destruct Sm as (SG & S1 & S2). split; [|split].
    + constructor; auto. split; auto.
    + intros x [<-|Hx]. now left. right; auto.
    + intros x [<-|Hx]. exists (s, v). split. now left. split; cbn. apply (covers_refl n). split; auto. apply better_refl.
      destruct (S2 x Hx) as (y & Hy & D). exists y. split; auto. now right.
  - assert (N : nS n s L <= 1).
    { rewrite nS_occ. destruct O as [->|(M & EM & O)].
      - apply (antichain_once n d); auto. lia. pose proof I as (_ & _ & G & _). now apply good_items. split; auto.
      - destruct (contents_ok d n ix L I) as (M' & EM' & P). rewrite EM in EM'. injection EM' as <-. now rewrite <- (occ_perm s _ _ P). }
    destruct (insert_inv d n ix L H s v Hn Hm I (conj W C) N Sm) as (ix2 & r2 & L' & E2 & I' & Sm' & A').
    rewrite E in E2. injection E2 as <- <-. exists L'. auto.
Qed.

Lemma antichain_perm d M M' : Permutation M M' -> antichain d M -> antichain d M'.
Proof. intros P A x N Pn. apply A. now rewrite P. Qed.
