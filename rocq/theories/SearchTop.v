(* A search that starts from all values: every other set on the same number of channels has two ordered channels, so its
   optimum is smaller. What is stored when the search ends. *)
From Coq Require Import List Arith Bool Lia Permutation.
Import ListNotations.
From Verif Require Import Spec Vec Net Graded Bits Util OutputSetModel OutputSetProofs PruneProofs PackProofs CountProofs HuffmanModel HuffmanProofs CanonModel TreeModel StatesModel StatesProofs StatesBounds SearchModel SearchFacts SearchInv SearchEdges SearchStep SearchFrames SearchGlobal SearchRun SearchSafe SearchOrder SearchWaits SearchMain SearchClosed.

(* ---- two ordered channels ---- *)
Definition ordered (n : nat) (V : vset) : Prop :=
  exists i j, i < n /\ j < n /\ i <> j /\ forall x, V x -> bit x i = true -> bit x j = true.

Lemma two_points n a b i j : a < n -> b < n -> a <> b -> i < n -> j < n -> i <> j ->
  exists p, is_perm n p /\ nth a p 0 = i /\ nth b p 0 = j.
Proof.
  intros Ha Hb Ab Hi Hj Ij. set (t := transp a i b).
  assert (Ht : t < n) by (apply transp_lt; auto).
  exists (comp_perm (transp_perm n j t) (transp_perm n a i)).
  pose proof (transp_perm_is_perm n j t Hj Ht) as P1. pose proof (transp_perm_is_perm n a i Ha Hi) as P2.
  split. now apply comp_perm_is_perm.
  rewrite !comp_perm_nth by (rewrite (is_perm_length n); auto).
  rewrite !(transp_perm_nth n a i) by auto. fold t.
  assert (Ea : transp a i a = i) by (unfold transp; now rewrite Nat.eqb_refl). rewrite Ea.
  rewrite !transp_perm_nth by auto.
  assert (Ti : t <> i). { intros E. apply Ab. rewrite <- (transp_invol a i a), <- (transp_invol a i b). fold t. now rewrite Ea, E. }
  split.
  - unfold transp. destruct (Nat.eqb_spec i j); [congruence|]. destruct (Nat.eqb_spec i t); congruence.
  - unfold transp at 1. destruct (Nat.eqb_spec t j) as [E|]; [congruence|]. now rewrite Nat.eqb_refl.
Qed.

Lemma ordered_upper n V k : width n V -> ordered n V -> upper_bound n (all_inputs n) k -> upper_bound n V (k - 1).
Proof.
  intros W (i & j & Hi & Hj & Ij & O) (net & F & L). destruct net as [|c net].
  - exists []. split; [|cbn; lia]. apply (finishes_mono n V (all_inputs n)); auto.
  - apply finishes_cons in F. destruct F as (C & F). pose proof C as (C1 & C2 & C3).
    destruct (two_points n (fst c) (snd c) i j C1 C2 C3 Hi Hj Ij) as (p & P & P1 & P2).
    apply (upper_bound_permute n p V (k - 1) P W). exists net. split; [|cbn in L; lia].
    apply (finishes_mono n _ (image (exch c) (all_inputs n))); auto.
    intros y (x & Hx & ->). exists (permute p x). assert (Lp : length (permute p x) = n). { rewrite permute_length. now apply is_perm_length. }
    split. exact Lp. symmetry. apply exch_in_order. now rewrite Lp. rewrite !bit_permute by (rewrite (is_perm_length n p P); auto). rewrite P1, P2. now apply O.
Qed.

Lemma ordered_exch n c V : cmp_ok n c -> width n V -> ordered n (image (exch c) V).
Proof.
  intros C W. pose proof C as (C1 & C2 & C3). exists (fst c), (snd c). repeat (split; auto). intros y (x & Hx & ->). rewrite !bit_exch by (now rewrite (W x Hx)).
  rewrite !Nat.eqb_refl. destruct (Nat.eqb_spec (fst c) (snd c)); [congruence|]. destruct (bit x (fst c)), (bit x (snd c)); auto.
Qed.

Lemma ordered_iso n inv p V W : width n V -> is_perm n p -> isomorphic_by inv p V W -> ordered n V -> ordered n W.
Proof.
  intros Wd P Iso (i & j & Hi & Hj & Ij & O). destruct (is_perm_surj n p i P Hi) as (a & Ha & Ea). destruct (is_perm_surj n p j P Hj) as (b & Hb & Eb).
  assert (Ab : a <> b) by (intros ->; congruence).
  assert (B : forall x u, length x = n -> u < n -> bit (permute p (complement_if inv x)) u = xorb inv (bit x (nth u p 0))).
  { intros x u Lx Hu. rewrite bit_permute by (rewrite (is_perm_length n p P); auto). destruct inv; cbn [complement_if].
    rewrite bit_complement. now destruct (bit x _). rewrite Lx. now apply is_perm_nth. now destruct (bit x _). }
  destruct inv.
  - exists b, a. repeat (split; auto). intros y Hy. apply Iso in Hy. destruct Hy as (x & Hx & ->). rewrite !B by auto. rewrite Ea, Eb.
    specialize (O x Hx). destruct (bit x i), (bit x j); auto.
  - exists a, b. repeat (split; auto). intros y Hy. apply Iso in Hy. destruct Hy as (x & Hx & ->). rewrite !B by auto. rewrite Ea, Eb.
    specialize (O x Hx). destruct (bit x i), (bit x j); auto.
Qed.

(* ---- the sets of the search ---- *)
Definition from_top (n : nat) (s : OutputSet) : Prop :=
  channels s <= n /\ (channels s = n -> s = all_values n \/ ordered n (vs s)).

Section Top.
Variables chash mhash : list nat -> nat.
Notation cur := (cur mhash).

Lemma okset_width s : okset s -> width (channels s) (vs s).
Proof. intros _ x Hx. apply Hx. Qed.

Lemma from_top_succ n s t : okset s -> from_top n s -> In t (succs chash s) -> from_top n t.
Proof.
  intros K (L & _) H. destruct (succs_spec chash s t K H) as (Kt & C & c & Cc & _ & inv & p & P & Iso).
  split. lia. intros E. right. rewrite <- E, C. apply (ordered_iso _ inv p (image (exch c) (vs s))); auto.
  apply width_exch. now apply okset_width. apply ordered_exch; auto. now apply okset_width.
Qed.
Lemma from_top_prune n s pol t : okset s -> from_top n s -> In t (prunes chash s pol) -> from_top n t.
Proof. intros K (L & _) H. destruct (prunes_okset chash s pol t K H) as (_ & C). split; lia. Qed.

Lemma okset_all n : n <= 11 -> okset (all_values n).
Proof.
  intros H. split. apply all_values_wf. split. exact H. cbn [channels all_values]. apply (graded_same n (all_inputs n)).
  apply same_set_sym, all_values_vs. apply graded_all.
Qed.

Lemma canon_all n : n <= 11 -> canon_of chash (all_values n) = all_values n.
Proof.
  intros H. destruct (canon_spec chash (all_values n) (okset_all n H)) as (t & inv & p & E & Kt & C & P & Iso). unfold canon_of. rewrite E.
  cbn [channels all_values] in *. apply os_ext. apply Kt. apply all_values_wf. exact C.
  intros x. rewrite (Iso x). split.
  - intros (y & Hy & ->). apply all_values_vs. unfold all_inputs. now apply sym_length.
  - intros Hx. apply all_values_vs in Hx. exists (sym inv (inv_perm n p) x). split. apply all_values_vs. apply sym_length. now apply inv_perm_is_perm.
    symmetry. now apply (sym_inverse' n).
Qed.

Lemma run_from_top threads n limit c : n <= 11 -> search_run chash mhash threads (all_values n) limit c ->
  forall s st, wf s -> stored mhash (g_map c) s = Some st -> from_top n s.
Proof.
  intros H R. apply (run_stored chash mhash (from_top n)) with (threads := threads) (initial := all_values n) (limit := limit); auto.
  - intros s t. apply from_top_succ.
  - intros s pol t. apply from_top_prune.
  - now apply okset_all.
  - rewrite canon_all by auto. split; cbn; auto.
Qed.

Lemma run_tight threads initial limit c : okset initial -> search_run chash mhash threads initial limit c ->
  tight mhash (sm_default threads) (g_map c).
Proof.
  intros K H. induction H as [c H|c c' H IH Hs].
  - unfold search_start in H. destruct (canon chash initial) as [i|]; [|discriminate]. cbn in H. injection H as <-. apply tight_refl.
  - eapply tight_trans; eauto. apply (sys_step_inv chash mhash c c'); auto. eapply run_inv; eauto.
Qed.

(* one comparator does not finish three or more channels *)
Lemma two_needed n k : 3 <= n -> upper_bound n (all_inputs n) k -> 2 <= k.
Proof.
  intros Hn (net & (Ok & F) & L). destruct k as [|[|k]]; [| |lia]; exfalso.
  - destruct net; [|cbn in L; lia]. assert (E : unit_vec n 0 = unit_vec n 1).
    { apply F. exists (unit_vec n 0). split; auto. apply unit_vec_length. exists (unit_vec n 1). split; auto. apply unit_vec_length.
      rewrite !unit_vec_weight by lia. reflexivity. }
    assert (B : bit (unit_vec n 0) 0 = bit (unit_vec n 1) 0) by (now rewrite E). rewrite !bit_unit_vec in B by lia. discriminate.
  - destruct net as [|c [|d net]]; [| |cbn in L; lia].
    + assert (E : unit_vec n 0 = unit_vec n 1).
      { apply F. exists (unit_vec n 0). split; auto. apply unit_vec_length. exists (unit_vec n 1). split; auto. apply unit_vec_length.
        rewrite !unit_vec_weight by lia. reflexivity. }
      assert (B : bit (unit_vec n 0) 0 = bit (unit_vec n 1) 0) by (now rewrite E). rewrite !bit_unit_vec in B by lia. discriminate.
    + inversion Ok as [|? ? C _]; subst. pose proof C as (C1 & C2 & C3).
      assert (D : exists e, e < n /\ e <> fst c /\ e <> snd c).
      { destruct (Nat.eq_dec 0 (fst c)) as [E0|N0], (Nat.eq_dec 0 (snd c)) as [E0'|N0']; try lia.
        - destruct (Nat.eq_dec 1 (snd c)). exists 2. lia. exists 1. lia.
        - destruct (Nat.eq_dec 1 (fst c)). exists 2. lia. exists 1. lia.
        - exists 0. lia. }
      destruct D as (e & He & E1 & E2).
      assert (E : run [c] (unit_vec n e) = run [c] (unit_vec n (fst c))).
      { apply F. exists (unit_vec n e). split; auto. apply unit_vec_length. exists (unit_vec n (fst c)). split; auto. apply unit_vec_length.
        rewrite !(run_weight n) by (auto; apply unit_vec_length). rewrite !unit_vec_weight by lia. reflexivity. }
      assert (B : bit (run [c] (unit_vec n e)) e = bit (run [c] (unit_vec n (fst c))) e) by (now rewrite E).
      cbn [run fold_left] in B. rewrite !bit_exch in B by (rewrite unit_vec_length; auto).
      destruct (Nat.eqb_spec e (snd c)); [congruence|]. destruct (Nat.eqb_spec e (fst c)); [congruence|]. rewrite !bit_unit_vec in B by lia.
      rewrite Nat.eqb_refl in B. destruct (Nat.eqb_spec e (fst c)); congruence.
Qed.

(* what the map holds when the search ends *)
Record search_end (n k : nat) (m : StateMap) : Prop := {
  se_inv : map_inv chash mhash m;
  se_size : minimal_size n k;
  se_two : 2 <= k;
  se_top : exists st, stored mhash m (all_values n) = Some st /\ lo st = k;
  se_stored : forall s st, wf s -> stored mhash m s = Some st -> okset s /\ work s /\ 1 <= lo st /\ lo st <= 35 /\ channels s <= n /\
    (channels s = n -> s <> all_values n -> lo st < k) }.

Theorem run_search_end threads n c k : 3 <= n -> n <= 11 -> search_run chash mhash threads (all_values n) None c -> search_result c k ->
  search_end n k (g_map c).
Proof.
  intros H3 Hn R SR. pose proof (okset_all n Hn) as K. pose proof (run_inv chash mhash _ _ _ _ K R) as I. pose proof (inv_map _ _ c I) as IM.
  assert (M : lo (cur (g_map c) (all_values n)) = k /\ hi (cur (g_map c) (all_values n)) = k).
  { destruct SR as (x & s & lim & N & E). destruct (run_main chash mhash _ _ _ _ K R) as (_ & M). specialize (M 0 x N). rewrite E in M. destruct M as (a & M).
    destruct a as [|a]; cbn in M. 2:{ destruct a; discriminate. } injection M as -> ->.
    destruct (inv_core _ _ c I _ (nth_error_In _ _ (nth_cores c 0 x N))) as (_ & S & _). cbn [core c_stack] in S. rewrite E in S.
    destruct S as ((Ks & st & (P1 & P2 & _) & -> & D) & _). rewrite canon_all in * by auto. destruct D as [D|(l & D & _)]; [|discriminate].
    unfold closed in D. apply Nat.eqb_eq in D. pose proof (mi_valid _ _ _ IM _ Ks) as (L & U). pose proof (lower_upper _ _ _ _ L U). lia. }
  destruct M as (Ml & Mh). pose proof (mi_valid _ _ _ IM _ K) as (L & U). rewrite Ml in L. rewrite Mh in U. cbn [channels all_values] in L, U.
  assert (O : optimum n (all_inputs n) k).
  { split. apply (lower_bound_same n (vs (all_values n))); auto. apply all_values_vs.
    apply (upper_bound_same n _ (vs (all_values n))); auto. apply same_set_sym, all_values_vs. }
  assert (K2 : 2 <= k) by (apply (two_needed n); auto; apply O).
  split; auto.
  - now apply minimal_size_optimum.
  - destruct (stored mhash (g_map c) (all_values n)) as [st|] eqn:Es.
    + exists st. split; auto. unfold StatesBounds.cur in Ml. now rewrite Es in Ml.
    + exfalso. unfold StatesBounds.cur in Ml. rewrite Es in Ml. unfold default_state in Ml. destruct (is_sorted _). cbn in Ml. lia.
      destruct (channels _ <=? 2). cbn in Ml. lia. cbn [lo] in Ml. lia.
  - intros s st W Hs. destruct (mi_stored _ _ _ IM s st W Hs) as (Ks & Wk).
    assert (Ec : cur (g_map c) s = st) by (unfold StatesBounds.cur; now rewrite Hs). split; auto. split; auto. split; [|split; [|split]].
    + destruct (run_tight threads _ _ c K R s Ks) as (T & _). unfold StatesBounds.cur at 1 in T. rewrite sm_default_stored in T. rewrite Ec in T.
      unfold default_state in T. destruct Wk as (Sn & C3). rewrite Sn in T. destruct (channels s <=? 2); cbn [lo] in T; lia.
    + rewrite <- Ec. apply (sound_lo mhash (g_map c)); auto. apply (map_inv_sound chash). exact IM.
    + apply (run_from_top threads n None c Hn R s st W Hs).
    + intros Cn Ne. destruct (run_from_top threads n None c Hn R s st W Hs) as (_ & F). destruct (F Cn) as [F'|F']; [congruence|].
      pose proof (mi_valid _ _ _ IM _ Ks) as (Ls & _). rewrite Ec, Cn in Ls.
      assert (Us : upper_bound n (vs s) (k - 1)). { apply ordered_upper; auto. rewrite <- Cn. now apply okset_width. apply O. }
      pose proof (lower_upper _ _ _ _ Ls Us). lia.
Qed.
End Top.
