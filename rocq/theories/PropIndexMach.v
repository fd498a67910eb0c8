(* Property C52: the index with everything its closures do (src/output_set/index.rs). *)
From Coq Require Import List Arith Bool Lia Permutation.
Import ListNotations.
From Verif Require Import Spec Util OutputSetModel OutputSetProofs SubsumeModel PropSubsume TreeModel IndexModel IndexSpec IndexTests PropIndex
  FlatModel FlatProofs FlatIndex PropFlat MachineModel MachineProofs IndexMachModel IndexMachProofs.

(* the entries, as seen through for_each *)
Definition mx_contents (x : FIndex) : option (list (OutputSet * nat)) :=
  option_map (map (fun y : OutputSet * list nat * nat => (fst (fst y), snd y))) (mx_for_each x).

(* any sequence of insertions of sets of the right size with the abstractions computed for them *)
Inductive mx_reachable (d : Dir) (n : nat) : bool -> list (OutputSet * nat) -> FIndex -> Prop :=
| MX_new checked : mx_reachable d n checked [] (fx_new d n)
| MX_unchecked H x s ab v x' : mx_reachable d n false H x -> wf s -> channels s = n ->
    abstraction_c s = Some ab -> fx_insert_new_unchecked x s ab v = Some x' -> mx_reachable d n false ((s, v) :: H) x'
| MX_insert checked H x s ab v x' r : mx_reachable d n checked H x -> wf s -> channels s = n ->
    (checked = true \/ exists M, mx_contents x = Some M /\ occurrences s M <= 1) ->
    abstraction_c s = Some ab -> mx_insert x s ab v = Some (x', r) -> mx_reachable d n checked ((s, v) :: H) x'.

Lemma rep_fok n x ix : IRep n x ix -> FOk n x.
Proof.
  intros [D FC C T V]. split; auto. induction T as [|f t fs ts HR T IH]; constructor; auto.
  destruct HR. auto.
Qed.
Lemma fx_reachable_fok d n chk H x : 1 < n -> n <= MAX_CHANNELS -> fx_reachable d n chk H x -> FOk n x.
Proof. intros N1 N2 R. destruct (fx_reachable_rep _ _ _ _ _ N1 N2 R) as (ix & _ & I). eapply rep_fok; eauto. Qed.

Section Same.
Variables (d : Dir) (n : nat) (chk : bool) (H : list (OutputSet * nat)) (x : FIndex).
Hypothesis N1 : 1 < n.
Hypothesis N2 : n <= MAX_CHANNELS.
Hypothesis R : fx_reachable d n chk H x.
Lemma ab_len s : channels s = n -> length (abstraction s) = abstraction_len_for_channels n.
Proof. intros C. rewrite abstraction_length by lia. rewrite C. unfold abstraction_len_for_channels, PAIR_ABSTRACTION_GROUPS. lia. Qed.
Lemma ab_ok s : wf s -> channels s = n -> abstraction_c s = Some (abstraction s).
Proof. intros W C. apply abstraction_ok; auto; lia. Qed.
Lemma same_lookup q r : wf q -> channels q = n -> fx_lookup x q (abstraction q) = Some r -> mx_lookup x q (abstraction q) = Some r.
Proof.
  intros W C. apply orel_get. apply (mx_lookup_ok n); auto. eapply fx_reachable_fok; eauto. apply ab_len; auto.
Qed.
Lemma same_subsuming q r : wf q -> channels q = n -> fx_lookup_subsuming x q (abstraction q) = Some r -> mx_lookup_subsuming x q (abstraction q) = Some r.
Proof.
  intros W C. apply orel_get. apply (mx_lookup_subsuming_ok n); auto. eapply fx_reachable_fok; eauto. apply ab_len; auto.
Qed.
Lemma same_insert s v r : wf s -> channels s = n -> fx_insert x s (abstraction s) v = Some r -> mx_insert x s (abstraction s) v = Some r.
Proof.
  intros W C. apply orel_get. apply (mx_insert_ok n); auto. eapply fx_reachable_fok; eauto. apply ab_len; auto.
Qed.
Lemma same_for_each E : fx_for_each x = Some E -> mx_for_each x = Some E.
Proof. apply orel_get. apply (mx_for_each_ok n); auto. eapply fx_reachable_fok; eauto. Qed.
Lemma same_contents : mx_contents x = fx_contents x.
Proof.
  destruct (C48_for_each_len_is_empty d n chk H x N1 N2 R) as (E & HE & _). unfold mx_contents, fx_contents. rewrite HE, (same_for_each E HE). auto.
Qed.
Lemma contents_some : exists M, fx_contents x = Some M.
Proof. destruct (C48_for_each_len_is_empty d n chk H x N1 N2 R) as (E & HE & _). unfold fx_contents. rewrite HE. cbn. eauto. Qed.
Lemma same_insert_back s v r : wf s -> channels s = n -> (chk = true \/ exists M, fx_contents x = Some M /\ occurrences s M <= 1) ->
  mx_insert x s (abstraction s) v = Some r -> fx_insert x s (abstraction s) v = Some r.
Proof.
  intros W C Ho E. destruct contents_some as (M & HM).
  assert (O : occurrences s M <= 1).
  { destruct Ho as [->|(M' & E1 & O)]; [|congruence].
    destruct (C48_checked_history d n H x N1 N2 R) as (_ & M' & E1 & _ & _ & O & _). assert (M' = M) by congruence. subst. apply O; auto. }
  assert (K : exists r', fx_insert x s (abstraction s) v = Some r').
  { destruct (C48_insert_keeps_undominated d n chk H x M s v N1 N2 R HM W C O) as [(b & _ & _ & K)|(_ & x' & M' & k & g & K & _)]; eauto. }
  destruct K as (r' & K). rewrite (same_insert s v r' W C K) in E. congruence.
Qed.
End Same.

Lemma mx_reachable_fx d n chk H x : 1 < n -> n <= MAX_CHANNELS -> mx_reachable d n chk H x -> fx_reachable d n chk H x.
Proof.
  intros N1 N2 R. induction R as [chk|H x s ab v x' R IH W C A E|chk H x s ab v x' r R IH W C Ho A E].
  - constructor.
  - rewrite (ab_ok n N1 N2 s W C) in A. injection A as <-. eapply F_unchecked; eauto.
  - rewrite (ab_ok n N1 N2 s W C) in A. injection A as <-.
    assert (Ho' : chk = true \/ exists M, fx_contents x = Some M /\ occurrences s M <= 1).
    { destruct Ho as [?|(M & E1 & O)]; auto. right. exists M. rewrite <- (same_contents d n chk H x N1 N2 IH). auto. }
    eapply F_insert; eauto. eapply same_insert_back; eauto.
Qed.
Lemma fx_reachable_mx d n chk H x : 1 < n -> n <= MAX_CHANNELS -> fx_reachable d n chk H x -> mx_reachable d n chk H x.
Proof.
  intros N1 N2 R. induction R as [chk|H x s v x' R IH W C E|chk H x s v x' r R IH W C Ho E].
  - constructor.
  - eapply MX_unchecked; eauto. apply (ab_ok n); auto.
  - eapply MX_insert; eauto.
    + destruct Ho as [?|(M & E1 & O)]; auto. right. exists M. rewrite (same_contents d n chk H x N1 N2 R). auto.
    + apply (ab_ok n); auto.
    + eapply same_insert; eauto.
Qed.

(* lookups: no check fails, and the answer is a best entry *)
Theorem C52_lookups : forall d n chk H x q, 1 < n -> n <= MAX_CHANNELS -> mx_reachable d n chk H x -> wf q -> channels q = n ->
  exists ab r w M, abstraction_c q = Some ab /\ mx_lookup x q ab = Some r /\ mx_lookup_subsuming x q ab = Some w /\ mx_contents x = Some M /\
    best_for d H q r /\ best_for d M q r /\
    match w with
    | Some (v, p, c) => r = Some v /\ In (c, v) M /\ In (c, v) H /\ wf c /\ channels c = n /\ valid d c q p
    | None => r = None
    end.
Proof.
  intros d n chk H x q N1 N2 R W C. pose proof (mx_reachable_fx _ _ _ _ _ N1 N2 R) as R'.
  destruct (C48_lookup_best d n chk H x q N1 N2 R' W C) as (r & M & L & HM & B1 & B2).
  destruct (C48_lookup_subsuming_witness d n chk H x q N1 N2 R' W C) as (w & M' & L' & HM' & K).
  assert (M' = M) by congruence. subst M'.
  exists (abstraction q), r, w, M. split; [apply (ab_ok n); auto|]. split; [eapply same_lookup; eauto|]. split; [eapply same_subsuming; eauto|].
  split; [rewrite (same_contents d n chk H x N1 N2 R'); auto|]. split; auto. split; auto.
  destruct w as [((v, p), c)|].
  - destruct K as (K1 & K2 & K3 & K4 & K5 & K6). pose proof (best_for_unique _ _ _ _ _ B2 K6). tauto.
  - apply (best_for_unique _ _ _ _ _ B2 K).
Qed.
Print Assumptions C52_lookups.

(* insertion: no check fails; either the set is already covered by a better entry, or the entries that it covers are
   replaced by it *)
Theorem C52_insert : forall d n chk H x s v, 1 < n -> n <= MAX_CHANNELS -> mx_reachable d n chk H x ->
  wf s -> channels s = n -> (chk = true \/ exists M, mx_contents x = Some M /\ occurrences s M <= 1) ->
  exists ab M, abstraction_c s = Some ab /\ mx_contents x = Some M /\
    ((exists b, best_for d M s (Some b) /\ better d b v /\ mx_insert x s ab v = Some (x, b)) \/
     ((forall c w, In (c, w) M -> covers d c s -> ~ better d w v) /\
      exists x' M' kept gone, mx_insert x s ab v = Some (x', v) /\ mx_reachable d n chk ((s, v) :: H) x' /\ mx_contents x' = Some M' /\
        Permutation M (kept ++ gone) /\ Permutation M' ((s, v) :: kept) /\
        (forall y, In y kept -> ~ dominated d s v y) /\ (forall y, In y gone -> dominated d s v y))).
Proof.
  intros d n chk H x s v N1 N2 R W C Ho. pose proof (mx_reachable_fx _ _ _ _ _ N1 N2 R) as R'.
  destruct (contents_some d n chk H x N1 N2 R') as (M & HM). pose proof (same_contents d n chk H x N1 N2 R') as SC.
  assert (O : occurrences s M <= 1).
  { destruct Ho as [->|(M' & E1 & O)]; [|rewrite SC in E1; congruence].
    destruct (C48_checked_history d n H x N1 N2 R') as (_ & M' & E1 & _ & _ & O & _). assert (M' = M) by congruence. subst. apply O; auto. }
  exists (abstraction s), M. split; [apply (ab_ok n); auto|]. split; [congruence|].
  destruct (C48_insert_keeps_undominated d n chk H x M s v N1 N2 R' HM W C O) as [(b & B1 & B2 & K)|(B & x' & M' & k & g & K & HM' & K')].
  - left. exists b. split; auto. split; auto. eapply same_insert; eauto.
  - right. split; auto. exists x', M', k, g. pose proof (same_insert d n chk H x N1 N2 R' s v _ W C K) as K2.
    assert (R2 : mx_reachable d n chk ((s, v) :: H) x') by (eapply MX_insert; eauto; apply (ab_ok n); auto).
    split; auto. split; auto. split; auto. rewrite (same_contents d n chk _ x' N1 N2 (mx_reachable_fx _ _ _ _ _ N1 N2 R2)). auto.
Qed.
Print Assumptions C52_insert.

(* insertion without looking, for_each and len *)
Theorem C52_unchecked_and_for_each : forall d n chk H x, 1 < n -> n <= MAX_CHANNELS -> mx_reachable d n chk H x ->
  (exists E, mx_for_each x = Some E /\ fx_len x = length E /\ (fx_is_empty x = true <-> E = []) /\
     forall s a v, In (s, a, v) E -> wf s /\ channels s = n /\ abstraction_c s = Some a /\ In (s, v) H) /\
  forall s v, wf s -> channels s = n -> exists ab M x' M', abstraction_c s = Some ab /\ mx_contents x = Some M /\
    fx_insert_new_unchecked x s ab v = Some x' /\
    (chk = false -> mx_reachable d n chk ((s, v) :: H) x' /\ mx_contents x' = Some M' /\ Permutation M' ((s, v) :: M)).
Proof.
  intros d n chk H x N1 N2 R. pose proof (mx_reachable_fx _ _ _ _ _ N1 N2 R) as R'. split.
  - destruct (C48_for_each_len_is_empty d n chk H x N1 N2 R') as (E & HE & L & EE & K). exists E.
    split; [eapply same_for_each; eauto|]. split; auto. split; auto. intros s a v I. destruct (K s a v I) as (W & C & -> & I'). repeat split; auto.
    apply (ab_ok n); auto.
  - intros s v W C. destruct (contents_some d n chk H x N1 N2 R') as (M & HM).
    destruct (C48_unchecked_adds_one d n chk H x M s v N1 N2 R' HM W C) as (x' & M' & I & HM' & P).
    exists (abstraction s), M, x', M'. split; [apply (ab_ok n); auto|]. split; [rewrite (same_contents d n chk H x N1 N2 R'); auto|]. split; auto.
    intros ->. assert (R2 : mx_reachable d n false ((s, v) :: H) x') by (eapply MX_unchecked; eauto; apply (ab_ok n); auto).
    split; auto. rewrite (same_contents d n false _ x' N1 N2 (mx_reachable_fx _ _ _ _ _ N1 N2 R2)). auto.
Qed.
Print Assumptions C52_unchecked_and_for_each.

(* what the shared bitmap holds before a lookup has no influence on the answer *)
Theorem C52_bitmap_contents_irrelevant : forall d n chk H x q ab bm, 1 < n -> n <= MAX_CHANNELS -> mx_reachable d n chk H x ->
  wf q -> channels q = n -> abstraction_c q = Some ab -> length bm = 2 ^ n ->
  option_map fst (mx_scan (lookup_filter_c x ab) (lookup_action_c x q ab) x (None, bm)) = mx_lookup x q ab /\
  option_map fst (mx_scan (subsuming_filter_c x ab) (subsuming_action_c x q ab) x (None, bm)) = mx_lookup_subsuming x q ab.
Proof.
  intros d n chk H x q ab bm N1 N2 R W C A L. pose proof (mx_reachable_fx _ _ _ _ _ N1 N2 R) as R'.
  rewrite (ab_ok n N1 N2 q W C) in A. injection A as <-. pose proof (fx_reachable_fok _ _ _ _ _ N1 N2 R') as FO.
  pose proof (ab_len n N1 N2 q C) as La.
  destruct (C48_lookup_best d n chk H x q N1 N2 R' W C) as (r & M & E & _).
  destruct (C48_lookup_subsuming_witness d n chk H x q N1 N2 R' W C) as (w & M' & E' & _). split.
  - rewrite (same_lookup d n chk H x N1 N2 R' q r W C E). unfold fx_lookup in E.
    assert (K : orel (Qs n) (mx_scan (lookup_filter_c x (abstraction q)) (lookup_action_c x q (abstraction q)) x (None, bm))
                   (fx_scan (lookup_filter (fx_head x) (abstraction q)) (lookup_action (fx_head x) q (abstraction q)) x None)).
    { apply mx_scan_ok; auto; [| |split; auto]; intros. eapply lookup_filter_ok; eauto. eapply lookup_action_ok; eauto. }
    rewrite E in K. destruct K as (u & -> & K & _). cbn. congruence.
  - rewrite (same_subsuming d n chk H x N1 N2 R' q w W C E'). unfold fx_lookup_subsuming in E'.
    assert (K : orel (Qs n) (mx_scan (subsuming_filter_c x (abstraction q)) (subsuming_action_c x q (abstraction q)) x (None, bm))
                   (fx_scan (subsuming_filter (fx_head x) (abstraction q)) (subsuming_action (fx_head x) q (abstraction q)) x None)).
    { apply mx_scan_ok; auto; [| |split; auto]; intros. eapply subsuming_filter_ok; eauto. eapply subsuming_action_ok; eauto. }
    rewrite E' in K. destruct K as (u & -> & K & _). cbn. congruence.
Qed.
Print Assumptions C52_bitmap_contents_irrelevant.

(* the index of C11_case: 32 entries in a tree, 17 in the buffer *)
Example C52_case : mx_reachable Lower 4 false (rev ix_sets ++ []) (fx_with Lower) /\
  mx_reachable LowerInvert 4 true (rev ix_sets ++ []) fx_checked.
Proof.
  split; apply fx_reachable_mx; try (unfold MAX_CHANNELS; lia). apply C48_case. apply C48_case_checked.
Qed.
(* a bitmap left over from an earlier use *)
Example C52_case_bitmap : length (repeat true 16) = 2 ^ 4 /\
  option_map fst (mx_scan (lookup_filter_c fx_checked (abstraction (all_values 4))) (lookup_action_c fx_checked (all_values 4) (abstraction (all_values 4))) fx_checked (None, repeat true 16)) =
    mx_lookup fx_checked (all_values 4) (abstraction (all_values 4)) /\
  option_map (fun r => is_some r) (mx_lookup fx_checked (all_values 4) (abstraction (all_values 4))) = Some true.
Proof. split; [reflexivity|]. split; vm_compute; reflexivity. Qed.
