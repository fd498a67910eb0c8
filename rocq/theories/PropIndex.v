(* Properties C11, C12, C13, C14: the subsumption index (output_set/index.rs, output_set/index/tree.rs). *)
From Coq Require Import List Arith Bool Lia Permutation.
Import ListNotations.
From Verif Require Import Spec Vec Net Util OutputSetModel OutputSetProofs PackProofs AbsFull SubsumeModel
  TreeModel TreeProofs TreeTraverse TreeMut TreeBuild IndexModel IndexSpec IndexTests IndexProofs IndexInsert IndexHist.

(* ---------- C11 ---------- *)

(* lookup never panics; it answers with the best value among everything that was ever inserted, and also among
   what is stored now *)
Theorem C11_lookup_best : forall d n chk H ix q, 1 < n -> n <= MAX_CHANNELS -> reachable d n chk H ix ->
  wf q -> channels q = n ->
  exists r M, lookup ix q (abstraction q) = Some r /\ contents ix = Some M /\ best_for d H q r /\ best_for d M q r.
Proof.
  intros d n chk H ix q Hn Hm R W C. destruct (reachable_inv d n chk H ix Hn Hm R) as (L & I & S & _).
  assert (G : gs n q) by (split; auto).
  destruct (lookup_ok d n Hn Hm ix L q I G) as (r & E & B). destruct (contents_ok d n ix L I) as (M & EM & P).
  apply best_of_for in B. exists r, M. split; auto. split; auto. split.
  - now apply (summary_best d n H (map (item n) L)).
  - eapply best_for_perm; [symmetry; exact P|auto].
Qed.
Print Assumptions C11_lookup_best.

(* LowerInvert never reads outside of the abstraction it compares with *)
Theorem C11_masked_index_in_range : forall s i, 0 < channels s -> i < length (abstraction s) -> Nat.lxor i 3 < length (abstraction s).
Proof. intros s i H. rewrite abstraction_length by auto. apply lxor3_lt. Qed.
Print Assumptions C11_masked_index_in_range.

(* ---------- C12 ---------- *)

Theorem C12_lookup_subsuming_witness : forall d n chk H ix q, 1 < n -> n <= MAX_CHANNELS -> reachable d n chk H ix ->
  wf q -> channels q = n ->
  exists r M, lookup_subsuming ix q (abstraction q) = Some r /\ contents ix = Some M /\
    match r with
    | Some (v, w, c) => In (c, v) M /\ In (c, v) H /\ wf c /\ channels c = n /\ valid d c q w /\ best_for d M q (Some v)
    | None => best_for d M q None
    end.
Proof.
  intros d n chk H ix q Hn Hm R W C. destruct (reachable_inv d n chk H ix Hn Hm R) as (L & I & (SG & S1 & S2) & _).
  assert (G : gs n q) by (split; auto).
  destruct (lookup_subsuming_ok d n Hn Hm ix L q I G) as (r & E & B). destruct (contents_ok d n ix L I) as (M & EM & P).
  exists r, M. split; auto. split; auto. destruct r as [((v, w), c)|]; unfold best_of in B; cbn [option_map fst] in B.
  - destruct B as ((e & He & Ev & Hc & (w' & Ew & V)) & B). injection Ew as _ <- ->. subst v.
    assert (Hi : In (item n e) (map (item n) L)) by (now apply in_map).
    assert (Ge : gs n (set_of n e)). { pose proof I as (_ & _ & Gl & _). exact (good_items n L Gl _ Hi). }
    split. exact (Permutation_in _ (Permutation_sym P) Hi). split. exact (S1 _ Hi). destruct Ge as (We & Ce). repeat split; auto.
    + apply V. + apply V.
    + exists (set_of n e). split; auto. exact (Permutation_in _ (Permutation_sym P) Hi).
    + intros c' v' Hc' Hcv. apply (Permutation_in _ P) in Hc'. apply in_map_iff in Hc'. destruct Hc' as (e' & Ee & He'). injection Ee as <- <-. now apply B.
  - intros c v Hi. apply (Permutation_in _ P) in Hi. apply in_map_iff in Hi. destruct Hi as (e' & Ee & He'). injection Ee as <- <-. now apply B.
Qed.
Print Assumptions C12_lookup_subsuming_witness.

(* so what is looked up in an index of lower bounds is a lower bound, in an index of upper bounds an upper bound *)
Theorem C12_lookup_is_bound : forall d n chk H ix q v w c, 1 < n -> n <= MAX_CHANNELS -> reachable d n chk H ix ->
  wf q -> channels q = n -> lookup_subsuming ix q (abstraction q) = Some (Some (v, w, c)) ->
  (forall s b, In (s, b) H -> match d with Upper => upper_bound n (vs s) b | _ => lower_bound n (vs s) b end) ->
  match d with Upper => upper_bound n (vs q) v | _ => lower_bound n (vs q) v end.
Proof.
  intros d n chk H ix q v w c Hn Hm R W C E B.
  destruct (C12_lookup_subsuming_witness d n chk H ix q Hn Hm R W C) as (r & M & E' & _ & K). rewrite E in E'. injection E' as <-.
  destruct K as (_ & Hi & Wc & Cc & (P & V) & _). specialize (B c v Hi). rewrite Cc in P.
  assert (Wd : width n (vs c)) by (rewrite <- Cc; apply vs_width). assert (Wq : width n (vs q)) by (rewrite <- C; apply vs_width).
  assert (T : forall z, subsumes_by z (snd w) (vs c) (vs q) -> lower_bound n (vs c) v -> lower_bound n (vs q) v).
  { intros z S L. apply (lower_bound_sym n z (snd w)) in L; auto. eapply lower_bound_mono; [|exact L]. intros y (x & Hx & ->). now apply S. }
  destruct d.
  - destruct V as (_ & V). now apply (T false).
  - now apply (T (fst w)).
  - destruct V as (_ & V). apply (upper_bound_sym n false (snd w)); auto. eapply upper_bound_mono; [|exact B]. intros y (x & Hx & ->). now apply V.
Qed.
Print Assumptions C12_lookup_is_bound.

(* ---------- C13 ---------- *)

(* one insertion, from any state reached by insertions in which s occurs at most once *)
Theorem C13_insert_keeps_undominated : forall d n chk H ix M s v, 1 < n -> n <= MAX_CHANNELS -> reachable d n chk H ix ->
  contents ix = Some M -> wf s -> channels s = n -> occurrences s M <= 1 ->
  (exists b, best_for d M s (Some b) /\ better d b v /\ insert ix s (abstraction s) v = Some (ix, b)) \/
  ((forall c w, In (c, w) M -> covers d c s -> ~ better d w v) /\
   exists ix' M' kept gone, insert ix s (abstraction s) v = Some (ix', v) /\ contents ix' = Some M' /\
     Permutation M (kept ++ gone) /\ Permutation M' ((s, v) :: kept) /\
     (forall x, In x kept -> ~ dominated d s v x) /\ (forall x, In x gone -> dominated d s v x)).
Proof.
  intros d n chk H ix M s v Hn Hm R EM W C O. destruct (reachable_inv d n chk H ix Hn Hm R) as (L & I & _ & _).
  destruct (contents_ok d n ix L I) as (M0 & EM0 & P). rewrite EM in EM0. injection EM0 as <-.
  assert (G : gs n s) by (split; auto).
  destruct (insert_ok d n ix L s v Hn Hm I G) as [(r & B & Hb & E)|(Nb & ix' & L' & pk & kept & gone & E & I' & Ep & PL & PL' & K & Go)].
  { rewrite nS_occ. now rewrite <- (occ_perm s _ _ P). }
  - left. exists r. split; auto. apply best_of_for in B. eapply best_for_perm; [symmetry; exact P|auto].
  - right. split.
    + intros c w Hi Hc Hb. apply (Permutation_in _ P) in Hi. apply in_map_iff in Hi. destruct Hi as (e & Ee & He). injection Ee as <- <-. now apply (Nb e).
    + destruct (contents_ok d n ix' L' I') as (M' & EM' & P'). exists ix', M', (map (item n) kept), (map (item n) gone).
      split; auto. split; auto. split. { rewrite P, PL, map_app. reflexivity. } split.
      { rewrite P', PL'. cbn [map]. assert (Ei : item n (mkEntry (abstraction s) pk v) = (s, v)).
        { unfold item. cbn. f_equal. destruct (packed_roundtrip s W) as (pk' & Ep' & _ & _ & Rt). rewrite Ep in Ep'. injection Ep' as <-.
          unfold set_of. cbn. rewrite C in Rt. now rewrite Rt. }
        rewrite Ei. reflexivity. }
      rewrite Forall_forall in K, Go. split; intros x Hx; apply in_map_iff in Hx; destruct Hx as (e & <- & He); auto.
Qed.
Print Assumptions C13_insert_keeps_undominated.

(* an index used only through insert_with_abstraction never panics, stores only inserted pairs, no set twice and
   no pair that another pair makes redundant *)
Theorem C13_checked_history : forall d n H ix, 1 < n -> n <= MAX_CHANNELS -> reachable d n true H ix ->
  (forall s v, wf s -> channels s = n -> exists ix' r, insert ix s (abstraction s) v = Some (ix', r) /\ reachable d n true ((s, v) :: H) ix') /\
  exists M, contents ix = Some M /\ (forall x, In x M -> In x H) /\
    (forall x, In x H -> exists y, In y M /\ dominated d (fst y) (snd y) x) /\
    (forall s, wf s -> channels s = n -> occurrences s M <= 1) /\
    (forall x M', Permutation M (x :: M') -> forall y, In y M' -> ~ dominated d (fst y) (snd y) x).
Proof.
  intros d n H ix Hn Hm R. destruct (reachable_inv d n true H ix Hn Hm R) as (L & I & S & A). specialize (A eq_refl).
  pose proof I as (_ & _ & G & _).
  destruct (contents_ok d n ix L I) as (M & EM & P). split.
  - intros s v W C. destruct (insert_inv d n ix L H s v Hn Hm I (conj W C)) as (ix' & r & L' & E & I' & S' & A'); auto.
    { rewrite nS_occ. apply (antichain_once n d); auto. lia. now apply good_items. split; auto. }
    exists ix', r. split; auto. eapply R_insert; eauto.
  - exists M. split; auto. destruct S as (SG & S1 & S2). split; [|split; [|split]].
    + intros x Hx. apply S1. now apply (Permutation_in _ P).
    + intros x Hx. destruct (S2 x Hx) as (y & Hy & D). exists y. split; auto. now apply (Permutation_in _ (Permutation_sym P)).
    + intros s W C. rewrite (occ_perm s _ _ P). apply (antichain_once n d); auto. lia. now apply good_items. split; auto.
    + apply (antichain_perm d (map (item n) L)); auto. now symmetry.
Qed.
Print Assumptions C13_checked_history.

(* ---------- C14 ---------- *)

Theorem C14_for_each_len_is_empty : forall d n chk H ix, 1 < n -> n <= MAX_CHANNELS -> reachable d n chk H ix ->
  exists E M, for_each ix = Some E /\ contents ix = Some M /\ index_len ix = length E /\ (index_is_empty ix = true <-> E = []) /\
    (forall s a v, In (s, a, v) E -> wf s /\ channels s = n /\ a = abstraction s /\ In (s, v) H).
Proof.
  intros d n chk H ix Hn Hm R. destruct (reachable_inv d n chk H ix Hn Hm R) as (L & I & (SG & S1 & S2) & A).
  destruct (for_each_ok d n ix L I) as (L' & P & E). destruct (contents_ok d n ix L I) as (M & EM & PM).
  pose proof I as (_ & _ & G & _).
  eexists _, M. split; [exact E|]. split; auto. rewrite map_length. split; [|split].
  - rewrite (len_ok d n ix L I). symmetry. now apply Permutation_length.
  - rewrite (is_empty_ok d n ix L I). split.
    + intros ->. apply Permutation_sym, Permutation_nil in P. now rewrite P.
    + intros Z. apply map_eq_nil in Z. subst L'. now apply Permutation_nil.
  - intros s a v Hi. apply in_map_iff in Hi. destruct Hi as (e & Ee & He). injection Ee as <- <- <-.
    apply (Permutation_in _ P) in He. rewrite Forall_forall in G. destruct (good_set n e (G e He)) as ((We & Ce) & Pe & _).
    repeat split; auto. apply S1. now apply (in_map (item n)).
Qed.
Print Assumptions C14_for_each_len_is_empty.

Theorem C14_unchecked_adds_one : forall d n chk H ix M s v, 1 < n -> n <= MAX_CHANNELS -> reachable d n chk H ix ->
  contents ix = Some M -> wf s -> channels s = n ->
  exists ix' M', insert_new_unchecked ix s (abstraction s) v = Some ix' /\ contents ix' = Some M' /\ Permutation M' ((s, v) :: M).
Proof.
  intros d n chk H ix M s v Hn Hm R EM W C. destruct (reachable_inv d n chk H ix Hn Hm R) as (L & I & _ & _).
  destruct (contents_ok d n ix L I) as (M0 & EM0 & P). rewrite EM in EM0. injection EM0 as <-.
  destruct (unchecked_ok d n Hn Hm ix L s v I (conj W C)) as (ix' & pk & Ep & E & I').
  destruct (contents_ok d n ix' _ I') as (M' & EM' & P'). exists ix', M'. split; auto. split; auto. rewrite P', P. cbn [map].
  unfold item at 1. cbn. destruct (packed_roundtrip s W) as (pk' & Ep' & _ & _ & Rt). rewrite Ep in Ep'. injection Ep' as <-.
  unfold set_of at 1. cbn. rewrite C in Rt. rewrite Rt. reflexivity.
Qed.
Print Assumptions C14_unchecked_adds_one.

(* ---------- concrete indexes ---------- *)

Definition insert_all_unchecked (ix : Index) (H : list (OutputSet * nat)) : option Index :=
  fold_opt (fun ix x => insert_new_unchecked ix (fst x) (abstraction (fst x)) (snd x)) H ix.
Definition insert_all (ix : Index) (H : list (OutputSet * nat)) : option Index :=
  fold_opt (fun ix x => option_map fst (insert ix (fst x) (abstraction (fst x)) (snd x))) H ix.

Definition wfb (n : nat) (s : OutputSet) : bool := (length (bitmap s) =? 2 ^ channels s) && (channels s =? n).
Lemma wfb_ok n s : wfb n s = true -> wf s /\ channels s = n.
Proof. unfold wfb, wf. intros H. apply andb_prop in H. destruct H as (A & B). apply Nat.eqb_eq in A. apply Nat.eqb_eq in B. auto. Qed.

Lemma insert_all_unchecked_reachable d n H : forall H0 ix ix', reachable d n false H0 ix -> forallb (fun x => wfb n (fst x)) H = true ->
  insert_all_unchecked ix H = Some ix' -> reachable d n false (rev H ++ H0) ix'.
Proof.
  induction H as [|(s, v) H IH]; intros H0 ix ix' R W E; unfold insert_all_unchecked in E; cbn [fold_opt fst snd] in E.
  - injection E as <-. exact R.
  - destruct (insert_new_unchecked ix s (abstraction s) v) as [ix1|] eqn:E1; [|discriminate].
    cbn [forallb fst] in W. apply andb_prop in W. destruct W as (Ws & W). apply wfb_ok in Ws.
    cbn [rev]. rewrite <- app_assoc. apply (IH ((s, v) :: H0) ix1); auto. eapply R_unchecked; eauto; apply Ws.
Qed.
Lemma insert_all_reachable d n H : forall H0 ix ix', reachable d n true H0 ix -> forallb (fun x => wfb n (fst x)) H = true ->
  insert_all ix H = Some ix' -> reachable d n true (rev H ++ H0) ix'.
Proof.
  induction H as [|(s, v) H IH]; intros H0 ix ix' R W E; unfold insert_all in E; cbn [fold_opt fst snd] in E.
  - injection E as <-. exact R.
  - destruct (insert ix s (abstraction s) v) as [(ix1, r)|] eqn:E1; [|discriminate]. cbn [option_map fst] in E.
    cbn [forallb fst] in W. apply andb_prop in W. destruct W as (Ws & W). apply wfb_ok in Ws.
    cbn [rev]. rewrite <- app_assoc. apply (IH ((s, v) :: H0) ix1); auto. eapply R_insert; eauto; apply Ws.
Qed.

(* 48 sets on 4 channels: all pairs of comparators with different channels in the second *)
Definition ix_pairs : list (nat * nat) := [(1,0);(2,0);(3,0);(2,1);(3,1);(3,2);(0,1)].
Definition ix_sets : list (OutputSet * nat) :=
  map (fun x : nat * ((nat * nat) * (nat * nat)) => let '(i, ((a, b), (c, e))) := x in
        (fst (apply_comparator (fst (apply_comparator (all_values 4) a b)) c e), i mod 5 + 1))
      (combine (seq 0 49) (list_prod ix_pairs ix_pairs)).
Definition ix_query : OutputSet := fst (apply_comparator (fst (apply_comparator (fst (apply_comparator (all_values 4) 1 0)) 3 2)) 2 0).

Definition summary_of (o : option Index) : option (nat * list nat * nat) :=
  option_map (fun ix => (index_len ix, map tree_len (ix_trees ix), length (ix_ents ix))) o.

Definition get_ix (o : option Index) : Index := match o with Some ix => ix | None => index_new Lower 0 end.
Definition is_some {A} (o : option A) : bool := match o with Some _ => true | None => false end.
Lemma get_ix_eq o : is_some o = true -> o = Some (get_ix o).
Proof. destruct o; [reflexivity|discriminate]. Qed.

Definition ix_with (d : Dir) : Index := get_ix (insert_all_unchecked (index_new d 4) ix_sets).

Lemma ix_with_reachable d : reachable d 4 false (rev ix_sets ++ []) (ix_with d).
Proof.
  apply (insert_all_unchecked_reachable d 4 ix_sets [] (index_new d 4) (ix_with d)); [constructor|vm_compute; reflexivity|].
  apply get_ix_eq. destruct d; vm_compute; reflexivity.
Qed.

(* an index with a tree of 32 entries and 17 entries in the buffer; lookups that find something and that do not *)
Example C11_case : forall d, 1 < 4 /\ 4 <= MAX_CHANNELS /\ reachable d 4 false (rev ix_sets ++ []) (ix_with d) /\
  map tree_len (ix_trees (ix_with d)) = [32] /\ length (ix_ents (ix_with d)) = 17 /\ wfb 4 ix_query = true /\
  lookup (ix_with d) (all_values 4) (abstraction (all_values 4)) = Some (match d with Upper => None | _ => Some 5 end) /\
  lookup (ix_with d) ix_query (abstraction ix_query) = Some (match d with Upper => Some 1 | _ => None end).
Proof.
  intros d. split; [lia|]. split; [unfold MAX_CHANNELS; lia|]. split; [apply ix_with_reachable|].
  destruct d; repeat split; vm_compute; reflexivity.
Qed.

(* complementing is sometimes needed: the query is the complement of the stored set with two channels exchanged *)
Definition ix_asym : OutputSet := fst (apply_comparator (fst (apply_comparator (all_values 4) 1 0)) 2 0).
Definition ix_asym' : OutputSet := swap_channels (invert ix_asym) 0 3.
Definition ix_one : Index := get_ix (insert_all (index_new LowerInvert 4) [(ix_asym, 3)]).
Example C12_case : reachable LowerInvert 4 true [(ix_asym, 3)] ix_one /\ wfb 4 ix_asym' = true /\
  option_map (option_map fst) (lookup_subsuming ix_one ix_asym' (abstraction ix_asym')) = Some (Some (3, (true, [3; 1; 2; 0]))) /\
  lookup (mkIndex Lower 4 (ix_trees ix_one) (ix_ents ix_one)) ix_asym' (abstraction ix_asym') = Some None.
Proof.
  split. { apply (insert_all_reachable LowerInvert 4 [(ix_asym, 3)] [] (index_new LowerInvert 4) ix_one); [constructor|vm_compute; reflexivity|].
    apply get_ix_eq. vm_compute. reflexivity. }
  repeat split; vm_compute; reflexivity.
Qed.

(* a set that dominates entries in the tree and in the buffer, and one that is already covered *)
Example C13_case :
  option_map (fun x => (map tree_len (ix_trees (fst x)), length (ix_ents (fst x)), snd x)) (insert (ix_with Lower) ix_query (abstraction ix_query) 3) = Some ([20], 12, 3) /\
  option_map (occurrences ix_query) (contents (ix_with Lower)) = Some 0 /\
  option_map snd (insert (ix_with Lower) (all_values 4) (abstraction (all_values 4)) 3) = Some 5.
Proof. repeat split; vm_compute; reflexivity. Qed.

Definition ix_checked : Index := get_ix (insert_all (index_new LowerInvert 4) ix_sets).
Example C13_case_checked : reachable LowerInvert 4 true (rev ix_sets ++ []) ix_checked /\ index_len ix_checked = 2.
Proof.
  split. { apply (insert_all_reachable LowerInvert 4 ix_sets [] (index_new LowerInvert 4) ix_checked); [constructor|vm_compute; reflexivity|].
    apply get_ix_eq. vm_compute. reflexivity. }
  vm_compute. reflexivity.
Qed.

(* the hypothesis on occurrences is needed: with the same set stored twice, the assertion in index.rs:521 fails *)
Definition ix_twice : Index := get_ix (insert_all_unchecked (index_new Lower 4) [(ix_query, 1); (ix_query, 1)]).
Theorem C13_duplicates_panic : exists d n H ix s v, reachable d n false H ix /\ wf s /\ channels s = n /\ insert ix s (abstraction s) v = None.
Proof.
  exists Lower, 4, [(ix_query, 1); (ix_query, 1)], ix_twice, ix_query, 2.
  split. { apply (insert_all_unchecked_reachable Lower 4 [(ix_query, 1); (ix_query, 1)] [] (index_new Lower 4) ix_twice); [constructor|vm_compute; reflexivity|].
    apply get_ix_eq. vm_compute. reflexivity. }
  repeat split; vm_compute; reflexivity.
Qed.
Print Assumptions C13_duplicates_panic.

Example C14_case : index_len (ix_with Upper) = 49 /\ index_is_empty (ix_with Upper) = false /\
  option_map (@length _) (for_each (ix_with Upper)) = Some 49 /\
  option_map (fun ix => map tree_len (ix_trees ix)) (insert_all_unchecked (ix_with Upper) (firstn 15 ix_sets)) = Some [64].
Proof. repeat split; vm_compute; reflexivity. Qed.
