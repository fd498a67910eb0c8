(* Property C48: the index with the flat vectors of the code (index.rs, tree.rs). *)
From Coq Require Import List Arith Bool Lia Permutation.
Import ListNotations.
From Verif Require Import Spec Util OutputSetModel OutputSetProofs SubsumeModel PropSubsume TreeModel IndexModel IndexSpec IndexTests PropIndex
  FlatModel FlatProofs FlatIndex.

(* the entries, as seen through for_each *)
Definition fx_contents (x : FIndex) : option (list (OutputSet * nat)) :=
  option_map (map (fun y : OutputSet * list nat * nat => (fst (fst y), snd y))) (fx_for_each x).

(* as IndexSpec.reachable: any sequence of insertions of sets of the right size, with their abstractions *)
Inductive fx_reachable (d : Dir) (n : nat) : bool -> list (OutputSet * nat) -> FIndex -> Prop :=
| F_new checked : fx_reachable d n checked [] (fx_new d n)
| F_unchecked H x s v x' : fx_reachable d n false H x -> wf s -> channels s = n ->
    fx_insert_new_unchecked x s (abstraction s) v = Some x' -> fx_reachable d n false ((s, v) :: H) x'
| F_insert checked H x s v x' r : fx_reachable d n checked H x -> wf s -> channels s = n ->
    (checked = true \/ exists M, fx_contents x = Some M /\ occurrences s M <= 1) ->
    fx_insert x s (abstraction s) v = Some (x', r) -> fx_reachable d n checked ((s, v) :: H) x'.

Lemma orel_get {A} (a b : option A) r : orel eq a b -> b = Some r -> a = Some r.
Proof. intros O ->. destruct O as (y & -> & ->). auto. Qed.

Lemma contents_rep n x ix M : IRep n x ix -> contents ix = Some M -> fx_contents x = Some M.
Proof.
  unfold contents, fx_contents. intros H E. destruct (for_each ix) as [l|] eqn:Ef; [|discriminate].
  rewrite (orel_get _ _ _ (R_for_each n x ix H) Ef). auto.
Qed.

Lemma occurrences_ok d n chk H ix M s : 1 < n -> n <= MAX_CHANNELS -> reachable d n chk H ix -> contents ix = Some M ->
  wf s -> channels s = n -> (chk = true \/ occurrences s M <= 1) -> occurrences s M <= 1.
Proof.
  intros Hn Hm R E W C [->|O]; auto. destruct (C13_checked_history d n H ix Hn Hm R) as (_ & M' & E' & _ & _ & K & _).
  rewrite E in E'. injection E' as <-. auto.
Qed.

(* what is reached with vectors is reached with lists *)
Lemma fx_reachable_rep d n chk H x : 1 < n -> n <= MAX_CHANNELS -> fx_reachable d n chk H x -> exists ix, reachable d n chk H ix /\ IRep n x ix.
Proof.
  intros Hn Hm R. induction R as [chk|H x s v x' R IH W C E|chk H x s v x' r R IH W C O E].
  - exists (index_new d n). split; [constructor|apply R_index_new].
  - destruct IH as (ix & Rx & Hx). destruct (C14_for_each_len_is_empty d n false H ix Hn Hm Rx) as (_ & M & _ & EM & _).
    destruct (C14_unchecked_adds_one d n false H ix M s v Hn Hm Rx EM W C) as (ix' & M' & Ei & _).
    pose proof (R_insert_new n x ix s (abstraction s) v Hx (new_ok_abstraction n s Hn Hm W C)) as K. rewrite Ei, E in K.
    destruct K as (? & [= <-] & K). exists ix'. split; auto. eapply R_unchecked; eauto.
  - destruct IH as (ix & Rx & Hx). destruct (C14_for_each_len_is_empty d n chk H ix Hn Hm Rx) as (_ & M & _ & EM & _).
    assert (O' : chk = true \/ occurrences s M <= 1).
    { destruct O as [O|(M' & EM' & O)]; auto. rewrite (contents_rep n x ix M Hx EM) in EM'. injection EM' as <-. auto. }
    pose proof (occurrences_ok d n chk H ix M s Hn Hm Rx EM W C O') as Oc.
    pose proof (R_insert n x ix s (abstraction s) v Hx (new_ok_abstraction n s Hn Hm W C)) as K.
    assert (EI : exists ix' r', IndexModel.insert ix s (abstraction s) v = Some (ix', r')).
    { destruct (C13_insert_keeps_undominated d n chk H ix M s v Hn Hm Rx EM W C Oc) as [(b & _ & _ & Ei)|(_ & ix' & M' & ? & ? & Ei & _)]; eauto. }
    destruct EI as (ix' & r' & Ei). rewrite Ei, E in K. destruct K as (? & [= <-] & K & Er). cbn [fst snd] in *.
    exists ix'. split; auto. eapply IndexSpec.R_insert; eauto.
Qed.

Lemma best_for_unique d M s r r' : best_for d M s r -> best_for d M s r' -> r = r'.
Proof.
  destruct r as [b|], r' as [b'|]; cbn; auto.
  - intros ((c & I1 & C1) & B) ((c' & I2 & C2) & B'). pose proof (B _ _ I2 C2). pose proof (B' _ _ I1 C1). f_equal. destruct d; cbn in *; lia.
  - intros ((c & I1 & C1) & _) B'. destruct (B' _ _ I1 C1).
  - intros B ((c & I1 & C1) & _). destruct (B _ _ I1 C1).
Qed.
Lemma insert_new_dir ix s ab v ix' : insert_new_unchecked ix s ab v = Some ix' -> ix_dir ix' = ix_dir ix.
Proof.
  unfold insert_new_unchecked. destruct (packed s); [|discriminate]. cbv zeta. destruct (_ <? _); [intros [= <-]; auto|].
  destruct (absorb _ _ _); [|discriminate]. destruct (tree_new _ _); [|discriminate]. intros [= <-]. auto.
Qed.
Lemma insert_dir ix s ab v ix' r : IndexModel.insert ix s ab v = Some (ix', r) -> ix_dir ix' = ix_dir ix.
Proof.
  unfold IndexModel.insert. destruct (lookup ix s ab) as [best|]; [|discriminate]. destruct (negb _); [destruct best; [intros [= <- _]; auto|discriminate]|].
  destruct (update_trees _ _ _ _ _ _); [|discriminate]. cbv zeta. destruct (update_buffer _ _ _ _ _) as [b|]; [|discriminate].
  destruct (fst b); [intros [= <- _]; auto|]. destruct (insert_new_unchecked _ _ _ _) eqn:E; [|discriminate]. intros [= <- _].
  apply insert_new_dir in E. auto.
Qed.
Lemma reachable_dir d n chk H ix : reachable d n chk H ix -> ix_dir ix = d.
Proof.
  induction 1 as [chk|H ix s v ix' R IH W C E|chk H ix s v ix' r R IH W C O E]; auto.
  - rewrite (insert_new_dir _ _ _ _ _ E). auto.
  - rewrite (insert_dir _ _ _ _ _ _ E). auto.
Qed.

(* ---------- C48 ---------- *)

(* in every state that any insertions reach, the three vectors of the buffer and of every tree have matching
   lengths, ranges is made of whole blocks, and points and ranges fit u16 *)
Theorem C48_layout : forall d n chk H x, 1 < n -> n <= MAX_CHANNELS -> fx_reachable d n chk H x ->
  let dim := n * (n - 1) * 4 in
  let pdim := (2 ^ n + 7) / 8 in
  let fits v := length (v_points v) = length (v_values v) * dim /\ length (v_packed v) = length (v_values v) * pdim /\
                Forall (fun c => c < 2 ^ 16) (v_points v) in
  fits (fx_vecs x) /\
  forall f, In f (fx_trees x) -> f_dim f = dim /\ f_pdim f = pdim /\ fits (f_vecs f) /\
    (exists blocks, length (f_ranges f) = blocks * dim) /\ Forall (fun r : nat * nat => fst r <= snd r < 2 ^ 16) (f_ranges f).
Proof.
  intros d n chk H x Hn Hm R dim pdim fits. destruct (fx_reachable_rep d n chk H x Hn Hm R) as (ix & Rx & Hx).
  pose proof LIM_eq as LE. destruct Hx as [D FC C T V].
  change (abstraction_len_for_channels n) with dim in T, V. change (packed_len_for_channels n) with pdim in T, V.
  assert (K : forall v es, VRep dim pdim v es -> fits v).
  { intros v es [P K X O]. unfold fits. rewrite P, K, X, map_length.
    rewrite (full_length dim _ (points_full _ _ _ O)), (full_length pdim _ (packed_full _ _ _ O)), !map_length. split; auto. split; auto.
    apply Forall_forall. intros c Hc. apply in_concat in Hc. destruct Hc as (p & Hp & Hc). apply in_map_iff in Hp. destruct Hp as (e & <- & He).
    rewrite Forall_forall in O. destruct (O e He) as (_ & F & _). rewrite Forall_forall in F. specialize (F c Hc). lia. }
  split; [eapply K; exact V|]. intros f Hf. assert (exists t, Rep dim pdim f t) as (t & Ht).
  { clear - T Hf. induction T as [|f0 t0 fs ts H0 _ IH]; [destruct Hf|]. destruct Hf as [<-|Hf]; eauto. }
  destruct Ht as [Fd _ Fp _ Vt Rg Rok]. split; auto. split; auto. split; [eapply K; exact Vt|]. rewrite Rg. split.
  - exists (length (t_ranges t)). apply full_length. eapply Forall_impl; [|exact Rok]. intros a [L _]. auto.
  - apply Forall_forall. intros r Hr. apply in_concat in Hr. destruct Hr as (rg & Hg & Hr).
    rewrite Forall_forall in Rok. destruct (Rok rg Hg) as [_ F]. rewrite Forall_forall in F. specialize (F r Hr). lia.
Qed.
Print Assumptions C48_layout.

(* no lookup panics, and it gives the best value among everything inserted *)
Theorem C48_lookup_best : forall d n chk H x q, 1 < n -> n <= MAX_CHANNELS -> fx_reachable d n chk H x -> wf q -> channels q = n ->
  exists r M, fx_lookup x q (abstraction q) = Some r /\ fx_contents x = Some M /\ best_for d H q r /\ best_for d M q r.
Proof.
  intros d n chk H x q Hn Hm R W C. destruct (fx_reachable_rep d n chk H x Hn Hm R) as (ix & Rx & Hx).
  destruct (C11_lookup_best d n chk H ix q Hn Hm Rx W C) as (r & M & E & EM & B1 & B2). exists r, M.
  split; [exact (orel_get _ _ _ (R_lookup n x ix Hx _ _) E)|]. split; auto. eapply contents_rep; eauto.
Qed.
Print Assumptions C48_lookup_best.

Theorem C48_lookup_subsuming_witness : forall d n chk H x q, 1 < n -> n <= MAX_CHANNELS -> fx_reachable d n chk H x -> wf q -> channels q = n ->
  exists r M, fx_lookup_subsuming x q (abstraction q) = Some r /\ fx_contents x = Some M /\
    match r with
    | Some (v, w, c) => In (c, v) M /\ In (c, v) H /\ wf c /\ channels c = n /\ valid d c q w /\ best_for d M q (Some v)
    | None => best_for d M q None
    end.
Proof.
  intros d n chk H x q Hn Hm R W C. destruct (fx_reachable_rep d n chk H x Hn Hm R) as (ix & Rx & Hx).
  destruct (C12_lookup_subsuming_witness d n chk H ix q Hn Hm Rx W C) as (r & M & E & EM & B). exists r, M.
  split; [exact (orel_get _ _ _ (R_lookup_subsuming n x ix Hx _ _) E)|]. split; auto. eapply contents_rep; eauto.
Qed.
Print Assumptions C48_lookup_subsuming_witness.

Theorem C48_insert_keeps_undominated : forall d n chk H x M s v, 1 < n -> n <= MAX_CHANNELS -> fx_reachable d n chk H x ->
  fx_contents x = Some M -> wf s -> channels s = n -> occurrences s M <= 1 ->
  (exists b, best_for d M s (Some b) /\ better d b v /\ fx_insert x s (abstraction s) v = Some (x, b)) \/
  ((forall c w, In (c, w) M -> covers d c s -> ~ better d w v) /\
   exists x' M' kept gone, fx_insert x s (abstraction s) v = Some (x', v) /\ fx_contents x' = Some M' /\
     Permutation M (kept ++ gone) /\ Permutation M' ((s, v) :: kept) /\
     (forall y, In y kept -> ~ dominated d s v y) /\ (forall y, In y gone -> dominated d s v y)).
Proof.
  intros d n chk H x M s v Hn Hm R E W C O. destruct (fx_reachable_rep d n chk H x Hn Hm R) as (ix & Rx & Hx).
  destruct (C11_lookup_best d n chk H ix s Hn Hm Rx W C) as (r & M0 & El & EM & _ & B2).
  pose proof (contents_rep n x ix M0 Hx EM) as E0. rewrite E in E0. injection E0 as <-.
  pose proof (FlatIndex.R_insert n x ix s (abstraction s) v Hx (new_ok_abstraction n s Hn Hm W C)) as Q.
  destruct (C13_insert_keeps_undominated d n chk H ix M s v Hn Hm Rx EM W C O) as [(b & B & Hb & Ei)|(Nb & ix' & M' & kept & gone & Ei & EM' & P)].
  - left. exists b. split; auto. split; auto. rewrite (best_for_unique d M s r (Some b) B2 B) in El.
    unfold fx_insert. rewrite (orel_get _ _ _ (R_lookup n x ix Hx _ _) El).
    assert (Ed : fx_dir x = d). { rewrite (IR_dir _ _ _ Hx). apply (reachable_dir d n chk H ix Rx). }
    assert (Ni : does_improve (fx_dir x) (Some b) v = false).
    { rewrite Ed. destruct d; cbn in *; apply Nat.ltb_ge; auto. }
    rewrite Ni. auto.
  - right. split; auto. rewrite Ei in Q. destruct Q as ((x', r') & Ex & Hx' & Er). cbn [fst snd] in *. subst r'.
    exists x', M', kept, gone. split; auto. split; auto. eapply contents_rep; eauto.
Qed.
Print Assumptions C48_insert_keeps_undominated.

(* an index used only through insert_with_abstraction never panics *)
Theorem C48_checked_history : forall d n H x, 1 < n -> n <= MAX_CHANNELS -> fx_reachable d n true H x ->
  (forall s v, wf s -> channels s = n -> exists x' r, fx_insert x s (abstraction s) v = Some (x', r) /\ fx_reachable d n true ((s, v) :: H) x') /\
  exists M, fx_contents x = Some M /\ (forall y, In y M -> In y H) /\
    (forall y, In y H -> exists z, In z M /\ dominated d (fst z) (snd z) y) /\
    (forall s, wf s -> channels s = n -> occurrences s M <= 1) /\
    (forall y M', Permutation M (y :: M') -> forall z, In z M' -> ~ dominated d (fst z) (snd z) y).
Proof.
  intros d n H x Hn Hm R. destruct (fx_reachable_rep d n true H x Hn Hm R) as (ix & Rx & Hx).
  destruct (C13_checked_history d n H ix Hn Hm Rx) as (K & M & EM & B). split.
  - intros s v W C. destruct (K s v W C) as (ix' & r & E & _).
    pose proof (FlatIndex.R_insert n x ix s (abstraction s) v Hx (new_ok_abstraction n s Hn Hm W C)) as Q. rewrite E in Q.
    destruct Q as ((x', r') & Ex & _ & Er). cbn [fst snd] in *. subst r'. exists x', r. split; auto. eapply F_insert; eauto.
  - exists M. split; auto. eapply contents_rep; eauto.
Qed.
Print Assumptions C48_checked_history.

Theorem C48_unchecked_adds_one : forall d n chk H x M s v, 1 < n -> n <= MAX_CHANNELS -> fx_reachable d n chk H x ->
  fx_contents x = Some M -> wf s -> channels s = n ->
  exists x' M', fx_insert_new_unchecked x s (abstraction s) v = Some x' /\ fx_contents x' = Some M' /\ Permutation M' ((s, v) :: M).
Proof.
  intros d n chk H x M s v Hn Hm R E W C. destruct (fx_reachable_rep d n chk H x Hn Hm R) as (ix & Rx & Hx).
  destruct (C14_for_each_len_is_empty d n chk H ix Hn Hm Rx) as (_ & M0 & _ & EM & _).
  pose proof (contents_rep n x ix M0 Hx EM) as E0. rewrite E in E0. injection E0 as <-.
  destruct (C14_unchecked_adds_one d n chk H ix M s v Hn Hm Rx EM W C) as (ix' & M' & Ei & EM' & P).
  pose proof (R_insert_new n x ix s (abstraction s) v Hx (new_ok_abstraction n s Hn Hm W C)) as K. rewrite Ei in K.
  destruct K as (x' & Ex & K). exists x', M'. split; auto. split; auto. eapply contents_rep; eauto.
Qed.
Print Assumptions C48_unchecked_adds_one.

Theorem C48_for_each_len_is_empty : forall d n chk H x, 1 < n -> n <= MAX_CHANNELS -> fx_reachable d n chk H x ->
  exists E, fx_for_each x = Some E /\ fx_len x = length E /\ (fx_is_empty x = true <-> E = []) /\
    (forall s a v, In (s, a, v) E -> wf s /\ channels s = n /\ a = abstraction s /\ In (s, v) H).
Proof.
  intros d n chk H x Hn Hm R. destruct (fx_reachable_rep d n chk H x Hn Hm R) as (ix & Rx & Hx).
  destruct (C14_for_each_len_is_empty d n chk H ix Hn Hm Rx) as (E & M & EE & EM & L & I & K). exists E.
  split; [exact (orel_get _ _ _ (R_for_each n x ix Hx) EE)|]. rewrite (R_len n x ix Hx), (R_is_empty n x ix Hx). auto.
Qed.
Print Assumptions C48_for_each_len_is_empty.

(* the index of C11_case with flat vectors: 32 entries in a tree with 5 nodes, 17 in the buffer *)
Definition fx_insert_all_unchecked (x : FIndex) (H : list (OutputSet * nat)) : option FIndex :=
  fold_opt (fun x y => fx_insert_new_unchecked x (fst y) (abstraction (fst y)) (snd y)) H x.
Lemma fx_insert_all_unchecked_reachable d n H : forall H0 x x', fx_reachable d n false H0 x -> forallb (fun y => wfb n (fst y)) H = true ->
  fx_insert_all_unchecked x H = Some x' -> fx_reachable d n false (rev H ++ H0) x'.
Proof.
  unfold fx_insert_all_unchecked. induction H as [|(s, v) H IH]; intros H0 x x' R F E; cbn [fold_opt rev app] in *.
  - injection E as <-. auto.
  - cbn [forallb fst snd] in *. apply andb_prop in F. destruct F as [F1 F2]. destruct (wfb_ok n s F1) as [W C].
    destruct (fx_insert_new_unchecked x s (abstraction s) v) as [x1|] eqn:E1; [|discriminate].
    rewrite <- app_assoc. apply (IH ((s, v) :: H0) x1 x'); auto. eapply F_unchecked; eauto.
Qed.
Definition get_fx (o : option FIndex) : FIndex := match o with Some x => x | None => fx_new Lower 0 end.
Lemma get_fx_eq o : is_some o = true -> o = Some (get_fx o).
Proof. destruct o; [reflexivity|discriminate]. Qed.
Definition fx_with (d : Dir) : FIndex := get_fx (fx_insert_all_unchecked (fx_new d 4) ix_sets).

Example C48_case : fx_reachable Lower 4 false (rev ix_sets ++ []) (fx_with Lower) /\
  map (fun f => (length (v_points (f_vecs f)), length (v_packed (f_vecs f)), length (v_values (f_vecs f)), length (f_ranges f), length (f_nodes f)))
      (fx_trees (fx_with Lower)) = [(32 * 48, 32 * 2, 32, 5 * 48, 5)] /\
  length (v_points (fx_vecs (fx_with Lower))) = 17 * 48 /\
  fx_lookup (fx_with Lower) (all_values 4) (abstraction (all_values 4)) = Some (Some 5) /\
  option_map (fun y => (map flat_len (fx_trees (fst y)), length (v_points (fx_vecs (fst y))), snd y))
    (fx_insert (fx_with Lower) ix_query (abstraction ix_query) 3) = Some ([20], 12 * 48, 3).
Proof.
  split. { apply (fx_insert_all_unchecked_reachable Lower 4 ix_sets [] (fx_new Lower 4) (fx_with Lower)); [constructor|vm_compute; reflexivity|].
    apply get_fx_eq. vm_compute. reflexivity. }
  split; [vm_compute; reflexivity|]. split; [vm_compute; reflexivity|]. split; vm_compute; reflexivity.
Qed.

(* an index used through insert_with_abstraction only *)
Definition fx_insert_all (x : FIndex) (H : list (OutputSet * nat)) : option FIndex :=
  fold_opt (fun x y => option_map fst (fx_insert x (fst y) (abstraction (fst y)) (snd y))) H x.
Lemma fx_insert_all_reachable d n H : forall H0 x x', fx_reachable d n true H0 x -> forallb (fun y => wfb n (fst y)) H = true ->
  fx_insert_all x H = Some x' -> fx_reachable d n true (rev H ++ H0) x'.
Proof.
  unfold fx_insert_all. induction H as [|(s, v) H IH]; intros H0 x x' R F E; cbn [fold_opt rev app] in *.
  - injection E as <-. auto.
  - cbn [forallb fst snd] in *. apply andb_prop in F. destruct F as [F1 F2]. destruct (wfb_ok n s F1) as [W C].
    destruct (fx_insert x s (abstraction s) v) as [(x1, r)|] eqn:E1; [|discriminate]. cbn [option_map fst] in E.
    rewrite <- app_assoc. apply (IH ((s, v) :: H0) x1 x'); auto. eapply F_insert; eauto.
Qed.
Definition fx_checked : FIndex := get_fx (fx_insert_all (fx_new LowerInvert 4) ix_sets).
Example C48_case_checked : fx_reachable LowerInvert 4 true (rev ix_sets ++ []) fx_checked /\ fx_len fx_checked = 2.
Proof.
  split. { apply (fx_insert_all_reachable LowerInvert 4 ix_sets [] (fx_new LowerInvert 4) fx_checked); [constructor|vm_compute; reflexivity|].
    apply get_fx_eq. vm_compute. reflexivity. }
  vm_compute. reflexivity.
Qed.
