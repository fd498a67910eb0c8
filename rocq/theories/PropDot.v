(* Property C64: the drawing of an index. *)
From Coq Require Import String List Arith Bool Lia Permutation.
Import ListNotations.
From Verif Require Import Spec Util OutputSetModel OutputSetProofs TreeModel TreeProofs TreeTraverse IndexModel IndexSpec IndexProofs IndexHist FileModel FileProofs DotModel DotProofs PropIndex
  SearchFacts GnpModel GnpProofs PropGnp Net Graded Vec StatesBounds PropCanon.

(* For every index that can be built, dump_dot does not panic and writes one line for every edge of a tree, that is for every
   child of a node that can be reached from the root of a tree; no line is written twice, every node has at most one parent, and
   the root has none, so the drawing is a forest. *)
Theorem C64_forest : forall d n chk H ix, 1 < n -> n <= MAX_CHANNELS -> reachable d n chk H ix -> exists E : list (nat * (nat * nat)),
  dump_dot ix = Some (str "digraph {" ++ [10] ++ flat_map (fun e => dot_line (fst e) (fst (snd e)) (snd (snd e))) E ++ str "}" ++ [10]) /\
  (forall k a b, In (k, (a, b)) E <-> exists t, nth_error (ix_trees ix) k = Some t /\ below t a /\ child t a b) /\
  NoDup (map (fun e => (fst e, snd (snd e))) E) /\ (forall k a, ~ In (k, (a, 0)) E).
Proof.
  intros d n chk H ix Hn Hm R. destruct (reachable_inv d n chk H ix Hn Hm R) as (L & (_ & _ & _ & P & EP & F & _) & _). clear R L.
  assert (G : forall ts k0, (forall t, In t ts -> exists L, tree_inv t L /\ L <> []) -> exists E : list (nat * (nat * nat)),
    trees_dump k0 ts = Some (flat_map (fun e => dot_line (fst e) (fst (snd e)) (snd (snd e))) E) /\
    (forall k a b, In (k, (a, b)) E <-> exists i t, k = k0 + i /\ nth_error ts i = Some t /\ below t a /\ child t a b) /\
    NoDup (map (fun e => (fst e, snd (snd e))) E) /\ (forall k a, ~ In (k, (a, 0)) E)).
  { clear. induction ts as [|t ts IH]; intros k0 HT.
    { exists []. split; [reflexivity|]. split; [|split; [constructor|intros k a []]]. intros k a b. split; [intros []|]. intros (i & t & _ & E & _). now destruct i. }
    destruct (IH (S k0)) as (E1 & D1 & I1 & N1 & Z1). { intros u Hu. apply HT. now right. }
    destruct (HT t (or_introl eq_refl)) as (L & [(_ & X)|(f & (Z & _) & _)] & NL); [congruence|].
    destruct (tree_drawn t f k0 Z) as (E0 & D0 & N0 & Z0 & I0).
    exists (map (fun e => (k0, e)) E0 ++ E1). cbn [trees_dump]. rewrite D0, D1. cbv beta iota. split; [|split; [|split]].
    - rewrite flat_map_app. f_equal. f_equal. clear. induction E0 as [|e E0 IH]; auto. cbn [flat_map map fst snd]. now rewrite IH.
    - intros k a b. rewrite in_app_iff, in_map_iff, I1. split.
      + intros [(e & Ee & Ie)|(i & u & -> & Eu & K)].
        * injection Ee as <- ->. apply I0 in Ie. exists 0, t. rewrite Nat.add_0_r. auto.
        * exists (S i), u. split; [lia|auto].
      + intros ([|i] & u & -> & Eu & K).
        * left. cbn in Eu. injection Eu as <-. exists (a, b). rewrite Nat.add_0_r. split; auto. now apply I0.
        * right. exists i, u. split; [lia|auto].
    - rewrite map_app, map_map. cbn [fst snd]. apply NoDup_app_iff. split; [|split; auto].
      + rewrite <- (map_map snd (fun b => (k0, b))). apply FinFun.Injective_map_NoDup; auto. intros x y E. congruence.
      + intros (k, b) A B. apply in_map_iff in A. destruct A as (e & Ee & _). injection Ee as <- _. apply in_map_iff in B. destruct B as ((k', (a', b')) & Eb & Ib).
        cbn in Eb. injection Eb as -> ->. apply I1 in Ib. destruct Ib as (i & u & X & _). lia.
    - intros k a I. apply in_app_iff in I. destruct I as [I|I]; [|exact (Z1 k a I)]. apply in_map_iff in I. destruct I as (e & Ee & Ie). injection Ee as _ ->.
      apply Z0. apply in_map_iff. exists (a, 0). auto. }
  destruct (G (ix_trees ix) 0) as (E & D & I & N & Z).
  { intros t Ht. rewrite <- EP in Ht. apply in_map_iff in Ht. destruct Ht as ((t', L) & <- & Hp). rewrite Forall_forall in F. exists L. apply (F _ Hp). }
  exists E. unfold dump_dot. rewrite D. cbv beta iota. split; auto. split; auto. intros k a b. rewrite I. split.
  - intros (i & t & -> & K). eauto.
  - intros (t & K). exists k, t. auto.
Qed.
Print Assumptions C64_forest.

Lemma dot_split k a b : split_on 95 (dot_line k a b) = [str "  n" ++ show k; show a ++ 32 :: str "-> n" ++ show k; show b ++ str ";" ++ [10]].
Proof.
  assert (N : forall n, ~ In 95 (show n)) by (intros n; apply digit_not; unfold digit; lia).
  assert (T : dot_line k a b = (str "  n" ++ show k) ++ 95 :: ((show a ++ 32 :: str "-> n" ++ show k) ++ 95 :: (show b ++ str ";" ++ [10]))).
  { unfold dot_line. rewrite <- !app_assoc. change (str "_") with [95]. change (str " -> n") with (32 :: str "-> n"). cbn [app]. rewrite <- !app_assoc. reflexivity. }
  rewrite T. clear T. rewrite split_app. 2:{ rewrite in_app_iff. intros [X|X]. revert X. vm_compute. intuition discriminate. exact (N _ X). }
  rewrite split_app. 2:{ rewrite in_app_iff. intros [X|[X|X]]. exact (N _ X). discriminate. apply in_app_iff in X. destruct X as [X|X]. revert X. vm_compute. intuition discriminate. exact (N _ X). }
  rewrite split_none; auto. rewrite in_app_iff. intros [X|X]. exact (N _ X). revert X. vm_compute. intuition discriminate.
Qed.

(* Two lines are the same only if tree, node and child are, and a line has one newline, at its end: the drawing can be read back. *)
Theorem C64_lines : forall k a b,
  (forall k' a' b', dot_line k a b = dot_line k' a' b' -> (k, a, b) = (k', a', b')) /\
  exists l, dot_line k a b = l ++ [10] /\ ~ In 10 l.
Proof.
  intros k a b. split.
  - intros k' a' b' E. apply (f_equal (split_on 95)) in E. rewrite !dot_split in E. injection E as E1 E2 E3.
    apply show_inj in E1. apply app_inv_tail in E3. apply show_inj in E3. apply (f_equal (split_on 32)) in E2.
    rewrite !split_app in E2 by (apply digit_not; unfold digit; lia). injection E2 as E2 _. apply show_inj in E2. congruence.
  - exists (str "  n" ++ show k ++ str "_" ++ show a ++ str " -> n" ++ show k ++ str "_" ++ show b ++ str ";"). split. { unfold dot_line. now rewrite <- !app_assoc. }
    assert (N : forall n, ~ In 10 (show n)) by (intros n; apply digit_not; unfold digit; lia).
    rewrite !in_app_iff. intros X. repeat (destruct X as [X|X]; [first [exact (N _ X)|revert X; vm_compute; intuition discriminate]|]). revert X. vm_compute. intuition discriminate.
Qed.
Print Assumptions C64_lines.

(* a text that is the drawing of a forest *)
Definition drawing (dot : text) : Prop := exists E : list (nat * (nat * nat)),
  dot = str "digraph {" ++ [10] ++ flat_map (fun e => dot_line (fst e) (fst (snd e)) (snd (snd e))) E ++ str "}" ++ [10] /\
  NoDup (map (fun e => (fst e, snd (snd e))) E) /\ (forall k a, ~ In (k, (a, 0)) E).

(* a layer of the gnp command *)
Definition layer_ok (n : nat) (layer : Index) : Prop :=
  exists H M, reachable Lower n true H layer /\ contents layer = Some M /\ forall s v, In (s, v) M -> okset s /\ channels s = n.

Lemma layer_ok_next chash drain n count layer next : (forall a b l, NoDup l -> Permutation (drain a b l) l) -> 1 < n -> n <= MAX_CHANNELS ->
  layer_ok n layer -> gnp_layer chash drain n count layer = Some next -> layer_ok n next.
Proof.
  intros Hd Hn Hm (H & M & R & CM & Ok) E. destruct (contents_for_each layer M CM) as (En & FE & Q). unfold gnp_layer in E. rewrite FE in E. cbv beta iota in E. rewrite <- Q in E.
  destruct (sets_fold chash drain Hd n Hn Hm count (map fst M)) with (m := 0) (H := @nil (OutputSet * nat)) (ix := index_new Lower n) as (m' & nx & H' & E2 & R2 & _ & Src & _).
  - apply Forall_forall. intros s J. apply in_map_iff in J. destruct J as ((s', v) & <- & J). exact (Ok _ _ J).
  - constructor.
  - rewrite E2 in E. cbv beta iota in E. injection E as <-. destruct (C13_checked_history Lower n H' nx Hn Hm R2) as (_ & M' & CM' & Sub & _). exists H', M'. split; auto. split; auto.
    intros t v J. destruct (Src t v (Sub _ J)) as [[]|(_ & s & c & _ & _ & _ & (K & C & _))]. auto.
Qed.

Lemma gnp_dot_follows chash drain n : (forall a b l, NoDup l -> Permutation (drain a b l) l) -> 1 < n -> n <= MAX_CHANNELS ->
  forall fuel count layer out, layer_ok n layer -> gnp_loop chash drain fuel n count layer = Some out ->
  exists files, gnp_dot_loop chash drain fuel n count layer = Some (out, files) /\ map fst files = map (fun l => layer_name (fst l)) out /\ Forall (fun f => drawing (snd f)) files.
Proof.
  intros Hd Hn Hm. induction fuel as [|fuel IH]; intros count layer out Lo; cbn [gnp_loop gnp_dot_loop]; destruct (index_is_empty layer).
  - intros E. injection E as <-. exists []. auto.
  - discriminate.
  - intros E. injection E as <-. exists []. auto.
  - destruct (gnp_layer chash drain n count layer) as [next|] eqn:En; [|discriminate]. cbv beta iota. pose proof (layer_ok_next chash drain n count layer next Hd Hn Hm Lo En) as Ln.
    destruct (gnp_loop chash drain fuel n (S count) next) as [rest|] eqn:Er; [|discriminate]. cbv beta iota. intros E. injection E as <-.
    destruct (IH _ _ _ Ln Er) as (files & Ef & Nf & Df). pose proof Ln as (H & M & R & _). destruct (C64_forest Lower n true H next Hn Hm R) as (G & Dg & _ & G1 & G2).
    rewrite Dg. cbv beta iota. rewrite Ef. cbv beta iota. eexists. split; [reflexivity|]. cbn [fst snd map]. split. { now rewrite Nf. } constructor; auto. cbn [snd]. exists G. auto.
Qed.

(* The gnp command with the option to draw: it ends without a panic after the same layers as without it (C34), and it writes one file
   for each layer, with different names, each the drawing of a forest. *)
Theorem C64_gnp_layers : forall chash drain n, (forall a b l, NoDup l -> Permutation (drain a b l) l) -> n <= MAX_CHANNELS ->
  exists k out files, minimal_size n k /\
    (forall fuel, k < fuel -> cmd_gnp chash drain fuel n = Some out /\ cmd_gnp_dot chash drain fuel n = Some (out, files)) /\
    map fst files = map layer_name (seq 1 (k + 1)) /\ NoDup (map fst files) /\ Forall (fun f => drawing (snd f)) files.
Proof.
  intros chash drain n Hd Hm. destruct (C34_gnp_stops_after_optimum chash drain n Hd Hm) as (k & out & Mn & Run & Sq & _).
  assert (Fin : exists files, (forall fuel, k < fuel -> cmd_gnp_dot chash drain fuel n = Some (out, files)) /\ map fst files = map (fun l => layer_name (fst l)) out /\ Forall (fun f => drawing (snd f)) files).
  { destruct (Nat.le_gt_cases n 1) as [L|L].
    - assert (D0 : drain 0 0 [] = []) by (apply Permutation_nil, Permutation_sym, Hd; constructor).
      assert (k = 0) as ->. { destruct (few_channels n L) as ((net & Hs & Hl) & _). destruct Mn as (_ & Mn). specialize (Mn net Hs). lia. }
      pose proof (Run 1 ltac:(lia)) as R1. rewrite (gnp_few chash drain n 0 D0 L) in R1. injection R1 as <-.
      exists [(layer_name 1, str "digraph {" ++ [10] ++ [] ++ str "}" ++ [10])]. split; [|split; [reflexivity|]].
      + intros fuel Hf. destruct fuel as [|fuel]; [lia|].
        assert (H : exists ix, option_map fst (insert (index_new Lower n) (all_values n) (abstraction (all_values n)) 0) = Some ix /\ index_is_empty ix = false /\
          option_map (map (fun x => fst (fst x))) (for_each ix) = Some [all_values n]).
        { destruct n as [|[|n]]; [| |lia]; (eexists; split; [vm_compute; reflexivity|]); vm_compute; auto. }
        destruct H as (ix & E & Ne & Fe). unfold cmd_gnp_dot. assert (Hm' : (n <=? MAX_CHANNELS) = true) by (apply Nat.leb_le; exact Hm). rewrite Hm'.
        destruct (insert _ _ _ _) as [(ix', r)|]; [|discriminate]. cbn [option_map fst] in E. injection E as ->. cbn [fst]. cbn [gnp_dot_loop]. rewrite Ne. unfold gnp_layer.
        destruct (for_each ix) as [l|]; [|discriminate]. cbn [option_map] in Fe. injection Fe as Fe. rewrite Fe. cbn [fold_opt]. unfold gnp_set.
        assert (Nx : gnp_nexts chash n (all_values n) = Some []) by (destruct n as [|[|n]]; [| |lia]; reflexivity). rewrite Nx. cbn [fst snd]. rewrite D0. cbn [fold_opt]. cbn [fst snd].
        destruct fuel; reflexivity.
      + constructor; [|constructor]. exists []. split; [reflexivity|]. split; [constructor|]. intros ? ? [].
    - destruct (C13_checked_history Lower n [] (index_new Lower n) L Hm (R_new _ _ true)) as (Ins & _).
      destruct (Ins (all_values n) 0 (all_values_wf n) eq_refl) as (ix & r & E & R). destruct (C13_checked_history Lower n _ ix L Hm R) as (_ & M & CM & Sub & _).
      assert (Lo : layer_ok n ix).
      { exists [(all_values n, 0)], M. split; auto. split; auto. intros s v J. destruct (Sub _ J) as [X|[]]. injection X as <- <-. split; [|reflexivity].
        split; [apply all_values_wf|]. split; auto. cbn. eapply graded_same. apply same_set_sym. apply all_values_vs. apply graded_all. }
      assert (Lb : (n <=? MAX_CHANNELS) = true) by (apply Nat.leb_le; exact Hm).
      assert (Rf : forall fuel, k < fuel -> gnp_loop chash drain fuel n 0 ix = Some out). { intros fuel Hf. specialize (Run fuel Hf). unfold cmd_gnp in Run. now rewrite Lb, E in Run. }
      destruct (gnp_dot_follows chash drain n Hd L Hm (S k) 0 ix out Lo (Rf (S k) ltac:(lia))) as (files & Ef & Nf & Df). exists files. split; auto. intros fuel Hf.
      unfold cmd_gnp_dot. rewrite Lb, E. cbv beta iota. cbn [fst].
      destruct (gnp_dot_follows chash drain n Hd L Hm fuel 0 ix out Lo (Rf fuel Hf)) as (files' & Ef' & _). rewrite Ef'. f_equal. f_equal.
      assert (Mono : forall f count layer x, gnp_dot_loop chash drain f n count layer = Some x -> forall f', f <= f' -> gnp_dot_loop chash drain f' n count layer = Some x).
      { clear. induction f as [|f IH]; intros count layer x; cbn [gnp_dot_loop]; intros H f' Le.
        - destruct f'; cbn [gnp_dot_loop]; destruct (index_is_empty layer); auto; discriminate.
        - destruct f' as [|f']; [lia|]. cbn [gnp_dot_loop]. destruct (index_is_empty layer); auto. destruct (gnp_layer _ _ _ _ _); auto. cbv beta iota in *. destruct (dump_dot i); auto. cbv beta iota in *.
          destruct (gnp_dot_loop chash drain f n (S count) i) eqn:E; [|discriminate]. now rewrite (IH _ _ _ E f' ltac:(lia)). }
      apply (Mono _ _ _ _ Ef) in Hf. rewrite Hf in Ef'. congruence. }
  destruct Fin as (files & Run' & Nf & Df). exists k, out, files. split; auto. split; auto.
  assert (Nm : map fst files = map layer_name (seq 1 (k + 1))). { rewrite Nf, <- Sq, map_map. reflexivity. } split; auto. split; auto.
  rewrite Nm. apply FinFun.Injective_map_NoDup; [|apply seq_NoDup]. intros a b X. unfold layer_name in X. apply app_inv_head in X. apply app_inv_tail in X. now apply show_inj.
Qed.
Print Assumptions C64_gnp_layers.

(* the index of C11 with 49 entries *)
Example C64_case : exists E : list (nat * (nat * nat)),
  dump_dot (ix_with Lower) = Some (str "digraph {" ++ [10] ++ flat_map (fun e => dot_line (fst e) (fst (snd e)) (snd (snd e))) E ++ str "}" ++ [10]) /\
  NoDup (map (fun e => (fst e, snd (snd e))) E).
Proof.
  destruct (C11_case Lower) as (A & B & R & _). destruct (C64_forest Lower 4 false _ _ A B R) as (E & D & _ & N & _). exists E. auto.
Qed.
(* and this is its drawing *)
Example C64_case_text : dump_dot (ix_with Lower) = Some (str "digraph {" ++ [10] ++ str "  n0_0 -> n0_1;" ++ [10] ++ str "  n0_0 -> n0_2;" ++ [10] ++
  str "  n0_2 -> n0_3;" ++ [10] ++ str "  n0_2 -> n0_4;" ++ [10] ++ str "}" ++ [10]).
Proof. vm_compute. reflexivity. Qed.

(* three channels: the order of every drain reversed *)
Example C64_case_gnp : (forall (a b : nat) (l : list OutputSet), NoDup l -> Permutation (rev l) l) /\
  option_map (fun r => (fst r, map fst (snd r))) (cmd_gnp_dot hash_mix (fun _ _ l => rev l) 5 3) =
  Some ([(1, 1); (2, 2); (3, 1); (4, 0)], [str "_layer_1.dot"; str "_layer_2.dot"; str "_layer_3.dot"; str "_layer_4.dot"]).
Proof. split. intros. apply Permutation_sym, Permutation_rev. vm_compute. reflexivity. Qed.
