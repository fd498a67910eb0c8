(* What prune-all makes of the log of a killed search. *)
From Coq Require Import String List Arith Bool Lia Permutation ZArith.
Import ListNotations.
From Verif Require Import Spec Vec Net Graded Bits Util OutputSetModel OutputSetProofs PackProofs TreeModel IndexModel IndexSpec
  CanonModel StatesModel StatesProofs StatesBounds SearchModel SearchFacts SearchInv SearchOrder SearchTop SearchLeft FileModel FileProofs LogModel DumpProofs PruneLogProofs CrashProofs
  ProofGenModel GenLoad GenSteps GenMain PipeProofs KillModel.

(* ---- the index ---- *)
Lemma split_dot : forall a a' b b' : text, ~ In 46 a -> ~ In 46 a' -> a ++ 46 :: b = a' ++ 46 :: b' -> a = a' /\ b = b'.
Proof.
  induction a as [|x a IH]; intros [|y a'] b b' H H' E; cbn [app] in E.
  - now injection E as ->.
  - injection E as <- _. destruct H'. now left.
  - injection E as -> _. destruct H. now left.
  - injection E as -> E. destruct (IH a' b b') as (-> & ->); auto. intros X. apply H. now right. intros X. apply H'. now right.
Qed.
Lemma cut_name g rest q : group_name g = rest ++ q -> q <> [] -> rest <> index_name /\ forall h, rest <> group_name h /\ rest <> pbin_name h /\ rest <> tmp_name h.
Proof.
  intros E Q. assert (D : forall h e, rest = group_ext h e -> e ++ q = str "bin").
  { intros h e ->. rewrite group_name_ext in E. unfold group_ext in E. rewrite <- app_assoc in E. cbn [app] in E. apply split_dot in E; [|apply stem_no_dot|apply stem_no_dot]. now destruct E as (_ & <-). }
  split. { intros ->. unfold group_name in E. vm_compute in E. discriminate. }
  intros h. split; [|split].
  - rewrite group_name_ext. intros X. apply D in X. destruct q; [congruence|]. vm_compute in X. discriminate.
  - intros X. apply D in X. vm_compute in X. discriminate.
  - intros X. apply D in X. vm_compute in X. discriminate.
Qed.
Lemma index_cut : forall groups k, exists G tl rest, groups = G ++ tl /\ firstn k (index_text groups) = index_text G ++ rest /\
  (rest = [] \/ exists g tl' q, tl = g :: tl' /\ rest <> [] /\ group_name g = rest ++ q).
Proof.
  induction groups as [|g gs IH]; intros k. { exists [], [], []. rewrite firstn_nil. auto. }
  change (index_text (g :: gs)) with ((group_name g ++ [10]) ++ index_text gs). destruct (Nat.leb_spec k (length (group_name g))) as [K|K].
  - exists [], (g :: gs), (firstn k (group_name g)). split; auto. split. { rewrite <- app_assoc, firstn_app. replace (k - length (group_name g)) with 0 by lia. now rewrite firstn_O, app_nil_r. }
    destruct (firstn k (group_name g)) as [|a r] eqn:E; auto. right. exists g, gs, (skipn k (group_name g)). split; auto. split. discriminate. now rewrite <- E, firstn_skipn.
  - destruct (IH (k - (length (group_name g) + 1))) as (G & tl & rest & A & B & C). exists (g :: G), tl, rest. split. { now rewrite A. } split; auto.
    rewrite firstn_app, firstn_all2 by (rewrite app_length; change (length [10]) with 1; lia). rewrite app_length. change (length [10]) with 1. rewrite B. change (index_text (g :: G)) with ((group_name g ++ [10]) ++ index_text G). now rewrite !app_assoc.
Qed.
Lemma split_rest rest : ~ In 10 rest -> forall ls, (forall l, In l ls -> ~ In 10 l) -> split_on 10 (flat_map (fun l => l ++ [10]) ls ++ rest) = ls ++ [rest].
Proof.
  intros R. induction ls as [|l ls IH]; intros H; cbn [flat_map app]. now apply split_none. rewrite <- !app_assoc. cbn [app]. rewrite split_app by (apply H; now left). f_equal. apply IH. intros x Hx. apply H. now right.
Qed.
Lemma lines_rest G rest : ~ In 10 rest -> rest <> [] -> lines (index_text G ++ rest) = map group_name G ++ [rest].
Proof.
  intros R N. assert (F : index_text G = flat_map (fun l => l ++ [10]) (map group_name G)). { clear. induction G as [|g G IH]; auto. cbn [map flat_map]. rewrite <- IH. reflexivity. }
  unfold lines. rewrite F, split_rest; auto.
  2: { intros l Hl. apply in_map_iff in Hl. destruct Hl as (g & <- & _). apply group_no_newline. }
  cbv zeta. rewrite rev_app_distr. cbn [rev app]. destruct rest as [|a r]; [congruence|]. rewrite rev_involutive. f_equal. rewrite map_map. apply map_ext. intros g.
  pose proof (lines_index [g]) as L. unfold lines, index_text in L. cbn [flat_map] in L. rewrite app_nil_r in L. rewrite split_app in L by apply group_no_newline. exact (f_equal (hd []) L).
Qed.
Lemma torn_lines groups k : exists G tl, groups = G ++ tl /\
  (lines (firstn k (index_text groups)) = map group_name G \/
   exists g rest q, lines (firstn k (index_text groups)) = map group_name G ++ [rest] /\ group_name g = rest ++ q /\ q <> []).
Proof.
  destruct (index_cut groups k) as (G & tl & rest & A & B & C). rewrite B. destruct C as [->|(g & tl' & q & -> & N & E)].
  - exists G, tl. split; auto. left. rewrite app_nil_r. apply lines_index.
  - assert (R : ~ In 10 rest). { pose proof (proj1 (group_no_newline g)) as X. rewrite E in X. intros Y. apply X, in_or_app. now left. }
    rewrite (lines_rest G rest R N). destruct q as [|c q].
    + exists (G ++ [g]), tl'. split. { now rewrite A, <- app_assoc. } left. rewrite map_app. cbn [map]. now rewrite E, app_nil_r.
    + exists G, (g :: tl'). split; auto. right. exists g, rest, (c :: q). split; auto. split; auto. discriminate.
Qed.

(* ---- a group file ---- *)
Lemma filter_packed n stride data ix : forall ids r, filter_ids n stride data ix ids = Some r -> forall id, In id ids -> exists p, get_packed stride data id = Some p.
Proof.
  induction ids as [|i ids IH]; intros r H id I; [easy|]. cbn [filter_ids] in H. unfold get_set in H. destruct (get_packed stride data i) as [p|] eqn:E; [|discriminate]. cbv beta iota in H.
  destruct I as [<-|I]; eauto. destruct (from_packed n p); [|discriminate]. cbv beta iota in H. destruct (lookup _ _ _); [|discriminate]. cbv beta iota in H. destruct (filter_ids n stride data ix ids) as [r'|] eqn:F; [|discriminate]. eapply IH; eauto.
Qed.
Lemma fold_packed n stride data : forall gs st st', fold_opt (prune_group n stride data) gs st = Some st' -> forall id, In id (flat_map snd gs) -> exists p, get_packed stride data id = Some p.
Proof.
  induction gs as [|g gs IH]; intros st st' H id I; [easy|]. cbn [fold_opt] in H. destruct (prune_group n stride data st g) as [s1|] eqn:E; [|discriminate]. cbv beta iota in H.
  cbn [flat_map] in I. apply in_app_or in I. destruct I as [I|I]; [|eapply IH; eauto]. unfold prune_group in E. destruct (filter_ids _ _ _ _ _) as [r|] eqn:F; [|discriminate]. eapply filter_packed; eauto.
Qed.
Lemma chunks_count {A} stride : 0 < stride -> forall fuel (l : list A), length l <= fuel -> length l <= stride * length (chunks_f fuel stride l).
Proof.
  intros P. induction fuel as [|f IH]; intros l H; [cbn; lia|]. cbn [chunks_f]. destruct l as [|x l]; [cbn; lia|]. cbn [length].
  assert (L : length (skipn stride (x :: l)) <= f) by (rewrite skipn_length; cbn [length] in *; lia). specialize (IH _ L). rewrite skipn_length in IH. cbn [length] in *. lia.
Qed.
Lemma prune_full n data w : prune_data n data = Some w -> exists c, length data = packed_len_for_channels n * c.
Proof.
  unfold prune_data. cbv zeta. set (stride := packed_len_for_channels n). assert (P : 0 < stride) by apply plen_pos. unfold chunks. destruct (Nat.eqb_spec stride 0); [lia|]. cbv beta iota.
  set (ps := chunks_f (length data) stride data). intros H. destruct (fold_opt _ (by_state_len ps) _) as [st|] eqn:F; [|discriminate]. clear H.
  pose proof (chunks_count stride P (length data) data (le_n _)) as C. fold ps in C. exists (length ps). destruct (length ps) as [|c] eqn:E; [lia|].
  assert (I : In c (flat_map snd (by_state_len ps))). { destruct (by_state_len_ok ps) as (_ & Pm). apply (Permutation_in _ (Permutation_sym Pm)). apply in_seq. lia. }
  destruct (fold_packed n stride data _ _ _ F c I) as (p & G). unfold get_packed in G. destruct (Nat.eqb_spec (length (firstn stride (skipn (stride * c) data))) stride) as [L|]; [|discriminate].
  rewrite firstn_length, skipn_length in L. lia.
Qed.
Lemma concat_cut (sets : list OutputSet) stride : (forall s, In s sets -> length (pk s) = stride) -> forall k c, length (firstn k (concat (map pk sets))) = stride * c ->
  firstn k (concat (map pk sets)) = concat (map pk (firstn c sets)).
Proof.
  intros H k c L. set (l := concat (map pk sets)) in *. assert (E : firstn k l = firstn (stride * c) l).
  { rewrite <- L, firstn_length. destruct (Nat.min_spec k (length l)) as [(A & ->)|(A & ->)]; auto. rewrite firstn_all. now apply firstn_all2. }
  rewrite E. assert (B : stride * c <= length l) by (rewrite <- L, firstn_length; lia). clear E L. unfold l in *. clear l k. revert c B. induction sets as [|s sets IH]; intros c B.
  - now rewrite !firstn_nil.
  - destruct c as [|c]. { now rewrite Nat.mul_0_r. } cbn [map concat firstn] in *. assert (Ls : length (pk s) = stride) by (apply H; now left). rewrite app_length in B.
    rewrite firstn_app, firstn_all2 by lia. f_equal. replace (stride * S c - length (pk s)) with (stride * c) by lia. apply IH. intros t Ht. apply H. now right. lia.
Qed.

Lemma prune_lines_app a : forall b fs, prune_lines (a ++ b) fs =
  match prune_lines a fs with None => None | Some o => match prune_lines b (fs_run o fs) with None => None | Some o' => Some (o ++ o') end end.
Proof.
  induction a as [|l a IH]; intros b fs; cbn [app prune_lines]. { change (fs_run [] fs) with fs. now destruct (prune_lines b fs). }
  destruct (line_channels l); auto. cbv beta iota. destruct (prune_ops _ l fs) as [o|]; auto. cbv beta iota. rewrite IH. destruct (prune_lines a (fs_run o fs)) as [o1|]; auto. cbv beta iota.
  rewrite fs_run_app. destruct (prune_lines b _); auto. now rewrite app_assoc.
Qed.

Section Torn.
Variables chash mhash : list nat -> nat.
Variables (n : nat) (m : StateMap).
Hypothesis Hn : n <= 11.
Hypothesis SL : search_left chash mhash n m.

Lemma group_torn g sets k data : (forall s, In s sets -> logged mhash m g s) -> NoDup sets -> data = firstn k (concat (map pk sets)) -> data <> [] -> (exists w, prune_data (fst g) data = Some w) ->
  exists kept, prune_data (fst g) data = Some (map pk kept) /\ kept <> [] /\ NoDup kept /\ forall s, In s kept -> logged mhash m g s.
Proof.
  intros Hs Nd E Ne (w & W). destruct (prune_full _ _ _ W) as (c & L).
  assert (Lp : forall s, In s sets -> length (pk s) = packed_len_for_channels (fst g)). { intros s I. destruct (Hs s I) as (Ws & C & _). rewrite <- C. now apply pk_len. }
  rewrite E in L. apply (concat_cut sets _ Lp) in L. rewrite <- E in L. set (sets' := firstn c sets) in *.
  assert (Sub : forall s, In s sets' -> In s sets). { intros s I. rewrite <- (firstn_skipn c sets). apply in_or_app. now left. }
  assert (Ns : sets' <> []). { intros X. rewrite X in L. cbn in L. congruence. }
  destruct sets' as [|s0 l] eqn:Es; [congruence|]. destruct (logged_facts chash mhash n m SL g s0 (Hs s0 (Sub s0 (or_introl eq_refl)))) as (_ & (_ & C3) & C0 & _ & _ & Hg & _).
  rewrite <- Es in *. destruct (prune_data_ok (fst g) sets') as (kept & old & Ep & Pm & Hold & _).
  { rewrite <- C0. lia. } { unfold MAX_CHANNELS. lia. } { intros s I. destruct (Hs s (Sub s I)) as (Ws & C & _). auto. }
  exists kept. rewrite L. split; auto. split; [|split].
  - intros ->. cbn in Pm. destruct old as [|o old]. { apply Permutation_sym, Permutation_nil in Pm. congruence. } destruct (Hold o (or_introl eq_refl)) as (x & [] & _).
  - assert (N' : NoDup sets'). { rewrite <- (firstn_skipn c sets) in Nd. apply NoDup_app_l in Nd. rewrite Es. rewrite <- Es. exact Nd. } apply (Permutation_NoDup Pm) in N'. now apply NoDup_app_l in N'.
  - intros s I. apply Hs, Sub. apply (Permutation_in _ (Permutation_sym Pm)). apply in_or_app. now left.
Qed.

Lemma torn_pruned fs0 fs fs1 : (forall name, fs0 name = None) -> stopped_dump m fs0 fs -> prune_all fs = Some fs1 ->
  exists G kept fs2, (forall fuel, gen_proof fuel fs1 = gen_proof fuel fs2) /\ pruned_log fs2 G kept /\ forall g s, In g G -> In s (kept g) -> logged mhash m g s.
Proof.
  intros N0 St. pose proof (mi_ok _ _ _ (sl_inv _ _ _ _ SL)) as Ok. destruct (dump_correct mhash m fs0 Ok) as (groups & Ng & Hg & Ix & Fl & Rest).
  assert (Stn : forall name data, fs name = Some data -> exists k full, dump_states m fs0 name = Some full /\ data = firstn k full).
  { intros name data E. destruct (St name) as [X|(k & full & X & Y)]. { rewrite N0 in X. congruence. } exists k, full. split; auto. congruence. }
  assert (None_ : forall name, name <> index_name -> (forall g, name <> group_name g) -> fs name = None).
  { intros name A B. destruct (fs name) as [d|] eqn:E; auto. exfalso. destruct (Stn name d E) as (k & full & X & _). rewrite Rest, N0 in X; auto. discriminate. }
  unfold prune_all, prune_all_ops. destruct (fs index_name) as [t|] eqn:Ei; [|discriminate]. cbv beta iota. destruct (Stn _ _ Ei) as (k & full & Ef & Et). rewrite Ix in Ef. injection Ef as <-.
  destruct (torn_lines groups k) as (G & tl & Eg & D). rewrite <- Et in D. intros H.
  destruct (prune_lines (map group_name G) fs) as [ops|] eqn:Eo.
  2: { exfalso. destruct D as [D|(g & rest & q & D & _)]; rewrite D in H; [|rewrite prune_lines_app in H]; rewrite Eo in H; discriminate. }
  assert (OG : forall g, In g G -> okg fs g) by exact (okg_of_success fs G G fs ops (mid_refl fs G) (fun g H => H) Eo).
  destruct (lines_run fs G G fs (mid_refl fs G)) as (ops' & Eo' & Mi & Dn); auto. rewrite Eo in Eo'. injection Eo' as <-.
  assert (M1 : mid fs G (fs_run ops fs)). { specialize (Mi (List.length ops)). now rewrite firstn_all in Mi. }
  destruct D as [D|(g & rest & q & D & Er & Nq)].
  2: { exfalso. rewrite D, prune_lines_app, Eo in H. destruct (cut_name g rest q Er Nq) as (C1 & C2). cbn [prune_lines] in H.
       destruct (line_channels rest); [|discriminate]. cbv beta iota in H. unfold prune_ops in H. rewrite (proj2 M1 rest) in H by (intros h _; split; apply C2). rewrite None_ in H; auto. discriminate. intros h. apply C2. }
  rewrite D, Eo in H. cbv beta iota in H. injection H as <-. set (fs1 := fs_run ops fs) in *.
  assert (P0 : forall g, fs (pbin_name g) = None). { intros g. apply None_. apply not_eq_sym, index_pbin. intros h. apply not_eq_sym, name_pbin. }
  assert (KP : forall g, In g G -> exists kept, (kept <> [] /\ NoDup kept /\ (forall s, In s kept -> logged mhash m g s)) /\ exists data, fs (group_name g) = Some data /\ prune_data (fst g) data = Some (map pk kept)).
  { intros g I. destruct (OG g I) as (data & E1 & E2 & E3). specialize (E3 (P0 g)). destruct (Stn _ _ E1) as (k' & full & F1 & F2).
    destruct (Fl g) as (sets & Nd & Hs & Es). { rewrite Eg. apply in_or_app. now left. } rewrite Es in F1. injection F1 as <-.
    destruct (group_torn g sets k' data) as (kept & A & B & C & L); auto. { intros s. apply Hs. } { intros ->. discriminate. } exists kept. split; auto. exists data. auto. }
  destruct (finite_choice group_dec [] _ G KP) as (kept & HK).
  exists G, kept, (fs_set fs1 index_name (Some (index_text G))). split; [|split].
  - intros fuel. unfold gen_proof. assert (E : load_indexes fs1 = load_indexes (fs_set fs1 index_name (Some (index_text G)))); [|now rewrite E].
    unfold load_indexes. rewrite fs_set_same, (mid_index _ _ _ M1), Ei. cbv beta iota. rewrite lines_index, D. clear. generalize (index_text G). intros tx. generalize ([] : Indexes). induction G as [|g gs IH]; intros ixs; cbn [map fold_opt]; auto.
    assert (X : load_line (fs_set fs1 index_name (Some tx)) ixs (group_name g) = load_line fs1 ixs (group_name g)).
    { unfold load_line. rewrite fs_set_other; auto. rewrite group_with_ext. apply group_not_index. }
    rewrite X. destruct (load_line fs1 ixs (group_name g)); auto.
  - split.
    + apply fs_set_same.
    + intros g Hi. specialize (Dn g (or_introl Hi)). unfold done_of in Dn. rewrite P0 in Dn. destruct Dn as (w & (data & x & E1 & E2 & ->) & E3 & _).
      destruct (HK g Hi) as ((Nk & _ & Lk) & data' & Ef & Ep). rewrite Ef in E1. injection E1 as <-. rewrite Ep in E2. injection E2 as <-.
      unfold pruned_file. rewrite group_with_ext. split. { rewrite fs_set_other by apply group_not_index. exact E3. } split; auto. destruct (kept g) as [|s0 l] eqn:Ek; [congruence|].
      destruct (logged_facts chash mhash n m SL g s0 (Lk s0 (or_introl eq_refl))) as (K0 & (_ & C3) & C0 & L1 & L2 & L3 & _). split. lia. split. unfold MAX_CHANNELS. lia. split. lia.
      intros s Hs. destruct (Lk s Hs) as (W & C & _). auto.
    + apply NoDup_entries. { rewrite Eg in Ng. now apply NoDup_app_l in Ng. } intros g Hi. apply (HK g Hi). intros g h s Hi Hh Hs Ht.
      destruct (proj2 (proj2 (proj1 (HK g Hi))) s Hs) as (_ & C1 & st1 & S1 & L1). destruct (proj2 (proj2 (proj1 (HK h Hh))) s Ht) as (_ & C2 & st2 & S2 & L2).
      destruct g, h. cbn in *. rewrite S1 in S2. injection S2 as <-. congruence.
    + intros g s Hi Hs. destruct (logged_facts chash mhash n m SL g s (proj2 (proj2 (proj1 (HK g Hi))) s Hs)) as ((_ & _ & Gr) & _ & C & _). now rewrite <- C.
  - intros g s Hi Hs. apply (HK g Hi). exact Hs.
Qed.
End Torn.
