(* C24-C26: the log of the search (dump_states in src/search.rs) and its pruning (src/prune.rs). *)
From Coq Require Import String List Arith Bool Lia Permutation.
Import ListNotations.
From Verif Require Import Spec Vec Net Graded Util OutputSetModel OutputSetProofs PackProofs TreeModel IndexModel IndexSpec IndexProofs
  StatesModel StatesProofs StatesBounds PropStates SearchModel SearchFacts SearchInv SearchEdges SearchStep SearchFrames SearchGlobal SearchRun SearchSafe SearchMain PropSearch
  FileModel LogModel ProofGenModel FileProofs DumpProofs PruneLogProofs CrashProofs.

(* ---- C24 ---- *)

(* "group_<channels>_<bound>.bin", with no leading zeros *)
Example group_name_case : group_name (11, 205) = str "group_11_205.bin" /\ group_name (3, 0) = str "group_3_0.bin".
Proof. split; vm_compute; reflexivity. Qed.

(* different groups have different files, and the numbers can be read back from the name *)
Theorem C24_names_distinct : forall g h, group_name g = group_name h -> g = h.
Proof. exact group_name_inj. Qed.
Print Assumptions C24_names_distinct.
Theorem C24_names_parsed : forall channels bound, bound <= 255 ->
  line_channels (group_name (channels, bound)) = Some channels /\ line_bound (group_name (channels, bound)) = Some bound.
Proof. intros c b H. split. apply (group_channels (c, b)). now apply (group_bound (c, b)). Qed.
Print Assumptions C24_names_parsed.

(* For every history of sets, whatever was in the directory before: index.txt consists of one line for each pair
   (channel count, lower bound) that occurs among the last states, the file of the pair holds the packed sets with
   these last states, each once, and nothing else is changed. *)
Theorem C24_log_complete : forall hash threads hist m fs,
  (forall t st, In (t, st) hist -> wf t /\ 3 <= channels t /\ channels t <= 11) ->
  run_sets hash hist (sm_default threads) = Some m ->
  exists groups, NoDup groups /\
    dump_states m fs index_name = Some (flat_map (fun g => group_name g ++ [10]) groups) /\
    (forall g, In g groups <-> exists s st, last_set hist s = Some st /\ (channels s, lo st) = g) /\
    (forall g, In g groups -> exists sets bytes, NoDup sets /\ map_opt packed sets = Some bytes /\
       dump_states m fs (group_name g) = Some (concat bytes) /\
       (forall s, In s sets <-> exists st, last_set hist s = Some st /\ (channels s, lo st) = g)) /\
    (forall name, name <> index_name -> (forall g, In g groups -> name <> group_name g) -> dump_states m fs name = fs name).
Proof.
  intros hash threads hist m fs H E.
  destruct (run_sets_spec hash hist (sm_default threads) (sm_default_ok hash threads) H) as (m0 & E0 & K & _ & F).
  assert (m0 = m) by congruence. subst m0.
  assert (Wl : forall s st, last_set hist s = Some st -> wf s).
  { intros s st L. assert (I : In s (map fst hist)) by (apply last_set_In; eauto). apply in_map_iff in I. destruct I as ((t, st') & <- & I). apply (H t st' I). }
  assert (Lg : forall g s, logged hash m g s <-> exists st, last_set hist s = Some st /\ (channels s, lo st) = g).
  { intros (c, b) s. unfold logged. cbn [fst snd]. split.
    - intros (W & C & st & S & L). rewrite F in S by auto. exists st. destruct (last_set hist s); [split; congruence|]. rewrite sm_default_stored in S. discriminate.
    - intros (st & L & Eg). injection Eg as C B. pose proof (Wl s st L) as W. split; auto. split; auto. exists st. split; auto. rewrite F by auto. now rewrite L. }
  destruct (dump_correct hash m fs K) as (groups & G1 & G2 & G3 & G4 & G5). exists groups. split; auto. split; auto. split; [|split; auto].
  - intros g. rewrite G2. split. intros (s & Hs). apply Lg in Hs. destruct Hs as (st & Hs). eauto. intros (s & st & Hs). exists s. apply Lg. eauto.
  - intros g Hg. destruct (G4 g Hg) as (sets & S1 & S2 & S3). exists sets, (map pk sets). split; auto. split; [|split; auto].
    + apply map_opt_Some. assert (Wf : forall s, In s sets -> wf s) by (intros s I; now apply S2). clear - Wf. induction sets as [|s sets IH]; simpl; constructor.
      apply packed_pk. apply Wf. now left. apply IH. intros x Hx. apply Wf. now right.
    + intros s. rewrite S2. apply Lg.
Qed.
Print Assumptions C24_log_complete.

(* the log of a search, at any moment and for every schedule: the bounds in the file names are true *)
Theorem C24_search_log_valid : forall chash mhash threads initial limit c fs, start_ok initial ->
  search_run chash mhash threads initial limit c ->
  exists groups, dump_states (g_map c) fs index_name = Some (flat_map (fun g => group_name g ++ [10]) groups) /\
    forall n b, In (n, b) groups -> 3 <= n <= 11 /\ b <= 35 /\ exists sets, sets <> [] /\
      dump_states (g_map c) fs (group_name (n, b)) = Some (concat (map pk sets)) /\
      forall s, In s sets -> wf s /\ channels s = n /\ packed s = Some (pk s) /\ lower_bound n (vs s) b.
Proof.
  intros chash mhash threads initial limit c fs K R. pose proof (run_inv chash mhash _ _ _ _ (start_okset _ K) R) as I.
  destruct (inv_map _ _ c I) as [M1 M2 M3 _ _ M6]. destruct (dump_correct mhash (g_map c) fs M1) as (groups & G1 & G2 & G3 & G4 & G5).
  exists groups. split; auto. intros n b Hg. destruct (proj1 (G2 (n, b)) Hg) as (s0 & W0 & C0 & st0 & S0 & L0). cbn [fst snd] in *.
  pose proof (stored_okk mhash (g_map c) s0 st0 M1 W0 S0) as (_ & Hc). rewrite C0 in Hc. split; [lia|].
  assert (Vd : forall s, logged mhash (g_map c) (n, b) s -> lower_bound n (vs s) b).
  { intros s (W & C & st & S & L). cbn [fst snd] in *. destruct (M6 s st W S) as (Ks & _). destruct (M2 s Ks) as (V & _). unfold cur in V. rewrite S, L, C in V. exact V. }
  split.
  - destruct (M6 s0 st0 W0 S0) as (Ks & _). pose proof (M3 s0 Ks) as Hi. destruct (M2 s0 Ks) as (V & U). unfold cur in V, U, Hi. rewrite S0 in *.
    destruct U as (net & Un & Ul). specialize (V net Un). lia.
  - destruct (G4 (n, b) Hg) as (sets & S1 & S2 & S3). exists sets. split.
    { intros ->. destruct (proj1 (G2 (n, b)) Hg) as (s & Hs). now apply S2 in Hs. }
    split; auto. intros s Hs. apply S2 in Hs. pose proof (Vd s Hs) as V. destruct Hs as (W & C & _). cbn [fst] in C. split; auto. split; auto. split; auto. now apply packed_pk.
Qed.
Print Assumptions C24_search_log_valid.

Definition ex_fs : Fs := fun name => if list_eqb Nat.eqb name (str "group_3_2.bin") then Some [1; 2; 3] else None.
Definition ex_log : Fs := match ex_map with Some m => dump_states m ex_fs | None => ex_fs end.
Example C24_case :
  ex_log index_name = Some (str "group_3_2.bin" ++ [10] ++ str "group_4_2.bin" ++ [10]) /\
  ex_log (str "group_3_2.bin") = Some [187] /\ ex_log (str "group_4_2.bin") = Some [243; 243] /\ ex_log (str "group_3_1.bin") = None.
Proof. repeat split; vm_compute; reflexivity. Qed.
Example C24_case_search :
  dump_states (g_map (example_run 4 None 80)) (fun _ => None) index_name = Some (str "group_3_3.bin" ++ [10] ++ str "group_4_3.bin" ++ [10]).
Proof. vm_compute. reflexivity. Qed.

(* ---- C25 ---- *)

(* The contents of a group file are the packed sets one after the other.  What is written is a selection of them,
   possibly in another order; what is left out is subsumed (up to complement) by a smaller set that is written; no
   set that is written subsumes a larger one that is written. *)
Theorem C25_prune_keeps_representatives : forall n sets bytes, 1 < n -> n <= MAX_CHANNELS ->
  (forall s, In s sets -> wf s /\ channels s = n) -> map_opt packed sets = Some bytes ->
  exists kept dropped out, prune_data n (concat bytes) = Some out /\ map_opt packed kept = Some out /\
    Permutation sets (kept ++ dropped) /\
    (forall s, In s dropped -> exists k z p, In k kept /\ os_len k < os_len s /\ is_perm n p /\ subsumes_by z p (vs k) (vs s)) /\
    (forall k1 k2 z p, In k1 kept -> In k2 kept -> os_len k1 < os_len k2 -> is_perm n p -> ~ subsumes_by z p (vs k1) (vs k2)).
Proof.
  intros n sets bytes Hn Hm Hs E. assert (Ep : forall l, (forall s, In s l -> wf s) -> map_opt packed l = Some (map pk l)).
  { intros l Hl. apply map_opt_Some. induction l as [|s l IH]; simpl; constructor. apply packed_pk, Hl. now left. apply IH. intros x Hx. apply Hl. now right. }
  rewrite Ep in E by (intros s I; now apply Hs). injection E as <-.
  destruct (prune_data_ok n sets Hn Hm Hs) as (kept & old & E & P & O & C).
  assert (Hk : forall k, In k kept -> wf k /\ channels k = n). { intros k Hk. apply Hs. eapply Permutation_in; [symmetry; exact P|]. apply in_app_iff. auto. }
  exists kept, old, (map pk kept). split; auto. split. { apply Ep. intros s I. now apply Hk. } split; auto. split.
  - intros s I. destruct (O s I) as (k & Ik & L & (z, p) & Pp & S). rewrite (proj2 (Hk k Ik)) in Pp. exists k, z, p. auto.
  - intros k1 k2 z p I1 I2 L Pp S. apply (C k1 k2 I1 I2 L). exists (z, p). split; auto. cbn [snd]. now rewrite (proj2 (Hk k1 I1)).
Qed.
Print Assumptions C25_prune_keeps_representatives.

(* in particular a lower bound common to the kept sets holds for all *)
Theorem C25_bounds_survive : forall n sets bytes out b, 1 < n -> n <= MAX_CHANNELS ->
  (forall s, In s sets -> wf s /\ channels s = n) -> map_opt packed sets = Some bytes ->
  prune_data n (concat bytes) = Some out ->
  (forall k, In (pk k) out -> wf k -> channels k = n -> lower_bound n (vs k) b) ->
  forall s, In s sets -> lower_bound n (vs s) b.
Proof.
  intros n sets bytes out b Hn Hm Hs E Eo H s Is. destruct (C25_prune_keeps_representatives n sets bytes Hn Hm Hs E) as (kept & dropped & out' & E1 & E2 & P & D & _).
  rewrite Eo in E1. injection E1 as <-.
  assert (Hk : forall k, In k kept -> lower_bound n (vs k) b /\ channels k = n).
  { intros k Ik. assert (Is' : In k sets) by (eapply Permutation_in; [symmetry; exact P|apply in_app_iff; auto]). destruct (Hs k Is') as (W & C). split; auto. apply H; auto.
    apply map_opt_Some in E2. clear - E2 Ik W. induction E2 as [|x y l l' Exy E2 IH]; [destruct Ik|]. destruct Ik as [->|Ik]; [left|right; auto].
    rewrite packed_pk in Exy by auto. congruence. }
  apply (Permutation_in _ P) in Is. apply in_app_iff in Is. destruct Is as [Is|Is]; [now apply Hk|].
  destruct (D s Is) as (k & z & p & Ik & _ & Pp & S). destruct (Hk k Ik) as (L & C).
  assert (Is' : In s sets) by (eapply Permutation_in; [symmetry; exact P|apply in_app_iff; auto]). destruct (Hs s Is') as (_ & Cs).
  apply (lower_bound_sym n z p) in L; auto. 2: { rewrite <- C. apply vs_width. }
  eapply lower_bound_mono; [|exact L]. intros y (x & Hx & ->). now apply S.
Qed.
Print Assumptions C25_bounds_survive.

(* five sets on 4 channels: everything, one and two comparators, and the complement of the last one *)
Definition ex_sets : list OutputSet :=
  let a := fst (apply_comparator (all_values 4) 1 0) in
  let b := fst (apply_comparator a 2 0) in
  [all_values 4; b; a; swap_channels (invert b) 0 3; fst (apply_comparator a 3 2)].
Example C25_case : (forall s, In s ex_sets -> wf s /\ channels s = 4) /\ map os_len ex_sets = [16; 10; 12; 10; 9] /\
  exists bytes, map_opt packed ex_sets = Some bytes /\
  prune_data 4 (concat bytes) = Some [nth 4 bytes []; nth 1 bytes []; nth 3 bytes []].
Proof.
  split. { intros s [<-|[<-|[<-|[<-|[<-|[]]]]]]; split; vm_compute; reflexivity. }
  split. vm_compute; reflexivity. eexists. split. vm_compute; reflexivity. vm_compute. reflexivity.
Qed.

(* ---- C26 ---- *)

(* Runs of prune_all that are stopped at any point, any number of times, then one run to the end; the single writes
   are as small as one byte.  fs is what is seen in between, fs' the result.  A pruned file that was there at the start
   is never touched. *)
Theorem C26_crash_safe : forall fs0 groups end0 fs,
  fs0 index_name = Some (flat_map (fun g => group_name g ++ [10]) groups) ->
  prune_all fs0 = Some end0 -> crashes fs0 fs ->
  (forall g, In g groups -> fs (with_extension (group_name g) (str "pbin")) = fs0 (with_extension (group_name g) (str "pbin")) \/
                            fs (with_extension (group_name g) (str "pbin")) = end0 (with_extension (group_name g) (str "pbin"))) /\
  fs index_name = fs0 index_name /\ (forall g, fs (group_name g) = fs0 (group_name g)) /\
  exists fs', prune_all fs = Some fs' /\ forall name, fs' name = end0 name.
Proof.
  intros fs0 groups end0 fs Ix E C. unfold prune_all in E. destruct (prune_all_ops fs0) as [ops|] eqn:Eo; [|discriminate]. injection E as <-.
  unfold prune_all_ops in Eo. rewrite Ix in Eo. change (flat_map _ groups) with (index_text groups) in Eo, Ix. rewrite lines_index in Eo.
  assert (Ok : forall g, In g groups -> okg fs0 g) by (eapply okg_of_success; eauto using mid_refl).
  destruct (lines_run fs0 groups groups fs0 (mid_refl _ _)) as (ops' & Eo' & P & D). { auto. } rewrite Eo in Eo'. injection Eo' as <-.
  pose proof (P (length ops)) as M0. rewrite firstn_all in M0.
  assert (D0 : forall g, In g groups -> done_of fs0 (fs_run ops fs0) g) by auto.
  pose proof (crashes_ok fs0 groups fs Ix Ok C) as M. split; [|split; [|split]].
  - intros g Hg. rewrite group_with_ext. fold (pbin_name g). pose proof (proj1 M g Hg) as S. specialize (D0 g Hg). unfold state_of, done_of in *.
    destruct (fs0 (pbin_name g)). left; apply S. destruct S as [S|(w & (d & x & A1 & A2 & ->) & S1 & _)]; auto.
    destruct D0 as (w' & (d' & x' & A1' & A2' & ->) & D1 & _). right. assert (d = d') by congruence. subst d'. congruence.
  - apply (mid_index _ _ _ M).
  - intros g. apply (mid_bin _ _ _ _ M).
  - destruct (lines_run fs0 groups groups fs M) as (ops1 & E1 & P1 & D1). { auto. }
    exists (fs_run ops1 fs). split. { unfold prune_all, prune_all_ops. rewrite (mid_index _ _ _ M), Ix, lines_index. now rewrite E1. }
    apply (done_same fs0 groups); auto. pose proof (P1 (length ops1)) as M1. now rewrite firstn_all in M1.
Qed.
Print Assumptions C26_crash_safe.

(* the result holds for each group the output of prune_data on its file, in particular never a part of it *)
Theorem C26_pruned_complete : forall fs0 groups fs,
  fs0 index_name = Some (flat_map (fun g => group_name g ++ [10]) groups) ->
  (forall g, In g groups -> fs0 (with_extension (group_name g) (str "pbin")) = None) ->
  prune_all fs0 = Some fs ->
  forall g, In g groups -> exists data out, fs0 (group_name g) = Some data /\ prune_data (fst g) data = Some out /\
    fs (with_extension (group_name g) (str "pbin")) = Some (concat out) /\ fs (with_extension (group_name g) (str "tmp")) = None.
Proof.
  intros fs0 groups fs Ix N E g Hg. unfold prune_all in E. destruct (prune_all_ops fs0) as [ops|] eqn:Eo; [|discriminate]. injection E as <-.
  unfold prune_all_ops in Eo. rewrite Ix in Eo. change (flat_map _ groups) with (index_text groups) in Eo, Ix. rewrite lines_index in Eo.
  assert (Ok : forall g, In g groups -> okg fs0 g) by (eapply okg_of_success; eauto using mid_refl).
  destruct (lines_run fs0 groups groups fs0 (mid_refl _ _)) as (ops' & Eo' & P & D). { auto. } rewrite Eo in Eo'. injection Eo' as <-.
  specialize (D g (or_introl Hg)). specialize (N g Hg). rewrite !group_with_ext in *. fold (pbin_name g) (tmp_name g) in *. unfold done_of in D. rewrite N in D.
  destruct D as (w & (d & x & A1 & A2 & ->) & D1 & D2). exists d, x. auto.
Qed.
Print Assumptions C26_pruned_complete.

(* a log with two files; a run stopped while the second one is written leaves a .tmp, the next one finishes *)
Definition ex_fs2 : Fs := fs_set (fs_set (fs_set (fun _ => None) index_name (Some (index_text [(4, 3); (3, 2)])))
  (group_name (4, 3)) (Some (concat (map pk ex_sets)))) (group_name (3, 2)) (Some (concat (map pk [ex_a; all_values 3]))).
Definition ex_crashed : Fs := match prune_all_ops ex_fs2 with Some ops => fs_run (firstn 10 ops) ex_fs2 | None => ex_fs2 end.
Definition ex_rerun : Fs := match prune_all ex_crashed with Some fs => fs | None => ex_fs2 end.
Example C26_case : crashes ex_fs2 ex_crashed /\
  ex_crashed (str "group_4_3.pbin") = Some [13; 221; 213; 213; 3; 255] /\
  ex_crashed (str "group_3_2.pbin") = None /\ ex_crashed (str "group_3_2.tmp") = Some [187] /\
  ex_rerun (str "group_3_2.pbin") = Some [187] /\ ex_rerun (str "group_3_2.tmp") = None.
Proof.
  split. { unfold ex_crashed. destruct (prune_all_ops ex_fs2) as [ops|] eqn:E; [|constructor]. eapply crash_run; [constructor|exact E]. }
  repeat split; vm_compute; reflexivity.
Qed.
