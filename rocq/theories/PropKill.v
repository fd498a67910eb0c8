(* Property C63: a search that is killed while it writes its log. *)
From Coq Require Import String List Arith Bool Lia Permutation ZArith.
Import ListNotations.
From Verif Require Import Spec Vec Net Graded Bits Util OutputSetModel OutputSetProofs PackProofs TreeModel IndexModel IndexSpec StatesModel StatesProofs StatesBounds
  CanonModel SearchModel SearchFacts SearchInv SearchOrder SearchTop SearchLeft FileModel FileProofs LogModel DumpProofs PruneLogProofs CrashProofs ProofGenModel GenLoad GenSteps GenMain PipeProofs
  DecodeModel VerifiedCheckerModel RefCheckerModel KillModel KillProofs PropSearch PropLog PropGen PropPipe PropCert.

(* Take the map of a search, with any start, limit and time, and any state of the files in which the search can be killed while it
   writes the log to an empty directory.  Either prune-all panics, or every certificate that gen-proof then makes belongs to a
   set of all values that the search has logged; if its bound b is at least 2, both checkers accept it and print n and b,
   and every sorting network on n channels has at least b comparators. *)
Theorem C63_killed_dump : forall chash mhash threads initial limit c fs0 fs, start_ok initial ->
  search_run chash mhash threads initial limit c ->
  (Z.of_nat (List.length (flat_map drain_packed (into_shards (g_map c)))) < 2 ^ 32)%Z ->
  (forall name, fs0 name = None) -> stopped_dump (g_map c) fs0 fs ->
  prune_all fs = None \/
  exists fs1, prune_all fs = Some fs1 /\ forall fuel file, gen_proof fuel fs1 = Some file ->
    exists n b, in_log (g_map c) n b (all_values n) /\
      (2 <= b -> snocheck_v file = Some (Z.of_nat n, Z.of_nat b) /\ snocheck_r file = Some (n, b) /\ forall net, sorting_network n net -> b <= List.length net).
Proof.
  intros chash mhash threads initial limit c fs0 fs K R Few N0 St.
  pose proof (run_search_left chash mhash threads initial limit c (start_okset _ K) R) as SL. pose proof (mi_ok _ _ _ (sl_inv _ _ _ _ SL)) as Ok.
  assert (Hn : channels initial <= 11) by apply K.
  destruct (prune_all fs) as [fs1|] eqn:Ep; [right|now left]. exists fs1. split; auto. intros fuel file G.
  destruct (torn_pruned chash mhash _ (g_map c) Hn SL fs0 fs fs1 N0 St Ep) as (groups & kept & fs2 & Eq & PL & LK). rewrite Eq in G.
  assert (Ng : groups <> []).
  { intros E. destruct PL as [Px _ _ _]. rewrite E in Px. revert G. unfold gen_proof, load_indexes. rewrite Px. cbn. discriminate. }
  destruct (gen_main fs2 groups kept PL Ng) as (n & Hn' & Mn & [No|(g0 & g & es & b & F & T & Sm & Em & Ib & Run & Last)]). { rewrite No in G. discriminate. }
  apply all_entries_In in Ib. destruct Ib as (gr & Ig & Ik & ->). pose proof (LK gr _ Ig Ik) as L. pose proof L as (_ & C & _). cbn in C.
  destruct gr as (n0, b). cbn in C. subst n0. cbn [snd] in *. exists n, b. split. { now apply (in_log_iff mhash). } intros B2.
  destruct (C32_accepted fs2 groups kept fuel file (n, b) PL) as (V & Rf & Snd); auto.
  - eapply Z.le_lt_trans; [|exact Few]. apply inj_le. apply (entries_len chash mhash _ _ SL); auto. apply PL.
  - intros g1 s Hi Hs _ O. destruct (logged_facts chash mhash _ _ SL g1 s (LK g1 s Hi Hs)) as (Ks & (U & _) & _). apply is_sorted_spec in O; [congruence|apply Ks].
Qed.
Print Assumptions C63_killed_dump.

Lemma keys_grow items : forall d, exists l, fst (fold_left dump_item items d) = l ++ fst d.
Proof.
  induction items as [|it items IH]; intros d; cbn [fold_left]. { now exists []. }
  destruct (IH (dump_item d it)) as (l & E). destruct d as (keys, fs), it as ((ch, by_), st). unfold dump_item in *. rewrite E. destruct (existsb _ keys); cbn [fst]. { now exists l. }
  exists (l ++ [(ch, lo st)]). now rewrite <- app_assoc.
Qed.

Lemma start_dumped fs0 : dumped fs0 [] ([], fs_do fs0 (Create index_name)).
Proof.
  unfold dumped. split; [constructor|]. split. { intros g. split; [intros []|intros (? & [] & _)]. }
  cbn [fs_do]. split; [now rewrite fs_set_same|]. split; [intros ? []|]. intros name Hn _. now rewrite fs_set_other.
Qed.

Lemma firstn_app_exact {A} (a b : list A) : firstn (List.length a) (a ++ b) = a.
Proof. now rewrite firstn_app, Nat.sub_diag, firstn_all, app_nil_r. Qed.

(* stopped_dump is wide enough: it covers the files after any number of entries, written one after the other and without a buffer *)
Theorem C63_stopped_between_entries : forall m fs0 i, let entries := flat_map drain_packed (into_shards m) in
  stopped_dump m fs0 (snd (fold_left dump_item (firstn i entries) ([], fs_do fs0 (Create index_name)))).
Proof.
  intros m fs0 i entries name. unfold dump_states. fold entries.
  pose proof (dumped_all fs0 (firstn i entries) [] _ (start_dumped fs0)) as D1. pose proof (dumped_all fs0 entries [] _ (start_dumped fs0)) as D2. cbn [app] in D1, D2.
  pose proof (keys_grow (skipn i entries) (fold_left dump_item (firstn i entries) ([], fs_do fs0 (Create index_name)))) as Kg. rewrite <- fold_left_app, firstn_skipn in Kg.
  destruct Kg as (l & Kg). destruct (fold_left dump_item (firstn i entries) _) as (k1, f1), (fold_left dump_item entries _) as (k2, f2). cbn [fst snd] in *. subst k2.
  destruct D1 as (_ & _ & X1 & G1 & O1), D2 as (_ & _ & X2 & G2 & _).
  destruct (list_eq_dec Nat.eq_dec name index_name) as [->|Ni].
  { right. exists (List.length (index_text (rev k1))), (index_text (rev (l ++ k1))). split; auto. rewrite X1. rewrite rev_app_distr. unfold index_text. rewrite flat_map_app, firstn_app_exact. reflexivity. }
  destruct (in_dec (list_eq_dec Nat.eq_dec) name (map group_name k1)) as [Hi|Hi].
  - apply in_map_iff in Hi. destruct Hi as (g & <- & Hg). right. specialize (G1 g Hg). specialize (G2 g (in_or_app l k1 g (or_intror Hg))).
    rewrite <- (firstn_skipn i entries), filter_app, map_app, concat_app in G2.
    eexists _, _. split; [exact G2|]. rewrite G1. f_equal. symmetry. apply firstn_app_exact.
  - left. apply O1; auto. intros g Hg E. apply Hi. rewrite E. now apply in_map.
Qed.
Print Assumptions C63_stopped_between_entries.

(* A group file that is empty or that ends in the middle of a set is found by prune-all, which panics. *)
Theorem C63_torn_file : forall fs t groups g data, fs index_name = Some t -> lines t = map group_name groups -> In g groups ->
  fs (group_name g) = Some data -> fs (pbin_name g) = None ->
  data = [] \/ (forall c, List.length data <> packed_len_for_channels (fst g) * c) -> prune_all fs = None.
Proof.
  intros fs t groups g data Ei El Hg Ed En Bad. unfold prune_all, prune_all_ops. rewrite Ei. cbv beta iota. rewrite El.
  destruct (prune_lines (map group_name groups) fs) as [ops|] eqn:Eo; auto. exfalso.
  destruct (okg_of_success fs groups groups fs ops (mid_refl fs groups) (fun g H => H) Eo g Hg) as (d & E1 & E2 & E3). rewrite Ed in E1. injection E1 as <-.
  destruct Bad as [->|Bad]; [discriminate|]. destruct (E3 En) as (w & W). destruct (prune_full _ _ _ W) as (c & L). exact (Bad c L).
Qed.
Print Assumptions C63_torn_file.

(* index.txt that ends inside the name of a group is found too: there is no file with this name, and prune-all panics. *)
Theorem C63_torn_index : forall m fs0 fs groups g rest q, (forall name, fs0 name = None) -> stopped_dump m fs0 fs ->
  fs index_name = Some (index_text groups ++ rest) -> group_name g = rest ++ q -> rest <> [] -> q <> [] -> prune_all fs = None.
Proof.
  intros m fs0 fs groups g rest q N0 St Ei Eg Nr Nq. destruct (cut_name g rest q Eg Nq) as (C1 & C2).
  assert (Nf : fs rest = None).
  { destruct (dump_spec m fs0) as (keys & _ & _ & _ & _ & Ot). destruct (St rest) as [E|(k & d & E & _)]. { now rewrite E. } rewrite Ot, N0 in E; auto. discriminate. intros h _. apply C2. }
  unfold prune_all, prune_all_ops. rewrite Ei. cbv beta iota.
  assert (Nn : ~ In 10 rest). { intros X. apply (proj1 (group_no_newline g)). rewrite Eg. apply in_or_app. left. exact X. } rewrite (lines_rest groups rest Nn Nr), prune_lines_app.
  destruct (prune_lines (map group_name groups) fs) as [ops|] eqn:Eo; auto.
  assert (OG : forall g, In g groups -> okg fs g) by exact (okg_of_success fs groups groups fs ops (mid_refl fs groups) (fun g H => H) Eo).
  destruct (lines_run fs groups groups fs (mid_refl fs groups)) as (ops' & Eo' & Mi & _); auto. rewrite Eo in Eo'. injection Eo' as <-.
  specialize (Mi (List.length ops)). rewrite firstn_all in Mi. cbn [prune_lines]. destruct (line_channels rest); auto. cbv beta iota. unfold prune_ops.
  rewrite (proj2 Mi rest) by (intros h _; split; apply C2). now rewrite Nf.
Qed.
Print Assumptions C63_torn_index.

(* The search on 4 channels of PropSearch logs two sets.  The files when it is killed with k bytes of index.txt and l bytes of the
   second group file written. *)
Definition killed (k l : nat) : Fs := fun name =>
  if list_eqb Nat.eqb name index_name then option_map (firstn k) (dump_states (g_map (example_run 4 None 100)) (fun _ => None) name)
  else if list_eqb Nat.eqb name (group_name (4, 5)) then option_map (firstn l) (dump_states (g_map (example_run 4 None 100)) (fun _ => None) name)
  else dump_states (g_map (example_run 4 None 100)) (fun _ => None) name.
Lemma killed_stopped k l : stopped_dump (g_map (example_run 4 None 100)) (fun _ => None) (killed k l).
Proof.
  intros name. unfold killed. generalize (dump_states (g_map (example_run 4 None 100)) (fun _ => None) name). intros o.
  destruct o as [d|]. 2:{ left. now destruct (list_eqb Nat.eqb name index_name), (list_eqb Nat.eqb name (group_name (4, 5))). }
  right. destruct (list_eqb Nat.eqb name index_name); [exists k, d; auto|]. destruct (list_eqb Nat.eqb name (group_name (4, 5))); [exists l, d; auto|]. exists (List.length d), d. now rewrite firstn_all.
Qed.
Example C63_case k l : prune_all (killed k l) = None \/
  exists fs1, prune_all (killed k l) = Some fs1 /\ forall fuel file, gen_proof fuel fs1 = Some file ->
    exists n b, in_log (g_map (example_run 4 None 100)) n b (all_values n) /\
      (2 <= b -> snocheck_v file = Some (Z.of_nat n, Z.of_nat b) /\ snocheck_r file = Some (n, b) /\ forall net, sorting_network n net -> b <= List.length net).
Proof.
  apply (C63_killed_dump h0 h0 2 (all_values 4) None (example_run 4 None 100) (fun _ => None) (killed k l)); auto using killed_stopped.
  - apply all_values_start. lia.
  - apply example_is_run. lia.
  - assert (E : List.length (flat_map drain_packed (into_shards (g_map (example_run 4 None 100)))) = 2) by (vm_compute; reflexivity). rewrite E. cbn. lia.
Qed.

(* what happens: nothing written, then no certificate; the index cut inside a name, a panic; cut after the first line, a certificate for
   3 channels; complete, but the file cut inside a set, a panic *)
Definition outcome (fs : Fs) : option (option (option (Z * Z) * option (nat * nat))) :=
  match prune_all fs with
  | None => None
  | Some fs1 => Some (match gen_proof 3 fs1 with Some file => Some (snocheck_v file, snocheck_r file) | None => None end)
  end.
Example C63_case_outcomes : map (fun kl => outcome (killed (fst kl) (snd kl))) [(0, 2); (7, 2); (14, 1); (28, 1)] =
  [Some None; None; Some (Some (Some (3%Z, 3%Z), Some (3, 3))); None].
Proof. vm_compute. reflexivity. Qed.

Example C63_case_entries : stopped_dump (g_map (example_run 4 None 100)) (fun _ => None)
    (snd (fold_left dump_item (firstn 1 (flat_map drain_packed (into_shards (g_map (example_run 4 None 100))))) ([], fs_do (fun _ => None) (Create index_name)))) /\
  outcome (snd (fold_left dump_item [(3, [255], mkState 3 3 3 3)] ([], fs_do (fun _ => None) (Create index_name)))) = Some (Some (Some (3%Z, 3%Z), Some (3, 3))).
Proof. split. apply C63_stopped_between_entries. vm_compute. reflexivity. Qed.

Example C63_case_torn : prune_all (fun name => if list_eqb Nat.eqb name index_name then Some (index_text [(4, 5)]) else
  if list_eqb Nat.eqb name (group_name (4, 5)) then Some [255; 255; 255] else None) = None.
Proof.
  apply (C63_torn_file _ (index_text [(4, 5)]) [(4, 5)] (4, 5) [255; 255; 255]); try reflexivity.
  - now left.
  - right. intros c. change (packed_len_for_channels (fst (4, 5))) with 2. change (List.length [255; 255; 255]) with 3. lia.
Qed.

Example C63_case_torn_index : prune_all (killed 20 2) = None.
Proof.
  apply (C63_torn_index (g_map (example_run 4 None 100)) (fun _ => None) (killed 20 2) [(3, 3)] (4, 5) (str "group_") (str "4_5.bin")).
  - reflexivity.
  - apply killed_stopped.
  - vm_compute. reflexivity.
  - vm_compute. reflexivity.
  - discriminate.
  - discriminate.
Qed.
