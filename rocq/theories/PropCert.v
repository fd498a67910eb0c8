(* Property C58: which searches lead to a certificate.  The search may have been started with a limit or a prefix. *)
From Coq Require Import String List Arith Bool Lia Permutation ZArith.
Import ListNotations.
From Verif Require Import Spec Vec Net Graded Bits Util OutputSetModel OutputSetProofs PackProofs TreeModel IndexModel IndexSpec StatesModel StatesProofs StatesBounds
  CanonModel SearchModel SearchFacts SearchInv SearchGlobal SearchRun SearchSafe SearchMain SearchOrder SearchTop SearchLeft FileModel FileProofs LogModel DumpProofs PruneLogProofs CrashProofs ProofGenModel GenLoad GenSteps GenMain PipeProofs
  DecodeModel VerifiedCheckerModel RefCheckerModel CliModel PropSearch PropLog PropGen PropPipe PropCli PropDecode.

(* the entry of the map with s: n channels, lower bound b *)
Definition in_log (m : StateMap) (n b : nat) (s : OutputSet) : Prop :=
  wf s /\ channels s = n /\ exists bytes st, packed s = Some bytes /\ In (n, bytes, st) (flat_map drain_packed (into_shards m)) /\ lo st = b.

Lemma in_log_iff mhash m n b s : sm_ok mhash m -> (in_log m n b s <-> logged mhash m (n, b) s).
Proof.
  intros Ok. split.
  - intros (W & C & bytes & st & P & I & L). split; auto. split; auto. exists st. split; auto. apply (drain_all_In mhash) in I; [|apply Ok].
    destruct I as (t & Kt & Ct & Pt & S). assert (E : t = s); [|now subst]. apply pk_inj; auto. apply Kt. congruence. rewrite Pt. rewrite (packed_pk s) in P by auto. congruence.
  - intros (W & C & st & S & L). cbn in C, L. split; auto. split; auto. exists (pk s), st. split. apply packed_pk; auto. split; auto.
    apply (drain_all_In mhash); [apply Ok|]. exists s. split; auto. eapply stored_okk; eauto.
Qed.

(* Take the map of a search, with any start and limit, at any time.  If the set of all values is logged for the greatest number of
   channels n, with a bound b of at least 2, and if no other set of n channels has this bound, then the certificate is
   generated, both checkers accept it and print n and b, and every sorting network on n channels has at least b comparators. *)
Theorem C58_certificate : forall chash mhash threads initial limit c n b fs0 fs', start_ok initial ->
  search_run chash mhash threads initial limit c -> 2 <= b ->
  in_log (g_map c) n b (all_values n) -> (forall s, in_log (g_map c) n b s -> s = all_values n) ->
  (forall n' b' s, in_log (g_map c) n' b' s -> n' <= n) ->
  (Z.of_nat (List.length (flat_map drain_packed (into_shards (g_map c)))) < 2 ^ 32)%Z ->
  (forall g, fs0 (with_extension (group_name g) (str "pbin")) = None) ->
  crashes (dump_states (g_map c) fs0) fs' ->
  exists fs1 file fuel0, prune_all fs' = Some fs1 /\ (forall fuel, fuel0 <= fuel -> gen_proof fuel fs1 = Some file) /\
    snocheck_v file = Some (Z.of_nat n, Z.of_nat b) /\ snocheck_r file = Some (n, b) /\
    forall net, sorting_network n net -> b <= List.length net.
Proof.
  intros chash mhash threads initial limit c n b fs0 fs' K R B2 Top Only Mx Few N0 Cr.
  pose proof (run_search_left chash mhash threads initial limit c (start_okset _ K) R) as SL.
  pose proof (mi_ok _ _ _ (sl_inv _ _ _ _ SL)) as Ok. pose proof (proj1 (in_log_iff mhash _ _ _ _ Ok) Top) as TL.
  assert (Hn : n <= 11). { pose proof TL as (_ & C & st & S & _). cbn in C. destruct (sl_stored _ _ _ _ SL _ st (all_values_wf n) S) as (_ & _ & _ & _ & L). destruct K as (_ & Kc & _). cbn in L. lia. }
  assert (SL' : search_left chash mhash n (g_map c)).
  { split. apply SL. intros s st W S. destruct (sl_stored _ _ _ _ SL s st W S) as (A & B & D & E & _). split; auto. split; auto. split; auto. split; auto.
    apply (Mx (channels s) (lo st) s). apply (in_log_iff mhash); auto. split; auto. split; auto. exists st. auto. }
  destruct (pipeline_left chash mhash n b (g_map c) fs0 fs' Hn SL' B2 TL) as (fs1 & file & F & A & G & V & Rf); auto.
  { intros s L. apply Only. apply (in_log_iff mhash); auto. }
  exists fs1, file, F. split; auto. split; auto. split; auto. split; auto.
  intros net Hnet. rewrite <- (Nat2Z.id n) in Hnet. apply (C30_snocheck_v_sound file _ _ V net) in Hnet. lia.
Qed.
Print Assumptions C58_certificate.

(* If the set of all values is not logged for the greatest number of channels, or if another set shares its bound there, then no
   certificate is written: the generator stops with a panic.  (What is left is a bound of 1, see C27.) *)
Theorem C58_no_certificate : forall chash mhash threads initial limit c fs0 fs', start_ok initial ->
  search_run chash mhash threads initial limit c ->
  (forall n b, in_log (g_map c) n b (all_values n) ->
     exists n' b' s, in_log (g_map c) n' b' s /\ (n < n' \/ n' = n /\ b' = b /\ s <> all_values n)) ->
  (forall g, fs0 (with_extension (group_name g) (str "pbin")) = None) ->
  crashes (dump_states (g_map c) fs0) fs' ->
  exists fs1, prune_all fs' = Some fs1 /\ forall fuel, gen_proof fuel fs1 = None.
Proof.
  intros chash mhash threads initial limit c fs0 fs' K R Bad N0 Cr.
  pose proof (run_search_left chash mhash threads initial limit c (start_okset _ K) R) as SL.
  pose proof (mi_ok _ _ _ (sl_inv _ _ _ _ SL)) as Ok. assert (Hn : channels initial <= 11) by apply K.
  destruct (pipe_pruned chash mhash _ (g_map c) Hn SL fs0 fs' N0 Cr) as (fs1 & groups & kept & Ep & Ng & Hg & Hk & PL).
  exists fs1. split; auto. intros fuel. destruct (gen_proof fuel fs1) as [file|] eqn:E; auto. exfalso.
  destruct (C27_references_backwards fs1 groups kept fuel file PL E) as (n & es & data & _ & _ & Hin & Mx & _ & Ent & L1 & L2).
  assert (T : exists g, In g groups /\ In (all_values n) (kept g)).
  { destruct es as [|e0 es0]. destruct (L2 eq_refl) as (g & A & B & _). eauto.
    destruct (L1 ltac:(discriminate)) as (e & He & Es). destruct (Ent _ e He) as ((g & A & B & _) & _). rewrite Es in B. eauto. }
  destruct T as (g & Ig & Tk). pose proof (Hk g Ig) as Kg. pose proof Kg as (_ & _ & Lk & _). pose proof (Lk _ Tk) as L. pose proof L as (_ & C & _). cbn in C.
  destruct g as (n0, b). cbn in C. subst n0. destruct (Bad n b) as (n' & b' & s & Ls & D). { now apply (in_log_iff mhash). }
  apply (in_log_iff mhash) in Ls; auto. destruct D as [D|(-> & -> & Ne)].
  - assert (I' : In (n', b') groups) by (apply Hg; eauto). specialize (Mx _ I'). cbn in Mx. lia.
  - assert (Hn' : n <= 11). { destruct (logged_facts chash mhash _ (g_map c) SL _ s Ls) as (_ & _ & _ & _ & _ & Lc & _). cbn in Lc. lia. }
    exact (top_dropped mhash n (g_map c) b (kept (n, b)) s Ls Ne Kg Tk).
Qed.
Print Assumptions C58_no_certificate.

(* the set the search started with is stored, with at least the bound that was printed *)
Lemma main_stored chash mhash threads initial limit c k : okset initial -> 3 <= channels initial ->
  search_run chash mhash threads initial limit c -> search_result c k -> (limit = None /\ 1 <= k) \/ 2 <= k ->
  exists st, stored mhash (g_map c) (canon_of chash initial) = Some st /\ k <= lo st.
Proof.
  intros K C3 R (x & s & lim & N & E) B. pose proof (run_inv chash mhash _ _ _ _ K R) as I.
  destruct (run_main chash mhash _ _ _ _ K R) as (_ & M). specialize (M 0 x N). rewrite E in M. destruct M as (n & M).
  destruct n as [|n]; cbn in M. 2:{ destruct n; discriminate. } injection M as -> ->.
  destruct (inv_core _ _ c I _ (nth_error_In _ _ (nth_cores c 0 x N))) as (_ & S & _). cbn [core c_stack] in S. rewrite E in S.
  destruct S as ((Ks & st & (P1 & P2 & _) & -> & D) & _).
  destruct (canon_spec chash initial K) as (t & inv & p & Ec & Kt & Ct & P & Iso).
  assert (Et : canon_of chash initial = t) by (unfold canon_of; now rewrite Ec). rewrite Et in *. clear Et Ec.
  destruct (stored mhash (g_map c) t) as [st'|] eqn:Es. { exists st'. split; auto. unfold cur in P1. now rewrite Es in P1. }
  exfalso. unfold cur in P1, P2. rewrite Es in P1, P2. unfold default_state in P1, P2. destruct (is_sorted t). { cbn [lo] in P1. lia. }
  destruct (Nat.leb_spec (channels t) 2) as [L|L]; [lia|]. cbn [lo] in P1. cbn [hi] in P2. destruct B as [(-> & B)|B]; [|lia].
  destruct D as [D|(l & D & _)]; [|discriminate]. unfold closed in D. apply Nat.eqb_eq in D.
  assert (L11 : channels t <= 11) by apply Kt. rewrite <- D in P2.
  destruct (channels t) as [|[|[|[|[|[|[|[|[|[|[|[|j]]]]]]]]]]]]; cbn in P2; lia.
Qed.

(* A search on all inputs that stopped at a limit: if the number it printed is at least 2, there is a certificate, for this number
   or a greater one, unless another set of n channels has the same bound; then there is none. *)
Theorem C58_with_limit : forall chash mhash threads n limit c k fs0 fs', 3 <= n -> n <= 11 ->
  search_run chash mhash threads (all_values n) limit c -> search_result c k -> 2 <= k ->
  (Z.of_nat (List.length (flat_map drain_packed (into_shards (g_map c)))) < 2 ^ 32)%Z ->
  (forall g, fs0 (with_extension (group_name g) (str "pbin")) = None) ->
  crashes (dump_states (g_map c) fs0) fs' ->
  exists b fs1, in_log (g_map c) n b (all_values n) /\ k <= b /\ prune_all fs' = Some fs1 /\
   ((forall s, in_log (g_map c) n b s -> s = all_values n) ->
      exists file fuel0, (forall fuel, fuel0 <= fuel -> gen_proof fuel fs1 = Some file) /\
        snocheck_v file = Some (Z.of_nat n, Z.of_nat b) /\ snocheck_r file = Some (n, b)) /\
   ((exists s, in_log (g_map c) n b s /\ s <> all_values n) -> forall fuel, gen_proof fuel fs1 = None).
Proof.
  intros chash mhash threads n limit c k fs0 fs' H3 Hn R Res K2 Few N0 Cr. pose proof (all_values_start n Hn) as K.
  pose proof (run_search_left chash mhash threads _ limit c (start_okset _ K) R) as SL. pose proof (mi_ok _ _ _ (sl_inv _ _ _ _ SL)) as Ok.
  destruct (main_stored chash mhash threads _ limit c k (start_okset _ K) H3 R Res (or_intror K2)) as (st & St & Lo). rewrite canon_all in St by auto.
  assert (T : in_log (g_map c) n (lo st) (all_values n)). { apply (in_log_iff mhash); auto. split. apply all_values_wf. split; [reflexivity|]. exists st. auto. }
  destruct (pipe_pruned chash mhash _ (g_map c) Hn SL fs0 fs' N0 Cr) as (fs1 & groups & kept & Ep & _).
  exists (lo st), fs1. split; auto. split; auto. split; auto. split.
  - intros Only. destruct (C58_certificate chash mhash threads _ limit c n (lo st) fs0 fs' K R ltac:(lia) T Only) as (fs2 & file & F & A & G & V & Rf & _); auto.
    { intros n' b' s L. apply (in_log_iff mhash) in L; auto. destruct (logged_facts chash mhash _ (g_map c) SL _ s L) as (_ & _ & _ & _ & _ & Lc & _). exact Lc. }
    rewrite Ep in A. injection A as <-. eauto.
  - intros (s & Ls & Ne). destruct (C58_no_certificate chash mhash threads _ limit c fs0 fs' K R) as (fs2 & A & G); auto.
    { intros n1 b1 L1. pose proof (proj1 (in_log_iff mhash _ _ _ _ Ok) L1) as LL. destruct (logged_facts chash mhash _ (g_map c) SL _ _ LL) as (_ & _ & _ & _ & _ & Lc & Lb). cbn in Lc.
      exists n, (lo st), s. split; auto. destruct (Nat.eq_dec n1 n) as [->|]; [right|left; lia]. split; auto. split; auto. cbn in Lb. unfold cur in Lb. now rewrite St in Lb. }
    rewrite Ep in A. injection A as <-. exact G.
Qed.
Print Assumptions C58_with_limit.

(* A prefix of at least one comparator never leads to a certificate, unless it sorts already or the limit is below 2, when
   nothing need be stored; it is the generator that stops with a panic. *)
Theorem C58_with_prefix : forall chash mhash debug threads n pairs limit initial c k fs0 fs', 3 <= n -> n <= MAX_CHANNELS ->
  (forall ab, In ab pairs -> fst ab < n /\ snd ab < n /\ fst ab <> snd ab) -> pairs <> [] ->
  cmd_initial debug n (prefix_arg pairs) = Some initial ->
  search_run chash mhash threads initial limit c -> search_result c k -> (limit = None /\ 1 <= k) \/ 2 <= k ->
  (forall g, fs0 (with_extension (group_name g) (str "pbin")) = None) ->
  crashes (dump_states (g_map c) fs0) fs' ->
  exists fs1, prune_all fs' = Some fs1 /\ forall fuel, gen_proof fuel fs1 = None.
Proof.
  intros chash mhash debug threads n pairs limit initial c k fs0 fs' H3 Hn Hp Ne Ei R Res B N0 Cr.
  assert (Hv : forall ab, In ab pairs -> pair_valid n ab = true).
  { intros ab Hab. destruct (Hp ab Hab) as (A1 & A2 & A3). unfold pair_valid. rewrite !andb_true_iff, negb_true_iff, Nat.eqb_neq, !Nat.ltb_lt. auto. }
  destruct (cmd_initial_ok debug n pairs Hn Hv) as (s & Es & K & C & V). rewrite Ei in Es. injection Es as <-. pose proof (start_okset _ K) as KO.
  assert (O : ordered n (vs initial)).
  { destruct (exists_last Ne) as (l & ab & ->). destruct (Hp ab) as (A1 & A2 & A3). { apply in_or_app. right. now left. }
    exists (snd ab), (fst ab). split; auto. split; auto. split; auto. intros y Hy. apply V in Hy. destruct Hy as (x & Hx & ->). unfold all_inputs in Hx.
    replace (run (prefix_net (l ++ [ab])) x) with (exch (snd ab, fst ab) (run (prefix_net l) x)) by (unfold prefix_net, run; rewrite map_app, fold_left_app; reflexivity).
    assert (Cc : cmp_ok (List.length (run (prefix_net l) x)) (snd ab, fst ab)). { rewrite run_length, Hx. split; [exact A2|split; [exact A1|cbn; auto]]. }
    rewrite !bit_exch by exact Cc. cbn [fst snd]. rewrite !Nat.eqb_refl. destruct (Nat.eqb_spec (snd ab) (fst ab)) as [Eq|]; [congruence|].
    destruct (bit _ (fst ab)), (bit _ (snd ab)); auto. }
  destruct (main_stored chash mhash threads initial limit c k KO ltac:(lia) R Res B) as (st & St & _).
  pose proof (run_search_left chash mhash threads _ limit c KO R) as SL. pose proof (mi_ok _ _ _ (sl_inv _ _ _ _ SL)) as Ok.
  apply (C58_no_certificate chash mhash threads initial limit c fs0 fs' K R); auto.
  intros n1 b1 L1. destruct (canon_spec chash initial KO) as (t & inv & p & Ec & Kt & Ct & P & Iso).
  assert (Et : canon_of chash initial = t) by (unfold canon_of; now rewrite Ec). rewrite Et in St.
  exists n, (lo st), t. split. { apply (in_log_iff mhash); auto. split. apply Kt. split; [cbn; lia|]. exists st. auto. }
  apply (in_log_iff mhash) in L1; auto. destruct (logged_facts chash mhash _ (g_map c) SL _ _ L1) as (_ & _ & _ & _ & _ & Lc & _). cbn in Lc.
  left. destruct (Nat.eq_dec n1 n) as [->|]; [exfalso|lia]. destruct L1 as (_ & _ & st1 & S1 & _).
  rewrite <- C in O. pose proof (run_ordered chash mhash threads initial limit c KO O R) as Z. rewrite C, S1 in Z. discriminate.
Qed.
Print Assumptions C58_with_prefix.

(* The search on 4 channels with limit 2 stops with the bound 3, which is not the least size; there is a certificate for it. *)
Lemma log_only m n b (l : list (nat * list nat * State)) : flat_map drain_packed (into_shards m) = l ->
  Forall (fun e => match e with (n', bytes, st) => n' = n -> lo st = b -> packed (all_values n) = Some bytes end) l ->
  forall s, in_log m n b s -> s = all_values n.
Proof.
  intros E F s (W & C & bytes & st & P & I & L). rewrite E in I. rewrite Forall_forall in F. assert (F' : packed (all_values n) = Some bytes) by exact (F _ I eq_refl L).
  rewrite packed_pk in P by auto. rewrite packed_pk in F' by apply all_values_wf. apply pk_inj; auto. apply all_values_wf. congruence.
Qed.
Definition limited : Config := example_run 4 (Some 2) 100.
Example C58_case_limit : search_run h0 h0 2 (all_values 4) (Some 2) limited /\ search_result limited 3 /\ in_log (g_map limited) 4 3 (all_values 4) /\
  (forall s, in_log (g_map limited) 4 3 s -> s = all_values 4) /\ (forall n b s, in_log (g_map limited) n b s -> n <= 4) /\
  (Z.of_nat (List.length (flat_map drain_packed (into_shards (g_map limited)))) < 2 ^ 32)%Z.
Proof.
  assert (E : flat_map drain_packed (into_shards (g_map limited)) = [(4, [255; 255], mkState 3 5 3 5)]) by (vm_compute; reflexivity).
  split; [apply example_is_run; lia|]. split; [apply result_of_spec; vm_compute; reflexivity|]. split; [|split; [|split]].
  - split; [apply all_values_wf|]. split; [reflexivity|]. exists [255; 255], (mkState 3 5 3 5). split; [reflexivity|]. rewrite E. split; [now left|reflexivity].
  - apply (log_only _ 4 3 _ E). repeat constructor.
  - intros n b s (_ & _ & bytes & st & _ & I & _). rewrite E in I. destruct I as [I|[]]. injection I as <- _ _. lia.
  - rewrite E. reflexivity.
Qed.
Example C58_case_limit_accepted : exists fs1 file fuel0, prune_all (stopped 1 (dump_states (g_map limited) (fun _ => None))) = Some fs1 /\
  (forall fuel, fuel0 <= fuel -> gen_proof fuel fs1 = Some file) /\ snocheck_v file = Some (4%Z, 3%Z) /\ snocheck_r file = Some (4, 3).
Proof.
  destruct C58_case_limit as (A & _ & B & C & D & E).
  destruct (C58_certificate h0 h0 2 _ (Some 2) limited 4 3 (fun _ => None) _ (all_values_start 4 ltac:(lia)) A ltac:(lia) B C D E (fun _ => eq_refl) (stopped_crashes 1 _))
    as (fs1 & file & F & P & G & V & R & _). exists fs1, file, F. auto.
Qed.

(* The prefix 1,0 3,2 on 4 channels: the search ends with 3, but there is no certificate. *)
Example C58_case_prefix : exists fs1, prune_all (stopped 1 (dump_states (g_map (cli_run 1000)) (fun _ => None))) = Some fs1 /\ forall fuel, gen_proof fuel fs1 = None.
Proof.
  apply (C58_with_prefix h0 h0 true 2 4 cli_prefix None cli_start (cli_run 1000) 3 (fun _ => None)); try lia; auto.
  - unfold MAX_CHANNELS. lia.
  - intros ab [<-|[<-|[]]]; cbn; lia.
  - discriminate.
  - unfold cli_run. destruct (search_start h0 2 cli_start None) eqn:E. apply round_robin_run, run_start; auto. exfalso. revert E. vm_compute. discriminate.
  - apply result_of_spec. vm_compute. reflexivity.
  - apply stopped_crashes.
Qed.

(* One would expect a certificate for the number that a search on all inputs printed, whatever the limit:
     forall chash mhash threads n limit c k fs0 fs', 3 <= n -> n <= 11 ->
       search_run chash mhash threads (all_values n) limit c -> search_result c k -> ... ->
       exists fs1 file fuel, prune_all fs' = Some fs1 /\ gen_proof fuel fs1 = Some file /\ ...
   This is false.  With limit 1 the search stops at once, index.txt is empty, and the generator panics. *)
Theorem C58_every_limit_refuted : exists chash mhash threads n limit c k, 3 <= n /\ n <= 11 /\
  search_run chash mhash threads (all_values n) limit c /\ search_result c k /\
  exists fs1, prune_all (dump_states (g_map c) (fun _ => None)) = Some fs1 /\ forall fuel, gen_proof fuel fs1 = None.
Proof.
  exists h0, h0, 2, 3, (Some 1), (example_run 3 (Some 1) 3), 1. split; [lia|]. split; [lia|]. assert (R := example_is_run 3 (Some 1) 3 ltac:(lia)). split; auto. split.
  - apply result_of_spec. vm_compute. reflexivity.
  - apply (C58_no_certificate h0 h0 2 (all_values 3) (Some 1) (example_run 3 (Some 1) 3) (fun _ => None)); auto using crash_none. apply all_values_start. lia.
    intros n b (_ & _ & bytes & st & _ & I & _). exfalso. revert I.
    replace (flat_map drain_packed (into_shards (g_map (example_run 3 (Some 1) 3)))) with (@nil (nat * list nat * State)) by (vm_compute; reflexivity). intros [].
Qed.
Print Assumptions C58_every_limit_refuted.
