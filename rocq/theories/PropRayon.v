(* Property C66: the parallel iterators of prune.rs and proof.rs. *)
From Coq Require Import String List Arith Bool Lia Permutation ZArith.
Import ListNotations.
From Verif Require Import Spec Vec Net Util OutputSetModel OutputSetProofs TreeModel IndexModel FileModel LogModel DecodeModel ProofGenModel PropLog
  PropGen VerifiedCheckerModel StatesModel SearchModel PropSearch PropPipe RayonModel RayonProofs RayonOrder.

Lemma seq_concat {A B} (f : A -> option (list B)) items : seq_call f items = option_map (@concat B) (map_opt f items).
Proof.
  induction items as [|x r IH]; simpl; auto. rewrite IH. destruct (f x), (map_opt f r); auto.
Qed.

(* Whatever the division of the work and the order of the steps: a call ends after at most 4 steps per item, does not
   get stuck before, and then either no item panics, and the results are there in the order of the items and the
   progress bar has counted every item once, or some item panics, and the call panics. *)
Theorem C66_any_schedule : forall A B (f : A -> option (list B)) items k j c,
  job_steps f k (Todo items [], 0) (j, c) ->
  k <= 4 * length items /\
  (ended j = false -> exists y, job_step f (j, c) y) /\
  (ended j = true -> match map_opt f items with
                     | Some outs => j = Todo [] (concat outs) /\ c = length items
                     | None => j = Dead
                     end).
Proof.
  intros A B f items k j c S. destruct (steps_inv f _ _ _ S) as (W & M & C). cbn [fst snd] in *. split; [|split].
  - destruct items; cbn [measure length] in *; lia.
  - apply can_step.
  - intros E. pose proof (ended_will f j E) as H. rewrite will_start, seq_concat in W. rewrite W in H.
    rewrite will_start, seq_concat in C. destruct (map_opt f items) as [outs|]; cbn [option_map] in *; auto.
    split; auto. specialize (C ltac:(discriminate)). subst j. cbn [left_over length] in C. lia.
Qed.
Print Assumptions C66_any_schedule.

(* prune with parallel filters: exactly the outcome of the sequential filters of LogModel.v, in every schedule *)
Theorem C66_prune : forall channels data res, prune_data_par channels data res <-> res = prune_data channels data.
Proof. exact prune_data_iff. Qed.
Print Assumptions C66_prune.

(* ... so every schedule writes the same selection, in which every set left out has a representative *)
Theorem C66_prune_representatives : forall n sets bytes, 1 < n -> n <= MAX_CHANNELS ->
  (forall s, In s sets -> wf s /\ channels s = n) -> map_opt packed sets = Some bytes ->
  exists kept dropped out, (forall res, prune_data_par n (concat bytes) res <-> res = Some out) /\ map_opt packed kept = Some out /\
    Permutation sets (kept ++ dropped) /\
    (forall s, In s dropped -> exists k z p, In k kept /\ os_len k < os_len s /\ is_perm n p /\ subsumes_by z p (vs k) (vs s)).
Proof.
  intros n sets bytes Hn Hm Hs E. destruct (C25_prune_keeps_representatives n sets bytes Hn Hm Hs E) as (kept & dropped & out & E1 & E2 & P & D & _).
  exists kept, dropped, out. split; auto. intros res. rewrite C66_prune, E1. reflexivity.
Qed.
Print Assumptions C66_prune_representatives.

(* prove_all with the parallel map: exactly the outcome of the sequential one of ProofGenModel.v *)
Theorem C66_prove_all : forall g res, prove_all_par g res <-> res = prove_all g.
Proof. exact prove_all_iff. Qed.
Print Assumptions C66_prove_all.

(* gen_proof with the parallel map and any order of the entries of its HashMap: the same certificate, byte by byte, or
   a panic in every case *)
Theorem C66_gen_proof : forall fuel fs res, gen_proof_par fuel fs res <-> res = gen_proof fuel fs.
Proof. exact gen_proof_iff. Qed.
Print Assumptions C66_gen_proof.

(* The whole way with parallel commands: the log of a finished search, prune-all stopped any number of times, then run
   to the end, then gen-proof.  Whatever the schedules and the order of the HashMap, no command panics, there is only one
   certificate, and both checkers accept it with the optimum. *)
Theorem C66_pipeline : forall chash mhash threads n c k fs0 fs',
  3 <= n -> n <= 11 -> search_run chash mhash threads (all_values n) None c -> search_result c k ->
  (Z.of_nat (List.length (flat_map drain_packed (into_shards (g_map c)))) < 2 ^ 32)%Z ->
  (forall g, fs0 (with_extension (group_name g) (str "pbin")) = None) ->
  crashes_par (dump_states (g_map c) fs0) fs' ->
  exists fs1 file fuel0, (forall r, prune_all_par fs' r <-> r = Some fs1) /\
    (forall fuel r, fuel0 <= fuel -> (gen_proof_par fuel fs1 r <-> r = Some file)) /\
    snocheck_v file = Some (Z.of_nat n, Z.of_nat k) /\ snocheck_r file = Some (n, k) /\ minimal_size n k.
Proof.
  intros chash mhash threads n c k fs0 fs' H1 H2 R S L P C. apply crashes_iff in C.
  destruct (C33_pipeline chash mhash threads n c k fs0 fs' H1 H2 R S L P C) as (fs1 & file & fuel0 & E & G & V & W & M).
  exists fs1, file, fuel0. split. { intros r. now rewrite prune_all_iff, E. }
  split; auto. intros fuel r F. now rewrite gen_proof_iff, (G fuel F).
Qed.
Print Assumptions C66_pipeline.

(* the even numbers of [1; 2; 3; 4] are filtered out, in two jobs, the second one first *)
Example C66_case_schedule : exists k, job_steps (fun x => Some (if Nat.odd x then [x] else [])) k (Todo [1; 2; 3; 4] [], 0) (Todo [] [1; 3], 4).
Proof.
  exists 6. eapply steps_one. { apply (step_split _ [1] [2; 3; 4]); discriminate. }
  eapply steps_one. { apply step_right, step_item. reflexivity. }
  eapply steps_one. { apply step_right, step_item. reflexivity. }
  eapply steps_one. { apply step_left, step_item. reflexivity. }
  eapply steps_one. { apply step_right, step_item. reflexivity. }
  eapply steps_one. { apply step_join. }
  constructor.
Qed.

(* the first item panics, after the second job has begun; that job is done to the end, then the call panics *)
Example C66_case_panic : par_call (fun x => if x =? 0 then None else Some [x]) [0; 1; 2] None.
Proof.
  exists 5, Dead, 3. split; auto. eapply steps_one. { apply (step_split _ [0] [1; 2]); discriminate. }
  eapply steps_one. { apply step_right, step_item. reflexivity. }
  eapply steps_one. { apply step_left, step_panic. reflexivity. }
  eapply steps_one. { apply step_right, step_item. reflexivity. }
  eapply steps_one. { apply step_dead_left. reflexivity. }
  constructor.
Qed.

(* the five sets of C25_case in parallel: three are written *)
Example C66_case_prune : (forall s, In s PropLog.ex_sets -> wf s /\ channels s = 4) /\
  exists bytes, map_opt packed PropLog.ex_sets = Some bytes /\
  prune_data_par 4 (concat bytes) (Some [nth 4 bytes []; nth 1 bytes []; nth 3 bytes []]) /\
  ~ prune_data_par 4 (concat bytes) None.
Proof.
  destruct C25_case as (W & _ & bytes & E & P). split; auto. exists bytes. rewrite !C66_prune, P. split; auto. split; auto. discriminate.
Qed.

(* two sets with steps; with the wrong bound 4 for three channels there is no step and the call panics *)
Example C66_case_prove :
  prove_all_par (mkGen [] [(all_values 2, 1); (all_values 3, 3)] [] [] [])
    (Some (mkGen [] [(all_values 2, 1); (all_values 3, 3)]
       [(all_values 2, PNotSorted); (all_values 3, PHuffman false [None; None; None])] [] [])) /\
  prove_all_par (mkGen [] [(all_values 2, 1); (all_values 3, 4)] [] [] []) None.
Proof. split; apply C66_prove_all; vm_compute; reflexivity. Qed.

(* the entries in the other order: the same file *)
Example C66_case_gen : exists ixs g, load_indexes ex_fs = Some ixs /\ gen_new ixs = Some g /\ length (output_sets g) = 2 /\
  rev (output_sets g) <> output_sets g /\ gen_proof_par 2 ex_fs (Some ex_file) /\ ~ gen_proof_par 2 ex_fs None.
Proof.
  eexists _, _. split. vm_compute; reflexivity. split. vm_compute; reflexivity. split. vm_compute; reflexivity.
  split. vm_compute; discriminate. rewrite !C66_gen_proof. split. vm_compute; reflexivity. vm_compute. discriminate.
Qed.

(* a search for 4 channels, prune-all stopped after 4 operations *)
Example C66_case_pipeline : exists fs1 file fuel0,
  (forall r, prune_all_par (stopped 4 (dump_states (g_map (example_run 4 None 100)) (fun _ => None))) r <-> r = Some fs1) /\
  (forall fuel r, fuel0 <= fuel -> (gen_proof_par fuel fs1 r <-> r = Some file)) /\
  snocheck_v file = Some (4%Z, 5%Z) /\ snocheck_r file = Some (4, 5).
Proof.
  destruct (C66_pipeline h0 h0 2 4 (example_run 4 None 100) 5 (fun _ => None) (stopped 4 (dump_states (g_map (example_run 4 None 100)) (fun _ => None))))
    as (fs1 & file & F & A & B & C & D & _).
  - lia.
  - lia.
  - apply example_is_run. lia.
  - apply C19_case4.
  - assert (E : List.length (flat_map drain_packed (into_shards (g_map (example_run 4 None 100)))) = 2) by (vm_compute; reflexivity). rewrite E. cbn. lia.
  - auto.
  - apply crashes_iff, stopped_crashes.
  - exists fs1, file, F. auto.
Qed.
