(* C34: the gnp command. *)
From Coq Require Import List Arith Bool Lia Permutation.
Import ListNotations.
From Verif Require Import Spec Vec Net Graded Util OutputSetModel OutputSetProofs CanonModel TreeModel IndexModel StatesBounds StatesModel SearchFacts PropCanon PropSearch GnpModel GnpProofs.

Lemma few_channels n : n <= 1 -> minimal_size n 0.
Proof.
  intros Hn. apply minimal_size_optimum, optimum_0. intros x y Hx Hy Hw. unfold all_inputs in *.
  destruct n as [|[|n]]; [| |lia]; destruct x as [|a [|b x]], y as [|c [|d y]]; try discriminate; auto.
  destruct a, c; auto; discriminate.
Qed.

Lemma size_exists n : n <= 11 -> exists k, minimal_size n k.
Proof.
  intros Hn. destruct (Nat.le_gt_cases n 1) as [L|L]. { exists 0. now apply few_channels. }
  destruct (known_network_ok n ltac:(lia) Hn) as (S & _). apply sorts01_finishes in S.
  destruct (optimum_exists n (all_inputs n) (length (known_network n))) as (k & O).
  - intros x Hx. exact Hx.
  - intros x. unfold all_inputs. destruct (Nat.eq_dec (length x) n); auto.
  - exists (known_network n). auto.
  - exists k. now apply minimal_size_optimum.
Qed.

Lemma gnp_few chash drain n fuel : drain 0 0 [] = [] -> n <= 1 -> cmd_gnp chash drain (S fuel) n = Some [(1, 0)].
Proof.
  intros D Hn.
  assert (H : exists ix, option_map fst (insert (index_new Lower n) (all_values n) (abstraction (all_values n)) 0) = Some ix /\ index_is_empty ix = false /\
    option_map (map (fun x => fst (fst x))) (for_each ix) = Some [all_values n]).
  { destruct n as [|[|n]]; [| |lia]; (eexists; split; [vm_compute; reflexivity|]); vm_compute; auto. }
  destruct H as (ix & E & Ne & Fe). unfold cmd_gnp. assert (Hm : (n <=? MAX_CHANNELS) = true) by (destruct n as [|[|n]]; [| |lia]; reflexivity). rewrite Hm.
  destruct (insert _ _ _ _) as [(ix', r)|]; [|discriminate]. cbn [option_map fst] in E. injection E as ->. cbn [fst]. cbn [gnp_loop]. rewrite Ne. unfold gnp_layer.
  destruct (for_each ix) as [l|]; [|discriminate]. cbn [option_map] in Fe. injection Fe as Fe. rewrite Fe. cbn [fold_opt]. unfold gnp_set.
  assert (Nx : gnp_nexts chash n (all_values n) = Some []) by (destruct n as [|[|n]]; [| |lia]; reflexivity). rewrite Nx. cbn [fst snd]. rewrite D. cbn [fold_opt]. cbn [fst snd]. destruct fuel; reflexivity.
Qed.

(* For every order in which the HashSets are drained, the command ends without a panic.  It logs the layers
   1, 2, ..., k + 1 where k is the least size of a sorting network: the layers before k are not empty, the
   layer k has one set, and only the layer k + 1 is empty. *)
Theorem C34_gnp_stops_after_optimum : forall chash drain n, (forall a b l, NoDup l -> Permutation (drain a b l) l) -> n <= MAX_CHANNELS ->
  exists k out, minimal_size n k /\ (forall fuel, k < fuel -> cmd_gnp chash drain fuel n = Some out) /\
    map fst out = seq 1 (k + 1) /\
    forall l size, In (l, size) out -> (l < k -> 0 < size) /\ (l = k -> size = 1) /\ (k < l -> size = 0).
Proof.
  intros chash drain n Hd Hn. destruct (Nat.le_gt_cases n 1) as [L|L].
  - exists 0, [(1, 0)]. split. now apply few_channels. split.
    + intros fuel Hf. destruct fuel as [|fuel]; [lia|]. assert (D : drain 0 0 [] = []) by (apply Permutation_nil, Permutation_sym, Hd; constructor).
      now apply gnp_few.
    + split; auto. intros l size [E|[]]. injection E as <- <-. lia.
  - destruct (size_exists n Hn) as (k & M). destruct (cmd_gnp_ok chash drain Hd n L Hn k) as (out & H). now apply minimal_size_optimum.
    exists k, out. split; auto. rewrite Nat.add_1_r. split. intros fuel Hf. now apply H. apply (H (S k)). lia.
Qed.
Print Assumptions C34_gnp_stops_after_optimum.

(* 139: the assertion *)
Theorem C34_too_many_channels : forall chash drain fuel n, MAX_CHANNELS < n -> cmd_gnp chash drain fuel n = None.
Proof. intros. unfold cmd_gnp. destruct (Nat.leb_spec n MAX_CHANNELS); auto. lia. Qed.
Print Assumptions C34_too_many_channels.

Example C34_case : (forall (a b : nat) (l : list OutputSet), NoDup l -> Permutation (rev l) l) /\
  cmd_gnp hash_mix (fun _ _ l => rev l) 7 4 = Some [(1, 1); (2, 3); (3, 4); (4, 2); (5, 1); (6, 0)].
Proof. split. intros. apply Permutation_sym, Permutation_rev. vm_compute. reflexivity. Qed.
