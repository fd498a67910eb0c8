(* Property C61: the gnp command on the checked parts. *)
From Coq Require Import List Arith Bool Lia Permutation.
Import ListNotations.
From Verif Require Import Spec Vec Util OutputSetModel CanonModel TreeModel IndexModel FlatModel FlatProofs SearchModel StatesBounds PropSearch PropCanon.
From Verif Require Import MachineModel CanonMachModel IndexMachModel BackMachProofs GnpModel PropGnp GnpMachModel GnpMachProofs.

Lemma gnp_one_m chash drain fuel : drain 0 0 [] = [] -> cmd_gnp_m chash drain (S fuel) 1 = Some [(1, 0)].
Proof.
  intros D. unfold cmd_gnp_m. change (1 <=? MAX_CHANNELS) with true. cbv iota.
  assert (H : exists x, (initial <- all_values_c 1 ;; ab <- abstraction_c initial ;; r <- mx_insert (fx_new Lower 1) initial ab 0 ;; Some (fst r)) = Some x /\ fx_is_empty x = false /\
    option_map (map (fun x => fst (fst x))) (mx_for_each x) = Some [all_values 1]).
  { eexists. split; [vm_compute; reflexivity|]. vm_compute. auto. }
  destruct H as (x & E & Ne & Fe). destruct (all_values_c 1); [|discriminate]. destruct (abstraction_c o); [|discriminate]. destruct (mx_insert _ _ _ _) as [(x', r)|]; [|discriminate].
  cbn [fst] in *. injection E as ->. cbn [gnp_loop_m]. rewrite Ne. unfold gnp_layer_m. destruct (mx_for_each x) as [l'|]; [|discriminate]. cbn [option_map] in Fe. injection Fe as Fe. rewrite Fe.
  cbn [fold_opt]. unfold gnp_set_m. assert (Nx : gnp_nexts_m chash 1 (all_values 1) = Some []) by reflexivity. rewrite Nx. cbn [fst snd]. rewrite D. cbn [fold_opt]. cbn [fst snd]. destruct fuel; reflexivity.
Qed.

(* With at least one channel no check fails, whatever the order of the drains and the hash function, and what is logged is as for C34:
   layers 1, 2, ..., k + 1 where k is the least size of a sorting network; layers before k are not empty, layer k has one
   set and only layer k + 1 is empty. *)
Theorem C61_gnp_passes_every_check : forall chash drain n, (forall a b l, NoDup l -> Permutation (drain a b l) l) -> 0 < n -> n <= MAX_CHANNELS ->
  exists k out, minimal_size n k /\ (forall fuel, k < fuel -> cmd_gnp_m chash drain fuel n = Some out) /\
    map fst out = seq 1 (k + 1) /\
    forall l size, In (l, size) out -> (l < k -> 0 < size) /\ (l = k -> size = 1) /\ (k < l -> size = 0).
Proof.
  intros chash drain n Hd H0 Hn. destruct (C34_gnp_stops_after_optimum chash drain n Hd Hn) as (k & out & M & R & F). exists k, out. split; auto. split; auto.
  intros fuel Hf. destruct (Nat.eq_dec n 1) as [->|N].
  - assert (D : drain 0 0 [] = []) by (apply Permutation_nil, Permutation_sym, Hd; constructor).
    specialize (R fuel Hf). destruct fuel as [|fuel]; [lia|]. rewrite gnp_few in R by (auto; lia). rewrite gnp_one_m; auto.
  - eapply orel_eq_some; [apply gnp_same; auto; lia|]. now apply R.
Qed.
Print Assumptions C61_gnp_passes_every_check.

(* Without channels, and with too many, the command panics: for 0 channels the length of the abstraction cannot be computed
   (src/output_set.rs:88), which C34 does not see. *)
Theorem C61_gnp_panics : forall chash drain fuel n, n = 0 \/ MAX_CHANNELS < n -> cmd_gnp_m chash drain fuel n = None.
Proof.
  intros chash drain fuel n [->|H]. reflexivity. unfold cmd_gnp_m. destruct (Nat.leb_spec n MAX_CHANNELS); auto. lia.
Qed.
Print Assumptions C61_gnp_panics.

Example C61_case : (forall (a b : nat) (l : list OutputSet), NoDup l -> Permutation (rev l) l) /\
  cmd_gnp_m hash_mix (fun _ _ l => rev l) 5 3 = Some [(1, 1); (2, 2); (3, 1); (4, 0)].
Proof. split. intros. apply Permutation_sym, Permutation_rev. vm_compute. reflexivity. Qed.
