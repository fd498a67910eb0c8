(* C15: the Huffman combination of bounds. *)
From Coq Require Import List Arith Bool Lia Permutation.
Import ListNotations.
From Verif Require Import Spec Net Util HuffmanModel HuffmanProofs.

Fixpoint sum_pow (l : list nat) : nat :=
  match l with
  | [] => 0
  | v :: r => 2 ^ v + sum_pow r
  end.

Lemma sum_pow_kraft l : sum_pow l = kraft l.
Proof. induction l; simpl; auto. Qed.

(* The result is attained by a tree with these leaves and no such tree is cheaper. *)
Theorem C15_huffman_optimal : forall values r, values <> [] -> max_plus_1_huffman values = Some r ->
  (exists t, Permutation (leaves t) values /\ cost t = r) /\
  (forall t, Permutation (leaves t) values -> r <= cost t).
Proof.
  intros values r Hne E. assert (L : forall t, Permutation (leaves t) values -> r <= cost t).
  { intros t P. apply (huffman_kraft values r Hne E). apply kraft_tree; auto. exists t. auto. }
  split; auto. assert (H : kraft values <= 2 ^ r) by (apply (huffman_kraft values r Hne E); auto).
  apply kraft_tree in H; auto. destruct H as (t & P & C). exists t. split; auto. apply Nat.le_antisymm; auto.
Qed.
Print Assumptions C15_huffman_optimal.

(* The result is the least B with sum 2^v <= 2^B. *)
Theorem C15_huffman_kraft : forall values r, values <> [] -> max_plus_1_huffman values = Some r ->
  forall B, sum_pow values <= 2 ^ B <-> r <= B.
Proof. intros values r Hne E B. rewrite sum_pow_kraft. now apply huffman_kraft. Qed.
Print Assumptions C15_huffman_kraft.

Theorem C15_huffman_order : forall a b, Permutation a b -> max_plus_1_huffman a = max_plus_1_huffman b.
Proof. exact huffman_perm. Qed.
Print Assumptions C15_huffman_order.

(* no u8 overflow, and the loop ends *)
Theorem C15_huffman_total : forall values, (forall v, In v values -> v + length values <= 256) ->
  exists r, max_plus_1_huffman values = Some r.
Proof.
  intros values H. apply huffman_no_overflow. intros v Hv. specialize (H v Hv).
  assert (0 < length values) by (destruct values; [easy|simpl; lia]).
  assert (Nat.log2_up (length values) <= length values - 1).
  { destruct (Nat.eq_dec (length values) 1) as [->|]. reflexivity.
    pose proof (Nat.log2_up_lt_lin (length values) ltac:(auto)). lia. }
  assert (U8_MAX = 255) by reflexivity. lia.
Qed.
Print Assumptions C15_huffman_total.

(* For bytes, overflow happens only if the true value does not fit a byte. *)
Theorem C15_huffman_overflow : forall values, values <> [] -> (forall v, In v values -> v <= U8_MAX) ->
  (max_plus_1_huffman values = None <-> ~ exists t, Permutation (leaves t) values /\ cost t <= U8_MAX).
Proof.
  intros values Hne HB. rewrite <- (kraft_tree values U8_MAX) by auto. split.
  - intros E H. destruct (huffman_defined values H). congruence.
  - intros H. destruct (max_plus_1_huffman values) as [r|] eqn:E; auto. exfalso. apply H.
    apply (huffman_kraft values r Hne E). now apply (huffman_byte values r).
Qed.
Print Assumptions C15_huffman_overflow.

Theorem C15_huffman_empty : max_plus_1_huffman [] = Some 0.
Proof. reflexivity. Qed.
Print Assumptions C15_huffman_empty.

Example C15_case : max_plus_1_huffman [3; 1; 4; 1; 5; 2] = Some 6.
Proof. vm_compute. reflexivity. Qed.
Example C15_case_tree : exists t, Permutation (leaves t) [3; 1; 4; 1; 5; 2] /\ cost t = 6.
Proof. exact (proj1 (C15_huffman_optimal [3; 1; 4; 1; 5; 2] 6 ltac:(discriminate) C15_case)). Qed.
Example C15_case_overflow : max_plus_1_huffman [255; 3] = None.
Proof. vm_compute. reflexivity. Qed.
