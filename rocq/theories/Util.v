(* Generic list utilities used by the model files: sorting, chunks, folds with early exit. *)
From Coq Require Import List Arith Bool Lia Permutation.
Import ListNotations.

Section Sorting.
Context {A : Type}.
Variable leb : A -> A -> bool.

(* Stands for Rust's sort_unstable/sort_unstable_by[_key]; elements that compare equal are either
   identical or their order is irrelevant where it is used (stated at each use). *)
Fixpoint insert_sorted (a : A) (l : list A) : list A :=
  match l with
  | [] => [a]
  | b :: r => if leb a b then a :: l else b :: insert_sorted a r
  end.

Fixpoint isort (l : list A) : list A :=
  match l with
  | [] => []
  | a :: r => insert_sorted a (isort r)
  end.
End Sorting.

(* slice.chunks(k) *)
Fixpoint chunks_f {A} (fuel k : nat) (l : list A) : list (list A) :=
  match fuel with
  | 0 => []
  | S f => match l with
           | [] => []
           | _ => firstn k l :: chunks_f f k (skipn k l)
           end
  end.
Definition chunks {A} (k : nat) (l : list A) : list (list A) := chunks_f (length l) k l.

(* a loop whose body may panic (None) *)
Fixpoint fold_opt {A B} (f : A -> B -> option A) (l : list B) (a : A) : option A :=
  match l with
  | [] => Some a
  | b :: r => match f a b with
              | Some a' => fold_opt f r a'
              | None => None
              end
  end.

Fixpoint map_opt {A B} (f : A -> option B) (l : list A) : option (list B) :=
  match l with
  | [] => Some []
  | a :: r => match f a, map_opt f r with
              | Some b, Some bs => Some (b :: bs)
              | _, _ => None
              end
  end.

Fixpoint list_eqb {A} (eqb : A -> A -> bool) (l l' : list A) : bool :=
  match l, l' with
  | [], [] => true
  | a :: r, a' :: r' => eqb a a' && list_eqb eqb r r'
  | _, _ => false
  end.

(* lexicographic order on lists (slice Ord), given a three-way comparison *)
Fixpoint list_cmp {A} (cmp : A -> A -> comparison) (l l' : list A) : comparison :=
  match l, l' with
  | [], [] => Eq
  | [], _ => Lt
  | _, [] => Gt
  | a :: r, a' :: r' => match cmp a a' with Eq => list_cmp cmp r r' | c => c end
  end.

Definition bool_cmp (a b : bool) : comparison :=
  match a, b with
  | false, true => Lt
  | true, false => Gt
  | _, _ => Eq
  end.

(* ---------- lemmas ---------- *)

Section SortingLemmas.
Context {A : Type}.
Variable leb : A -> A -> bool.

Lemma insert_sorted_perm a l : Permutation (insert_sorted leb a l) (a :: l).
Proof.
  induction l as [|b l IH]; simpl; auto. destruct (leb a b); auto.
  rewrite IH. apply perm_swap.
Qed.

Lemma isort_perm l : Permutation (isort leb l) l.
Proof. induction l as [|a l IH]; simpl; auto. rewrite insert_sorted_perm. auto. Qed.

Lemma isort_length l : length (isort leb l) = length l.
Proof. apply Permutation_length, isort_perm. Qed.

Lemma isort_In x l : In x (isort leb l) <-> In x l.
Proof.
  split; apply Permutation_in; [|symmetry]; apply isort_perm.
Qed.

Inductive Srt : list A -> Prop :=
| Srt_nil : Srt []
| Srt_cons a l : (forall b, In b l -> leb a b = true) -> Srt l -> Srt (a :: l).

Hypothesis leb_total : forall a b, leb a b = true \/ leb b a = true.
Hypothesis leb_trans : forall a b c, leb a b = true -> leb b c = true -> leb a c = true.

Lemma insert_sorted_Srt a l : Srt l -> Srt (insert_sorted leb a l).
Proof.
  induction 1 as [|b l Hb Hl IH]; simpl.
  - constructor. intros ? []. constructor.
  - destruct (leb a b) eqn:E.
    + constructor. intros c [<-|Hc]; auto. apply leb_trans with b; auto. now constructor.
    + constructor; auto. intros c Hc. apply (Permutation_in _ (insert_sorted_perm a l)) in Hc.
      destruct Hc as [<-|Hc]; auto. destruct (leb_total a b); congruence.
Qed.

Lemma isort_Srt l : Srt (isort leb l).
Proof. induction l; simpl. constructor. now apply insert_sorted_Srt. Qed.

Hypothesis leb_antisym : forall a b, leb a b = true -> leb b a = true -> a = b.

Lemma Srt_perm_eq l l' : Srt l -> Srt l' -> Permutation l l' -> l = l'.
Proof.
  intros H; revert l'; induction H as [|a l Ha Hl IH]; intros l' H' P.
  - apply Permutation_nil in P. now subst.
  - destruct H' as [|b l' Hb Hl']. symmetry in P. apply Permutation_nil in P. discriminate.
    assert (a = b).
    { assert (In b (a :: l)) by (eapply Permutation_in; [symmetry; exact P|now left]).
      assert (In a (b :: l')) by (eapply Permutation_in; [exact P|now left]).
      destruct H as [|H]; auto. destruct H0 as [|H0]; auto. }
    subst b. f_equal. apply IH; auto. now apply Permutation_cons_inv in P.
Qed.

Lemma isort_perm_eq l l' : Permutation l l' -> isort leb l = isort leb l'.
Proof.
  intros P. apply Srt_perm_eq; try apply isort_Srt. rewrite !isort_perm. auto.
Qed.
End SortingLemmas.

Lemma fold_opt_app {A B} (f : A -> B -> option A) l1 l2 a :
  fold_opt f (l1 ++ l2) a =
  match fold_opt f l1 a with Some a' => fold_opt f l2 a' | None => None end.
Proof. revert a; induction l1; intros; simpl; auto. destruct (f a0 a); auto. Qed.

Lemma map_opt_Some {A B} (f : A -> option B) l r :
  map_opt f l = Some r <-> Forall2 (fun a b => f a = Some b) l r.
Proof.
  revert r; induction l as [|a l IH]; intros r; simpl.
  - split. intros E; injection E as <-; constructor. intros H; inversion H; auto.
  - destruct (f a) eqn:E.
    + destruct (map_opt f l) eqn:E2.
      * split. intros X; injection X as <-. constructor; auto. now apply IH.
        intros H; inversion H; subst. rewrite E in H2. injection H2 as ->.
        apply IH in H4. injection H4 as ->. auto.
      * split; [discriminate|]. intros H; inversion H; subst. apply IH in H4. discriminate.
    + split; [discriminate|]. intros H; inversion H; subst. congruence.
Qed.

Lemma list_eqb_spec {A} (eqb : A -> A -> bool) (H : forall a b, eqb a b = true <-> a = b) l l' :
  list_eqb eqb l l' = true <-> l = l'.
Proof.
  revert l'; induction l as [|a l IH]; intros [|b l']; simpl; split; intros E; auto; try discriminate.
  - apply andb_true_iff in E. destruct E as [E1 E2]. apply H in E1. apply IH in E2. congruence.
  - injection E as -> ->. apply andb_true_iff. split. now apply H. now apply IH.
Qed.

Lemma fold_opt_ext {A B} (f g : A -> B -> option A) l a :
  (forall a b, In b l -> f a b = g a b) -> fold_opt f l a = fold_opt g l a.
Proof.
  revert a. induction l as [|b l IH]; intros a H; simpl; auto.
  rewrite H by now left. destruct (g a b); auto. apply IH. intros; apply H; now right.
Qed.
