(* The walk of dump_dot over a tree. *)
From Coq Require Import String List Arith Bool Lia Permutation.
Import ListNotations.
From Verif Require Import Util TreeModel TreeProofs TreeTraverse IndexModel FileModel DotModel.

(* b is a child of the node a *)
Definition child (t : Tree) (a b : nat) : Prop :=
  exists nd c0 c1, nth_error (t_nodes t) a = Some nd /\ n_links nd = Inner c0 c1 /\ (b = c0 \/ b = c1).
(* the nodes that can be reached from the root *)
Inductive below (t : Tree) : nat -> Prop :=
| below_root : t_nodes t <> [] -> below t 0
| below_child a b : below t a -> child t a b -> below t b.

Fixpoint fedges (t : ft) : list (nat * nat) :=
  match t with FL _ _ _ _ _ => [] | FN i _ _ l r => (i, fid l) :: (i, fid r) :: fedges l ++ fedges r end.
Definition pe1 (f : frame) : list (nat * nat) := if fr_isr f then [] else fedges (fr_sib f).
Definition pe (C : list frame) : list (nat * nat) := flat_map pe1 C.
(* nodes still to visit *)
Definition pn (C : list frame) : nat := fold_right (fun f k => (if fr_isr f then 0 else length (ids (fr_sib f))) + k) 0 C.

Lemma fskip_edges : forall C t, match fskip true C t with
  | None => pe C = []
  | Some (C', t') => pe C = fedges t' ++ pe C' /\ pn C = length (ids t') + pn C'
  end.
Proof.
  induction C as [|f C IH]; intros t; cbn [fskip]; auto. unfold pe, pn. cbn [flat_map fold_right]. fold (pe C). fold (pn C). unfold pe1.
  destruct (fr_isr f) eqn:E; cbn [eqb].
  - specialize (IH (plug1 f t)). destruct (fskip true C (plug1 f t)) as [(C', t')|]; auto.
  - cbn [flat_map fold_right fflip fr_isr]. unfold fflip. rewrite E. cbn. auto.
Qed.

Lemma tree_dump_ok tree st : forall fuel C t, ZR st C t -> length (ids t) + pn C <= fuel ->
  tree_dump_f fuel st tree (TNode (fid t)) = Some (flat_map (fun e => dot_line tree (fst e) (snd e)) (fedges t ++ pe C)).
Proof.
  induction fuel as [|fuel IH]; intros C t Z Hf. { pose proof (ids_nonempty t). lia. }
  cbn [tree_dump_f]. destruct (rp_node _ _ _ _ (proj1 Z)) as (l & (En & _) & ->). rewrite En. cbv beta iota. cbn [n_links].
  destruct t as [i g rg a es|i g rg l r]; cbn [fid] in *.
  - destruct (skip_ok true st C _ Z) as (E & Zn). cbn [fid] in E. rewrite E. cbv beta iota. pose proof (fskip_edges C (FL i g rg a es)) as F.
    destruct (fskip true C (FL i g rg a es)) as [(C', t')|] eqn:Ek.
    + destruct F as (F1 & F2). cbn [fedges app]. rewrite F1. apply IH. now apply Zn. cbn in Hf. lia.
    + cbn [fedges app]. rewrite F. destruct fuel; reflexivity.
  - unfold traversal_enter. rewrite En. cbv beta iota. cbn [n_links].
    rewrite (IH (mkFr i g rg false r :: C) l).
    + cbv beta iota. cbn [fedges app flat_map fst snd]. f_equal. f_equal. f_equal. f_equal. unfold pe. cbn [flat_map]. fold (pe C). unfold pe1. cbn [fr_isr fr_sib]. now rewrite app_assoc.
    + apply ZR_up. exact Z.
    + cbn [ids length] in Hf. rewrite app_length in Hf. unfold pn. cbn [fold_right fr_isr fr_sib]. fold (pn C). lia.
Qed.

Lemma edges_ids t : Permutation (fid t :: map snd (fedges t)) (ids t).
Proof.
  induction t as [i g rg a es|i g rg l IHl r IHr]; cbn [fedges ids map fid snd]; auto. constructor. rewrite map_app. rewrite <- IHl, <- IHr. cbn [app].
  constructor. apply Permutation_middle.
Qed.

Lemma edges_child st t : forall par isr, rp st par isr t -> forall a b, In (a, b) (fedges t) <-> In a (ids t) /\ child st a b.
Proof.
  induction t as [i g rg p es|i g rg l IHl r IHr]; intros par isr H a b; cbn [rp fedges ids In] in *.
  - destruct H as ((N & _) & _). split; [intros []|]. intros ([<-|[]] & nd & c0 & c1 & E & L & _). rewrite N in E. injection E as <-. discriminate.
  - destruct H as ((N & _) & Hl & Hr). rewrite !in_app_iff, (IHl _ _ Hl), (IHr _ _ Hr). split.
    + intros [E|[E|[(I & K)|(I & K)]]]; [| |auto|auto]; injection E as <- <-; (split; [auto|]); eexists _, _, _; (split; [exact N|split; [reflexivity|auto]]).
    + intros ([<-|[I|I]] & K); auto. destruct K as (nd & c0 & c1 & E & L & D). rewrite N in E. injection E as <-. cbn in L. injection L as <- <-. destruct D as [->| ->]; auto.
Qed.

Lemma tree_drawn st t tree : ZR st [] t -> exists E,
  tree_dump_dot st tree = Some (flat_map (fun e => dot_line tree (fst e) (snd e)) E) /\
  NoDup (map snd E) /\ ~ In 0 (map snd E) /\ (forall a b, In (a, b) E <-> below st a /\ child st a b).
Proof.
  intros Z. pose proof (ZR_fid0 _ _ Z) as F0. pose proof Z as (Rp & _ & Nd & _). cbn in Nd. rewrite app_nil_r in Nd. pose proof (edges_ids t) as P.
  assert (Ne : t_nodes st <> []). { intros E. destruct (rp_node _ _ _ _ Rp) as (l & (A & _) & _). rewrite E in A. destruct (fid t); discriminate. }
  assert (Ib : forall a, In a (ids t) <-> below st a).
  { intros a. split.
    - assert (G : forall u par isr, rp st par isr u -> below st (fid u) -> forall a, In a (ids u) -> below st a).
      { clear. induction u as [i g rg p es|i g rg l IHl r IHr]; intros par isr R B a I; cbn [rp ids fid] in *. { destruct I as [<-|[]]. exact B. }
        destruct R as ((N & _) & Rl & Rr). destruct I as [<-|I]; auto. apply in_app_iff in I. destruct I as [I|I].
        - apply (IHl _ _ Rl); auto. apply (below_child st i); auto. eexists _, _, _. split; [exact N|split; [reflexivity|auto]].
        - apply (IHr _ _ Rr); auto. apply (below_child st i); auto. eexists _, _, _. split; [exact N|split; [reflexivity|auto]]. }
      intros I. apply (G t _ _ Rp); auto. rewrite F0. now constructor.
    - intros B. induction B as [_|a b B IB K]. { rewrite <- F0. apply fid_in. }
      apply (Permutation_in _ P). right. apply in_map_iff. exists (a, b). split; auto. apply (edges_child st t _ _ Rp). auto. }
  exists (fedges t). split; [|split; [|split]].
  - unfold tree_dump_dot, traversal_root. destruct (t_nodes st) eqn:En; [congruence|]. rewrite <- En. rewrite <- F0 at 1.
    rewrite (tree_dump_ok tree st _ [] t Z). { unfold pe. cbn [flat_map]. now rewrite app_nil_r. }
    unfold pn. cbn [fold_right]. rewrite Nat.add_0_r. rewrite <- (seq_length (length (t_nodes st)) 0). apply NoDup_incl_length; auto. intros a I. apply in_seq. apply (rp_bound _ _ _ _ Rp) in I. lia.
  - apply (Permutation_NoDup (Permutation_sym P)) in Nd. now inversion Nd.
  - apply (Permutation_NoDup (Permutation_sym P)) in Nd. rewrite F0 in Nd. now inversion Nd.
  - intros a b. rewrite (edges_child st t _ _ Rp), Ib. reflexivity.
Qed.
