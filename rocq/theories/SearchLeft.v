(* What is stored at any time of a search, whatever set it started with. *)
From Coq Require Import List Arith Bool Lia Permutation.
Import ListNotations.
From Verif Require Import Spec Vec Net Graded Bits Util OutputSetModel OutputSetProofs PruneProofs PackProofs CountProofs HuffmanModel HuffmanProofs CanonModel TreeModel StatesModel StatesProofs StatesBounds SearchModel SearchFacts SearchInv SearchEdges SearchStep SearchFrames SearchGlobal SearchRun SearchSafe SearchOrder SearchWaits SearchMain SearchClosed SearchTop.

Section Left.
Variables chash mhash : list nat -> nat.
Notation cur := (cur mhash).

(* what the map holds at any time, whatever set the search started with *)
Record search_left (n : nat) (m : StateMap) : Prop := {
  sl_inv : map_inv chash mhash m;
  sl_stored : forall s st, wf s -> stored mhash m s = Some st -> okset s /\ work s /\ 1 <= lo st /\ lo st <= 35 /\ channels s <= n }.

Lemma search_end_left n k m : search_end chash mhash n k m -> search_left n m.
Proof. intros [I _ _ _ S]. split; auto. intros s st W H. destruct (S s st W H) as (A & B & C & D & E & _). auto 6. Qed.

Theorem run_search_left threads initial limit c : okset initial -> search_run chash mhash threads initial limit c ->
  search_left (channels initial) (g_map c).
Proof.
  intros K R. pose proof (inv_map _ _ c (run_inv chash mhash _ _ _ _ K R)) as IM.
  assert (Le : forall s st, wf s -> stored mhash (g_map c) s = Some st -> channels s <= channels initial).
  { apply (run_stored chash mhash (fun s => channels s <= channels initial)) with (threads := threads) (initial := initial) (limit := limit); auto.
    - intros s t Ks L H. destruct (succs_spec chash s t Ks H) as (_ & C & _). lia.
    - intros s pol t Ks L H. destruct (prunes_okset chash s pol t Ks H) as (_ & C). lia.
    - destruct (canon_spec chash initial K) as (t & inv & p & E & _ & C & _). unfold canon_of. rewrite E. lia. }
  split; auto. intros s st W Hs. destruct (mi_stored _ _ _ IM s st W Hs) as (Ks & Wk).
  assert (Ec : cur (g_map c) s = st) by (unfold StatesBounds.cur; now rewrite Hs). split; auto. split; auto. split; [|split; [|eauto]].
  - destruct (run_tight chash mhash threads _ _ c K R s Ks) as (T & _). unfold StatesBounds.cur at 1 in T. rewrite sm_default_stored in T. rewrite Ec in T.
    unfold default_state in T. destruct Wk as (Sn & C3). rewrite Sn in T. destruct (channels s <=? 2); cbn [lo] in T; lia.
  - rewrite <- Ec. apply (sound_lo mhash (g_map c)); auto. apply (map_inv_sound chash). exact IM.
Qed.

(* a search that starts with two ordered channels stores no set of all values on that number of channels *)
Lemma all_not_ordered n : ~ ordered n (vs (all_values n)).
Proof.
  intros (i & j & Hi & Hj & Ij & O). assert (U : vs (all_values n) (unit_vec n i)) by (apply all_values_vs; apply unit_vec_length).
  specialize (O _ U). rewrite !bit_unit_vec in O by auto. rewrite Nat.eqb_refl in O. specialize (O eq_refl). apply Nat.eqb_eq in O. congruence.
Qed.
Theorem run_ordered threads initial limit c : okset initial -> ordered (channels initial) (vs initial) ->
  search_run chash mhash threads initial limit c -> stored mhash (g_map c) (all_values (channels initial)) = None.
Proof.
  intros K O R. set (n := channels initial) in *.
  assert (P : forall s st, wf s -> stored mhash (g_map c) s = Some st -> channels s <= n /\ (channels s = n -> ordered n (vs s))).
  { apply (run_stored chash mhash (fun s => channels s <= n /\ (channels s = n -> ordered n (vs s)))) with (threads := threads) (initial := initial) (limit := limit); auto.
    - intros s t Ks (L & _) H. destruct (succs_spec chash s t Ks H) as (Kt & C & d & Cc & _ & inv & p & P & Iso). split. lia. intros E. rewrite <- E, C.
      apply (ordered_iso _ inv p (image (exch d) (vs s))); auto. apply width_exch. now apply okset_width. apply ordered_exch; auto. now apply okset_width.
    - intros s pol t Ks (L & _) H. destruct (prunes_okset chash s pol t Ks H) as (_ & C). split; lia.
    - destruct (canon_spec chash initial K) as (t & inv & p & E & _ & C & P & Iso). unfold canon_of. rewrite E. fold n in C, P. split. lia. intros _.
      apply (ordered_iso n inv p (vs initial)); auto. now apply okset_width. }
  destruct (stored mhash (g_map c) (all_values n)) as [st|] eqn:E; auto. destruct (P _ st (all_values_wf n) E) as (_ & H). now elim (all_not_ordered n (H eq_refl)).
Qed.
End Left.
