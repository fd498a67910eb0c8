(* The invariant of the whole search, and its preservation by every step. *)
From Coq Require Import List Arith Bool Lia Permutation.
Import ListNotations.
From Verif Require Import Spec Vec Net Graded Bits Util OutputSetModel OutputSetProofs PruneProofs PackProofs HuffmanModel HuffmanProofs CanonModel TreeModel StatesModel StatesProofs StatesBounds SearchModel SearchFacts SearchInv SearchEdges SearchStep SearchFrames.

Section Global.
Variables chash mhash : list nat -> nat.
Notation cur := (cur mhash).
Notation succs := (succs chash).
Notation succ1 := (succ1 chash).
Notation prunes := (prunes chash).
Notation prune_of := (prune_of chash).
Notation map_inv := (map_inv chash mhash).
Notation past := (past mhash).
Notation edges_ok := (edges_ok mhash).
Notation justL := (justL chash mhash).
Notation justU := (justU chash mhash).
Notation tight := (tight mhash).
Notation frame_ok := (frame_ok chash mhash).
Notation fits := (fits mhash).
Notation stack_ok := (stack_ok chash mhash).
Notation result_ok := (result_ok mhash).
Notation imp_ok := (imp_ok chash mhash).
Notation huff_ok := (huff_ok chash mhash).
Notation huff_edges := (huff_edges chash mhash).
Notation succ_edges := (succ_edges chash mhash).
Notation base := (base mhash).
Notation frame_req := (frame_req chash).
Notation ctl_ok := (ctl_ok chash mhash).
Notation req_ok := (req_ok chash mhash).
Notation access := (access mhash).
Notation lock_of := (lock_of mhash).

(* the parts of a task that matter for the invariant *)
Record Core := mkCore { c_root : State * OutputSet; c_stack : list Frame; c_result : option State }.
Definition core (x : Task) : Core := mkCore (tk_prev x, tk_set x) (tk_stack x) (tk_result x).
Definition cores (c : Config) : list Core := map core (g_tasks c).
Definition goal_in (l : list Core) : Goal := fun u => option_map c_root (nth_error l u).
Definition frames (l : list Core) : list Frame := flat_map c_stack l.

Definition core_ok (m : StateMap) (goal : Goal) (x : Core) : Prop :=
  okset (snd (c_root x)) /\ stack_ok m goal (c_root x) (c_stack x) /\
  forall v, c_result x = Some v -> result_ok m (c_root x) v /\ c_stack x = [].

(* the set a frame waits for, and the oneshot channel *)
Definition waits (f : Frame) : list (OutputSet * nat) := match f with FImp _ s (IWait id) => [(s, id)] | _ => [] end.

Definition lock_inv (m : StateMap) (next : nat) (sent : list nat) (L : list (OutputSet * nat)) : Prop :=
  NoDup (map fst L) /\ NoDup (map snd L) /\
  (forall s id, wf s -> lock_of m s = Some id <-> In (s, id) L) /\
  (forall s id, In (s, id) L -> id < next /\ ~ In id sent) /\
  (forall id, In id sent -> id < next).
Definition sent_or_held (sent : list nat) (L : list (OutputSet * nat)) (w : OutputSet * nat) : Prop := In (snd w) sent \/ In w L.
Definition kid_inv (ts : list Task) (K : list nat) : Prop :=
  NoDup K /\ forall u, In u K -> 0 < u /\ exists y, nth_error ts u = Some y /\ tk_cancel y = false.

Record Inv (c : Config) : Prop := {
  inv_map : map_inv (g_map c);
  inv_core : forall x, In x (cores c) -> core_ok (g_map c) (goal_in (cores c)) x;
  inv_lock : lock_inv (g_map c) (g_next c) (g_sent c) (flat_map hl (frames (cores c)));
  inv_kid : kid_inv (g_tasks c) (flat_map kids (frames (cores c)));
  inv_wait : forall id, In id (flat_map waits (frames (cores c))) -> sent_or_held (g_sent c) (flat_map hl (frames (cores c))) id
}.

(* ---- permutations ---- *)
Lemma lock_inv_perm m next sent L L' : Permutation L L' -> lock_inv m next sent L -> lock_inv m next sent L'.
Proof.
  intros P (A & A' & B & C & D). split; [|split; [|split; [|split; auto]]].
  - apply (Permutation_NoDup (l := map fst L)); auto. now apply Permutation_map.
  - apply (Permutation_NoDup (l := map snd L)); auto. now apply Permutation_map.
  - intros s id W. rewrite (B s id W). split; apply Permutation_in; auto. now symmetry.
  - intros s id H. apply (C s id). apply (Permutation_in _ (Permutation_sym P) H).
Qed.
Lemma sent_or_held_perm sent L L' id : Permutation L L' -> sent_or_held sent L id -> sent_or_held sent L' id.
Proof. intros P [H|H]; [left; auto|right]. apply (Permutation_in _ P H). Qed.
Lemma kid_inv_perm ts K K' : Permutation K K' -> kid_inv ts K -> kid_inv ts K'.
Proof.
  intros P (A & B). split. apply (Permutation_NoDup P A). intros u Hu. apply B. apply (Permutation_in _ (Permutation_sym P) Hu).
Qed.

Lemma flat_map_perm {A B} (g : A -> list B) l l' : Permutation l l' -> Permutation (flat_map g l) (flat_map g l').
Proof. intros P. now apply Permutation_flat_map. Qed.

Lemma frames_split l t x f rest : nth_error l t = Some x -> c_stack x = f :: rest ->
  exists O, Permutation (frames l) (f :: rest ++ O) /\
    (forall x' ns, c_stack x' = ns -> Permutation (frames (upd l t x')) (ns ++ O)) /\
    forall u y, u <> t -> nth_error l u = Some y -> incl (c_stack y) O.
Proof.
  intros N E. destruct (upd_split l t x x N) as (l1 & l2 & El & Len & _).
  exists (frames l1 ++ frames l2). unfold frames in *. split; [|split].
  - rewrite El, flat_map_app. cbn [flat_map]. rewrite E. rewrite Permutation_app_comm. simpl. constructor. rewrite <- !app_assoc.
    apply Permutation_app_head. apply Permutation_app_comm.
  - intros x' ns En. destruct (upd_split l t x x' N) as (k1 & k2 & Ek & Lk & ->).
    assert (k1 = l1 /\ k2 = l2) as (-> & ->).
    { rewrite El in Ek. clear - Ek Lk Len. revert t k1 Lk Len Ek. induction l1 as [|a l1 IH]; intros t [|b k1] Lk Len Ek; simpl in *; subst; try discriminate.
      - now injection Ek. - injection Len as L. injection Ek as -> Ek. destruct (IH _ k1 eq_refl L Ek) as (-> & ->). auto. }
    rewrite flat_map_app. cbn [flat_map]. rewrite En. rewrite Permutation_app_comm. rewrite <- app_assoc. apply Permutation_app_head.
    apply Permutation_app_comm.
  - intros u y Hu Ny g Hg. apply in_app_iff. rewrite El in Ny. destruct (Nat.lt_ge_cases u t) as [Hl|Hl].
    + left. rewrite nth_error_app1 in Ny by lia. apply in_flat_map. exists y. split; auto. eapply nth_error_In; eauto.
    + right. rewrite nth_error_app2 in Ny by lia. replace (u - length l1) with (S (u - length l1 - 1)) in Ny by lia. simpl in Ny.
      apply in_flat_map. exists y. split; auto. eapply nth_error_In; eauto.
Qed.

(* ---- the sets that frames make statements about are different ---- *)
Definition owns (l : list Frame) : list OutputSet := flat_map (fun f => opt_list (own f)) l.

Lemma owns_stack m goal root l : stack_ok m goal root l ->
  (exists R, Permutation (map fst (flat_map hl l)) (owns l ++ R)) /\
  (forall prev s lk st0 r, l = FImp prev s (IHuff lk st0) :: r -> exists R, Permutation (map fst (flat_map hl l)) (s :: owns l ++ R)).
Proof.
  induction l as [|f l IH]; intros S.
  - split. exists []. simpl. auto. discriminate.
  - destruct S as (A & B & S). specialize (IH S). destruct IH as (IH1 & IH2). split.
    + destruct f as [s lim pc|prev s pc|s pc].
      * exact IH1.
      * destruct IH1 as (R & P). assert (X : (exists lk st0, pc = IHuff lk st0) \/ opt_list (own (FImp prev s pc)) = map fst (hl (FImp prev s pc))).
        { destruct pc; eauto. }
        destruct X as [(lk & st0 & ->)|X].
        -- exists (s :: R). cbn [flat_map owns own opt_list app hl held map fst]. unfold owns in *. cbn [flat_map own opt_list app].
           rewrite P. apply Permutation_middle.
        -- exists R. unfold owns in *. cbn [flat_map]. rewrite X, map_app, <- app_assoc. now apply Permutation_app_head.
      * apply (fits_huff chash) in B. destruct B as (prev & lk & st0 & E & _). destruct l as [|g r]; [discriminate|]. injection E as ->.
        destruct (IH2 prev s lk st0 r eq_refl) as (R & P). exists R. exact P.
    + intros prev s lk st0 r E. injection E as -> ->. destruct IH1 as (R & P). exists R.
      cbn [flat_map hl held opt_list app map fst]. unfold owns in *. cbn [flat_map own opt_list app]. constructor. exact P.
Qed.

Lemma owns_all m goal l : (forall x, In x l -> core_ok m goal x) ->
  exists R, Permutation (map fst (flat_map hl (frames l))) (owns (frames l) ++ R).
Proof.
  induction l as [|x l IH]; intros H. exists []; simpl; auto.
  destruct IH as (R & P). { intros y Hy. apply H. simpl. auto. }
  destruct (owns_stack m goal (c_root x) (c_stack x)) as ((R' & P') & _). { apply (H x). simpl. auto. }
  exists (R' ++ R). unfold frames, owns in *. cbn [flat_map]. rewrite !flat_map_app, map_app, P, P', <- !app_assoc.
  apply Permutation_app_head. rewrite !app_assoc. apply Permutation_app_tail. apply Permutation_app_comm.
Qed.

Lemma owns_NoDup c : Inv c -> NoDup (owns (frames (cores c))).
Proof.
  intros I. destruct (owns_all _ _ _ (inv_core c I)) as (R & P). destruct (inv_lock c I) as (N & _).
  apply (Permutation_NoDup P) in N. clear -N. induction (owns (frames (cores c))) as [|a l IH]; constructor.
  - inversion N; subst. intros H. apply H1. apply in_app_iff. auto.
  - apply IH. now inversion N.
Qed.

Lemma own_other c f O g s : Inv c -> Permutation (frames (cores c)) (f :: O) -> In g O -> own g = Some s -> own f <> Some s.
Proof.
  intros I P Hg Eg Ef. pose proof (owns_NoDup c I) as N.
  assert (P' : Permutation (owns (frames (cores c))) (owns (f :: O))) by (now apply flat_map_perm).
  apply (Permutation_NoDup P') in N. unfold owns in N. cbn [flat_map] in N. rewrite Ef in N. cbn in N. inversion N; subst.
  apply H1. apply in_flat_map. exists g. split; auto. rewrite Eg. simpl. auto.
Qed.

(* ---- waits ---- *)
Definition ctl_waits (k : Ctl) : list (OutputSet * nat) :=
  match k with CGo f => waits f | CCall f g => waits f ++ waits g | _ => [] end.
Definition req_waits (r : Req) : Prop :=
  match r with
  | RGet s k => forall st, ctl_waits (k st) = []
  | RSet s st k => ctl_waits k = []
  | RLock s got busy => (forall id, ctl_waits (got id) = []) /\ forall id, ctl_waits (busy id) = [(s, id)]
  | RUnlock s id k => ctl_waits k = []
  | RWait id k => ctl_waits k = []
  | RPoll u k => forall v b, ctl_waits (k v b) = []
  | RSpawn prev s pend k => forall u, ctl_waits (k u) = []
  | RSchedule u k => ctl_waits k = []
  | RCancel ts k => ctl_waits k = []
  | RTau k => ctl_waits k = []
  | RNone => True
  end.

Lemma next_req_waits order e np go done : (forall e' np', waits (go e' np') = []) -> (forall e', ctl_waits (done e') = []) ->
  req_waits (next_req order e np go done).
Proof.
  intros G D. destruct np as [ids finished nr block| |index ids block|ids block t]; cbn [next_req].
  - destruct ids as [|id ids].
    + cbn [req_waits]. destruct (retain_closed e); [|reflexivity]. destruct (finished || _); auto. destruct (block && _); apply G.
    + destruct (nth_error (targets e) id) as [x|]; [|reflexivity]. destruct (tg_run x); cbn [req_waits]; [|apply G].
      intros [v|] b; apply G.
  - apply G.
  - destruct ids as [|id ids]. apply G. destruct (nth_error (targets e) id) as [x|]; [|reflexivity]. destruct (tg_run x).
    + destruct (index =? 0); apply G.
    + destruct (closed (tg_state x)); [reflexivity|]. cbn [req_waits]. intros u. apply G.
  - apply G.
Qed.

Lemma add_edge_waits e t k : (forall e' id, ctl_waits (k e' id) = []) -> req_waits (add_edge_req e t k).
Proof. intros H. unfold add_edge_req. destruct (find_target t (targets e) 0); cbn [req_waits]; auto. intros st. destruct (push_target e t st). auto. Qed.

Lemma after_check_waits prev s lk st : ctl_waits (after_check chash prev s lk st) = [].
Proof.
  assert (AE : ctl_waits (after_extremal prev s lk st) = []) by (unfold after_extremal; destruct (lo st <? hhi st); auto).
  unfold after_check. destruct (extremal_channels s false) as [|c0 [|c1 l]], (extremal_channels s true) as [|d0 [|d1 l']]; auto;
    match goal with |- context [prune_canon ?a ?b ?c ?d] => destruct (prune_canon a b c d); auto end.
Qed.

Lemma huff_while_waits s st ids0 ids1 uh0 uh1 e : ctl_waits (huff_while s st ids0 ids1 uh0 uh1 e) = [].
Proof. unfold huff_while. destruct (lo st <? hhi st); auto. Qed.
Lemma huff_after_waits s st ids0 ids1 uh0 uh1 e pol : ctl_waits (huff_after s st ids0 ids1 uh0 uh1 e pol) = [].
Proof. unfold huff_after. destruct pol; auto. Qed.

Lemma frame_req_waits f : req_waits (frame_req f).
Proof.
  destruct f as [s lim pc|prev s pc|s pc]; cbn [SearchModel.frame_req].
  - destruct pc; cbn [main_req req_waits]; auto. destruct (closed st || _); reflexivity.
  - destruct pc; cbn [imp_req]; try exact Logic.I; try (cbn [req_waits]; auto; fail).
    + cbn [req_waits]. intros st. destruct (negb _); auto. destruct (closed st); auto.
    + cbn [req_waits]. intros st. destruct (negb _); auto. destruct (closed st); auto. apply after_check_waits.
    + destruct (hi pst <? hi st); cbn [req_waits]; auto. destruct (closed _); auto.
    + destruct (lo st <? lo pst); cbn [req_waits]; auto.
    + destruct todo as [|(i, j) todo]; [reflexivity|]. destruct (apply_comparator s i j) as (t, ch). destruct ch; [|reflexivity].
      destruct (canon chash t); [|reflexivity]. apply add_edge_waits. auto.
    + destruct (m <- list_min (map hi (edge_states e));; u8_succ m) as [ub|]; [|reflexivity].
      destruct (ub <? hi st); cbn [req_waits]; auto. destruct (closed _); auto.
    + destruct (m <- list_min (map lo (edge_states e));; u8_succ m) as [ub|]; [|reflexivity].
      destruct (lo st <? ub); cbn [req_waits]; auto.
    + apply next_req_waits; auto.
  - destruct pc; cbn [huff_req]; try exact Logic.I; try (cbn [req_waits]; auto; fail).
    + cbn [req_waits]. intros st. destruct (hhi st <=? lo st); auto.
    + destruct todo as [|(pol, c) todo]; [apply huff_while_waits|]. destruct (prune_canon chash s pol c); [|reflexivity].
      apply add_edge_waits. intros e' id. destruct pol; auto.
    + destruct (lo st <? (if pol then uh1 else uh0)); [|apply huff_after_waits].
      match goal with |- context [match ?a with _ => _ end] => destruct a as [(lh, uh)|] end; [|reflexivity].
      destruct (uh <=? lo st); [|reflexivity]. destruct (retain_edges _ e). reflexivity.
    + destruct (hlo st <? lh); [|apply huff_after_waits]. destruct (lo st <? lh); [reflexivity|apply huff_after_waits].
    + destruct (Nat.max uh0 uh1 <? hhi st); reflexivity.
    + apply next_req_waits; auto. intros e'. apply huff_while_waits.
Qed.

Lemma resume_waits f v f' : resume f v = Some f' -> waits f' = [].
Proof.
  destruct f as [s lim pc|prev s pc|s pc]; try discriminate; destruct pc; try discriminate; cbn [resume].
  - intros H. injection H as <-. auto.
  - intros H. injection H as <-. auto.
  - destruct (lo st <? lo v); intros H; injection H as <-; auto.
Qed.
End Global.
