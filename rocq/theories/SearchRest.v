(* Every fair execution of the search comes to rest: the main loop has ended and every other task is finished or dropped. *)
From Coq Require Import List Arith Bool Lia Permutation.
Import ListNotations.
From Verif Require Import Spec Vec Net Graded Bits Util CountProofs OutputSetModel OutputSetProofs PruneProofs PackProofs HuffmanModel HuffmanProofs CanonModel TreeModel StatesModel StatesProofs StatesBounds SearchModel SearchFair SearchFacts SearchInv SearchEdges SearchStep SearchFrames SearchGlobal SearchRun SearchSafe SearchOrder SearchWaits SearchMain SearchClosed SearchSlack SearchGood SearchQuiet SearchReach SearchNext SearchHuff SearchLive SearchReady SearchCost SearchSpend SearchWork SearchPend IndexProofs SearchOwned SearchEnds.

(* the main loop has ended, and the future of every other task is gone *)
Definition Rest (c : Config) : Prop :=
  (exists x s l k, nth_error (g_tasks c) 0 = Some x /\ tk_stack x = [FMain s l (MDone k)] /\ tk_cancel x = false) /\
  forall t y, 0 < t -> nth_error (g_tasks c) t = Some y -> tk_stack y = [].
Definition Quiet (c : Config) : Prop :=
  forall t x g rest, nth_error (g_tasks c) t = Some x -> tk_stack x = g :: rest -> may_go x -> is_done g.

Definition restless (x : Task) : bool :=
  match tk_stack x with
  | [] => false
  | FMain _ _ (MDone _) :: _ => false
  | _ :: _ => tk_cancel x || tk_sched x
  end.
Lemma restless_spec x : restless x = true -> exists g rest, tk_stack x = g :: rest /\ may_go x /\ ~ is_done g.
Proof.
  unfold restless, may_go. destruct (tk_stack x) as [|g rest]; [discriminate|]. intros H. exists g, rest. split; auto.
  assert (X : tk_cancel x || tk_sched x = true -> tk_cancel x = true \/ tk_sched x = true) by apply orb_prop.
  destruct g as [? ? pc| |]; [destruct pc|..]; cbn; auto; discriminate.
Qed.
Lemma quiet_or c : Quiet c \/ exists t x g rest, nth_error (g_tasks c) t = Some x /\ tk_stack x = g :: rest /\ may_go x /\ ~ is_done g.
Proof.
  destruct (existsb restless (g_tasks c)) eqn:E.
  - right. apply existsb_exists in E. destruct E as (x & H & R). destruct (In_nth_error _ _ H) as (t & N). destruct (restless_spec x R) as (g & rest & A & B & C). exists t, x, g, rest. auto.
  - left. intros t x g rest N S M. assert (R : restless x = false).
    { destruct (restless x) eqn:R; auto. rewrite <- E. symmetry. apply existsb_exists. exists x. split; auto. eapply nth_error_In; eauto. }
    unfold restless in R. rewrite S in R. destruct M as [M|M]; rewrite M in R; try rewrite orb_true_r in R; cbn [orb] in R; destruct g as [? ? pc| |]; try discriminate; destruct pc; try discriminate; exact Logic.I.
Qed.

Section Rest.
Variables chash mhash : list nat -> nat.
Notation Ready := (SearchReady.Ready chash mhash).
Notation sys_step := (SearchModel.sys_step chash mhash).

Lemma main_single c t x g rest : Ready c -> nth_error (g_tasks c) t = Some x -> tk_stack x = g :: rest -> is_done g -> t = 0 /\ rest = [] /\ tk_cancel x = false.
Proof.
  intros R N E D. destruct (gd_main _ _ _ (rd_good _ _ _ R)) as (K & HK & (x0 & N0 & C) & Mk). specialize (Mk t x N). unfold kinds_ok in Mk.
  destruct g as [s l pc| |]; try destruct D. destruct pc; try destruct D. destruct (Nat.eqb_spec t 0) as [->|T].
  - destruct Mk as (n & Mk). rewrite E in Mk. cbn [map] in Mk. rewrite N in N0. injection N0 as <-. split; auto. split; auto. destruct n as [|n]; cbn in Mk. injection Mk as _ Mk. now destruct rest. injection Mk as Mk _. discriminate.
  - specialize (Mk (FMain s l (MDone k))). rewrite E in Mk. specialize (Mk (or_introl eq_refl)). discriminate.
Qed.
Lemma in_frames c g : In g (frames (cores c)) -> exists t x, nth_error (g_tasks c) t = Some x /\ In g (tk_stack x).
Proof.
  unfold frames. intros H. apply in_flat_map in H. destruct H as (k & Hk & Hg). unfold cores in Hk. apply in_map_iff in Hk. destruct Hk as (x & <- & Hx).
  destruct (In_nth_error _ _ Hx) as (t & N). exists t, x. auto.
Qed.
Lemma quiet_rest c : Ready c -> Owned c -> Quiet c -> Rest c.
Proof.
  intros R O Q. pose proof (rd_good _ _ _ R) as G. split.
  - destruct (gd_main _ _ _ G) as (K & HK & (x & N & C) & Mk). specialize (Mk 0 x N). unfold kinds_ok in Mk. cbn [Nat.eqb] in Mk. destruct Mk as (k & Mk).
    destruct (gd_tasks _ _ _ G 0 x N) as (T1 & T2 & T3). destruct (tk_stack x) as [|g rest] eqn:E. { destruct k; discriminate. }
    assert (Sx : tk_sched x = true).
    { destruct (tk_sched x); auto. destruct (T1 eq_refl) as [T|(p & q & T)]; [discriminate|]. injection T as -> ->. cbn in Mk. destruct k as [|[|k]]; cbn in Mk; try discriminate. injection Mk as Mk. congruence. }
    pose proof (Q 0 x g rest N E (or_intror Sx)) as D. destruct (main_single c 0 x g rest R N E D) as (_ & -> & _). destruct g as [s l pc| |]; try destruct D. destruct pc; try destruct D. exists x, s, l, k0. auto.
  - intros t y T N. destruct (tk_stack y) as [|f rest] eqn:E; auto. exfalso.
    destruct (tk_cancel y || tk_sched y) eqn:M.
    + apply orb_prop in M. pose proof (Q t y f rest N E M) as D. destruct (main_single c t y f rest R N E D) as (-> & _). lia.
    + apply orb_false_elim in M. destruct M as (M1 & M2). assert (Hk : In t (flat_map kids (frames (cores c)))). { apply (O t y); auto. rewrite E. discriminate. }
      apply in_flat_map in Hk. destruct Hk as (g & Hg & Kg). destruct (in_frames c g Hg) as (v & x & Nv & Gv).
      destruct (tk_stack x) as [|h r] eqn:Ex; [destruct Gv|]. destruct (tk_cancel x || tk_sched x) eqn:Mx.
      * apply orb_prop in Mx. pose proof (Q v x h r Nv Ex Mx) as D. destruct (main_single c v x h r R Nv Ex D) as (_ & -> & _). destruct Gv as [<-|[]]. destruct h; try destruct D. destruct Kg.
      * apply orb_false_elim in Mx. destruct Mx as (_ & Mx). destruct (gd_tasks _ _ _ G v x Nv) as (T1 & _ & _). destruct (T1 Mx) as [Z|(p & s & Z)]; rewrite Ex in Z; [discriminate|]. injection Z as -> ->. destruct Gv as [<-|[]]. destruct Kg.
Qed.

(* at rest only tasks of the pending queue are scheduled *)
Lemma rest_step c c' : Rest c -> sys_step c c' -> exists t x, nth_error (g_tasks c) t = Some x /\ tk_pend x = true /\ c' = with_task c t set_sched.
Proof.
  intros ((x & s & l & k & N & E & C) & H) St. destruct St as [c t c' St|c t y Ny P|c t c' St]; [| eauto|].
  - exfalso. unfold SearchModel.task_step in St. destruct t as [|t].
    + rewrite N in St. destruct (negb (tk_sched x)); [discriminate|]. rewrite E in St. discriminate.
    + destruct (nth_error (g_tasks c) (S t)) as [y|] eqn:Ny; [|discriminate]. rewrite (H (S t) y) in St by (auto; lia). destruct (negb (tk_sched y)); discriminate.
  - exfalso. unfold SearchModel.drop_frame in St. destruct t as [|t].
    + rewrite N, C in St. discriminate.
    + destruct (nth_error (g_tasks c) (S t)) as [y|] eqn:Ny; [|discriminate]. rewrite (H (S t) y) in St by (auto; lia). destruct (negb (tk_cancel y)); discriminate.
Qed.
Lemma rest_sched c t : Rest c -> Rest (with_task c t set_sched).
Proof.
  intros ((x & s & l & k & N & E & C) & H). split.
  - exists (if 0 =? t then set_sched x else x), s, l, k. rewrite with_task_nth, N. destruct (0 =? t); cbn; auto.
  - intros u y U Ny. rewrite with_task_nth in Ny. destruct (u =? t); [|now apply (H u y)]. destruct (nth_error (g_tasks c) u) as [z|] eqn:Nz; [|discriminate]. injection Ny as <-. cbn. now apply (H u z).
Qed.
Lemma rest_keeps c c' : Rest c -> sys_step c c' -> Rest c'.
Proof. intros R S. destruct (rest_step c c' R S) as (t & x & _ & _ & ->). now apply rest_sched. Qed.

Theorem comes_to_rest run : (forall i, Ready (run i)) -> (forall i, Pend (run i)) -> (forall i, Owned (run i)) -> execution chash mhash run -> fair chash mhash run ->
  forall i, exists j, i <= j /\ forall j', j <= j' -> Rest (run j').
Proof.
  intros HR HP HO HX HF i. remember (run i) as c eqn:E. revert i E. induction c as [c IH] using (well_founded_induction (less_wf mhash)). intros i ->.
  destruct (quiet_or (run i)) as [Q|(t & x & g & rest & N & S & M & D)].
  - exists i. split; auto. intros j' L. induction L as [|j' L IHL]. { now apply quiet_rest. }
    destruct (HX j') as [->|St]; auto. eapply rest_keeps; eauto.
  - destruct (prog chash mhash run HR HP HX HF (fset g) i t x g rest N S eq_refl M D) as (j & Lj & Ls). destruct (IH (run j) Ls j eq_refl) as (j' & A & B). exists j'. split; auto. lia.
Qed.
End Rest.
