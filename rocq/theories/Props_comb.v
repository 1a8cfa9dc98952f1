(** Properties C12-C20: the combinators join, try_join, race, race_ok, meanwhile.

    [run R S O X ww debug B child k n x evs] is the world after creating a combinator
    with behaviour [B] over [n] children (an array, a tuple or a vector, by [k]) and
    letting the environment do [evs]: poll it, wake wakers of children, change the
    children's state, drop it.  [child] and [evs] are arbitrary.  The trace [wtr] has
    everything that happened, newest first; [proper] says that the caller never polled
    the combinator again after it had completed. *)
From Coq Require Import List Arith Bool Lia.
From Verif Require Import Util Arena Spec_arena Readiness Combinator Spec_comb Readiness_proofs Combinator_proofs.
Import ListNotations.

(** C12: if some child was woken since the last poll of the combinator began, then the
    waker of that poll was woken, exactly once; and a poll that returns Pending has
    polled exactly the children that were woken since the poll before it and are
    not complete. *)
Theorem C12_wakeups :
  forall R S O X ww debug B child k n x evs,
  will_wake_ok ww -> (k = KTuple -> n > 0) ->
  let tr := wtr R S O X (run R S O X ww debug B child k n x evs) in
  proper tr = true ->
  parent_woken n tr /\ everywhere (pending_ok n) tr.
Proof.
  intros R S O X ww debug B child k n x evs WW KT tr PP. split; [apply run_parent; auto|].
  apply (everywhere_impl R S O X child n x (P R S O B n)); [exact PP| |apply run_RI; auto].
  intros t Pt H. apply H. exact Pt.
Qed.
Print Assumptions C12_wakeups.

(** C12: each poll that returns Pending polls each child that was woken before it
    (since the last poll) and is not complete exactly once, and no others. *)
Theorem C12_polled_exactly_once :
  forall R S O X ww debug B child k n x evs wk t i,
  will_wake_ok ww -> (k = KTuple -> n > 0) ->
  let w := run R S O X ww debug B child k n x evs in
  let w' := run R S O X ww debug B child k n x (evs ++ [SPoll X wk]) in
  ~ In (SDrop X) evs -> wtr R S O X w' = ERet PPending :: t -> proper t = true ->
  count_occ Nat.eq_dec (polled t) i =
    if mem i (woken n (wtr R S O X w)) && negb (done i (wtr R S O X w)) then 1 else 0.
Proof.
  intros R S O X ww debug B child k n x evs wk t i WW KT w w' AL E PP.
  apply (run_alive R S O X ww debug B child k n x WW) in AL.
  destruct (polled_pending R S O X ww debug B child k n x WW KT evs wk t AL E PP) as (Q & ND).
  assert (I : In i (polled t) <-> mem i (woken n (wtr R S O X w)) && negb (done i (wtr R S O X w)) = true).
  { rewrite Q, filter_In, andb_true_iff. rewrite mem_true. reflexivity. }
  destruct (_ && _).
  - apply NoDup_count_occ'; [exact ND|]. apply I. reflexivity.
  - apply count_occ_not_In. intro H. apply I in H. discriminate H.
Qed.
Print Assumptions C12_polled_exactly_once.

(** C13: whenever a child is polled, it exists, has not completed, was woken since the
    poll of the combinator before this one (the first poll polls all), and was not yet
    polled by this poll; within a poll, children are polled in the order of their wakes. *)
Theorem C13_only_woken_incomplete :
  forall R S O X ww debug B child k n x evs,
  will_wake_ok ww -> (k = KTuple -> n > 0) ->
  let tr := wtr R S O X (run R S O X ww debug B child k n x evs) in
  proper tr = true -> everywhere (child_ok n) tr /\ everywhere (polls_due n) tr.
Proof.
  intros R S O X ww debug B child k n x evs WW KT tr PP.
  pose proof (run_RI R S O X ww debug B child k n x WW KT evs) as (_ & EP & _). fold tr in EP.
  split; apply (everywhere_impl R S O X child n x (P R S O B n)); auto; intros t Pt H; apply H; exact Pt.
Qed.
Print Assumptions C13_only_woken_incomplete.

(** every poll returns (or panics), and never because the combinator's own bookkeeping
    failed *)
Theorem C14_every_poll_returns :
  forall R S O X ww debug B child k n x evs wk,
  will_wake_ok ww -> (k = KTuple -> n > 0) ->
  ~ In (SDrop X) evs ->
  exists r t, wtr R S O X (run R S O X ww debug B child k n x (evs ++ [SPoll X wk])) = ERet r :: t.
Proof.
  intros R S O X ww debug B child k n x evs wk WW KT AL. apply (run_alive R S O X ww debug B child k n x WW) in AL. rewrite run_snoc. cbn [exec]. rewrite AL.
  eapply poll_returns; eauto. apply run_acc; auto.
Qed.
Print Assumptions C14_every_poll_returns.

Lemma ret_everywhere R S O X ww debug (B : behavior R S O) child k n x evs (Q : list (ev R S O) -> Prop) :
  will_wake_ok ww -> (k = KTuple -> n > 0) ->
  let tr := wtr R S O X (run R S O X ww debug B child k n x evs) in
  proper tr = true -> (forall t, ret_ok R S O B n t -> Q t) -> everywhere Q tr.
Proof.
  intros WW KT tr PP H. apply (everywhere_impl R S O X child n x (P R S O B n)); [exact PP| |apply run_RI; auto].
  intros t Pt Ht. apply H, Ht, Pt.
Qed.

(** C14 *)
Theorem C14_join :
  forall R X ww debug child k n x evs,
  will_wake_ok ww -> (k = KTuple -> n > 0) ->
  let tr := wtr R R (list R) X (run R R (list R) X ww debug (join_behavior R) child k n x evs) in
  proper tr = true -> everywhere (join_spec n) tr.
Proof.
  intros R X ww debug child k n x evs WW KT tr PP. eapply ret_everywhere; eauto.
  intros [|e t]; [intros _; exact I|]. destruct e as [w|[|l|]|i|i|i v|i|i|w|i s|i s|i s| |]; cbn; try (intros; exact I).
  - intros (_ & [(_ & H)|H]); [discriminate H|exact H].
  - intros [(i & v & t' & _ & _ & H & _)|(_ & l0 & (L & _ & C) & [= ->])]; [discriminate H|]. split; [exact L|].
    intros i Hi. destruct (C i Hi) as (v & s & E1 & [= ->] & E2). eauto.
  - intros [H|(_ & l0 & _ & H)]; [exact H|discriminate H].
Qed.
Print Assumptions C14_join.

(** C15 *)
Theorem C15_try_join :
  forall T E X ww debug child k n x evs,
  will_wake_ok ww -> (k = KTuple -> n > 0) ->
  let tr := wtr (T + E) T (list T + E) X (run (T + E) T (list T + E) X ww debug (try_join_behavior T E) child k n x evs) in
  proper tr = true -> everywhere (try_join_spec n) tr.
Proof.
  intros T E X ww debug child k n x evs WW KT tr PP. eapply ret_everywhere; eauto.
  intros [|e t]; [intros _; exact I|].
  assert (NB : forall t, no_break (T + E) T (list T + E) (try_join_behavior T E) n t -> forall j e', output j t <> Some (inr e')).
  { intros t' H j e' Ho. destruct (H _ _ Ho) as (_ & s & Q). discriminate Q. }
  destruct e as [w|[|[l|er]|]|i|i|i v|i|i|w|i s|i s|i s| |]; cbn; try (intros; exact I).
  - intros (H0 & [(_ & H)|H]); [discriminate H|]. split; [exact H|]. apply NB, H0.
  - intros [(i & v & t' & _ & _ & H & _)|(_ & l0 & (L & _ & C) & [= ->])]; [destruct v; discriminate H|]. split; [exact L|].
    intros i Hi. destruct (C i Hi) as (v & s & E1 & E3 & E2). destruct v as [v|]; [|discriminate E3]. injection E3 as ->. eauto.
  - intros [(i & v & t' & -> & Hi & H & H0)|(_ & l0 & _ & H)]; [|discriminate H]. destruct v as [v|v]; [discriminate H|]. injection H as ->.
    exists i, t'. split; [reflexivity|]. split; [exact Hi|]. apply NB, H0.
  - intros [H|(_ & l0 & _ & H)]; [exact H|discriminate H].
Qed.
Print Assumptions C15_try_join.

(** C16 *)
Theorem C16_race :
  forall R X ww debug child k n x evs,
  will_wake_ok ww -> (k = KTuple -> n > 0) ->
  let tr := wtr R Empty_set R X (run R Empty_set R X ww debug (race_behavior R) child k n x evs) in
  proper tr = true -> everywhere (race_spec n) tr.
Proof.
  intros R X ww debug child k n x evs WW KT tr PP. eapply ret_everywhere; eauto.
  intros [|e t]; [intros _; exact I|].
  assert (NB : forall t, no_break R Empty_set R (race_behavior R) n t -> forall j, done j t = false).
  { intros t' H j. unfold done. destruct (output j t') as [v|] eqn:Ho; [|reflexivity]. destruct (H _ _ Ho) as (_ & [] & _). }
  destruct e as [w|[|v|]|i|i|i v|i|i|w|i s|i s|i s| |]; cbn; try (intros; exact I).
  - intros (H0 & _). apply NB, H0.
  - intros [(i & v' & t' & -> & Hi & [= ->] & H0)|(_ & l0 & _ & H)]; [|discriminate H].
    exists i, t'. split; [reflexivity|]. split; [exact Hi|]. apply NB, H0.
  - intros [H|(_ & l0 & (L & N0 & C) & _)]; [exact H|]. destruct n as [|n']; [discriminate (N0 eq_refl)|].
    destruct (C 0 (Nat.lt_0_succ n')) as (_ & [] & _).
Qed.
Print Assumptions C16_race.

(** C17 *)
Theorem C17_race_ok :
  forall T E X ww debug child k n x evs,
  will_wake_ok ww -> (k = KTuple -> n > 0) ->
  let tr := wtr (T + E) E (T + list E) X (run (T + E) E (T + list E) X ww debug (race_ok_behavior T E) child k n x evs) in
  proper tr = true -> everywhere (race_ok_spec n) tr.
Proof.
  intros T E X ww debug child k n x evs WW KT tr PP. eapply ret_everywhere; eauto.
  intros [|e t]; [intros _; exact I|].
  assert (NB : forall t, no_break (T + E) E (T + list E) (race_ok_behavior T E) n t -> forall j v', output j t <> Some (inl v')).
  { intros t' H j e' Ho. destruct (H _ _ Ho) as (_ & s & Q). discriminate Q. }
  destruct e as [w|[|[v|l]|]|i|i|i v|i|i|w|i s|i s|i s| |]; cbn; try (intros; exact I).
  - intros (H0 & [(_ & H)|H]); [discriminate H|]. split; [exact H|]. apply NB, H0.
  - intros [(i & v' & t' & -> & Hi & H & H0)|(_ & l0 & _ & H)]; [|discriminate H]. destruct v' as [v'|v']; [|discriminate H]. injection H as ->.
    exists i, t'. split; [reflexivity|]. split; [exact Hi|]. apply NB, H0.
  - intros [(i & v & t' & _ & _ & H & _)|(_ & l0 & (L & _ & C) & [= ->])]; [destruct v; discriminate H|]. split; [exact L|].
    intros i Hi. destruct (C i Hi) as (v & s & E1 & E3 & E2). destruct v as [|v]; [discriminate E3|]. injection E3 as ->. eauto.
  - intros [H|(_ & l0 & _ & H)]; [exact H|discriminate H].
Qed.
Print Assumptions C17_race_ok.

(** C18, for every schedule, also ones that poll after completion: no uninitialised
    slot is read or dropped, each output is written at most once, only what was
    written is moved or dropped, at most once in all, and once the combinator has been
    dropped exactly once. *)
Theorem C18_owned_once :
  forall R S O X ww debug B child k n x evs,
  will_wake_ok ww ->
  let w := run R S O X ww debug B child k n x evs in
  let tr := wtr R S O X w in
  ~ In EFault tr /\
  (forall i s, In (EGive i s) tr \/ In (EDropItem i s) tr -> In (EStore i s) tr) /\
  (forall i, stores i tr <= 1 /\ moved i tr + dropped_items i tr <= stores i tr) /\
  (In (SDrop X) evs -> forall i, moved i tr + dropped_items i tr = stores i tr).
Proof.
  intros R S O X ww debug B child k n x evs WW w tr.
  destruct (run_acc R S O X ww debug B child k n x WW evs) as (M & D). fold w in M, D.
  destruct M as ((Q1 & Q2 & Q3 & _) & (F & PV & _) & A). fold tr in F, PV, A, D.
  assert (ST : forall i, stores i tr <= 1 /\ moved i tr <= stores i tr).
  { intro i. destruct A as [(A1 & _ & A3 & A4 & A5)|(_ & _ & _ & _ & A)].
    - rewrite A5. destruct (nth_error (c_filled S (wc R S O X w)) i) as [b|] eqn:E.
      + destruct (A3 _ _ E) as (_ & ->). destruct b; lia.
      + apply nth_error_None in E. rewrite A4 by lia. lia.
    - destruct (A i) as (Z & L). rewrite Z in *. lia. }
  split; [exact F|]. split; [exact PV|]. split.
  - intro i. destruct (ST i) as (L1 & L2). split; [exact L1|].
    destruct (walive R S O X w); [rewrite D|rewrite D]; lia.
  - intro ID. assert (AL : walive R S O X w = false).
    { destruct (walive R S O X w) eqn:AL; auto. apply (run_alive R S O X ww debug B child k n x WW) in AL. contradiction. }
    rewrite AL in D. exact D.
Qed.
Print Assumptions C18_owned_once.

(** C18: what is written is what a child returned; and if the caller keeps to the
    contract, every output that is not returned at once is written. *)
Theorem C18_outputs_kept :
  forall R S O X ww debug B child k n x evs,
  will_wake_ok ww -> (k = KTuple -> n > 0) ->
  let tr := wtr R S O X (run R S O X ww debug B child k n x evs) in
  (forall i s, In (EStore i s) tr -> exists v, In (EDone i v) tr /\ b_maybe_return B i v = inr s) /\
  (proper tr = true -> forall i v s, In (EDone i v) tr -> b_maybe_return B i v = inr s -> In (EStore i s) tr).
Proof.
  intros R S O X ww debug B child k n x evs WW KT tr. split.
  - destruct (run_acc R S O X ww debug B child k n x WW evs) as ((_ & (_ & _ & H) & _) & _). exact H.
  - intro PP. exact (run_kept R S O X ww debug B child k n x WW KT evs PP).
Qed.
Print Assumptions C18_outputs_kept.

(** C19, for arrays and tuples (not vectors) of at least one child, and results that
    are made from all outputs (not from a single one by an early return): polling
    again panics and touches nothing.  Missing: the two other cases, which are false
    (see below). *)
Theorem C19_join_repoll_panics_partial :
  forall R X ww debug child k n x evs l wk,
  will_wake_ok ww -> k <> KVec -> n > 0 ->
  let w := run R R (list R) X ww debug (join_behavior R) child k n x evs in
  ~ In (SDrop X) evs -> In (ERet (PReady l)) (wtr _ _ _ X w) ->
  wtr _ _ _ X (run R R (list R) X ww debug (join_behavior R) child k n x (evs ++ [SPoll X wk]))
    = ERet PPanic :: ECall wk :: wtr _ _ _ X w.
Proof.
  intros R X ww debug child k n x evs l wk WW NK N0 w AL I'. apply (run_alive R R (list R) X ww debug (join_behavior R) child k n x WW) in AL. rewrite run_snoc. cbn [exec]. change (walive _ _ _ X w = true) in AL. fold w. rewrite AL.
  assert (KT : k = KTuple -> n > 0) by auto.
  destruct (run_JI R R (list R) X ww debug (join_behavior R) child k n x WW KT l evs) as ((M & _) & J); [discriminate|].
  eapply taken_panics; eauto.
Qed.
Print Assumptions C19_join_repoll_panics_partial.

Theorem C19_try_join_ok_repoll_panics_partial :
  forall T E X ww debug child k n x evs l wk,
  will_wake_ok ww -> k <> KVec -> n > 0 ->
  let w := run (T + E) T (list T + E) X ww debug (try_join_behavior T E) child k n x evs in
  ~ In (SDrop X) evs -> In (ERet (PReady (inl l))) (wtr _ _ _ X w) ->
  wtr _ _ _ X (run (T + E) T (list T + E) X ww debug (try_join_behavior T E) child k n x (evs ++ [SPoll X wk]))
    = ERet PPanic :: ECall wk :: wtr _ _ _ X w.
Proof.
  intros T E X ww debug child k n x evs l wk WW NK N0 w AL I'. apply (run_alive (T + E) T (list T + E) X ww debug (try_join_behavior T E) child k n x WW) in AL. rewrite run_snoc. cbn [exec]. change (walive _ _ _ X w = true) in AL. fold w. rewrite AL.
  assert (KT : k = KTuple -> n > 0) by auto.
  destruct (run_JI (T + E) T (list T + E) X ww debug (try_join_behavior T E) child k n x WW KT (inl l) evs) as ((M & _) & J).
  { intros i [v|v]; discriminate. }
  eapply taken_panics; eauto.
Qed.
Print Assumptions C19_try_join_ok_repoll_panics_partial.

Theorem C19_race_ok_err_repoll_panics_partial :
  forall T E X ww debug child k n x evs l wk,
  will_wake_ok ww -> k <> KVec -> n > 0 ->
  let w := run (T + E) E (T + list E) X ww debug (race_ok_behavior T E) child k n x evs in
  ~ In (SDrop X) evs -> In (ERet (PReady (inr l))) (wtr _ _ _ X w) ->
  wtr _ _ _ X (run (T + E) E (T + list E) X ww debug (race_ok_behavior T E) child k n x (evs ++ [SPoll X wk]))
    = ERet PPanic :: ECall wk :: wtr _ _ _ X w.
Proof.
  intros T E X ww debug child k n x evs l wk WW NK N0 w AL I'. apply (run_alive (T + E) E (T + list E) X ww debug (race_ok_behavior T E) child k n x WW) in AL. rewrite run_snoc. cbn [exec]. change (walive _ _ _ X w = true) in AL. fold w. rewrite AL.
  assert (KT : k = KTuple -> n > 0) by auto.
  destruct (run_JI (T + E) E (T + list E) X ww debug (race_ok_behavior T E) child k n x WW KT (inr l) evs) as ((M & _) & J).
  { intros i [v|v]; discriminate. }
  eapply taken_panics; eauto.
Qed.
Print Assumptions C19_race_ok_err_repoll_panics_partial.

(** C19 is false for vectors: a completed join of a vector returns a second result
    when polled again (release builds). *)
Definition ex_ww (a b : waker) := false.
Lemma ex_ww_ok : will_wake_ok ex_ww. Proof. intros a b H. discriminate H. Qed.
Definition ex_wk (n : nat) := mkW (Some n) 0.
(** every child completes with 10 + its index when polled *)
Definition ex_ready (x : unit) (i : nat) : unit * list nat * cres nat := (tt, [], CReady (10 + i)).
Theorem C19_vec_join_repoll_refuted :
  exists l1 l2 t1 t2,
    wtr _ _ _ _ (run nat nat (list nat) unit ex_ww false (join_behavior nat) ex_ready KVec 2 tt [SPoll _ (ex_wk 0)]) = ERet (PReady l1) :: t1 /\
    wtr _ _ _ _ (run nat nat (list nat) unit ex_ww false (join_behavior nat) ex_ready KVec 2 tt [SPoll _ (ex_wk 0); SPoll _ (ex_wk 1)])
      = ERet (PReady l2) :: t2 /\ l1 <> l2.
Proof. do 4 eexists. split; [vm_compute; reflexivity|]. split; [vm_compute; reflexivity|]. discriminate. Qed.
Print Assumptions C19_vec_join_repoll_refuted.

(** C19 is false after an early return, for arrays, tuples and vectors: a completed
    race polls the completed child again and returns a second result. *)
Theorem C19_race_repoll_refuted : forall k debug,
  exists t1 t2,
    wtr _ _ _ _ (run nat Empty_set nat unit ex_ww debug (race_behavior nat) ex_ready k 2 tt [SPoll _ (ex_wk 0)]) = ERet (PReady 10) :: t1 /\
    wtr _ _ _ _ (run nat Empty_set nat unit ex_ww debug (race_behavior nat) ex_ready k 2 tt [SPoll _ (ex_wk 0); SWake _ 0; SPoll _ (ex_wk 1)])
      = ERet (PReady 10) :: EDone 0 10 :: EChild 0 :: ECall (ex_wk 1) :: t2.
Proof. intros k debug. destruct k, debug; do 2 eexists; split; vm_compute; reflexivity. Qed.
Print Assumptions C19_race_repoll_refuted.

(** C20 *)
Theorem C20_meanwhile :
  forall R Q Y f g ww debug y evs,
  will_wake_ok ww ->
  let tr := wtr R Empty_set R (pa Q Y) (meanwhile_run R Q Y f g ww debug y evs) in
  proper tr = true -> everywhere meanwhile_spec tr.
Proof.
  intros R Q Y f g ww debug y evs WW tr PP. subst tr. unfold meanwhile_run in *.
  assert (E := C16_race R (pa Q Y) ww debug (meanwhile_child R Q Y f g) KTuple 2 (mkPa Q Y y true []) (map (lift Q Y) evs) WW
            ltac:(intros; lia) PP). cbn zeta in E.
  assert (ND : forall v, ~ In (EDone 1 v) (wtr R Empty_set R (pa Q Y)
     (run R Empty_set R (pa Q Y) ww debug (race_behavior R) (meanwhile_child R Q Y f g) KTuple 2 (mkPa Q Y y true []) (map (lift Q Y) evs)))).
  { intro v. eapply run_nodone; eauto. intros x. cbn. unfold pa_poll. destruct (pa_some Q Y x); [|discriminate].
    destruct (g _) as [[y' wakes] [|v'|]]; discriminate. }
  revert E ND. clear PP. generalize (wtr R Empty_set R (pa Q Y)
     (run R Empty_set R (pa Q Y) ww debug (race_behavior R) (meanwhile_child R Q Y f g) KTuple 2 (mkPa Q Y y true []) (map (lift Q Y) evs))).
  induction l as [|e l IH]; intros E ND; [exact I|]. cbn [everywhere] in *. destruct E as (E1 & E2).
  split; [|apply IH; [exact E2|intros v H; apply (ND v); right; exact H]].
  destruct e as [w|[|v|]|i|i|i v|i|i|w|i s|i s|i s| |]; cbn in *; auto.
  destruct E1 as (i & t' & -> & Hi & _). destruct i as [|[|i]]; [eauto| |lia]. exfalso. apply (ND v). cbn. auto.
Qed.
Print Assumptions C20_meanwhile.

(** C20: [g] is not polled after it completed, whatever the schedule; its completion is
    never reported. *)
Theorem C20_g_not_repolled :
  forall R Q Y f g ww debug y evs,
  will_wake_ok ww ->
  let w := meanwhile_run R Q Y f g ww debug y evs in
  everywhere no_repoll (pa_log Q Y (wx _ _ _ _ w)) /\ forall v, ~ In (EDone 1 v) (wtr _ _ _ _ w).
Proof.
  intros R Q Y f g ww debug y evs WW w. split.
  - set (Inv := fun x : pa Q Y => everywhere no_repoll (pa_log Q Y x) /\ (pa_some Q Y x = true -> forall v, ~ In (GReady Q v) (pa_log Q Y x))).
    assert (Inv (wx _ _ _ _ w)) as (H & _); [|exact H].
    eapply x_run with (I := Inv); eauto.
    + intros x i x' ws r (H1 & H2). destruct i as [|i]; cbn [meanwhile_child].
      * destruct (f _) as [[y' wakes] r']. intros [= <- _ _]. split; auto.
      * unfold pa_poll. destruct (pa_some Q Y x) eqn:SM; [|intros [= <- _ _]; split; auto; congruence].
        destruct (g _) as [[y' wakes] [|v|]]; intros [= <- _ _]; unfold Inv; cbn; (split; [repeat split; auto|]); try discriminate;
          intros _ v' [H|H]; try discriminate; eapply H2; eauto.
    + intros h Hin x (H1 & H2). apply in_map_iff in Hin as (e & E & _).
      destruct e; cbn in E; try discriminate E. injection E as <-. split; auto.
    + split; cbn; auto.
  - intro v. eapply run_nodone; eauto. intros x. cbn. unfold pa_poll. destruct (pa_some Q Y x); [|discriminate].
    destruct (g _) as [[y' wakes] [|v'|]]; discriminate.
Qed.
Print Assumptions C20_g_not_repolled.

(** * Non-vacuity *)
(** children that are Pending until the environment sets their cell; while Pending, a
    poll wakes the child before it *)
Definition ex_child (x : list (option nat)) (i : nat) : list (option nat) * list nat * cres nat :=
  match nth_error x i with
  | Some (Some v) => (x, [], CReady v)
  | _ => (x, match i with 0 => [] | S j => [j] end, CPending)
  end.
Definition ex_set (i v : nat) (x : list (option nat)) : list (option nat) := lset x i (Some v).
Definition ex_evs : list (sev (list (option nat))) :=
  [SPoll _ (ex_wk 0); SEnv _ (ex_set 2 7); SWake _ 2; SWake _ 2; SPoll _ (ex_wk 1); SEnv _ (ex_set 0 5); SEnv _ (ex_set 1 6);
   SWake _ 1; SWake _ 0; SPoll _ (ex_wk 2); SDrop _].
Definition ex_join k := run nat nat (list nat) _ ex_ww true (join_behavior nat) ex_child k 3 [None; None; None] ex_evs.
Example ex_join_ok : forall k,
  proper (wtr _ _ _ _ (ex_join k)) = true /\ walive _ _ _ _ (ex_join k) = false /\
  In (ERet (PReady [5; 6; 7])) (wtr _ _ _ _ (ex_join k)) /\ In (EParent (ex_wk 0)) (wtr _ _ _ _ (ex_join k)) /\
  moved 2 (wtr _ _ _ _ (ex_join k)) = 1.
Proof. intros []; vm_compute; intuition. Qed.
(** a schedule whose last poll returns Pending, having polled one woken child *)
Example ex_pending_ok : forall k,
  exists t, wtr _ _ _ _ (run nat nat (list nat) _ ex_ww true (join_behavior nat) ex_child k 3 [None; None; None]
     ([SPoll _ (ex_wk 0); SEnv _ (ex_set 2 7); SWake _ 2; SWake _ 2] ++ [SPoll _ (ex_wk 1)])) = ERet PPending :: t /\
    proper t = true /\ polled t = [0; 1; 2].
Proof. intros []; eexists; (split; [vm_compute; reflexivity|]); vm_compute; auto. Qed.
Example ex_race_ok :
  let tr := wtr _ _ _ _ (run nat Empty_set nat _ ex_ww true (race_behavior nat) ex_child KVec 3 [None; None; None] (firstn 5 ex_evs)) in
  proper tr = true /\ hd_error tr = Some (ERet (PReady 7)).
Proof. vm_compute. auto. Qed.
(** children that return Ok i / Err i *)
Definition ex_res (x : list bool) (i : nat) : list bool * list nat * cres (nat + nat) :=
  (x, [], match nth_error x i with Some true => CReady (inl i) | Some false => CReady (inr i) | None => CPending end).
Example ex_try_join_ok :
  let tr l := wtr _ _ _ _ (run (nat + nat) nat (list nat + nat) _ ex_ww true (try_join_behavior nat nat) ex_res KArray 3 l [SPoll _ (ex_wk 0)]) in
  hd_error (tr [true; true; true]) = Some (ERet (PReady (inl [0; 1; 2]))) /\
  hd_error (tr [true; false; true]) = Some (ERet (PReady (inr 1))).
Proof. vm_compute. auto. Qed.
Example ex_race_ok_ok :
  let tr l := wtr _ _ _ _ (run (nat + nat) nat (nat + list nat) _ ex_ww true (race_ok_behavior nat nat) ex_res KTuple 3 l [SPoll _ (ex_wk 0)]) in
  hd_error (tr [false; false; false]) = Some (ERet (PReady (inr [0; 1; 2]))) /\
  hd_error (tr [false; true; true]) = Some (ERet (PReady (inl 1))).
Proof. vm_compute. auto. Qed.
(** f.meanwhile(g): g completes first, f later *)
Definition ex_cell (x : nat * nat) : nat * nat := x.
Definition ex_f (x : nat * nat) : (nat * nat) * list nat * cres nat := (x, [], if fst x =? 0 then CPending else CReady (fst x)).
Definition ex_g (x : nat * nat) : (nat * nat) * list nat * cres nat := (x, [], if snd x =? 0 then CPending else CReady (snd x)).
Example ex_meanwhile_ok :
  let w := meanwhile_run nat nat (nat * nat) ex_f ex_g ex_ww true (0, 4)
    [SPoll _ (ex_wk 0); SWake _ 1; SPoll _ (ex_wk 0); SEnv _ (fun x => (9, snd x)); SWake _ 0; SPoll _ (ex_wk 1)] in
  proper (wtr _ _ _ _ w) = true /\ hd_error (wtr _ _ _ _ w) = Some (ERet (PReady 9)) /\
  pa_log _ _ (wx _ _ _ _ w) = [GReady _ 4; GPoll _].
Proof. vm_compute. auto. Qed.
