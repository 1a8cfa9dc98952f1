(** Proofs for C22 and C23. *)
From Coq Require Import List Arith Bool Lia.
From Verif Require Import Executor Spec_executor.
Import ListNotations.

Section Proofs.
Variable X : Type.
Variable poll : X -> X * list act * bool.
Notation ex := (Executor.ex X).

Definition ok (t : list ev) : Prop := always step_ok t /\ always nest_ok t.
Lemma ok_cons e t : step_ok (e :: t) -> nest_ok (e :: t) -> ok t -> ok (e :: t).
Proof. intros A B (C & D). split; cbn [always]; auto. Qed.

(** outside a run *)
Definition Idle (s : ex) : Prop :=
  active X s = false /\ scheduled X s = outstanding (tr X s) /\ (scheduled X s = true -> timers X s > 0) /\
  ok (tr X s) /\ running (tr X s) = false /\ polling (tr X s) = false.
(** inside a run; [p]: inside a poll *)
Definition Busy (p : bool) (s : ex) : Prop :=
  active X s = true /\ scheduled X s = outstanding (tr X s) /\
  ok (tr X s) /\ running (tr X s) = true /\ polling (tr X s) = p.

Lemma schedule_idle s : Idle s -> Idle (schedule X s).
Proof.
  intros (A & B & C & D & E & F). unfold schedule. rewrite A. destruct (scheduled X s) eqn:SC; cbn [negb andb].
  - split; [auto|]. split; [reflexivity|]. split; [cbn; auto|]. split; [|split; auto]. apply ok_cons; cbn; auto.
  - split; [auto|]. split; [reflexivity|]. split; [cbn; lia|]. split; [|split; auto].
    apply ok_cons; cbn; auto. apply ok_cons; cbn; auto.
Qed.
Lemma do_act_busy s a : Busy true s -> Busy true (do_act X s a).
Proof.
  intros (A & B & D & E & F). destruct a; cbn [do_act].
  - unfold schedule. rewrite A, andb_false_r. split; [auto|]. split; [reflexivity|]. split; [|split; auto]. apply ok_cons; cbn; auto.
  - split; [auto|]. split; [exact B|]. split; [|split; auto]. apply ok_cons; cbn; auto.
Qed.
Lemma acts_busy l : forall s, Busy true s -> Busy true (fold_left (do_act X) l s).
Proof. induction l as [|a l IH]; cbn; auto. intros s H. apply IH, do_act_busy, H. Qed.
Lemma acts_timers l : forall s, Busy true s -> timers X (fold_left (do_act X) l s) = timers X s.
Proof.
  induction l as [|a l IH]; cbn; auto. intros s H. rewrite IH by (apply do_act_busy, H).
  destruct a; cbn; auto. unfold schedule. destruct H as (A & _). rewrite A, andb_false_r. reflexivity.
Qed.
Lemma loop_ok f : forall s s', Busy false s -> run_loop X poll f s = Live s' ->
  Idle s' /\ outstanding (tr X s') = false /\ exists t, tr X s' = t ++ tr X s.
Proof.
  induction f as [|f IH]; intros s s' H; cbn [run_loop]; [discriminate|].
  pose proof H as (A & B & D & E & F).
  destruct (scheduled X s) eqn:SC.
  - cbn [scheduled active timers xs tr]. destruct (poll (xs X s)) as [[x acts] [|]]; [discriminate|].
    set (s1 := mkEx X false (active X s) (timers X s) x (EPoll :: tr X s)).
    assert (H1 : Busy true s1).
    { split; [auto|]. split; [reflexivity|]. split; [|split; auto]. apply ok_cons; cbn; auto. }
    assert (EX : exists t, tr X (fold_left (do_act X) acts s1) = t ++ tr X s1).
    { clear IH H1. generalize s1. induction acts as [|a l IHl]; intro q; [exists []; reflexivity|]. cbn [fold_left].
      destruct (IHl (do_act X q a)) as (t & ->). assert (exists t0, tr X (do_act X q a) = t0 ++ tr X q) as (t0 & ->).
      { destruct a; cbn [do_act]; [|exists [ENested]; reflexivity]. unfold schedule.
        destruct (negb _ && _); [exists [ETimer; EWake]|exists [EWake]]; reflexivity. }
      exists (t ++ t0). apply app_assoc. }
    apply (acts_busy acts) in H1. intro R. apply IH in R.
    + destruct R as (R1 & R2 & t & R3). split; [auto|]. split; [auto|]. destruct EX as (t0 & EX). cbn [emit tr] in R3. rewrite R3, EX.
      exists (t ++ EEnd :: t0 ++ [EPoll]). cbn [s1 tr]. rewrite <- app_assoc. cbn. rewrite <- app_assoc. reflexivity.
    + destruct H1 as (A1 & B1 & D1 & E1 & F1). split; [auto|]. split; [exact B1|]. split; [|split; auto]. apply ok_cons; cbn; auto.
  - intros [= <-]. rewrite B in SC. cbn. split; [|split; [exact (eq_trans B SC) || auto|exists [ERet]; reflexivity]].
    split; [auto|]. cbn. split; [auto|]. split; [discriminate|]. split; [|split; auto]. apply ok_cons; cbn; auto.
Qed.
Lemma run_now_ok f s s' : active X s = false -> scheduled X s = outstanding (tr X s) -> ok (tr X s) -> running (tr X s) = false ->
  polling (tr X s) = false ->
  run_now X poll f s = Live s' -> Idle s' /\ outstanding (tr X s') = false /\ exists t, tr X s' = t ++ tr X s.
Proof.
  intros A B D E F. unfold run_now. rewrite A. intro R. apply loop_ok in R.
  - destruct R as (R1 & R2 & t & R3). split; [auto|]. split; [auto|]. rewrite R3. cbn. exists (t ++ [ERun]). now rewrite <- app_assoc.
  - split; [auto|]. split; [auto|]. split; [|split; auto]. apply ok_cons; cbn; auto.
Qed.
Lemma exec_ok e s s' : Idle s -> exec X poll (Live s) e = Live s' ->
  Idle s' /\ (exists t, tr X s' = t ++ tr X s) /\
  match e with SRun _ f => outstanding (tr X s') = false
             | SFire _ f => timers X s > 0 -> outstanding (tr X s') = false | _ => True end.
Proof.
  intros I. pose proof I as (A & B & C & D & E & F). destruct e as [|f|f|g]; cbn [exec exec1].
  - intros [= <-]. split; [apply schedule_idle, I|]. split; [|auto]. unfold schedule.
    destruct (negb _ && _); [exists [ETimer; EWake]|exists [EWake]]; reflexivity.
  - destruct (timers X s) as [|n] eqn:T.
    + intros [= <-]. split; [auto|]. split; [exists []; reflexivity|lia].
    + intro R. apply run_now_ok in R; auto. destruct R as (R1 & R2 & R3). auto.
  - intro R. apply run_now_ok in R; auto. destruct R as (R1 & R2 & R3). auto.
  - intros [= <-]. split; [exact I|]. split; [exists []; reflexivity|auto].
Qed.
Lemma exec_dead l : forall r, (forall s, r <> Live s) -> forall s, fold_left (exec X poll) l r <> Live s.
Proof.
  induction l as [|e l IH]; cbn; auto. intros r N. apply IH. destruct r as [s|s|]; [destruct (N s eq_refl)| |discriminate].
  cbn [exec]. destruct (exec1 X poll s e); discriminate.
Qed.
Lemma run_ok x evs s : run X poll x evs = Live s -> Idle s.
Proof.
  unfold run. assert (G : forall s0, Idle s0 -> fold_left (exec X poll) evs (Live s0) = Live s -> Idle s).
  { induction evs as [|e l IH]; intros s0 I; cbn [fold_left]; [intros [= <-]; auto|].
    destruct (exec X poll (Live s0) e) as [s1|s1|] eqn:E.
    - apply IH. eapply exec_ok; eauto.
    - intro Q. apply exec_dead in Q; [destruct Q|intros ? ?; discriminate].
    - intro Q. apply exec_dead in Q; [destruct Q|intros ? ?; discriminate]. }
  apply G. repeat split; cbn; auto. discriminate.
Qed.

(** ** After a panic *)
Definition Dead (s : ex) : Prop := active X s = true.
Lemma acts_active l : forall s, active X (fold_left (do_act X) l s) = active X s.
Proof.
  induction l as [|a l IH]; cbn; auto. intros s. rewrite IH. destruct a; cbn; auto. unfold schedule. destruct (_ && _); auto.
Qed.
Lemma loop_crashed f : forall s s', Dead s -> run_loop X poll f s = Crashed s' -> Dead s'.
Proof.
  induction f as [|f IH]; intros s s' D; cbn [run_loop]; [discriminate|].
  destruct (scheduled X s); [|discriminate]. cbn [xs scheduled active timers tr].
  destruct (poll (xs X s)) as [[x acts] [|]].
  - intros [= <-]. unfold Dead. cbn. rewrite acts_active. exact D.
  - apply IH. unfold Dead. cbn. rewrite acts_active. exact D.
Qed.
Lemma exec1_crashed e s s' : exec1 X poll s e = Crashed s' -> Dead s'.
Proof.
  destruct e as [|f|f|g]; cbn [exec1]; try discriminate.
  - destruct (timers X s); [discriminate|]. unfold run_now. destruct (active X _); [discriminate|]. apply loop_crashed. reflexivity.
  - unfold run_now. destruct (active X _); [discriminate|]. apply loop_crashed. reflexivity.
Qed.
Lemma exec1_dead e s : Dead s -> exists s', exec1 X poll s e = Live s' /\ Dead s' /\ timers X s' <= timers X s /\
  exists t, tr X s' = t ++ tr X s /\ (forall v, In v t -> v = EWake \/ v = ENested).
Proof.
  unfold Dead. intro D. destruct e as [|f|f|g]; cbn [exec1].
  - eexists. split; [reflexivity|]. unfold schedule. rewrite D, andb_false_r. cbn. split; [auto|]. split; [lia|].
    exists [EWake]. split; [reflexivity|]. intros v [<-|[]]; auto.
  - destruct (timers X s) as [|n] eqn:T.
    + exists s. split; [reflexivity|]. split; [auto|]. split; [lia|]. exists []. split; [reflexivity|]. intros v [].
    + unfold run_now. cbn [active]. rewrite D. eexists. split; [reflexivity|]. cbn. split; [auto|]. split; [lia|].
      exists [ENested]. split; [reflexivity|]. intros v [<-|[]]; auto.
  - unfold run_now. rewrite D. eexists. split; [reflexivity|]. cbn. split; [auto|]. split; [lia|].
    exists [ENested]. split; [reflexivity|]. intros v [<-|[]]; auto.
  - eexists. split; [reflexivity|]. cbn. split; [auto|]. split; [lia|]. exists []. split; [reflexivity|]. intros v [].
Qed.
Lemma dead_forever evs : forall s, Dead s -> exists s', fold_left (exec X poll) evs (Crashed s) = Crashed s' /\ Dead s' /\
  timers X s' <= timers X s /\ exists t, tr X s' = t ++ tr X s /\ (forall v, In v t -> v = EWake \/ v = ENested).
Proof.
  induction evs as [|e evs IH]; intros s D; cbn [fold_left exec].
  - exists s. split; [reflexivity|]. split; [auto|]. split; [lia|]. exists []. split; [reflexivity|]. intros v [].
  - destruct (exec1_dead e s D) as (s1 & -> & D1 & T1 & t1 & R1 & V1). destruct (IH s1 D1) as (s2 & -> & D2 & T2 & t2 & R2 & V2).
    exists s2. split; [reflexivity|]. split; [auto|]. split; [lia|]. exists (t2 ++ t1). split; [rewrite R2, R1; apply app_assoc|].
    intros v Q. apply in_app_iff in Q as [Q|Q]; auto.
Qed.
Lemma run_dead x evs s : run X poll x evs = Crashed s -> Dead s.
Proof.
  unfold run. revert s. induction evs as [|e evs IH] using rev_ind; [discriminate|]. intros s.
  rewrite fold_left_app. cbn [fold_left]. destruct (fold_left (exec X poll) evs (Live (start X x))) as [s0|s0|]; cbn [exec].
  - apply exec1_crashed.
  - specialize (IH s0 eq_refl). destruct (exec1_dead e s0 IH) as (s1 & -> & D1 & _). intros [= <-]. exact D1.
  - discriminate.
Qed.

(** ** Timers *)
Definition Few (s : ex) : Prop :=
  always (fun t => timers_since_poll t <= 1) (tr X s) /\ (scheduled X s = false -> timers_since_poll (tr X s) = 0).
Lemma few_top s : Few s -> timers_since_poll (tr X s) <= 1.
Proof. intros (A & _). destruct (tr X s); cbn in *; [lia|tauto]. Qed.
Lemma few_schedule s : Few s -> Few (schedule X s).
Proof.
  intro F. pose proof (few_top s F). destruct F as (A & B). unfold schedule.
  destruct (scheduled X s) eqn:SC; cbn [negb andb]; [|rewrite B in * by auto; destruct (active X s); cbn [negb]];
    (split; [cbn [tr always timers_since_poll]; repeat split; auto; lia|discriminate]).
Qed.
Lemma few_emit e s : e <> ETimer -> Few s -> Few (emit X e s).
Proof.
  intros N F. pose proof (few_top s F). destruct F as (A & B). split.
  - cbn [tr emit always]. split; [|exact A]. destruct e; cbn [timers_since_poll]; auto; congruence.
  - cbn [scheduled emit tr]. intro Q. specialize (B Q). destruct e; cbn [timers_since_poll]; auto; congruence.
Qed.
Lemma few_acts l : forall s, Few s -> Few (fold_left (do_act X) l s).
Proof.
  induction l as [|a l IH]; cbn; auto. intros s F. apply IH. destruct a; cbn [do_act]; [apply few_schedule, F|apply few_emit; [discriminate|exact F]].
Qed.
Lemma few_loop f : forall s s', Few s -> run_loop X poll f s = Live s' -> Few s'.
Proof.
  induction f as [|f IH]; intros s s' F; cbn [run_loop]; [discriminate|].
  destruct (scheduled X s) eqn:SC.
  - cbn [xs scheduled active timers tr]. destruct (poll (xs X s)) as [[x acts] [|]]; [discriminate|]. apply IH.
    apply few_emit; [discriminate|]. apply few_acts. destruct F as (A & B). split; [|reflexivity].
    cbn [tr always timers_since_poll]. auto.
  - intros [= <-]. pose proof (few_top s F). destruct F as (A & B). split; [|intros _; cbn; auto].
    cbn [tr always timers_since_poll]. auto.
Qed.
Lemma few_run_now f s s' : Few s -> run_now X poll f s = Live s' -> Few s'.
Proof.
  intros F. unfold run_now. destruct (active X s).
  - intros [= <-]. apply few_emit; [discriminate|exact F].
  - apply few_loop. exact (few_emit ERun s ltac:(discriminate) F).
Qed.
Lemma few_run x evs s : run X poll x evs = Live s -> Few s.
Proof.
  unfold run. assert (G : forall s0, Few s0 -> fold_left (exec X poll) evs (Live s0) = Live s -> Few s).
  { induction evs as [|e l IH]; intros s0 I; cbn [fold_left]; [intros [= <-]; auto|].
    destruct (exec X poll (Live s0) e) as [s1|s1|] eqn:E.
    - apply IH. destruct e as [|f|f|g]; cbn [exec exec1] in E.
      + injection E as <-. apply few_schedule, I.
      + destruct (timers X s0); [injection E as <-; exact I|]. eapply few_run_now; [|exact E]. exact I.
      + eapply few_run_now; eauto.
      + injection E as <-. exact I.
    - intro Q. apply exec_dead in Q; [destruct Q|intros ? ?; discriminate].
    - intro Q. apply exec_dead in Q; [destruct Q|intros ? ?; discriminate]. }
  apply G. split; cbn; auto.
Qed.

(** ** Termination *)
Variable m : X -> nat.
Hypothesis DEC : forall x x' acts p, poll x = (x', acts, p) -> m x' <= m x /\ (In AWake acts -> m x' < m x).
Lemma acts_nowake l : forall s, ~ In AWake l -> scheduled X (fold_left (do_act X) l s) = scheduled X s.
Proof.
  induction l as [|a l IH]; cbn; auto. intros s H. rewrite IH by tauto. destruct a; [tauto|reflexivity].
Qed.
Lemma acts_xs l : forall s, xs X (fold_left (do_act X) l s) = xs X s.
Proof.
  induction l as [|a l IH]; cbn; auto. intros s. rewrite IH. destruct a; cbn; auto. unfold schedule. destruct (_ && _); auto.
Qed.
Lemma loop_terminates f : forall s, f > m (xs X s) + (if scheduled X s then 1 else 0) -> run_loop X poll f s <> Stuck.
Proof.
  induction f as [|f IH]; intros s H; [lia|]. cbn [run_loop]. destruct (scheduled X s); [|discriminate].
  cbn [xs scheduled active timers tr]. destruct (poll (xs X s)) as [[x acts] [|]] eqn:E; [discriminate|].
  apply IH. cbn. rewrite acts_xs. cbn. destruct (DEC _ _ _ _ E) as (L1 & L2).
  destruct (in_dec (fun a b : act => ltac:(decide equality) : {a = b} + {a <> b}) AWake acts) as [I|I].
  - specialize (L2 I). destruct (scheduled X _); lia.
  - rewrite acts_nowake by auto. cbn. lia.
Qed.
End Proofs.
(** a run crashes only if a poll panics *)
Lemma fold_calm X poll (N : forall x : X, snd (poll x) = false) : forall evs r, (forall s, r <> Crashed s) -> forall s, fold_left (exec X poll) evs r <> Crashed s.
Proof.
  assert (LOOP : forall f s0 s, run_loop X poll f s0 <> Crashed s).
  { induction f as [|f IH]; intros s0 s; cbn [run_loop]; [discriminate|]. destruct (scheduled X s0); [|discriminate].
    cbn [xs]. pose proof (N (xs X s0)) as P. destruct (poll (xs X s0)) as [[x acts] p]. cbn in P. subst p. apply IH. }
  assert (E1 : forall e s0 s, exec1 X poll s0 e <> Crashed s).
  { assert (RN : forall f s0 s, run_now X poll f s0 <> Crashed s) by (intros f s0 s; unfold run_now; destruct (active X s0); [discriminate|apply LOOP]).
    intros [|f|f|f] s0 s; cbn [exec1]; try discriminate; try apply RN. destruct (timers X s0); [discriminate|apply RN]. }
  induction evs as [|e evs IH]; intros r H s; cbn; auto. apply IH. intro s'. destruct r as [s0|s0|]; cbn [exec]; [apply E1|destruct (H s0 eq_refl)|discriminate].
Qed.
Lemma run_calm X poll : (forall x : X, snd (poll x) = false) -> forall x evs s, run X poll x evs <> Crashed s.
Proof. intros N x evs. unfold run. apply fold_calm; auto. discriminate. Qed.
