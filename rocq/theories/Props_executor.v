(** Properties C22 and C23: the root executor.

    [run X poll x evs = Live s]: an arbitrary main future ([poll]) was driven by an
    arbitrary sequence of wake-ups, timer firings, run_now calls and changes of its
    state, without panicking and with every run ending. *)
From Coq Require Import List Arith Bool Lia.
From Verif Require Import Executor Spec_executor Executor_proofs.
Import ListNotations.

(** C22: outside a run, if a wake-up has not been followed by a poll, a timer is pending. *)
Theorem C22_timer_pending :
  forall X poll x evs s, run X poll x evs = Live s ->
  outstanding (tr X s) = true -> timers X s > 0.
Proof.
  intros X poll x evs s R O. destruct (run_ok X poll x evs s R) as (_ & B & C & _). apply C. rewrite B. exact O.
Qed.
Print Assumptions C22_timer_pending.

(** C22: when a pending timer fires, every wake-up so far (also those of the run
    itself) is followed by a poll. *)
Theorem C22_timer_polls :
  forall X poll x evs fuel s s', run X poll x evs = Live s -> timers X s > 0 ->
  run X poll x (evs ++ [SFire X fuel]) = Live s' ->
  outstanding (tr X s') = false /\ exists t, tr X s' = t ++ tr X s.
Proof.
  intros X poll x evs fuel s s' R T R'. unfold run in *. rewrite fold_left_app, R in R'. cbn [fold_left] in R'.
  destruct (exec_ok X poll (SFire X fuel) s s' (run_ok X poll x evs s R) R') as (_ & E & O). split; auto.
Qed.
Print Assumptions C22_timer_polls.

(** C22: however often the main future is woken, at most one timer is set between two polls. *)
Theorem C22_one_timer :
  forall X poll x evs s, run X poll x evs = Live s ->
  always (fun t => timers_since_poll t <= 1) (tr X s).
Proof. intros X poll x evs s R. apply (few_run X poll x evs s R). Qed.
Print Assumptions C22_one_timer.

(** C23: run_now returns with no wake-up outstanding; the main future is only polled
    after a wake-up; polls happen during a run and never overlap; a run never starts
    during another; nested calls of run_now do nothing. *)
Theorem C23_run_now :
  forall X poll x evs s, run X poll x evs = Live s ->
  always step_ok (tr X s) /\ always nest_ok (tr X s).
Proof. intros X poll x evs s R. apply (run_ok X poll x evs s R). Qed.
Print Assumptions C23_run_now.

(** C23: run_now called from outside *)
Theorem C23_synchronous :
  forall X poll x evs fuel s s', run X poll x evs = Live s ->
  run X poll x (evs ++ [SRun X fuel]) = Live s' -> outstanding (tr X s') = false.
Proof.
  intros X poll x evs fuel s s' R R'. unfold run in *. rewrite fold_left_app, R in R'. cbn [fold_left] in R'.
  destruct (exec_ok X poll (SRun X fuel) s s' (run_ok X poll x evs s R) R') as (_ & _ & O). exact O.
Qed.
Print Assumptions C23_synchronous.

(** a run ends if the main future wakes itself only finitely often *)
Theorem C23_terminates :
  forall X poll (m : X -> nat) x evs s,
  (forall y y' acts p, poll y = (y', acts, p) -> m y' <= m y /\ (In AWake acts -> m y' < m y)) ->
  run X poll x evs = Live s ->
  exists fuel, run X poll x (evs ++ [SRun X fuel]) <> Stuck.
Proof.
  intros X poll m x evs s D R. exists (m (xs X s) + 2). unfold run in *. rewrite fold_left_app, R. cbn [fold_left exec exec1].
  destruct (run_ok X poll x evs s R) as (A & _). unfold run_now. rewrite A.
  apply (loop_terminates X poll m D). cbn. destruct (scheduled X s); lia.
Qed.
Print Assumptions C23_terminates.

(** Non-vacuity: a main future that counts down, waking itself and calling run_now
    from inside (as a synchronously dispatched event does). *)
Definition ex_poll (x : nat) : nat * list act * bool :=
  match x with 0 => (0, [], false) | S x' => (x', [AWake; ARun; AWake], false) end.
Example ex_executor :
  match run nat ex_poll 2 [SWake nat; SWake nat; SFire nat 10; SEnv nat S; SWake nat] with
  | Live s => outstanding (tr nat s) = true /\ timers nat s = 1 /\
      length (filter (fun e => match e with EPoll => true | _ => false end) (tr nat s)) = 3 /\
      In ENested (tr nat s)
  | _ => False
  end.
Proof. vm_compute. intuition. Qed.
Example ex_executor_measure : forall y y' acts p, ex_poll y = (y', acts, p) -> y' <= y /\ (In AWake acts -> y' < y).
Proof. intros [|y] y' acts p [= <- <- <-]; cbn; split; try lia; intuition. Qed.

(** C59: the page crashes only if a poll of the main future panics. *)
Theorem C59_crashes_only_by_panic :
  forall X poll x evs s, run X poll x evs = Crashed s -> ~ forall x', snd (poll x') = false.
Proof. intros X poll x evs s R N. exact (run_calm X poll N x evs s R). Qed.
Print Assumptions C59_crashes_only_by_panic.

(** C59: after a panic of the main future nothing runs any more.  Whatever happens
    next on the page (wakers woken, timers firing, event handlers calling run_now),
    the main future is never polled again and no timer is set; the calls return. *)
Theorem C59_crash_is_final :
  forall X poll x evs s evs', run X poll x evs = Crashed s ->
  exists s', run X poll x (evs ++ evs') = Crashed s' /\ timers X s' <= timers X s /\
    exists t, tr X s' = t ++ tr X s /\ (forall e, In e t -> e = EWake \/ e = ENested).
Proof.
  intros X poll x evs s evs' R. pose proof (run_dead X poll x evs s R) as D. unfold run in *. rewrite fold_left_app, R.
  destruct (dead_forever X poll evs' s D) as (s' & E & _ & T & V). exists s'. auto.
Qed.
Print Assumptions C59_crash_is_final.
(** a main future that panics in its second poll; afterwards it is woken and run_now is called *)
Example ex_crash :
  let poll := fun x : nat => (S x, [ARun; AWake], Nat.eqb x 1) in
  let evs := [SWake nat; SFire nat 10] in
  match run nat poll 0 evs with
  | Crashed s => length (filter (fun e => match e with EPoll => true | _ => false end) (tr nat s)) = 2 /\
      match run nat poll 0 (evs ++ [SWake nat; SRun nat 10; SFire nat 10]) with
      | Crashed s' => tr nat s' = [ENested; EWake] ++ tr nat s
      | _ => False
      end
  | _ => False
  end.
Proof. vm_compute. auto. Qed.
