(** Properties C60 and C61: several mounted applications and spawned tasks on the
    application-wide executor.

    [xrun X step fin x evs]: the futures of the tasks are arbitrary ([step], [fin]); [evs] is
    any history of the page: tasks woken, spawned, cancelled from outside, applications
    mounted, timers firing, event handlers calling run_now. *)
From Coq Require Import List Arith Bool Lia.
From Verif Require Import Executor Spec_executor Executor_proofs Queue Spec_queue Queue_proofs.
Import ListNotations.

(** C60, full claim: whenever a task is owed attention (it was spawned, woken or cancelled
    since its last poll), a timer is pending.  Refuted below for tasks spawned before
    anything is mounted.  Proved once [schedule] was called, which [mount_at] does. *)
Theorem C60_timer_pending_partial :
  forall X step fin x evs s t,
  xrun X step fin x evs = Live s -> In (XDo TSchedule) evs ->
  owed t (q_tr X (xs _ s)) = true -> timers _ s > 0.
Proof.
  intros X step fin x evs s t R M O. pose proof (owed_scheduled X step fin x evs s t R M O) as SC.
  destruct (xrun_idle X step fin x evs s R) as (_ & _ & C & _). apply C. exact SC.
Qed.
Print Assumptions C60_timer_pending_partial.

(** C60: when that timer has fired, or an event handler has called run_now, no task is owed
    attention: each was polled after its last wake-up, and the futures of cancelled tasks are
    dropped. *)
Theorem C60_all_served_partial :
  forall X step fin x evs s e s' t,
  xrun X step fin x evs = Live s -> In (XDo TSchedule) evs ->
  (exists fuel, e = XRun fuel) \/ (exists fuel, e = XFire fuel) /\ timers _ s > 0 ->
  xrun X step fin x (evs ++ [e]) = Live s' ->
  owed t (q_tr X (xs _ s')) = false.
Proof.
  intros X step fin x evs s e s' t R M E R'.
  assert (SC : scheduled _ s' = false).
  { pose proof (xrun_idle X step fin x evs s R) as I. pose proof (xrun_idle X step fin x _ s' R') as (_ & B & _).
    rewrite B. unfold xrun in R, R'. rewrite fold_left_app, R in R'. cbn [fold_left xexec] in R'.
    destruct E as [(f & ->)|((f & ->) & T)]; cbn [events fold_left] in R'.
    - destruct (exec_ok _ _ (SRun _ f) s s' I R') as (_ & _ & O). exact O.
    - destruct (exec_ok _ _ (SFire _ f) s s' I R') as (_ & _ & O). auto. }
  destruct (owed t (q_tr X (xs _ s'))) eqn:O; auto.
  rewrite (owed_scheduled X step fin x (evs ++ [e]) s' t R') in SC; auto. apply in_app_iff; auto.
Qed.
Print Assumptions C60_all_served_partial.

(** C61: in every history, also one that ends in a panic: a task is polled only when it was
    spawned or woken since its last poll began, never after its future is dropped or it was
    cancelled, and never while another one is polled; a future is dropped once, not while
    something is polled. *)
Theorem C61_polls_are_legal :
  forall X step fin x evs s,
  xrun X step fin x evs = Live s \/ xrun X step fin x evs = Crashed s ->
  legal (q_tr X (xs _ s)).
Proof.
  intros X step fin x evs s [R|R].
  - apply (proj1 (xrun_inv X step fin x evs) s R).
  - destruct (proj2 (xrun_inv X step fin x evs) s R) as (c & I). apply I.
Qed.
Print Assumptions C61_polls_are_legal.

(** C61: no task starves another: while [t] is owed attention (from a moment with trace
    [tr1], during [tr2]) and not served, every other task is polled at most once. *)
Theorem C61_fair :
  forall X step fin x evs s tr3 tr2 tr1 t u,
  xrun X step fin x evs = Live s \/ xrun X step fin x evs = Crashed s ->
  q_tr X (xs _ s) = tr3 ++ tr2 ++ tr1 ->
  owed t tr1 = true -> (forall e, In e tr2 -> e <> QPoll t /\ e <> QDrop t) ->
  polls u tr2 <= 1.
Proof.
  intros X step fin x evs s tr3 tr2 tr1 t u R T O N. assert (F : fair (q_tr X (xs _ s))).
  { destruct R as [R|R].
    - apply (proj1 (xrun_inv X step fin x evs) s R).
    - destruct (proj2 (xrun_inv X step fin x evs) s R) as (c & I). apply I. }
  rewrite T in F. eapply fair_polls; eauto.
Qed.
Print Assumptions C61_fair.

(** C61: nothing but a task that panics makes the page crash. *)
Theorem C61_crashes_only_by_panic :
  forall X step fin x evs s, xrun X step fin x evs = Crashed s -> ~ forall t x', snd (step t x') <> Panics.
Proof. intros X step fin x evs s R N. exact (xrun_calm X step fin N x evs s R). Qed.
Print Assumptions C61_crashes_only_by_panic.

(** A program: task 0 spawns task 1 and wakes itself twice; task 1 cancels task 0 in its
    second poll; task 2 is mounted later and finishes at once. *)
Definition exq_step (t : nat) (x : nat * nat) : (nat * nat) * list (option tact) * outcome :=
  match t with
  | 0 => ((S (fst x), snd x), match fst x with 0 => [Some TSpawn; Some (TWake 0); None] | 1 => [Some (TWake 1)] | _ => [] end, Pend)
  | 1 => ((fst x, S (snd x)), match snd x with 1 => [Some (TCancel 0)] | _ => [] end, Pend)
  | _ => (x, [Some (TWake 0)], Ready)
  end.
Definition exq_fin (t : nat) (x : nat * nat) : (nat * nat) * list (option tact) := (x, []).
Definition exq_obs (r : rres (qu (nat * nat))) : option (nat * list qev) :=
  match r with Live s => Some (timers _ s, q_tr _ (xs _ s)) | _ => None end.
Definition exq_evs : list (xev (nat * nat)) := mount_at.
Example ex_queue :
  exq_obs (xrun _ exq_step exq_fin (0, 0) exq_evs) = Some (1, [QSpawn 0]) /\
  In (XDo TSchedule) exq_evs /\
  exq_obs (xrun _ exq_step exq_fin (0, 0) (exq_evs ++ [XFire 5])) =
    Some (0, [QDrop 0; QEnd 1; QCancel 0; QPoll 1; QEnd 0; QWake 1; QPoll 0; QEnd 1; QPoll 1; QEnd 0; QWake 0; QSpawn 1; QPoll 0; QSpawn 0]) /\
  exq_obs (xrun _ exq_step exq_fin (0, 0) (exq_evs ++ [XFire 5] ++ mount_at)) =
    Some (1, [QSpawn 2; QDrop 0; QEnd 1; QCancel 0; QPoll 1; QEnd 0; QWake 1; QPoll 0; QEnd 1; QPoll 1; QEnd 0; QWake 0; QSpawn 1; QPoll 0; QSpawn 0]) /\
  option_map (fun p => firstn 4 (snd p)) (exq_obs (xrun _ exq_step exq_fin (0, 0) (exq_evs ++ [XFire 5] ++ mount_at ++ [XRun 5]))) =
    Some [QDrop 2; QEnd 2; QWake 0; QPoll 2].
Proof. split; [vm_compute; reflexivity|]. split; [right; left; reflexivity|]. repeat split; vm_compute; reflexivity. Qed.

(** C60 refuted: a task spawned with [get_executor().spawn(..)] before anything is mounted is
    not polled: no timer is set, and even event handlers that call run_now do not run it. *)
Theorem C60_spawn_before_mount_refuted :
  exq_obs (xrun _ exq_step exq_fin (0, 0) [XDo TSpawn; XDo (TWake 0); XRun 5; XFire 5; XRun 5]) = Some (0, [QWake 0; QSpawn 0]) /\
  owed 0 [QWake 0; QSpawn 0] = true.
Proof. split; vm_compute; reflexivity. Qed.
