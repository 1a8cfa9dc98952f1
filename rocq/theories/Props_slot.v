(** Properties C26 and C27: DynamicSlot.

    [run ww X poll dropf x ops = Some s]: a slot and its render future went through any
    sequence of set_future, clear_future, polls with any wakers and drops, with slotted
    futures that do anything ([poll], [dropf]; they may call the slot themselves), and
    nothing panicked.  The trace [tr] is newest first. *)
From Coq Require Import List Arith Bool Lia.
From Verif Require Import Arena Spec_arena Slot Spec_slot Slot_proofs.
Import ListNotations.

(** C26: each poll of the render future polls exactly the future given by the last call
    before it, once, with the same waker; and by then each other future set before it
    has been dropped exactly once, and that one has not. *)
Theorem C26_poll :
  forall ww X poll dropf x ops w s s', will_wake_ok ww ->
  ~ In (ODropRender X) ops ->
  run ww X poll dropf x ops = Some s ->
  run ww X poll dropf x (ops ++ [OPoll X w]) = Some s' ->
  (exists evs, tr X s' = evs ++ TPoll w :: tr X s /\
     polled evs = match current (tr X s) with Some f => [(f, w)] | None => [] end) /\
  (forall f, In (TSet f) (tr X s) ->
     drops f (tr X s') = if match current (tr X s) with Some g => g =? f | None => false end then 0 else 1).
Proof.
  intros ww X poll dropf x ops w s s' WW N R R'. unfold run in *. rewrite execs_app, R in R'. cbn [execs exec] in R'.
  pose proof (run_SI ww WW X poll dropf x ops s R) as I.
  assert (AL : alive X s = true) by (apply (execs_alive ww WW X poll dropf ops _ _ (init_SI X x) R N eq_refl)).
  rewrite AL in R'. destruct (render_poll ww X poll dropf w s) as [s1|] eqn:E; [|discriminate]. injection R' as <-.
  destruct (poll_ok ww WW X poll dropf _ _ _ I AL E) as (_ & _ & _ & _ & (evs & T & P & _) & D). split; [exists evs; auto|exact D].
Qed.
Print Assumptions C26_poll.

(** C26: slotted futures are polled at no other time. *)
Theorem C26_only_in_polls :
  forall ww X poll dropf x ops o s s', will_wake_ok ww ->
  run ww X poll dropf x ops = Some s -> run ww X poll dropf x (ops ++ [o]) = Some s' ->
  (forall w, o <> OPoll X w) -> exists evs, tr X s' = evs ++ tr X s /\ polled evs = [].
Proof.
  intros ww X poll dropf x ops o s s' WW R R' N. unfold run in *. rewrite execs_app, R in R'. cbn [execs] in R'.
  pose proof (run_SI ww WW X poll dropf x ops s R) as I.
  destruct (exec ww X poll dropf s o) as [s1|] eqn:E; [|discriminate]. injection R' as <-.
  destruct (exec_ok ww WW X poll dropf _ _ _ I E) as (_ & _ & evs & T & P & _). exists evs. split; [exact T|]. rewrite P.
  destruct o; auto. destruct (N w eq_refl).
Qed.
Print Assumptions C26_only_in_polls.

(** C26: every set_future and clear_future wakes the task of the last poll of the render
    future before anything else happens; nothing else wakes it. *)
Theorem C26_wakes :
  forall ww X poll dropf x ops s, will_wake_ok ww ->
  run ww X poll dropf x ops = Some s -> always step_ok (tr X s) /\ owed (tr X s) = false.
Proof.
  intros ww X poll dropf x ops s WW R. pose proof (run_SI ww WW X poll dropf x ops s R) as I. split; [apply (si_ok _ _ I)|apply (si_owed _ _ I)].
Qed.
Print Assumptions C26_wakes.

(** C26: no future is dropped twice or without having been set; when the render future
    and the slot are gone every future has been dropped exactly once. *)
Theorem C26_drops :
  forall ww X poll dropf x ops s f, will_wake_ok ww ->
  run ww X poll dropf x ops = Some s ->
  drops f (tr X s) <= 1 /\ (drops f (tr X s) = 1 -> In (TSet f) (tr X s)) /\
  (exists_slot X s = false -> In (TSet f) (tr X s) -> drops f (tr X s) = 1).
Proof.
  intros ww X poll dropf x ops s f WW R. pose proof (run_SI ww WW X poll dropf x ops s R) as I.
  rewrite (si_drops _ _ I f), (si_set _ _ I f). destruct (Nat.ltb_spec f (next X s)) as [L|L].
  - split; [destruct (held (msg X s) (shown X s) f); lia|]. split; [auto|]. intros G _. destruct (si_gone _ _ I G) as (A & M).
    rewrite M, (si_dead _ _ I A). reflexivity.
  - split; [lia|]. split; [discriminate|]. intros _ Q. lia.
Qed.
Print Assumptions C26_drops.

(** Nothing panics unless a future calls set_future or clear_future of its own slot
    while it is being dropped. *)
Theorem C26_no_panic :
  forall ww X poll dropf x ops, (forall y f, snd (dropf y f) = []) ->
  exists s, run ww X poll dropf x ops = Some s.
Proof. intros. apply run_quiet. auto. Qed.
Print Assumptions C26_no_panic.

(** C27, as far as it holds: a future, finished or not, is never polled again after
    another set_future or clear_future. *)
Theorem C27_replaced_partial :
  forall ww X poll dropf x ops ops' s s' f, will_wake_ok ww ->
  run ww X poll dropf x ops = Some s -> run ww X poll dropf x (ops ++ ops') = Some s' ->
  In (TSet f) (tr X s) -> current (tr X s) <> Some f ->
  exists evs, tr X s' = evs ++ tr X s /\ ~ In f (map fst (polled evs)).
Proof.
  intros ww X poll dropf x ops ops' s s' f WW R R' A B. unfold run in *. rewrite execs_app, R in R'.
  apply (never_again ww WW X poll dropf ops' s s' f (run_SI ww WW X poll dropf x ops s R) R' A B).
Qed.
Print Assumptions C27_replaced_partial.

(** C27 is false: a future which has completed is polled again whenever the render
    future is polled again (dynamic_slot.rs:88-91 ignores the result). *)
Definition w0 := Arena.mkW (Some 1) 0.
Definition done_at_once (x : unit) (f : nat) (w : waker) : unit * list act * bool := (tt, [], true).
Definition quiet (x : unit) (f : nat) : unit * list act := (tt, []).
Theorem C27_refuted :
  option_map (tr unit) (run (fun _ _ => false) unit done_at_once quiet tt [OAct unit ASet; OPoll unit w0; OPoll unit w0]) =
  Some [TReady 0; TFut 0 w0; TPoll w0; TReady 0; TFut 0 w0; TPoll w0; TWake dummy_waker; TSet 0].
Proof. vm_compute. reflexivity. Qed.
Print Assumptions C27_refuted.

(** A future that replaces itself during its poll, and a replaced one that is dropped. *)
Definition replaces (x : unit) (f : nat) (w : waker) : unit * list act * bool := (tt, if f =? 1 then [ASet] else [], false).
Definition demo : list (op unit) :=
  [OAct unit ASet; OPoll unit w0; OAct unit ASet; OPoll unit w0; OPoll unit w0; OAct unit AClear; OPoll unit w0;
   OAct unit ASet; ODropRender unit; ODropSlot unit].
Example demo_runs :
  option_map (fun s => (exists_slot unit s, tr unit s)) (run (fun _ _ => false) unit replaces quiet tt demo) =
  Some (false, [TDrop 3; TWake w0; TSet 3; TDrop 2; TPoll w0; TWake w0; TClear; TFut 2 w0; TDrop 1; TPoll w0;
               TWake w0; TSet 2; TFut 1 w0; TDrop 0; TPoll w0; TWake w0; TSet 1; TFut 0 w0; TPoll w0; TWake dummy_waker; TSet 0]).
Proof. vm_compute. reflexivity. Qed.
(** a future that calls its slot while being dropped: panic *)
Example drop_panics :
  run (fun _ _ => false) unit replaces (fun _ f => (tt, [ASet])) tt [OAct unit ASet; OPoll unit w0; OAct unit ASet; OPoll unit w0] = None.
Proof. vm_compute. reflexivity. Qed.
