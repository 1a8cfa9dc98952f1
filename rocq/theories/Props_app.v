(** Property C54: from the wake of any block to its poll, through the tree and the root
    executor.  [app_run ... evs = Live s]: a program of arbitrary blocks was driven by an
    arbitrary sequence of wakes, timer firings, run_now calls and changes of its state,
    without a panic. *)
From Coq Require Import List Arith Bool Lia.
From Verif Require Import Arena Spec_arena Readiness Combinator Tree Spec_tree Tree_proofs Executor Spec_executor Executor_proofs App App_proofs Props_tree.
Import ListNotations.

(** C54: as long as some block that is there was woken and not polled since, the browser
    holds a timer of the executor. *)
Theorem C54_timer_pending :
  forall V X ww debug code bound x evs s p, will_wake_ok ww -> code_ok code ->
  app_run V X ww debug code bound x evs = Live s ->
  live (w_tr V X (xs _ s)) p -> woken p (w_tr V X (xs _ s)) = true ->
  timers _ s > 0.
Proof.
  intros V X ww debug code bound x evs s p WW CO R L W. destruct (app_inv V X ww debug code bound WW CO x evs s R) as (Id & A).
  apply Id. eapply pending; eauto.
Qed.
Print Assumptions C54_timer_pending.

(** C54: when that timer fires, the block is polled (unless it is dropped in that run before
    its turn). *)
Theorem C54_timer_polls_block :
  forall V X ww debug code bound x evs fuel s s' p, will_wake_ok ww -> code_ok code ->
  app_run V X ww debug code bound x evs = Live s ->
  live (w_tr V X (xs _ s)) p -> woken p (w_tr V X (xs _ s)) = true ->
  app_run V X ww debug code bound x (evs ++ [AFire fuel]) = Live s' ->
  exists new, w_tr V X (xs _ s') = new ++ w_tr V X (xs _ s) /\
    (In (Tree.EPoll p) new \/ ~ live (w_tr V X (xs _ s')) p).
Proof.
  intros V X ww debug code bound x evs fuel s s' p WW CO R L W R'.
  pose proof (C54_timer_pending V X ww debug code bound x evs s p WW CO R L W) as T.
  destruct (app_inv V X ww debug code bound WW CO x evs s R) as (Id & A).
  unfold app_run in R, R'. rewrite fold_left_app, R in R'. cbn [fold_left app_exec exec exec1] in R'.
  destruct (timers (world V X) s) as [|n]; [lia|].
  apply (polled V X ww debug code bound WW CO (mkEx (world V X) (scheduled _ s) (active _ s) n (xs _ s) (tr _ s)) s' p fuel); auto.
  apply Id.
Qed.
Print Assumptions C54_timer_polls_block.

(** C54: the same when an event handler calls run_now: the block has been polled when it returns. *)
Theorem C54_event_polls_block :
  forall V X ww debug code bound x evs fuel s s' p, will_wake_ok ww -> code_ok code ->
  app_run V X ww debug code bound x evs = Live s ->
  live (w_tr V X (xs _ s)) p -> woken p (w_tr V X (xs _ s)) = true ->
  app_run V X ww debug code bound x (evs ++ [ARunNow fuel]) = Live s' ->
  exists new, w_tr V X (xs _ s') = new ++ w_tr V X (xs _ s) /\
    (In (Tree.EPoll p) new \/ ~ live (w_tr V X (xs _ s')) p).
Proof.
  intros V X ww debug code bound x evs fuel s s' p WW CO R L W R'.
  destruct (app_inv V X ww debug code bound WW CO x evs s R) as (Id & A).
  unfold app_run in R, R'. rewrite fold_left_app, R in R'. cbn [fold_left app_exec exec exec1] in R'.
  apply (polled V X ww debug code bound WW CO s s' p fuel); auto. apply Id.
Qed.
Print Assumptions C54_event_polls_block.

(** Non-vacuity: the program of Props_tree.v; block 1 of combinator 1 is woken by another
    block, during a poll. *)
Definition ex_app : list (aev nat) := [AStart; AFire 9; AEnvB (fun _ => 1); AWakeB (Kid 0 1)].
Definition app_view (r : rres (world val nat)) : option (list (Tree.ev val) * nat) :=
  match r with Live s => Some (w_tr val nat (xs _ s), timers _ s) | _ => None end.
Example ex_app_wake :
  option_map (fun v => (woken (Kid 0 1) (fst v), polls (Kid 0 1) (fst v), snd v))
    (app_view (app_run val nat ex_ww true ex_code 40 0 ex_app)) = Some (true, 1, 1).
Proof. vm_compute. reflexivity. Qed.
(** firing the timer polls it, and then, in the same run, the block it wakes *)
Example ex_app_fire :
  option_map (fun v => (woken (Kid 0 1) (fst v), polls (Kid 0 1) (fst v), polls (Kid 1 1) (fst v), polls Root (fst v), snd v))
    (app_view (app_run val nat ex_ww true ex_code 40 0 (ex_app ++ [AFire 9]))) = Some (false, 2, 2, 3, 0).
Proof. vm_compute. reflexivity. Qed.
Example ex_app_live :
  match app_run val nat ex_ww true ex_code 40 0 ex_app with Live s => live (w_tr val nat (xs _ s)) (Kid 0 1) | _ => False end.
Proof.
  vm_compute. apply live_kid with (k := 2) (b := join_val) (p := Root); [cbn; tauto|lia| | |].
  - intros (v & H). cbn in H. intuition discriminate.
  - intros (v & H). cbn in H. intuition discriminate.
  - constructor. intros (v & H). cbn in H. intuition discriminate.
Qed.
