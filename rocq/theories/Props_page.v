(** Property C65: whole pages.  Any number of applications are mounted, tasks spawned and
    cancelled; each is a tree of async blocks and combinators with arbitrary code; all code may
    wake any block of any application, spawn, cancel and change the shared state; between
    them and the browser are async_executor and the root executor.

    [prun ... x evs]: [evs] is any history of the page: code outside the executor doing such
    things, timers firing, event handlers calling run_now.  In its state [s],
    [q_tr _ (xs _ s)] is the trace of the tasks (Spec_queue.v), and [app_tr s t] the trace of
    the blocks of application [t] (Spec_tree.v). *)
From Coq Require Import List Arith Bool Lia.
From Verif Require Import Arena Spec_arena Readiness Combinator Tree Spec_tree Tree_proofs Props_tree Executor Spec_executor Executor_proofs
  Queue Spec_queue Queue_proofs App App_proofs Page Page_proofs Props_queue.
Import ListNotations.

(** what the code of the applications may await: see Spec_tree.v *)
Definition page_code_ok {V X} (code : nat -> X -> place -> option V -> X * list gact * next V) : Prop :=
  forall t x p got x' l k b n, code t x p got = (x', l, NAwait k b n) -> beh_ok b /\ (k = KTuple -> n > 0).
Definition app_tr {V X} (s : ex (qu (page V X))) (t : nat) : list (Tree.ev V) := w_tr V _ (pg_t V X (q_x _ (xs _ s)) t).

(** C65: as long as some block of some application that is there was woken and not polled
    since, the browser holds a timer of the executor (once something was mounted). *)
Theorem C65_timer_pending :
  forall V X ww debug bound code on_drop x evs s t p, will_wake_ok ww -> page_code_ok code ->
  prun V X ww debug bound code on_drop x evs = Live s -> In (PDo GSchedule) evs ->
  alive t (q_tr _ (xs _ s)) = true -> live (app_tr s t) p -> woken p (app_tr s t) = true ->
  timers _ s > 0.
Proof.
  intros V X ww debug bound code on_drop x evs s t p WW CO R M A L W.
  pose proof (woken_owed V X ww debug bound code on_drop WW CO x evs s t p R A L W) as O.
  destruct (prun_xrun V X ww debug bound code on_drop x evs) as (l & E & ML). specialize (ML M).
  rewrite E in R, ML. apply (C60_timer_pending_partial _ _ _ _ l s t R); auto. apply ML. rewrite R. discriminate.
Qed.
Print Assumptions C65_timer_pending.

(** C65: when a timer has fired, or an event handler has called run_now, no block is left
    waiting: every block of every application that was woken has been polled since (or is not
    there any more). *)
Theorem C65_all_served :
  forall V X ww debug bound code on_drop x evs s e s' t p, will_wake_ok ww -> page_code_ok code ->
  prun V X ww debug bound code on_drop x evs = Live s -> In (PDo GSchedule) evs ->
  (exists fuel, e = PRun fuel) \/ (exists fuel, e = PFire fuel) /\ timers _ s > 0 ->
  prun V X ww debug bound code on_drop x (evs ++ [e]) = Live s' ->
  alive t (q_tr _ (xs _ s')) = true -> live (app_tr s' t) p -> woken p (app_tr s' t) = false.
Proof.
  intros V X ww debug bound code on_drop x evs s e s' t p WW CO R M HE R' A L.
  destruct (woken p (app_tr s' t)) eqn:W; auto. exfalso.
  pose proof (woken_owed V X ww debug bound code on_drop WW CO x _ s' t p R' A L W) as O.
  destruct (prun_xrun V X ww debug bound code on_drop x evs) as (l & E & ML). specialize (ML M).
  assert (NS : prun V X ww debug bound code on_drop x evs <> Stuck) by (rewrite R; discriminate). specialize (ML NS).
  pose proof R' as R2. unfold prun in R2. rewrite fold_left_app in R2. cbn [fold_left] in R2.
  fold (prun V X ww debug bound code on_drop x evs) in R2. rewrite E in R, R2. rewrite R in R2. cbn [pexec] in R2.
  assert (exists e', xexec _ (page_step V X ww debug bound code) (page_fin V X on_drop) (Live s) e' = Live s' /\
    ((exists fuel, e' = XRun fuel) \/ (exists fuel, e' = XFire fuel) /\ timers _ s > 0)) as (e' & E' & HE').
  { destruct HE as [(f & ->)|((f & ->) & T)]; cbn [pevents fold_left] in R2; eexists; split; eauto; right; eauto. }
  assert (X' : xrun _ (page_step V X ww debug bound code) (page_fin V X on_drop) (page0 V X x) (l ++ [e']) = Live s').
  { unfold xrun in *. rewrite fold_left_app, R. exact E'. }
  rewrite (C60_all_served_partial _ _ _ _ l s e' s' t R ML HE' X') in O. discriminate.
Qed.
Print Assumptions C65_all_served.

(** C65: seen from inside, each application is a program of its own, in the sense of C52 and
    C53: it cannot tell that there are others, except through the shared state and who wakes
    it.  So C52 and C53 hold of each application on the page. *)
Theorem C65_each_application_is_a_program :
  forall V X ww debug bound code on_drop x evs s t, will_wake_ok ww -> page_code_ok code ->
  prun V X ww debug bound code on_drop x evs = Live s \/ prun V X ww debug bound code on_drop x evs = Crashed s ->
  exists z tevs w, Tree.run V _ ww debug (block_code V X code t) z tevs = Done w /\ w_tr V _ w = app_tr s t /\
    code_ok (block_code V X code t).
Proof.
  intros V X ww debug bound code on_drop x evs s t WW CO R.
  pose proof (prun_good V X ww debug bound code on_drop WW CO x evs) as G.
  assert (G' : Good V X ww debug code (q_x _ (xs _ s))) by (destruct R as [R|R]; rewrite R in G; exact G).
  destruct (gd_prog _ _ _ _ _ _ G' t) as (z & tevs & E). exists z, tevs. eexists. split; [exact E|].
  split; [reflexivity|]. apply bcode_ok. exact CO.
Qed.
Print Assumptions C65_each_application_is_a_program.

(** C65: an application's root block is polled exactly when the executor polls its task; with
    C61, no block of a cancelled, finished or dropped application is ever polled again. *)
Theorem C65_polls_agree :
  forall V X ww debug bound code on_drop x evs s t, will_wake_ok ww -> page_code_ok code ->
  prun V X ww debug bound code on_drop x evs = Live s ->
  Spec_tree.polls Root (app_tr s t) = Spec_queue.polls t (q_tr _ (xs _ s)).
Proof.
  intros V X ww debug bound code on_drop x evs s t WW CO R.
  destruct (prun_pi V X ww debug bound code on_drop WW CO x evs s R) as (_ & P). apply P.
Qed.
Print Assumptions C65_polls_agree.

(** C65: in no history does the library's own bookkeeping fail: a panic, if there is one, is
    one of the applications' own code (or its polls exceed the bound). *)
Theorem C65_no_fault :
  forall V X ww debug bound code on_drop x evs s, will_wake_ok ww -> page_code_ok code ->
  prun V X ww debug bound code on_drop x evs = Live s \/ prun V X ww debug bound code on_drop x evs = Crashed s ->
  pg_fault V X (q_x _ (xs _ s)) = false.
Proof.
  intros V X ww debug bound code on_drop x evs s WW CO R.
  pose proof (prun_good V X ww debug bound code on_drop WW CO x evs) as G.
  destruct R as [R|R]; rewrite R in G; apply G.
Qed.
Print Assumptions C65_no_fault.

(** Non-vacuity: application 0 is the program of Props_tree.v (state x), whose block 1 of
    combinator 0, when it goes on, also wakes the second block of application 1, spawns a
    task and cancels application 2; application 1 awaits two blocks that wait for the state 5;
    application 2 waits for ever. *)
Definition exp_code (t : nat) (x : nat) (p : place) (got : option val) : nat * list gact * next val :=
  match t, p, got with
  | 0, _, _ => let '(x', l, nx) := ex_code x p got in
      (x', map (GWake 0) l ++ match l with [_; _] => [GWake 1 (Kid 0 1); GSpawn; GCancel 2] | _ => [] end, nx)
  | 1, Root, None => (x, [], NAwait KArray join_val 2)
  | 1, Root, Some v => (x, [GRun], NRet v)
  | 1, _, _ => if x =? 5 then (x, [GWake 0 (Kid 1 0)], NRet (VNat x)) else (x, [], NPend)
  | _, _, _ => (x, [], NPend)
  end.
Definition exp_drop (t x : nat) : nat * list gact := (x, if t =? 2 then [GWake 0 Root] else []).
Example exp_code_ok : page_code_ok exp_code.
Proof.
  intros t x p got x' l k b n. unfold exp_code. destruct t as [|[|t]].
  - destruct (ex_code x p got) as [[y m] nx] eqn:E. intros [= <- <- ->]. eapply ex_code_ok; eauto.
  - destruct p as [|? ?]; [destruct got|]; try discriminate; [|destruct (x =? 5); discriminate].
    intros [= <- <- <- <- <-]. split; [apply ex_behaviours|discriminate].
  - discriminate.
Qed.
Definition exp_run (evs : list (pev nat)) := prun val nat ex_ww true 40 exp_code exp_drop 0 evs.
Definition exp_view (r : rres (qu (page val nat))) (t : nat) (p : place) : option (bool * bool * nat * nat) :=
  match r with
  | Live s => Some (alive t (q_tr _ (xs _ s)), woken p (app_tr s t), Spec_tree.polls p (app_tr s t), timers _ s)
  | _ => None
  end.
Definition exp_hist : list (pev nat) := pmount ++ pmount ++ pmount ++ [PFire 9; PEnv (fun _ => 1); PDo (GWake 0 (Kid 0 1))].
(** three applications were mounted and polled; a block of the first was woken: a timer is set *)
Example ex_page_woken :
  exp_view (exp_run exp_hist) 0 (Kid 0 1) = Some (true, true, 1, 1) /\ exp_view (exp_run exp_hist) 1 (Kid 0 1) = Some (true, false, 1, 1) /\
  In (PDo GSchedule) exp_hist.
Proof. split; [vm_compute; reflexivity|]. split; [vm_compute; reflexivity|]. right; left; reflexivity. Qed.
(** firing it polls that block, then the block of the second application it wakes; the third
    application is cancelled and dropped; a fourth task is spawned and polled; nobody waits *)
Example ex_page_fired :
  exp_view (exp_run (exp_hist ++ [PFire 9])) 0 (Kid 0 1) = Some (true, false, 2, 0) /\
  exp_view (exp_run (exp_hist ++ [PFire 9])) 0 Root = Some (true, false, 3, 0) /\
  exp_view (exp_run (exp_hist ++ [PFire 9])) 1 (Kid 0 1) = Some (true, false, 2, 0) /\
  exp_view (exp_run (exp_hist ++ [PFire 9])) 2 Root = Some (false, false, 1, 0) /\
  exp_view (exp_run (exp_hist ++ [PFire 9])) 3 Root = Some (true, false, 1, 0).
Proof. repeat split; vm_compute; reflexivity. Qed.
(** the hypotheses of C65_timer_pending hold of it *)
Example ex_page_live :
  match exp_run exp_hist with Live s => live (app_tr s 0) (Kid 0 1) | _ => False end.
Proof.
  vm_compute. apply live_kid with (k := 2) (b := join_val) (p := Root); [cbn; tauto|lia| | |].
  - intros (v & H). cbn in H. intuition discriminate.
  - intros (v & H). cbn in H. intuition discriminate.
  - constructor. intros (v & H). cbn in H. intuition discriminate.
Qed.
