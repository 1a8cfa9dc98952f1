(** Model of a whole page: any number of mounted applications and spawned tasks, each a tree
    of async blocks and combinators (Tree.v), as tasks of the application-wide executor
    (Queue.v: async_executor on the root executor of Executor.v).  It replaces the single
    main future of App.v by what async_ui_web really runs (async_ui_web/src/executor.rs:27-35,
    mount.rs:23-28).

    The code of the blocks is arbitrary: [code t x p got] says what block [p] of application
    [t] does when the state that all code shares is [x]; [on_drop t x] what is done when the
    future of application [t] is dropped.

    Simplifications: what a poll of one application does to other applications or to tasks
    (waking their blocks, spawning, cancelling, [schedule], [run_now]) is done, in order, at
    the end of that poll; nothing of it can be seen earlier, since the others are not polled
    meanwhile.  When code panics in a poll, nothing of that poll is kept (the executor never
    polls again, C60).  A waker of a block of an application that does not exist yet may be woken in
    the model; nothing happens. *)
From Coq Require Import List Arith Bool.
From Verif Require Import Arena Readiness Combinator Tree Spec_tree Executor Queue App.
Import ListNotations.

(** what code can do: wake block [p] of application [t] (wakers/shared_arc.rs:86-101), spawn a
    task (executor.rs:18-24, mount.rs:25), cancel one by dropping its Task (mount.rs:19-21), call
    [schedule] (core executor.rs:69-79) or [run_now] (core executor.rs:51-64) *)
Inductive gact := GWake (t : nat) (p : place) | GSpawn | GCancel (t : nat) | GSchedule | GRun.
(** the wakes of the application's own blocks, done at once (wakers/shared_arc.rs:86-101) *)
Definition own (t : nat) (a : gact) : list place :=
  match a with GWake u p => if Nat.eqb u t then [p] else [] | _ => [] end.
(** the rest (mount.rs:19-28, core executor.rs:51-79) *)
Definition foreign (t : nat) (a : gact) : bool :=
  match a with GWake u _ => negb (Nat.eqb u t) | _ => true end.

Section Page.
Variables V X : Type.
Variable ww : waker -> waker -> bool.
Variable debug : bool.
Variable bound : nat.
Variable code : nat -> X -> place -> option V -> X * list gact * next V.
Variable on_drop : nat -> X -> X * list gact.
Notation tree := (world V (X * list gact)).

(** the code of the blocks of application [t], as Tree.v wants it: what it does elsewhere is
    collected (user code, polled through common/vec.rs:90-161) *)
Definition block_code (t : nat) (z : X * list gact) (p : place) (got : option V) : (X * list gact) * list place * next V :=
  let '(x, l, nx) := code t (fst z) p got in ((x, snd z ++ filter (foreign t) l), flat_map (own t) l, nx).

(** the applications (their futures, owned by the tasks of mount.rs:25) and the state of the
    application code; [pg_fault]: the library's own bookkeeping failed *)
Record page := mkPg { pg_t : nat -> tree; pg_x : X; pg_fault : bool }.
(** record update: one application (mount.rs:25) *)
Definition set_app (t : nat) (w : tree) (y : page) : page :=
  mkPg (fun u => if Nat.eqb u t then w else pg_t y u) (pg_x y) (pg_fault y).
(** nothing is mounted yet (before mount.rs:23-28) *)
Definition page0 (x : X) : page := mkPg (fun _ => Tree.start V _ (x, [])) x false.

(** one of these; the waker of an application's root block is the one async_task gave it
    (executor.rs:31), which wakes the task *)
Definition do_gact (a : gact) (y : page) : page * list (option tact) :=
  match a with
  | GWake u p =>
      match wake_place V _ (pg_t y u) p with
      | Done w => (set_app u w y, repeat (Some (TWake u)) (root_wakes V (w_tr V _ (pg_t y u)) (w_tr V _ w)))
      | _ => (mkPg (pg_t y) (pg_x y) true, [])
      end
  | GSpawn => (y, [Some TSpawn])
  | GCancel u => (y, [Some (TCancel u)])
  | GSchedule => (y, [Some TSchedule])
  | GRun => (y, [None])
  end.
(** several, in order (mount.rs:19-28, wakers/shared_arc.rs:86-101) *)
Fixpoint do_gacts (l : list gact) (y : page) : page * list (option tact) :=
  match l with
  | [] => (y, [])
  | a :: r => let (y1, l1) := do_gact a y in let (y2, l2) := do_gacts r y1 in (y2, l1 ++ l2)
  end.

(** a poll of the future of task [t] (called by async_executor, executor.rs:31) *)
Definition page_step (t : nat) (y : page) : page * list (option tact) * outcome :=
  let w := Tree.set_x V _ (pg_x y, []) (pg_t y t) in
  match Tree.exec V _ ww debug (block_code t) w (HPoll bound 0) with
  | Done w' =>
      let (y2, l) := do_gacts (snd (w_x V _ w')) (mkPg (pg_t (set_app t w' y)) (fst (w_x V _ w')) (pg_fault y)) in
      (y2, repeat (Some (TWake t)) (root_wakes V (w_tr V _ w) (w_tr V _ w')) ++ l, if w_over V _ w' then Ready else Pend)
  | Fault => (mkPg (pg_t y) (pg_x y) true, [], Panics)
  | _ => (y, [], Panics)
  end.
(** its drop (mount.rs:19-21, or because it is finished) *)
Definition page_fin (t : nat) (y : page) : page * list (option tact) :=
  let (x, l) := on_drop t (pg_x y) in do_gacts l (mkPg (pg_t y) x (pg_fault y)).

(** the page: code outside the executor does something, or runs, changes the state and does
    several things, depending on the state; a timer fires; an event handler calls run_now
    (core executor.rs:49-79, event_handling.rs:106-113).  Outside code that calls run_now is
    two events. *)
Inductive pev := PDo (a : gact) | PCode (f : X -> X * list gact) | PFire (fuel : nat) | PRun (fuel : nat).
(** code outside the executor that only changes the state (not a part of /repo) *)
Definition PEnv (f : X -> X) : pev := PCode (fun x => (f x, [])).
(** what the executor gets to see of it (core executor.rs:49-79) *)
Definition pevents (y : page) (e : pev) : list (xev page) :=
  match e with
  | PDo a => let (y', l) := do_gact a y in
      XEnv (fun _ => y') :: flat_map (fun o => match o with Some b => [XDo b] | None => [] end) l
  | PCode f => let (x, a) := f (pg_x y) in let (y', l) := do_gacts a (mkPg (pg_t y) x (pg_fault y)) in
      XEnv (fun _ => y') :: flat_map (fun o => match o with Some b => [XDo b] | None => [] end) l
  | PFire f => [XFire f]
  | PRun f => [XRun f]
  end.
(** one step (core executor.rs:49-79) *)
Definition pexec (r : rres (qu page)) (e : pev) : rres (qu page) :=
  match r with
  | Live s | Crashed s => fold_left (xexec page page_step page_fin) (pevents (q_x _ (xs _ s)) e) r
  | Stuck => Stuck
  end.
(** a whole history, from executor.rs:29-32 on *)
Definition prun (x : X) (evs : list pev) : rres (qu page) :=
  fold_left pexec evs (Live (start _ (q_start _ (page0 x)))).
(** mount.rs:23-28 [mount_at] *)
Definition pmount : list pev := [PDo GSpawn; PDo GSchedule].
End Page.
Arguments PDo {X}. Arguments PCode {X}. Arguments PEnv {X}. Arguments PFire {X}. Arguments PRun {X}. Arguments pmount {X}.
