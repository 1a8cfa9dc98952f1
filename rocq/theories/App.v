(** Model of a whole program: a tree of async blocks (Tree.v) as the main future of the
    root executor (Executor.v), with wakes of any block's waker from outside.

    Simplifications: the tree is given to the executor directly (async_ui_web puts
    [async_executor::LocalExecutor], which is not part of this repository, between them);
    a main future that has returned is not polled again (the one async_ui_web uses never
    returns); [run_now] called inside a poll, which does nothing (C23), is left out. *)
From Coq Require Import List Arith Bool.
From Verif Require Import Arena Readiness Combinator Tree Spec_tree Executor.
Import ListNotations.

Section App.
Variables V X : Type.
Variable ww : waker -> waker -> bool.
Variable debug : bool.
Variable code : X -> place -> option V -> X * list place * next V.
(** the bound on the length of one poll (irrelevant if large enough, see Props_tree.v) *)
Variable bound : nat.
Notation tree := (world V X).

(** how often the root's waker is woken from trace [t] to the longer trace [t']
    [counts for the statements; the waker of async_ui_web_core/src/executor.rs:81-89] *)
Definition root_wakes (t t' : list (Tree.ev V)) : nat := wakes Root t' - wakes Root t.

(** executor.rs:55-60: one poll of the main future; the root's waker calls [schedule]
    (executor.rs:81-89).  A poll that panics, or exceeds the bound, ends the program. *)
Definition poll_main (w : tree) : tree * list act * bool :=
  match Tree.exec V X ww debug code w (HPoll bound 0) with
  | Done w' => (w', repeat AWake (root_wakes (w_tr V X w) (w_tr V X w')), false)
  | _ => (w, [], true)
  end.

(** what happens: the program is started (mount.rs:26-28 calls [schedule]), the waker of
    some block is woken (by a cell, a stream, ...), a timer fires, an event handler calls
    run_now, the state changes *)
Inductive aev := AStart | AWakeB (p : place) | AFire (fuel : nat) | ARunNow (fuel : nat) | AEnvB (f : X -> X).
(** one step: core executor.rs:49-78 for the timers and run_now, Tree.v for what a poll of the application does *)
Definition app_exec (r : rres tree) (e : aev) : rres tree :=
  match e with
  | AStart => exec tree poll_main r (SWake tree)
  | AFire f => exec tree poll_main r (SFire tree f)
  | ARunNow f => exec tree poll_main r (SRun tree f)
  | AEnvB f => exec tree poll_main r (SEnv tree (fun w => Tree.set_x V X (f (w_x V X w)) w))
  | AWakeB p =>
      match r with
      | Live s =>
          match Tree.exec V X ww debug code (xs tree s) (HWake p) with
          | Done w' =>
              fold_left (exec tree poll_main)
                (repeat (SWake tree) (root_wakes (w_tr V X (xs tree s)) (w_tr V X w')))
                (exec tree poll_main r (SEnv tree (fun _ => w')))
          | _ => Crashed s
          end
      | _ => r
      end
  end.
(** a whole history, beginning before mount.rs:23-28 [mount_at] wakes the application *)
Definition app_run (x : X) (evs : list aev) : rres tree := fold_left app_exec evs (Live (start tree (Tree.start V X x))).
End App.
Arguments AStart {X}. Arguments AWakeB {X}. Arguments AFire {X}. Arguments ARunNow {X}. Arguments AEnvB {X}.
