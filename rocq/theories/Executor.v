(** Model of /repo/async_ui_web_core/src/executor.rs: the root executor.

    The main future is arbitrary: a state of type [X] and a function giving, for a
    poll, the new state, what it does meanwhile that concerns the executor, and
    whether it panics.  It is set from the start: async_ui_web/src/executor.rs:27-33
    [get_executor] calls [set_executor_future] before anything can be spawned or
    scheduled, and mount.rs:26-28 calls [get_executor] before [schedule]. *)
From Coq Require Import List Arith Bool.
Import ListNotations.

(** what code running inside a poll of the main future may do: wake the root waker
    (executor.rs:81-89, or call [schedule] itself), or call [run_now] (as every event
    handler does when an event is dispatched synchronously) *)
Inductive act := AWake | ARun.

(** ghost: not code of /repo *)
Inductive ev :=
| EWake      (* the main future is woken *)
| ETimer     (* set_timeout is called *)
| EPoll      (* a poll of the main future begins *)
| EEnd       (* it ends *)
| EPanic     (* it panics *)
| ERun       (* run_now is called while the executor is not running *)
| ERet       (* and returns *)
| ENested.   (* run_now is called while the executor is running, and returns *)

Section Exec.
Variable X : Type.
Variable poll : X -> X * list act * bool.

(** executor.rs:20-26 [ExecutorSingleton]; [timers] is the number of callbacks given
    to set_timeout that have not run yet *)
Record ex := mkEx { scheduled : bool; active : bool; timers : nat; xs : X; tr : list ev }.
(** records an event (trace only) [ghost] *)
Definition emit (e : ev) (s : ex) : ex := mkEx (scheduled s) (active s) (timers s) (xs s) (e :: tr s).

(** executor.rs:69-79 [schedule] *)
Definition schedule (s : ex) : ex :=
  let s1 := mkEx true (active s) (timers s) (xs s) (EWake :: tr s) in
  if negb (scheduled s) && negb (active s)
  then mkEx true (active s) (S (timers s)) (xs s) (ETimer :: tr s1)
  else s1.

(** what happens inside a poll; [run_now] there finds [active] set [executor.rs:20-64] *)
Definition do_act (s : ex) (a : act) : ex :=
  match a with AWake => schedule s | ARun => emit ENested s end.

(** how a run ends: returned; the main future panicked (a trap in wasm); not enough fuel for the loop of core executor.rs:54-59 *)
Inductive rres := Live (s : ex) | Crashed (s : ex) | Stuck.

(** executor.rs:55-60: the loop of [run_now]; [fuel] bounds the number of polls *)
Fixpoint run_loop (fuel : nat) (s : ex) : rres :=
  match fuel with
  | 0 => Stuck
  | S fuel' =>
      if scheduled s then
        let s1 := mkEx false (active s) (timers s) (xs s) (EPoll :: tr s) in
        let '(x, acts, panics) := poll (xs s1) in
        let s2 := fold_left do_act acts (mkEx (scheduled s1) (active s1) (timers s1) x (tr s1)) in
        if panics then Crashed (emit EPanic s2) else run_loop fuel' (emit EEnd s2)
      else Live (mkEx false false (timers s) (xs s) (ERet :: tr s))
  end.
(** executor.rs:51-64 [run_now] *)
Definition run_now (fuel : nat) (s : ex) : rres :=
  if active s then Live (emit ENested s)
  else run_loop fuel (mkEx (scheduled s) true (timers s) (xs s) (ERun :: tr s)).

(** the event loop: the main future is woken from outside, a timer fires, an event
    handler calls run_now, the state of the main future is changed from outside
    [executor.rs:20-89] *)
Inductive sev := SWake | SFire (fuel : nat) | SRun (fuel : nat) | SEnv (f : X -> X).
(** one step of the event loop: core executor.rs:49-78 *)
Definition exec1 (s : ex) (e : sev) : rres :=
  match e with
  | SWake => Live (schedule s)
  | SFire f =>
      match timers s with
      | 0 => Live s
      | S n => run_now f (mkEx (scheduled s) (active s) n (xs s) (tr s))
      end
  | SRun f => run_now f s
  | SEnv f => Live (mkEx (scheduled s) (active s) (timers s) (f (xs s)) (tr s))
  end.
(** After a panic the page goes on: a panic is a trap in wasm, which unwinds nothing,
    so [active] (core executor.rs:53) stays set; later events meet that state. *)
Definition exec (r : rres) (e : sev) : rres :=
  match r with
  | Live s => exec1 s e
  | Crashed s => match exec1 s e with Live s' => Crashed s' | r' => r' end
  | Stuck => Stuck
  end.
(** core executor.rs:28-37 [ExecutorSingleton::new], with the future already set *)
Definition start (x : X) : ex := mkEx false false 0 x [].
(** a whole history [a history; not a function of /repo] *)
Definition run (x : X) (evs : list sev) : rres := fold_left exec evs (Live (start x)).
End Exec.
Arguments Live {X}. Arguments Crashed {X}. Arguments Stuck {X}.
