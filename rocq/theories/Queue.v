(** Model of several mounted applications and spawned tasks on one executor:
    async_ui_web/src/executor.rs:27-35 [get_executor] (an [async_executor::LocalExecutor]
    whose [run(pending())] is the main future of Executor.v), mount.rs:23-28 [mount_at],
    and dropping or keeping the returned [Task].

    async_executor 1.5 and async_task are external (Cargo.toml of async_ui_web); modelled
    is what they document and do with one runner on one thread: a task is in the run queue
    at most once, the queue is first in first out, [run] polls at most 200 tasks and then
    yields, a runner that found the queue empty is woken by the next task that is queued,
    and a cancelled task is queued once more to drop its future.

    The futures are arbitrary: [step t x] is a poll of the future of task [t] when the
    state of everything is [x], [fin t x] its drop. *)
From Coq Require Import List Arith Bool.
From Verif Require Import Executor.
Import ListNotations.

(** names a task (async_executor::Task, mount.rs:25) *)
Notation tid := nat (only parsing).

(** what code can do with tasks: wake one, spawn one (executor.rs:18-24), cancel one (drop its
    Task, mount.rs:19-21), call [schedule] (mount.rs:26) *)
Inductive tact := TWake (t : tid) | TSpawn | TCancel (t : tid) | TSchedule.
(** how a poll of a future ends (core executor.rs:58 for the panic) *)
Inductive outcome := Pend | Ready | Panics.

(** for the specification: what happens to tasks *)
Inductive qev :=
| QSpawn (t : tid) | QWake (t : tid) | QCancel (t : tid)
| QPoll (t : tid)     (* a poll of its future begins *)
| QEnd (t : tid)      (* and ends *)
| QDrop (t : tid).    (* its future is dropped *)

(** async_task's state bits SCHEDULED, RUNNING, CLOSED; [gone]: the future was dropped
    (mount.rs:25 spawns the task) *)
Record tstat := mkT { t_sched : bool; t_run : bool; t_closed : bool; t_gone : bool }.

Section Queue.
Variable X : Type.
(** what a future does in a poll; [None] is a call of [run_now] *)
Variable step : tid -> X -> X * list (option tact) * outcome.
Variable fin : tid -> X -> X * list (option tact).

(** the state of async_executor::LocalExecutor (executor.rs:10-12): the run queue, the tasks
    (numbered in the order of spawning), whether the runner waits for a wake-up *)
Record qu := mkQ { q_x : X; q_run : list tid; q_n : nat; q_st : tid -> tstat; q_asleep : bool; q_tr : list qev }.

(** record update: the world the futures share (executor.rs:10-12) *)
Definition q_setx (x : X) (q : qu) : qu := mkQ x (q_run q) (q_n q) (q_st q) (q_asleep q) (q_tr q).
(** record update: the state of one task (executor.rs:10-12) *)
Definition q_sets (t : tid) (s : tstat) (q : qu) : qu :=
  mkQ (q_x q) (q_run q) (q_n q) (fun u => if Nat.eqb u t then s else q_st q u) (q_asleep q) (q_tr q).
(** trace only (of executor.rs:10-12) *)
Definition q_emit (e : qev) (q : qu) : qu := mkQ (q_x q) (q_run q) (q_n q) (q_st q) (q_asleep q) (e :: q_tr q).

(** async_executor: schedule a runnable: into the queue, and wake the runner if it waits;
    its waker is the root waker (core executor.rs:81-89) *)
Definition push (t : tid) (q : qu) : qu * list act :=
  (mkQ (q_x q) (q_run q ++ [t]) (q_n q) (q_st q) false (q_tr q), if q_asleep q then [AWake] else []).

(** async_task: waking, spawning and cancelling a task; core executor.rs:69-79 [schedule] *)
Definition do_tact (a : tact) (q : qu) : qu * list act :=
  match a with
  | TWake t =>
      let q1 := q_emit (QWake t) q in let s := q_st q t in
      if Nat.ltb t (q_n q) && negb (t_gone s) && negb (t_closed s) && negb (t_sched s)
      then let q2 := q_sets t (mkT true (t_run s) false false) q1 in
           if t_run s then (q2, []) else push t q2
      else (q1, [])
  | TSpawn =>
      let t := q_n q in
      push t (mkQ (q_x q) (q_run q) (S t) (q_st (q_sets t (mkT true false false false) q)) (q_asleep q) (QSpawn t :: q_tr q))
  | TCancel t =>
      let q1 := q_emit (QCancel t) q in let s := q_st q t in
      if Nat.ltb t (q_n q) && negb (t_gone s) && negb (t_closed s)
      then if t_sched s || t_run s then (q_sets t (mkT (t_sched s) (t_run s) true false) q1, [])
           else push t (q_sets t (mkT true false true false) q1)
      else (q1, [])
  | TSchedule => (q, [AWake])
  end.
(** what code running in the executor does, in order; [run_now] (core executor.rs:51-64) *)
Fixpoint do_tacts (l : list (option tact)) (q : qu) : qu * list act :=
  match l with
  | [] => (q, [])
  | None :: r => let (q', al) := do_tacts r q in (q', ARun :: al)
  | Some a :: r => let (q1, a1) := do_tact a q in let (q2, a2) := do_tacts r q1 in (q2, a1 ++ a2)
  end.

(** async_task: the future of [t] is dropped (mount.rs:19-21, or because it is finished) *)
Definition drop_fut (t : tid) (q : qu) : qu * list act :=
  let (x, l) := fin t (q_x q) in
  do_tacts l (q_emit (QDrop t) (q_sets t (mkT false false true true) (q_setx x q))).

(** async_task: run one runnable (called from the main future, core executor.rs:58) *)
Definition run_one (t : tid) (q : qu) : qu * list act * bool :=
  if t_closed (q_st q t) then (drop_fut t q, false)
  else
    let '(x, l, o) := step t (q_x q) in
    let (q1, a1) := do_tacts l (q_emit (QPoll t) (q_sets t (mkT false true false false) (q_setx x q))) in
    match o with
    | Panics => (q1, a1, true)
    | Ready => let (q2, a2) := drop_fut t (q_emit (QEnd t) q1) in (q2, a1 ++ a2, false)
    | Pend =>
        let s := q_st q1 t in
        if t_closed s then let (q2, a2) := drop_fut t (q_emit (QEnd t) q1) in (q2, a1 ++ a2, false)
        else
          let q2 := q_emit (QEnd t) (q_sets t (mkT (t_sched s) false false false) q1) in
          if t_sched s then let (q3, a3) := push t q2 in (q3, a1 ++ a3, false) else (q2, a1, false)
    end.

(** async_executor [run]: polls up to [n] tasks, then yields (waking itself); if the queue is
    empty it waits (executor.rs:31) *)
Fixpoint batch (n : nat) (q : qu) : qu * list act * bool :=
  match n with
  | 0 => (q, [AWake], false)
  | S n' =>
      match q_run q with
      | [] => (mkQ (q_x q) [] (q_n q) (q_st q) true (q_tr q), [], false)
      | t :: r =>
          let '(q1, a1, p) := run_one t (mkQ (q_x q) r (q_n q) (q_st q) false (q_tr q)) in
          if p then (q1, a1, true)
          else let '(q2, a2, p2) := batch n' q1 in (q2, a1 ++ a2, p2)
      end
  end.
(** the main future [run(pending())] (executor.rs:31) *)
Definition main_poll : qu -> qu * list act * bool := batch 200.

(** the page: code outside the executor does something with tasks, or changes the world; a
    timer fires; an event handler calls run_now (core executor.rs:49-79) *)
Inductive xev := XDo (a : tact) | XEnv (f : X -> X) | XFire (fuel : nat) | XRun (fuel : nat).
(** what the executor of Executor.v gets to see of it (core executor.rs:49-79) *)
Definition events (q : qu) (e : xev) : list (sev qu) :=
  match e with
  | XDo a => let (q', al) := do_tact a q in SEnv qu (fun _ => q') :: map (fun _ => SWake qu) al
  | XEnv f => [SEnv qu (fun q => q_setx (f (q_x q)) q)]
  | XFire f => [SFire qu f]
  | XRun f => [SRun qu f]
  end.
(** one step (core executor.rs:49-79) *)
Definition xexec (r : rres qu) (e : xev) : rres qu :=
  match r with
  | Live s | Crashed s => fold_left (exec qu main_poll) (events (xs qu s) e) r
  | Stuck => Stuck
  end.
(** the executor when it is created (executor.rs:29-32): no tasks; the runner does not wait,
    it was never polled *)
Definition q_start (x : X) : qu := mkQ x [] 0 (fun _ => mkT false false false false) false [].
(** a whole history, from executor.rs:29-32 on *)
Definition xrun (x : X) (evs : list xev) : rres qu := fold_left xexec evs (Live (start qu (q_start x))).
(** mount.rs:23-28 [mount_at]: spawn and [schedule] *)
Definition mount_at : list xev := [XDo TSpawn; XDo TSchedule].
End Queue.
Arguments XDo {X}. Arguments XEnv {X}. Arguments XFire {X}. Arguments XRun {X}. Arguments mount_at {X}.
