(** Specification for C60 and C61, on the trace of what happens to tasks (newest first). *)
From Coq Require Import List Arith Bool.
From Verif Require Import Executor Queue.
Import ListNotations.

(** the task was spawned and its future is not dropped yet *)
Fixpoint alive (t : nat) (tr : list qev) : bool :=
  match tr with
  | [] => false
  | QSpawn u :: r => Nat.eqb u t || alive t r
  | QDrop u :: r => negb (Nat.eqb u t) && alive t r
  | _ :: r => alive t r
  end.
(** it was cancelled *)
Fixpoint cancelled (t : nat) (tr : list qev) : bool :=
  match tr with
  | [] => false
  | QCancel u :: r => Nat.eqb u t && alive t r || cancelled t r
  | _ :: r => cancelled t r
  end.
(** the executor owes the task attention: since its last poll began it was spawned, woken or
    cancelled, and its future is not dropped yet *)
Fixpoint owed (t : nat) (tr : list qev) : bool :=
  match tr with
  | [] => false
  | QSpawn u :: r => Nat.eqb u t || owed t r
  | QWake u :: r | QCancel u :: r => Nat.eqb u t && alive t r || owed t r
  | QPoll u :: r | QDrop u :: r => negb (Nat.eqb u t) && owed t r
  | QEnd _ :: r => owed t r
  end.
(** the task that is being polled *)
Fixpoint being_polled (tr : list qev) : option nat :=
  match tr with
  | [] => None
  | QPoll t :: _ => Some t
  | QEnd _ :: _ => None
  | _ :: r => being_polled r
  end.
(** C61: when each event may happen *)
Definition ev_ok (e : qev) (r : list qev) : Prop :=
  match e with
  | QPoll t => owed t r = true /\ alive t r = true /\ cancelled t r = false /\ being_polled r = None
  | QEnd t => being_polled r = Some t
  | QDrop t => alive t r = true /\ being_polled r = None
  | QSpawn t => ~ In (QSpawn t) r
  | _ => True
  end.
Fixpoint legal (tr : list qev) : Prop :=
  match tr with [] => True | e :: r => ev_ok e r /\ legal r end.
(** the number of polls of a task *)
Definition polls (t : nat) (tr : list qev) : nat :=
  length (filter (fun e => match e with QPoll u => Nat.eqb u t | _ => false end) tr).
(** which tasks were polled, oldest first *)
Definition pollseq (tr : list qev) : list nat := flat_map (fun e => match e with QPoll t => [t] | _ => [] end) (rev tr).
(** Futures that keep a record of how their polls ended: [ends x], oldest first *)
Definition keeps_ends {X} (ends : X -> list (nat * outcome)) (step : nat -> X -> X * list (option tact) * outcome)
  (fin : nat -> X -> X * list (option tact)) (evs : list (xev X)) : Prop :=
  (forall t x x' l o, step t x = (x', l, o) -> ends x' = ends x ++ [(t, o)]) /\
  (forall t x x' l, fin t x = (x', l) -> ends x' = ends x) /\
  (forall f x, In (XEnv f) evs -> ends (f x) = ends x).
