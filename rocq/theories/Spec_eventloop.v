(** What a component that waits for events in a loop has to do, told from the history alone. *)
From Coq Require Import List Arith Bool.
From Verif Require Import EventLoop.
Import ListNotations.

(** does this step let the executor run? *)
Definition runs (e : pev) : bool := match e with PEvents _ => false | _ => true end.
(** the last of these events at target [i] *)
Definition latest (i : nat) (l : list (nat * nat)) : nat := last (map snd (filter (fun te => fst te =? i) l)) 0.
(** The events that count, each a target and a number.  Nothing does before the executor has run for the first
    time: nothing listens yet.  Of events that are dispatched together, before the executor runs again, one:
    its target is that of the first at one of the [n] targets, and it is the last one there. *)
Fixpoint counted (n : nat) (on : bool) (evs : list pev) : list (nat * nat) :=
  match evs with
  | [] => []
  | PEvents l :: t =>
      match (if on then find (fun i => i <? n) (map fst l) else None) with Some i => [(i, latest i l)] | None => [] end ++ counted n on t
  | _ :: t => counted n true t
  end.
(** has the component been polled? *)
Definition begun (evs : list pev) : bool := existsb runs evs.
(** every step dispatches at most one event, as the browser does *)
Definition alone (e : pev) : Prop := match e with PEvents l => length l <= 1 | _ => True end.
(** all events, in order *)
Definition dispatched (evs : list pev) : list (nat * nat) := flat_map (fun e => match e with PEvents l => l | _ => [] end) evs.
