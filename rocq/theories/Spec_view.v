(** Specification for C67: views.  A view is a block of an application that keeps something up to
    date (say, the text of an element) with the state. *)
From Coq Require Import List Arith Bool Cantor.
From Verif Require Import Arena Combinator Tree Page Cell Spec_cell.
Import ListNotations.

(** the code of block [p] has run, and since it last ran the block has not returned and has
    created no combinator: it awaits a future of its own (a cell, a timer, an event, ...) *)
Fixpoint at_leaf {V} (p : place) (tr : list (ev V)) : bool :=
  match tr with
  | [] => false
  | ERun q _ :: t => if place_eqb q p then true else at_leaf p t
  | ENew _ _ _ q :: t => if place_eqb q p then false else at_leaf p t
  | EDone q _ :: t => if place_eqb q p then false else at_leaf p t
  | _ :: t => at_leaf p t
  end.

(** [view_of J fresh t p ...]: block [p] of application [t] is such a view.
    [fresh x]: in the state [x], what it shows is up to date; [J x]: what all code may rely on.
    - Its own code, when it goes on and then awaits a future of its own, brings it up to date,
      or wakes its waker to be run again.
    - All other code (of blocks, of code run when an application is dropped, of event
      handlers), if it makes the view out of date, wakes the view's waker. *)
Definition view_of {V X} (J fresh : X -> Prop) (t : nat) (p : place)
  (code : nat -> X -> place -> option V -> X * list gact * next V) (on_drop : nat -> X -> X * list gact) (evs : list (pev X)) : Prop :=
  (forall x got x' l nx, J x -> code t x p got = (x', l, nx) ->
     nx = NPanic \/ J x' /\ (nx = NPend -> fresh x' \/ In (GWake t p) l)) /\
  (forall u x q got x' l nx, u <> t \/ q <> p -> J x -> code u x q got = (x', l, nx) ->
     nx = NPanic \/ J x' /\ (fresh x -> fresh x' \/ In (GWake t p) l)) /\
  (forall u x x' l, J x -> on_drop u x = (x', l) -> J x' /\ (fresh x -> fresh x' \/ In (GWake t p) l)) /\
  (forall f x x' l, In (PCode f) evs -> J x -> f x = (x', l) -> J x' /\ (fresh x -> fresh x' \/ In (GWake t p) l)).

(** ** A view made with [ReactiveCell::for_each] *)
(** the task of the waker of block [q] of application [u] *)
Definition block_task (u : nat) (q : place) : nat := Cantor.to_nat (u, task_of q).
(** [l] wakes the blocks whose wakers the cell woke *)
Definition does_wakes (o : cout) (l : list gact) : Prop :=
  match o with
  | OWoken ws => forall wk u q, In wk ws -> w_task wk = Some (block_task u q) -> In (GWake u q) l
  | _ => True
  end.
(** [uses ok w l w']: code that uses the cell (and its for_each futures) in the state [w], in any
    way that Rust allows, by steps that are [ok], and leaves it in the state [w']; the cell's
    wakes are among [l] *)
Inductive uses {T} (ww : waker -> waker -> bool) (fuel : nat) (ok : fev T -> Prop) : fworld T -> list gact -> fworld T -> Prop :=
| uses_end w l : uses ww fuel ok w l w
| uses_step w l e w1 o w' : ok e -> fallowed T w e -> fexec T ww fuel w e = Some (w1, o) -> does_wakes o l ->
    uses ww fuel ok w1 l w' -> uses ww fuel ok w l w'.
(** Block [p] of application [t] awaits the for_each future [j] of a cell, as in
    [cell.for_each(f).await]: whenever its code has gone on and the block then waits there ([on]:
    the program is at this await), it has polled the future with its own waker.  Before and after,
    it may do anything else, await combinators and return.  No other code polls this future
    (other code may drop it).  All code may use the cell in any other way. *)
Definition for_each_view {T V X} (ww : waker -> waker -> bool) (fuel : nat) (v0 : T) (cw : X -> fworld T) (on : X -> bool) (j t : nat) (p : place)
  (code : nat -> X -> place -> option V -> X * list gact * next V) (on_drop : nat -> X -> X * list gact) (evs : list (pev X)) : Prop :=
  let used x := exists ftr, fhist T ww fuel v0 ftr (cw x) in
  let own := uses ww fuel (fun e => forall wk, e = FPoll T j wk -> w_task wk = Some (block_task t p)) in
  let other := uses ww fuel (fun e => forall wk, e <> FPoll T j wk) in
  let others x l x' := other (cw x) l (cw x') /\ (on x' = true -> on x = true) in
  (forall x got x' l nx, used x -> code t x p got = (x', l, nx) ->
     nx = NPanic \/
     own (cw x) l (cw x') /\
     (nx = NPend -> on x' = true -> exists w wk o w', w_task wk = Some (block_task t p) /\ own (cw x) l w /\
       fallowed T w (FPoll T j wk) /\ fexec T ww fuel w (FPoll T j wk) = Some (w', o) /\ other w' l (cw x'))) /\
  (forall u x q got x' l nx, u <> t \/ q <> p -> used x -> code u x q got = (x', l, nx) -> nx = NPanic \/ others x l x') /\
  (forall u x x' l, used x -> on_drop u x = (x', l) -> others x l x') /\
  (forall f x x' l, In (PCode f) evs -> used x -> f x = (x', l) -> others x l x').

(** ** A view of any other part of the shared state *)
Section Part.
(** [step s o s']: the operation [o] leads from [s] to [s'].  [tells s s' l]: [l] wakes the blocks
    whose wakers were woken between [s] and [s'].  [polls o]: the waker with which [o] polls the
    future that the view awaits, if it does.  [pending s o s']: this poll returned Pending. *)
Variables (S O : Type) (step : S -> O -> S -> Prop) (tells : S -> S -> list gact -> Prop) (polls : O -> option waker) (pending : S -> O -> S -> Prop).
(** any number of operations that are [ok] *)
Inductive part_uses (ok : O -> Prop) : S -> list gact -> S -> Prop :=
| part_end s l : part_uses ok s l s
| part_step s l o s1 s' : ok o -> step s o s1 -> tells s s1 l -> part_uses ok s1 l s' -> part_uses ok s l s'.
(** Block [p] of application [t] awaits that future: whenever its code has gone on and the block
    then waits there ([on]: the program is at this await), it has polled the future with its own
    waker, and it was pending.  Before and after, it may do anything else, await combinators and
    return.  No other code polls this future.  All code may do anything else. *)
Definition part_view {V X} (reached : S -> Prop) (st : X -> S) (on : X -> bool) (t : nat) (p : place)
  (code : nat -> X -> place -> option V -> X * list gact * next V) (on_drop : nat -> X -> X * list gact) (evs : list (pev X)) : Prop :=
  let own := part_uses (fun o => forall wk, polls o = Some wk -> w_task wk = Some (block_task t p)) in
  let other := part_uses (fun o => polls o = None) in
  let others x l x' := other (st x) l (st x') /\ (on x' = true -> on x = true) in
  (forall x got x' l nx, reached (st x) -> code t x p got = (x', l, nx) ->
     nx = NPanic \/
     own (st x) l (st x') /\
     (nx = NPend -> on x' = true -> exists s o wk s', own (st x) l s /\
       polls o = Some wk /\ w_task wk = Some (block_task t p) /\ step s o s' /\ tells s s' l /\ pending s o s' /\ other s' l (st x'))) /\
  (forall u x q got x' l nx, u <> t \/ q <> p -> reached (st x) -> code u x q got = (x', l, nx) -> nx = NPanic \/ others x l x') /\
  (forall u x x' l, reached (st x) -> on_drop u x = (x', l) -> others x l x') /\
  (forall f x x' l, In (PCode f) evs -> reached (st x) -> f x = (x', l) -> others x l x').
End Part.
