(** Specification for C69: a block of a page that awaits the events of an element. *)
From Coq Require Import List Arith Bool.
From Verif Require Import Arena Combinator Tree Page Spec_view Event Spec_event.
Import ListNotations.

(** [l] wakes the blocks whose wakers the listeners woke between [x] and [x'] *)
Definition event_tells (x x' : Event.page) (l : list gact) : Prop :=
  exists new, tr (pg_w x') = new ++ tr (pg_w x) /\
  forall wk u q, In (TWake wk) new -> w_task wk = Some (block_task u q) -> In (GWake u q) l.
(** Block [p] of application [t] awaits the event stream [s], as in
    [button.until_click().await] in a loop.  All code may make, poll and drop any other streams (also
    drop [s]), dispatch events and stop their propagation; the browser dispatches events
    in the handlers. *)
Definition event_view {V X} (ww : waker -> waker -> bool) (ew : X -> Event.page) (on : X -> bool) (s t : nat) (p : place)
  (code : nat -> X -> place -> option V -> X * list gact * Tree.next V) (on_drop : nat -> X -> X * list gact) (evs : list (pev X)) : Prop :=
  part_view Event.page op (fun x o x' => x' = Event.exec ww x o) event_tells
    (fun o => match o with Basic (BPoll i wk) => if i =? s then Some wk else None | _ => None end)
    (fun x o x' => exists wk, tr (pg_w x') = TPoll s wk None :: tr (pg_w x))
    (fun x => exists ops, Event.run ww ops = x) ew on t p code on_drop evs.
