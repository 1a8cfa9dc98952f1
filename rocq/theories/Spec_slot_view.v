(** Specification for C70: a block of a page that awaits the render future of a DynamicSlot. *)
From Coq Require Import List Arith Bool.
From Verif Require Import Arena Combinator Tree Page Spec_view Slot Spec_slot.
Import ListNotations.

(** [l] wakes the blocks whose wakers the slot woke between [s] and [s'] *)
Definition slot_tells {Y} (s s' : st Y) (l : list gact) : Prop :=
  exists new, tr Y s' = new ++ tr Y s /\
  forall wk u q, In (TWake wk) new -> w_task wk = Some (block_task u q) -> In (GWake u q) l.
(** Block [p] of application [t] awaits [slot.render()].  All code may call set_future and
    clear_future, also the slotted futures while they are polled or dropped. *)
Definition slot_view {Y V X} (ww : waker -> waker -> bool) (poll : Y -> nat -> waker -> Y * list act * bool) (dropf : Y -> nat -> Y * list act)
  (sl : X -> st Y) (on : X -> bool) (t : nat) (p : place)
  (code : nat -> X -> place -> option V -> X * list gact * Tree.next V) (on_drop : nat -> X -> X * list gact) (evs : list (pev X)) : Prop :=
  part_view (st Y) (op Y) (fun s o s' => Slot.exec ww Y poll dropf s o = Some s') slot_tells
    (fun o => match o with OPoll _ wk => Some wk | _ => None end)
    (fun s o s' => Slot.alive Y s = true) (* the render future never completes *)
    (fun s => exists y ops, Slot.run ww Y poll dropf y ops = Some s) sl on t p code on_drop evs.
(** since the last call of set_future or clear_future, the render future has been polled *)
Fixpoint taken_up (t : list ev) : bool :=
  match t with
  | [] => false
  | TPoll _ :: _ => true
  | TSet _ :: _ | TClear :: _ => false
  | _ :: t' => taken_up t'
  end.
(** a call of set_future or clear_future *)
Definition sets (e : ev) : bool := match e with TSet _ | TClear => true | _ => false end.
