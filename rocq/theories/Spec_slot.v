(** Specification for C26 and C27, on the trace (newest event first). *)
From Coq Require Import List Arith Bool.
From Verif Require Import Arena Spec_arena Slot.
Import ListNotations.

(** the future given by the last call of set_future or clear_future *)
Fixpoint current (t : list ev) : option nat :=
  match t with
  | [] => None
  | TSet f :: _ => Some f
  | TClear :: _ => None
  | _ :: t' => current t'
  end.
(** the waker of the last poll of the render future *)
Fixpoint last_poll (t : list ev) : option waker :=
  match t with
  | [] => None
  | TPoll w :: _ => Some w
  | _ :: t' => last_poll t'
  end.
(** the polls of slotted futures, with their wakers *)
Fixpoint polled (t : list ev) : list (nat * waker) :=
  match t with
  | [] => []
  | TFut f w :: t' => (f, w) :: polled t'
  | _ :: t' => polled t'
  end.
(** how often [f] was dropped *)
Fixpoint drops (f : nat) (t : list ev) : nat :=
  match t with
  | [] => 0
  | TDrop g :: t' => (if g =? f then 1 else 0) + drops f t'
  | _ :: t' => drops f t'
  end.

(** set_future or clear_future has been called and has not woken the slot yet *)
Fixpoint owed (t : list ev) : bool :=
  match t with
  | TSet _ :: _ | TClear :: _ => true
  | TDrop _ :: t' => owed t'
  | _ => false
  end.
(** every call wakes the task of the last poll, before anything else happens except
    dropping a future that was replaced *)
Definition step_ok (e : ev) (t : list ev) : Prop :=
  if owed t then
    match e with
    | TDrop _ => True
    | TWake w => match last_poll t with Some w' => same_task w w' | None => True end
    | _ => False
    end
  else match e with TWake _ => False | _ => True end.
Fixpoint always (P : ev -> list ev -> Prop) (t : list ev) : Prop :=
  match t with [] => True | e :: t' => P e t' /\ always P t' end.
