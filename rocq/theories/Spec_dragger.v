(** Specification for C89: drags as the browser reports them. *)
From Coq Require Import List Arith Bool.
From Verif Require Import Dragger.
Import ListNotations.

(** The HTML standard's order of the events: one drag at a time; it starts, hovers over items, is perhaps dropped, and ends. *)
Inductive phase := Free | Dragging (i : nat) | Done (i : nat).
Fixpoint browser (p : phase) (l : list event) : Prop :=
  match l with
  | [] => True
  | e :: t =>
      match p, e with
      | Free, DStart i _ => browser (Dragging i) t
      | Dragging i, DOver _ _ | Dragging i, DLeave _ _ => browser (Dragging i) t
      | Dragging i, DDrop _ => browser (Done i) t
      | Dragging i, DEnd j | Done i, DEnd j => i = j /\ browser Free t
      | _, _ => False
      end
  end.
(** The moves: for each drop what was dragged, where it was dropped, and the side where the pointer last was over another item. *)
Fixpoint moves (dragged : nat) (side : bool) (l : list event) : list (nat * nat * bool) :=
  match l with
  | [] => []
  | DStart i _ :: t => moves i side t
  | DOver i gt :: t => moves dragged (if Nat.eqb i dragged then side else gt) t
  | DDrop j :: t => (dragged, j, side) :: moves dragged side t
  | _ :: t => moves dragged side t
  end.
(** The room made beside item [i]: none, or before it, or after it, of the size of what is dragged; it is made when something else is dragged over
    the item, and goes when the pointer leaves the item itself or there is a drop on it. *)
Fixpoint room (i dragged size : nat) (now : nat * nat) (l : list event) : nat * nat :=
  match l with
  | [] => now
  | DStart j sz :: t => room i j sz now t
  | DOver j gt :: t => room i dragged size (if Nat.eqb j i && negb (Nat.eqb j dragged) then (if gt then (0, size) else (size, 0)) else now) t
  | DLeave j own :: t => room i dragged size (if Nat.eqb j i && own then (0, 0) else now) t
  | DDrop j :: t => room i dragged size (if Nat.eqb j i then (0, 0) else now) t
  | DEnd _ :: t => room i dragged size now t
  end.
(** in every drag, every item the pointer was over is left, or dropped on, before the drag ends *)
Fixpoint tidy (i : nat) (over : bool) (l : list event) : Prop :=
  match l with
  | [] => True
  | DOver j _ :: t => tidy i (if Nat.eqb j i then true else over) t
  | DLeave j own :: t => tidy i (if Nat.eqb j i && own then false else over) t
  | DDrop j :: t => tidy i (if Nat.eqb j i then false else over) t
  | DEnd _ :: t => over = false /\ tidy i false t
  | DStart _ _ :: t => tidy i over t
  end.
