(** Specification for C21. *)
From Coq Require Import List Arith.
From Verif Require Import SharedArc.
Import ListNotations.

(** somebody still needs the storage of combinator [id]: the combinator itself, or the
    holder of one of its wakers *)
Definition in_use (s : state) (id : nat) : Prop :=
  In id (map ws_id (st_sets s)) \/ In id (map k_id (st_held s)).
Definition allocated (s : state) (id : nat) : Prop :=
  exists raw a, h_arcs (st_heap s) raw = Some a /\ a_id a = id.

(** the child (of a combinator) an operation wakes *)
Definition wakes (s : state) (o : op) : list (nat * nat) :=
  match o with
  | WakeRef k | Wake k =>
      match nth_error (st_held s) k with Some w => [(k_id w, k_index w)] | None => [] end
  | WakeOwn c i =>
      match nth_error (st_sets s) c with
      | Some w => match nth_error (ws_wakers w) i with Some _ => [(ws_id w, i)] | None => [] end
      | None => []
      end
  | _ => []
  end.
