(** Specification for C55: what the user of a VirtualizedList sees. *)
From Coq Require Import List Arith Bool QArith.
From Verif Require Import Virtual VGeom.
Import ListNotations.
Local Open Scope Q_scope.

(** some point of the viewport lies in one of the spacers, so the user sees a hole *)
Definition hole (h : Q) (p : page) : Prop :=
  exists y, p_r0 p < y < p_r1 p /\
    (p_f0 p <= y < front_end p \/ back_start h p <= y < back_end h p).
(** where the [j]-th of the rendered items begins *)
Definition place (h : Q) (p : page) (j : nat) : Q := front_end p + nQ j * h.
(** how long the whole list is, spacers included *)
Definition extent (h : Q) (p : page) : Q := back_end h p - p_f0 p.
(** the viewport always has a positive size *)
Definition sizes_ok (ops : list gop) : Prop :=
  forall f0 r0 r1, In (GMove f0 r0 r1) ops -> r0 < r1.
(** set_num_items is only called with numbers that do not fall (rise) *)
Fixpoint rising (n : nat) (ops : list gop) : Prop :=
  match ops with
  | [] => True
  | GNum m :: t => (n <= m)%nat /\ rising m t
  | _ :: t => rising n t
  end.
Fixpoint falling (n : option nat) (ops : list gop) : Prop :=
  match ops with
  | [] => True
  | GNum m :: t => match n with None => True | Some k => (m <= k)%nat end /\ falling (Some m) t
  | _ :: t => falling n t
  end.
