(** Specification for C52 and C53, on the trace of a tree of async blocks (newest event first). *)
From Coq Require Import List Arith Bool.
From Verif Require Import Combinator Tree.
Import ListNotations.

Section Spec.
Variable V : Type.
Notation ev := (ev V).

Definition returned (p : place) (tr : list ev) : Prop := exists v, In (EDone p v) tr.
Definition gone (n : nat) (tr : list ev) : Prop := exists v, In (EGone n v) tr.

(** the block exists, has not returned, and is not below something that was dropped *)
Inductive live (tr : list ev) : place -> Prop :=
| live_root : ~ returned Root tr -> live tr Root
| live_kid n k b p i : In (ENew n k b p) tr -> i < k -> ~ gone n tr -> ~ returned (Kid n i) tr -> live tr p ->
    live tr (Kid n i).

(** the block's waker was woken since its last poll began *)
Fixpoint woken (p : place) (tr : list ev) : bool :=
  match tr with
  | [] => false
  | EWake q :: t => if place_eqb q p then true else woken p t
  | EPoll q :: t => if place_eqb q p then false else woken p t
  | _ :: t => woken p t
  end.

Fixpoint polls (p : place) (tr : list ev) : nat :=
  match tr with [] => 0 | EPoll q :: t => (if place_eqb q p then 1 else 0) + polls p t | _ :: t => polls p t end.
Fixpoint wakes (p : place) (tr : list ev) : nat :=
  match tr with [] => 0 | EWake q :: t => (if place_eqb q p then 1 else 0) + wakes p t | _ :: t => wakes p t end.

(** [P] holds after every event *)
Fixpoint always (P : list ev -> Prop) (tr : list ev) : Prop :=
  match tr with [] => P [] | _ :: t => P tr /\ always P t end.

(** only live blocks are polled (their combinator is not dropped, they have not returned) *)
Definition poll_live (tr : list ev) : Prop :=
  match tr with EPoll p :: t => live t p | _ => True end.

(** what combinator [n] returns: either a child has just given an output that ends it, or
    every child has given one, none of which ends it *)
Definition result_ok (tr : list ev) : Prop :=
  match tr with
  | EGone n v :: t => exists k b p, In (ENew n k b p) t /\
      ((exists i u t', t = EDone (Kid n i) u :: t' /\ i < k /\ b_maybe_return b i u = inl v) \/
       (exists l, length l = k /\ b_when_completed b l = Some v /\
          forall i, i < k -> exists u s, In (EDone (Kid n i) u) t /\ b_maybe_return b i u = inr s /\ nth_error l i = Some s))
  | _ => True
  end.

(** a block's code goes on only when the block is polled and awaits no combinator, or when
    the combinator it awaited has just returned, and then it gets that value (and it awaits no
    other combinator) *)
Definition run_ok (tr : list ev) : Prop :=
  match tr with
  | ERun p None :: t => hd_error t = Some (EPoll p) /\ forall n k b, In (ENew n k b p) t -> gone n t
  | ERun p (Some v) :: t => (exists n k b, hd_error t = Some (EGone n v) /\ In (ENew n k b p) t) /\ forall n k b, In (ENew n k b p) t -> gone n t
  | _ => True
  end.

(** and conversely: when a block is polled that awaits no combinator, its code goes on at once *)
Definition goes_on (tr : list ev) : Prop :=
  forall later p earlier, tr = later ++ EPoll p :: earlier ->
  (forall n k b, In (ENew n k b p) earlier -> gone n earlier) ->
  exists later', later = later' ++ [ERun p None].
End Spec.
Arguments returned {V}. Arguments gone {V}. Arguments live {V}. Arguments woken {V}. Arguments polls {V}. Arguments wakes {V}.
Arguments always {V}. Arguments poll_live {V}. Arguments result_ok {V}. Arguments run_ok {V}. Arguments goes_on {V}.

(** what a program may await: no empty tuple, and a behaviour that has an answer when all
    children have completed, or (race) never collects outputs and waits forever without
    children.  The four behaviours of the library are such (see Props_tree.v). *)
Definition beh_ok {V} (b : behavior V V V) : Prop :=
  (forall l, b_when_completed b l <> None) \/
  (b_pend_if_empty b = true /\ forall i v, exists o, b_maybe_return b i v = inl o).
Definition code_ok {V X} (code : X -> place -> option V -> X * list place * next V) : Prop :=
  forall x p got x' ws k b n, code x p got = (x', ws, NAwait k b n) -> beh_ok b /\ (k = KTuple -> n > 0).
