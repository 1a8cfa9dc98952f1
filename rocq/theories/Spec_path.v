(** Specification vocabulary: combinator paths, written outermost index first,
    with the usual lexicographic order ("a node precedes everything nested under
    it; otherwise the first differing index decides"). Independent of the model. *)
From Coq Require Import List NArith.
Import ListNotations.
Local Open Scope N_scope.

Definition path := list N.

Inductive path_lt : path -> path -> Prop :=
| lt_nil : forall y b, path_lt [] (y :: b)
| lt_head : forall x y a b, x < y -> path_lt (x :: a) (y :: b)
| lt_tail : forall x a b, path_lt a b -> path_lt (x :: a) (x :: b).

(** [under p q]: q is p or is nested in p *)
Definition under (p q : path) : Prop := exists r, q = p ++ r.

(** the children of a node are indexed by 32-bit integers *)
Definition indices_ok (p : path) : Prop := Forall (fun i => i < 4294967295) p.
