(** Specification for C78: when the children of a combinator begin. *)
From Coq Require Import List Arith.
From Verif Require Import Combinator Tree Spec_tree.
Import ListNotations.

(** [below tr n q]: block [q] is a child of combinator [n], or below one *)
Inductive below {V} (tr : list (ev V)) (n : nat) : place -> Prop :=
| below_kid i : below tr n (Kid n i)
| below_deep m k b p i : In (ENew m k b p) tr -> below tr n p -> below tr n (Kid m i).
(** the code of the block has begun *)
Definition begun {V} (p : place) (tr : list (ev V)) : Prop := exists got, In (ERun p got) tr.
(** combinator [n] was made and has not returned, and some child of it has not begun *)
Definition beginning {V} (n : nat) (tr : list (ev V)) : Prop :=
  exists k b p i, In (ENew n k b p) tr /\ ~ gone n tr /\ i < k /\ ~ begun (Kid n i) tr.
(** when code goes on, it is below every such combinator *)
Definition first_polls {V} (tr : list (ev V)) : Prop :=
  match tr with ERun q _ :: t => forall n, beginning n t -> below t n q | _ => True end.
