(** Specification for C62: when an element has a class. *)
From Coq Require Import List Bool Ascii Arith.
From Verif Require Import ClassList.
Import ListNotations.

(** whitespace: tab, line feed, form feed, carriage return, space *)
Definition blank (x : ascii) : bool := existsb (Nat.eqb (nat_of_ascii x)) [9; 10; 12; 13; 32].
(** [c] is one of the words of [s]: it is not empty, contains no whitespace, and has on each
    side whitespace or the end of [s] *)
Definition word (c s : str) : Prop :=
  c <> [] /\ (forall x, In x c -> blank x = false) /\
  exists l r, s = l ++ c ++ r /\
    (l = [] \/ exists l' x, l = l' ++ [x] /\ blank x = true) /\
    (r = [] \/ exists x r', r = x :: r' /\ blank x = true).
(** the element with class attribute [a] has the class [c] *)
Definition has_class (c : str) (a : option str) : Prop := exists s, a = Some s /\ word c s.

(** a proper class name *)
Definition class_name (c : str) : Prop := c <> [] /\ (forall x, In x c -> blank x = false).
(** the names given to a call *)
Definition names (o : cop) : list str :=
  match o with AddClass c | DelClass c | SetClass c _ => [c] | AddClasses cs | DelClasses cs => cs end.
(** the call puts the names it is given on the element *)
Definition adds (o : cop) : bool :=
  match o with AddClass _ | AddClasses _ => true | DelClass _ | DelClasses _ => false | SetClass _ b => b end.
(** whether the element should have the class [c] after the calls [l]: the last call that
    names it decides; if none does, it is as before ([b]) *)
Fixpoint should_have (c : str) (l : list cop) (b : Prop) : Prop :=
  match l with
  | [] => b
  | o :: r => should_have c r ((In c (names o) /\ adds o = true) \/ (~ In c (names o) /\ b))
  end.
