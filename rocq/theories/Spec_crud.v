(** Specification for C88: the persons the user entered, told without the program. *)
From Coq Require Import List Arith.
From Verif Require Import Crud.
Import ListNotations.

Section Spec.
Variable T : Type.
Variable blank : T.
Variable fmt : T -> T -> T.
(** the persons in order (each with its number), which one is picked, how many were ever made, and what stands in the two name fields *)
Record book := mkB { people : list (nat * T); picked : option nat; made : nat; name : T; surname : T }.
(** at first *)
Definition empty : book := mkB [] None 0 blank blank.
(** picking some: the first of the list that is among them *)
Definition first (ids : list nat) (l : list (nat * T)) : option nat :=
  option_map fst (find (fun p => if in_dec Nat.eq_dec (fst p) ids then true else false) l).
(** this person is picked *)
Definition is_picked (b : book) (i : nat) : bool := match picked b with Some j => Nat.eqb j i | None => false end.
(** what each action means; Update and Delete are about the person that is picked *)
Definition acted (b : book) (e : event T) : book :=
  match e with
  | TypeName _ t => mkB (people b) (picked b) (made b) t (surname b)
  | TypeSurname _ t => mkB (people b) (picked b) (made b) (name b) t
  | TypeFilter _ _ => b
  | Pick _ ids => mkB (people b) (first ids (people b)) (made b) (name b) (surname b)
  | Create _ => mkB (people b ++ [(S (made b), fmt (surname b) (name b))]) (picked b) (S (made b)) (name b) (surname b)
  | Update _ => mkB (map (fun p => if is_picked b (fst p) then (fst p, fmt (surname b) (name b)) else p) (people b)) (picked b) (made b) (name b) (surname b)
  | Delete _ => mkB (filter (fun p => negb (is_picked b (fst p))) (people b)) None (made b) (name b) (surname b)
  end.
(** the persons after a history *)
Definition told (l : list (event T)) : book := fold_left acted l empty.
(** Update and Delete are clicked only while a person is picked *)
Definition careful (l : list (event T)) : Prop :=
  forall a e c, l = a ++ e :: c -> e = Update T \/ e = Delete T -> picked (told a) <> None.
End Spec.
