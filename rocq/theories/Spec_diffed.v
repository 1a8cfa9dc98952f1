(** Specification for C81: what the calls made by DiffedList.update do to one key. *)
From Coq Require Import List Arith Bool.
From Verif Require Import Spec_list DynList Calls.
Import ListNotations.

(** the key that a call inserts, moves or removes *)
Definition inserts (k : key) (c : dcall) : bool := match c with DInsert k' _ _ => Nat.eqb k' k | _ => false end.
Definition moves (k : key) (c : dcall) : bool := match c with DMove k' _ => Nat.eqb k' k | _ => false end.
Definition removes (k : key) (c : dcall) : bool := match c with DRemove k' _ => Nat.eqb k' k | _ => false end.

(** how many of the calls do *)
Definition times (f : dcall -> bool) (cs : list dcall) : nat := length (filter f cs).
(** none of the calls inserts, moves or removes the key *)
Definition untouched (k : key) (cs : list dcall) : Prop :=
  forall c, In c cs -> inserts k c = false /\ moves k c = false /\ removes k c = false.
