(** Conditions for C49. *)
From Coq Require Import List Arith Bool NArith.
From Verif Require Import XbowData.
Import ListNotations.

Section Spec.
Variable K : Type.
Variable def : nat -> tydef.
Variable word : nat.
Variable key_bytes : K -> list N.
(** a number that a usize of [word] bytes can hold *)
Definition fits (n : nat) : Prop := (N.of_nat n < 256 ^ N.of_nat word)%N.
(** the types have no more fields than a usize can count *)
Definition defs_fit : Prop := forall t, match def t with
  | DStruct fs => fits (length (struct_mappers fs)) | DEnum vs => fits (length (enum_mappers vs)) | _ => True end.
(** the indices of a path are usize *)
Definition path_fits (p : list (seg K)) : Prop := forall i, In (SIndex K i) p -> fits i.
(** what keys write tells them apart, whatever follows, and is not empty *)
Definition keys_ok : Prop := (forall k k' a b, key_bytes k ++ a = key_bytes k' ++ b -> k = k') /\ forall k, key_bytes k <> [].
End Spec.
