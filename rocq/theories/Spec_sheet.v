(** Specification for C87: what a spreadsheet means. *)
From Coq Require Import List Arith.
From Verif Require Import Sheet.
Import ListNotations.

Section Spec.
Variable V : Type.
Variables (zero nan : V) (add : V -> V -> V).
Variables (ncols nrows : nat).
Notation formula := (formula V).
(** what the user last entered in a cell *)
Definition contents (l : list (act V)) (c : nat) : formula :=
  fold_left (fun f a => match a with Edit _ d g => if Nat.eqb d c then g else f | Wake _ _ => f end) l (Unknown V).
(** the cells from [fcol],[frow] to [tcol],[trow], column by column *)
Definition rectangle (fcol frow tcol trow : nat) : list (nat * nat) := list_prod (seq fcol (tcol + 1 - fcol)) (seq frow (trow + 1 - frow)).
(** the value of a formula when the cells have these values *)
Definition meaning (f : formula) (value : nat -> V) : V :=
  match f with
  | Lit _ v => v
  | Sum _ fc fr tc tr => fold_left add (map (fun p => value (fst p * nrows + snd p)) (rectangle fc fr tc tr)) zero
  | Unknown _ => nan
  end.
(** the formula sums up cell [d] *)
Definition reads (f : formula) (d : nat) : Prop :=
  match f with Sum _ fc fr tc tr => exists col row, fc <= col <= tc /\ fr <= row <= tr /\ d = col * nrows + row | _ => False end.
(** a range goes from its upper left to its lower right cell, and both are in the table *)
Definition fits (f : formula) : Prop :=
  match f with Sum _ fc fr tc tr => fc <= tc < ncols /\ fr <= tr < nrows | _ => True end.
(** no cell is a sum of itself, directly or through others *)
Definition acyclic (form : nat -> formula) : Prop :=
  exists rank : nat -> nat, forall c d, reads (form c) d -> rank d < rank c.
End Spec.
