(** Specification of rendering inside one element (or one list item).
    A history is a list of renders and removals at combinator paths (outermost
    index first).  [live] says which (path, node) pairs are on screen. *)
From Coq Require Import List NArith.
From Verif Require Import Spec_path.
Import ListNotations.

Inductive rop :=
| Render (p : path) (n : nat)      (* a future at path p renders node n *)
| Unrender (p : path).             (* the future at path p is dropped *)

Fixpoint prefixb (p q : path) : bool :=
  match p, q with
  | [], _ => true
  | x :: p', y :: q' => andb (N.eqb x y) (prefixb p' q')
  | _ :: _, [] => false
  end.

Definition live_step (live : list (path * nat)) (o : rop) : list (path * nat) :=
  match o with
  | Render p n => (p, n) :: live
  | Unrender p => filter (fun e => negb (prefixb p (fst e))) live
  end.

Definition live_after (live : list (path * nat)) (ops : list rop) : list (path * nat) :=
  fold_left live_step ops live.

(** Nothing is rendered twice at the same path, and a rendered node is [free]
    (a detached, non-fragment node) and not already on screen. *)
Definition legal (free : nat -> Prop) (live : list (path * nat)) (o : rop) : Prop :=
  match o with
  | Render p n => ~ In p (map fst live) /\ ~ In n (map snd live) /\ free n
  | Unrender p => indices_ok p
  end.

Fixpoint legal_run (free : nat -> Prop) (live : list (path * nat)) (ops : list rop) : Prop :=
  match ops with
  | [] => True
  | o :: t => legal free live o /\ legal_run free (live_step live o) t
  end.
