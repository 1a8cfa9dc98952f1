(** Abstract keyed lists: what the operations of the list components mean. *)
From Coq Require Import List Arith Bool.
Import ListNotations.

Definition l_remove (k : nat) (l : list nat) : list nat :=
  filter (fun x => negb (Nat.eqb x k)) l.

(** put [k] right before [b] *)
Fixpoint l_before (k b : nat) (l : list nat) : list nat :=
  match l with
  | [] => []
  | x :: t => if Nat.eqb x b then k :: x :: t else x :: l_before k b t
  end.

(** put [k] (removing it from its old place) before [b], or at the end; before
    itself means in its old place *)
Definition l_insert (k : nat) (b : option nat) (l : list nat) : list nat :=
  match b with
  | None => l_remove k l ++ [k]
  | Some b => if Nat.eqb b k then l else l_before k b (l_remove k l)
  end.

Definition l_swap (a b : nat) (l : list nat) : list nat :=
  map (fun x => if Nat.eqb x a then b else if Nat.eqb x b then a else x) l.

(** [a] immediately followed by [b] *)
Definition adjacent (a b : nat) (l : list nat) : Prop := exists l1 l2, l = l1 ++ a :: b :: l2.

Definition memb (k : nat) (l : list nat) : bool := existsb (Nat.eqb k) l.

(** [subseq a l]: [a] is obtained from [l] by leaving out elements *)
Inductive subseq : list nat -> list nat -> Prop :=
| subseq_nil : subseq [] []
| subseq_keep : forall x a l, subseq a l -> subseq (x :: a) (x :: l)
| subseq_skip : forall x a l, subseq a l -> subseq a (x :: l).

(** the elements common to two lists come in the same relative order in both *)
Definition same_common_order (a b : list nat) : Prop :=
  filter (fun x => memb x b) a = filter (fun x => memb x a) b.
