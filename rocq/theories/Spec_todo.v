(** Specification for C86: a todo list, told from what the user did. *)
From Coq Require Import List Arith Bool.
From Verif Require Import Todo.
Import ListNotations.

(** the items with their check marks, the filter, and the number of items ever made *)
Record todo := mkTodo { list_of : list (nat * bool); shown_mode : mode; made : nat }.
(** what each action means *)
Definition acted (t : todo) (e : event) : todo :=
  let l := list_of t in
  match e with
  | EAdd => mkTodo (l ++ [(made t, false)]) (shown_mode t) (S (made t))
  | EBox id => mkTodo (map (fun i => if Nat.eqb (fst i) id then (fst i, negb (snd i)) else i) l) (shown_mode t) (made t)
  | EToggle => mkTodo (map (fun i => (fst i, existsb (fun j => negb (snd j)) l)) l) (shown_mode t) (made t)
  | EClear => mkTodo (filter (fun i => negb (snd i)) l) (shown_mode t) (made t)
  | EDelete id => mkTodo (filter (fun i => negb (Nat.eqb (fst i) id)) l) (shown_mode t) (made t)
  | EFilter m => mkTodo l m (made t)
  end.
Definition events (l : list act) : list event := flat_map (fun a => match a with User e => [e] | Block _ => [] end) l.
Definition todos (l : list act) : todo := fold_left acted (events l) (mkTodo [] All 0).
(** these blocks, in this order, all have something to do *)
Fixpoint busy (s : state) (bs : list block) : Prop :=
  match bs with [] => True | b :: t => step s b <> s /\ busy (step s b) t end.
(** the items a filter lets one see *)
Definition wanted (m : mode) (done : bool) : bool := match m with All => true | Active => negb done | Completed => done end.
