(** Specification for C73: what a running application should show, from what its blocks have
    rendered ([lg]) and what they await ([tr], the trace of Tree.v; both newest first). *)
From Coq Require Import List Arith NArith Bool.
From Verif Require Import Combinator Tree Screen.
Import ListNotations.

(** the elements block [p] has entered and not left, outermost first *)
Fixpoint opens (p : place) (lg : list dev) : list nat :=
  match lg with
  | [] => []
  | DEnter q k :: t => if place_eqb q p then opens p t ++ [k] else opens p t
  | DLeave q :: t => if place_eqb q p then removelast (opens p t) else opens p t
  end.

Section Spec.
Context {V : Type}.
Notation ev := (ev V).

(** the combinator block [p] has created and that has not returned yet, and how many children it has *)
Fixpoint awaits (p : place) (tr : list ev) : option (nat * nat) :=
  match tr with
  | [] => None
  | ENew n k _ q :: t => if place_eqb q p then Some (n, k) else awaits p t
  | EGone n _ :: t =>
      match awaits p t with
      | Some (m, k) => if Nat.eqb m n then None else Some (m, k)
      | None => None
      end
  | _ :: t => awaits p t
  end.

(** the futures that exist: of the root block, and of the children of a combinator that is awaited
    (also those that have completed: the combinator keeps their futures) *)
Inductive present (tr : list ev) : place -> Prop :=
| present_root : present tr Root
| present_kid p n k i : present tr p -> awaits p tr = Some (n, k) -> i < k -> present tr (Kid n i).

(** [shows p l]: what block [p] shows where it is rendered is the list [l] of elements: the
    outermost element it is in, or if it is in none, what it awaits shows: what the children of
    the combinator show, in their order *)
Inductive shows (tr : list ev) (lg : list dev) : place -> list nat -> Prop :=
| shows_elem p e t : opens p lg = e :: t -> shows tr lg p [e]
| shows_bare p l : opens p lg = [] -> below tr lg p l -> shows tr lg p l
with below (tr : list ev) (lg : list dev) : place -> list nat -> Prop :=
| below_nothing p : awaits p tr = None -> below tr lg p []
| below_children p n k ls : awaits p tr = Some (n, k) -> length ls = k ->
    (forall i l, nth_error ls i = Some l -> shows tr lg (Kid n i) l) -> below tr lg p (concat ls).

(** [holds p inn l]: the content of an element that block [p] is in is [l], where [inn] are the
    elements inside it that the block is in: the next one, or, if it is the innermost one, what
    the block awaits shows *)
Definition holds (tr : list ev) (lg : list dev) (p : place) (inn : list nat) (l : list nat) : Prop :=
  match inn with e :: _ => l = [e] | [] => below tr lg p l end.
End Spec.

(** nodes and groups for the elements: distinct, new, not in the document [d] yet *)
Definition supply (d : Dom.dom) (gr : nat -> list (list N * nat)) (root : nat) (g : nat) (elem grp : nat -> nat) : Prop :=
  (forall i j, elem i = elem j -> i = j) /\ (forall k, elem k <> root) /\
  (forall i j, grp i = grp j -> i = j) /\ (forall k, grp k <> g) /\
  Dom.frag d root = false /\ (forall k, Dom.par d (elem k) = None /\ Dom.frag d (elem k) = false) /\
  gr g = [] /\ forall k, gr (grp k) = [].
(** combinators have fewer than 2^32 children *)
Definition few {V X} (code : X -> place -> option V -> X * list place * list uact * next V) : Prop :=
  forall x p got x' ws acts k b n, code x p got = (x', ws, acts, NAwait k b n) -> (N.of_nat n <= 4294967295)%N.
(** the record of a block's rendering: [Enter] makes the next new element *)
Definition made (lg : list dev) : nat := length (filter (fun e => match e with DEnter _ _ => true | DLeave _ => false end) lg).
Definition tell (p : place) (lg : list dev) (a : uact) : list dev :=
  match a with Enter => DEnter p (made lg) :: lg | Leave => DLeave p :: lg end.
(** a program that keeps, in its state, a record of what its code renders *)
Definition records {V X} (code : X -> place -> option V -> X * list place * list uact * next V) (rec : X -> list dev) : Prop :=
  forall x p got, let '(x', _, acts, _) := code x p got in rec x' = fold_left (tell p) acts (rec x).
Definition keeps_record {X} (rec : X -> list dev) (e : hev X) : Prop :=
  match e with HEnv f => forall x, rec (f x) = rec x | _ => True end.
(** the program without its rendering *)
Definition plain {V X} (code : X -> place -> option V -> X * list place * list uact * next V)
  : X -> place -> option V -> X * list place * next V :=
  fun x p got => let '(x', ws, _, nx) := code x p got in (x', ws, nx).
(** the nodes below [root], given the children of each node *)
Inductive under (kids : nat -> list nat) (root : nat) : nat -> Prop :=
| under_kid n : In n (kids root) -> under kids root n
| under_deep q n : under kids root q -> In n (kids q) -> under kids root n.
