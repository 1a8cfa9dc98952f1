(** Specification for C76: what a page with several applications should show (what one
    application should show is in Spec_screen.v). *)
From Coq Require Import List Arith NArith Bool.
From Verif Require Import Combinator Tree Dom Context Ui Screen Spec_screen Executor Queue Page Stage.
Import ListNotations.

(** nodes and groups for the roots and elements of all applications: distinct, new; the roots may
    be anywhere in the document [d], the elements are not in it yet *)
Definition stock (d : dom) (gr : gid -> group) (root : nat -> Dom.node) (grp0 : nat -> gid)
  (elem : nat -> nat -> Dom.node) (grp : nat -> nat -> gid) : Prop :=
  (forall t u, root t = root u -> t = u) /\ (forall t u i j, elem t i = elem u j -> t = u /\ i = j) /\ (forall t u k, elem t k <> root u) /\
  (forall t u, grp0 t = grp0 u -> t = u) /\ (forall t u i j, grp t i = grp u j -> t = u /\ i = j) /\ (forall t u k, grp t k <> grp0 u) /\
  (forall t, frag d (root t) = false) /\ (forall t k, par d (elem t k) = None /\ frag d (elem t k) = false) /\
  (forall t, gr (grp0 t) = []) /\ forall t k, gr (grp t k) = [].

Section Spec.
Context {V X : Type}.
(** combinators have fewer than 2^32 children *)
Definition all_few (code : nat -> X -> place -> option V -> X * list gact * list uact * next V) : Prop :=
  forall t x p got x' l acts k b n, code t x p got = (x', l, acts, NAwait k b n) -> (N.of_nat n <= 4294967295)%N.

(** of a page: the state of the code, the children of each node, of application [t] the trace of
    its blocks (Spec_tree.v) and what its code has rendered *)
Definition st_x (s : ex (qu (stage V X))) : X := pg_x V X (sg_p V X (q_x _ (xs _ s))).
Definition st_kids (s : ex (qu (stage V X))) : Dom.node -> list Dom.node := kids (rdom (ur (sg_u V X (q_x _ (xs _ s))))).
Definition st_tr (s : ex (qu (stage V X))) (t : nat) : list (Tree.ev V) := w_tr V _ (pg_t V X (sg_p V X (q_x _ (xs _ s))) t).
Definition st_log (s : ex (qu (stage V X))) (t : nat) : list dev := v_log (sg_v V X (q_x _ (xs _ s)) t).
(** the drop of an application's future has panicked *)
Definition st_crash (s : ex (qu (stage V X))) : bool := sg_crash V X (q_x _ (xs _ s)).

(** application [t] was unmounted or has returned: its future was dropped *)
Definition st_dropped (s : ex (qu (stage V X))) (t : nat) : Prop := In (QDrop t) (q_tr _ (xs _ s)).

(** the page without what it shows *)
Definition blind_q (q : qu (stage V X)) : qu (page V X) :=
  mkQ _ (sg_p V X (q_x _ q)) (q_run _ q) (q_n _ q) (q_st _ q) (q_asleep _ q) (q_tr _ q).
Definition blind_s (s : ex (qu (stage V X))) : ex (qu (page V X)) :=
  mkEx _ (scheduled _ s) (active _ s) (timers _ s) (blind_q (xs _ s)) (tr _ s).
Definition blind (r : rres (qu (stage V X))) : rres (qu (page V X)) :=
  match r with Live s => Live (blind_s s) | Crashed s => Crashed (blind_s s) | Stuck => Stuck end.

(** a program that keeps, in its state, a record of what the code of each application renders *)
Definition all_record (code : nat -> X -> place -> option V -> X * list gact * list uact * next V)
  (on_drop : nat -> X -> X * list gact) (evs : list (pev X)) (rec : X -> nat -> list dev) : Prop :=
  (forall t x p got x' l acts nx, code t x p got = (x', l, acts, nx) ->
     rec x' t = fold_left (tell p) acts (rec x t) /\ forall u, u <> t -> rec x' u = rec x u) /\
  (forall t x u, rec (fst (on_drop t x)) u = rec x u) /\
  (forall f x u, In (PCode f) evs -> rec (fst (f x)) u = rec x u).
(** the block an application was mounted with is in no element when it returns (the [await] of an
    element's future has ended by then) *)
Definition returns_outside (code : nat -> X -> place -> option V -> X * list gact * list uact * next V) (rec : X -> nat -> list dev) : Prop :=
  forall t x got x' l acts v, code t x Root got = (x', l, acts, NRet v) -> opens Root (rec x' t) = [].
End Spec.
