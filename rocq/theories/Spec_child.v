(** Specification for C71: what a combinator's children do is what happens. *)
From Coq Require Import List Arith Bool.
From Verif Require Import Arena Combinator.
Import ListNotations.

Section Spec.
Variables R S O X : Type.
(** polling child [i] in the state [x] changes the state, wakes children and gives a result *)
Variable child : X -> nat -> X * list nat * cres R.
(** the number of children *)
Variable n : nat.
(** the events about children *)
Definition about_child (e : ev R S O) : bool :=
  match e with EChild _ | EPend _ | EDone _ _ | EChildPanic _ | EWake _ => true | _ => false end.
(** the report of a result *)
Definition report (i : nat) (r : cres R) : ev R S O :=
  match r with CPending => EPend i | CReady v => EDone i v | CPanic => EChildPanic i end.
(** [child_trace x t x']: [t] (oldest first) are the events about children when some children are
    polled one after the other, and the state goes from [x] to [x']: each of them has the effect
    on the state, wakes, and gives the result that [child] says *)
Inductive child_trace : X -> list (ev R S O) -> X -> Prop :=
| ct_end x : child_trace x [] x
| ct_child x i x1 wakes r t x' : child x i = (x1, wakes, r) -> child_trace x1 t x' ->
    child_trace x (EChild i :: map EWake (filter (fun j => j <? n) wakes) ++ report i r :: t) x'.
End Spec.

(** The same for the branches of a select!: [fut x i] polls the future of branch [i]; when it
    completes with [v], the race sees [(i, v)]. *)
Section Branches.
Variables V X : Type.
Variable fut : X -> nat -> X * list nat * cres V.
Variable n : nat.
Definition branch_report (i : nat) (r : cres V) : ev (nat * V) Empty_set (nat * V) :=
  match r with CPending => EPend i | CReady v => EDone i (i, v) | CPanic => EChildPanic i end.
Inductive branch_trace : X -> list (ev (nat * V) Empty_set (nat * V)) -> X -> Prop :=
| bt_end x : branch_trace x [] x
| bt_branch x i x1 wakes r t x' : fut x i = (x1, wakes, r) -> branch_trace x1 t x' ->
    branch_trace x (EChild i :: map EWake (filter (fun j => j <? n) wakes) ++ branch_report i r :: t) x'.
End Branches.

(** C20: what f.meanwhile(g) does.  [y] is the state of the futures; the last argument of each says
    whether [g] has completed. *)
Section Meanwhile.
Variables R Q Y : Type.
(** polling [f]; polling [g] *)
Variable f : Y -> Y * list nat * cres R.
Variable g : Y -> Y * list nat * cres Q.
Notation mev := (ev R Empty_set R).
Definition wakes_of (l : list nat) : list mev := map EWake (filter (fun j => j <? 2) l).
(** [f] or [g] is polled: [g] runs unless it has completed, and that it completes is not reported *)
Inductive mw_poll : Y -> bool -> list mev -> Y -> bool -> Prop :=
| mw_end y d : mw_poll y d [] y d
| mw_f y d y1 l r t y' d' : f y = (y1, l, r) -> mw_poll y1 d t y' d' ->
    mw_poll y d (EChild 0 :: wakes_of l ++ report R Empty_set R 0 r :: t) y' d'
| mw_g y i y1 l r t y' d' : i <> 0 -> g y = (y1, l, r) ->
    mw_poll y1 (match r with CReady _ => true | _ => false end) t y' d' ->
    mw_poll y false (EChild i :: wakes_of l ++ match r with CPanic => EChildPanic i | _ => EPend i end :: t) y' d'
| mw_gone y i t y' d' : i <> 0 -> mw_poll y true t y' d' -> mw_poll y true (EChild i :: EPend i :: t) y' d'.
(** a history, from the state [y0]: the events about the two futures (oldest first) *)
Inductive mw_hist (y0 : Y) : list (sev Y) -> list mev -> Y -> bool -> Prop :=
| mh_start : mw_hist y0 [] [] y0 false
| mh_poll evs wk t y d t' y' d' : mw_hist y0 evs t y d -> mw_poll y d t' y' d' -> mw_hist y0 (evs ++ [SPoll _ wk]) (t ++ t') y' d'
| mh_wake evs i t y d : mw_hist y0 evs t y d -> mw_hist y0 (evs ++ [SWake _ i]) (t ++ (if i <? 2 then [EWake i] else [])) y d
| mh_env evs h t y d : mw_hist y0 evs t y d -> mw_hist y0 (evs ++ [SEnv _ h]) t (h y) d
| mh_drop evs t y d : mw_hist y0 evs t y d -> mw_hist y0 (evs ++ [SDrop _]) t y d.
End Meanwhile.
