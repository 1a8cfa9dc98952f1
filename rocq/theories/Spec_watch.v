(** Specification for C79: a block that shows several things and awaits a combinator of futures,
    one for each, as in [loop { show(a, b); race((a.until_change(), b.until_change())).await }]. *)
From Coq Require Import List Arith Bool Cantor.
From Verif Require Import Arena Combinator Tree Page Cell Spec_cell Spec_view.
Import ListNotations.

(** whatever a child gives ends the combinator *)
Definition ends_at_once {V} (b : behavior V V V) : Prop := forall i v, exists o, b_maybe_return b i v = inl o.

(** Block [p] of application [t] is such a view.  [mine]: the numbers of the combinators it makes.
    [ok i x]: in the state [x], thing [i] is as the view shows it.  [reg i q x]: a future of thing [i]
    has been polled with the waker of block [q].  [J x]: what all code may rely on.
    - The view's code, when it begins to await a combinator, brings the view up to date.
    - The code of child [i] of such a combinator polls the future of thing [i]; when it goes on to
      wait, thing [i] is as shown, or its own waker is woken.  It leaves the other things alone and
      awaits no combinator.
    - All other code may change a thing, if it wakes the waker the future of the thing was polled with. *)
Definition watches {V X} (J : X -> Prop) (ok : nat -> X -> Prop) (reg : nat -> place -> X -> Prop) (mine : nat -> bool) (t : nat) (p : place)
  (code : nat -> X -> place -> option V -> X * list gact * next V) (on_drop : nat -> X -> X * list gact) (evs : list (pev X)) : Prop :=
  let keeps x l x' := forall i q, reg i q x -> reg i q x' /\ (ok i x -> ok i x' \/ In (GWake t q) l) in
  (forall x got x' l nx, J x -> code t x p got = (x', l, nx) ->
     nx = NPanic \/ J x' /\ forall k b m, nx = NAwait k b m -> forall i, i < m -> ok i x') /\
  (forall n i x got x' l nx, mine n = true -> J x -> code t x (Kid n i) got = (x', l, nx) ->
     nx = NPanic \/ J x' /\ (forall k b m, nx <> NAwait k b m) /\
     (forall j, j <> i -> (ok j x -> ok j x') /\ forall q, reg j q x -> reg j q x') /\
     (ok i x \/ reg i (Kid n i) x -> nx = NPend -> reg i (Kid n i) x' /\ (ok i x' \/ In (GWake t (Kid n i)) l))) /\
  (forall u x q got x' l nx, u <> t \/ q <> p /\ (forall n i, q = Kid n i -> mine n = false) -> J x -> code u x q got = (x', l, nx) ->
     nx = NPanic \/ J x' /\ keeps x l x') /\
  (forall u x x' l, J x -> on_drop u x = (x', l) -> J x' /\ keeps x l x') /\
  (forall f x x' l, In (PCode f) evs -> J x -> f x = (x', l) -> J x' /\ keeps x l x').

(** ** A view of several [ReactiveCell]s *)
(** a cell and what happened to it (newest first) *)
Notation cst T := (cworld T * list (cev T))%type.
(** [s] is a cell that was made with the value [v] and used as Rust allows *)
Definition chist {T} (ww : waker -> waker -> bool) (v : T) (s : cst T) : Prop :=
  exists w0, cw_new T v = Some w0 /\ allowed_trace T (snd s) /\ crun T ww w0 (rev (snd s)) = Some (fst s).
(** [cuses ok s l s']: code that uses a cell in the state [s], in any way that Rust allows, by calls
    that are [ok], and leaves it in the state [s']; the wakers the cell wakes are among [l] *)
Inductive cuses {T} (ww : waker -> waker -> bool) (ok : cev T -> Prop) : cst T -> list gact -> cst T -> Prop :=
| cuses_end s l : cuses ww ok s l s
| cuses_step w tr l e w1 o s' : ok e -> allowed T e tr -> cexec T ww w e = Some (w1, o) -> does_wakes o l ->
    cuses ww ok (w1, e :: tr) l s' -> cuses ww ok (w, tr) l s'.
(** Block [p] of application [t] shows the cells [cw x 0], [cw x 1], ... (cell [i] was made with the
    value [v0 i]): [seen x i] is the value of cell [i] it has last shown, [fut x i] the number of the
    [until_change] future it has last made of it.
    - Its code may use the cells in any way; when it begins to await a combinator of [m] children, it
      shows the values in the first [m] cells, and has an [until_change] future of each.
    - The code of child [i] polls the future of cell [i] with its own waker (which panics if the cell
      is mutably borrowed); it returns if the future is ready, and otherwise waits.
    - All other code may use the cells in any way, but does not poll these futures. *)
Definition cells_view {T V X} (ww : waker -> waker -> bool) (v0 : nat -> T) (cw : X -> nat -> cst T) (seen : X -> nat -> T) (fut : X -> nat -> nat)
  (mine : nat -> bool) (t : nat) (p : place)
  (code : nat -> X -> place -> option V -> X * list gact * next V) (on_drop : nat -> X -> X * list gact) (evs : list (pev X)) : Prop :=
  let made x := forall i, chist ww (v0 i) (cw x i) in
  let others x l x' := forall i, cuses ww (fun e => forall wk, e <> CPoll T (fut x i) wk) (cw x i) l (cw x' i) /\ seen x' i = seen x i /\ fut x' i = fut x i in
  (forall x got x' l nx, made x -> code t x p got = (x', l, nx) -> nx = NPanic \/
     (forall i, cuses ww (fun _ => True) (cw x i) l (cw x' i)) /\
     forall k b m, nx = NAwait k b m -> forall i, i < m -> live T (fut x' i) (snd (cw x' i)) /\ seen x' i = c_data T (cw_cell T (fst (cw x' i)))) /\
  (forall n i x got x' l nx, mine n = true -> made x -> code t x (Kid n i) got = (x', l, nx) -> nx = NPanic \/
     exists wk o, w_task wk = Some (block_task t (Kid n i)) /\ allowed T (CPoll T (fut x i) wk) (snd (cw x i)) /\
       cexec T ww (fst (cw x i)) (CPoll T (fut x i) wk) = Some (fst (cw x' i), o) /\ snd (cw x' i) = CPoll T (fut x i) wk :: snd (cw x i) /\
       (forall j, j <> i -> cw x' j = cw x j) /\ (forall j, seen x' j = seen x j /\ fut x' j = fut x j) /\
       match o with OReady => exists v, nx = NRet v | _ => nx = NPend end) /\
  (forall u x q got x' l nx, u <> t \/ q <> p /\ (forall n i, q = Kid n i -> mine n = false) -> made x -> code u x q got = (x', l, nx) ->
     nx = NPanic \/ others x l x') /\
  (forall u x x' l, made x -> on_drop u x = (x', l) -> others x l x') /\
  (forall f x x' l, In (PCode f) evs -> made x -> f x = (x', l) -> others x l x').
