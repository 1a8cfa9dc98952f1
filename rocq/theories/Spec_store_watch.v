(** Specification for C79: a view of several paths of an x-bow store, that waits for the first
    change of any of them. *)
From Coq Require Import List Arith Bool NArith.
From Verif Require Import Arena Combinator Tree Page Xbow Spec_xbow XbowData XbowStore Spec_store Spec_view Spec_store_view.
Import ListNotations.

Section Spec.
Variable ww : waker -> waker -> bool.
Variable K : Type.
Variable keqb : K -> K -> bool.
Variable H : list (seg K) -> N.
Notation path := (list (seg K)).

(** Block [p] of application [t] shows the data at the paths [pa 0], [pa 1], ... of a store:
    [seen x i] is what it has last shown of path [i] ([None]: the path was not valid), [strm x i] the
    [until_change] stream it has made of it.
    - Its code may use the store in any way; when it begins to await a combinator of [m] children, it
      shows the data at the first [m] paths, and has a stream of each.
    - The code of child [i] polls stream [i] with its own waker; it returns if the stream is ready,
      and otherwise waits.
    - All other code may use the store in any way, but does not poll these streams.
    No code changes the data at the paths silently ([visible]). *)
Definition paths_view {V X} (d : val K) (st : X -> sstate K) (seen : X -> nat -> option (val K)) (strm : X -> nat -> option nat) (pa : nat -> path)
  (mine : nat -> bool) (t : nat) (p : place)
  (code : nat -> X -> place -> option V -> X * list gact * next V) (on_drop : nat -> X -> X * list gact) (evs : list (pev X)) : Prop :=
  let trace x := w_tr (seg K) (sx K (st x)) in
  let visible_op o := forall i, visible K (pa i) o in
  let distinct x := forall i j f, strm x i = Some f -> strm x j = Some f -> i = j in
  let used x := (exists ops, srun ww K keqb H d ops = Some (st x) /\ Forall visible_op ops) /\ distinct x in
  let others x l x' :=
    store_uses ww K keqb H (fun o => visible_op o /\ forall i f, strm x i = Some f -> ~ polls_helper K f o) (st x) l (st x') /\
    (forall i, seen x' i = seen x i) /\ (forall i, strm x' i = strm x i) in
  (forall x got x' l nx, used x -> code t x p got = (x', l, nx) -> nx = NPanic \/
     store_uses ww K keqb H visible_op (st x) l (st x') /\ distinct x' /\
     forall k b m, nx = NAwait k b m -> forall i, i < m ->
       exists f, strm x' i = Some f /\ live _ f (pa i) false (trace x') /\ seen x' i = path_borrow K keqb (pa i) (sd K (st x'))) /\
  (forall n i x got x' l nx, mine n = true -> used x -> code t x (Kid n i) got = (x', l, nx) -> nx = NPanic \/
     exists f wk r, strm x i = Some f /\ w_task wk = Some (block_task t (Kid n i)) /\
       sexec ww K keqb H (st x) (SStream K (OPoll _ f wk)) = Some (st x') /\ trace x' = TPoll _ f wk r :: trace x /\
       (forall j, seen x' j = seen x j) /\ (forall j, strm x' j = strm x j) /\
       if r then exists v, nx = NRet v else nx = NPend) /\
  (forall u x q got x' l nx, u <> t \/ q <> p /\ (forall n i, q = Kid n i -> mine n = false) -> used x -> code u x q got = (x', l, nx) ->
     nx = NPanic \/ others x l x') /\
  (forall u x x' l, used x -> on_drop u x = (x', l) -> others x l x') /\
  (forall f x x' l, In (PCode f) evs -> used x -> f x = (x', l) -> others x l x').
End Spec.
