(** Specification for C80: a view of an x-bow store that waits for changes of paths and for changes
    inside them. *)
From Coq Require Import List Arith Bool NArith.
From Verif Require Import Arena Combinator Tree Page Xbow Spec_xbow XbowData XbowStore Spec_store Spec_view Spec_store_view.
Import ListNotations.

Section Spec.
Variable ww : waker -> waker -> bool.
Variable K : Type.
Variable keqb : K -> K -> bool.
Variable H : list (seg K) -> N.
Notation path := (list (seg K)).

(** the operation does not write without notification at [p], inside [p], or at what contains [p] *)
Definition act_loud (p : path) (a : act K) : Prop :=
  match a with AQuiet _ q _ _ => ~ contains _ p q /\ ~ contains _ q p | _ => True end.
Definition loud (p : path) (o : sop K) : Prop :=
  match o with
  | SAct _ a => act_loud p a
  | SPoll _ _ _ e => Forall (act_loud p) (e_acts _ e)
  | _ => True
  end.

(** Block [p] of application [t] shows (parts of) a store: [snap x] is the store as it was when it did
    so last.  It listens to the paths [pa 0], [pa 1], ...: [strm x i] is the stream it has made of path
    [i], with until_bubbling_change if [bub i] and with until_change otherwise.
    - Its code may use the store in any way; when it begins to await a combinator of [m] children, it
      shows the store, and has a stream of each of the first [m] paths.
    - The code of child [i] polls stream [i] with its own waker; it returns if the stream is ready,
      and otherwise waits.
    - All other code may use the store in any way, but does not poll these streams.
    All uses of the store are [allowed]. *)
Definition listens_view {V X} (allowed : sop K -> Prop) (d : val K) (st snap : X -> sstate K) (strm : X -> nat -> option nat) (pa : nat -> path) (bub : nat -> bool)
  (mine : nat -> bool) (t : nat) (p : place)
  (code : nat -> X -> place -> option V -> X * list gact * next V) (on_drop : nat -> X -> X * list gact) (evs : list (pev X)) : Prop :=
  let trace x := w_tr (seg K) (sx K (st x)) in
  let distinct x := forall i j f, strm x i = Some f -> strm x j = Some f -> i = j in
  let used x := (exists ops, srun ww K keqb H d ops = Some (st x)) /\ distinct x in
  let others x l x' :=
    store_uses ww K keqb H (fun o => allowed o /\ forall i f, strm x i = Some f -> ~ polls_helper K f o) (st x) l (st x') /\
    snap x' = snap x /\ (forall i, strm x' i = strm x i) in
  (forall x got x' l nx, used x -> code t x p got = (x', l, nx) -> nx = NPanic \/
     store_uses ww K keqb H allowed (st x) l (st x') /\ distinct x' /\
     forall k b m, nx = NAwait k b m -> snap x' = st x' /\
       forall i, i < m -> exists f, strm x' i = Some f /\ live _ f (pa i) (bub i) (trace x')) /\
  (forall n i x got x' l nx, mine n = true -> used x -> code t x (Kid n i) got = (x', l, nx) -> nx = NPanic \/
     exists f wk r, strm x i = Some f /\ w_task wk = Some (block_task t (Kid n i)) /\ allowed (SStream K (OPoll _ f wk)) /\
       sexec ww K keqb H (st x) (SStream K (OPoll _ f wk)) = Some (st x') /\ trace x' = TPoll _ f wk r :: trace x /\
       snap x' = snap x /\ (forall j, strm x' j = strm x j) /\
       if r then exists v, nx = NRet v else nx = NPend) /\
  (forall u x q got x' l nx, u <> t \/ q <> p /\ (forall n i, q = Kid n i -> mine n = false) -> used x -> code u x q got = (x', l, nx) ->
     nx = NPanic \/ others x l x') /\
  (forall u x x' l, used x -> on_drop u x = (x', l) -> others x l x') /\
  (forall f x x' l, In (PCode f) evs -> used x -> f x = (x', l) -> others x l x').
End Spec.
