(** Specification for C68: views of x-bow stores. *)
From Coq Require Import List Arith Bool NArith.
From Verif Require Import Arena Combinator Tree Page Xbow Spec_xbow XbowData XbowStore Spec_store Spec_view.
Import ListNotations.

Section Spec.
Variable ww : waker -> waker -> bool.
Variable K : Type.
Variable keqb : K -> K -> bool.
Variable H : list (seg K) -> N.
Notation sstate := (sstate K).
Notation path := (list (seg K)).

(** [l] wakes the blocks whose wakers the store woke between [s] and [s'] *)
Definition store_wakes (s s' : sstate) (l : list gact) : Prop :=
  exists new, w_tr _ (sx K s') = new ++ w_tr _ (sx K s) /\
  forall wk u q, In (TWake _ wk) new -> w_task wk = Some (block_task u q) -> In (GWake u q) l.
(** [store_uses ok s l s']: code that uses the store in the state [s], by operations that are
    [ok], and leaves it in the state [s']; the store's wakes are among [l] *)
Inductive store_uses (ok : sop K -> Prop) : sstate -> list gact -> sstate -> Prop :=
| store_end s l : store_uses ok s l s
| store_step s l o s1 s' : ok o -> sexec ww K keqb H s o = Some s1 -> store_wakes s s1 l ->
    store_uses ok s1 l s' -> store_uses ok s l s'.

(** the operation polls helper [h] (with the waker [wk]) *)
Definition polls_helper (h : nat) (o : sop K) : Prop :=
  (exists wk e, o = SPoll K h wk e) \/ (exists wk, o = SStream K (OPoll _ h wk)).
Definition polled_with (h : nat) (o : sop K) (wk : waker) : Prop :=
  (exists e, o = SPoll K h wk e) \/ o = SStream K (OPoll _ h wk).

(** Block [p] of application [t] awaits the helper [h] (for_each, for_each_async, signal_stream,
    bind_for_each), as in [path.for_each(f).await]: whenever its code has gone on and the block then
    waits there ([on]: the program is at this await), it has polled the helper with its own waker,
    and the helper did not complete.  Before and after, it may do anything else, await combinators
    and return.  No other code polls the helper.  All code may use the store in any other way that
    does not change the data at [pa] silently ([visible]). *)
Definition store_view {V X} (d : val K) (st : X -> sstate) (on : X -> bool) (h : nat) (pa : path) (t : nat) (p : place)
  (code : nat -> X -> place -> option V -> X * list gact * next V) (on_drop : nat -> X -> X * list gact) (evs : list (pev X)) : Prop :=
  let used x := exists ops, srun ww K keqb H d ops = Some (st x) in
  let own := store_uses (fun o => visible K pa o /\ forall wk, polled_with h o wk -> w_task wk = Some (block_task t p)) in
  let other := store_uses (fun o => visible K pa o /\ ~ polls_helper h o) in
  let others x l x' := other (st x) l (st x') /\ (on x' = true -> on x = true) in
  (forall x got x' l nx, used x -> code t x p got = (x', l, nx) ->
     nx = NPanic \/
     own (st x) l (st x') /\
     (nx = NPend -> on x' = true -> exists s wk e s', w_task wk = Some (block_task t p) /\ own (st x) l s /\
       is_helper K h (sh K s) = true /\ visible K pa (SPoll K h wk e) /\
       sexec ww K keqb H s (SPoll K h wk e) = Some s' /\ store_wakes s s' l /\
       (~ exists tr, str K s' = EDone K h :: tr) /\ other s' l (st x'))) /\
  (forall u x q got x' l nx, u <> t \/ q <> p -> used x -> code u x q got = (x', l, nx) -> nx = NPanic \/ others x l x') /\
  (forall u x x' l, used x -> on_drop u x = (x', l) -> others x l x') /\
  (forall f x x' l, In (PCode f) evs -> used x -> f x = (x', l) -> others x l x').
End Spec.
