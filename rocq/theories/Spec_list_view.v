(** Specification for C75: a block of a page that awaits the render future of a DynamicList. *)
From Coq Require Import List Arith Bool.
From Verif Require Import Arena Combinator Tree Page Spec_view Executor Queue ListRun Spec_listrun.
Import ListNotations.

(** [l] wakes the blocks whose wakers the list woke between [s] and [s'] *)
Definition list_tells {Y} (s s' : ListRun.st Y) (l : list gact) : Prop :=
  exists new, l_tr Y s' = new ++ l_tr Y s /\
  forall wk u q, In (LWoken wk) new -> w_task wk = Some (block_task u q) -> In (GWake u q) l.
(** Block [p] of application [t] awaits [list.render()], whose future is the [j]-th.  All code may
    insert, remove and wake items, also the items themselves while they are polled or dropped, and
    it may render the list elsewhere when this future is gone. *)
Definition list_view {Y V X} (ww : waker -> waker -> bool) (icode : nat -> Y -> Y * list lact * outcome) (ifin : nat -> Y -> Y * list lact)
  (sl : X -> ListRun.st Y) (on : X -> bool) (j t : nat) (p : place)
  (code : nat -> X -> place -> option V -> X * list gact * Tree.next V) (on_drop : nat -> X -> X * list gact) (evs : list (pev X)) : Prop :=
  part_view (ListRun.st Y) (ListRun.lop Y) (fun s o s' => ListRun.exec ww Y icode ifin s o = Some s') list_tells
    (fun o => match o with OPoll _ i wk => if i =? j then Some wk else None | _ => None end)
    (fun s o s' => True) (* the render future never completes *)
    (fun s => exists y ops, ListRun.run ww Y icode ifin y ops = Some s) sl on t p code on_drop evs.
