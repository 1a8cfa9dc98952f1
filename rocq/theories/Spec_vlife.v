(** Specification for C72, in terms of what happened to a VirtualizedList (newest first). *)
From Coq Require Import List Arith Bool.
From Verif Require Import Arena Combinator Tree Page Spec_view Virtual VLife.
Import ListNotations.

(** the render future [j] was made and is not dropped *)
Fixpoint made (j : nat) (tr : list ev) : bool :=
  match tr with
  | [] => false
  | TRender i :: t => (i =? j) || made j t
  | TDrop i :: t => negb (i =? j) && made j t
  | _ :: t => made j t
  end.
(** the render future that was polled and not dropped since *)
Fixpoint rendering (tr : list ev) : option nat :=
  match tr with
  | [] => None
  | TPoll j _ :: _ => Some j
  | TDrop j :: t => match rendering t with Some i => if i =? j then None else Some i | None => None end
  | _ :: t => rendering t
  end.
(** the waker with which future [j] was last polled *)
Fixpoint last_waker (j : nat) (tr : list ev) : option waker :=
  match tr with
  | [] => None
  | TPoll i wk :: t => if i =? j then Some wk else last_waker j t
  | _ :: t => last_waker j t
  end.
(** the scroll listener is registered *)
Fixpoint listening (tr : list ev) : bool :=
  match tr with [] => false | TAdd :: _ => true | TRemove :: _ => false | _ :: t => listening t end.
(** the observer is connected *)
Fixpoint observing (tr : list ev) : bool :=
  match tr with [] => false | TConnect :: _ => true | TDisconnect :: _ => false | _ :: t => observing t end.
(** since the last update, the list was told of a scroll event or by the observer (while it was
    listening) *)
Fixpoint unseen (tr : list ev) : bool :=
  match tr with
  | [] => false
  | TUpdate _ _ :: _ => false
  | TScroll :: t | TInter :: t => listening t || unseen t
  | _ :: t => unseen t
  end.
(** since the last poll began, there was a scroll event or the observer reported *)
Fixpoint heard (tr : list ev) : bool :=
  match tr with
  | [] => false
  | TPoll _ _ :: _ => false
  | TScroll :: _ | TInter :: _ => true
  | _ :: t => heard t
  end.
(** the updates, as operations of Virtual.v, oldest first *)
Fixpoint updates (tr : list ev) : list vop :=
  match tr with
  | [] => []
  | TUpdate num w :: t => updates t ++ [match num with Some n => VNum n w | None => VVisible w end]
  | _ :: t => updates t
  end.
(** the wakers woken, newest first *)
Fixpoint woken (tr : list ev) : list waker :=
  match tr with [] => [] | TWake wk :: t => wk :: woken t | _ :: t => woken t end.

(** ** In a page *)
(** [l] wakes the blocks whose wakers the list woke between [s] and [s'] *)
Definition vlist_tells (s s' : vr) (l : list gact) : Prop :=
  exists new, vr_tr s' = new ++ vr_tr s /\
  forall wk u q, In wk (woken new) -> w_task wk = Some (block_task u q) -> In (GWake u q) l.
(** Block [p] of application [t] awaits the render future [j] of the list, as in
    [list.render().await].  All code may do anything else with the list. *)
Definition vlist_view {V X} (ww : waker -> waker -> bool) (vs : X -> vr) (on : X -> bool) (j t : nat) (p : place)
  (code : nat -> X -> place -> option V -> X * list gact * Tree.next V) (on_drop : nat -> X -> X * list gact) (evs : list (pev X)) : Prop :=
  part_view vr op (fun s o s' => VLife.exec ww s o = Some s') vlist_tells
    (fun o => match o with OPoll i wk _ => if i =? j then Some wk else None | _ => None end)
    (fun s _ _ => made j (vr_tr s) = true)
    (fun s => exists ops, VLife.run ww ops = Some s) vs on t p code on_drop evs.
