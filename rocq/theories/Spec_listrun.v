(** Specification for C74: when the items of a DynamicList run.  What happens to the items is the
    trace of Spec_queue.v: [owed t]: the [t]-th item was inserted, woken or removed since its last
    poll began, and its future exists; [alive t]: its future exists; [cancelled t]: it was
    removed, or replaced.  All traces are newest first. *)
From Coq Require Import List Arith Bool.
From Verif Require Import Arena Executor Queue Spec_queue ListRun.
Import ListNotations.

(** what happened, according to the program: a call, the [t]-th item was polled, it was dropped *)
Inductive lrec := Did (a : lact) | Polled (t : nat) | Dropped (t : nat).
(** how many items were inserted; which item is in the list under a key *)
Definition inserts (cs : list lrec) : nat := length (filter (fun a => match a with Did (LInsert _) => true | _ => false end) cs).
Fixpoint held (cs : list lrec) (k : nat) : option nat :=
  match cs with
  | [] => None
  | Did (LInsert k') :: r => if k' =? k then Some (inserts r) else held r k
  | Did (LRemove k') :: r => if k' =? k then None else held r k
  | _ :: r => held r k
  end.
(** and what this means for the items: an insert under a key that is taken removes the old item *)
Definition gone_by (k : nat) (r : list lrec) : list qev := match held r k with Some o => [QCancel o] | None => [] end.
Fixpoint said (cs : list lrec) : list qev :=
  match cs with
  | [] => []
  | Did (LInsert k) :: r => gone_by k r ++ QSpawn (inserts r) :: said r
  | Did (LRemove k) :: r => gone_by k r ++ said r
  | Did (LWake t) :: r => QWake t :: said r
  | Polled t :: r => QPoll t :: said r
  | Dropped t :: r => QDrop t :: said r
  end.
(** everything in a trace but the ends of polls *)
Definition shown (e : qev) : bool := match e with QEnd _ => false | _ => true end.
(** programs that keep, in their state, a record of what they do *)
Definition records {Y} (rec : Y -> list lrec) (code : nat -> Y -> Y * list lact * outcome) (fin : nat -> Y -> Y * list lact) (ops : list (lop Y)) : Prop :=
  (forall t y, rec (fst (fst (code t y))) = map Did (rev (snd (fst (code t y)))) ++ Polled t :: rec y) /\
  (forall t y, rec (fst (fin t y)) = map Did (rev (snd (fin t y))) ++ Dropped t :: rec y) /\
  (forall f y, In (OCode Y f) ops -> rec (fst (f y)) = map Did (rev (snd (f y))) ++ rec y).

(** the items that got a turn: polled, or dropped *)
Definition turns (tr : list qev) : nat := length (filter (fun e => match e with QPoll _ | QDrop _ => true | _ => false end) tr).
(** the end or the beginning of a period with one waker: a poll or the drop of a render future *)
Definition marks (e : lev) : bool := match e with LWoken _ => false | _ => true end.
