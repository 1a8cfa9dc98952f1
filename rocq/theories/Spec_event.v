(** Specification for C24 and C25, on the trace (newest event first). *)
From Coq Require Import List Arith Bool.
From Verif Require Import Arena Spec_arena Event.
Import ListNotations.

(** the most recent event given to stream [s] since it was last ready *)
Fixpoint latest (s : nat) (t : list ev) : option nat :=
  match t with
  | [] => None
  | TDeliver s' e :: t' => if s' =? s then Some e else latest s t'
  | TPoll s' _ (Some _) :: t' => if s' =? s then None else latest s t'
  | _ :: t' => latest s t'
  end.
(** the waker of the most recent poll of [s] *)
Fixpoint last_waker (s : nat) (t : list ev) : option waker :=
  match t with
  | [] => None
  | TPoll s' w _ :: t' => if s' =? s then Some w else last_waker s t'
  | _ :: t' => last_waker s t'
  end.
(** [s] was made for events [n] of [t], has been polled and has not been dropped *)
Definition listening (s t n : nat) (tr : list ev) : Prop :=
  In (TNew s t n) tr /\ last_waker s tr <> None /\ ~ In (TDrop s) tr.
Definition captured (s : nat) (tr : list ev) : Prop := In (TCapture s true) tr.

(** C24: a poll returns the most recent event since the stream was last ready, if any *)
Fixpoint polls_ok (t : list ev) : Prop :=
  match t with
  | [] => True
  | TPoll s _ r :: t' => r = latest s t' /\ polls_ok t'
  | _ :: t' => polls_ok t'
  end.
(** C24: an event given to [s] wakes the task of the most recent poll of [s], and then
    the application runs *)
Fixpoint wakes_ok (t : list ev) : Prop :=
  match t with
  | [] => True
  | TRun :: TWake w :: TDeliver s e :: t' =>
      (exists w', last_waker s t' = Some w' /\ same_task w w') /\ wakes_ok t'
  | TRun :: _ | TWake _ :: _ | TDeliver _ _ :: _ => False
  | _ :: t' => wakes_ok t'
  end.
(** how often [e] was given to [s] since the dispatch of [e] began *)
Fixpoint given (s e : nat) (t : list ev) : nat :=
  match t with
  | [] => 0
  | TBegin _ _ e' _ :: t' => if e' =? e then 0 else given s e t'
  | TDeliver s' e' :: t' => if (s' =? s) && (e' =? e) then S (given s e t') else given s e t'
  | _ :: t' => given s e t'
  end.
(** the dispatch of [e] that is going on *)
Fixpoint current (e : nat) (t : list ev) : option (list nat * nat * bool) :=
  match t with
  | [] => None
  | TBegin p n e' b :: t' => if e' =? e then Some (p, n, b) else current e t'
  | TEnd e' :: t' => if e' =? e then None else current e t'
  | _ :: t' => current e t'
  end.
(** C24: an event is only given, while it is dispatched, to streams made for it which have
    been polled and not dropped: streams of the targets on the path; if the event does not
    bubble, of its own target, or with the capture option *)
Fixpoint gifts_ok (t : list ev) : Prop :=
  match t with
  | [] => True
  | TDeliver s e :: t' =>
      (exists path n b tg, current e t' = Some (path, n, b) /\ In tg path /\ listening s tg n t' /\
         (b = true \/ hd_error path = Some tg \/ captured s t')) /\ gifts_ok t'
  | _ :: t' => gifts_ok t'
  end.
(** C24: when the dispatch of [e] returns without having been stopped, every stream made
    for it on a target of the path (its own target, if it does not bubble) which was polled
    before has been given [e] once, or was dropped meanwhile *)
Definition reached_all (e : nat) (t : list ev) : Prop :=
  forall path n b evs before, t = evs ++ TBegin path n e b :: before ->
  (forall p m c, ~ In (TBegin p m e c) evs) -> ~ In (TStop e) evs ->
  forall s tg, listening s tg n before -> In tg path -> b = true \/ hd_error path = Some tg ->
  given s e t = 1 \/ In (TDrop s) evs.
Fixpoint ends_ok (t : list ev) : Prop :=
  match t with
  | [] => True
  | TEnd e :: t' => reached_all e t' /\ ends_ok t'
  | _ :: t' => ends_ok t'
  end.
(** no element is its own ancestor *)
Definition paths_ok (ops : list op) : Prop := forall path n e b, In (Begin path n e b) ops -> NoDup path.
