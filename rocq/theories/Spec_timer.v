(** Specification for C90: a timer, told from the ticks and what the user did. *)
From Coq Require Import List.
From Verif Require Import Timer.
Import ListNotations.

Section Spec.
Variable V : Type.
Variables (zero fifteen : V) (inc : V -> V) (lt : V -> V -> bool).
(** the time that has passed and the duration *)
Definition clock : Type := (V * V)%type.
(** a tick counts while the time is below the duration; the slider sets the duration; Reset sets the time to zero *)
Definition happens (c : clock) (a : act V) : clock :=
  match a with
  | Comes _ (Tick _) => if lt (fst c) (snd c) then (inc (fst c), snd c) else c
  | Comes _ (Slide _ v) => (fst c, v)
  | Comes _ (Reset _) => (zero, snd c)
  | Block _ _ => c
  end.
(** the clock after a history *)
Definition told (l : list (act V)) : clock := fold_left happens l (zero, fifteen).
(** these blocks, in this order, all have something to do *)
Fixpoint busy (div : V -> V -> V) (s : timer V) (bs : list block) : Prop :=
  match bs with [] => True | b :: t => step V zero inc lt div s b <> s /\ busy div (step V zero inc lt div s b) t end.
End Spec.
