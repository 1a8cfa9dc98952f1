(** Specification for C22 and C23, on the trace (newest event first). *)
From Coq Require Import List Arith Bool.
From Verif Require Import Executor.
Import ListNotations.

(** there was a wake-up after the last poll began *)
Fixpoint outstanding (t : list ev) : bool :=
  match t with
  | [] => false
  | EWake :: _ => true
  | EPoll :: _ => false
  | _ :: t' => outstanding t'
  end.
(** C23: what each step may be *)
Definition step_ok (t : list ev) : Prop :=
  match t with
  | ERet :: t' => outstanding t' = false      (* returns with nothing outstanding *)
  | EPoll :: t' => outstanding t' = true      (* polls only after a wake-up *)
  | ENested :: t' => True
  | _ => True
  end.
Fixpoint always (P : list ev -> Prop) (t : list ev) : Prop :=
  match t with [] => P [] | _ :: t' => P t /\ always P t' end.
(** a run is in progress *)
Fixpoint running (t : list ev) : bool :=
  match t with [] => false | ERun :: _ => true | ERet :: _ => false | _ :: t' => running t' end.
(** polls do not overlap, and only happen during a run *)
Fixpoint polling (t : list ev) : bool :=
  match t with [] => false | EPoll :: _ => true | EEnd :: _ => false | EPanic :: _ => false | _ :: t' => polling t' end.
Definition nest_ok (t : list ev) : Prop :=
  match t with
  | EPoll :: t' => polling t' = false /\ running t' = true
  | ENested :: t' => polling t' = true
  | ERun :: t' => running t' = false
  | _ => True
  end.

(** the set_timeout calls since the last poll began *)
Fixpoint timers_since_poll (t : list ev) : nat :=
  match t with
  | [] => 0
  | EPoll :: _ => 0
  | ETimer :: t' => S (timers_since_poll t')
  | _ :: t' => timers_since_poll t'
  end.
