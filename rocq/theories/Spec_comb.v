(** Specification for C12-C20, in terms of the trace of what a combinator did (newest
    event first).  Only the events are used, not the combinator's fields. *)
From Coq Require Import List Arith Bool.
From Verif Require Import Arena Spec_arena Readiness Combinator.
Import ListNotations.

Section Spec.
Variables R S O : Type.
Notation ev := (ev R S O).
Notation trace := (list ev).

Definition mem (i : nat) (l : list nat) : bool := existsb (Nat.eqb i) l.

(** the waker given to the most recent poll of the combinator *)
Fixpoint last_call (tr : trace) : option waker :=
  match tr with
  | [] => None
  | ECall w :: _ => Some w
  | _ :: t => last_call t
  end.
(** the children whose waker was woken since the most recent poll of the combinator
    began, in order of first wake; before the first poll, all children *)
Fixpoint woken (n : nat) (tr : trace) : list nat :=
  match tr with
  | [] => seq 0 n
  | ECall _ :: _ => []
  | EWake i :: t => if mem i (woken n t) then woken n t else woken n t ++ [i]
  | _ :: t => woken n t
  end.
(** the wakers the combinator has woken since its most recent poll began *)
Fixpoint parents (tr : trace) : list waker :=
  match tr with
  | [] => []
  | ECall _ :: _ => []
  | EParent w :: t => parents t ++ [w]
  | _ :: t => parents t
  end.
(** the children polled since the most recent poll of the combinator began, in order *)
Fixpoint polled (tr : trace) : list nat :=
  match tr with
  | [] => []
  | ECall _ :: _ => []
  | EChild i :: t => polled t ++ [i]
  | _ :: t => polled t
  end.
(** the output of child [i] *)
Fixpoint output (i : nat) (tr : trace) : option R :=
  match tr with
  | [] => None
  | EDone j v :: t => if Nat.eqb j i then Some v else output i t
  | _ :: t => output i t
  end.
Definition done (i : nat) (tr : trace) : bool :=
  match output i tr with Some _ => true | None => false end.
(** the children the most recent poll of the combinator has to poll: woken between
    the poll before it and it (all, for the first one), and not complete *)
Fixpoint due (n : nat) (tr : trace) : list nat :=
  match tr with
  | [] => []
  | ECall _ :: t => filter (fun i => negb (done i t)) (woken n t)
  | _ :: t => due n t
  end.

(** the combinator has completed, or panicked *)
Fixpoint over (tr : trace) : bool :=
  match tr with
  | [] => false
  | ERet (PReady _) :: _ => true
  | ERet PPanic :: _ => true
  | _ :: t => over t
  end.
(** the caller kept to the contract of Future: no poll after completion *)
Fixpoint proper (tr : trace) : bool :=
  match tr with
  | [] => true
  | ECall _ :: t => negb (over t) && proper t
  | _ :: t => proper t
  end.

(** how often output [i] was written, moved out, dropped *)
Fixpoint stores (i : nat) (tr : trace) : nat :=
  match tr with [] => 0 | EStore j _ :: t => (if Nat.eqb j i then 1 else 0) + stores i t | _ :: t => stores i t end.
Fixpoint moved (i : nat) (tr : trace) : nat :=
  match tr with [] => 0 | EGive j _ :: t => (if Nat.eqb j i then 1 else 0) + moved i t | _ :: t => moved i t end.
Fixpoint dropped_items (i : nat) (tr : trace) : nat :=
  match tr with [] => 0 | EDropItem j _ :: t => (if Nat.eqb j i then 1 else 0) + dropped_items i t | _ :: t => dropped_items i t end.

(** C12 (first half): if some child was woken since the last poll began, that poll's
    waker was woken exactly once since then; if none was, it was not *)
Definition parent_woken (n : nat) (tr : trace) : Prop :=
  forall w, last_call tr = Some w ->
    (woken n tr = [] -> parents tr = []) /\
    (woken n tr <> [] -> exists p, parents tr = [p] /\ same_task p w).

(** C12 (second half), C13: a poll has polled, in order, a part of what was due *)
Definition polls_due (n : nat) (tr : trace) : Prop :=
  exists rest, due n tr = polled tr ++ rest.
End Spec.
Arguments last_call {R S O}. Arguments woken {R S O}. Arguments parents {R S O}. Arguments polled {R S O}.
Arguments output {R S O}. Arguments done {R S O}. Arguments due {R S O}. Arguments over {R S O}.
Arguments proper {R S O}. Arguments stores {R S O}. Arguments moved {R S O}. Arguments dropped_items {R S O}.
Arguments parent_woken {R S O}. Arguments polls_due {R S O}.

(** Properties of whole traces: [P] holds after every event. *)
Fixpoint everywhere {A} (P : list A -> Prop) (tr : list A) : Prop :=
  match tr with
  | [] => P []
  | _ :: t => P tr /\ everywhere P t
  end.

Section Spec2.
Variables R S O : Type.
(** C13: a child is only polled if it exists, has not completed, and the combinator
    has not returned *)
Definition child_ok (n : nat) (tr : list (ev R S O)) : Prop :=
  match tr with
  | EChild i :: t => i < n /\ done i t = false /\ over t = false /\ In i (due n t) /\ ~ In i (polled t)
  | _ => True
  end.
(** C12: a poll that does not return early has polled exactly the children that were due *)
Definition pending_ok (n : nat) (tr : list (ev R S O)) : Prop :=
  match tr with
  | ERet PPending :: t => polled t = due n t
  | _ => True
  end.
End Spec2.
Arguments child_ok {R S O}. Arguments pending_ok {R S O}.

(** C14-C17: what the return of a poll says (the return is the newest event) *)
Section Returns.
Variable S : Type.
Definition panic_ok {R O} (t : list (ev R S O)) : Prop := exists i t', t = EChildPanic i :: t'.

(** C14 *)
Definition join_spec {R} (n : nat) (tr : list (ev R S (list R))) : Prop :=
  match tr with
  | ERet (PReady l) :: t =>
      length l = n /\ forall i, i < n -> exists v, output i t = Some v /\ nth_error l i = Some v
  | ERet PPending :: t => exists i, i < n /\ done i t = false
  | ERet PPanic :: t => panic_ok t
  | _ => True
  end.
(** C15; [inl] is Ok, [inr] is Err *)
Definition try_join_spec {T E} (n : nat) (tr : list (ev (T + E) S (list T + E))) : Prop :=
  match tr with
  | ERet (PReady (inl l)) :: t =>
      length l = n /\ forall i, i < n -> exists v, output i t = Some (inl v) /\ nth_error l i = Some v
  | ERet (PReady (inr e)) :: t =>
      exists i t', t = EDone i (inr e) :: t' /\ i < n /\ forall j e', output j t' <> Some (inr e')
  | ERet PPending :: t => (exists i, i < n /\ done i t = false) /\ forall j e', output j t <> Some (inr e')
  | ERet PPanic :: t => panic_ok t
  | _ => True
  end.
(** C16 *)
Definition race_spec {R} (n : nat) (tr : list (ev R S R)) : Prop :=
  match tr with
  | ERet (PReady v) :: t => exists i t', t = EDone i v :: t' /\ i < n /\ forall j, done j t' = false
  | ERet PPending :: t => forall j, done j t = false
  | ERet PPanic :: t => panic_ok t
  | _ => True
  end.
(** C17 *)
Definition race_ok_spec {T E} (n : nat) (tr : list (ev (T + E) S (T + list E))) : Prop :=
  match tr with
  | ERet (PReady (inr l)) :: t =>
      length l = n /\ forall i, i < n -> exists e, output i t = Some (inr e) /\ nth_error l i = Some e
  | ERet (PReady (inl v)) :: t =>
      exists i t', t = EDone i (inl v) :: t' /\ i < n /\ forall j v', output j t' <> Some (inl v')
  | ERet PPending :: t => (exists i, i < n /\ done i t = false) /\ forall j v', output j t <> Some (inl v')
  | ERet PPanic :: t => panic_ok t
  | _ => True
  end.
End Returns.
Arguments join_spec {S R}. Arguments try_join_spec {S T E}. Arguments race_spec {S R}. Arguments race_ok_spec {S T E}.

(** C20: [g] (whose polls are logged newest first) is not polled after it completed *)
Definition no_repoll {Q} (l : list (gev Q)) : Prop :=
  match l with
  | GPoll _ :: t => forall v, ~ In (GReady _ v) t
  | _ => True
  end.
(** C20: what a return of f.meanwhile(g) says; child 0 is f *)
Definition meanwhile_spec {R} (tr : list (ev R Empty_set R)) : Prop :=
  match tr with
  | ERet (PReady v) :: t => exists t', t = EDone 0 v :: t'
  | ERet PPending :: t => done 0 t = false
  | ERet PPanic :: t => exists i t', t = EChildPanic i :: t'
  | _ => True
  end.
