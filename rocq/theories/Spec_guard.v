(** Specification for C63: the history of a cell and its guards, newest event first, each
    with what the call gave. *)
From Coq Require Import List Arith Bool.
From Verif Require Import Arena Cell CellGuard.
Import ListNotations.

Section Spec.
Variable T : Type.
Variable ww : waker -> waker -> bool.
Notation trace := (list (gop T * gout T)).

(** a call that makes a shared guard *)
Definition makes_ref (e : gop T * gout T) : bool :=
  match e with
  | (GBorrow _, _) | (GCloneRef _ _, _) | (GTryBorrow _, GUnit _) => true
  | _ => false
  end.
(** a call that makes the exclusive guard *)
Definition makes_mut (e : gop T * gout T) : bool :=
  match e with (GBorrowMut _, _) | (GTryBorrowMut _, GUnit _) => true | _ => false end.
(** shared guards made so far; guards are named by their number *)
Fixpoint refs_made (tr : trace) : nat :=
  match tr with [] => 0 | e :: t => (if makes_ref e then 1 else 0) + refs_made t end.
Fixpoint ref_dropped (r : nat) (tr : trace) : Prop :=
  match tr with [] => False | (GDropRef _ s, _) :: t => s = r \/ ref_dropped r t | _ :: t => ref_dropped r t end.
(** the shared guard [r] is alive *)
Definition ref_alive (r : nat) (tr : trace) : Prop := r < refs_made tr /\ ~ ref_dropped r tr.
(** the exclusive guard is alive *)
Fixpoint mut_alive (tr : trace) : Prop :=
  match tr with
  | [] => False
  | (GDropMut _, _) :: _ => False
  | e :: t => if makes_mut e then True else mut_alive t
  end.
(** the value of the cell *)
Fixpoint value (x : T) (tr : trace) : T :=
  match tr with [] => x | (GWrite _ y, _) :: _ => y | _ :: t => value x t end.
(** streams *)
Fixpoint streams_made (tr : trace) : nat :=
  match tr with [] => 0 | (GUntil _, _) :: t => S (streams_made t) | _ :: t => streams_made t end.
Fixpoint stream_dropped (id : nat) (tr : trace) : Prop :=
  match tr with
  | [] => False
  | (GDropStream _ j, _) :: t => j = id \/ stream_dropped id t
  | _ :: t => stream_dropped id t
  end.
Definition stream_alive (id : nat) (tr : trace) : Prop := id < streams_made tr /\ ~ stream_dropped id tr.
(** the stream was polled, and an exclusive guard was dropped since its last poll *)
Fixpoint was_polled (id : nat) (tr : trace) : Prop :=
  match tr with [] => False | (GPoll _ j _, _) :: t => j = id \/ was_polled id t | _ :: t => was_polled id t end.
Fixpoint unseen (id : nat) (tr : trace) : Prop :=
  match tr with
  | [] => False
  | (GPoll _ j _, _) :: t => j <> id /\ unseen id t
  | (GDropMut _, _) :: t => was_polled id t
  | _ :: t => unseen id t
  end.
(** the waker of its last poll *)
Fixpoint waker_of (id : nat) (tr : trace) : option waker :=
  match tr with
  | [] => None
  | (GPoll _ j w, _) :: t => if Nat.eqb j id then Some w else waker_of id t
  | _ :: t => waker_of id t
  end.

(** what Rust's ownership lets a program do: only use what it has *)
Definition usable (e : gop T) (tr : trace) : Prop :=
  match e with
  | GCloneRef _ r | GRead _ r | GDropRef _ r => ref_alive r tr
  | GWrite _ _ | GReadMut _ | GDropMut _ => mut_alive tr
  | GPoll _ id _ | GDropStream _ id => stream_alive id tr
  | _ => True
  end.
(** a guard in the way of the call: of an exclusive guard, or of any guard *)
Definition guard_alive (tr : trace) : Prop := mut_alive tr \/ exists r, ref_alive r tr.
Definition in_the_way (e : gop T) (tr : trace) : Prop :=
  match e with
  | GBorrow _ | GTryBorrow _ | GCloneCell _ => mut_alive tr
  | GBorrowMut _ | GTryBorrowMut _ | GUntil _ | GPoll _ _ _ | GDropStream _ _ => guard_alive tr
  | _ => False
  end.
(** the call panics rather than report an error *)
Definition panicky (e : gop T) : Prop :=
  match e with GTryBorrow _ | GTryBorrowMut _ => False | _ => True end.

(** histories of programs *)
Inductive ghist (x : T) : trace -> gworld T -> Prop :=
| gh_new : forall g, g_new T x = Some g -> ghist x [] g
| gh_step : forall tr g e g' o, ghist x tr g -> usable e tr -> gexec T ww g e = Some (g', o) -> ghist x ((e, o) :: tr) g'.

(** what the call gives, if it does not panic *)
Definition right_answer (x : T) (tr : trace) (e : gop T) (o : gout T) : Prop :=
  match e with
  | GTryBorrow _ | GTryBorrowMut _ => (in_the_way e tr -> o = GErr _) /\ (~ in_the_way e tr -> o = GUnit _)
  | GRead _ _ | GReadMut _ | GCloneCell _ => o = GVal _ (value x tr)
  | GDebug _ => (mut_alive tr -> o = GShown _ None) /\ (~ mut_alive tr -> o = GShown _ (Some (value x tr)))
  | GPoll _ id _ => (unseen id tr -> o = GReady _) /\ (~ unseen id tr -> o = GPending _)
  | GDropMut _ => exists ws, o = GWoken _ ws /\
      (forall id wk, stream_alive id tr -> waker_of id tr = Some wk -> exists w, In w ws /\ w_task w = w_task wk) /\
      (forall w, In w ws -> w_task w <> None ->
        exists id wk, stream_alive id tr /\ waker_of id tr = Some wk /\ w_task w = w_task wk)
  | _ => o = GUnit _
  end.
End Spec.
