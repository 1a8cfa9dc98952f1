(** Specification for C09-C11, in terms of the trace of what happened to a cell
    (newest event first). *)
From Coq Require Import List Arith Bool.
From Verif Require Import Arena Cell.
Import ListNotations.

Section Spec.
Variable T : Type.
Notation trace := (list (cev T)).

(** a mutable borrow is alive *)
Fixpoint guarded (tr : trace) : bool :=
  match tr with
  | [] => false
  | CBegin _ :: _ => true
  | CEnd _ :: _ => false
  | _ :: t => guarded t
  end.
(** number of streams created so far; streams are named by order of creation *)
Fixpoint created (tr : trace) : nat :=
  match tr with [] => 0 | CNew _ :: t => S (created t) | _ :: t => created t end.
Fixpoint dropped (id : nat) (tr : trace) : bool :=
  match tr with
  | [] => false
  | CDrop _ j :: t => Nat.eqb j id || dropped id t
  | _ :: t => dropped id t
  end.
Definition live (id : nat) (tr : trace) : Prop := id < created tr /\ dropped id tr = false.
(** live streams, oldest first *)
Definition live_ids (tr : trace) : list nat := filter (fun id => negb (dropped id tr)) (seq 0 (created tr)).

(** the value in the cell *)
Fixpoint value_after (x : T) (tr : trace) : T :=
  match tr with [] => x | CWrite _ y :: _ => y | _ :: t => value_after x t end.

(** the waker most recently used to poll a stream *)
Fixpoint last_waker (id : nat) (tr : trace) : option waker :=
  match tr with
  | [] => None
  | CPoll _ j w :: t => if Nat.eqb j id then Some w else last_waker id t
  | _ :: t => last_waker id t
  end.
(** what happened since a stream's previous poll; [None] if it was never polled *)
Fixpoint since_poll (id : nat) (tr : trace) : option trace :=
  match tr with
  | [] => None
  | CPoll _ j w :: t => if Nat.eqb j id then Some [] else option_map (cons (CPoll _ j w)) (since_poll id t)
  | e :: t => option_map (cons e) (since_poll id t)
  end.
(** some mutable borrow ended since the stream's previous poll *)
Definition changed_since_poll (id : nat) (tr : trace) : Prop :=
  exists l, since_poll id tr = Some l /\ In (CEnd _) l.

(** what Rust's ownership and RefCell allow next: no use of the cell while a mutable
    borrow is alive, no use of dropped streams *)
Definition allowed (e : cev T) (tr : trace) : Prop :=
  match e with
  | CBegin _ | CNew _ => guarded tr = false
  | CWrite _ _ | CEnd _ => guarded tr = true
  | CPoll _ id _ | CDrop _ id => guarded tr = false /\ live id tr
  end.
Fixpoint allowed_trace (tr : trace) : Prop :=
  match tr with [] => True | e :: t => allowed e t /\ allowed_trace t end.

(** * for_each.  Traces of a cell with for_each futures, newest first. *)
Variable ww : waker -> waker -> bool.
Fixpoint fpolled (j : nat) (tr : list (fev T)) : Prop :=
  match tr with
  | [] => False
  | FPoll _ i _ :: t => i = j \/ fpolled j t
  | _ :: t => fpolled j t
  end.
(** future [j] was polled, and a mutable borrow ended since its last poll *)
Fixpoint fchanged (j : nat) (tr : list (fev T)) : Prop :=
  match tr with
  | [] => False
  | FPoll _ i _ :: t => i <> j /\ fchanged j t
  | FCell _ (CEnd _) :: t => fpolled j t
  | _ :: t => fchanged j t
  end.
(** the waker of its last poll *)
Fixpoint flast_waker (j : nat) (tr : list (fev T)) : option waker :=
  match tr with
  | [] => None
  | FPoll _ i wk :: t => if Nat.eqb i j then Some wk else flast_waker j t
  | _ :: t => flast_waker j t
  end.
(** the value in the cell *)
Fixpoint fvalue (x : T) (tr : list (fev T)) : T :=
  match tr with [] => x | FCell _ (CWrite _ y) :: _ => y | _ :: t => fvalue x t end.
(** what may happen next: cell operations as above, leaving the streams inside the
    for_each futures alone *)
Definition fallowed (w : fworld T) (e : fev T) : Prop :=
  match e with
  | FCell _ e => allowed e (fw_tr _ w) /\
      match e with
      | CPoll _ id _ | CDrop _ id => forall j f, In (j, f) (fw_fes _ w) -> fe_stream _ f <> Some id
      | _ => True
      end
  | FStart _ => True
  | FPoll _ j _ | FDropFe _ j => guarded (fw_tr _ w) = false /\ In j (map fst (fw_fes _ w))
  end.
Inductive fhist (fuel : nat) (x : T) : list (fev T) -> fworld T -> Prop :=
| fh_new : forall w0, cw_new T x = Some w0 -> fhist fuel x [] (mkFW _ w0 [] 0 [])
| fh_step : forall tr w e w' o, fhist fuel x tr w -> fallowed w e ->
    fexec T ww fuel w e = Some (w', o) -> fhist fuel x (e :: tr) w'.
End Spec.
