(** Specification for C26_code: what the code of the slotted futures does is what happens. *)
From Coq Require Import List Arith Bool.
From Verif Require Import Arena Slot.
Import ListNotations.

Section Spec.
Variable X : Type.
(** polling future [f] with waker [w] in the state [x]: the new state, the calls of set_future and
    clear_future that it makes, whether it completed; dropping it: the new state and the calls *)
Variable poll : X -> nat -> waker -> X * list act * bool.
Variable dropf : X -> nat -> X * list act.
(** Events oldest first.  The state after the futures that were polled and dropped did what their
    code says, *)
Fixpoint code_state (x : X) (t : list ev) : X :=
  match t with
  | [] => x
  | TFut f w :: t => code_state (fst (fst (poll x f w))) t
  | TDrop f :: t => code_state (fst (dropf x f)) t
  | _ :: t => code_state x t
  end.
(** the calls that their code makes, *)
Fixpoint code_calls (x : X) (t : list ev) : list act :=
  match t with
  | [] => []
  | TFut f w :: t => snd (fst (poll x f w)) ++ code_calls (fst (fst (poll x f w))) t
  | TDrop f :: t => snd (dropf x f) ++ code_calls (fst (dropf x f)) t
  | _ :: t => code_calls x t
  end.
(** and the futures that complete *)
Fixpoint code_done (x : X) (t : list ev) : list nat :=
  match t with
  | [] => []
  | TFut f w :: t => (if snd (poll x f w) then [f] else []) ++ code_done (fst (fst (poll x f w))) t
  | TDrop f :: t => code_done (fst (dropf x f)) t
  | _ :: t => code_done x t
  end.
End Spec.
(** the calls of set_future and clear_future that happened *)
Fixpoint calls (t : list ev) : list act :=
  match t with [] => [] | TSet _ :: t => ASet :: calls t | TClear :: t => AClear :: calls t | _ :: t => calls t end.
(** the futures that completed *)
Fixpoint done (t : list ev) : list nat :=
  match t with [] => [] | TReady f :: t => f :: done t | _ :: t => done t end.
