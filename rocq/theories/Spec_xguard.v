(** Specification for C64: histories of a store and its guards, newest event first, each
    with what the call gave. *)
From Coq Require Import List Arith Bool NArith.
From Verif Require Import Arena Xbow XbowData XbowStore XbowGuard.
Import ListNotations.

Section Spec.
Variable ww : waker -> waker -> bool.
Variable K : Type.
Variable keqb : K -> K -> bool.
Notation val := (val K).
Notation path := (list (seg K)).
Variable H : path -> N.
Notation trace := (list (xop K * xout K)).

(** shared guards made so far; guards are named by their number *)
Fixpoint refs_made (tr : trace) : nat :=
  match tr with [] => 0 | (XBorrow _ _, XUnit _) :: t => S (refs_made t) | _ :: t => refs_made t end.
(** the shared guard [r] of path [p] is alive *)
Fixpoint ref_alive (r : nat) (p : path) (tr : trace) : Prop :=
  match tr with
  | [] => False
  | (XBorrow _ q, XUnit _) :: t => (r = refs_made t /\ p = q) \/ ref_alive r p t
  | (XDropRef _ s, _) :: t => s <> r /\ ref_alive r p t
  | _ :: t => ref_alive r p t
  end.
(** the exclusive guard, of path [p], is alive *)
Fixpoint mut_alive (p : path) (tr : trace) : Prop :=
  match tr with
  | [] => False
  | (XDropMut _, _) :: _ => False
  | (XBorrowMut _ q _, XUnit _) :: _ | (XBorrowQuiet _ q _, XUnit _) :: _ => p = q
  | _ :: t => mut_alive p t
  end.

(** what Rust's ownership lets a program do: only use the guards it has *)
Definition usable (e : xop K) (tr : trace) : Prop :=
  match e with
  | XReadRef _ r | XDropRef _ r => exists p, ref_alive r p tr
  | XWriteMut _ _ | XReadMut _ | XDropMut _ => exists p, mut_alive p tr
  | _ => True
  end.
(** a guard that is in the way of the call, whatever its path *)
Definition in_the_way (e : xop K) (tr : trace) : Prop :=
  match e with
  | XBorrow _ _ | XGet _ _ => exists p, mut_alive p tr
  | XBorrowMut _ _ _ | XBorrowQuiet _ _ _ | XSet _ _ _ _ =>
      (exists p, mut_alive p tr) \/ exists r p, ref_alive r p tr
  | _ => False
  end.

(** histories of programs *)
Inductive xhist (d : val) : trace -> xg K -> Prop :=
| xh_new : xhist d [] (x_new K d)
| xh_step : forall tr g e g' o, xhist d tr g -> usable e tr ->
    xgexec ww K keqb H g e = Some (g', o) -> xhist d ((e, o) :: tr) g'.

(** The same history without guards (the operations of XbowStore.v): a write happens in one
    step at the moment its guard is dropped.  [cur]: the guard that is alive (path, [uniq],
    loud, what was done to the value).  The list is oldest first. *)
Definition atomic (loud : bool) (p : path) (u : nat -> bool) (f : val -> val) : sop K :=
  SAct K (if loud then AWrite K p u f else AQuiet K p u f).
Fixpoint serial (cur : option (path * (nat -> bool) * bool * (val -> val))) (l : trace) : list (sop K) :=
  match l with
  | [] => []
  | (XBorrowMut _ p u, XUnit _) :: t => serial (Some (p, u, true, fun v => v)) t
  | (XBorrowQuiet _ p u, XUnit _) :: t => serial (Some (p, u, false, fun v => v)) t
  | (XWriteMut _ f, _) :: t =>
      serial (match cur with Some (p, u, b, f0) => Some (p, u, b, fun v => f (f0 v)) | None => None end) t
  | (XDropMut _, _) :: t =>
      match cur with Some (p, u, b, f) => [atomic b p u f] | None => [] end ++ serial None t
  | (XSet _ p u v, _) :: t => atomic true p u (fun _ => v) :: serial cur t
  | (XStream _ (ONotify _ q), _) :: t => SAct K (ANotify K q) :: serial cur t
  | (XStream _ o, _) :: t => SStream K o :: serial cur t
  | _ :: t => serial cur t
  end.
End Spec.
