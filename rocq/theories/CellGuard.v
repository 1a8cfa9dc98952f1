(** Model of a ReactiveCell whose guards are held across other operations:
    async_ui_internal_utils/src/reactive_cell, with the borrow rules of std's RefCell.  The
    cell itself is that of Cell.v, where [c_guard] says that a mutable guard is alive; here
    shared guards (std's Ref) live as long as the program wants.  [None] is a panic. *)
From Coq Require Import List Arith Bool.
From Verif Require Import Arena Cell.
Import ListNotations.

Section Guards.
Variable T : Type.
Variable ww : waker -> waker -> bool.  (* Waker::will_wake *)

(** the calls; shared guards and streams are named by their order of creation *)
Inductive gop :=
| GBorrow                        (* mod.rs:92-94 *)
| GTryBorrow                     (* mod.rs:100-102 *)
| GCloneRef (r : nat)            (* std: Ref::clone *)
| GRead (r : nat)                (* std: Ref::deref *)
| GDropRef (r : nat)             (* std: drop of a Ref *)
| GBorrowMut                     (* mod.rs:95-99 *)
| GTryBorrowMut                  (* mod.rs:103-107 *)
| GWrite (x : T)                 (* borrow_mut.rs:13-17 *)
| GReadMut                       (* borrow_mut.rs:19-24 *)
| GDropMut                       (* borrow_mut.rs:26-34 *)
| GUntil                         (* until_change.rs:10-16 *)
| GPoll (id : nat) (w : waker)   (* until_change.rs:28-56 *)
| GDropStream (id : nat)         (* until_change.rs:58-66 *)
| GCloneCell                     (* mod.rs:61-65 *)
| GDebug.                        (* mod.rs:41-59 *)
(** what a call gives [the return types at mod.rs:41-99, until_change.rs:28-56] *)
Inductive gout :=
| GUnit | GErr                   (* BorrowError, BorrowMutError *)
| GVal (x : T)
| GShown (o : option T)          (* what Debug shows; None: "<borrowed>" *)
| GReady | GPending | GWoken (l : list waker).

(** a cell (mod.rs:38-40), its streams, and its live shared guards *)
Record gworld := mkG { g_w : cworld T; g_refs : list nat; g_next : nat }.
(** mod.rs:82-91 *)
Definition g_new (x : T) : option gworld := do w <- cw_new T x; Some (mkG w [] 0).

(** RefCell: a shared borrow is possible, mod.rs:93 *)
Definition can_read (g : gworld) : bool := negb (c_guard _ (cw_cell _ (g_w g))).
(** RefCell: an exclusive borrow is possible, mod.rs:97, until_change.rs:14 and 33 and 61 *)
Definition can_write (g : gworld) : bool :=
  can_read g && match g_refs g with [] => true | _ => false end.
(** the value, mod.rs:74 *)
Definition g_data (g : gworld) : T := c_data _ (cw_cell _ (g_w g)).
(** std: a new Ref [mod.rs:41-59] *)
Definition new_ref (g : gworld) : gworld := mkG (g_w g) (g_next g :: g_refs g) (S (g_next g)).
(** a Ref exists (Rust's ownership; no panic but a program that does not exist)
    [not a function of /repo] *)
Definition has_ref (r : nat) (g : gworld) : bool := existsb (Nat.eqb r) (g_refs g).

(** a call on the cell of Cell.v [mod.rs, until_change.rs as cited in Cell.v] *)
Definition on_cell (g : gworld) (e : cev T) : option (gworld * cout) :=
  do (w, o) <- cexec T ww (g_w g) e; Some (mkG w (g_refs g) (g_next g), o).
(** same, where the code first takes the RefCell exclusively
    [wakers.borrow_mut() at until_change.rs:10-66] *)
Definition excl (g : gworld) (e : cev T) : option (gworld * cout) :=
  if can_write g then on_cell g e else None.
(** what Cell.v's calls give [not a function of /repo] *)
Definition out (o : cout) : gout :=
  match o with OUnit => GUnit | OReady => GReady | OPending => GPending | OWoken l => GWoken l end.
(** same [not a function of /repo] *)
Definition give (r : option (gworld * cout)) : option (gworld * gout) :=
  match r with Some (g, o) => Some (g, out o) | None => None end.

(** one call (lines at [gop]) [not a function of /repo] *)
Definition gexec (g : gworld) (e : gop) : option (gworld * gout) :=
  match e with
  | GBorrow => if can_read g then Some (new_ref g, GUnit) else None
  | GTryBorrow => if can_read g then Some (new_ref g, GUnit) else Some (g, GErr)
  | GCloneRef r => if has_ref r g then Some (new_ref g, GUnit) else None
  | GRead r => if has_ref r g then Some (g, GVal (g_data g)) else None
  | GDropRef r =>
      if has_ref r g then Some (mkG (g_w g) (remove Nat.eq_dec r (g_refs g)) (g_next g), GUnit) else None
  | GBorrowMut => give (excl g (CBegin _))
  | GTryBorrowMut => if can_write g then give (on_cell g (CBegin _)) else Some (g, GErr)
  | GWrite x => give (on_cell g (CWrite _ x))
  | GReadMut => if can_read g then None else Some (g, GVal (g_data g))
  | GDropMut => give (on_cell g (CEnd _))
  | GUntil => give (excl g (CNew _))
  | GPoll id w => give (excl g (CPoll _ id w))
  | GDropStream id => give (excl g (CDrop _ id))
  | GCloneCell => if can_read g then Some (g, GVal (g_data g)) else None
  | GDebug => Some (g, GShown (if can_read g then Some (g_data g) else None))
  end.
End Guards.
