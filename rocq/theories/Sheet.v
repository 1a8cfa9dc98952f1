(** Model of examples/web-simple-examples/src/cells.rs: a spreadsheet, each cell of it a loop that waits for the cells it reads.

    What the loop of a cell does from one await to the next is one [turn].  A cell is woken by a change of a cell it waits for;
    the woken cells take their turns in any order.  The user's changes come one at a time, when no cell is woken: the listener of
    an event runs the executor until nothing is awake (C69, C77).
    Simplifications: numbers are any type with a zero, a NaN and an addition (f64 in the code); the size of the table is a
    parameter (26 by 100 in the code, cells.rs:13-14); the parsing of the text of a cell (cells.rs:31-44, 159-173), the format of the
    number and the DOM are left out; an arithmetic underflow is a panic (as in a build with overflow checks). *)
From Coq Require Import List Arith Bool.
Import ListNotations.

Section Sheet.
Variable V : Type.
Variables (zero nan : V) (add : V -> V -> V).
Variables (ncols nrows : nat).
(** cells.rs:24 *)
Definition ncells : nat := ncols * nrows.
(** cells.rs:46-52 [Index<CellIndex> for Vec] *)
Definition index (col row : nat) : nat := col * nrows + row.
(** cells.rs:120-125 [Formula] *)
Inductive formula := Lit (v : V) | Sum (fcol frow tcol trow : nat) | Unknown.
(** the cells in the two loops of cells.rs:132-136 and 147-151 *)
Definition deps (f : formula) : list nat :=
  match f with
  | Sum fcol frow tcol trow => flat_map (fun col => map (fun row => index col row) (seq frow (S trow - frow))) (seq fcol (S tcol - fcol))
  | _ => []
  end.
(** cells.rs:142-157 [compute]; [None]: an index is out of the vector *)
Definition compute (f : formula) (value : nat -> V) : option V :=
  match f with
  | Sum _ _ _ _ => if forallb (fun d => d <? ncells) (deps f) then Some (fold_left (fun out d => add out (value d)) (deps f) zero) else None
  | Lit v => Some v
  | Unknown => Some nan
  end.
(** cells.rs:127-131 [until_dep_change]: whether `tcol - fcol` and `trow - frow` do not underflow *)
Definition subscribes (f : formula) : bool :=
  match f with Sum fcol frow tcol trow => (fcol <=? tcol) && (frow <=? trow) | _ => true end.
(** State (cells.rs:18-20, 91-94): the formula of each cell, its value, what it shows ([None]: nothing yet), and whether it is woken. *)
Record sheet := mkSh { form : nat -> formula; value : nat -> V; text : nat -> option V; woken : nat -> bool }.
(** a function changed at one point [bookkeeping of the model] *)
Definition upd {A} (f : nat -> A) (c : nat) (x : A) : nat -> A := fun d => if Nat.eqb d c then x else f d.
(** cells.rs:54, 94: every cell is about to take its first turn *)
Definition start : sheet := mkSh (fun _ => Unknown) (fun _ => nan) (fun _ => None) (fun c => c <? ncells).
(** One turn (cells.rs:101-108): compute, show, write and wait again.  The write wakes those who wait for this cell; the cell itself
    starts to wait after it has written. *)
Definition turn (s : sheet) (c : nat) : option sheet :=
  match compute (form s c) (value s) with
  | None => None
  | Some v =>
      if subscribes (form s c)
      then Some (mkSh (form s) (upd (value s) c v) (upd (text s) c (Some v))
             (fun d => if Nat.eqb d c then false else woken s d || existsb (Nat.eqb c) (deps (form s d))))
      else None
  end.
(** no cell is woken: all wait at cells.rs:108-114 *)
Definition quiet (s : sheet) : bool := forallb (fun c => negb (woken s c)) (seq 0 ncells).
(** what can happen: the user changes the text of a cell (cells.rs:109-112), or a woken cell takes its turn (cells.rs:113) *)
Inductive act := Edit (c : nat) (f : formula) | Wake (c : nat).
(** [Impossible]: a change that came too early or in a cell that is not there, or the turn of a cell that is not woken [a history; not a function of /repo] *)
Inductive res := Fine (s : sheet) | Panic | Impossible.
(** a panic in the turn is a panic of the program [bookkeeping of the model] *)
Definition ofopt (o : option sheet) : res := match o with Some s => Fine s | None => Panic end.
(** one of them (cells.rs:100-115) *)
Definition step (s : sheet) (a : act) : res :=
  match a with
  | Edit c f => if quiet s && (c <? ncells) then ofopt (turn (mkSh (upd (form s) c f) (value s) (text s) (woken s)) c) else Impossible
  | Wake c => if woken s c then ofopt (turn s c) else Impossible
  end.
(** a history (cells.rs:53-89) *)
Fixpoint runs (s : sheet) (l : list act) : res :=
  match l with
  | [] => Fine s
  | a :: t => match step s a with Fine s' => runs s' t | r => r end
  end.
End Sheet.
