(** Model of an x-bow store whose guards are held across other operations:
    /repo/x-bow/src/{store,path_ext,borrow_mut_guard,guarantee,until_change}.rs with the
    borrow rules of std's RefCell.  The data and the change streams are those of XbowData.v
    and Xbow.v.  [None] is a panic.  A waker woken by a notification only schedules: it does
    not use the store (true of executor wakers). *)
From Coq Require Import List Arith Bool NArith.
From Verif Require Import Arena Xbow XbowData XbowStore.
Import ListNotations.

Section Guards.
Variable ww : waker -> waker -> bool.
Variable K : Type.
Variable keqb : K -> K -> bool.
Notation val := (val K).
Notation path := (list (seg K)).
Variable H : path -> N.
Notation world := (world (seg K)).
Notation xexec := (exec ww (seg K) H).

(** the calls; shared guards are named by their order of creation; [uniq]: see XbowData.v *)
Inductive xop :=
| XBorrow (p : path)                                  (* path_ext.rs:56-58, guarantee.rs:20-22 *)
| XReadRef (r : nat)                                  (* std: Ref::deref *)
| XDropRef (r : nat)                                  (* std: drop of a Ref *)
| XBorrowMut (p : path) (uniq : nat -> bool)          (* path_ext.rs:102-105, guarantee.rs:27-29 *)
| XBorrowQuiet (p : path) (uniq : nat -> bool)        (* path_ext.rs:110-112, guarantee.rs:35-37 *)
| XWriteMut (f : val -> val)                          (* borrow_mut_guard.rs:38-42, std: RefMut *)
| XReadMut                                            (* borrow_mut_guard.rs:32-37, std: RefMut *)
| XDropMut                                            (* borrow_mut_guard.rs:44-48, std: RefMut *)
| XGet (p : path)                                     (* path_ext.rs:132-137, guarantee.rs:42-47 *)
| XSet (p : path) (uniq : nat -> bool) (v : val)      (* path_ext.rs:142-153, guarantee.rs:52-57 *)
| XStream (o : op (seg K)).                           (* until_change.rs, path_ext.rs:125-127 *)
(** what a call gives: nothing, None (the path does not exist), or a value
    [the return types at path_ext.rs:56-153] *)
Inductive xout := XUnit | XNone | XVal (v : val).

(** the mutable guard: its path, how storing through it changes the data, and whether its
    drop notifies (borrow_mut_guard.rs:17-21, or std's RefMut) *)
Record mutg := mkMG { m_path : path; m_put : val -> val; m_loud : bool }.
(** the store (store.rs:11-14), its streams, and the live guards *)
Record xg := mkXG { x_data : val; x_w : world; x_refs : list (nat * path); x_next : nat; x_mut : option mutg }.
(** store.rs:20-25 *)
Definition x_new (d : val) : xg := mkXG d (init _) [] 0 None.

(** RefCell: a shared borrow is possible, store.rs:92 *)
Definition x_can_read (g : xg) : bool := match x_mut g with None => true | Some _ => false end.
(** RefCell: an exclusive borrow is possible, store.rs:96 *)
Definition x_can_write (g : xg) : bool := x_can_read g && match x_refs g with [] => true | _ => false end.
(** which Ref that is [bookkeeping of the model] *)
Definition x_find (r : nat) (g : xg) : option path :=
  match find (fun x => fst x =? r) (x_refs g) with Some (_, p) => Some p | None => None end.

(** path_ext.rs:102-105 and 110-112: the store is borrowed before the path is followed *)
Definition x_borrow_mut (g : xg) (p : path) (u : nat -> bool) (loud : bool) : option (xg * xout) :=
  if x_can_write g then
    match path_borrow_mut K keqb u p (x_data g) with
    | Some (_, k) => Some (mkXG (x_data g) (x_w g) (x_refs g) (x_next g) (Some (mkMG p k loud)), XUnit)
    | None => Some (g, XNone)
    end
  else None.
(** writing through the guard [borrow_mut_guard.rs, DerefMut] *)
Definition x_write (g : xg) (f : val -> val) : option (xg * xout) :=
  match x_mut g with
  | Some m =>
      match path_borrow K keqb (m_path m) (x_data g) with
      | Some v => Some (mkXG (m_put m (f v)) (x_w g) (x_refs g) (x_next g) (x_mut g), XUnit)
      | None => None
      end
  | None => None
  end.
(** dropping the guard: borrow_mut_guard.rs:44-57, then the RefMut *)
Definition x_drop_mut (g : xg) : option (xg * xout) :=
  match x_mut g with
  | Some m =>
      do w <- (if m_loud m then xexec (x_w g) (ONotify _ (m_path m)) else Some (x_w g)) ;
      Some (mkXG (x_data g) w (x_refs g) (x_next g) None, XUnit)
  | None => None
  end.

(** one call (lines at [xop]) [not a function of /repo] *)
Definition xgexec (g : xg) (e : xop) : option (xg * xout) :=
  match e with
  | XBorrow p =>
      if x_can_read g then
        match path_borrow K keqb p (x_data g) with
        | Some _ => Some (mkXG (x_data g) (x_w g) ((x_next g, p) :: x_refs g) (S (x_next g)) (x_mut g), XUnit)
        | None => Some (g, XNone)
        end
      else None
  | XReadRef r =>
      match x_find r g with
      | Some p => match path_borrow K keqb p (x_data g) with Some v => Some (g, XVal v) | None => None end
      | None => None
      end
  | XDropRef r =>
      match x_find r g with
      | Some p => Some (mkXG (x_data g) (x_w g) (filter (fun x => negb (fst x =? r)) (x_refs g)) (x_next g) (x_mut g), XUnit)
      | None => None
      end
  | XBorrowMut p u => x_borrow_mut g p u true
  | XBorrowQuiet p u => x_borrow_mut g p u false
  | XWriteMut f => x_write g f
  | XReadMut =>
      match x_mut g with
      | Some m => match path_borrow K keqb (m_path m) (x_data g) with Some v => Some (g, XVal v) | None => None end
      | None => None
      end
  | XDropMut => x_drop_mut g
  | XGet p =>
      if x_can_read g then
        match path_borrow K keqb p (x_data g) with Some v => Some (g, XVal v) | None => Some (g, XNone) end
      else None
  | XSet p u v =>
      do (g1, o) <- x_borrow_mut g p u true ;
      match o with
      | XUnit => do (g2, _) <- x_write g1 (fun _ => v) ; x_drop_mut g2
      | _ => Some (g1, o)
      end
  | XStream o => do w <- xexec (x_w g) o ; Some (mkXG (x_data g) w (x_refs g) (x_next g) (x_mut g), XUnit)
  end.
End Guards.
