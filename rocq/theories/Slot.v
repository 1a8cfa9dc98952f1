(** Model of /repo/async_ui_web/src/components/dynamic_slot.rs: DynamicSlot and its one
    render future.

    The slotted futures are numbered in the order in which they are given to
    [set_future].  What they do is arbitrary: [poll] gives, for the state [X] of the
    application, the waker and the future, the new state, the calls of
    set_future/clear_future on this slot that happen during the poll, and whether the
    future completed; [dropf] gives the new state and the calls that happen while the
    future is being dropped. *)
From Coq Require Import List Arith Bool.
From Verif Require Import Arena.
Import ListNotations.

(** the calls user code can make: set_future, clear_future (dynamic_slot.rs:97-108) *)
Inductive act := ASet | AClear.
(** dynamic_slot.rs:39-46 *)
Inductive message := MSet (f : nat) | MClear | MNoChange.
(** ghost: not code of /repo *)
Inductive ev :=
| TSet (f : nat) | TClear           (* set_future, clear_future are called *)
| TWake (w : waker)
| TPoll (w : waker)                 (* the render future is polled *)
| TFut (f : nat) (w : waker)        (* a slotted future is polled *)
| TReady (f : nat)                  (* and completed *)
| TDrop (f : nat).                  (* a slotted future is dropped *)

Section Slot.
Variable ww : waker -> waker -> bool.
Variable X : Type.
Variable poll : X -> nat -> waker -> X * list act * bool.
Variable dropf : X -> nat -> X * list act.

(** [chan], [msg]: the channel; [alive], [shown]: the render future and what is pinned
    in it; [exists_slot]: whether the DynamicSlot itself still exists
    [dynamic_slot.rs:35-47, 71-94] *)
Record st := mk { xs : X; chan : waker; msg : message; alive : bool; shown : option nat; exists_slot : bool; next : nat; tr : list ev }.
(** records an event (trace only) [ghost] *)
Definition emit e s := mk (xs s) (chan s) (msg s) (alive s) (shown s) (exists_slot s) (next s) (e :: tr s).
(** record update: the message in the channel (dynamic_slot.rs:35-47) *)
Definition set_msg m s := mk (xs s) (chan s) m (alive s) (shown s) (exists_slot s) (next s) (tr s).
(** record update: the pinned future of dynamic_slot.rs:71-94 *)
Definition set_shown f s := mk (xs s) (chan s) (msg s) (alive s) f (exists_slot s) (next s) (tr s).
(** record update: the waker in the channel (dynamic_slot.rs:35-47) *)
Definition set_chan w s := mk (xs s) w (msg s) (alive s) (shown s) (exists_slot s) (next s) (tr s).
(** record update: the state of user code [bookkeeping of the model] *)
Definition set_x x s := mk x (chan s) (msg s) (alive s) (shown s) (exists_slot s) (next s) (tr s).

(** a future is dropped while the channel is mutably borrowed: a call of
    set_future/clear_future then panics in [borrow_mut] ([None]) [dynamic_slot.rs:97-108] *)
Definition drop_borrowed (f : nat) (s : st) : option st :=
  match dropf (xs s) f with
  | (x, []) => Some (emit (TDrop f) (set_x x s))
  | _ => None
  end.
(** the old message is overwritten [dynamic_slot.rs:97-108] *)
Definition drop_msg (s : st) : option st :=
  match msg s with MSet g => drop_borrowed g s | _ => Some s end.

(** dynamic_slot.rs:97-101 *)
Definition set_future (s : st) : option st :=
  let f := next s in
  let s := mk (xs s) (chan s) (msg s) (alive s) (shown s) (exists_slot s) (S f) (TSet f :: tr s) in
  do s <- drop_msg s ;
  Some (emit (TWake (chan s)) (set_msg (MSet f) s)).
(** dynamic_slot.rs:104-108 *)
Definition clear_future (s : st) : option st :=
  let s := emit TClear s in
  do s <- drop_msg s ;
  Some (emit (TWake (chan s)) (set_msg MClear s)).
(** dynamic_slot.rs:97-108, called from a future's poll or drop *)
Definition exec_act (s : option st) (a : act) : option st :=
  do s <- s ; match a with ASet => set_future s | AClear => clear_future s end.

(** [fut_slot.set(..)]: the old future is dropped, then the new one is written
    [dynamic_slot.rs:75-91] *)
Definition replace_shown (f : option nat) (s : st) : option st :=
  do s <- match shown s with Some g => drop_borrowed g s | None => Some s end ;
  Some (set_shown f s).

(** dynamic_slot.rs:75-82 *)
Definition take_message (s : st) : option st :=
  let m := msg s in
  let s := set_msg MNoChange s in
  match m with
  | MSet f => replace_shown (Some f) s
  | MClear => replace_shown None s
  | MNoChange => Some s
  end.
(** dynamic_slot.rs:88-91 *)
Definition poll_shown (w : waker) (s : st) : option st :=
  match shown s with
  | None => Some s
  | Some f =>
      let '(x, acts, r) := poll (xs s) f w in
      do s <- fold_left exec_act acts (Some (emit (TFut f w) (set_x x s))) ;
      Some (if r then emit (TReady f) s else s)
  end.
(** dynamic_slot.rs:74-93 *)
Definition render_poll (w : waker) (s : st) : option st :=
  do s <- take_message (emit (TPoll w) s) ;
  let s := set_chan (if ww (chan s) w then chan s else w) s in
  poll_shown w s.

(** What can happen from outside.  Steps which Rust's borrow rules exclude (use of a
    dropped render future or slot, dropping the slot before its render future) do
    nothing.  [OChange]: the state of the application changes. [dynamic_slot.rs:35-108] *)
Inductive op := OAct (a : act) | OPoll (w : waker) | ODropRender | ODropSlot | OChange (x : X).
(** dynamic_slot.rs:35-108 *)
Definition exec (s : st) (o : op) : option st :=
  match o with
  | OAct a => if exists_slot s then exec_act (Some s) a else Some s
  | OPoll w => if alive s then render_poll w s else Some s
  | ODropRender =>
      (* the pinned future is dropped; the channel is not borrowed *)
      if alive s then
        let s0 := mk (xs s) (chan s) (msg s) false None (exists_slot s) (next s) (tr s) in
        match shown s with
        | None => Some s0
        | Some f => let '(x, acts) := dropf (xs s) f in
                    fold_left exec_act acts (Some (emit (TDrop f) (set_x x s0)))
        end
      else Some s
  | ODropSlot =>
      (* the future in the message is dropped; nobody can call the slot any more *)
      if alive s || negb (exists_slot s) then Some s
      else
        let s0 := mk (xs s) (chan s) MNoChange false None false (next s) (tr s) in
        match msg s with
        | MSet f => Some (emit (TDrop f) (set_x (fst (dropf (xs s) f)) s0))
        | _ => Some s0
        end
  | OChange x => Some (set_x x s)
  end.
(** dynamic_slot.rs:56-60, 71-73 *)
Definition init (x : X) : st := mk x dummy_waker MNoChange true None true 0 [].
(** a sequence of steps [a history; not a function of /repo] *)
Fixpoint execs (s : st) (ops : list op) : option st :=
  match ops with [] => Some s | o :: ops => do s <- exec s o ; execs s ops end.
(** a whole history [a history; not a function of /repo] *)
Definition run (x : X) (ops : list op) : option st := execs (init x) ops.
End Slot.
