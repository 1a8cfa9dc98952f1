(** Model of async_ui_internal_utils/src/reactive_cell: ReactiveCell on top of the
    waker arena.  [None] is a panic (RefCell already borrowed, index out of bounds).
    Versions are natural numbers: overflow of the u64 counter is not modelled.
    A waker's wake_by_ref is an output of the step; it is assumed not to use the cell
    before the step ends (true of every executor waker: it only schedules). *)
From Coq Require Import List Arith Bool.
From Verif Require Import Arena.
Import ListNotations.

Section Cell.
Variable T : Type.
Variable ww : waker -> waker -> bool.  (* Waker::will_wake *)

(** mod.rs:38-40, 73-77; [c_guard]: a ReactiveCellBorrowMut is alive *)
Record cell := mkC { c_data : T; c_arena : arena; c_ver : nat; c_guard : bool }.

(** mod.rs:79 SUBLIST *)
Definition SUBLIST := 1.

(** mod.rs:82-91 [ReactiveCell::new] *)
Definition cell_new (x : T) : option cell :=
  do (a, _) <- ar_add_sublist ar_new; Some (mkC x a 1 false).

(** mod.rs:92-94 [borrow]: the value read.  Shared borrows last only for the
    duration of a read here, so only a live mutable borrow makes it panic. *)
Definition cell_read (c : cell) : option T := if c_guard c then None else Some (c_data c).
(** mod.rs:95-99 [borrow_mut] *)
Definition cell_borrow_mut (c : cell) : option cell :=
  if c_guard c then None else Some (mkC (c_data c) (c_arena c) (c_ver c) true).
(** borrow_mut.rs:13-17 [deref_mut], writing through it *)
Definition cell_write (c : cell) (x : T) : option cell :=
  if c_guard c then Some (mkC x (c_arena c) (c_ver c) true) else None.
(** borrow_mut.rs:26-34 [drop]: the wakers woken, in order *)
Definition cell_end (c : cell) : option (cell * list waker) :=
  if c_guard c then
    do ws <- ar_iter (c_arena c) SUBLIST;
    Some (mkC (c_data c) (c_arena c) (c_ver c + 1) false, ws)
  else None.

(** until_change.rs:19-23 *)
Record stream := mkS { s_last : nat; s_slot : nat }.
(** until_change.rs:10-16 [until_change] *)
Definition cell_until_change (c : cell) : option (cell * stream) :=
  if c_guard c then None else
  do (a, i) <- ar_add (c_arena c) SUBLIST;
  Some (mkC (c_data c) a (c_ver c) false, mkS 0 i).
(** until_change.rs:28-45 [poll_next] and 50-56 [poll]; [true] is Ready *)
Definition stream_poll (c : cell) (s : stream) (w : waker) : option (cell * stream * bool) :=
  if c_guard c then None else
  let '(lv, res) :=
    if Nat.eqb (s_last s) 0 then (c_ver c, false)
    else if s_last s <? c_ver c then (c_ver c, true)
    else (s_last s, false) in
  do a <- ar_update ww (c_arena c) (s_slot s) w;
  Some (mkC (c_data c) a (c_ver c) false, mkS lv (s_slot s), res).
(** until_change.rs:58-66 [drop] *)
Definition stream_drop (c : cell) (s : stream) : option cell :=
  if c_guard c then None else
  do a <- ar_remove (c_arena c) (s_slot s);
  Some (mkC (c_data c) a (c_ver c) false).

(** A cell used by any number of streams.  Streams are named by their order of
    creation. [until_change.rs:10-23, mod.rs:10-40] *)
Record cworld := mkCW { cw_cell : cell; cw_streams : list (nat * stream); cw_next : nat }.
(** reactive_cell/mod.rs:82-91 [new], with no stream yet *)
Definition cw_new (x : T) : option cworld := do c <- cell_new x; Some (mkCW c [] 0).

(** the calls on a cell: borrow_mut (mod.rs:95-99), a write through the guard (borrow_mut.rs:13-17), its drop (borrow_mut.rs:26-34), until_change (until_change.rs:10-16), poll (28-55) and drop (58-66) of the stream *)
Inductive cev := CBegin | CWrite (x : T) | CEnd | CNew | CPoll (id : nat) (w : waker) | CDrop (id : nat).
(** what a call gives: nothing, Ready, Pending (until_change.rs:28-45), or the wakers woken (borrow_mut.rs:26-34) *)
Inductive cout := OUnit | OReady | OPending | OWoken (l : list waker).

(** the live streams of the application (not a part of reactive_cell/*.rs) *)
Fixpoint s_get (id : nat) (l : list (nat * stream)) : option stream :=
  match l with [] => None | (j, s) :: t => if Nat.eqb j id then Some s else s_get id t end.
(** same: replacing one of them [bookkeeping of the model] *)
Definition s_put (id : nat) (s : stream) (l : list (nat * stream)) : list (nat * stream) :=
  map (fun p => if Nat.eqb (fst p) id then (id, s) else p) l.
(** same: removing one of them [bookkeeping of the model; Drop, until_change.rs:58-66] *)
Definition s_del (id : nat) (l : list (nat * stream)) : list (nat * stream) :=
  filter (fun p => negb (Nat.eqb (fst p) id)) l.

(** one call: reactive_cell/{mod,borrow_mut,until_change}.rs as cited at [cev] *)
Definition cexec (w : cworld) (e : cev) : option (cworld * cout) :=
  match e with
  | CBegin => do c <- cell_borrow_mut (cw_cell w); Some (mkCW c (cw_streams w) (cw_next w), OUnit)
  | CWrite x => do c <- cell_write (cw_cell w) x; Some (mkCW c (cw_streams w) (cw_next w), OUnit)
  | CEnd => do (c, ws) <- cell_end (cw_cell w); Some (mkCW c (cw_streams w) (cw_next w), OWoken ws)
  | CNew => do (c, s) <- cell_until_change (cw_cell w);
      Some (mkCW c (cw_streams w ++ [(cw_next w, s)]) (S (cw_next w)), OUnit)
  | CPoll id wk =>
      do s <- s_get id (cw_streams w); do (c, s', r) <- stream_poll (cw_cell w) s wk;
      Some (mkCW c (s_put id s' (cw_streams w)) (cw_next w), if r : bool then OReady else OPending)
  | CDrop id =>
      do s <- s_get id (cw_streams w); do c <- stream_drop (cw_cell w) s;
      Some (mkCW c (s_del id (cw_streams w)) (cw_next w), OUnit)
  end.

(** a history of calls (any sequence; not a function of /repo)
    [a history; not a function of /repo] *)
Fixpoint crun (w : cworld) (es : list cev) : option cworld :=
  match es with
  | [] => Some w
  | e :: t => do (w', _) <- cexec w e; crun w' t
  end.

(** for_each.rs:4-11 [for_each], as the state machine of the async block: before
    the first poll, or suspended in [self.until_change().await] on a stream.
    [fe_calls]: the arguments the function was called with, newest first. *)
Record fe := mkFE { fe_stream : option nat; fe_calls : list T }.
(** for_each.rs:4: the future before its first poll *)
Definition fe_new : fe := mkFE None [].

(** the loop of for_each.rs:5-10 from the top; [None] also when the fuel runs out.
    The trace of cell operations is returned along (newest first). *)
Fixpoint fe_loop (fuel : nat) (w : cworld) (calls : list T) (wk : waker) (tr : list cev) : option (cworld * fe * list cev) :=
  match fuel with
  | 0 => None
  | S fuel =>
      do x <- cell_read (cw_cell w);                         (* func(&self.borrow()) *)
      let id := cw_next w in
      do (w1, _) <- cexec w CNew;                            (* self.until_change() *)
      do (w2, r) <- cexec w1 (CPoll id wk);                  (* .await *)
      match r with
      | OReady => do (w3, _) <- cexec w2 (CDrop id);
          fe_loop fuel w3 (x :: calls) wk (CDrop id :: CPoll id wk :: CNew :: tr)
      | _ => Some (w2, mkFE (Some id) (x :: calls), CPoll id wk :: CNew :: tr)
      end
  end.
(** for_each.rs:4-11: a poll of the future of [for_each]; it resumes in the await of the stream, if it is suspended there *)
Definition fe_poll (fuel : nat) (w : cworld) (f : fe) (wk : waker) : option (cworld * fe * list cev) :=
  match fe_stream f with
  | None => fe_loop fuel w (fe_calls f) wk []
  | Some id =>
      do (w1, r) <- cexec w (CPoll id wk);
      match r with
      | OReady => do (w2, _) <- cexec w1 (CDrop id); fe_loop fuel w2 (fe_calls f) wk [CDrop id; CPoll id wk]
      | _ => Some (w1, f, [CPoll id wk])
      end
  end.
(** dropping the for_each future drops the stream it is suspended on
    [for_each.rs:4-11, until_change.rs:58-66] *)
Definition fe_drop (w : cworld) (f : fe) : option (cworld * list cev) :=
  match fe_stream f with
  | None => Some (w, [])
  | Some id => do (w1, _) <- cexec w (CDrop id); Some (w1, [CDrop id])
  end.

(** A cell used by streams and by for_each futures, named by order of creation;
    [fw_tr] records the cell operations performed (newest first). [for_each.rs:4-11] *)
Record fworld := mkFW { fw_w : cworld; fw_fes : list (nat * fe); fw_next : nat; fw_tr : list cev }.
(** histories of a cell with for_each futures: an operation on the cell, or start, poll and drop of such a future (for_each.rs:4-11) *)
Inductive fev := FCell (e : cev) | FStart | FPoll (j : nat) (wk : waker) | FDropFe (j : nat).
(** the live for_each futures of the application (not a part of for_each.rs) *)
Fixpoint f_get (j : nat) (l : list (nat * fe)) : option fe :=
  match l with [] => None | (i, f) :: t => if Nat.eqb i j then Some f else f_get j t end.
(** same: replacing one of them [bookkeeping of the model] *)
Definition f_put (j : nat) (f : fe) (l : list (nat * fe)) : list (nat * fe) :=
  map (fun p => if Nat.eqb (fst p) j then (j, f) else p) l.
(** same: removing one of them [bookkeeping of the model] *)
Definition f_del (j : nat) (l : list (nat * fe)) : list (nat * fe) :=
  filter (fun p => negb (Nat.eqb (fst p) j)) l.
(** one step of such a history: for_each.rs:4-11 and the calls of [cexec] *)
Definition fexec (fuel : nat) (w : fworld) (e : fev) : option (fworld * cout) :=
  match e with
  | FCell e => do (w', o) <- cexec (fw_w w) e; Some (mkFW w' (fw_fes w) (fw_next w) (e :: fw_tr w), o)
  | FStart => Some (mkFW (fw_w w) (fw_fes w ++ [(fw_next w, fe_new)]) (S (fw_next w)) (fw_tr w), OUnit)
  | FPoll j wk =>
      do f <- f_get j (fw_fes w); do (w', f', tr) <- fe_poll fuel (fw_w w) f wk;
      Some (mkFW w' (f_put j f' (fw_fes w)) (fw_next w) (tr ++ fw_tr w), OPending)
  | FDropFe j =>
      do f <- f_get j (fw_fes w); do (w', tr) <- fe_drop (fw_w w) f;
      Some (mkFW w' (f_del j (fw_fes w)) (fw_next w) (tr ++ fw_tr w), OUnit)
  end.
End Cell.
