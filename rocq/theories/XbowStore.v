(** Model of an x-bow store as a whole: data (XbowData.v), change streams (Xbow.v) and the
    helpers of /repo/x-bow/src/path_ext/*.rs that run on them.

    Simplifications.  Borrows are not held across operations: each write borrows, modifies
    and drops its guard at once (a second borrow while one is held panics, by design).
    Callbacks only look at the data (they run while it is borrowed, so they cannot change
    it).  What the environment does -- the future of for_each_async when it is polled, the
    incoming stream of bind_for_each -- is part of the operation that polls the helper and
    arbitrary. *)
From Coq Require Import List Arith Bool NArith.
From Verif Require Import Arena Xbow XbowData.
Import ListNotations.

Section Store.
Variable ww : waker -> waker -> bool.
Variable K : Type.
Variable keqb : K -> K -> bool.
Notation val := (val K).
Notation path := (list (seg K)).
Variable H : path -> N.
Notation world := (world (seg K)).
Notation xexec := (exec ww (seg K) H).

(** for_each.rs, for_each_async.rs, signal_stream.rs, bind_for_each.rs *)
Inductive kind := KEach | KAsync | KSignal (fire_immediately : bool) | KBind.
(** a helper: its UntilChange stream identifies it
    [for_each_async.rs:40-55, bind_for_each.rs:38-69, signal_stream.rs:27-40] *)
Record helper := mkH { h_id : nat; h_kind : kind; h_path : path; h_fut : option nat }.

(** path_ext.rs:102-153 *)
Inductive act :=
| AWrite (p : path) (uniq : nat -> bool) (f : val -> val)   (* modify through borrow_opt_mut *)
| AQuiet (p : path) (uniq : nat -> bool) (f : val -> val)   (* borrow_opt_mut_without_notifying *)
| ANotify (p : path).                                       (* notify_changed *)
(** what the environment does during one poll of a helper: what the incoming stream yields
    and whether it then ends; what the running future (or the incoming stream) does to the
    store; whether the future then completes [user code] *)
Record env := mkEnv { e_items : list val; e_end : bool; e_uniq : nat -> bool; e_acts : list act; e_done : bool }.

(** ghost: not code of /repo *)
Inductive sev :=
| EPoll (h : nat) (w : waker)
| ECall (h : nat) (v : val)                  (* the closure is called *)
| EFut (h : nat) (n : nat) (v : val)         (* the async closure is called; it returns future n *)
| EFutPoll (n : nat)
| EFutDrop (n : nat)
| EItem (h : nat) (o : option val)           (* signal_stream yields; None ends it *)
| EIncoming (h : nat) (v : val)              (* the incoming stream yields *)
| EWrote (h : nat) (v : val)                 (* bind_for_each stores an incoming value *)
| EDone (h : nat)                            (* bind_for_each completes *)
| EWrite (p : path)                          (* a write with notification *)
| EQuiet (p : path).
(** the store's data (store.rs:11-17), its wakers and streams, the live helpers (path_ext/*.rs), the trace *)
Record sstate := mkS { sd : val; sx : world; sh : list helper; snext : nat; str : list sev }.

(** path_ext.rs *)
Inductive sop :=
| SAct (a : act)
| SStream (o : op (seg K))                   (* streams used directly *)
| SNew (k : kind) (p : path)
| SPoll (h : nat) (w : waker) (e : env)
| SDrop (h : nat).

(** record update [bookkeeping of the model] *)
Definition with_x (s : sstate) (x : world) : sstate := mkS (sd s) x (sh s) (snext s) (str s).
(** record update [bookkeeping of the model] *)
Definition with_d (s : sstate) (d : val) : sstate := mkS d (sx s) (sh s) (snext s) (str s).
(** records an event (trace only) [ghost] *)
Definition emit (s : sstate) (e : sev) : sstate := mkS (sd s) (sx s) (sh s) (snext s) (e :: str s).

(** path_ext.rs:102-105 with borrow_mut_guard.rs:45-57; path_ext.rs:110-112; 125-127 *)
Definition do_act (s : sstate) (a : act) : option sstate :=
  match a with
  | AWrite p u f =>
      match path_borrow_mut K keqb u p (sd s) with
      | None => Some s
      | Some (x, k) => do w <- xexec (sx s) (ONotify _ p) ; Some (emit (with_x (with_d s (k (f x))) w) (EWrite p))
      end
  | AQuiet p u f =>
      match path_borrow_mut K keqb u p (sd s) with
      | None => Some s
      | Some (x, k) => Some (emit (with_d s (k (f x))) (EQuiet p))
      end
  | ANotify p => do w <- xexec (sx s) (ONotify _ p) ; Some (with_x s w)
  end.
(** what user code does to the store in this moment, in order [user code] *)
Fixpoint do_acts (s : sstate) (l : list act) : option sstate :=
  match l with [] => Some s | a :: l => do s1 <- do_act s a ; do_acts s1 l end.

(** until_change.rs:56-58 *)
Definition polled (w : world) (h : nat) : bool :=
  match find_stream h (w_streams _ w) with Some u => 1 <=? u_last u | None => false end.
(** poll_next of the UntilChange of a helper [until_change.rs:56-58] *)
Definition poll_stream (s : sstate) (h : nat) (wk : waker) : option (sstate * bool) :=
  do w <- xexec (sx s) (OPoll _ h wk) ;
  match w_tr _ w with TPoll _ _ _ r :: _ => Some (with_x s w, r) | _ => None end.

(** `this.current_fut.set(..)` (for_each_async.rs:40-55) *)
Definition set_fut (h : nat) (o : option nat) (l : list helper) : list helper :=
  map (fun x => if h_id x =? h then mkH h (h_kind x) (h_path x) o else x) l.
(** same, on the whole state [bookkeeping of the model] *)
Definition with_fut (s : sstate) (h : nat) (o : option nat) : sstate :=
  mkS (sd s) (sx s) (set_fut h o (sh s)) (snext s) (str s).
(** the old future of for_each_async is dropped (for_each_async.rs:40-55) *)
Definition drop_fut (s : sstate) (o : option nat) : sstate :=
  match o with Some n => emit s (EFutDrop n) | None => s end.

(** for_each.rs:27-36 *)
Definition poll_each (s : sstate) (h : helper) (wk : waker) : option sstate :=
  let first := negb (polled (sx s) (h_id h)) in
  do (s1, r) <- poll_stream s (h_id h) wk ;
  if first || r then
    match path_borrow K keqb (h_path h) (sd s1) with
    | Some v => Some (emit s1 (ECall (h_id h) v))
    | None => Some s1
    end
  else Some s1.

(** for_each_async.rs:49-54 and 40-55 *)
Definition run_fut (s : sstate) (h : nat) (o : option nat) (e : env) : option sstate :=
  match o with
  | None => Some s
  | Some n =>
      do s1 <- do_acts (emit s (EFutPoll n)) (e_acts e) ;
      if e_done e then Some (with_fut (emit s1 (EFutDrop n)) h None) else Some s1
  end.
(** path_ext/for_each_async.rs:40-55 [poll] *)
Definition poll_async (s : sstate) (h : helper) (wk : waker) (e : env) : option sstate :=
  let first := negb (polled (sx s) (h_id h)) in
  do (s1, r) <- poll_stream s (h_id h) wk ;
  if first || r then
    match path_borrow K keqb (h_path h) (sd s1) with
    | Some v =>
        let n := snext s1 in
        let s2 := emit (mkS (sd s1) (sx s1) (sh s1) (S n) (str s1)) (EFut (h_id h) n v) in
        run_fut (with_fut (drop_fut s2 (h_fut h)) (h_id h) (Some n)) (h_id h) (Some n) e
    | None => run_fut s1 (h_id h) (h_fut h) e
    end
  else run_fut s1 (h_id h) (h_fut h) e.

(** signal_stream.rs:27-40 *)
Definition poll_signal (s : sstate) (h : helper) (fire : bool) (wk : waker) : option sstate :=
  let first := negb (polled (sx s) (h_id h)) in
  do (s1, r) <- poll_stream s (h_id h) wk ;
  if (first && fire) || r then Some (emit s1 (EItem (h_id h) (path_borrow K keqb (h_path h) (sd s1))))
  else Some s1.

(** bind_for_each.rs:38-69 *)
Fixpoint take_items (s : sstate) (h : nat) (items : list val) : sstate :=
  match items with [] => s | v :: items => take_items (emit s (EIncoming h v)) h items end.
(** the value that remains when the incoming stream yields several (bind_for_each.rs:38-69) *)
Definition last_item (items : list val) : option val := last (map Some items) None.
(** path_ext/bind_for_each.rs:38-69 [poll] *)
Definition poll_bind (s : sstate) (h : helper) (wk : waker) (e : env) : option sstate :=
  do sa <- do_acts s (e_acts e) ;
  let s0 := take_items sa (h_id h) (e_items e) in
  if e_end e then Some (emit s0 (EDone (h_id h)))
  else
    let listen (s1 : sstate) :=
      let first := negb (polled (sx s1) (h_id h)) in
      do (s2, r) <- poll_stream s1 (h_id h) wk ;
      if first || r then
        match path_borrow K keqb (h_path h) (sd s2) with
        | Some v => Some (emit s2 (ECall (h_id h) v))
        | None => Some s2
        end
      else Some s2 in
    match last_item (e_items e) with
    | None => listen s0
    | Some v =>
        match path_borrow_mut K keqb (e_uniq e) (h_path h) (sd s0) with
        | None => Some (emit s0 (EDone (h_id h)))
        | Some _ =>
            do s1 <- do_act s0 (AWrite (h_path h) (e_uniq e) (fun _ => v)) ;
            do (s2, _) <- poll_stream (emit s1 (EWrote (h_id h) v)) (h_id h) wk ;
            listen s2
        end
    end.

(** the live helpers of the application [bookkeeping of the model] *)
Definition find_helper (h : nat) (l : list helper) : option helper := find (fun x => h_id x =? h) l.
(** whether a helper is alive [bookkeeping of the model] *)
Definition is_helper (h : nat) (l : list helper) : bool := existsb (fun x => h_id x =? h) l.

Definition sexec (s : sstate) (o : sop) : option sstate :=
  match o with
  | SAct a => do_act s a
  | SStream o =>
      (* the stream inside a helper cannot be used directly; notifications are [SAct] *)
      match o with
      | ONew _ _ _ => do w <- xexec (sx s) o ; Some (with_x s w)
      | OPoll _ i _ => if is_helper i (sh s) then Some s else do w <- xexec (sx s) o ; Some (with_x s w)
      | ODrop _ i => if is_helper i (sh s) then Some s else do w <- xexec (sx s) o ; Some (with_x s w)
      | ONotify _ _ => Some s
      end
  | SNew k p =>
      (* path_ext.rs:259-261, 286-288, 320-326, 362-369: until_change, then the helper *)
      let h := w_next _ (sx s) in
      do w <- xexec (sx s) (ONew _ p false) ;
      Some (mkS (sd s) w (mkH h k p None :: sh s) (snext s) (str s))
  | SPoll h wk e =>
      match find_helper h (sh s) with
      | None => Some s
      | Some x =>
          let s0 := emit s (EPoll h wk) in
          match h_kind x with
          | KEach => poll_each s0 x wk
          | KAsync => poll_async s0 x wk e
          | KSignal fire => poll_signal s0 x fire wk
          | KBind => poll_bind s0 x wk e
          end
      end
  | SDrop h =>
      match find_helper h (sh s) with
      | None => Some s
      | Some x =>
          do w <- xexec (sx s) (ODrop _ h) ;
          Some (drop_fut (mkS (sd s) w (filter (fun y => negb (h_id y =? h)) (sh s)) (snext s) (str s)) (h_fut x))
      end
  end.
(** store.rs:20-25 [new] *)
Definition sinit (d : val) : sstate := mkS d (init _) [] 0 [].
(** a sequence of steps [a history; not a function of /repo] *)
Fixpoint sexecs (s : sstate) (ops : list sop) : option sstate :=
  match ops with [] => Some s | o :: ops => do s1 <- sexec s o ; sexecs s1 ops end.
(** a whole history [a history; not a function of /repo] *)
Definition srun (d : val) (ops : list sop) : option sstate := sexecs (sinit d) ops.
End Store.
