(** Model of /repo/async_ui_web_html/src/event_handling.rs: EventFutureStream, for any
    number of streams on any number of event targets.

    Targets, event names and events are numbers.  The listener lists of the browser
    are one list of (target, name, callback, capture), to which addEventListener
    appends, and from which removeEventListener removes the entry with the same
    target, name, callback and capture flag (DOM standard, "add/remove an event
    listener").  The callback of stream [s] is [s]. *)
From Coq Require Import List Arith Bool.
From Verif Require Import Arena.
Import ListNotations.

(** an entry of a target's event listener list (DOM standard): target, event name, callback, capture flag *)
Record listener := mkL { l_target : nat; l_name : nat; l_cb : nat; l_capture : bool }.
(** event_handling.rs:27-33; [s_closure]: whether the closure has been made; [s_slot]
    and [s_waker] are the shared cell; [s_capture] is the capture flag of the options *)
Record stream := mkS { s_target : nat; s_name : nat; s_closure : bool; s_slot : option nat; s_waker : waker; s_capture : bool }.

(** ghost: not code of /repo *)
Inductive ev :=
| TNew (s t n : nat)            (* until_event *)
| TCapture (s : nat) (b : bool) (* set_capture *)
| TPoll (s : nat) (w : waker) (r : option nat)  (* a poll, with its result; None is Pending *)
| TDrop (s : nat)
| TBegin (path : list nat) (n e : nat) (b : bool) (* dispatch of event e with name n; path: target, its parent, ...; b: bubbles *)
| TEnd (e : nat)                (* the dispatch of e returns *)
| TStop (e : nat)               (* the application stops the propagation of e *)
| TDeliver (s e : nat)          (* the closure of s stores e *)
| TWake (w : waker)             (* and wakes this waker *)
| TRun                          (* and calls run_now *)
| TThrow (s : nat).             (* a closure that was dropped is called *)

Section Event.
Variable ww : waker -> waker -> bool.

(** the streams (event_handling.rs:27-33) and the listeners in the browser, with the trace *)
Record world := mkW { next : nat; streams : nat -> option stream; listeners : list listener; tr : list ev }.
(** records an event (trace only) [ghost] *)
Definition emit (e : ev) (w : world) : world := mkW (next w) (streams w) (listeners w) (e :: tr w).

(** what the application may do [event_handling.rs:38-170] *)
Inductive bop :=
| BNew (t n : nat)
| BCapture (s : nat) (b : bool)
| BPoll (s : nat) (wk : waker)
| BDrop (s : nat).

(** event_handling.rs:87-136 [poll_next] *)
Definition poll_next (w : world) (s : nat) (st : stream) (wk : waker) : world :=
  let wk' := if ww (s_waker st) wk then s_waker st else wk in
  if s_closure st then
    mkW (next w)
        (fupd (streams w) s (Some (mkS (s_target st) (s_name st) true None wk' (s_capture st))))
        (listeners w) (TPoll s wk (s_slot st) :: tr w)
  else
    mkW (next w)
        (fupd (streams w) s (Some (mkS (s_target st) (s_name st) true (s_slot st) wk' (s_capture st))))
        (listeners w ++ [mkL (s_target st) (s_name st) s (s_capture st)]) (TPoll s wk None :: tr w).

(** removeEventListener without options: the capture flag is false
    [web_sys, called at event_handling.rs:159-170] *)
Definition remove_listener (t n cb : nat) (l : list listener) : list listener :=
  filter (fun x => negb ((l_target x =? t) && (l_name x =? n) && (l_cb x =? cb) && negb (l_capture x))) l.

Definition exec_b (w : world) (b : bop) : world :=
  match b with
  | BNew t n => (* event_handling.rs:38-46 *)
      mkW (S (next w)) (fupd (streams w) (next w) (Some (mkS t n false None dummy_waker false)))
          (listeners w) (TNew (next w) t n :: tr w)
  | BCapture s c => (* event_handling.rs:55-59 *)
      match streams w s with
      | None => w
      | Some st => mkW (next w) (fupd (streams w) s (Some (mkS (s_target st) (s_name st) (s_closure st) (s_slot st) (s_waker st) c)))
                       (listeners w) (TCapture s c :: tr w)
      end
  | BPoll s wk => match streams w s with None => w | Some st => poll_next w s st wk end
  | BDrop s => (* event_handling.rs:159-170 *)
      match streams w s with
      | None => w
      | Some st =>
          mkW (next w) (fupd (streams w) s None)
              (if s_closure st then remove_listener (s_target st) (s_name st) s (listeners w) else listeners w)
              (TDrop s :: tr w)
      end
  end.

(** event_handling.rs:106-113: the closure is called *)
Definition invoke (w : world) (s e : nat) : world :=
  match streams w s with
  | None => emit (TThrow s) w
  | Some st =>
      mkW (next w)
          (fupd (streams w) s (Some (mkS (s_target st) (s_name st) (s_closure st) (Some e) (s_waker st) (s_capture st))))
          (listeners w) (TRun :: TWake (s_waker st) :: TDeliver s e :: tr w)
  end.

(** DOM standard: a listener is identified by type, callback and capture, on its target *)
Definition l_eqb (x y : listener) : bool :=
  (l_target x =? l_target y) && (l_name x =? l_name y) && (l_cb x =? l_cb y) && Bool.eqb (l_capture x) (l_capture y).

(** The dispatch of an event that is going on (DOM standard, "dispatch", "invoke" and
    "inner invoke"): [f_cur] is what remains of the copy of the listeners of the current
    target, [f_todo] the targets still to come, with the phase (true: capturing). *)
Record frame := mkF { f_ev : nat; f_name : nat; f_cur : list listener; f_todo : list (nat * bool); f_stop : bool }.
(** Capturing phase from the root down to the target, then bubbling phase from the
    target upwards, or the target alone for events that do not bubble. [the DOM standard] *)
Definition plan (path : list nat) (b : bool) : list (nat * bool) :=
  map (fun t => (t, true)) (rev path) ++ map (fun t => (t, false)) (if b then path else firstn 1 path).
(** the listeners of one target for one phase [the DOM standard] *)
Definition copy (n : nat) (tp : nat * bool) (l : list listener) : list listener :=
  filter (fun x => (l_target x =? fst tp) && (l_name x =? n) && Bool.eqb (l_capture x) (snd tp)) l.

(** The page: dispatches nest when the application itself dispatches an event (as
    [element.click()] does) while it reacts to one; the stack holds them, newest first.
    [the DOM standard] *)
Record page := mkP { pg_w : world; pg_stack : list frame }.
(** A history: the application (which each call of a listener runs, by run_now) acts, an
    event is dispatched, the newest dispatch takes a step, the application stops the
    propagation of the [k]-th event on the stack (stopPropagation, or with [now]
    stopImmediatePropagation).  Any order is possible, so the application may do anything
    between two calls of listeners. [the DOM standard and event_handling.rs:38-170] *)
Inductive op := Basic (b : bop) | Begin (path : list nat) (n e : nat) (bubbles : bool) | Next | Stop (k : nat) (now : bool).
(** changes the [k]-th dispatch of the stack [bookkeeping of the model] *)
Fixpoint upd_at (k : nat) (f : frame -> frame) (l : list frame) : list frame :=
  match l, k with
  | [], _ => []
  | x :: l', 0 => f x :: l'
  | x :: l', S k' => x :: upd_at k' f l'
  end.
(** event_handling.rs:38-170 *)
Definition exec (p : page) (o : op) : page :=
  let w := pg_w p in
  match o with
  | Basic b => mkP (exec_b w b) (pg_stack p)
  | Begin path n e b =>
      (* an event that is being dispatched cannot be dispatched again: an exception *)
      if existsb (fun f => f_ev f =? e) (pg_stack p) then p
      else mkP (emit (TBegin path n e b) w) (mkF e n [] (plan path b) false :: pg_stack p)
  | Next =>
      match pg_stack p with
      | [] => p
      | f :: st =>
          match f_cur f, f_todo f with
          | x :: cur, _ =>
              mkP (if existsb (l_eqb x) (listeners w) then invoke w (l_cb x) (f_ev f) else w)
                  (mkF (f_ev f) (f_name f) cur (f_todo f) (f_stop f) :: st)
          | [], tp :: todo =>
              if f_stop f then mkP (emit (TEnd (f_ev f)) w) st
              else mkP w (mkF (f_ev f) (f_name f) (copy (f_name f) tp (listeners w)) todo false :: st)
          | [], [] => mkP (emit (TEnd (f_ev f)) w) st
          end
      end
  | Stop k now =>
      match nth_error (pg_stack p) k with
      | None => p
      | Some f =>
          mkP (emit (TStop (f_ev f)) w)
              (upd_at k (fun f => mkF (f_ev f) (f_name f) (if now then [] else f_cur f) (f_todo f) true) (pg_stack p))
      end
  end.
(** no streams, no listeners [a history; not a function of /repo] *)
Definition init : world := mkW 0 (fun _ => None) [] [].
(** a whole history [a history; not a function of /repo] *)
Definition run (ops : list op) : page := fold_left exec ops (mkP init []).
End Event.
