(** Model of the life of a VirtualizedList: async_ui_web/src/lists/virtualized_list.rs:107-170,
    232-255.  Its render futures, the scroll listener, the observer and the signal (a
    ReactiveCell, Cell.v); the list itself is Virtual.v.

    Of a render future only the last of the four joined futures (150-168) is here; the first three
    are spacers and the inner list, which refuses to be rendered in two places
    (dynamic_list.rs:320).  User code runs in the renderer and in drops of items, during an
    update: it may dispatch scroll events on the root.  If it calls set_num_items, this panics
    (the RefCell of the state is borrowed, 178): this is left out. *)
From Coq Require Import List Arith Bool.
From Verif Require Import Arena Cell Virtual.
Import ListNotations.

(** what happens (newest first in traces) [ghost] *)
Inductive ev :=
| TRender (j : nat)                                       (* a render future is made *)
| TPoll (j : nat) (wk : waker)                            (* it is polled *)
| TDrop (j : nat)                                         (* it is dropped *)
| TScroll                                                 (* a scroll event on the root *)
| TInter                                                  (* the observer's callback is called *)
| TUpdate (num : option nat) (w : option (nat * nat))     (* an update, by set_num_items or not *)
| TConnect | TDisconnect                                  (* the observer observes, stops observing *)
| TAdd | TRemove                                          (* the scroll listener is added, removed *)
| TWake (wk : waker).                                     (* the signal wakes *)

(** [vr_futs]: the render futures that exist, with the stream of those that were polled (159);
    [vr_listen]: the scroll listener is registered; [vr_obs]: the observer is connected
    [virtualized_list.rs:46-58] *)
Record vr := mkVR { vr_list : vlist; vr_cell : cworld unit; vr_listen : bool; vr_obs : bool; vr_futs : list (nat * option nat); vr_next : nat; vr_tr : list ev }.
(** records an event [ghost] *)
Definition emit (e : ev) (s : vr) := mkVR (vr_list s) (vr_cell s) (vr_listen s) (vr_obs s) (vr_futs s) (vr_next s) (e :: vr_tr s).
(** record update: the list (virtualized_list.rs:46-58) *)
Definition set_list l (s : vr) := mkVR l (vr_cell s) (vr_listen s) (vr_obs s) (vr_futs s) (vr_next s) (vr_tr s).
(** record update: the signal (virtualized_list.rs:52) *)
Definition set_cell c (s : vr) := mkVR (vr_list s) c (vr_listen s) (vr_obs s) (vr_futs s) (vr_next s) (vr_tr s).
(** record update: the listener (virtualized_list.rs:142-149, 157-162) *)
Definition set_listen b (s : vr) := mkVR (vr_list s) (vr_cell s) b (vr_obs s) (vr_futs s) (vr_next s) (vr_tr s).
(** record update: the observer (virtualized_list.rs:232-255) *)
Definition set_obs b (s : vr) := mkVR (vr_list s) (vr_cell s) (vr_listen s) b (vr_futs s) (vr_next s) (vr_tr s).
(** record update: the render futures [bookkeeping of the model] *)
Definition set_futs f (s : vr) := mkVR (vr_list s) (vr_cell s) (vr_listen s) (vr_obs s) f (vr_next s) (vr_tr s).

(** a render future that exists [bookkeeping of the model] *)
Fixpoint get (j : nat) (l : list (nat * option nat)) : option (option nat) :=
  match l with [] => None | (i, f) :: t => if i =? j then Some f else get j t end.
(** the others [bookkeeping of the model] *)
Definition del (j : nat) (l : list (nat * option nat)) : list (nat * option nat) := filter (fun p => negb (fst p =? j)) l.

Section VLife.
Variable ww : waker -> waker -> bool.

(** virtualized_list.rs:115-118, the closure: [signal_cloned.borrow_mut()], dropped at once.
    Its call of run_now is an event of its own (Page.v: PRun). *)
Definition signal (s : vr) : option vr :=
  do (c1, _) <- cexec unit ww (vr_cell s) (CBegin unit);
  do (c2, o) <- cexec unit ww c1 (CEnd unit);
  let ws := match o with OWoken ws => ws | _ => [] end in
  Some (fold_left (fun s wk => emit (TWake wk) s) ws (set_cell c2 s)).
(** a scroll event on the root: the closure is called if it is registered
    [virtualized_list.rs:157-162] *)
Definition scroll (s : vr) : option vr := if vr_listen s then signal (emit TScroll s) else Some (emit TScroll s).
(** so many of them [bookkeeping of the model] *)
Fixpoint scrolls (k : nat) (s : vr) : option vr := match k with 0 => Some s | S k => do s <- scroll s; scrolls k s end.
(** virtualized_list.rs:171-229 [update_visible]: [w] is the window computed (Virtual.v), [k] how
    often user code dispatches scroll events meanwhile *)
Definition update (num : option nat) (u : option (nat * nat) * nat) (s : vr) : option vr :=
  do l <- vl_exec (vr_list s) (match num with Some n => VNum n (fst u) | None => VVisible (fst u) end);
  scrolls (snd u) (emit (TUpdate num (fst u)) (set_list l s)).

(** virtualized_list.rs:163-167, the loop, from its beginning: the stream is polled, and if it is
    ready, the list is updated and so on.  [us]: what the updates compute and what user code
    does in them; when it is exhausted, nothing is computed and nothing is done. *)
Fixpoint wait (us : list (option (nat * nat) * nat)) (id : nat) (wk : waker) (s : vr) : option vr :=
  do (c, o) <- cexec unit ww (vr_cell s) (CPoll unit id wk);
  let s := set_cell c s in
  match o with
  | OReady =>
      match us with
      | u :: us => do s <- update None u s; wait us id wk s
      | [] => do s <- update None (None, 0) s; do (c, _) <- cexec unit ww (vr_cell s) (CPoll unit id wk); Some (set_cell c s)
      end
  | _ => Some s
  end.
(** has been polled [bookkeeping of the model] *)
Definition started (f : nat * option nat) : bool := match snd f with Some _ => true | None => false end.
(** virtualized_list.rs:137-169: a poll of a render future.  At the first one the observer is
    made, the list is updated, the listener is added, the stream is made.  [None]: panics, as
    the inner list (polled just before) is rendered elsewhere (dynamic_list.rs:320). *)
Definition poll (j : nat) (wk : waker) (us : list (option (nat * nat) * nat)) (s : vr) : option vr :=
  match get j (vr_futs s) with
  | None => Some s
  | Some (Some id) => wait us id wk (emit (TPoll j wk) s)
  | Some None =>
      if existsb started (vr_futs s) then None else
      let s := emit TConnect (set_obs true (emit (TPoll j wk) s)) in
      do s <- update None (hd (None, 0) us) s;
      let s := emit TAdd (set_listen true s) in
      do (c, _) <- cexec unit ww (vr_cell s) (CNew unit);
      let id := cw_next unit (vr_cell s) in
      let s := set_futs ((j, Some id) :: del j (vr_futs s)) (set_cell c s) in
      wait (tl us) id wk s
  end.
(** a render future is dropped: if it was polled, its stream is dropped, the observer disconnects
    (252-254), the listener is removed (142-149) [virtualized_list.rs:137-169] *)
Definition drop (j : nat) (s : vr) : option vr :=
  match get j (vr_futs s) with
  | None => Some s
  | Some None => Some (emit (TDrop j) (set_futs (del j (vr_futs s)) s))
  | Some (Some id) =>
      do (c, _) <- cexec unit ww (vr_cell s) (CDrop unit id);
      Some (emit (TDrop j) (emit TRemove (set_listen false (emit TDisconnect (set_obs false (set_futs (del j (vr_futs s)) (set_cell c s)))))))
  end.

(** what can happen.  [OInter]: the observer's callback is called, which a browser may do also
    shortly after it was disconnected. [virtualized_list.rs:107-169] *)
Inductive op := ORender | OPoll (j : nat) (wk : waker) (us : list (option (nat * nat) * nat)) | ODrop (j : nat)
| OScroll | OInter | ONum (n : nat) (u : option (nat * nat) * nat).
(** virtualized_list.rs:107-169 *)
Definition exec (s : vr) (o : op) : option vr :=
  match o with
  | ORender => Some (mkVR (vr_list s) (vr_cell s) (vr_listen s) (vr_obs s) (vr_futs s ++ [(vr_next s, None)]) (S (vr_next s)) (TRender (vr_next s) :: vr_tr s))
  | OPoll j wk us => poll j wk us s
  | ODrop j => drop j s
  | OScroll => scroll s
  | OInter => signal (emit TInter s)
  | ONum n u => update (Some n) u s
  end.
(** virtualized_list.rs:96-120 [new] *)
Definition init : option vr := do c <- cw_new unit tt; Some (mkVR vl_new c false false [] 0 []).
(** a history [not a function of /repo] *)
Fixpoint execs (s : vr) (ops : list op) : option vr := match ops with [] => Some s | o :: ops => do s <- exec s o; execs s ops end.
(** a whole history [not a function of /repo] *)
Definition run (ops : list op) : option vr := do s <- init; execs s ops.
End VLife.
