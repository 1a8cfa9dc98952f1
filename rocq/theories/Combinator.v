(** Model of combinators/common/{array,tuple,vec}.rs and of the four behaviours
    join, race, try_join, race_ok (in /repo/async_ui_web_core/src/combinators), and of
    extras/mod.rs.

    Children are arbitrary: a state of an arbitrary type [X] and a function giving, for
    a poll of child [i], the new state, the wakers of this combinator's children it
    wakes meanwhile, and its result.  Everything observable is appended to a trace
    (newest event first). *)
From Coq Require Import List Arith Bool.
From Verif Require Import Arena Readiness.
Import ListNotations.

(** combinators/common/{array,tuple,vec}.rs: the three families of combinators *)
Inductive kind := KArray | KTuple | KVec.

(** what polling a child gives [Future::poll of std] *)
Inductive cres (R : Type) := CPending | CReady (v : R) | CPanic.
Arguments CPending {R}. Arguments CReady {R}. Arguments CPanic {R}.
(** what polling the combinator gives [Future::poll of std] *)
Inductive pres (O : Type) := PPending | PReady (o : O) | PPanic.
Arguments PPending {O}. Arguments PReady {O}. Arguments PPanic {O}.

(** common/array.rs:21-56 [CombinatorBehaviorArray], common/vec.rs:23-32,
    common/tuple.rs:30-46: [PEND_IF_EMPTY], [maybe_return] ([inl] = Break, [inr] =
    Continue) and [when_completed] ([None] = unreachable!()).  The tuple versions
    have one type per child; here all children have the same type. *)
Record behavior (R S O : Type) := mkB {
  b_pend_if_empty : bool;
  b_maybe_return : nat -> R -> O + S;
  b_when_completed : list S -> option O }.
Arguments b_pend_if_empty {R S O}. Arguments b_maybe_return {R S O}. Arguments b_when_completed {R S O}.

(** join/{array.rs:16-37, vec.rs:16-36, tuple.rs:8-18} *)
Definition join_behavior (R : Type) : behavior R R (list R) :=
  mkB R R (list R) false (fun _ v => inr v) (fun l => Some l).
(** race/{array.rs:16-37, vec.rs:16-36, tuple.rs:9-22}; the stored type is Infallible *)
Definition race_behavior (R : Type) : behavior R Empty_set R :=
  mkB R Empty_set R true (fun _ v => inl v) (fun _ => None).
(** try_join/{array.rs:16-41, vec.rs:17-40, tuple.rs:8-21}; [inl] is Ok, [inr] is Err *)
Definition try_join_behavior (T E : Type) : behavior (T + E) T (list T + E) :=
  mkB (T + E) T (list T + E) false
    (fun _ r => match r with inl v => inr v | inr e => inl (inr e) end)
    (fun l => Some (inl l)).
(** race_ok/{array.rs:16-41, vec.rs:17-40, tuple.rs:8-23}; [inl] is Ok, [inr] is Err *)
Definition race_ok_behavior (T E : Type) : behavior (T + E) E (T + list E) :=
  mkB (T + E) E (T + list E) false
    (fun _ r => match r with inl v => inl (inl v) | inr e => inr e end)
    (fun l => Some (inr l)).

(** Observable events [ghost: not code of /repo] *)
Inductive ev (R S O : Type) :=
| ECall (w : waker)              (* the combinator is polled, with this waker *)
| ERet (r : pres O)              (* that poll returns *)
| EChild (i : nat)               (* child i is polled *)
| EPend (i : nat)                (* that child returns Pending *)
| EDone (i : nat) (v : R)        (* that child returns Ready v *)
| EChildPanic (i : nat)          (* that child panics *)
| EWake (i : nat)                (* the waker given to child i is woken *)
| EParent (w : waker)            (* the combinator wakes the waker it was given *)
| EStore (i : nat) (s : S)       (* an output is written to its slot *)
| EGive (i : nat) (s : S)        (* an output is moved from its slot into the result *)
| EDropItem (i : nat) (s : S)    (* an output is dropped in its slot *)
| EDrop                          (* the combinator is dropped *)
| EFault.                        (* uninitialised memory is read, or the bookkeeping panics *)
Arguments ECall {R S O}. Arguments ERet {R S O}. Arguments EChild {R S O}. Arguments EPend {R S O}.
Arguments EDone {R S O}. Arguments EChildPanic {R S O}. Arguments EWake {R S O}. Arguments EParent {R S O}.
Arguments EStore {R S O}. Arguments EGive {R S O}. Arguments EDropItem {R S O}. Arguments EDrop {R S O}.
Arguments EFault {R S O}.

Section Comb.
Variables R S O X : Type.
Variable ww : waker -> waker -> bool.
(** whether debug assertions are compiled in *)
Variable debug : bool.
Variable B : behavior R S O.
Variable child : X -> nat -> X * list nat * cres R.

(** common/array.rs:60-80, common/tuple.rs:59-78, common/vec.rs:37-50.  [None] is an
    uninitialised slot.  The futures are the state [X] of the world below; the
    buffer is a local variable of [c_poll]; the detachment blocker is modelled in Ui.v. *)
Record comb := mkC { c_kind : kind; c_n : nat; c_pending : nat; c_items : list (option S);
                     c_filled : list bool; c_rd : rd }.

(** common/array.rs:88-100, common/tuple.rs:108-119, common/vec.rs:57-70 *)
Definition c_new (k : kind) (n : nat) : comb :=
  mkC k n n (repeat None n) (repeat false n)
      (match k with KVec => RV (rv_new n) | _ => RA (ra_new n) end).

(** a combinator (combinators/common/*.rs), the state of its children and the trace *)
Record world := mkWd { wc : comb; wx : X; walive : bool; wtr : list (ev R S O) }.
(** records an event (trace only) [ghost] *)
Definition emit (e : ev R S O) (w : world) : world := mkWd (wc w) (wx w) (walive w) (e :: wtr w).
(** record update of `wakers.readiness()` (array.rs:60-80) *)
Definition set_rd (c : comb) (r : rd) : comb := mkC (c_kind c) (c_n c) (c_pending c) (c_items c) (c_filled c) r.
(** record update [bookkeeping of the model] *)
Definition set_c (w : world) (c : comb) : world := mkWd c (wx w) (walive w) (wtr w).
(** record update [bookkeeping of the model] *)
Definition set_x (w : world) (x : X) : world := mkWd (wc w) x (walive w) (wtr w).

(** writing one slot of `items` or `filled` (array.rs:60-80) *)
Fixpoint lset {A} (l : list A) (i : nat) (x : A) : list A :=
  match l, i with
  | [], _ => []
  | _ :: t, 0 => x :: t
  | y :: t, Datatypes.S i' => y :: lset t i' x
  end.

(** wakers/shared_arc.rs:86-101 and waker_array.rs:56-58 / waker_vec.rs:56-58
    [wake_index]: the waker of child [i] is woken.  Only wakers of existing children exist. *)
Definition do_wake (w : world) (i : nat) : world :=
  if i <? c_n (wc w) then
    let w1 := emit (EWake i) w in
    match rd_wake (c_rd (wc w1)) i with
    | None => emit EFault w1
    | Some (r, o) =>
        let w2 := set_c w1 (set_rd (wc w1) r) in
        match o with None => w2 | Some p => emit (EParent p) w2 end
    end
  else w.

(** common/array.rs:172-176, common/tuple.rs:182-183 and 194-197, common/vec.rs:126-130: keep an output *)
Definition c_store (w : world) (i : nat) (s : S) : option world :=
  let c := wc w in
  match nth_error (c_items c) i with
  | None => None (* items[index] out of bounds *)
  | Some _ =>
      match c_pending c with
      | 0 => Some (emit EFault w) (* pending would underflow *)
      | Datatypes.S p =>
          Some (emit (EStore i s)
            (set_c w (mkC (c_kind c) (c_n c) p (lset (c_items c) i (Some s)) (lset (c_filled c) i true) (c_rd c))))
      end
  end.

(** common/array.rs:152-179, common/tuple.rs:161-198, common/vec.rs:112-136: the loop over the woken children *)
Fixpoint c_loop (l : list nat) (w : world) : world * option (pres O) :=
  match l with
  | [] => (w, None)
  | i :: l' =>
      match nth_error (c_filled (wc w)) i with
      | None => (emit EFault w, Some PPanic)
      | Some true => c_loop l' w
      | Some false =>
          let w1 := emit (EChild i) w in
          let '(x', wakes, r) := child (wx w1) i in
          let w2 := fold_left do_wake wakes (set_x w1 x') in
          match r with
          | CPending => c_loop l' (emit (EPend i) w2)
          | CPanic => (emit (EChildPanic i) w2, Some PPanic)
          | CReady v =>
              let w3 := emit (EDone i v) w2 in
              match b_maybe_return B i v with
              | inl o => (w3, Some (PReady o))
              | inr s => match c_store w3 i s with None => (w3, Some PPanic) | Some w4 => c_loop l' w4 end
              end
          end
      end
  end.

(** assume_init on every slot
    [array.rs:60-80, vec.rs:17-40 and tuple.rs: take of the outputs] *)
Fixpoint all_some {A} (l : list (option A)) : option (list A) :=
  match l with
  | [] => Some []
  | None :: _ => None
  | Some x :: t => option_map (cons x) (all_some t)
  end.
(** the stored outputs handed to `when_completed` (array.rs:185-205), in index order (trace only) *)
Fixpoint gives (i : nat) (l : list S) : list (ev R S O) :=
  match l with [] => [] | s :: t => EGive i s :: gives (Datatypes.S i) t end.

(** common/array.rs:182-208, common/tuple.rs:200-215, common/vec.rs:138-160: the end of a poll *)
Definition c_finish (w : world) : world * pres O :=
  let c := wc w in
  if c_pending c =? 0 then
    if debug && negb (forallb (fun b => b) (c_filled c)) then (w, PPanic) (* debug_assert! *)
    else
      let items' := match c_kind c with KVec => [] | _ => repeat None (length (c_items c)) end in
      let w1 := set_c w (mkC (c_kind c) (c_n c) 0 items' (repeat false (length (c_filled c))) (c_rd c)) in
      match all_some (c_items c) with
      | None => (emit EFault w1, PPanic)
      | Some l =>
          let w2 := mkWd (wc w1) (wx w1) (walive w1) (rev (gives 0 l) ++ wtr w1) in
          match b_when_completed B l with
          | None => (w2, PPanic) (* unreachable!() *)
          | Some o => (w2, PReady o)
          end
      end
  else (w, PPending).

(** what is checked on entry: [Some r] = return at once.  common/array.rs:124-132, common/tuple.rs:143-146,
    common/vec.rs:93-101 *)
Definition c_entry (c : comb) : option (pres O) :=
  match c_kind c with
  | KArray =>
      if (c_n c =? 0) && b_pend_if_empty B then Some PPending
      else if (c_n c =? 0) || (0 <? c_pending c) then None else Some PPanic
  | KTuple => if 0 <? c_pending c then None else Some PPanic
  | KVec =>
      if c_pending c =? 0 then
        match c_items c with
        | _ :: _ => Some PPanic
        | [] => if b_pend_if_empty B then Some PPending else None
        end
      else None
  end.

(** common/array.rs:120-209, common/tuple.rs:139-216, common/vec.rs:90-161 [poll] *)
Definition c_poll (wk : waker) (w0 : world) : world :=
  let w := emit (ECall wk) w0 in
  match c_entry (wc w) with
  | Some r => emit (ERet r) w
  | None =>
      let r1 := rd_set_parent ww (c_rd (wc w)) wk in
      let buffer := rd_awake_list r1 in
      match rd_clear r1 with
      | None => emit EFault w
      | Some r2 =>
          match c_loop buffer (set_c w (set_rd (wc w) r2)) with
          | (w', Some r) => emit (ERet r) w'
          | (w', None) => let '(w'', r) := c_finish w' in emit (ERet r) w''
          end
      end
  end.

(** common/array.rs:226-231, common/tuple.rs:237-243, common/vec.rs:178-183: drop the initialised slots *)
Fixpoint drop_items (i : nat) (f : list bool) (l : list (option S)) : list (ev R S O) :=
  match f, l with
  | b :: f', o :: l' =>
      (if b then [match o with Some s => EDropItem i s | None => EFault end] else [])
        ++ drop_items (Datatypes.S i) f' l'
  | _, _ => []
  end.
(** common/array.rs:219-232, common/tuple.rs:230-244, common/vec.rs:171-184 [drop] (the document part is in Ui.v) *)
Definition c_drop (w : world) : world :=
  mkWd (wc w) (wx w) false (EDrop :: rev (drop_items 0 (c_filled (wc w)) (c_items (wc w))) ++ wtr w).

(** what the environment can do: poll the combinator, wake a child's waker from
    outside a poll, change the children's state (timers, events...), drop the combinator
    [the executor and the wakers, executor.rs:49-89] *)
Inductive sev := SPoll (w : waker) | SWake (i : nat) | SEnv (f : X -> X) | SDrop.
(** one step: poll (array.rs:121-209), wake (readiness.rs:40-44), drop (array.rs:219-232) *)
Definition exec (w : world) (e : sev) : world :=
  match e with
  | SPoll wk => if walive w then c_poll wk w else w
  | SWake i => do_wake w i
  | SEnv f => set_x w (f (wx w))
  | SDrop => if walive w then c_drop w else w
  end.
(** array.rs:88-100 [new]: a new combinator *)
Definition start (k : kind) (n : nat) (x : X) : world := mkWd (c_new k n) x true [].
(** a history of polls, wakes, changes of the children and the drop
    [a history; not a function of /repo] *)
Definition run (k : kind) (n : nat) (x : X) (evs : list sev) : world := fold_left exec evs (start k n x).

End Comb.

(** * extras/mod.rs *)
Section Extras.
Variables R Q Y : Type.
(** the two futures: [f] with output [R], [g] with output [Q]; they share a state *)
Variable f : Y -> Y * list nat * cres R.
Variable g : Y -> Y * list nat * cres Q.

(** polls of [g] inside PendAfter, newest first [ghost] *)
Inductive gev := GPoll | GReady (v : Q).
(** extras/mod.rs:64-69 [PendAfter]: [pa_some] says whether the future is still there *)
Record pa := mkPa { pa_y : Y; pa_some : bool; pa_log : list gev }.

(** extras/mod.rs:74-85 [PendAfter::poll] *)
Definition pa_poll (x : pa) : pa * list nat * cres R :=
  if pa_some x then
    let '(y, wakes, r) := g (pa_y x) in
    match r with
    | CReady v => (mkPa y false (GReady v :: GPoll :: pa_log x), wakes, CPending)
    | CPending => (mkPa y true (GPoll :: pa_log x), wakes, CPending)
    | CPanic => (mkPa y true (GPoll :: pa_log x), wakes, CPanic)
    end
  else (x, [], CPending).

(** extras/mod.rs:53-59 [meanwhile]: race((self, effect.pend_after())) *)
Definition meanwhile_child (x : pa) (i : nat) : pa * list nat * cres R :=
  match i with
  | 0 => let '(y, wakes, r) := f (pa_y x) in (mkPa y (pa_some x) (pa_log x), wakes, r)
  | _ => pa_poll x
  end.
(** what the environment does to the two futures [bookkeeping of the model] *)
Definition lift (e : sev Y) : sev pa :=
  match e with
  | SPoll _ w => SPoll _ w
  | SWake _ i => SWake _ i
  | SEnv _ h => SEnv _ (fun x => mkPa (h (pa_y x)) (pa_some x) (pa_log x))
  | SDrop _ => SDrop _
  end.
(** extras/mod.rs [meanwhile]: a race of `f` and `g.pend_after()`, run by such a history *)
Definition meanwhile_run (ww : waker -> waker -> bool) (debug : bool) (y : Y)
    (evs : list (sev Y)) : world R Empty_set R pa :=
  run R Empty_set R pa ww debug (race_behavior R) meanwhile_child KTuple 2 (mkPa y true []) (map lift evs).
End Extras.
