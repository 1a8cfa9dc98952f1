(** Model of examples/web-simple-examples/src/timer.rs: a timer with a meter, a slider for the duration and a reset button.

    What each `async` block does from one await to the next is one step; the pending blocks go on in any order.  A tick of the interval or an
    event of the user comes when no block is pending (C69, C77).  Simplification: numbers are any type with a division, an
    order test and the addition of 0.05 (f64 in the code). *)
From Coq Require Import List Bool.
Import ListNotations.

Section Timer.
Variable V : Type.
Variables (zero fifteen : V) (inc : V -> V) (lt : V -> V -> bool) (div : V -> V -> V).
(** what can come from outside: a tick of the interval, a move of the slider, a click on Reset (timer.rs:56, 49, 65) *)
Inductive event := Tick | Slide (v : V) | Reset.
(** State (timer.rs:11-28): the two cells, what the meter, the text and the slider show ([None]: nothing yet), and which of the blocks of lines 38-44, 45-51 and
    69-75 are pending; [ev]: a tick or an event has come. *)
Record timer := mkTm { elapsed : V; total : V; meter : V; text : option V; slider : V; p_meter : bool; p_text : bool; p_slider : bool; ev : option event }.
(** timer.rs:11-31: the blocks that show something before they wait are pending, and so is the one that reads the slider *)
Definition start : timer := mkTm zero fifteen zero None fifteen true true true None.
(** a tick or an event comes (timer.rs:49, 56, 65); the browser has moved the slider already *)
Definition comes (s : timer) (e : event) : timer :=
  mkTm (elapsed s) (total s) (meter s) (text s) (match e with Slide v => v | _ => slider s end) (p_meter s) (p_text s) (p_slider s) (Some e).
(** the blocks (timer.rs:38-75); [BEvent]: the one that waits for what has come *)
Inductive block := BMeter | BText | BSlider | BEvent.
(** `*elapsed.borrow_mut() = ..` (timer.rs:58, 66): the meter and the text are woken *)
Definition set_elapsed (s : timer) (v : V) : timer := mkTm v (total s) (meter s) (text s) (slider s) true true (p_slider s) None.
(** `*total.borrow_mut() = slider.value_as_number()` (timer.rs:48): the meter is woken *)
Definition set_total (s : timer) (e : option event) : timer := mkTm (elapsed s) (slider s) (meter s) (text s) (slider s) true (p_text s) false e.
(** one block goes on, if it is pending (the lines are given at each) *)
Definition step (s : timer) (b : block) : timer :=
  match b with
  | BMeter =>                                                             (* timer.rs:41-42 *)
      if p_meter s then mkTm (elapsed s) (total s) (div (elapsed s) (total s)) (text s) (slider s) false (p_text s) (p_slider s) (ev s) else s
  | BText =>                                                              (* timer.rs:72-73 *)
      if p_text s then mkTm (elapsed s) (total s) (meter s) (Some (elapsed s)) (slider s) (p_meter s) false (p_slider s) (ev s) else s
  | BSlider => if p_slider s then set_total s (ev s) else s               (* timer.rs:48-49, the first time *)
  | BEvent =>
      match ev s with
      | Some Tick =>                                                      (* timer.rs:56-59 *)
          if lt (elapsed s) (total s) then set_elapsed s (inc (elapsed s))
          else mkTm (elapsed s) (total s) (meter s) (text s) (slider s) (p_meter s) (p_text s) (p_slider s) None
      | Some (Slide _) => set_total s None                                (* timer.rs:48-49 *)
      | Some Reset => set_elapsed s zero                                  (* timer.rs:65-66 *)
      | None => s
      end
  end.
(** no block is pending: all wait (the awaits of timer.rs:42, 49, 56, 65, 73) *)
Definition quiet (s : timer) : bool := negb (p_meter s) && negb (p_text s) && negb (p_slider s) && match ev s with None => true | Some _ => false end.
(** what can happen [a history; timer.rs:31-77] *)
Inductive act := Comes (e : event) | Block (b : block).
(** the state after a history; [None]: something came too early (timer.rs:31-77) *)
Fixpoint runs (s : timer) (l : list act) : option timer :=
  match l with
  | [] => Some s
  | Comes e :: t => if quiet s then runs (comes s e) t else None
  | Block b :: t => runs (step s b) t
  end.
End Timer.
