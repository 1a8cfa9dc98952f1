(** Model of examples/web-todomvc/src/app.rs: the loops that keep a todo list, its filter and its counters.

    Each `async { loop { .. } }` block is a step that does what the block does from one await to the next; a block is
    pending when what it awaits has come.  The steps may come in any order.  Events come one at a time, when no block
    is pending: the listener of each event runs the executor until nothing is awake (C69, C77).
    Simplifications: the text of an item and its editor (app.rs:343-363, 384-389), which filter button is highlighted (280-285) and the
    DOM are left out; an event is the user's click or input, so [EAdd] is a text that is not blank. *)
From Coq Require Import List Arith ZArith Bool.
Import ListNotations.

(** app.rs:22-27 [FilterMode] *)
Inductive mode := All | Active | Completed.
(** app.rs:37-42 [should_show] *)
Definition should_show (m : mode) (c : bool) : bool :=
  match m, c with All, _ => true | Active, false => true | Completed, true => true | _, _ => false end.

(** The state of one item (app.rs:290-302, 326).  [box]: its checkbox; [compl], [hidden]: its classes;
    [p_chk]: the block of lines 366-383 has a change of [checked] to look at; [p_hid]: that of lines 390-406 is pending. *)
Record item := mkI { i_id : nat; checked : bool; box : bool; compl : bool; hidden : bool; p_chk : bool; p_hid : bool }.
(** what the user does (app.rs:110, 119, 131, 276, 369, 408) *)
Inductive event := EAdd | EBox (id : nat) | EToggle | EClear | EDelete (id : nat) | EFilter (m : mode).
(** The state of the application (app.rs:44-48, 54-61).  [span]: the number in the footer; [toggle]: the checkbox
    toggle_all; [main_hidden], [clear_hidden]: classes; [p_span], [p_tog], [p_main], [p_clear]: the blocks of lines
    228-238, 149-155, 156-161 and 249-260 are pending; [ev]: the event that has come. *)
Record state := mkT {
  items : list item; next_id : nat; active : Z; total : Z; filt : mode;
  span : Z; p_span : bool; toggle : bool; p_tog : bool; main_hidden : bool; p_main : bool; clear_hidden : bool; p_clear : bool;
  ev : option event }.
(** app.rs:54-107; the blocks that show something before they wait are pending *)
Definition start : state := mkT [] 0 0%Z 0%Z All 0%Z true false false false true false true None.

(** assignments to num_active, with the items (app.rs:303, 380, 421): those who wait for a change are woken *)
Definition set_active (s : state) (its : list item) (n : Z) (e : option event) : state :=
  mkT its (next_id s) n (total s) (filt s) (span s) true (toggle s) true (main_hidden s) (p_main s) (clear_hidden s) true e.
(** same for num_total (app.rs:304, 422) *)
Definition set_total (s : state) (n : Z) : state :=
  mkT (items s) (next_id s) (active s) n (filt s) (span s) (p_span s) (toggle s) (p_tog s) (main_hidden s) true (clear_hidden s) true (ev s).
(** changes of the items that are not counted (app.rs:112-114, 391-399) *)
Definition set_items (s : state) (its : list item) (e : option event) : state :=
  mkT its (next_id s) (active s) (total s) (filt s) (span s) (p_span s) (toggle s) (p_tog s) (main_hidden s) (p_main s) (clear_hidden s) (p_clear s) e.

(** `1 - (2 * (checked as i32))` (app.rs:380) *)
Definition delta (c : bool) : Z := if c then (-1)%Z else 1%Z.
(** [i] has the given id (a key of `items`, app.rs:133, 145) *)
Definition is_id (id : nat) (i : item) : bool := Nat.eqb (i_id i) id.
(** app.rs:413-417 [set_checked] *)
Definition set_checked (c : bool) (i : item) : item :=
  if Bool.eqb (checked i) c then i else mkI (i_id i) c (box i) (compl i) (hidden i) true true.
(** app.rs:419-424: these items are dropped *)
Definition drop_items (s : state) (gone kept : list item) : state :=
  match gone with
  | [] => set_items s kept None
  | _ => set_total (set_active s kept (active s - Z.of_nat (length (filter (fun i => negb (checked i)) gone))) None) (total s - Z.of_nat (length gone))
  end.

(** the event comes: a click changes the checkbox itself (DOM standard; app.rs:110, 369) *)
Definition user (s : state) (e : event) : state :=
  match e with
  | EBox id =>
      if existsb (is_id id) (items s)
      then set_items s (map (fun i => if is_id id i then mkI (i_id i) (checked i) (negb (box i)) (compl i) (hidden i) (p_chk i) (p_hid i) else i) (items s)) (Some e)
      else s
  | EToggle => mkT (items s) (next_id s) (active s) (total s) (filt s) (span s) (p_span s) (negb (toggle s)) (p_tog s) (main_hidden s) (p_main s) (clear_hidden s) (p_clear s) (Some e)
  | _ => set_items s (items s) (Some e)
  end.

(** the blocks of app.rs:108-161, 228-260, 366-406 *)
Inductive block := LEvent | LChk (id : nat) | LHid (id : nat) | LSpan | LTog | LMain | LClear.
(** the block that waits for the event (app.rs:108-116, 117-128, 129-148, 274-279, 366-383, 136-142 with 407-409) *)
Definition on_event (s : state) (e : event) : state :=
  match e with
  | EAdd =>
      let s1 := set_total (set_active s (items s ++ [mkI (next_id s) false false false false false true]) (active s + 1) None) (total s + 1) in
      mkT (items s1) (S (next_id s)) (active s1) (total s1) (filt s1) (span s1) (p_span s1) (toggle s1) (p_tog s1) (main_hidden s1) (p_main s1) (clear_hidden s1) (p_clear s1) None
  | EBox id =>
      match find (is_id id) (items s) with
      | None => set_items s (items s) None
      | Some it => set_active s (map (fun i => if is_id id i then mkI (i_id i) (box i) (box i) (box i) (hidden i) (p_chk i) true else i) (items s)) (active s + delta (box it)) None
      end
  | EToggle => set_items s (map (set_checked (toggle s)) (items s)) None
  | EClear => drop_items s (filter checked (items s)) (filter (fun i => negb (checked i)) (items s))
  | EDelete id => drop_items s (filter (is_id id) (items s)) (filter (fun i => negb (is_id id i)) (items s))
  | EFilter m =>
      mkT (map (fun i => mkI (i_id i) (checked i) (box i) (compl i) (hidden i) (p_chk i) true) (items s)) (next_id s) (active s) (total s) m (span s) (p_span s)
        (toggle s) (p_tog s) (main_hidden s) (p_main s) (clear_hidden s) (p_clear s) None
  end.
(** one block goes on, if it is pending (the lines are given at each) *)
Definition step (s : state) (b : block) : state :=
  match b with
  | LEvent => match ev s with Some e => on_event s e | None => s end
  | LChk id =>                                                            (* app.rs:374-381 *)
      match find (is_id id) (items s) with
      | Some it =>
          if p_chk it
          then set_active s (map (fun i => if is_id id i then mkI (i_id i) (checked i) (checked i) (checked i) (hidden i) false (p_hid i) else i) (items s)) (active s + delta (checked it)) (ev s)
          else s
      | None => s
      end
  | LHid id =>                                                            (* app.rs:392-399 *)
      set_items s (map (fun i => if is_id id i && p_hid i then mkI (i_id i) (checked i) (box i) (compl i) (negb (should_show (filt s) (checked i))) (p_chk i) false else i) (items s)) (ev s)
  | LSpan =>                                                              (* app.rs:230-235 *)
      if p_span s then mkT (items s) (next_id s) (active s) (total s) (filt s) (active s) false (toggle s) (p_tog s) (main_hidden s) (p_main s) (clear_hidden s) (p_clear s) (ev s) else s
  | LTog =>                                                               (* app.rs:152-153 *)
      if p_tog s then mkT (items s) (next_id s) (active s) (total s) (filt s) (span s) (p_span s) (Z.eqb (active s) 0) false (main_hidden s) (p_main s) (clear_hidden s) (p_clear s) (ev s) else s
  | LMain =>                                                              (* app.rs:158 *)
      if p_main s then mkT (items s) (next_id s) (active s) (total s) (filt s) (span s) (p_span s) (toggle s) (p_tog s) (Z.eqb (total s) 0) false (clear_hidden s) (p_clear s) (ev s) else s
  | LClear =>                                                             (* app.rs:251-253 *)
      if p_clear s then mkT (items s) (next_id s) (active s) (total s) (filt s) (span s) (p_span s) (toggle s) (p_tog s) (main_hidden s) (p_main s) (negb (Z.ltb (active s) (total s))) false (ev s) else s
  end.
(** no block is pending: all wait (the awaits of app.rs:108-161, 228-260, 366-409) *)
Definition quiet (s : state) : bool :=
  negb (p_span s) && negb (p_tog s) && negb (p_main s) && negb (p_clear s) && match ev s with None => true | _ => false end &&
  forallb (fun i => negb (p_chk i) && negb (p_hid i)) (items s).
(** A history: blocks go on in any order, and events come when no block is pending ([None]: one came too early) [a history; app.rs:54-164]. *)
Inductive act := User (e : event) | Block (b : block).
(** the state after a history (app.rs:54-164) *)
Fixpoint runs (s : state) (l : list act) : option state :=
  match l with
  | [] => Some s
  | User e :: t => if quiet s then runs (user s e) t else None
  | Block b :: t => runs (step s b) t
  end.
