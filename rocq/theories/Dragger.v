(** Model of examples/async_ui_web_draggable/src/lib.rs: drag and drop between the items of a list.

    Each event runs the branch of `race` that waits for it (lib.rs:56-151), then the stream of moves is polled once more by a
    consumer that asks for the next move at once (lib.rs:154-183).  Items are natural numbers.  Simplifications: the position and size of
    an element are given with the event ([gt]: `dragged_pos > my_start + size * 0.5`); sizes are natural numbers, paddings are a
    pair; prevent_default, stop_propagation and the data transfer are left out; no item is removed while something is dragged. *)
From Coq Require Import List Arith Bool.
Import ListNotations.

(** lib.rs:191-195 [Inner] *)
Inductive inner := NotDragging | DragStarted (from size : nat) | Dropped (from to : nat) (after : bool).
(** lib.rs:19-24 [SpacerType] *)
Inductive spacer_type := Before | NoSpacer | After.
(** The dragger and its items (lib.rs:9-13, 54): [pad]: the two paddings; [waits]: the item waits for the end of its drag (lib.rs:74);
    [seen]: what the stream of moves has seen start ([None]: it is in the loop of lib.rs:158-163); [out]: the moves it has given. *)
Record dragger := mkD { inn : inner; aft : bool; spacer : nat -> spacer_type; pad : nat -> nat * nat; waits : nat -> bool; seen : option nat; out : list (nat * nat * bool) }.
(** lib.rs:33-39, 50-54 *)
Definition start : dragger := mkD NotDragging false (fun _ => NoSpacer) (fun _ => (0, 0)) (fun _ => false) None [].
(** the events (lib.rs:64, 74, 88, 126, 134); [own]: the target of the event is the item itself, not an element in it *)
Inductive event := DStart (i size : nat) | DEnd (i : nat) | DOver (i : nat) (gt : bool) | DLeave (i : nat) (own : bool) | DDrop (i : nat).
(** a function changed at one point [bookkeeping of the model] *)
Definition upd {A} (f : nat -> A) (c : nat) (x : A) : nat -> A := fun d => if Nat.eqb d c then x else f d.
(** lib.rs:156-182 [until_move]: goes on until it waits *)
Definition poll (d : dragger) : dragger :=
  let idle := match inn d with DragStarted from _ => Some from | _ => None end in
  match seen d with
  | None => mkD (inn d) (aft d) (spacer d) (pad d) (waits d) idle (out d)
  | Some f =>
      match inn d with
      | DragStarted from _ => mkD (inn d) (aft d) (spacer d) (pad d) (waits d) (if Nat.eqb from f then Some f else idle) (out d)
      | Dropped from to after => mkD (inn d) (aft d) (spacer d) (pad d) (waits d) None (out d ++ [(from, to, after)])
      | NotDragging => mkD (inn d) (aft d) (spacer d) (pad d) (waits d) None (out d)
      end
  end.
(** one event; [None]: a start while the end of a drag of that item is awaited, or an end while none is *)
Definition exec (d : dragger) (e : event) : option dragger :=
  match e with
  | DStart i size =>                                                      (* lib.rs:64-73 *)
      if waits d i then None else Some (poll (mkD (DragStarted i size) (aft d) (spacer d) (pad d) (upd (waits d) i true) (seen d) (out d)))
  | DEnd i =>                                                             (* lib.rs:74-78 *)
      if waits d i
      then Some (poll (mkD (match inn d with DragStarted _ _ => NotDragging | x => x end) (aft d) (spacer d) (pad d) (upd (waits d) i false) (seen d) (out d)))
      else None
  | DOver i gt =>                                                         (* lib.rs:88-125 *)
      match inn d with
      | DragStarted from size =>
          if Nat.eqb from i then Some (poll d)
          else
            let p := match gt, spacer d i with
                     | true, After | false, Before => pad d i
                     | true, _ => (0, size)
                     | false, _ => (size, 0)
                     end in
            Some (poll (mkD (inn d) gt (upd (spacer d) i (if gt then After else Before)) (upd (pad d) i p) (waits d) (seen d) (out d)))
      | _ => Some (poll d)
      end
  | DLeave i own =>                                                       (* lib.rs:126-133 *)
      if own then Some (poll (mkD (inn d) (aft d) (upd (spacer d) i NoSpacer) (upd (pad d) i (0, 0)) (waits d) (seen d) (out d))) else Some (poll d)
  | DDrop i =>                                                            (* lib.rs:134-150 *)
      Some (poll (mkD (match inn d with DragStarted from _ => Dropped from i (aft d) | x => x end) (aft d) (upd (spacer d) i NoSpacer) (upd (pad d) i (0, 0)) (waits d) (seen d) (out d)))
  end.
(** a history (lib.rs:40-153) *)
Fixpoint execs (d : dragger) (l : list event) : option dragger :=
  match l with [] => Some d | e :: t => match exec d e with Some d' => execs d' t | None => None end end.
