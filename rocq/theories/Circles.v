(** Model of examples/web-simple-examples/src/circles.rs: an editor for circles with undo and redo.

    Events are handled one at a time by the loop of lines 42-124 (that each is handled once is C47, C69 and
    C77).  Simplifications: sizes are of any type, and so is the choice of the circle under the mouse (lines
    100-108: a function of the places and sizes of the circles which gives an index); the context menu (lines
    134-187) is the list of the values that the slider took; the DynamicList is its keys and elements (C28);
    colours and the DOM around the circles are left out; a click on a
    button while the menu is open has no listener and is no event here. *)
From Coq Require Import List Arith ZArith Bool.
Import ListNotations.

Section Circles.
Variable size : Type.
(** the scale of a new circle, 1.0 (circles.rs:89) *)
Variable one : size.
(** place and scale *)
Notation look := (Z * Z * size)%type.
Variable pick : list look -> Z -> Z -> option nat.

(** circles.rs:13-18 [Circle]; [c_elem] names the Div *)
Record circle := mkCircle { c_x : Z; c_y : Z; c_scale : size; c_elem : nat }.
(** circles.rs:20-25 [Operation] *)
Inductive operation :=
| Create (x y : Z) (id : nat)
| Remove (id : nat)
| ChangeScale (which : nat) (from to : size).
(** what the user does: the mouse moves in the area; a right click, after which the slider takes these values;
    a click in the area; clicks on the buttons (circles.rs:47-75) *)
Inductive event := EMove (x y : Z) | EMenu (slider : list size) | EClick (x y : Z) | EUndo | ERedo.

(** The variables of circles.rs:27-34 and 189-194.  [items]: keys and elements of the list.  [css]: left, top and
    --circle-scale of an element; [marked]: its class circle-selected.  [made]: elements made so far. *)
Record state := mkS {
  items : list (nat * nat); circles : list circle; selected : option nat; id_counter : nat;
  user_ops : list operation; cursor : nat; undo_disabled : bool; redo_disabled : bool;
  css : nat -> look; marked : nat -> bool; made : nat }.
(** circles.rs:27-34, 196-207 *)
Definition start : state := mkS [] [] None 0 [] 0 true true (fun _ => (0%Z, 0%Z, one)) (fun _ => false) 0.

(** record updates (assignments in circles.rs:27-122) *)
Definition with_circles (s : state) (it : list (nat * nat)) (cs : list circle) (c : nat -> look) (n : nat) : state :=
  mkS it cs (selected s) (id_counter s) (user_ops s) (cursor s) (undo_disabled s) (redo_disabled s) c (marked s) n.
(** same: the history (circles.rs:220-251) *)
Definition with_ops (s : state) (l : list operation) (n : nat) (u r : bool) : state :=
  mkS (items s) (circles s) (selected s) (id_counter s) l n u r (css s) (marked s) (made s).
(** same: the selection (circles.rs:109-121) *)
Definition with_sel (s : state) (sel : option nat) (m : nat -> bool) : state :=
  mkS (items s) (circles s) sel (id_counter s) (user_ops s) (cursor s) (undo_disabled s) (redo_disabled s) (css s) m (made s).
(** same: the counter (circles.rs:67) *)
Definition with_id (s : state) (n : nat) : state :=
  mkS (items s) (circles s) (selected s) n (user_ops s) (cursor s) (undo_disabled s) (redo_disabled s) (css s) (marked s) (made s).
(** set_property and add_class of one element (circles.rs:81, 86-87, 113, 119, 168-170) *)
Definition upd {A} (f : nat -> A) (e : nat) (v : A) : nat -> A := fun e' => if Nat.eqb e' e then v else f e'.
(** `circles[i] = c` (std; circles.rs:79-80) *)
Fixpoint set_at {A} (i : nat) (v : A) (l : list A) : list A :=
  match l, i with
  | [], _ => []
  | _ :: t, O => v :: t
  | x :: t, S i' => x :: set_at i' v t
  end.

(** circles.rs:243-251 [add_operation] *)
Definition add_operation (s : state) (op : operation) : state :=
  with_ops s (firstn (cursor s) (user_ops s) ++ [op]) (S (cursor s)) false true.

(** circles.rs:220-242 [until_do]: the undo button *)
Definition do_undo (s : state) : option (operation * state) :=
  match cursor s with
  | O => None
  | S last =>
      let s' := with_ops s (user_ops s) last (Nat.eqb last 0) false in
      match nth_error (user_ops s) last with
      | Some (ChangeScale which from to) => Some (ChangeScale which to from, s')
      | Some (Create _ _ id) => Some (Remove id, s')
      | _ => None
      end
  end.
(** circles.rs:220-242 [until_do]: the redo button *)
Definition do_redo (s : state) : option (operation * state) :=
  match nth_error (user_ops s) (cursor s) with
  | Some op => Some (op, with_ops s (user_ops s) (S (cursor s)) false (Nat.eqb (S (cursor s)) (length (user_ops s))))
  | None => None
  end.

(** circles.rs:77-96: the operation is done *)
Definition do_op (s : state) (op : operation) : option state :=
  match op with
  | ChangeScale which _ to =>
      match nth_error (circles s) which with
      | None => None
      | Some c => Some (with_circles s (items s) (set_at which (mkCircle (c_x c) (c_y c) to (c_elem c)) (circles s))
                          (upd (css s) (c_elem c) (fst (css s (c_elem c)), to)) (made s))
      end
  | Create x y id =>
      let e := made s in
      Some (with_circles s (filter (fun i => negb (Nat.eqb (fst i) id)) (items s) ++ [(id, e)])
              (circles s ++ [mkCircle x y one e]) (upd (css s) e (x, y, one)) (S e))
  | Remove id =>
      match rev (circles s) with
      | [] => None
      | _ :: t => Some (with_circles s (filter (fun i => negb (Nat.eqb (fst i) id)) (items s)) (rev t) (css s) (made s))
      end
  end.

(** circles.rs:98-122: the selection follows the mouse *)
Definition track (s : state) (x y : Z) : option state :=
  let new := pick (map (fun c => (c_x c, c_y c, c_scale c)) (circles s)) x y in
  let m1 := match selected s with
            | Some old => if match new with Some n => Nat.eqb old n | None => false end then marked s
                          else match nth_error (circles s) old with
                               | Some c => upd (marked s) (c_elem c) false
                               | None => marked s
                               end
            | None => marked s
            end in
  match new with
  | None => Some (with_sel s None m1)
  | Some n => match nth_error (circles s) n with
              | None => None
              | Some c => Some (with_sel s (Some n) (upd m1 (c_elem c) true))
              end
  end.

(** circles.rs:51-63, 159-174: the slider changes the element at once; the last value, if any, is the result *)
Definition slide (s : state) (e : nat) (slider : list size) : state :=
  fold_left (fun s v => with_circles s (items s) (circles s) (upd (css s) e (fst (css s e), v)) (made s)) slider s.

(** circles.rs:44-123: the handling of one event; [None]: a panic *)
Definition handle (s : state) (e : event) : option state :=
  match e with
  | EMove x y => track s x y
  | EMenu slider =>
      match selected s with
      | None => Some s
      | Some i =>
          match nth_error (circles s) i with
          | None => None                                          (* circles[selected] *)
          | Some c =>
              let s1 := slide s (c_elem c) slider in
              match rev slider with
              | [] => Some s1
              | v :: _ => let op := ChangeScale i (c_scale c) v in do_op (add_operation s1 op) op
              end
          end
      end
  | EClick x y =>
      let op := Create x y (id_counter s) in
      match do_op (add_operation (with_id s (S (id_counter s))) op) op with
      | None => None
      | Some s' => track s' x y
      end
  | EUndo => match do_undo s with None => None | Some (op, s') => do_op s' op end
  | ERedo => match do_redo s with None => None | Some (op, s') => do_op s' op end
  end.

(** any number of events (circles.rs:44: the loop) *)
Fixpoint handles (s : state) (evs : list event) : option state :=
  match evs with
  | [] => Some s
  | e :: t => match handle s e with None => None | Some s' => handles s' t end
  end.

(** what is on the screen: the elements of the list, in its order (circles.rs:88 [list.insert], 93 [list.remove]) *)
Definition screen (s : state) : list look := map (fun i => css s (snd i)) (items s).
End Circles.
