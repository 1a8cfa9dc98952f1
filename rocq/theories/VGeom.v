(** Model of async_ui_web/src/lists/virtualized_list.rs [update_visible] with the
    geometry of the page: where the spacers and the viewport lie, which window the code
    computes from that, and which sizes it gives the spacers.

    Simplifications: coordinates ([f64] in the code) are rational numbers, so rounding,
    NaN and infinities are left out; the theorems assume that the viewport and the items
    have a positive size, so that nothing is divided by zero.  All items have the same
    size, as the documentation of the code demands (lines 39-44).  Only one direction is
    modelled ([top_bottom], 172-177, picks the coordinates of the direction set). *)
From Coq Require Import List Arith Bool QArith Qround Qminmax.
From Verif Require Import Spec_list DynList Calls Virtual.
Import ListNotations.
Local Open Scope Q_scope.

(** `<` on f64, here on rational numbers (virtualized_list.rs:171-229) *)
Definition Qltb (a b : Q) : bool := negb (Qle_bool b a).
(** `as f64` on a count of items (virtualized_list.rs:171-229) *)
Definition nQ (n : nat) : Q := inject_Z (Z.of_nat n).
(** Rust's [as usize] on a float: towards zero, negative numbers give 0
    [virtualized_list.rs:171-206] *)
Definition as_usize (x : Q) : nat := Z.to_nat (Qfloor (Qmax 0 x)).
(** [x.ceil() as usize] [virtualized_list.rs:171-206] *)
Definition ceil_usize (x : Q) : nat := Z.to_nat (Qceiling x).

(** virtualized_list.rs:180-206.  [s], [e], [num]: the fields of [State]; [f0], [f1]: start
    and end of the front spacer; [b0]: start of the back spacer; [r0], [r1]: start and end of
    the root.  The result is [None] for the early return (186-190), otherwise the new
    window and the sizes of the two spacers. *)
Definition compute (s e num : nat) (f0 f1 b0 r0 r1 : Q) : option (nat * nat * Q * Q) :=
  let root_size := r1 - r0 in
  let tres_size := root_size * (5 # 4) in
  let pad_size := root_size * 2 in
  if (Qltb (f1 + tres_size) r0 || Nat.eqb s 0) && (Qltb r1 (b0 - tres_size) || Nat.eqb e num)
  then None
  else
    let num_visible := (e - s)%nat in
    let avg_size := if Nat.ltb 0 num_visible then (b0 - f1) / nQ num_visible else root_size / 4 in
    let new_start := as_usize ((r0 - pad_size - f0) / avg_size) in
    let new_end := Nat.min (ceil_usize ((r1 + pad_size - f0) / avg_size)) num in
    Some (new_start, new_end, avg_size * nQ new_start, avg_size * nQ (num - new_end)).

(** The page: the list, the sizes of the spacers, and where the list and the viewport
    begin and end now. [virtualized_list.rs:96-125] *)
Record page := mkP { p_list : vlist; p_hf : Q; p_hb : Q; p_f0 : Q; p_r0 : Q; p_r1 : Q }.

Section Page.
(** the size of an item *)
Variable h : Q.

(** layout: the front spacer, the rendered items, the back spacer, one after the other
    [virtualized_list.rs:96-125] *)
Definition front_end (p : page) : Q := p_f0 p + p_hf p.
(** layout: where the back spacer begins (its getBoundingClientRect, virtualized_list.rs:172-183) *)
Definition back_start (p : page) : Q := front_end p + nQ (length (vl_keys (p_list p))) * h.
(** layout: where the back spacer ends [virtualized_list.rs:96-125] *)
Definition back_end (p : page) : Q := back_start p + p_hb p.

(** virtualized_list.rs:171-229 [update_visible]; [None]: a panic *)
Definition update (p : page) : option page :=
  let v := p_list p in
  match compute (vl_start v) (vl_end v) (vl_num v) (p_f0 p) (front_end p) (back_start p) (p_r0 p) (p_r1 p) with
  | None => Some p
  | Some (ns, ne, a, b) =>
      match vl_update v (Some (ns, ne)) with
      | None => None
      | Some v' => Some (mkP v' a b (p_f0 p) (p_r0 p) (p_r1 p))
      end
  end.
(** virtualized_list.rs:129-132 [set_num_items] *)
Definition set_num (p : page) (n : nat) : page :=
  let v := p_list p in
  mkP (mkVL (vl_start v) (vl_end v) n (vl_keys v)) (p_hf p) (p_hb p) (p_f0 p) (p_r0 p) (p_r1 p).

(** virtualized_list.rs:129-229 *)
Inductive gop :=
| GMove (f0 r0 r1 : Q)   (* scrolling, resizing: list and viewport lie elsewhere *)
| GSignal                (* scroll event or intersection: update_visible (152, 165-166) *)
| GNum (n : nat).        (* set_num_items *)
(** virtualized_list.rs:129-229 *)
Definition gexec (p : page) (o : gop) : option page :=
  match o with
  | GMove f0 r0 r1 => Some (mkP (p_list p) (p_hf p) (p_hb p) f0 r0 r1)
  | GSignal => update p
  | GNum n => update (set_num p n)
  end.
(** a history of updates, layouts and scrolling [a history; not a function of /repo] *)
Fixpoint grun (p : page) (ops : list gop) : option page :=
  match ops with
  | [] => Some p
  | o :: t => match gexec p o with None => None | Some p' => grun p' t end
  end.
(** virtualized_list.rs:96-125 [new]; the spacers are empty elements *)
Definition page0 (f0 r0 r1 : Q) : page := mkP vl_new 0 0 f0 r0 r1.
End Page.
