(** Model of async_ui_web_core/src/position.rs (ChildPosition).

    A position is kept exactly as in the code: a sequence of u32 segments,
    leaf first, most significant segment LAST.  u32 is modelled by [N]; the
    only arithmetic, [content[0] += 1], is checked against [u32_max]
    (debug builds panic on overflow). *)
From Coq Require Import List NArith Bool.
Import ListNotations.
Local Open Scope N_scope.

(** position.rs:77: PositionSegment is u32 *)
Definition u32_max : N := 4294967295.

(** position.rs:77 [type PositionSegment = u32]; position.rs:84
    [struct ChildPosition(SmallVec<[PositionSegment; 4]>)].
    Simplification: the inline/heap storage of SmallVec is not modelled. *)
Definition pos := list N.

(** position.rs:66-71: the zip loop of [compare_slice_reversed], run on the
    already reversed slices: first non-equal pair decides, [Eq] otherwise. *)
Fixpoint zip_cmp (r1 r2 : list N) : comparison :=
  match r1, r2 with
  | e1 :: t1, e2 :: t2 =>
      match N.compare e1 e2 with
      | Eq => zip_cmp t1 t2
      | c => c
      end
  | _, _ => Eq
  end.

(** position.rs:65-74 [compare_slice_reversed]. *)
Definition compare_slice_reversed (s1 s2 : list N) : comparison :=
  match zip_cmp (rev s1) (rev s2) with
  | Eq => Nat.compare (length s1) (length s2)
  | c => c
  end.

(** position.rs:91-95 [impl Ord for ChildPosition]. *)
Definition pos_cmp (a b : pos) : comparison := compare_slice_reversed a b.

(** `<` of position.rs:86-96 *)
Definition pos_ltb (a b : pos) : bool :=
  match pos_cmp a b with Lt => true | _ => false end.
(** `<=` of position.rs:86-96 *)
Definition pos_leb (a b : pos) : bool :=
  match pos_cmp a b with Gt => false | _ => true end.
(** `==` of position.rs:84 (derived Eq) *)
Definition pos_eqb (a b : pos) : bool :=
  match pos_cmp a b with Eq => true | _ => false end.

(** position.rs:83 [#[derive(Default)]]: the empty path. *)
Definition pos_default : pos := [].

(** position.rs:100-102 [wrap]: push at the end. *)
Definition wrap (p : pos) (index : N) : pos := p ++ [index].

(** position.rs:109-113 [next_sibling]: [content[0] += 1].
    [None] = panic (index out of bounds on the empty path, or u32 overflow). *)
Definition next_sibling (p : pos) : option pos :=
  match p with
  | [] => None
  | x :: t => if x <? u32_max then Some (x + 1 :: t) else None
  end.

(** position.rs:115-117 [is_root]. *)
Definition is_root (p : pos) : bool :=
  match p with [] => true | _ => false end.
