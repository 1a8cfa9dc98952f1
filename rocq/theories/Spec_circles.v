(** Specification for C85: an editor with undo and redo, as a stack of pictures. *)
From Coq Require Import List Arith ZArith.
From Verif Require Import Circles.
Import ListNotations.

Section Spec.
Variables (size : Type) (one : size) (pick : list (Z * Z * size) -> Z -> Z -> option nat).
Notation picture := (list (Z * Z * size)).
Notation event := (event size).

(** [past], newest first; [future], nearest first; [sel]: the circle under the mouse when it was last in the area *)
Record editor := mkE { past : list picture; present : picture; future : list picture; sel : option nat }.
(** the picture with another size of circle [i] *)
Definition resized (i : nat) (v : size) (p : picture) : picture :=
  map (fun c => if Nat.eqb (fst c) i then (fst (snd c), v) else snd c) (combine (seq 0 (length p)) p).
Definition edit (ed : editor) (e : event) : editor :=
  match e with
  | EMove _ x y => mkE (past ed) (present ed) (future ed) (pick (present ed) x y)
  | EClick _ x y => let p := present ed ++ [(x, y, one)] in mkE (present ed :: past ed) p [] (pick p x y)
  | EMenu _ slider =>
      match sel ed, rev slider with
      | Some i, v :: _ => mkE (present ed :: past ed) (resized i v (present ed)) [] (sel ed)
      | _, _ => ed
      end
  | EUndo _ => match past ed with p :: t => mkE t p (present ed :: future ed) (sel ed) | [] => ed end
  | ERedo _ => match future ed with p :: t => mkE (present ed :: past ed) p t (sel ed) | [] => ed end
  end.
Definition edits (evs : list event) : editor := fold_left edit evs (mkE [] [] [] None).

(** a disabled button cannot be clicked; and there is no right click while the selected circle is not there *)
Definition possible (ed : editor) (e : event) : Prop :=
  match e with
  | EUndo _ => past ed <> []
  | ERedo _ => future ed <> []
  | EMenu _ _ => forall i, sel ed = Some i -> i < length (present ed)
  | _ => True
  end.
Definition history (evs : list event) : Prop := forall a e b, evs = a ++ e :: b -> possible (edits a) e.
End Spec.
