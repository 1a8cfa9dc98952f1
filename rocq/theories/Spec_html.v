(** Specification for C83: the text of a document, and the text a program shows. *)
From Coq Require Import List.
From Verif Require Import Dom Ui.
Import ListNotations.

Section Text.
(** characters; [data n]: what the text node [n] says, nothing if [n] is an element *)
Variable A : Type.
Variable data : node -> option (list A).

(** the DOM's [textContent]: that of a text node is what it says, that of an element is that of its
    children, one after the other *)
Inductive text_content (kids : node -> list node) : node -> list A -> Prop :=
| tc_text n s : data n = Some s -> text_content kids n s
| tc_elem n ss : data n = None -> text_contents kids (kids n) ss -> text_content kids n (concat ss)
with text_contents (kids : node -> list node) : list node -> list (list A) -> Prop :=
| tcs_nil : text_contents kids [] []
| tcs_cons n s l ss : text_content kids n s -> text_contents kids l ss -> text_contents kids (n :: l) (s :: ss).

(** what is to be read of a running future: the strings it renders now, in the order of the program *)
Fixpoint reads (f : fut) : list A :=
  match f with
  | FLeaf => []
  | FElem n _ _ Added ch => match data n with Some s => s | None => reads ch end
  | FElem _ _ _ _ _ => []
  | FComb _ cs => flat_map reads cs
  | FBlock c => reads c
  end.
End Text.
