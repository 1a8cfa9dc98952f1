(** Model of /repo/async_ui_web/src/shortcuts.rs:27-108 (class names), over the DOM
    standard's DOMTokenList.  An element's class attribute is a string or missing; a
    string is its list of characters. *)
From Coq Require Import List Bool Ascii.
Import ListNotations.
Local Open Scope char_scope.

(** a string (shortcuts.rs:51) *)
Definition str := list ascii.
(** string equality (in the DOM, behind shortcuts.rs:52) *)
Definition str_eqb (a b : str) : bool := if list_eq_dec ascii_dec a b then true else false.

(** ASCII whitespace of the DOM standard (used through web_sys, shortcuts.rs:52) *)
Definition is_space (c : ascii) : bool :=
  (Ascii.eqb c "009" || Ascii.eqb c "010" || Ascii.eqb c "012" || Ascii.eqb c "013" || Ascii.eqb c " ")%bool.

(** DOM standard, "split on ASCII whitespace" (behind shortcuts.rs:52); [cur] is the
    token being read *)
Fixpoint split_space (cur : str) (s : str) : list str :=
  match s with
  | [] => match cur with [] => [] | _ => [cur] end
  | c :: s' =>
      if is_space c then match cur with [] => split_space [] s' | _ => cur :: split_space [] s' end
      else split_space (cur ++ [c]) s'
  end.
(** DOM standard, "append" to an ordered set (behind shortcuts.rs:52) *)
Definition set_append (c : str) (l : list str) : list str :=
  if existsb (str_eqb c) l then l else l ++ [c].
(** DOM standard, "ordered set parser": [element.classList] (shortcuts.rs:52) *)
Definition parse (a : option str) : list str :=
  match a with
  | None => []
  | Some s => fold_left (fun l c => set_append c l) (split_space [] s) []
  end.
(** DOM standard, "ordered set serializer" (behind shortcuts.rs:52) *)
Fixpoint serialize (l : list str) : str :=
  match l with
  | [] => []
  | [c] => c
  | c :: r => c ++ " " :: serialize r
  end.
(** DOM standard, "update steps" of a DOMTokenList (behind shortcuts.rs:52) *)
Definition update (a : option str) (l : list str) : option str :=
  match a, l with
  | None, [] => None
  | _, _ => Some (serialize l)
  end.
(** DOM standard: the empty token is a SyntaxError, one with whitespace an
    InvalidCharacterError (behind the unwraps of shortcuts.rs:52-75) *)
Definition bad_token (c : str) : bool :=
  match c with
  | [] => true
  | _ => existsb is_space c
  end.

(** DOMTokenList.add; None: an exception (behind shortcuts.rs:52 and 55-57) *)
Definition tl_add (cs : list str) (a : option str) : option (option str) :=
  if existsb bad_token cs then None
  else Some (update a (fold_left (fun l c => set_append c l) cs (parse a))).
(** DOMTokenList.remove (behind shortcuts.rs:61 and 64-66) *)
Definition tl_remove (cs : list str) (a : option str) : option (option str) :=
  if existsb bad_token cs then None
  else Some (update a (fold_left (fun l c => filter (fun d => negb (str_eqb c d)) l) cs (parse a))).
(** DOMTokenList.toggle with a force argument (behind shortcuts.rs:70-72) *)
Definition tl_toggle (c : str) (force : bool) (a : option str) : option (option str) :=
  if bad_token c then None
  else if existsb (str_eqb c) (parse a) then
    if force then Some a else Some (update a (filter (fun d => negb (str_eqb c d)) (parse a)))
  else if force then Some (update a (parse a ++ [c])) else Some a.

(** the calls *)
Inductive cop :=
| AddClass (c : str)              (* shortcuts.rs:51-53; also with_class, 90-93 *)
| AddClasses (cs : list str)      (* shortcuts.rs:54-58; also with_classes, 103-106 *)
| DelClass (c : str)              (* shortcuts.rs:60-62 *)
| DelClasses (cs : list str)      (* shortcuts.rs:63-67 *)
| SetClass (c : str) (b : bool).  (* shortcuts.rs:69-73 *)
(** shortcuts.rs:50-75 [impl ShortcutClassList for Element]; None: it panics *)
Definition class_call (o : cop) (a : option str) : option (option str) :=
  match o with
  | AddClass c => tl_add [c] a
  | AddClasses cs => tl_add cs a
  | DelClass c => tl_remove [c] a
  | DelClasses cs => tl_remove cs a
  | SetClass c b => tl_toggle c b a
  end.
(** a history of calls on one element (shortcuts.rs:50-75) *)
Fixpoint class_calls (l : list cop) (a : option str) : option (option str) :=
  match l with
  | [] => Some a
  | o :: r => match class_call o a with Some a' => class_calls r a' | None => None end
  end.
