(** Specification for C46: where the class selectors of a stylesheet are. *)
From Coq Require Import List Arith Bool NArith.
From Verif Require Import Css.
Import ListNotations.

(** A stylesheet is cut into class selectors and other text.  A class selector is a dot,
    possibly comments (their text is [gap]) and an identifier; the dot is in the text before. *)
Inductive item := IText (t : text) | IClass (gap : text) (id : list piece).
Definition items_text (l : list item) : text :=
  flat_map (fun i => match i with IText t => t | IClass g u => g ++ id_text u end) l.
(** the text with [pf] after each class *)
Definition renamed (pf : text) (l : list item) : text :=
  flat_map (fun i => match i with IText t => t | IClass g u => g ++ id_text u ++ 45%N :: pf end) l.
(** the class names *)
Definition class_names (l : list item) : list text :=
  flat_map (fun i => match i with IText _ => [] | IClass _ u => [id_text u] end) l.
(** a class written plainly: no comment after the dot, no escapes in the name *)
Definition plain (i : item) : Prop :=
  match i with IText _ => True | IClass g u => g = [] /\ id_text u = id_value u end.

(** [after_dot]: the last token, apart from comments with this text, was a dot *)
Definition flush (after_dot : option text) : list item := match after_dot with Some g => [IText g] | None => [] end.
(** in a selector, inside the parentheses of a function such as :not(...) *)
Fixpoint in_function (after_dot : option text) (l : toks) : list item :=
  match l with
  | TNil => flush after_dot
  | TDot l => flush after_dot ++ IText [46%N] :: in_function (Some []) l
  | TComment r l =>
      match after_dot with
      | Some g => in_function (Some (g ++ 47%N :: r)) l
      | None => IText (47%N :: r) :: in_function None l
      end
  | TIdent p u l =>
      match after_dot with
      | Some g => IClass g (p :: u) :: in_function None l
      | None => IText (id_text (p :: u)) :: in_function None l
      end
  | TSpace r l | TCdx r l | TAt _ r l | TOther r l => flush after_dot ++ IText r :: in_function None l
  | TSemi l => flush after_dot ++ IText [59%N] :: in_function None l
  | TBlock k o b c l =>
      flush after_dot ++ IText o :: (match k with BFun => in_function None b | _ => [IText (tok_text b)] end)
        ++ IText c :: in_function None l
  end.
(** in a list of rules: before a rule; in the selector of a style rule; in an at-rule, up to
    its semicolon or block ([group]: it contains rules).  [top]: not inside an at-rule. *)
Inductive where_ := Before | Selector (after_dot : option text) | AtRule (group : bool).
Definition pending (w : where_) : list item := match w with Selector d => flush d | _ => [] end.
Definition go_on (w : where_) : where_ := match w with AtRule g => AtRule g | _ => Selector None end.
Fixpoint in_rules (top : bool) (w : where_) (l : toks) : list item :=
  match l with
  | TNil => pending w
  | TSpace r l => pending w ++ IText r :: in_rules top (match w with Before => Before | _ => go_on w end) l
  | TComment r l =>
      match w with
      | Selector (Some g) => in_rules top (Selector (Some (g ++ 47%N :: r))) l
      | _ => IText (47%N :: r) :: in_rules top w l
      end
  | TCdx r l => pending w ++ IText r :: in_rules top (match w with Before => if top then Before else Selector None | _ => go_on w end) l
  | TAt g r l => pending w ++ IText r :: in_rules top (match w with Before => AtRule g | _ => go_on w end) l
  | TSemi l => pending w ++ IText [59%N] :: in_rules top (match w with AtRule _ => Before | _ => go_on w end) l
  | TDot l => pending w ++ IText [46%N] :: in_rules top (match w with AtRule g => AtRule g | _ => Selector (Some []) end) l
  | TIdent p u l =>
      match w with
      | Selector (Some g) => IClass g (p :: u) :: in_rules top (Selector None) l
      | _ => IText (id_text (p :: u)) :: in_rules top (go_on w) l
      end
  | TOther r l => pending w ++ IText r :: in_rules top (go_on w) l
  | TBlock k o b c l =>
      pending w ++ IText o ::
      match k, w with
      | BCurly, AtRule true => in_rules false Before b
      | BFun, AtRule _ => [IText (tok_text b)]
      | BFun, _ => in_function None b
      | _, _ => [IText (tok_text b)]
      end ++ IText c :: in_rules top (match k with BCurly => Before | _ => go_on w end) l
  end.
Definition items (l : toks) : list item := in_rules true Before l.

(** what Ident::new accepts: its ASCII characters are letters, digits and underscores *)
Definition ident_char (c : N) : bool :=
  ((48 <=? c) && (c <=? 57) || (65 <=? c) && (c <=? 90) || (97 <=? c) && (c <=? 122) || (c =? 95) || (128 <=? c))%N.
Definition ident_new_ok (f : text -> bool) : Prop := forall t, f t = true -> Forall (fun c => ident_char c = true) t.
