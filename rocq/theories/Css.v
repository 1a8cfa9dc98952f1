(** Model of the css! macro: /repo/async_ui_web_macros/src/css.rs.

    Text is a list of bytes.  The tokenizer is that of the crate cssparser (0.31), which is
    not modelled: a stylesheet is any sequence of tokens in which blocks are nested, each
    token with its text.  How cssparser's RuleListParser walks over the tokens is
    described by [rules] below, from its documentation and source. *)
From Coq Require Import List Arith Bool NArith.
Import ListNotations.

(** a string of css.rs, as the list of its characters *)
Definition text := list N.
(** A piece of an identifier: a character that stands for itself, or one that does not (a
    backslash with what follows, or a NUL), with the rest of its text and what it stands for.
    [cssparser 0.29, used at css.rs:12-38] *)
Inductive piece := PChar (c : N) | PEsc (rest : text) (d : N) (dec : text) | PNul.
(** what stands in the source for a piece (cssparser; the token's slice) [css.rs:17-27] *)
Definition piece_text (p : piece) : text :=
  match p with PChar c => [c] | PEsc r _ _ => 92%N :: r | PNul => [0%N] end.
(** the value of the identifier token; a NUL stands for U+FFFD [css.rs:17-27] *)
Definition piece_value (p : piece) : text :=
  match p with PChar c => [c] | PEsc _ d dec => d :: dec | PNul => [239; 191; 189]%N end.
(** the source text of an identifier token (css.rs:117-127 takes it by position) *)
Definition id_text (u : list piece) : text := flat_map piece_text u.
(** the value of an identifier token (cssparser), used by css.rs:124-126 for its length only *)
Definition id_value (u : list piece) : text := flat_map piece_value u.

(** the blocks of cssparser: functions, ( and [, { [css.rs:12-38] *)
Inductive bkind := BFun | BOther | BCurly.
(** a sequence of tokens [what css.rs:12-38 and 104-137 get from cssparser] *)
Inductive toks :=
| TNil
| TDot (l : toks)                          (* Delim('.') *)
| TIdent (p : piece) (u : list piece) (l : toks)
| TComment (r : text) (l : toks)           (* the text after its first character *)
| TSpace (r : text) (l : toks)
| TCdx (r : text) (l : toks)               (* <!-- and --> *)
| TSemi (l : toks)
| TAt (group : bool) (r : text) (l : toks) (* @keyword; whether it is media, supports, container or layer *)
| TOther (r : text) (l : toks)
| TBlock (k : bkind) (o : text) (body : toks) (c : text) (l : toks).

(** the source text of a token sequence: what css.rs:11 gets as `input` *)
Fixpoint tok_text (l : toks) : text :=
  match l with
  | TNil => []
  | TDot l => 46%N :: tok_text l
  | TIdent p u l => id_text (p :: u) ++ tok_text l
  | TComment r l => 47%N :: r ++ tok_text l
  | TSpace r l => r ++ tok_text l
  | TCdx r l => r ++ tok_text l
  | TSemi l => 59%N :: tok_text l
  | TAt _ r l => r ++ tok_text l
  | TOther r l => r ++ tok_text l
  | TBlock _ o b c l => o ++ tok_text b ++ c ++ tok_text l
  end.

(** css.rs:104-137 [QualifiedRuleParser::parse_prelude] on the body of a function.
    [pos] is the offset of the next token, [at_] what [input.position()] was when it was
    last taken: next_including_whitespace skips comments after that. *)
Fixpoint prelude (dot : bool) (at_ pos : nat) (l : toks) : list (nat * nat) :=
  match l with
  | TNil => []
  | TComment r l => prelude dot at_ (pos + S (length r)) l
  | TDot l => prelude true (S pos) (S pos) l
  | TIdent p u l =>
      let pos' := pos + length (id_text (p :: u)) in
      (if dot then [(at_, length (id_value (p :: u)))] else []) ++ prelude false pos' pos' l
  | TBlock k o b c l =>
      let p1 := pos + length o in
      let pos' := p1 + length (tok_text b) + length c in
      (match k with BFun => prelude false p1 p1 b | _ => [] end) ++ prelude false pos' pos' l
  | TSpace r l | TCdx r l | TAt _ r l | TOther r l =>
      let pos' := pos + length r in prelude false pos' pos' l
  | TSemi l => prelude false (S pos) (S pos) l
  end.

(** where the walk over a list of rules is: between rules, in the prelude of a qualified
    rule, in the prelude of an at-rule [css.rs:12-38] *)
Inductive place := Between | InPrelude (dot : bool) | InAt (group : bool).

(** RuleListParser with css.rs:86-91, 104-151 and 154-202.  [top]: of a stylesheet, which
    also skips <!-- and -->.  The prelude of a qualified rule ends at a {} block, which is
    skipped (parse_block, 139-151); that of an at-rule also at a semicolon, and its block is
    read as a list of rules for the four keywords (185-200).  Errors of rules are ignored (91);
    the only one is a qualified rule without block at the end of the input. *)
Fixpoint rules (top : bool) (pl : place) (at_ pos : nat) (l : toks) : list (nat * nat) :=
  let pre := match pl with InPrelude d => Some d | _ => None end in
  let in_at := match pl with InAt g => Some g | _ => None end in
  let skip n l := let pos' := pos + n in rules top (match pl with InAt g => InAt g | _ => InPrelude false end) pos' pos' l in
  let space n l := let pos' := pos + n in rules top (match pl with InPrelude _ => InPrelude false | _ => pl end) pos' pos' l in
  match l with
  | TNil => []
  | TComment r l => rules top pl (match pre with Some _ => at_ | None => pos + S (length r) end) (pos + S (length r)) l
  | TSpace r l => space (length r) l
  | TCdx r l => if top then space (length r) l else skip (length r) l
  | TAt g r l =>
      match pl with
      | Between => let pos' := pos + length r in rules top (InAt g) pos' pos' l
      | _ => skip (length r) l
      end
  | TSemi l =>
      match pl with InAt _ => rules top Between (S pos) (S pos) l | _ => skip 1 l end
  | TDot l => match pl with InAt _ => skip 1 l | _ => rules top (InPrelude true) (S pos) (S pos) l end
  | TIdent p u l =>
      (match pl with InPrelude true => [(at_, length (id_value (p :: u)))] | _ => [] end) ++ skip (length (id_text (p :: u))) l
  | TOther r l => skip (length r) l
  | TBlock k o b c l =>
      let p1 := pos + length o in
      let n := length o + length (tok_text b) + length c in
      match k with
      | BCurly =>
          (match pl with InAt true => rules false Between p1 p1 b | _ => [] end) ++
          rules top Between (pos + n) (pos + n) l
      | BFun => (match pl with InAt _ => [] | _ => prelude false p1 p1 b end) ++ skip n l
      | BOther => skip n l
      end
  end.
(** css.rs:80-93 *)
Definition find_classes (l : toks) : list (nat * nat) := rules true Between 0 0 l.

(** &input[a..b]; a range that is not within the text panics (as does one that splits a
    character, which is not modelled: see [generate]) [css.rs:80-93] *)
Definition slice (a b : nat) (t : text) : option text :=
  if (a <=? b) && (b <=? length t) then Some (firstn (b - a) (skipn a t)) else None.

(** equality of strings, as the HashSet of css.rs:17-23 uses it *)
Definition teqb (a b : text) : bool := if list_eq_dec N.eq_dec a b then true else false.
(** HashSet::insert, css.rs:23 *)
Definition insert_name (x : text) (l : list text) : list text := if existsb (teqb x) l then l else x :: l.

(** css.rs:17-27: the loop over the classes *)
Fixpoint splice (input pf : text) (classes : list (nat * nat)) (output : text) (last : nat) (names : list text)
  : option (text * nat * list text) :=
  match classes with
  | [] => Some (output, last, names)
  | (start, len) :: cs =>
      let e := start + len in
      match slice last e input with
      | None => None
      | Some s =>
          let output1 := output ++ s in
          (* the assertion; its index computation panics on underflow *)
          if (S len <=? length output1) && N.eqb (nth (length output1 - len - 1) output1 0%N) 46 then
            match slice start e input with
            | None => None
            | Some nm => splice input pf cs (output1 ++ 45%N :: pf) e (insert_name nm names)
            end
          else None
      end
  end.

Section Macro.
(** whether Ident::new accepts a string (it panics otherwise) *)
Variable ident_new : text -> bool.
(** DefaultHasher's hash of the text, as its eight bytes *)
Variable hash : text -> list N.

(** char::from_digit(n, 32) [std, used at css.rs:69-77] *)
Definition digit32 (n : N) : N := (if n <? 10 then 48 + n else 87 + n)%N.
(** css.rs:69-77 *)
Definition postfix (input : text) : text := map (fun n => digit32 (n mod 32)) (hash input).
(** str::replace('-', "_") [std, used at css.rs:124-126] *)
Definition dash (t : text) : text := map (fun c => if N.eqb c 45 then 95%N else c) t.

(** css.rs:12-38: the postfixed stylesheet, and the constants with their values; None if the
    macro panics (a compilation error) *)
Definition generate (l : toks) : option (text * list (text * text)) :=
  let input := tok_text l in
  let pf := postfix input in
  match splice input pf (find_classes l) [] 0 [] with
  | None => None
  | Some (output, last, names) =>
      match slice last (length input) input with
      | None => None
      | Some rest =>
          if forallb (fun c => ident_new (dash c)) names
          then Some (output ++ rest, map (fun c => (dash c, c ++ 45%N :: pf)) names)
          else None
      end
  end.
End Macro.

(** css.rs:44-49: the stylesheet is put between backticks in a JavaScript module, whose value
    becomes the content of a <style> element.  This is the value of the template literal
    (ECMAScript, "Static Semantics: TV"); None stands for a text that does not give a string
    this way (a backtick, a "${", a decimal escape) and, as a simplification, for \x and \u. *)
Fixpoint template (t : text) : option text :=
  match t with
  | [] => Some []
  | c :: t1 =>
      if N.eqb c 96 then None
      else if N.eqb c 36 then
        match t1 with
        | 123%N :: _ => None
        | _ => option_map (cons c) (template t1)
        end
      else if N.eqb c 13 then
        match t1 with
        | 10%N :: t2 => option_map (cons 10%N) (template t2)
        | _ => option_map (cons 10%N) (template t1)
        end
      else if N.eqb c 92 then
        match t1 with
        | [] => None
        | e :: t2 =>
            let one x := option_map (cons x) (template t2) in
            if N.eqb e 110 then one 10%N else if N.eqb e 116 then one 9%N else if N.eqb e 98 then one 8%N
            else if N.eqb e 118 then one 11%N else if N.eqb e 102 then one 12%N else if N.eqb e 114 then one 13%N
            else if N.eqb e 10 then template t2
            else if (N.leb 48 e && N.leb e 57)%bool || N.eqb e 120 || N.eqb e 117 || N.eqb e 13 then None
            else one e
        end
      else option_map (cons c) (template t1)
  end.
