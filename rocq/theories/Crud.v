(** Model of examples/web-simple-examples/src/crud.rs: a list of persons with a filter.

    Each event of the user runs one branch of the `select!` (crud.rs:96-144; C47, C77).  Texts are any type, with the format of a name and
    "starts with" as parameters.  Simplifications: `person_elements`, a HashMap, is an association list; the ids are natural numbers
    (i32 in the code); of the DOM only the options of the select element, their selection and the fields are kept, as the HTML
    standard has them: the value of a select element is the value of its first selected option or "", an option that is removed
    is not selected any more, and a disabled button gives no click event. *)
From Coq Require Import List Arith Bool.
Import ListNotations.

Section Crud.
Variable T : Type.
Variable blank : T.
Variable fmt : T -> T -> T.
Variable starts : T -> T -> bool.

(** an option element (crud.rs:106-108, 138-139): its value, its text, and whether it is hidden and disabled *)
Record opt := mkO { o_id : nat; o_text : T; o_hidden : bool }.
(** The program's variables and the DOM (crud.rs:12-21, 83-90).  [persons]: the ids and names of person_elements; [options]: those in the
    select element, in order; [selected]: the ids of the selected options. *)
Record crud := mkC { persons : list (nat * T); options : list opt; selected : list nat; counter : nat;
  f_filter : T; f_name : T; f_surname : T; upd_disabled : bool; del_disabled : bool }.
(** crud.rs:12-21, 84, 90 *)
Definition start : crud := mkC [] [] [] 0 blank blank blank true true.
(** what the user does: types in the fields, picks options, clicks (crud.rs:99, 112, 123, 128, 134) *)
Inductive event := TypeName (t : T) | TypeSurname (t : T) | TypeFilter (t : T) | Pick (ids : list nat) | Create | Update | Delete.
(** `person_select.value()` (HTML standard): the first selected option; [None]: "" *)
Definition select_value (s : crud) : option nat := option_map o_id (find (fun o => existsb (Nat.eqb (o_id o)) (selected s)) (options s)).
(** the value of the fields as a name (crud.rs:100-104, 113-117) *)
Definition full_name (s : crud) : T := fmt (f_surname s) (f_name s).
(** HashMap::get_mut finds something (crud.rs:119) *)
Definition has (id : nat) (l : list (nat * T)) : bool := existsb (fun p => Nat.eqb (fst p) id) l.
(** HashMap::remove (crud.rs:125) *)
Definition del (id : nat) (l : list (nat * T)) : list (nat * T) := filter (fun p => negb (Nat.eqb (fst p) id)) l.
(** `elem.1 = name` (crud.rs:121) *)
Definition put (id : nat) (n : T) (l : list (nat * T)) : list (nat * T) := map (fun p => if Nat.eqb (fst p) id then (id, n) else p) l.
(** `elem.0.set_inner_text(&name)` (crud.rs:120) *)
Definition retext (id : nat) (n : T) (l : list opt) : list opt := map (fun o => if Nat.eqb (o_id o) id then mkO (o_id o) n (o_hidden o) else o) l.
(** the loop of crud.rs:136-140 *)
Definition hide (prefix : T) (ps : list (nat * T)) (l : list opt) : list opt :=
  fold_left (fun l p => map (fun o => if Nat.eqb (o_id o) (fst p) then mkO (o_id o) (o_text o) (negb (starts (snd p) prefix)) else o) l) ps l.
(** One event (crud.rs:98-142); [None]: a panic. *)
Definition exec (s : crud) (e : event) : option crud :=
  match e with
  | TypeName t => Some (mkC (persons s) (options s) (selected s) (counter s) (f_filter s) t (f_surname s) (upd_disabled s) (del_disabled s))
  | TypeSurname t => Some (mkC (persons s) (options s) (selected s) (counter s) (f_filter s) (f_name s) t (upd_disabled s) (del_disabled s))
  | TypeFilter t =>                                                       (* crud.rs:134-141 *)
      Some (mkC (persons s) (hide t (persons s) (options s)) (selected s) (counter s) t (f_name s) (f_surname s) (upd_disabled s) (del_disabled s))
  | Pick ids =>                                                           (* crud.rs:128-133 *)
      let s1 := mkC (persons s) (options s) ids (counter s) (f_filter s) (f_name s) (f_surname s) (upd_disabled s) (del_disabled s) in
      let v := select_value s1 in
      let empty := match v with None => true | Some _ => false end in
      Some (mkC (persons s) (options s) (match v with Some i => [i] | None => [] end) (counter s) (f_filter s) (f_name s) (f_surname s) empty empty)
  | Create =>                                                             (* crud.rs:99-111 *)
      let id := S (counter s) in
      Some (mkC (persons s ++ [(id, full_name s)]) (options s ++ [mkO id (full_name s) false]) (selected s) id (f_filter s) (f_name s) (f_surname s) (upd_disabled s) (del_disabled s))
  | Update =>                                                             (* crud.rs:112-122 *)
      if upd_disabled s then Some s
      else match select_value s with
           | None => None                                                 (* parse of "" *)
           | Some id => if has id (persons s)
               then Some (mkC (put id (full_name s) (persons s)) (retext id (full_name s) (options s)) (selected s) (counter s) (f_filter s) (f_name s) (f_surname s) (upd_disabled s) (del_disabled s))
               else None
           end
  | Delete =>                                                             (* crud.rs:123-127 *)
      if del_disabled s then Some s
      else match select_value s with
           | None => None
           | Some id => Some (mkC (del id (persons s)) (filter (fun o => negb (Nat.eqb (o_id o) id)) (options s)) (filter (fun i => negb (Nat.eqb i id)) (selected s))
               (counter s) (f_filter s) (f_name s) (f_surname s) (upd_disabled s) (del_disabled s))
           end
  end.
(** a history (crud.rs:97-143) *)
Fixpoint execs (s : crud) (l : list event) : option crud :=
  match l with [] => Some s | e :: t => match exec s e with Some s' => execs s' t | None => None end end.
End Crud.
