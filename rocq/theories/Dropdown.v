(** Model of async_ui_web/src/components/dropdown.rs [Dropdown], with the part of
    the browser's <select> it uses (HTML standard, single selection, display size 1).

    Simplifications: options (keys) and texts are numbers, text 0 is the empty
    string; option elements are numbers, a new element gets a new number; no
    option is disabled or has a value attribute; only the Dropdown edits the
    <select>. *)
From Coq Require Import List Arith Bool.
From Verif Require Import Spec_list DynList.
Import ListNotations.

Notation elem := nat (only parsing).
Notation text := nat (only parsing).

(** ** the <select> element [web_sys, dropdown.rs:72-91] *)
Record select := mkSel { sl_kids : list elem; sl_on : elem -> bool; sl_text : elem -> text }.

(** changing one option element [bookkeeping of the model] *)
Definition upd1 {A} (f : nat -> A) (k : nat) (v : A) : nat -> A := fun x => if Nat.eqb x k then v else f x.

(** the selectedness setting algorithm: when no option is selected, the first one is
    [HTML, used through dropdown.rs:122-168] *)
Definition sel_reset (s : select) : select :=
  if existsb (sl_on s) (sl_kids s) then s
  else match sl_kids s with
       | [] => s
       | e :: _ => mkSel (sl_kids s) (upd1 (sl_on s) e true) (sl_text s)
       end.
(** HTMLOptionElement.selected = true [dropdown.rs:157-161] *)
Definition sel_only (s : select) (e : elem) : select :=
  mkSel (sl_kids s) (fun x => Nat.eqb x e) (sl_text s).
(** HTMLSelectElement.value = "": the first option with an empty value, or none
    [dropdown.rs:157-161] *)
Definition sel_set_empty (s : select) : select :=
  match find (fun e => Nat.eqb (sl_text s e) 0) (sl_kids s) with
  | Some e => sel_only s e
  | None => mkSel (sl_kids s) (fun _ => false) (sl_text s)
  end.
(** removeChild; throws when not a child [dropdown.rs:143-153] *)
Definition sel_remove (s : select) (e : elem) : option select :=
  if memb e (sl_kids s) then Some (sel_reset (mkSel (l_remove e (sl_kids s)) (sl_on s) (sl_text s)))
  else None.
(** Node.nextSibling among the options (dropdown.rs:122-168) *)
Fixpoint next_of (e : elem) (l : list elem) : option elem :=
  match l with
  | [] => None
  | x :: t => if Nat.eqb x e then hd_error t else next_of e t
  end.
(** insertBefore; throws when the reference is not a child; an element that is
    already a child is removed first; inserting a selected option deselects the others
    [dropdown.rs:135-155] *)
Definition sel_insert (s : select) (e : elem) (ref : option elem) : option select :=
  if match ref with None => true | Some r => memb r (sl_kids s) end then
    let ref' := match ref with
                | Some r => if Nat.eqb r e then next_of e (sl_kids s) else Some r
                | None => None
                end in
    let s1 := if memb e (sl_kids s)
              then sel_reset (mkSel (l_remove e (sl_kids s)) (sl_on s) (sl_text s)) else s in
    let kids := match ref' with None => sl_kids s1 ++ [e] | Some r => l_before e r (sl_kids s1) end in
    let s2 := mkSel kids (sl_on s1) (sl_text s1) in
    Some (sel_reset (if sl_on s2 e then sel_only s2 e else s2))
  else None.
(** the index of the first element with [f], used for selectedIndex [web_sys] *)
Fixpoint index_on (f : elem -> bool) (l : list elem) (i : nat) : option nat :=
  match l with
  | [] => None
  | e :: t => if f e then Some i else index_on f t (S i)
  end.
(** HTMLSelectElement.selectedIndex, [None] for -1 [web_sys, dropdown.rs:104-115] *)
Definition sel_index (s : select) : option nat := index_on (sl_on s) (sl_kids s) 0.

(** ** the Dropdown: dropdown.rs:72-76 *)
Record dropdown := mkDD {
  dd_sel : select;
  dd_selected : option key;
  dd_prev : list key;
  dd_map : list (key * elem);
  dd_next : elem              (* the number of the next element to be created *)
}.
(** HashMap::get on `Inner::map` (dropdown.rs:72-76) *)
Fixpoint em_get (k : key) (m : list (key * elem)) : option elem :=
  match m with
  | [] => None
  | (k', v) :: t => if Nat.eqb k' k then Some v else em_get k t
  end.
(** HashMap::remove on it [std, dropdown.rs:122-168] *)
Definition em_remove (k : key) (m : list (key * elem)) : list (key * elem) :=
  filter (fun e => negb (Nat.eqb (fst e) k)) m.

(** dropdown.rs:82-91 [new] *)
Definition dd_new : dropdown := mkDD (mkSel [] (fun _ => false) (fun _ => 0)) None [] [] 0.

(** dropdown.rs:184-191 [value] *)
Definition dd_value (d : dropdown) : option key :=
  match sel_index (dd_sel d) with
  | Some i => match nth_error (dd_prev d) i with Some o => Some o | None => dd_selected d end
  | None => dd_selected d
  end.

(** record update: the <select> element changes [bookkeeping of the model] *)
Definition set_sel (d : dropdown) (s : select) : dropdown :=
  mkDD s (dd_selected d) (dd_prev d) (dd_map d) (dd_next d).

(** dropdown.rs:104-115 [set_value] *)
Definition dd_set_value (d : dropdown) (o : option key) : dropdown :=
  match o with
  | Some k => match em_get k (dd_map d) with
              | Some e => mkDD (sel_only (dd_sel d) e) (Some k) (dd_prev d) (dd_map d) (dd_next d)
              | None => set_sel d (sel_set_empty (dd_sel d))
              end
  | None => set_sel d (sel_set_empty (dd_sel d))
  end.

(** dropdown.rs:143-153: put the element of [k] before the element of the peeked
    option if [put], and set its text; [None] for a failing unwrap or a DOM exception *)
Definition dd_put (s : select) (m : list (key * elem)) (k : key) (t : text) (peek : option key) (put : bool)
  : option select :=
  match em_get k m with
  | None => None
  | Some e =>
      let s1 := if put then
                  match peek with
                  | None => sel_insert s e None
                  | Some p => match em_get p m with None => None | Some r => sel_insert s e (Some r) end
                  end
                else Some s in
      match s1 with
      | None => None
      | Some s1 => Some (mkSel (sl_kids s1) (sl_on s1) (upd1 (sl_text s1) e t))
      end
  end.

(** dropdown.rs:135-155: the loop *)
Fixpoint dd_loop (s : select) (m : list (key * elem)) (next : elem) (set iter : list key)
  (new : list (key * text)) : option (select * list (key * elem) * elem * list key) :=
  match new with
  | [] => Some (s, m, next, set)
  | (k, t) :: rest =>
      if memb k set then
        let set' := l_remove k set in
        match iter with
        | p :: iter' =>
            if Nat.eqb p k
            then match dd_put s m k t (hd_error iter') false with
                 | None => None | Some s1 => dd_loop s1 m next set' iter' rest end
            else match dd_put s m k t (Some p) true with
                 | None => None | Some s1 => dd_loop s1 m next set' iter rest end
        | [] => match dd_put s m k t None true with
                | None => None | Some s1 => dd_loop s1 m next set' [] rest end
        end
      else
        let m' := (k, next) :: em_remove k m in
        let s0 := mkSel (sl_kids s) (upd1 (sl_on s) next false) (upd1 (sl_text s) next 0) in
        match dd_put s0 m' k t (hd_error iter) true with
        | None => None | Some s1 => dd_loop s1 m' (S next) set iter rest end
  end.
(** dropdown.rs:157-161 *)
Fixpoint dd_drain (s : select) (m : list (key * elem)) (l : list key) : option (select * list (key * elem)) :=
  match l with
  | [] => Some (s, m)
  | k :: t => match em_get k m with
              | None => None
              | Some e => match sel_remove s e with
                          | None => None
                          | Some s1 => dd_drain s1 (em_remove k m) t
                          end
              end
  end.

(** dropdown.rs:122-168 [update_options]; [drain] is the order in which the hash
    set yields its elements *)
Definition dd_update (d : dropdown) (new : list (key * text)) (drain : list key -> list key) : option dropdown :=
  let cur := dd_value d in
  match dd_loop (dd_sel d) (dd_map d) (dd_next d) (nodup Nat.eq_dec (dd_prev d)) (dd_prev d) new with
  | None => None
  | Some (s, m, next, rest) =>
      match dd_drain s m (drain rest) with
      | None => None
      | Some (s1, m1) =>
          let s2 := match cur with
                    | Some k => match em_get k m1 with
                                | Some e => sel_only s1 e
                                | None => sel_set_empty s1
                                end
                    | None => sel_set_empty s1
                    end in
          Some (mkDD s2 cur (map fst new) m1 next)
      end
  end.

(** the user picks the [i]-th option [the browser; seen at dropdown.rs:104-115] *)
Definition dd_user (d : dropdown) (i : nat) : dropdown :=
  match nth_error (sl_kids (dd_sel d)) i with
  | None => d
  | Some e => set_sel d (sel_only (dd_sel d) e)
  end.

(** histories: update_options (dropdown.rs:122-168), set_value (104-115), a choice of the user *)
Inductive ddop :=
| DUpdate (new : list (key * text)) (drain : list key -> list key)
| DSet (o : option key)
| DUser (i : nat).
(** one step of such a history [dropdown.rs:104-191] *)
Definition dd_exec (d : dropdown) (o : ddop) : option dropdown :=
  match o with
  | DUpdate new drain => dd_update d new drain
  | DSet o => Some (dd_set_value d o)
  | DUser i => Some (dd_user d i)
  end.
(** a whole history [a history; not a function of /repo] *)
Fixpoint dd_run (d : dropdown) (ops : list ddop) : option dropdown :=
  match ops with
  | [] => Some d
  | o :: t => match dd_exec d o with None => None | Some d' => dd_run d' t end
  end.
