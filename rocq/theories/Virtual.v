(** Model of async_ui_web/src/lists/virtualized_list.rs [VirtualizedList]: the calls
    made to the inner DynamicList.  The page's geometry (bounding boxes, floating
    point arithmetic, lines 180-202) is an oracle: each update either returns early
    or computes some [new_start] and [new_end], of which only
    [new_end <= num_items] (line 201) is known.  The spacers are not modelled. *)
From Coq Require Import List Arith Bool.
From Verif Require Import Spec_list DynList Calls.
Import ListNotations.

(** a Rust range [a..b] as iterated: empty when [b <= a] [virtualized_list.rs:214-227] *)
Definition range (a b : nat) : list nat := seq a (b - a).

(** virtualized_list.rs:52-58 [State] and the keys of the inner list *)
Record vlist := mkVL { vl_start : nat; vl_end : nat; vl_num : nat; vl_keys : list key }.

(** virtualized_list.rs:96-106 [new] *)
Definition vl_new : vlist := mkVL 0 0 0 [].

(** virtualized_list.rs:214-227: the calls made by [update_visible] once the new
    window [ns..ne] is computed *)
Definition vl_calls (s e ns ne : nat) : list dcall :=
  map (fun k => DRemove k None) (range s (Nat.min e ns) ++ range (Nat.max s ne) e) ++
  (let remaining := if Nat.leb ns s && Nat.ltb s ne then Some s else None in
   map (fun k => DInsert k remaining None) (range ns (Nat.min ne s))) ++
  map (fun k => DInsert k None None) (range (Nat.max ns e) ne).

(** virtualized_list.rs:171-229 [update_visible] *)
Definition vl_update (v : vlist) (w : option (nat * nat)) : option vlist :=
  match w with
  | None => Some v                                          (* 187-191: return *)
  | Some (ns, ne) =>
      match druns (vl_keys v) (vl_calls (vl_start v) (vl_end v) ns ne) with
      | None => None
      | Some ks => Some (mkVL ns ne (vl_num v) ks)
      end
  end.

(** virtualized_list.rs:129-229 *)
Inductive vop :=
| VNum (n : nat) (w : option (nat * nat))   (* set_num_items, 129-132 *)
| VVisible (w : option (nat * nat)).        (* render 156, 166: scroll or intersection *)
(** virtualized_list.rs:129-229 *)
Definition vl_exec (v : vlist) (o : vop) : option vlist :=
  match o with
  | VNum n w => vl_update (mkVL (vl_start v) (vl_end v) n (vl_keys v)) w
  | VVisible w => vl_update v w
  end.
(** a history of calls of virtualized_list.rs:129-229 *)
Fixpoint vl_run (v : vlist) (ops : list vop) : option vlist :=
  match ops with
  | [] => Some v
  | o :: t => match vl_exec v o with None => None | Some v' => vl_run v' t end
  end.
(** the oracle's answer respects line 201 [virtualized_list.rs:201] *)
Definition vl_window_ok (num : nat) (w : option (nat * nat)) : Prop :=
  match w with None => True | Some (_, ne) => ne <= num end.
