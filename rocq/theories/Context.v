(** Model of async_ui_web_core/src/context.rs: node groups and rendering
    contexts. *)
From Coq Require Import List Arith NArith Bool.
From Verif Require Import Position Dom.
Import ListNotations.

(** context.rs:29 [NodeGroup = RefCell<BTreeMap<ChildPosition, web_sys::Node>>].
    The BTreeMap is modelled by the list of its entries in key order; the
    RefCell borrow flag is not modelled (borrows never overlap: every borrow is
    local to one call below, which calls no user code). *)
Definition group := list (pos * node).

(** [BTreeMap::range(k..).next()] [std, used at context.rs:45-79] *)
Fixpoint range_from_first (k : pos) (g : group) : option node :=
  match g with
  | [] => None
  | (k', v) :: t => if pos_leb k k' then Some v else range_from_first k t
  end.

(** [BTreeMap::insert]: new map and the replaced value [std, used at context.rs:45-79] *)
Fixpoint bt_insert (k : pos) (v : node) (g : group) : group * option node :=
  match g with
  | [] => ([(k, v)], None)
  | (k', v') :: t =>
      match pos_cmp k k' with
      | Lt => ((k, v) :: g, None)
      | Eq => ((k', v) :: t, Some v')
      | Gt => let (t', o) := bt_insert k v t in ((k', v') :: t', o)
      end
  end.

(** [BTreeMap::remove] [std, used at context.rs:81-98] *)
Definition bt_remove (k : pos) (g : group) : group :=
  filter (fun e => negb (pos_eqb (fst e) k)) g.

(** [BTreeMap::range(lo..hi).next_back()] (std panics when lo > hi; the caller
    always has lo < hi) [std, used at context.rs:81-98] *)
Definition range_last (lo hi : pos) (g : group) : option (pos * node) :=
  last (map Some (filter (fun e => andb (pos_leb lo (fst e)) (pos_ltb (fst e) hi)) g)) None.

(** identifies the NodeGroup stored inside a particular future [context.rs:29] *)
Definition gid := nat.

(** context.rs:7-23 [enum DomContext] *)
Inductive ctx :=
| CContainer (g : gid) (container : node)
| CSibling (parent : ctx) (g : gid) (reference : node)
| CChild (parent : ctx) (index : N).

(** document plus the groups of all live futures
    [the document of web_sys, and context.rs:29] *)
Record rstate := mkR { rdom : dom; rgrp : gid -> group }.

(** context.rs:34-43 [get_containing_node] *)
Fixpoint containing_node (c : ctx) : node :=
  match c with
  | CContainer _ n => n
  | CChild p _ => containing_node p
  | CSibling p _ _ => containing_node p
  end.

(** common tail of both insertion arms: [insert_before(...).unwrap_throw()] then
    [panic_if_duplicate_node(group.insert(position, new_child))]
    (context.rs:50-53 and 66-70; the debug build's panic on a duplicate position,
    context.rs:121-136, is [None]). *)
Definition add_here (s : rstate) (g : gid) (cont : node) (p : pos) (n : node)
           (ref : option node) : option rstate :=
  match insert_before (rdom s) cont n ref with
  | None => None
  | Some d' =>
      let (g', old) := bt_insert p n (rgrp s g) in
      match old with
      | Some _ => None
      | None => Some (mkR d' (upd (rgrp s) g g'))
      end
  end.

(** context.rs:45-79 [add_child] *)
Fixpoint add_child (c : ctx) (p : pos) (n : node) (s : rstate) : option rstate :=
  match c with
  | CContainer g cont =>
      add_here s g cont p n (range_from_first p (rgrp s g))
  | CSibling parent g reference =>
      let ref := match range_from_first p (rgrp s g) with
                 | Some r => r
                 | None => reference
                 end in
      add_here s g (containing_node parent) p n (Some ref)
  | CChild parent index => add_child parent (wrap p index) n s
  end.

(** context.rs:106-110: [tree.values().for_each(remove_child); tree.clear()] *)
Fixpoint remove_all (d : dom) (cont : node) (g : group) : option dom :=
  match g with
  | [] => Some d
  | (_, v) :: t =>
      match remove_child d cont v with
      | None => None
      | Some d' => remove_all d' cont t
      end
  end.

(** context.rs:114-117: the [while let Some(..) = tree.range(..).next_back()]
    loop; [fuel] bounds the iterations, running out is [None].  The caller gives
    one more than the number of entries, and each iteration removes one. *)
Fixpoint remove_range (fuel : nat) (lo hi : pos) (d : dom) (cont : node) (g : group)
  : option (dom * group) :=
  match fuel with
  | O => None
  | S fuel' =>
      match range_last lo hi g with
      | None => Some (d, g)
      | Some (k, v) =>
          match remove_child d cont v with
          | None => None
          | Some d' => remove_range fuel' lo hi d' cont (bt_remove k g)
          end
      end
  end.

(** context.rs:101-119 [remove_children_here] *)
Definition remove_children_here (d : dom) (g : group) (p : pos) (cont : node)
  : option (dom * group) :=
  if is_root p then
    match remove_all d cont g with
    | None => None
    | Some d' => Some (d', [])
    end
  else
    match next_sibling p with
    | None => None
    | Some next => remove_range (S (length g)) p next d cont g
    end.

(** context.rs:83-91, both arms: [remove_children_here] on the group of the context *)
Definition remove_here (s : rstate) (g : gid) (cont : node) (p : pos) : option rstate :=
  match remove_children_here (rdom s) (rgrp s g) p cont with
  | None => None
  | Some (d', g') => Some (mkR d' (upd (rgrp s) g g'))
  end.

(** context.rs:81-98 [DomContext::remove_child] *)
Fixpoint remove_child_ctx (c : ctx) (p : pos) (s : rstate) : option rstate :=
  match c with
  | CContainer g cont => remove_here s g cont p
  | CSibling parent g _ => remove_here s g (containing_node parent) p
  | CChild parent index => remove_child_ctx parent (wrap p index) s
  end.
