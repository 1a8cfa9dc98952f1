(** Model of the part of the browser DOM the library calls through web_sys:
    [insertBefore], [removeChild], [appendChild], [nextSibling], [parentNode],
    and DocumentFragment insertion, following the DOM standard's
    "pre-insert" / "pre-remove" algorithms.

    Simplifications: node contents are not modelled (nodes are identifiers); the
    HierarchyRequestError check (inserting a node into its own descendant) is
    not modelled.  A thrown exception is [None] (every call site in /repo does
    [unwrap_throw]). *)
From Coq Require Import List Arith Bool.
Import ListNotations.

(** web_sys::Node: a reference to a node of the document
    [the parameters of async_ui_web_core/src/context.rs:34-98] *)
Definition node := nat.

(** web_sys: used by context.rs:101-136 and dynamic_list.rs:329-366 *)
Record dom := mkDom {
  kids : node -> list node;        (* ordered children of a node *)
  par : node -> option node;       (* parentNode *)
  frag : node -> bool              (* is the node a DocumentFragment *)
}.

(** changing the children or parent of one node [bookkeeping of the model] *)
Definition upd {A} (f : node -> A) (k : node) (v : A) : node -> A :=
  fun x => if Nat.eqb x k then v else f x.

(** the document in which nothing is attached [web_sys] *)
Definition dom_empty : dom := mkDom (fun _ => []) (fun _ => None) (fun _ => false).

(** DOM standard, pre-insert step 2 and pre-remove step 1: the parent of [n] is [p] *)
Definition is_child (d : dom) (p n : node) : bool :=
  match par d n with Some q => Nat.eqb q p | None => false end.

(** DOM standard, "remove": a child leaves the list of children *)
Definition remove_node (n : node) (l : list node) : list node :=
  filter (fun x => negb (Nat.eqb x n)) l.

(** insert the list [ns] before the first occurrence of [r] (append if there is
    no reference child) [web_sys, insertBefore] *)
Fixpoint ins_list (ns : list node) (r : option node) (l : list node) : list node :=
  match l with
  | [] => ns
  | x :: t =>
      match r with
      | Some y => if Nat.eqb x y then ns ++ x :: t else x :: ins_list ns r t
      | None => x :: ins_list ns r t
      end
  end.

(** DOM standard, next sibling *)
Fixpoint next_in (n : node) (l : list node) : option node :=
  match l with
  | [] => None
  | x :: t => if Nat.eqb x n then hd_error t else next_in n t
  end.

(** Node.nextSibling [web_sys, used at dynamic_list.rs:351-366] *)
Definition dom_next_sibling (d : dom) (n : node) : option node :=
  match par d n with Some p => next_in n (kids d p) | None => None end.

(** removal of a node from its parent, if it has one ("adopt" step of insert) [web_sys] *)
Definition detach (d : dom) (n : node) : dom :=
  match par d n with
  | Some p => mkDom (upd (kids d) p (remove_node n (kids d p))) (upd (par d) n None) (frag d)
  | None => d
  end.

(** DOM standard, "insert": the new parent of each inserted node *)
Definition set_parents (f : node -> option node) (ns : list node) (p : node) : node -> option node :=
  fold_left (fun g n => upd g n (Some p)) ns f.

(** Node.insertBefore(n, ref) on parent [p]:
    - if [ref] is given and not a child of [p]: NotFoundError;
    - if [ref] is [n] itself, [ref] becomes [n]'s next sibling;
    - a fragment is replaced by its children and becomes empty;
    - otherwise [n] is removed from its old parent and inserted.
    [web_sys, called at context.rs:106-110 and dynamic_list.rs:329-366] *)
Definition insert_before (d : dom) (p n : node) (ref : option node) : option dom :=
  let valid := match ref with None => true | Some r => is_child d p r end in
  if valid then
    let ref' := match ref with
                | Some r => if Nat.eqb r n then next_in n (kids d p) else Some r
                | None => None
                end in
    if frag d n then
      let ns := kids d n in
      let k1 := upd (kids d) n [] in
      Some (mkDom (upd k1 p (ins_list ns ref' (k1 p))) (set_parents (par d) ns p) (frag d))
    else
      let d1 := detach d n in
      Some (mkDom (upd (kids d1) p (ins_list [n] ref' (kids d1 p)))
                  (upd (par d1) n (Some p)) (frag d1))
  else None.

(** Node.removeChild(n) on parent [p] [web_sys, called at context.rs:114-117] *)
Definition remove_child (d : dom) (p n : node) : option dom :=
  if is_child d p n then Some (detach d n) else None.

(** a well-formed document: children lists are duplicate free and agree with
    the parent pointers [web_sys] *)
Definition dom_wf (d : dom) : Prop :=
  (forall p, NoDup (kids d p)) /\
  (forall p n, In n (kids d p) <-> par d n = Some p).
