(** Model of async_ui_web/src/lists/dynamic_list.rs (DynamicList) on the document.

    Simplifications: keys are natural numbers (the code only compares them);
    the HashMap is an association list; the RefCell borrow flag is not modelled
    (no user code runs during a borrow, except [retain]'s predicate); freshly
    created comment nodes and the NodeGroup of a new SiblingNodeFuture are given
    as arguments of [insert] (the theorems require them to be new).  Dropping an
    item's Task does not drop its future at once: async-task schedules the task
    once more and the list's executor, running inside [render], drops the future
    ([dl_dead], [dl_reap]). *)
From Coq Require Import List Arith NArith Bool.
From Verif Require Import Position Dom Context Spec_path Spec_render Render_history.
Import ListNotations.

Notation key := nat (only parsing).

(** dynamic_list.rs:65-69 [struct Stored]; the task is represented by the
    NodeGroup of its SiblingNodeFuture *)
Record stored := mkStored { st_g : gid; st_s : node; st_e : node }.

(** dynamic_list.rs:15-19 [enum ContainingNode] *)
Inductive cnode := Real (n : node) | Fake (n : node).
(** dynamic_list.rs:71-78 [ContainingNode::get] *)
Definition cget (c : cnode) : node := match c with Real n => n | Fake n => n end.

(** dynamic_list.rs:52-63.  [dl_frag] is the DocumentFragment made by
    [new]; while the list is rendered it is kept in [render]'s [stored_fragment]. *)
Record dlist := mkDL {
  dl_items : list (key * stored);
  dl_cont : cnode;
  dl_start : node;
  dl_end : node;
  dl_frag : node;
  dl_dead : list stored     (* removed items whose future the executor has not dropped yet *)
}.

(** the document and the list [dynamic_list.rs:52-63] *)
Record lworld := mkLW { lw_r : rstate; lw_l : dlist }.

(** record update: the document changes, the groups (context.rs:29) do not *)
Definition with_dom (r : rstate) (d : dom) : rstate := mkR d (rgrp r).

(** HashMap get / insert / remove [std, on `items` of dynamic_list.rs:52-63] *)
Fixpoint hm_get (k : key) (m : list (key * stored)) : option stored :=
  match m with
  | [] => None
  | (k', v) :: t => if Nat.eqb k' k then Some v else hm_get k t
  end.
(** HashMap::remove on `items` (dynamic_list.rs:61-64) *)
Definition hm_remove (k : key) (m : list (key * stored)) : list (key * stored) :=
  filter (fun e => negb (Nat.eqb (fst e) k)) m.
(** HashMap::insert on `items` [dynamic_list.rs:88-104] *)
Definition hm_insert (k : key) (v : stored) (m : list (key * stored)) : list (key * stored) :=
  (k, v) :: hm_remove k m.

(** a panic ends the operation [std] *)
Definition obind {A B} (o : option A) (f : A -> option B) : option B :=
  match o with None => None | Some x => f x end.

(** dynamic_list.rs:88-104 [new] *)
Definition dl_new (r : rstate) (fr s e : node) : option lworld :=
  obind (insert_before (rdom r) fr s None) (fun d1 =>
  obind (insert_before d1 fr e None) (fun d2 =>
  Some (mkLW (with_dom r d2) (mkDL [] (Fake fr) s e fr [])))).

(** the reference node: [before.map(|k| &items.get(k).unwrap().start_marker)
    .unwrap_or(&list_end_marker)] (dynamic_list.rs:127-129, 217-219) *)
Definition ref_node (l : dlist) (before : option key) : option node :=
  match before with
  | None => Some (dl_end l)
  | Some k => match hm_get k (dl_items l) with
              | None => None                       (* unwrap panics *)
              | Some st => Some (st_s st)
              end
  end.

(** record update: `items` and the futures still to be dropped [dynamic_list.rs:88-104] *)
Definition set_items (l : dlist) (m : list (key * stored)) (dead : list stored) : dlist :=
  mkDL m (dl_cont l) (dl_start l) (dl_end l) (dl_frag l) dead.
(** record update: `containing_node` (dynamic_list.rs:63) *)
Definition set_cont (l : dlist) (c : cnode) : dlist :=
  mkDL (dl_items l) c (dl_start l) (dl_end l) (dl_frag l) (dl_dead l).

(** dynamic_list.rs:149-151, 178-180, 284-285: remove the two markers *)
Definition remove_markers (d : dom) (cont : node) (st : stored) : option dom :=
  obind (remove_child d cont (st_s st)) (fun d1 => remove_child d1 cont (st_e st)).

(** dynamic_list.rs:122-159 [insert]; [st] holds the new markers and group *)
Definition dl_insert (w : lworld) (k : key) (before : option key) (st : stored)
  : option (bool * lworld) :=
  let l := lw_l w in
  let cont := cget (dl_cont l) in
  obind (ref_node l before) (fun after =>
  obind (insert_before (rdom (lw_r w)) cont (st_e st) (Some after)) (fun d1 =>
  obind (insert_before d1 cont (st_s st) (Some (st_e st))) (fun d2 =>
  match hm_get k (dl_items l) with
  | Some old =>
      obind (remove_markers d2 cont old) (fun d3 =>
      Some (true, mkLW (with_dom (lw_r w) d3)
                       (set_items l (hm_insert k st (dl_items l)) (old :: dl_dead l))))
  | None =>
      Some (false, mkLW (with_dom (lw_r w) d2)
                        (set_items l (hm_insert k st (dl_items l)) (dl_dead l)))
  end))).

(** dynamic_list.rs:166-186 [remove] *)
Definition dl_remove (w : lworld) (k : key) : option (bool * lworld) :=
  let l := lw_l w in
  match hm_get k (dl_items l) with
  | Some old =>
      obind (remove_markers (rdom (lw_r w)) (cget (dl_cont l)) old) (fun d =>
      Some (true, mkLW (with_dom (lw_r w) d)
                       (set_items l (hm_remove k (dl_items l)) (old :: dl_dead l))))
  | None => Some (false, w)
  end.

(** dynamic_list.rs:191-200 [contains_key] *)
Definition dl_contains (w : lworld) (k : key) : bool :=
  match hm_get k (dl_items (lw_l w)) with Some _ => true | None => false end.

(** dynamic_list.rs:351-366 [move_nodes_before].  [fuel] bounds the loop; running
    out is [None]. *)
Fixpoint move_nodes (fuel : nat) (d : dom) (cont n endm : node) (after : option node)
  : option dom :=
  match fuel with
  | O => None
  | S fuel' =>
      let next := dom_next_sibling d n in
      obind (insert_before d cont n after) (fun d1 =>
      if Nat.eqb endm n then Some d1
      else match next with
           | None => None                          (* next_node.unwrap() *)
           | Some n' => move_nodes fuel' d1 cont n' endm after
           end)
  end.

(** as many steps as the list's container has children are enough
    [dynamic_list.rs:351-366] *)
Definition move_nodes_before (d : dom) (l : dlist) (cont s e : node) (after : option node)
  : option dom :=
  move_nodes (S (length (kids d (cget (dl_cont l))))) d cont s e after.

(** dynamic_list.rs:211-228 [move_before] *)
Definition dl_move (w : lworld) (k : key) (before : option key) : option lworld :=
  let l := lw_l w in
  obind (ref_node l before) (fun after =>
  obind (hm_get k (dl_items l)) (fun st =>
  obind (move_nodes_before (rdom (lw_r w)) l (cget (dl_cont l)) (st_s st) (st_e st) (Some after))
    (fun d => Some (mkLW (with_dom (lw_r w) d) l)))).

(** dynamic_list.rs:237-262 [swap] *)
Definition dl_swap (w : lworld) (k1 k2 : key) : option lworld :=
  let l := lw_l w in
  obind (hm_get k1 (dl_items l)) (fun st1 =>
  obind (hm_get k2 (dl_items l)) (fun st2 =>
  if Nat.eqb k1 k2 then Some w
  else
    let cont := cget (dl_cont l) in
    let after1 := dom_next_sibling (rdom (lw_r w)) (st_e st1) in
    obind (move_nodes_before (rdom (lw_r w)) l cont (st_s st1) (st_e st1) (Some (st_s st2))) (fun d1 =>
    obind (move_nodes_before d1 l cont (st_s st2) (st_e st2) after1) (fun d2 =>
    Some (mkLW (with_dom (lw_r w) d2) l))))).

(** dynamic_list.rs:274-289 [retain]: HashMap::retain visits the entries in an
    arbitrary order (here that of the association list) *)
Fixpoint retain_loop (d : dom) (cont : node) (keep : key -> bool) (m : list (key * stored))
  : option (dom * list (key * stored) * list stored) :=
  match m with
  | [] => Some (d, [], [])
  | (k, st) :: t =>
      if keep k then
        obind (retain_loop d cont keep t) (fun '(d', m', dead) => Some (d', (k, st) :: m', dead))
      else
        obind (remove_markers d cont st) (fun d1 =>
        obind (retain_loop d1 cont keep t) (fun '(d', m', dead) => Some (d', m', st :: dead)))
  end.
(** dynamic_list.rs:274-289 [retain], the whole call *)
Definition dl_retain (w : lworld) (keep : key -> bool) : option lworld :=
  let l := lw_l w in
  obind (retain_loop (rdom (lw_r w)) (cget (dl_cont l)) keep (dl_items l)) (fun '(d, m, dead) =>
  Some (mkLW (with_dom (lw_r w) d) (set_items l m (dead ++ dl_dead l)))).

(** dynamic_list.rs:294-328 [render], up to running the executor, in context [c].
    The marker future is a ContainerNodeFuture (node_container.rs) polled once and
    dropped (no drop is in progress, so it detaches). *)
Definition dl_render (w : lworld) (c : ctx) : option lworld :=
  let l := lw_l w in
  obind (add_child c pos_default (dl_start l) (lw_r w)) (fun r1 =>
  obind (par (rdom r1) (dl_start l)) (fun real =>
  obind (insert_before (rdom r1) real (dl_end l) (Some (dl_start l))) (fun d2 =>
  obind (remove_child_ctx c pos_default (with_dom r1 d2)) (fun r3 =>
  obind (insert_before (rdom r3) real (dl_start l) (Some (dl_end l))) (fun d4 =>
  match dl_cont l with
  | Real _ => None                                (* panic! *)
  | Fake f =>
      obind (insert_before d4 real f (Some (dl_end l))) (fun d5 =>
      Some (mkLW (with_dom r3 d5) (set_cont l (Real real))))
  end))))).

(** dynamic_list.rs:329-339: the scope guard, when the render future is dropped *)
Definition dl_unrender (w : lworld) : option lworld :=
  let l := lw_l w in
  obind (move_nodes_before (rdom (lw_r w)) l (dl_frag l) (dl_start l) (dl_end l) None) (fun d =>
  Some (mkLW (with_dom (lw_r w) d) (set_cont l (Fake (dl_frag l))))).

(** the list's executor polls an item: node_sibling.rs:40-52, the item renders or
    removes something at a path inside its Sibling context; [c] is the context the
    list is rendered in *)
Definition dl_item (w : lworld) (c : ctx) (k : key) (o : rop) : option lworld :=
  let l := lw_l w in
  match hm_get k (dl_items l) with
  | None => Some w
  | Some st =>
      obind (exec (CSibling c (st_g st) (st_e st)) (lw_r w) o) (fun r => Some (mkLW r l))
  end.

(** the executor drops the future of the [i]-th removed item: node_sibling.rs:54-69 *)
Definition dl_reap (w : lworld) (c : ctx) (i : nat) : option lworld :=
  let l := lw_l w in
  match nth_error (dl_dead l) i with
  | None => Some w
  | Some st =>
      obind (remove_child_ctx (CSibling c (st_g st) (st_e st)) pos_default (lw_r w)) (fun r =>
      Some (mkLW r (set_items l (dl_items l) (firstn i (dl_dead l) ++ skipn (S i) (dl_dead l)))))
  end.
