(** Model of UI trees that contain DynamicLists at any depth: ContainerNodeFuture,
    the combinators, async blocks, [DynamicList::render], the list's executor
    polling and dropping items (SiblingNodeFuture), and local DynamicList objects
    with their drop.

    As in Ui.v, what user code does during a poll is a schedule ([usched]); the
    theorems quantify over schedules.  Lists are objects of the state, named by a
    [lid], so that any code may call their methods at any point of a poll.

    Simplifications: element contents are not modelled; keys are numbers; the
    identities of new nodes, groups, fragments and lists are given by the
    schedule (the theorems require them to be new); the address of a
    DetachmentBlocker is the pair of the task whose future it is stored in (tasks
    are separate heap allocations, so blockers of different tasks have different
    addresses) and an arbitrary number; borrow checking is not modelled: a
    program that drops a rendered list or uses a dropped one gets [Bad Dangling]. *)
From Coq Require Import List Arith NArith Bool.
From Verif Require Import Position Dom Context Spec_path Spec_list Render_history DynList Calls Ui.
Import ListNotations.

(** names a DynamicList object (dynamic_list.rs:53) *)
Notation lid := nat (only parsing).

(** UI futures.  [UList l r]: the future of [l.render()] (dynamic_list.rs:294), [r]
    says whether its first poll has happened.  [UOwn l a f]: an async block with a
    local variable holding the list [l], awaiting [f]; [a] is the address of the
    list's own DetachmentBlocker (dynamic_list.rs:58). *)
Inductive ufut :=
| ULeaf
| UElem (n : node) (g : gid) (a : addr) (m : addmode) (child : ufut)
| UComb (a : addr) (children : list ufut)
| UBlock (cur : ufut)
| UList (l : lid) (r : bool)
| UOwn (l : lid) (a : addr) (f : ufut).

(** calls of the list's methods (dynamic_list.rs:122-289); [insert] comes with the
    new markers and group, and the address of the new SiblingNodeFuture's blocker *)
Inductive uop :=
| OInsert (k : key) (before : option key) (st : stored) (a : addr) (f : ufut)
| ORemove (k : key)
| OMove (k : key) (before : option key)
| OSwap (k1 k2 : key)
| ORetain (keep : key -> bool).

(** what happens during a poll (given by the program, any waker and any executor) *)
Inductive usched :=
| KNone                                   (* nothing below is polled *)
| KElem (s : usched)
| KComb (l : list (nat * usched))         (* children polled, in this order *)
| KBlock (l : list uaction)
| KList (l : list laction)                (* the list's executor runs (dynamic_list.rs:340) *)
| KOwn (s : usched)
with uaction :=
| AWait (s : usched)                      (* the awaited future is polled *)
| AReplace (f : ufut)                     (* it is dropped, [f] is awaited next *)
| ANew (l : lid) (a : addr) (s e fr : node) (f : ufut)
                                          (* it is dropped, a list is created and [f] is awaited with the list in scope *)
| ACall (l : lid) (o : uop)               (* a list method is called *)
with laction :=
| LPoll (k : key) (s : usched)            (* the executor polls the item [k] *)
| LDone (k : key)                         (* the item's future has completed: the executor drops it *)
| LReap (i : nat).                        (* the executor drops the future of a removed item *)

(** node_sibling.rs:20-26 [struct SiblingNodeFuture] *)
Record sib := mkSib { sb_g : gid; sb_ref : node; sb_a : addr; sb_f : ufut }.

(** a list object: the fields of DynList.v, the futures in the executor (dynamic_list.rs:55;
    a future that is being polled at the moment is not in the table), and, for
    the statements only, the order of keys its callers asked for *)
Record lobj := mkLO { lo_l : dlist; lo_keys : list key; lo_futs : list sib }.

(** document and groups; the live lists; [IS_DROPPING] (dropping.rs:14-21) *)
Record uworld := mkUW { u_r : rstate; u_ls : list (lid * lobj); u_drop : option (gid * addr) }.

(** record update: the document (written through web_sys, context.rs:40-120) *)
Definition w_r (w : uworld) (r : rstate) : uworld := mkUW r (u_ls w) (u_drop w).
(** record update: the list objects (RefCells of dynamic_list.rs:53-71) *)
Definition w_ls (w : uworld) (ls : list (lid * lobj)) : uworld := mkUW (u_r w) ls (u_drop w).
(** record update: IS_DROPPING (dropping.rs:14-21) *)
Definition w_drop (w : uworld) (b : option (gid * addr)) : uworld := mkUW (u_r w) (u_ls w) b.

(** How a program can misuse a list.  Each is shown to break something (a panic
    or a wrong document) in Props_uilist.v, or is excluded by Rust's borrow rules. *)
Inductive misuse :=
| UnknownKey        (* a key that is not in the list: documented panics *)
| AdjacentSwap      (* swap of a key with the one right after it (see C29) *)
| BeforeItself      (* move of a key before itself (see C30) *)
| RenderedTwice     (* the list is already rendered somewhere: documented panic *)
| StaleList         (* a method called while the list's nodes are not in the node it remembers *)
| RemovedItem       (* an item that was removed renders at its end *)
| Dangling.         (* use after drop, or drop while rendered: rejected by rustc *)

(** the outcome of a poll; an [unwrap_throw] (context.rs:69) or other panic is [Panic] *)
Inductive res (A : Type) := Ok (x : A) | Panic | Bad (m : misuse) | NoFuel.
Arguments Ok {A} _.
Arguments Panic {A}.
Arguments Bad {A} _.
Arguments NoFuel {A}.

(** a panic (or misuse) ends the poll (no catch_unwind in /repo; executor.rs:60-80) *)
Definition rbind {A B} (x : res A) (f : A -> res B) : res B :=
  match x with Ok a => f a | Panic => Panic | Bad m => Bad m | NoFuel => NoFuel end.

(** an unwrap, for example the [unwrap_throw] of context.rs:69 *)
Definition of_opt {A} (o : option A) : res A := match o with Some a => Ok a | None => Panic end.

(** ** the table of lists *)
(** the list object a reference [&DynamicList] points to (dynamic_list.rs:53) *)
Fixpoint get_l (l : lid) (ls : list (lid * lobj)) : option lobj :=
  match ls with
  | [] => None
  | (l', o) :: t => if Nat.eqb l' l then Some o else get_l l t
  end.
(** interior mutation of one list object (its RefCells, dynamic_list.rs:53-71) *)
Definition set_l (l : lid) (o : lobj) (ls : list (lid * lobj)) : list (lid * lobj) :=
  map (fun e => if Nat.eqb (fst e) l then (l, o) else e) ls.
(** the list object is freed (after dynamic_list.rs:344-348) *)
Definition del_l (l : lid) (ls : list (lid * lobj)) : list (lid * lobj) :=
  filter (fun e => negb (Nat.eqb (fst e) l)) ls.

(** the future of the task [g] in the executor's table (dynamic_list.rs:55) *)
Fixpoint get_sib (g : gid) (fs : list sib) : option sib :=
  match fs with
  | [] => None
  | s :: t => if Nat.eqb (sb_g s) g then Some s else get_sib g t
  end.
(** the executor takes the future out to poll or drop it (dynamic_list.rs:340) *)
Definition del_sib (g : gid) (fs : list sib) : list sib :=
  filter (fun s => negb (Nat.eqb (sb_g s) g)) fs.

(** ** dropping.rs:35-57 *)
Definition ublock (b : gid * addr) (w : uworld) : bool * uworld :=
  match u_drop w with
  | None => (false, w_drop w (Some b))
  | Some _ => (true, w)
  end.
(** dropping.rs:47-57 [impl Drop for DetachmentBlocker] *)
Definition uunblock (b : gid * addr) (w : uworld) : uworld :=
  match u_drop w with
  | Some (g, a) => if Nat.eqb g (fst b) && Nat.eqb a (snd b) then w_drop w None else w
  | None => w
  end.

(** [DOM_CONTEXT.with(|ctx| ctx.remove_child(default))] (node_container.rs:82-86) *)
Definition udetach (c : option ctx) (w : uworld) : res uworld :=
  match c with
  | None => Panic
  | Some c => rbind (of_opt (remove_child_ctx c pos_default (u_r w))) (fun r => Ok (w_r w r))
  end.

(** dynamic_list.rs:329-339: the guard of [render].  The loop visits the siblings
    from the start marker on: as many steps as its parent has children suffice *)
Definition u_unrender (l : lid) (w : uworld) : res uworld :=
  match get_l l (u_ls w) with
  | None => Bad Dangling
  | Some o =>
      let d := rdom (u_r w) in let dl := lo_l o in
      let fuel := match par d (dl_start dl) with
                  | Some q => S (length (kids d q)) | None => 1 end in
      rbind (of_opt (move_nodes fuel d (dl_frag dl) (dl_start dl) (dl_end dl) None)) (fun d' =>
      Ok (w_ls (w_r w (with_dom (u_r w) d'))
            (set_l l (mkLO (set_cont dl (Fake (dl_frag dl))) (lo_keys o) (lo_futs o)) (u_ls w))))
  end.

(** drop glue of several values, in order (children of combinators/common/array.rs:213-233,
    tasks of dynamic_list.rs:55) *)
Fixpoint drop_seq {A} (f : A -> uworld -> res uworld) (l : list A) (w : uworld) : res uworld :=
  match l with
  | [] => Ok w
  | x :: t => rbind (f x w) (drop_seq f t)
  end.

(** node_sibling.rs:54-69, then the fields: child_future, group, reference, drop;
    [dr] drops the child_future *)
Definition drop_sib (dr : ufut -> uworld -> res uworld) (c : option ctx) (s : sib) (w : uworld)
  : res uworld :=
  let (blocked, w1) := ublock (sb_g s, sb_a s) w in
  rbind (if blocked then Ok w1
         else match c with
              | None => Panic
              | Some cx => rbind (of_opt (remove_child_ctx (CSibling cx (sb_g s) (sb_ref s))
                                            pos_default (u_r w1))) (fun r => Ok (w_r w1 r))
              end) (fun w2 =>
  rbind (dr (sb_f s) w2) (fun w3 => Ok (uunblock (sb_g s, sb_a s) w3))).

(** Drop glue of a UI future in task [h].
    UElem: node_container.rs:77-97; UComb: combinators/common/array.rs:213-233.
    UList: the guard of [render] (dynamic_list.rs:329-339) if it was polled.
    UOwn: the awaited future is dropped, then the list: dynamic_list.rs:344-348,
    then its fields: the tasks are cancelled, and the executor drops all futures
    (in an order that is not specified; here that of the table), the blocker last.
    [fuel] bounds the nesting of lists inside stored items. *)
Fixpoint udrop_fut (fuel : nat) (h : gid) (f : ufut) (c : option ctx) (w : uworld) {struct fuel}
  : res uworld :=
  match fuel with
  | O => NoFuel
  | S fuel' =>
      match f with
      | ULeaf => Ok w
      | UElem n g a m ch =>
          rbind (match m with
                 | Added => let (blocked, w1) := ublock (h, a) w in
                            if blocked then Ok w1 else udetach c w1
                 | _ => udetach (Some (CContainer g n)) w
                 end) (fun w2 =>
          rbind (udrop_fut fuel' h ch c w2) (fun w3 => Ok (uunblock (h, a) w3)))
      | UComb a cs =>
          let (blocked, w1) := ublock (h, a) w in
          rbind (if blocked then Ok w1 else udetach c w1) (fun w2 =>
          rbind (drop_seq (fun f => udrop_fut fuel' h f c) cs w2) (fun w3 => Ok (uunblock (h, a) w3)))
      | UBlock cur => udrop_fut fuel' h cur c w
      | UList l r => if r then u_unrender l w else Ok w
      | UOwn l a f' =>
          rbind (udrop_fut fuel' h f' c w) (fun w1 =>
          match get_l l (u_ls w1) with
          | None => Bad Dangling
          | Some o =>
              match dl_cont (lo_l o) with
              | Real _ => Bad Dangling
              | Fake _ =>
                  let (_, w2) := ublock (h, a) w1 in
                  rbind (drop_seq (fun s => drop_sib (fun f w => udrop_fut fuel' (sb_g s) f c w) c s)
                           (lo_futs o)
                           (w_ls w2 (set_l l (mkLO (lo_l o) (lo_keys o) []) (u_ls w2)))) (fun w3 =>
                  Ok (uunblock (h, a) (w_ls w3 (del_l l (u_ls w3)))))
              end
          end)
      end
  end.

(** is [g] the group of a current item of some list (dynamic_list.rs:62 [items]) *)
Definition live_item (g : gid) (ls : list (lid * lobj)) : bool :=
  existsb (fun e => existsb (fun i => Nat.eqb (st_g (snd i)) g) (dl_items (lo_l (snd e)))) ls.

(** would a node rendered at [p] in context [c] be inserted before the end marker of
    a removed item (context.rs:62-70, dynamic_list.rs:180) *)
Fixpoint lost_ref (c : ctx) (p : pos) (w : uworld) : bool :=
  match c with
  | CContainer _ _ => false
  | CChild parent i => lost_ref parent (wrap p i) w
  | CSibling _ g _ =>
      match range_from_first p (rgrp (u_r w) g) with
      | Some _ => false
      | None => negb (live_item g (u_ls w))
      end
  end.

(** node_container.rs:61-74 first lines of [poll] *)
Definition uadd_self (n : node) (m : addmode) (c : option ctx) (w : uworld) : res (addmode * uworld) :=
  match m with
  | ShouldAdd =>
      match c with
      | None => Panic
      | Some c => if lost_ref c pos_default w then Bad RemovedItem
                  else rbind (of_opt (add_child c pos_default n (u_r w))) (fun r => Ok (Added, w_r w r))
      end
  | _ => Ok (m, w)
  end.

(** the node in which the list's markers are is the one it remembers
    (dynamic_list.rs:63 [containing_node]) *)
Definition in_place (w : uworld) (dl : dlist) : bool :=
  match par (rdom (u_r w)) (dl_start dl) with
  | Some q => Nat.eqb q (cget (dl_cont dl))
  | None => false
  end.

(** ghost: the order of keys the caller asks for with the methods of dynamic_list.rs:122-289 *)
Definition op_keys (o : uop) (ks : list key) : list key :=
  match o with
  | OInsert k b _ _ _ => l_insert k b ks
  | ORemove k => l_remove k ks
  | OMove k b => l_insert k b ks
  | OSwap a b => l_swap a b ks
  | ORetain f => filter f ks
  end.

(** a key given by the caller exists (else the unwraps of dynamic_list.rs:122-260 panic) *)
Definition okey (b : option key) (ks : list key) : bool :=
  match b with None => true | Some k => memb k ks end.

(** the method itself (dynamic_list.rs:122-289) *)
Definition op_run (o : uop) (w : lworld) : option lworld :=
  match o with
  | OInsert k b st _ _ => option_map snd (dl_insert w k b st)
  | ORemove k => option_map snd (dl_remove w k)
  | OMove k b => dl_move w k b
  | OSwap a b => dl_swap w a b
  | ORetain f => dl_retain w f
  end.

(** the new task, if any (dynamic_list.rs:137-139) *)
Definition op_spawn (o : uop) : list sib :=
  match o with
  | OInsert _ _ st a f => [mkSib (st_g st) (st_e st) a f]
  | _ => []
  end.

(** misuses that the arguments of dynamic_list.rs:122-289 show *)
Definition op_bad (o : uop) (ks : list key) : option misuse :=
  match o with
  | OInsert _ b _ _ _ => if okey b ks then None else Some UnknownKey
  | ORemove _ | ORetain _ => None
  | OMove k b =>
      if memb k ks && okey b ks
      then match b with Some b => if Nat.eqb b k then Some BeforeItself else None | None => None end
      else Some UnknownKey
  | OSwap a b =>
      if memb a ks && memb b ks
      then if adjacentb a b ks then Some AdjacentSwap else None
      else Some UnknownKey
  end.

(** a call of a list method (dynamic_list.rs:122-289) during a poll *)
Definition list_call (l : lid) (o : uop) (w : uworld) : res uworld :=
  match get_l l (u_ls w) with
  | None => Bad Dangling
  | Some ob =>
      if in_place w (lo_l ob) then
        match op_bad o (lo_keys ob) with
        | Some m => Bad m
        | None =>
            rbind (of_opt (op_run o (mkLW (u_r w) (lo_l ob)))) (fun w' =>
            Ok (mkUW (lw_r w')
                 (set_l l (mkLO (lw_l w') (op_keys o (lo_keys ob)) (op_spawn o ++ lo_futs ob)) (u_ls w))
                 (u_drop w)))
        end
      else Bad StaleList
  end.

(** dynamic_list.rs:88-104 [new] *)
Definition list_new (l : lid) (s e fr : node) (w : uworld) : res uworld :=
  match get_l l (u_ls w) with
  | Some _ => Bad Dangling
  | None => rbind (of_opt (dl_new (u_r w) fr s e)) (fun w' =>
            Ok (mkUW (lw_r w') ((l, mkLO (lw_l w') [] []) :: u_ls w) (u_drop w)))
  end.

(** dynamic_list.rs:294-328, first poll of [render] *)
Definition list_render (l : lid) (c : ctx) (w : uworld) : res uworld :=
  match get_l l (u_ls w) with
  | None => Bad Dangling
  | Some o =>
      match dl_cont (lo_l o) with
      | Real _ => Bad RenderedTwice
      | Fake _ =>
          if lost_ref c pos_default w then Bad RemovedItem
          else rbind (of_opt (dl_render (mkLW (u_r w) (lo_l o)) c)) (fun w' =>
               Ok (mkUW (lw_r w') (set_l l (mkLO (lw_l w') (lo_keys o) (lo_futs o)) (u_ls w)) (u_drop w)))
      end
  end.

(** the executor takes the future of task [g] of list [l] out of its table
    (dynamic_list.rs:340) *)
Definition take_sib (l : lid) (o : lobj) (g : gid) (w : uworld) : uworld :=
  w_ls w (set_l l (mkLO (lo_l o) (lo_keys o) (del_sib g (lo_futs o))) (u_ls w)).
(** and puts it back after the poll (dynamic_list.rs:340; the list is still there: it is
    being rendered) *)
Definition put_sib (l : lid) (s : sib) (w : uworld) : res uworld :=
  match get_l l (u_ls w) with
  | None => Bad Dangling
  | Some o => Ok (w_ls w (set_l l (mkLO (lo_l o) (lo_keys o) (s :: lo_futs o)) (u_ls w)))
  end.
(** the task of a removed item is gone (its [Task] was dropped at dynamic_list.rs:166-186) *)
Definition rm_dead (l : lid) (g : gid) (w : uworld) : res uworld :=
  match get_l l (u_ls w) with
  | None => Bad Dangling
  | Some o => Ok (w_ls w (set_l l (mkLO (set_items (lo_l o) (dl_items (lo_l o))
                     (filter (fun st => negb (Nat.eqb (st_g st) g)) (dl_dead (lo_l o))))
                     (lo_keys o) (lo_futs o)) (u_ls w)))
  end.

(** One poll of [f], a future of task [h], in context [c] (None = DOM_CONTEXT not
    set), following a schedule; a schedule that does not fit does nothing.
    UElem: node_container.rs:61-74.  UComb: combinators/common/array.rs:152-167.
    UList: dynamic_list.rs:294-341; items are polled by the list's executor inside
    the context of [render], node_sibling.rs:41-51.  [fuel] is for drops. *)
Fixpoint upoll (fuel : nat) (s : usched) (h : gid) (f : ufut) (c : option ctx) (w : uworld)
  : res (ufut * uworld) :=
  match s with
  | KNone => Ok (f, w)
  | KElem s' =>
      match f with
      | UElem n g a m ch =>
          rbind (uadd_self n m c w) (fun '(m', w1) =>
          rbind (upoll fuel s' h ch (Some (CContainer g n)) w1) (fun '(ch', w2) =>
          Ok (UElem n g a m' ch', w2)))
      | _ => Ok (f, w)
      end
  | KComb l =>
      match f with
      | UComb a cs =>
          rbind ((fix go (l : list (nat * usched)) (cs : list ufut) (w : uworld)
                    : res (list ufut * uworld) :=
                    match l with
                    | [] => Ok (cs, w)
                    | (i, s') :: t =>
                        match nth_error cs i, c with
                        | Some ch, Some cx =>
                            rbind (upoll fuel s' h ch (Some (CChild cx (N.of_nat i))) w) (fun '(ch', w') =>
                            go t (set_nth i ch' cs) w')
                        | Some _, None => Panic
                        | None, _ => go t cs w
                        end
                    end) l cs w) (fun '(cs', w') => Ok (UComb a cs', w'))
      | _ => Ok (f, w)
      end
  | KBlock l =>
      match f with
      | UBlock cur =>
          rbind ((fix go (l : list uaction) (cur : ufut) (w : uworld) : res (ufut * uworld) :=
                    match l with
                    | [] => Ok (cur, w)
                    | AWait s' :: t =>
                        rbind (upoll fuel s' h cur c w) (fun '(cur', w') => go t cur' w')
                    | AReplace f' :: t =>
                        rbind (udrop_fut fuel h cur c w) (fun w' => go t f' w')
                    | ANew l' a s e fr f' :: t =>
                        rbind (udrop_fut fuel h cur c w) (fun w1 =>
                        rbind (list_new l' s e fr w1) (fun w2 => go t (UOwn l' a f') w2))
                    | ACall l' o :: t =>
                        rbind (list_call l' o w) (fun w' => go t cur w')
                    end) l cur w) (fun '(cur', w') => Ok (UBlock cur', w'))
      | _ => Ok (f, w)
      end
  | KOwn s' =>
      match f with
      | UOwn l a f' => rbind (upoll fuel s' h f' c w) (fun '(f'', w') => Ok (UOwn l a f'', w'))
      | _ => Ok (f, w)
      end
  | KList acts =>
      match f with
      | UList l r =>
          match c with
          | None => Panic
          | Some cx =>
              rbind (if r then Ok w else list_render l cx w) (fun w0 =>
              rbind ((fix go (acts : list laction) (w : uworld) : res uworld :=
                        match acts with
                        | [] => Ok w
                        | act :: t =>
                            rbind (match get_l l (u_ls w) with
                                   | None => Bad Dangling
                                   | Some o =>
                                     match act with
                                     | LPoll k s' =>
                                         match hm_get k (dl_items (lo_l o)) with
                                         | None => Ok w
                                         | Some st =>
                                             match get_sib (st_g st) (lo_futs o) with
                                             | None => Ok w
                                             | Some sb =>
                                                 rbind (upoll fuel s' (sb_g sb) (sb_f sb)
                                                   (Some (CSibling cx (sb_g sb) (sb_ref sb)))
                                                   (take_sib l o (sb_g sb) w)) (fun '(f', w') =>
                                                 put_sib l (mkSib (sb_g sb) (sb_ref sb) (sb_a sb) f') w')
                                             end
                                         end
                                     | LDone k =>
                                         match hm_get k (dl_items (lo_l o)) with
                                         | None => Ok w
                                         | Some st =>
                                             match get_sib (st_g st) (lo_futs o) with
                                             | None => Ok w
                                             | Some sb =>
                                                 rbind (drop_sib (fun f w => udrop_fut fuel (sb_g sb) f c w) c sb
                                                          (take_sib l o (sb_g sb) w)) (fun w' =>
                                                 put_sib l (mkSib (sb_g sb) (sb_ref sb) (sb_a sb) ULeaf) w')
                                             end
                                         end
                                     | LReap i =>
                                         match nth_error (dl_dead (lo_l o)) i with
                                         | None => Ok w
                                         | Some st =>
                                             match get_sib (st_g st) (lo_futs o) with
                                             | None => Ok w
                                             | Some sb =>
                                                 rbind (drop_sib (fun f w => udrop_fut fuel (sb_g sb) f c w) c sb
                                                          (take_sib l o (sb_g sb) w)) (fun w' =>
                                                 rm_dead l (sb_g sb) w')
                                             end
                                         end
                                     end
                                   end) (go t)
                        end) acts w0) (fun w' => Ok (UList l true, w')))
          end
      | _ => Ok (f, w)
      end
  end.

(** mount.rs:23-28 [mount_at]: a ContainerNodeFuture::new_root; [g] also names its task *)
Definition umount (root : node) (g : gid) (a : addr) (child : ufut) : ufut :=
  UElem root g a ShouldNotAdd child.

(** successive polls of the mounted application by the executor (mount.rs:23-28,
    executor.rs); DOM_CONTEXT is not set *)
Fixpoint upoll_root (fuel : nat) (h : gid) (l : list usched) (f : ufut) (w : uworld)
  : res (ufut * uworld) :=
  match l with
  | [] => Ok (f, w)
  | s :: t => rbind (upoll fuel s h f None w) (fun '(f', w') => upoll_root fuel h t f' w')
  end.
