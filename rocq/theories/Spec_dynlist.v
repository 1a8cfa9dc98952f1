(** Specification of a DynamicList in a document. *)
From Coq Require Import List Arith NArith Bool Sorting.Sorted Sorting.Permutation.
(** Specification of a DynamicList in a document: histories, what each operation
    means for the abstract order of keys, and what the document should show. *)
From Verif Require Import Position Dom Context Spec_path Spec_render Render_history Spec_list DynList.
Import ListNotations.

Inductive lop :=
| LInsert (k : key) (before : option key) (fresh : stored)
| LRemove (k : key)
| LMove (k : key) (before : option key)
| LSwap (a b : key)
| LRetain (keep : key -> bool)
| LItem (c : ctx) (k : key) (o : rop)   (* the item renders or removes something *)
| LReap (c : ctx) (i : nat)             (* the executor drops a removed item *)
| LRender (c : ctx)
| LUnrender
| LEnv (r : rstate).                    (* the rest of the page changes *)

Definition noret (o : option lworld) : option (lworld * option bool) :=
  match o with None => None | Some w => Some (w, None) end.
Definition yesret (o : option (bool * lworld)) : option (lworld * option bool) :=
  match o with None => None | Some (b, w) => Some (w, Some b) end.

Definition lexec (w : lworld) (o : lop) : option (lworld * option bool) :=
  match o with
  | LInsert k b st => yesret (dl_insert w k b st)
  | LRemove k => yesret (dl_remove w k)
  | LMove k b => noret (dl_move w k b)
  | LSwap a b => noret (dl_swap w a b)
  | LRetain f => noret (dl_retain w f)
  | LItem c k o => noret (dl_item w c k o)
  | LReap c i => noret (dl_reap w c i)
  | LRender c => noret (dl_render w c)
  | LUnrender => noret (dl_unrender w)
  | LEnv r => Some (mkLW r (lw_l w), None)
  end.

(** meaning for the order of the keys, and the value returned *)
Definition astep (ks : list key) (o : lop) : list key :=
  match o with
  | LInsert k b _ => l_insert k b ks
  | LRemove k => l_remove k ks
  | LMove k b => l_insert k b ks
  | LSwap a b => l_swap a b ks
  | LRetain f => filter f ks
  | _ => ks
  end.
Definition aret (ks : list key) (o : lop) : option bool :=
  match o with
  | LInsert k _ _ => Some (memb k ks)
  | LRemove k => Some (memb k ks)
  | _ => None
  end.

(** what each item shows, after an operation: an item starts empty, then renders
    and removes things at its own combinator paths *)
Definition contents := key -> list (path * nat).
Definition cstep (ks : list key) (al : contents) (o : lop) : contents :=
  match o with
  | LInsert k _ _ => upd al k []
  | LItem _ k o => if memb k ks then upd al k (live_step (al k) o) else al
  | _ => al
  end.

(** [shows w al m ks]: the nodes [m] are those of the items [ks] in order; an item
    is its start marker, what it renders in the order of its paths, and its end
    marker.  Content of removed items that the executor did not drop yet may
    stand between items *)
Inductive shows (w : lworld) (al : contents) : list node -> list key -> Prop :=
| shows_nil : shows w al [] []
| shows_dead : forall st m ks, In st (dl_dead (lw_l w)) -> shows w al m ks ->
    shows w al (map snd (rgrp (lw_r w) (st_g st)) ++ m) ks
| shows_item : forall k st c m ks, In (k, st) (dl_items (lw_l w)) ->
    Permutation c (al k) -> StronglySorted path_lt (map fst c) ->
    shows w al m ks ->
    shows w al (st_s st :: map snd c ++ st_e st :: m) (k :: ks).

Definition list_groups (l : dlist) : list gid :=
  map (fun e => st_g (snd e)) (dl_items l) ++ map st_g (dl_dead l).

(** a place where the list can be rendered: inside an element or another list's
    item, at a path where nothing is rendered *)
Definition room (w : lworld) (c : ctx) : Prop :=
  exists g cont base p,
    c = ctx_at base p /\ indices_ok p /\ cont <> dl_frag (lw_l w) /\
    (base = CContainer g cont \/
     exists parent r, base = CSibling parent g r /\ containing_node parent = cont /\
        In r (kids (rdom (lw_r w)) cont)) /\
    ~ In g (list_groups (lw_l w)) /\
    StronglySorted path_lt (map (fun e => rev (fst e)) (rgrp (lw_r w) g)) /\
    (forall k n, In (k, n) (rgrp (lw_r w) g) ->
       In n (kids (rdom (lw_r w)) cont) /\ ~ under p (rev k)).

Definition rendered (w : lworld) : Prop := exists n, dl_cont (lw_l w) = Real n.

(** what the caller and the rest of the page have to respect *)
Definition llegal (w : lworld) (ks : list key) (al : contents) (o : lop) : Prop :=
  let r := lw_r w in let d := rdom r in let l := lw_l w in
  match o with
  | LInsert k b st =>
      (forall b', b = Some b' -> In b' ks) /\
      st_s st <> st_e st /\ par d (st_s st) = None /\ par d (st_e st) = None /\
      frag d (st_s st) = false /\ frag d (st_e st) = false /\
      rgrp r (st_g st) = [] /\ ~ In (st_g st) (list_groups l)
  | LMove k b => In k ks /\ (forall b', b = Some b' -> In b' ks /\ b' <> k)
  | LSwap a b => In a ks /\ In b ks /\ ~ adjacent a b ks
  | LItem c k o =>
      dl_cont l = Real (containing_node c) /\
      match o with
      | Render p n =>
          par d n = None /\ frag d n = false /\
          ~ In p (map fst (al k))
      | Unrender p => indices_ok p
      end
  | LReap c i => dl_cont l = Real (containing_node c)
  | LRender c => (exists f, dl_cont l = Fake f) /\ room w c
  | LUnrender => rendered w
  | LEnv r' =>
      dom_wf (rdom r') /\ frag (rdom r') = frag d /\
      kids (rdom r') (dl_frag l) = kids d (dl_frag l) /\
      (forall g, In g (list_groups l) -> rgrp r' g = rgrp r g) /\
      (forall n, dl_cont l = Real n -> exists P m Q P' Q',
          kids d n = P ++ dl_start l :: m ++ dl_end l :: Q /\
          kids (rdom r') n = P' ++ dl_start l :: m ++ dl_end l :: Q')
  | _ => True
  end.

Fixpoint lrun (w : lworld) (ops : list lop) : option (lworld * list (option bool)) :=
  match ops with
  | [] => Some (w, [])
  | o :: t => match lexec w o with
              | None => None
              | Some (w1, b) => match lrun w1 t with
                                | None => None
                                | Some (w2, bs) => Some (w2, b :: bs)
                                end
              end
  end.
Fixpoint legal_lrun (w : lworld) (ks : list key) (al : contents) (ops : list lop) : Prop :=
  match ops with
  | [] => True
  | o :: t => llegal w ks al o /\
      forall w' b, lexec w o = Some (w', b) -> legal_lrun w' (astep ks o) (cstep ks al o) t
  end.
Fixpoint arets (ks : list key) (ops : list lop) : list (option bool) :=
  match ops with [] => [] | o :: t => aret ks o :: arets (astep ks o) t end.

Fixpoint contents_after (ks : list key) (al : contents) (ops : list lop) : contents :=
  match ops with [] => al | o :: t => contents_after (astep ks o) (cstep ks al o) t end.

(** the nodes and fragment of a new list *)
Definition fresh_list (r : rstate) (fr s e : node) : Prop :=
  dom_wf (rdom r) /\ frag (rdom r) fr = true /\ kids (rdom r) fr = [] /\
  s <> e /\ par (rdom r) s = None /\ par (rdom r) e = None /\
  frag (rdom r) s = false /\ frag (rdom r) e = false.

(** [reached r fr s e ops w]: [w] is reached from a new list by the legal history [ops] *)
Definition reached (r : rstate) (fr s e : node) (ops : list lop) (w : lworld) : Prop :=
  fresh_list r fr s e /\ exists w0, dl_new r fr s e = Some w0 /\
    legal_lrun w0 [] (fun _ => []) ops /\ exists bs, lrun w0 ops = Some (w, bs).

(** the abstract list after a history *)
Definition keys_after (ops : list lop) : list key := fold_left astep ops [].

(** operations on the list that do not move the list itself *)
Definition is_edit (o : lop) : Prop :=
  match o with LRender _ | LUnrender | LEnv _ => False | _ => True end.

(** the number of removed items that the executor has not dropped yet *)
Definition pending_step (ks : list key) (n : nat) (o : lop) : nat :=
  match o with
  | LInsert k _ _ => if memb k ks then S n else n       (* the replaced item *)
  | LRemove k => if memb k ks then S n else n
  | LRetain f => length (filter (fun k => negb (f k)) ks) + n
  | LReap _ i => if Nat.ltb i n then pred n else n
  | _ => n
  end.
Fixpoint pending_after (ks : list key) (n : nat) (ops : list lop) : nat :=
  match ops with [] => n | o :: t => pending_after (astep ks o) (pending_step ks n o) t end.

(** like [shows], with nothing between the items *)
Inductive shows_only (w : lworld) (al : contents) : list node -> list key -> Prop :=
| only_nil : shows_only w al [] []
| only_item : forall k st c m ks, In (k, st) (dl_items (lw_l w)) ->
    Permutation c (al k) -> StronglySorted path_lt (map fst c) ->
    shows_only w al m ks ->
    shows_only w al (st_s st :: map snd c ++ st_e st :: m) (k :: ks).
