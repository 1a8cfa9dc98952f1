(** Specification of UI trees with DynamicLists: what the document should show. *)
From Coq Require Import List Arith NArith Bool.
From Verif Require Import Dom Context Ui DynList UiList Spec_list.
Import ListNotations.

(** the elements a future shows directly in the surrounding element, in order *)
Fixpoint uout (f : ufut) : list node :=
  match f with
  | ULeaf | UList _ _ => []
  | UElem n _ _ Added _ => [n]
  | UElem _ _ _ _ _ => []
  | UComb _ cs => flat_map uout cs
  | UBlock c => uout c
  | UOwn _ _ c => uout c
  end.

(** the lists a future shows directly in the surrounding element *)
Fixpoint ulists (f : ufut) : list lid :=
  match f with
  | ULeaf | UElem _ _ _ _ _ => []
  | UList l r => if r then [l] else []
  | UComb _ cs => flat_map ulists cs
  | UBlock c => ulists c
  | UOwn _ _ c => ulists c
  end.

(** elements on screen, with the future running inside *)
Fixpoint ucontainers (f : ufut) : list (node * ufut) :=
  match f with
  | ULeaf | UList _ _ => []
  | UElem n _ _ m ch => match m with ShouldAdd => [] | _ => [(n, ch)] end ++ ucontainers ch
  | UComb _ cs => flat_map ucontainers cs
  | UBlock c => ucontainers c
  | UOwn _ _ c => ucontainers c
  end.

(** all item futures of all lists *)
Definition all_sibs (w : uworld) : list sib := flat_map (fun e => lo_futs (snd e)) (u_ls w).

(** [arranged w els ls m]: the nodes [m] are the elements [els], in this order, and for
    each list of [ls] one contiguous block, in any order and anywhere between the
    elements.

    [block w l m]: the nodes [m] are the list [l]: its start marker, its items in
    the order its callers asked for, its end marker.

    [items w l ks ds m]: the nodes [m] are the items [ks] of [l], in this order, each
    consisting of its start marker, what its future shows, and its end marker;
    what the removed items [ds] still show (their futures are not dropped yet)
    may stand between items, without markers. *)
Inductive arranged (w : uworld) : list node -> list lid -> list node -> Prop :=
| arr_nil : arranged w [] [] []
| arr_elem : forall n els ls m, arranged w els ls m -> arranged w (n :: els) ls (n :: m)
| arr_list : forall l b els ls1 ls2 m, block w l b -> arranged w els (ls1 ++ ls2) m ->
    arranged w els (ls1 ++ l :: ls2) (b ++ m)
with block (w : uworld) : lid -> list node -> Prop :=
| blk_intro : forall l o ds m, get_l l (u_ls w) = Some o ->
    (forall st, In st ds <-> In st (dl_dead (lo_l o))) -> NoDup ds ->
    items w l (lo_keys o) ds m ->
    block w l (dl_start (lo_l o) :: m ++ [dl_end (lo_l o)])
with items (w : uworld) : lid -> list key -> list stored -> list node -> Prop :=
| items_nil : forall l, items w l [] [] []
| items_item : forall l o k st sb c ks ds m,
    get_l l (u_ls w) = Some o -> hm_get k (dl_items (lo_l o)) = Some st ->
    get_sib (st_g st) (lo_futs o) = Some sb ->
    arranged w (uout (sb_f sb)) (ulists (sb_f sb)) c ->
    items w l ks ds m ->
    items w l (k :: ks) ds (st_s st :: c ++ st_e st :: m)
| items_dead : forall l o st sb c ks ds1 ds2 m,
    get_l l (u_ls w) = Some o -> get_sib (st_g st) (lo_futs o) = Some sb ->
    arranged w (uout (sb_f sb)) (ulists (sb_f sb)) c ->
    items w l ks (ds1 ++ ds2) m ->
    items w l ks (ds1 ++ st :: ds2) (c ++ m).

(** The document is right: every element on screen contains what it contained before
    the application started, followed by what the future inside it shows; a list
    that is not rendered is kept in its fragment; all other nodes have the
    children they had. *)
Definition doc_ok (d0 : dom) (mine : list node) (f : ufut) (w : uworld) : Prop :=
  let d := rdom (u_r w) in
  (forall n ch, In (n, ch) (ucontainers f ++ flat_map (fun s => ucontainers (sb_f s)) (all_sibs w)) ->
     exists m, kids d n = kids d0 n ++ m /\ arranged w (uout ch) (ulists ch) m) /\
  (forall l o fr, get_l l (u_ls w) = Some o -> dl_cont (lo_l o) = Fake fr -> block w l (kids d fr)) /\
  (forall q, ~ In q mine -> kids d q = kids d0 q).

(** ** what a program creates *)
(** the element nodes and the groups in a future *)
Fixpoint unodes (f : ufut) : list node :=
  match f with
  | ULeaf | UList _ _ => []
  | UElem n _ _ _ ch => n :: unodes ch
  | UComb _ cs => flat_map unodes cs
  | UBlock c => unodes c
  | UOwn _ _ c => unodes c
  end.
Fixpoint ugids (f : ufut) : list gid :=
  match f with
  | ULeaf | UList _ _ => []
  | UElem _ g _ _ ch => g :: ugids ch
  | UComb _ cs => flat_map ugids cs
  | UBlock c => ugids c
  | UOwn _ _ c => ugids c
  end.

(** a future as user code makes it: no element was added yet, no list rendered, and
    no combinator has more than 2^32-1 children.  (A list comes into scope with [ANew].) *)
Fixpoint unew (f : ufut) : Prop :=
  match f with
  | ULeaf => True
  | UElem _ _ _ m ch => m = ShouldAdd /\ unew ch
  | UComb _ cs => (N.of_nat (length cs) <= 4294967295)%N /\
      (fix all (l : list ufut) : Prop :=
         match l with [] => True | f :: t => unew f /\ all t end) cs
  | UBlock c => unew c
  | UList _ r => r = false
  | UOwn _ _ _ => False
  end.

(** something new: an element, marker, group, fragment or list; or a future *)
Inductive made :=
| MNode (n : node) | MGroup (g : gid) | MList (l : lid) (fr : node) | MFut (f : ufut).

Definition op_made (o : uop) : list made :=
  match o with
  | OInsert _ _ st _ f => [MNode (st_s st); MNode (st_e st); MGroup (st_g st); MFut f]
  | _ => []
  end.

(** everything a schedule creates *)
Fixpoint umade (s : usched) : list made :=
  match s with
  | KNone => []
  | KElem s' => umade s'
  | KOwn s' => umade s'
  | KComb l => (fix go (l : list (nat * usched)) : list made :=
                  match l with [] => [] | (_, s') :: t => umade s' ++ go t end) l
  | KBlock l => (fix go (l : list uaction) : list made :=
                   match l with
                   | [] => []
                   | AWait s' :: t => umade s' ++ go t
                   | AReplace f :: t => MFut f :: go t
                   | ANew l' _ s e fr f :: t => MNode s :: MNode e :: MList l' fr :: MFut f :: go t
                   | ACall _ o :: t => op_made o ++ go t
                   end) l
  | KList l => (fix go (l : list laction) : list made :=
                  match l with
                  | [] => []
                  | LPoll _ s' :: t => umade s' ++ go t
                  | _ :: t => go t
                  end) l
  end.

Definition made_nodes (x : made) : list node :=
  match x with MNode n => [n] | MFut f => unodes f | _ => [] end.
Definition made_gids (x : made) : list gid :=
  match x with MGroup g => [g] | MFut f => ugids f | _ => [] end.
Definition made_lids (x : made) : list lid := match x with MList l _ => [l] | _ => [] end.
Definition made_frags (x : made) : list node := match x with MList _ fr => [fr] | _ => [] end.

(** What a program makes is new: distinct detached nodes, distinct empty groups,
    distinct empty fragments; and in the page before, no fragment is a child. *)
Definition fresh_run (d : dom) (gr : gid -> group) (root : node) (g : gid) (ms : list made) : Prop :=
  NoDup (root :: flat_map made_nodes ms) /\ NoDup (g :: flat_map made_gids ms) /\
  NoDup (flat_map made_lids ms) /\ NoDup (flat_map made_frags ms) /\
  frag d root = false /\
  (forall n, In n (flat_map made_nodes ms) -> par d n = None /\ frag d n = false) /\
  (forall h, In h (g :: flat_map made_gids ms) -> gr h = []) /\
  (forall fr, In fr (flat_map made_frags ms) -> frag d fr = true /\ kids d fr = []) /\
  (forall q x, In x (kids d q) -> frag d x = false) /\
  (forall f, In (MFut f) ms -> unew f).

(** everything a run makes: the first component, and what the schedules create *)
Definition run_made (child : ufut) (scheds : list usched) : list made := MFut child :: flat_map umade scheds.

(** the nodes whose children the application may change *)
Definition mine (root : node) (ms : list made) : list node := root :: flat_map made_nodes ms ++ flat_map made_frags ms.

(** [l] is rendered directly in the content of an element (and not, for example, in
    an item of another list, unless there is an element between them) *)
Definition in_element (l : lid) (f : ufut) (w : uworld) : Prop :=
  exists n ch, In (n, ch) (ucontainers f ++ flat_map (fun s => ucontainers (sb_f s)) (all_sibs w)) /\
    In l (ulists ch).
(** [l] is rendered: in an element, or directly in an item of a list *)
Definition rendered (l : lid) (f : ufut) (w : uworld) : Prop :=
  in_element l f w \/ exists s, In s (all_sibs w) /\ In l (ulists (sb_f s)).

(** The calls of list methods that C57 is about, for a list with the keys [ks]: every key that is
    named is in the list; a key is not moved before itself; of two neighbours, the first is not
    swapped with the second. *)
Definition may_call (o : uop) (ks : list key) : Prop :=
  match o with
  | OInsert _ None _ _ _ => True
  | OInsert _ (Some b) _ _ _ => In b ks
  | ORemove _ | ORetain _ => True
  | OMove k None => In k ks
  | OMove k (Some b) => In k ks /\ In b ks /\ b <> k
  | OSwap a b => In a ks /\ In b ks /\ ~ adjacent a b ks
  end.
(** the keys that the caller asked for (Spec_list.v) *)
Definition keys_after (o : uop) (ks : list key) : list key :=
  match o with
  | OInsert k b _ _ _ => l_insert k b ks
  | ORemove k => l_remove k ks
  | OMove k b => l_insert k b ks
  | OSwap a b => l_swap a b ks
  | ORetain f => filter f ks
  end.
