(** Calls to a DynamicList, as issued by DiffedList, ModeledList and
    VirtualizedList.  These components are modelled as functions producing the
    sequence of calls they make (their control flow never depends on the result of
    a call, except for the asserts, see [expect]). *)
From Coq Require Import List Arith Bool.
From Verif Require Import Spec_list Dom Context DynList Spec_dynlist.
Import ListNotations.

(** [expect] is the return value asserted by the caller (modeled_list.rs:282-290) *)
Inductive dcall :=
| DInsert (k : key) (before : option key) (expect : option bool)
| DRemove (k : key) (expect : option bool)
| DMove (k : key) (before : option key)
| DSwap (a b : key)
| DRetain (keep : key -> bool).

(** whether a returned boolean is the one the caller unwraps or ignores (diffed_list.rs:85-110, modeled_list.rs:255-328) *)
Definition expected (e : option bool) (b : bool) : bool :=
  match e with None => true | Some x => Bool.eqb x b end.

(** whether `items.get(before).unwrap()` succeeds (dynamic_list.rs:127-129) *)
Definition ref_known (b : option key) (ks : list key) : bool :=
  match b with None => true | Some b => memb b ks end.

(** decides [adjacent] [a test used by the proofs, not code of /repo] *)
Fixpoint adjacentb (a b : key) (ks : list key) : bool :=
  match ks with
  | x :: t => match t with
              | y :: _ => (Nat.eqb x a && Nat.eqb y b) || adjacentb a b t
              | [] => false
              end
  | [] => false
  end.

(** What a call does to a DynamicList holding the keys [ks] in this order: the
    meaning established by C28; [None] when the call panics (C29, C30, failed
    assert) or tears an item apart (C29, C30). [dynamic_list.rs:88-289] *)
Definition dstep (ks : list key) (c : dcall) : option (list key) :=
  match c with
  | DInsert k b e =>
      if ref_known b ks && expected e (memb k ks) then Some (l_insert k b ks) else None
  | DRemove k e => if expected e (memb k ks) then Some (l_remove k ks) else None
  | DMove k b =>
      if memb k ks && ref_known b ks &&
         match b with None => true | Some b => negb (Nat.eqb b k) end
      then Some (l_insert k b ks) else None
  | DSwap a b => if memb a ks && memb b ks && negb (adjacentb a b ks)
                 then Some (l_swap a b ks) else None
  | DRetain f => Some (filter f ks)
  end.

(** a sequence of calls, as diffed_list.rs:85-110 and modeled_list.rs:255-328 make them *)
Fixpoint druns (ks : list key) (cs : list dcall) : option (list key) :=
  match cs with
  | [] => Some ks
  | c :: t => match dstep ks c with None => None | Some ks' => druns ks' t end
  end.

(** the calls as operations on the modelled DynamicList; each insertion brings its
    own new markers and group
    [the calls made at diffed_list.rs and modeled_list.rs:299-326] *)
Inductive issued : list dcall -> list lop -> list stored -> Prop :=
| issued_nil : issued [] [] []
| issued_insert : forall k b e st cs ops sts, issued cs ops sts ->
    issued (DInsert k b e :: cs) (LInsert k b st :: ops) (st :: sts)
| issued_remove : forall k e cs ops sts, issued cs ops sts ->
    issued (DRemove k e :: cs) (LRemove k :: ops) sts
| issued_move : forall k b cs ops sts, issued cs ops sts ->
    issued (DMove k b :: cs) (LMove k b :: ops) sts
| issued_swap : forall a b cs ops sts, issued cs ops sts ->
    issued (DSwap a b :: cs) (LSwap a b :: ops) sts
| issued_retain : forall f cs ops sts, issued cs ops sts ->
    issued (DRetain f :: cs) (LRetain f :: ops) sts.

(** the markers and groups brought by the insertions are new
    [a new DynamicList item makes them, dynamic_list.rs:52-78] *)
Definition new_nodes (w : lworld) (sts : list stored) : Prop :=
  NoDup (flat_map (fun st => [st_s st; st_e st]) sts) /\ NoDup (map st_g sts) /\
  forall st, In st sts ->
    par (rdom (lw_r w)) (st_s st) = None /\ par (rdom (lw_r w)) (st_e st) = None /\
    frag (rdom (lw_r w)) (st_s st) = false /\ frag (rdom (lw_r w)) (st_e st) = false /\
    rgrp (lw_r w) (st_g st) = [] /\ ~ In (st_g st) (list_groups (lw_l w)).

(** a call that neither replaces nor removes the item [k] [dynamic_list.rs:88-289] *)
Definition spares (k : nat) (c : dcall) : Prop :=
  match c with
  | DInsert k' _ _ => k' <> k
  | DRemove k' _ => k' <> k
  | DRetain f => f k = true
  | _ => True
  end.
