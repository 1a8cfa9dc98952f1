(** Model of the data side of x-bow: /repo/x-bow/src/{path,path_ext,store,guarantee,
    borrow_mut_guard}.rs, impls/**, and of the mappers that
    /repo/x-bow-macros/src/generate.rs generates.

    A path is the list of its mappers from the root on ([] is RootPath).  A path object of
    the code nests them the other way round (each mapper holds its parent).  ReferencePath,
    Rc<dyn Path>, Box<dyn Path> (path_impl.rs) and LeafPathBuilder (impls/leaf.rs) forward
    everything and are not distinguished from the path they wrap. *)
From Coq Require Import List Arith Bool NArith.
Import ListNotations.

Section Data.
Variable K : Type.
Variable keqb : K -> K -> bool.

(** The data of a store.  [VEnum n fs] is variant number [n] with its fields (Option is an
    enum, impls/stdlib/option.rs; tuples are structs, tuple.rs).  [VRc i v] is a handle of
    the allocation number [i]; String is a leaf whose content is reached by [SBox]
    (string.rs:27-31), like Box (boxed.rs:41-48). *)
Inductive val :=
| VLeaf (n : nat)
| VStruct (fs : list val)
| VEnum (variant : nat) (fs : list val)
| VVec (l : list val)
| VMap (m : list (K * val))
| VBox (v : val)
| VRc (i : nat) (v : val).

(** The mappers: generate.rs:62-105 for fields of structs and of enum variants (the number
    is the position in the struct or variant), vec.rs:82-100, hash_map.rs:91-116,
    transparent.rs:37-57, rc.rs:59-80. *)
Inductive seg :=
| SField (member : nat)
| SVariant (variant member : nat)
| SIndex (i : nat)
| SKey (k : K)
| SBox
| SRc.

(** replacing in a list; no change if out of range [std, vec.rs:82-100] *)
Fixpoint put_nth {A} (i : nat) (x : A) (l : list A) : list A :=
  match l, i with
  | [], _ => []
  | _ :: l, 0 => x :: l
  | y :: l, S i => y :: put_nth i x l
  end.
(** HashMap::get / BTreeMap::get (x-bow/src/impls) [std] *)
Fixpoint map_get (k : K) (m : list (K * val)) : option val :=
  match m with
  | [] => None
  | (k', v) :: m => if keqb k' k then Some v else map_get k m
  end.
(** writing through HashMap::get_mut / BTreeMap::get_mut (x-bow/src/impls) [std] *)
Fixpoint map_put (k : K) (x : val) (m : list (K * val)) : list (K * val) :=
  match m with
  | [] => []
  | (k', v) :: m => if keqb k' k then (k', x) :: m else (k', v) :: map_put k x m
  end.

(** one step of path_borrow: generate.rs:62-105 with Ref, vec.rs:85-89,
    hash_map.rs:94-98, transparent.rs:40-42, rc.rs:62-64 *)
Definition seg_borrow (s : seg) (v : val) : option val :=
  match s, v with
  | SField m, VStruct fs => nth_error fs m
  | SVariant n m, VEnum n' fs => if n =? n' then nth_error fs m else None
  | SIndex i, VVec l => nth_error l i
  | SKey k, VMap l => map_get k l
  | SBox, VBox v => Some v
  | SRc, VRc _ v => Some v
  | _, _ => None
  end.
(** one step of path_borrow_mut: the part, and what storing into it does to the whole.
    The same lines with RefMut; rc.rs:65-69 uses Rc::get_mut, which fails while there are
    other handles of the allocation: [uniq]. *)
Definition seg_borrow_mut (uniq : nat -> bool) (s : seg) (v : val) : option (val * (val -> val)) :=
  match s, v with
  | SField m, VStruct fs =>
      match nth_error fs m with Some x => Some (x, fun y => VStruct (put_nth m y fs)) | None => None end
  | SVariant n m, VEnum n' fs =>
      if n =? n' then
        match nth_error fs m with Some x => Some (x, fun y => VEnum n' (put_nth m y fs)) | None => None end
      else None
  | SIndex i, VVec l =>
      match nth_error l i with Some x => Some (x, fun y => VVec (put_nth i y l)) | None => None end
  | SKey k, VMap l =>
      match map_get k l with Some x => Some (x, fun y => VMap (map_put k y l)) | None => None end
  | SBox, VBox x => Some (x, VBox)
  | SRc, VRc i x => if uniq i then Some (x, VRc i) else None
  | _, _ => None
  end.

(** path_borrow and path_borrow_mut: store.rs:91-97 for the root; each mapper borrows its
    parent first (the list is consumed from its end, so this is a left fold) *)
Definition path_borrow (p : list seg) (d : val) : option val :=
  fold_left (fun o s => match o with Some v => seg_borrow s v | None => None end) p (Some d).
(** path.rs:35 [path_borrow_mut] along the path: the part, and how writing it changes the whole *)
Definition path_borrow_mut (uniq : nat -> bool) (p : list seg) (d : val) : option (val * (val -> val)) :=
  fold_left (fun o s => match o with
                        | Some (v, k) => match seg_borrow_mut uniq s v with
                                         | Some (x, k') => Some (x, fun y => k (k' y))
                                         | None => None
                                         end
                        | None => None
                        end) p (Some (d, fun y => y)).

(** ** Types, and what a path writes to the hasher *)

(** Type definitions; types are numbers, so that they can be recursive.  Fields are
    (tracked?, type); an untracked one is #[track(skip)] (attributes.rs:15-40). *)
Inductive tydef :=
| DLeaf
| DStruct (fields : list (bool * nat))
| DEnum (variants : list (list (bool * nat)))
| DVec (t : nat)
| DMap (t : nat)
| DBox (t : nat)
| DRc (t : nat).
Variable def : nat -> tydef.

(** generate.rs:176-214: the mappers of a struct or an enum, in order; the position in this
    list is [field_index] (generate.rs:223) *)
Fixpoint tracked_from (i : nat) (fs : list (bool * nat)) : list nat :=
  match fs with
  | [] => []
  | (t, _) :: fs => (if t then [i] else []) ++ tracked_from (S i) fs
  end.
(** x-bow-macros/src/generate.rs:115-300: the mappers generated for a struct *)
Definition struct_mappers (fs : list (bool * nat)) : list nat := tracked_from 0 fs.
(** generate.rs:115-300: the mappers generated for an enum, variant by variant *)
Fixpoint enum_mappers_from (n : nat) (vs : list (list (bool * nat))) : list (nat * nat) :=
  match vs with
  | [] => []
  | fs :: vs => map (pair n) (tracked_from 0 fs) ++ enum_mappers_from (S n) vs
  end.
(** generate.rs:115-300, the whole enum *)
Definition enum_mappers (vs : list (list (bool * nat))) : list (nat * nat) := enum_mappers_from 0 vs.
(** the number of a mapper: generate.rs:227-300 numbers them in order *)
Fixpoint position {A} (eqb : A -> A -> bool) (x : A) (l : list A) : option nat :=
  match l with
  | [] => None
  | y :: l => if eqb y x then Some 0 else option_map S (position eqb x l)
  end.
(** equality of (variant, field) [bookkeeping of the model] *)
Definition pair_eqb (x y : nat * nat) : bool := (fst x =? fst y) && (snd x =? snd y).

(** the type of the part that a mapper leads to, if the type has such a mapper
    [x-bow-macros/src/generate.rs:115-300] *)
Definition seg_ty (t : nat) (s : seg) : option nat :=
  match def t, s with
  | DStruct fs, SField m =>
      match nth_error fs m with Some (true, t') => Some t' | _ => None end
  | DEnum vs, SVariant n m =>
      match nth_error vs n with
      | Some fs => match nth_error fs m with Some (true, t') => Some t' | _ => None end
      | None => None
      end
  | DVec t', SIndex _ => Some t'
  | DMap t', SKey _ => Some t'
  | DBox t', SBox => Some t'
  | DRc t', SRc => Some t'
  | _, _ => None
  end.
(** the type a path leads to (Path::Out, path.rs:12-24) *)
Fixpoint path_ty (t : nat) (p : list seg) : option nat :=
  match p with [] => Some t | s :: p => match seg_ty t s with Some t' => path_ty t' p | None => None end end.

(** Hasher::write_usize writes the bytes of the number; [word] is the size of a usize *)
Variable word : nat.
(** integers are hashed by their little-endian bytes (std Hash; wasm32 is little-endian)
    [called by the hash of path.rs] *)
Fixpoint le_bytes (w : nat) (n : N) : list N :=
  match w with 0 => [] | S w => (n mod 256)%N :: le_bytes w (n / 256)%N end.
(** std Hash for usize [vec.rs:82-100] *)
Definition usize_bytes (n : nat) : list N := le_bytes word (N.of_nat n).
(** the bytes that the Hash of a key writes *)
Variable key_bytes : K -> list N.
(** generate.rs:275-279, vec.rs:91-95, hash_map.rs:106-110, transparent.rs:48-53,
    rc.rs:71-75 *)
Definition seg_bytes (t : nat) (s : seg) : list N :=
  match def t, s with
  | DStruct fs, SField m => match position Nat.eqb m (struct_mappers fs) with Some i => usize_bytes i | None => [] end
  | DEnum vs, SVariant n m => match position pair_eqb (n, m) (enum_mappers vs) with Some i => usize_bytes i | None => [] end
  | _, SIndex i => usize_bytes i
  | _, SKey k => key_bytes k
  | _, SBox => [0%N]
  | _, SRc => [0%N]
  | _, _ => []
  end.
(** what visit_hashes (path.rs:40) writes to the hasher along the path *)
Fixpoint path_bytes (t : nat) (p : list seg) : list N :=
  match p with
  | [] => []
  | s :: p => seg_bytes t s ++ match seg_ty t s with Some t' => path_bytes t' p | None => [] end
  end.

(** the mappers whose paths implement PathExtGuaranteed if the parent does:
    generate.rs:236-242 (structs only), transparent.rs:59-62, store.rs:106 *)
Definition seg_guaranteed (s : seg) : bool := match s with SField _ => true | SBox => true | _ => false end.

(** values of a type (no restriction on the content of leaves and on the keys of maps;
    a String has its text behind [SBox]) [Rust types] *)
Inductive has_ty : val -> nat -> Prop :=
| ty_leaf : forall n t, def t = DLeaf -> has_ty (VLeaf n) t
| ty_struct : forall vs fs t, def t = DStruct fs -> has_tys vs fs -> has_ty (VStruct vs) t
| ty_enum : forall n vs vars fs t, def t = DEnum vars -> nth_error vars n = Some fs -> has_tys vs fs -> has_ty (VEnum n vs) t
| ty_vec : forall l t t', def t = DVec t' -> (forall v, In v l -> has_ty v t') -> has_ty (VVec l) t
| ty_map : forall m t t', def t = DMap t' -> (forall k v, In (k, v) m -> has_ty v t') -> has_ty (VMap m) t
| ty_box : forall v t t', def t = DBox t' -> has_ty v t' -> has_ty (VBox v) t
| ty_rc : forall i v t t', def t = DRc t' -> has_ty v t' -> has_ty (VRc i v) t
(** the fields of a struct or variant, each of its type [Rust types] *)
with has_tys : list val -> list (bool * nat) -> Prop :=
| tys_nil : has_tys [] []
| tys_cons : forall v vs b t fs, has_ty v t -> has_tys vs fs -> has_tys (v :: vs) ((b, t) :: fs).
End Data.
