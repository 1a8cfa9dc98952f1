(** Specification for ListModel and ModeledList: histories. *)
From Coq Require Import List Arith Bool.
From Verif Require Import Spec_list DynList Modeled.
Import ListNotations.

(** operations on one model *)
Inductive mop :=
| OInsert (i : nat) (k : key) | ORemove (i : nat) | OPop | OPush (k : key)
| OSwap (a b : nat) | OMove (from to : nat) | OModify (v : list key).

Definition mexec (m : lmodel) (o : mop) : option lmodel :=
  match o with
  | OInsert i k => lm_insert m i k
  | ORemove i => match lm_remove m i with None => None | Some (_, m') => Some m' end
  | OPop => Some (snd (lm_pop m))
  | OPush k => Some (lm_push m k)
  | OSwap a b => lm_swap m a b
  | OMove f t => lm_move m f t
  | OModify v => Some (lm_modify m v)
  end.

(** what the Vec operation of the same name does, [None] where it panics: an
    element is identified by its index *)
Definition in_range (o : mop) (v : list key) : Prop :=
  match o with
  | OInsert i _ => i <= length v
  | ORemove i => i < length v
  | OSwap a b => a < length v /\ b < length v
  | OMove f t => f < length v /\ t < length v
  | _ => True
  end.
(** the vector after the operation, described by its indices *)
Definition vec_spec (o : mop) (v v' : list key) : Prop :=
  match o with
  | OInsert i k => length v' = S (length v) /\ nth_error v' i = Some k /\
      (forall j, j < i -> nth_error v' j = nth_error v j) /\
      (forall j, i <= j -> nth_error v' (S j) = nth_error v j)
  | ORemove i => S (length v') = length v /\
      (forall j, j < i -> nth_error v' j = nth_error v j) /\
      (forall j, i <= j -> nth_error v' j = nth_error v (S j))
  | OPop => v' = firstn (length v - 1) v
  | OPush k => v' = v ++ [k]
  | OSwap a b => length v' = length v /\ nth_error v' a = nth_error v b /\ nth_error v' b = nth_error v a /\
      (forall j, j <> a -> j <> b -> nth_error v' j = nth_error v j)
  | OMove f t => length v' = length v /\ nth_error v' t = nth_error v f /\
      (f <= t -> (forall j, f <= j < t -> nth_error v' j = nth_error v (S j))) /\
      (t <= f -> (forall j, t <= j < f -> nth_error v' (S j) = nth_error v j)) /\
      (forall j, j < f /\ j < t \/ f < j /\ t < j -> nth_error v' j = nth_error v j)
  | OModify w => v' = w
  end.

(** the documented meaning of a logged change *)
Definition apply_change (v : list key) (c : change) : list key :=
  match c with
  | ChInsert k b => l_insert k b v
  | ChRemove k => l_remove k v
  | ChSwap a b => l_swap a b v
  | ChMove k b => l_insert k b v
  end.

(** a history of one model: final model and the vectors it had, newest first, one
    for every version *)
Inductive mhist (id : nat) (v0 : list key) : lmodel -> list (list key) -> Prop :=
| mhist_new : mhist id v0 (lm_from v0 id) [v0]
| mhist_noop : forall m vs o, mhist id v0 m vs -> mexec m o = Some m -> mhist id v0 m vs
| mhist_step : forall m vs o m', mhist id v0 m vs -> mexec m o = Some m' -> m' <> m ->
    mhist id v0 m' (lm_vec m' :: vs).

(** several models and one ModeledList *)
Inductive wop :=
| WNew (v : list key)              (* ListModel::from *)
| WClone (i : nat)
| WDrop (i : nat)
| WOp (i : nat) (o : mop)
| WUpdate (i : nat).
Record mworld := mkMW { mw_models : list lmodel; mw_list : mlist; mw_next : nat }.
Definition mw_init : mworld := mkMW [] ml_new 0.

Definition m_set (i : nat) (m : lmodel) (l : list lmodel) : list lmodel :=
  firstn i l ++ m :: skipn (S i) l.

Definition wexec (w : mworld) (o : wop) : option mworld :=
  match o with
  | WNew v => Some (mkMW (mw_models w ++ [lm_from v (mw_next w)]) (mw_list w) (S (mw_next w)))
  | WClone i => match nth_error (mw_models w) i with
                | None => None
                | Some m => Some (mkMW (mw_models w ++ [lm_clone m (mw_next w)]) (mw_list w) (S (mw_next w)))
                end
  | WDrop i => Some (mkMW (firstn i (mw_models w) ++ skipn (S i) (mw_models w)) (mw_list w) (mw_next w))
  | WOp i o => match nth_error (mw_models w) i with
               | None => None
               | Some m => match mexec m o with
                           | None => None
                           | Some m' => Some (mkMW (m_set i m' (mw_models w)) (mw_list w) (mw_next w))
                           end
               end
  | WUpdate i => match nth_error (mw_models w) i with
                 | None => None
                 | Some m => match ml_update (mw_list w) m with
                             | None => None
                             | Some s => Some (mkMW (mw_models w) s (mw_next w))
                             end
                 end
  end.

(** the caller's side: models exist, indices are in range, items stay unique, and
    no swap(i, i+1) (see C36_adjacent_swap_refuted) *)
Definition wlegal (w : mworld) (o : wop) : Prop :=
  match o with
  | WNew v => NoDup v
  | WDrop _ => True
  | WClone i | WUpdate i => i < length (mw_models w)
  | WOp i o => exists m, nth_error (mw_models w) i = Some m /\ in_range o (lm_vec m) /\
      (forall m', mexec m o = Some m' -> NoDup (lm_vec m')) /\
      match o with OSwap a b => b <> S a | _ => True end
  end.

Fixpoint wrun (w : mworld) (ops : list wop) : option mworld :=
  match ops with
  | [] => Some w
  | o :: t => match wexec w o with None => None | Some w' => wrun w' t end
  end.
Fixpoint wlegal_run (w : mworld) (ops : list wop) : Prop :=
  match ops with
  | [] => True
  | o :: t => wlegal w o /\ forall w', wexec w o = Some w' -> wlegal_run w' t
  end.

(** a sequence of operations on one model, with all the vectors it goes through *)
Inductive mruns : lmodel -> list mop -> lmodel -> list (list key) -> Prop :=
| mruns_nil : forall m, mruns m [] m [lm_vec m]
| mruns_cons : forall m o m1 ops m2 vs, mexec m o = Some m1 -> mruns m1 ops m2 vs ->
    mruns m (o :: ops) m2 (lm_vec m :: vs).
Definition is_modify (o : mop) : Prop := match o with OModify _ => True | _ => False end.
Definition is_update (o : wop) : Prop := match o with WUpdate _ => True | _ => False end.
