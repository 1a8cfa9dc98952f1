(** Specification for C84: a ListModel in a ReactiveCell, and the ModeledList that shows it. *)
From Coq Require Import List Arith.
From Verif Require Import Arena Cell Spec_list DynList Modeled Spec_modeled.
Import ListNotations.

(** the values that the cell has had, newest first; [x] was the first *)
Fixpoint had {T} (x : T) (tr : list (cev T)) : list T :=
  match tr with
  | [] => [x]
  | CWrite _ y :: t => y :: had x t
  | _ :: t => had x t
  end.

(** [visits c h]: someone who looked now and then while the values were [h] (newest first) saw [c]
    (newest first): perhaps not all values, perhaps some more than once, but never going back *)
Inductive visits {T} : list T -> list T -> Prop :=
| visits_none h : visits [] h
| visits_look v c h : visits c (v :: h) -> visits (v :: c) (v :: h)
| visits_later v c h : visits c h -> visits c (v :: h).

(** [models h]: the successive values (newest first) of a variable that holds a ListModel, which is
    changed by the model's methods, or replaced by a new model (ListModel::from, default, clone).
    Items stay unique, and there is no swap(i, i+1) (see C36_adjacent_swap_refuted). *)
Inductive models : list lmodel -> Prop :=
| models_first v id : NoDup v -> models [lm_from v id]
| models_same m h : models (m :: h) -> models (m :: m :: h)
| models_op m h o m' : models (m :: h) -> mexec m o = Some m' -> NoDup (lm_vec m') ->
    match o with OSwap a b => b <> S a | _ => True end -> models (m' :: m :: h)
| models_new v id h : models h -> NoDup v -> ~ In id (map lm_id h) -> models (lm_from v id :: h).

(** the calls [update(m)] for the models [ms], oldest first; [None]: one of them panics *)
Fixpoint updates (s : mlist) (ms : list lmodel) : option mlist :=
  match ms with
  | [] => Some s
  | m :: t => match ml_update s m with None => None | Some s' => updates s' t end
  end.
