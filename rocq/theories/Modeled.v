(** Model of async_ui_web/src/lists/modeled_list.rs: [ListModel] and [ModeledList].

    Simplifications: keys are numbers; versions are unbounded (u64 in the code);
    the identity of the log's [Rc] is a number that is never given twice (the
    ModeledList keeps a clone of the Rc, so its address cannot be reused while it
    is compared against). *)
From Coq Require Import List Arith Bool.
From Verif Require Import Spec_list DynList Calls.
Import ListNotations.

(** modeled_list.rs:62-68 *)
Inductive change :=
| ChInsert (k : key) (before : option key)
| ChRemove (k : key)
| ChSwap (a b : key)
| ChMove (k : key) (before : option key).

(** modeled_list.rs:23-27, 38-45 *)
Record lmodel := mkLM { lm_vec : list key; lm_log : list change; lm_ver : nat; lm_id : nat }.

(** modeled_list.rs:163-170 [from], 29-36 and 52-60 [default] (empty vector) *)
Definition lm_from (v : list key) (id : nat) : lmodel := mkLM v [] 1 id.

(** modeled_list.rs:46-50, derive(Clone) on ListModel *)
Definition lm_clone (m : lmodel) (id : nat) : lmodel := mkLM (lm_vec m) [] 1 id.

(** modeled_list.rs:78-86 [add_change]; uses the vector as it is at the call *)
Definition add_change (m : lmodel) (c : change) : lmodel :=
  let log := lm_log m ++ [c] in
  let log' := if Nat.ltb (Nat.div (length (lm_vec m)) 2) (length log) then tl log else log in
  mkLM (lm_vec m) log' (S (lm_ver m)) (lm_id m).
(** record update: `vec` of ListModel (modeled_list.rs:24-28) *)
Definition set_vec (m : lmodel) (v : list key) : lmodel := mkLM v (lm_log m) (lm_ver m) (lm_id m).

(** Vec::insert, Vec::remove, slice::swap (std) [called at modeled_list.rs:62-102] *)
Definition v_insert (i : nat) (k : key) (v : list key) : list key := firstn i v ++ k :: skipn i v.
(** Vec::remove (std), used in modeled_list.rs:96-102 *)
Definition v_remove (i : nat) (v : list key) : list key := firstn i v ++ skipn (S i) v.
(** `vec[i] = k` (std), used for slice::swap in modeled_list.rs:120-127 *)
Fixpoint v_set (i : nat) (k : key) (v : list key) : list key :=
  match v, i with
  | [], _ => []
  | _ :: t, O => k :: t
  | x :: t, S i' => x :: v_set i' k t
  end.

(** modeled_list.rs:88-94 [insert]; Vec::insert panics if the index is out of range *)
Definition lm_insert (m : lmodel) (i : nat) (k : key) : option lmodel :=
  let m1 := add_change m (ChInsert k (nth_error (lm_vec m) i)) in
  if Nat.leb i (length (lm_vec m)) then Some (set_vec m1 (v_insert i k (lm_vec m))) else None.

(** modeled_list.rs:96-102 [remove] *)
Definition lm_remove (m : lmodel) (i : nat) : option (key * lmodel) :=
  match nth_error (lm_vec m) i with
  | None => None
  | Some k => Some (k, add_change (set_vec m (v_remove i (lm_vec m))) (ChRemove k))
  end.

(** modeled_list.rs:104-110 [pop] *)
Definition lm_pop (m : lmodel) : option key * lmodel :=
  match rev (lm_vec m) with
  | [] => (None, m)
  | k :: t => (Some k, add_change (set_vec m (rev t)) (ChRemove k))
  end.

(** modeled_list.rs:112-118 [push] *)
Definition lm_push (m : lmodel) (k : key) : lmodel :=
  let m1 := add_change m (ChInsert k None) in set_vec m1 (lm_vec m ++ [k]).

(** modeled_list.rs:120-126 [swap] *)
Definition lm_swap (m : lmodel) (a b : nat) : option lmodel :=
  match nth_error (lm_vec m) a, nth_error (lm_vec m) b with
  | Some x, Some y =>
      let m1 := add_change m (ChSwap x y) in
      Some (set_vec m1 (v_set b x (v_set a y (lm_vec m))))
  | _, _ => None
  end.

(** slice::rotate_left(1), rotate_right(1) [std, called at modeled_list.rs:88-102] *)
Definition rotate_left1 (l : list key) : list key := match l with [] => [] | x :: t => t ++ [x] end.
(** slice::rotate_right(1) (std), modeled_list.rs:129-146 *)
Definition rotate_right1 (l : list key) : list key := rev (rotate_left1 (rev l)).

(** modeled_list.rs:129-142 [move_item] *)
Definition lm_move (m : lmodel) (from to : nat) : option lmodel :=
  let low := Nat.min from to in
  let high := Nat.max from to in
  if Nat.ltb high (length (lm_vec m)) then
    let slice := firstn (S high - low) (skipn low (lm_vec m)) in
    let slice' := match Nat.compare from to with
                  | Lt => rotate_left1 slice
                  | Gt => rotate_right1 slice
                  | Eq => slice
                  end in
    let v := firstn low (lm_vec m) ++ slice' ++ skipn (S high) (lm_vec m) in
    match nth_error v to with
    | None => None
    | Some k => Some (add_change (set_vec m v) (ChMove k (nth_error v (S to))))
    end
  else None.

(** modeled_list.rs:148-152 [modify_vec]; [v] is the vector after the caller's changes *)
Definition lm_modify (m : lmodel) (v : list key) : lmodel := mkLM v [] (S (lm_ver m)) (lm_id m).

(** modeled_list.rs:213-218; [ml_keys] are the keys of the inner DynamicList *)
Record mlist := mkML { ml_keys : list key; ml_ver : nat; ml_uid : option nat }.

(** modeled_list.rs:225-232 [new] *)
Definition ml_new : mlist := mkML [] 0 None.

(** modeled_list.rs:280-297: the call for a logged change *)
Definition change_call (c : change) : dcall :=
  match c with
  | ChInsert k b => DInsert k b (Some false)
  | ChRemove k => DRemove k (Some true)
  | ChSwap a b => DSwap a b
  | ChMove k b => DMove k b
  end.

(** modeled_list.rs:320-325: the fold over the reversed vector *)
Fixpoint move_retained (retained : list key) (last : option key) (rv : list key) : list dcall :=
  match rv with
  | [] => []
  | k :: t =>
      (if memb k retained then [DMove k last] else []) ++ move_retained retained (Some k) t
  end.

(** modeled_list.rs:299-326: rebuild *)
Definition rebuild_calls (present vec : list key) : list dcall :=
  let retained := filter (fun k => memb k vec) present in
  DRetain (fun k => memb k vec)
  :: map (fun k => DInsert k None None) (filter (fun k => negb (memb k retained)) vec)
  ++ move_retained retained None (rev vec).

(** modeled_list.rs:258-270: Rc::ptr_eq with the log used last *)
Definition same_model (u : option nat) (id : nat) : bool :=
  match u with Some x => Nat.eqb x id | None => false end.

(** modeled_list.rs:255-328: the calls made by [update] *)
Definition ml_calls (s : mlist) (m : lmodel) : list dcall :=
  let log_start := lm_ver m - length (lm_log m) in
  if same_model (ml_uid s) (lm_id m) && Nat.leb log_start (ml_ver s)
  then map change_call (skipn (ml_ver s - log_start) (lm_log m))
  else rebuild_calls (ml_keys s) (lm_vec m).

(** modeled_list.rs:255-328 [update] *)
Definition ml_update (s : mlist) (m : lmodel) : option mlist :=
  match druns (ml_keys s) (ml_calls s m) with
  | None => None
  | Some ks => Some (mkML ks (lm_ver m) (Some (lm_id m)))
  end.
