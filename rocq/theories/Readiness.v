(** Model of the readiness sets of the combinators:
    combinators/utils/wakers/array/readiness.rs and combinators/utils/wakers/vec/readiness.rs
    (in /repo/async_ui_web_core/src).  An out-of-bounds access is a panic ([None]).  The
    mutex around a readiness set is not modelled: every operation below runs under
    it from start to end, so operations are atomic. *)
From Coq Require Import List Arith Bool.
From Verif Require Import Arena.
Import ListNotations.

(** array/readiness.rs:5-15 [ReadinessArray<N>]: the two arrays are functions used below [ra_n] *)
Record ra := mkRA { ra_n : nat; ra_set : nat -> bool; ra_list : nat -> nat; ra_len : nat; ra_parent : waker }.
(** vec/readiness.rs:7-13 [ReadinessVec] *)
Record rv := mkRV { rv_n : nat; rv_set : nat -> bool; rv_list : list nat; rv_parent : waker }.

(** array/readiness.rs:18-25 *)
Definition ra_new (n : nat) : ra := mkRA n (fun _ => true) (fun i => i) n dummy_waker.
(** vec/readiness.rs:16-23 *)
Definition rv_new (n : nat) : rv := mkRV n (fun _ => true) (seq 0 n) dummy_waker.

Section Ww.
(** Waker::will_wake *)
Variable ww : waker -> waker -> bool.

(** array/readiness.rs:26-31 *)
Definition ra_set_parent (r : ra) (w : waker) : ra :=
  if ww (ra_parent r) w then r else mkRA (ra_n r) (ra_set r) (ra_list r) (ra_len r) w.
(** vec/readiness.rs:24-29 *)
Definition rv_set_parent (r : rv) (w : waker) : rv :=
  if ww (rv_parent r) w then r else mkRV (rv_n r) (rv_set r) (rv_list r) w.
End Ww.

(** array/readiness.rs:32-39 [set_woken] *)
Definition ra_set_woken (r : ra) (i : nat) : option (ra * bool) :=
  if i <? ra_n r then
    if ra_set r i then Some (r, true)
    else if ra_len r <? ra_n r then
      Some (mkRA (ra_n r) (fupd (ra_set r) i true) (fupd (ra_list r) (ra_len r) i) (S (ra_len r)) (ra_parent r), false)
    else None
  else None.
(** vec/readiness.rs:30-36 [set_woken] *)
Definition rv_set_woken (r : rv) (i : nat) : option (rv * bool) :=
  if i <? rv_n r then
    if rv_set r i then Some (r, true)
    else Some (mkRV (rv_n r) (fupd (rv_set r) i true) (rv_list r ++ [i]) (rv_parent r), false)
  else None.

(** array/readiness.rs:40-44 [wake]: also says which waker is woken *)
Definition ra_wake (r : ra) (i : nat) : option (ra * option waker) :=
  do (r', was) <- ra_set_woken r i;
  Some (r', if negb was && (ra_len r' =? 1) then Some (ra_parent r') else None).
(** vec/readiness.rs:37-41 [wake] *)
Definition rv_wake (r : rv) (i : nat) : option (rv * option waker) :=
  do (r', was) <- rv_set_woken r i;
  Some (r', if negb was && (length (rv_list r') =? 1) then Some (rv_parent r') else None).

(** array/readiness.rs:45-47 [awake_list] *)
Definition ra_awake_list (r : ra) : list nat := map (ra_list r) (seq 0 (ra_len r)).
(** vec/readiness.rs:42-44 [awake_list] *)
Definition rv_awake_list (r : rv) : list nat := rv_list r.

(** set[idx] = false for every listed idx, with the bounds check
    [readiness.rs, set_ready and clear_ready] *)
Fixpoint unset_all (n : nat) (s : nat -> bool) (l : list nat) : option (nat -> bool) :=
  match l with
  | [] => Some s
  | i :: t => if i <? n then unset_all n (fupd s i false) t else None
  end.

(** array/readiness.rs:48-62 [clear]: note that the loop runs over the whole
    [awake_list] array, stale entries included *)
Definition ra_clear (r : ra) : option ra :=
  do s <- (if ra_len r <? ra_n r / 64 then Some (fun _ => false)
           else unset_all (ra_n r) (ra_set r) (map (ra_list r) (seq 0 (ra_n r))));
  Some (mkRA (ra_n r) s (ra_list r) 0 (ra_parent r)).
(** vec/readiness.rs:45-58 [clear] *)
Definition rv_clear (r : rv) : option rv :=
  do s <- (if length (rv_list r) * 64 <? rv_n r then unset_all (rv_n r) (rv_set r) (rv_list r)
           else Some (fun _ => false));
  Some (mkRV (rv_n r) s [] (rv_parent r)).

(** The readiness set of a combinator: arrays and tuples use [ReadinessArray]
    (common/array.rs:67, common/tuple.rs:72), vectors [ReadinessVec] (common/vec.rs:44) *)
Inductive rd := RA (r : ra) | RV (r : rv).
(** array/readiness.rs:26-31, vec/readiness.rs:24-29 [set_parent_waker] *)
Definition rd_set_parent (ww : waker -> waker -> bool) (r : rd) (w : waker) : rd :=
  match r with RA a => RA (ra_set_parent ww a w) | RV v => RV (rv_set_parent ww v w) end.
(** array/readiness.rs:40-44, vec/readiness.rs:37-41 [wake] *)
Definition rd_wake (r : rd) (i : nat) : option (rd * option waker) :=
  match r with
  | RA a => do (a', o) <- ra_wake a i; Some (RA a', o)
  | RV v => do (v', o) <- rv_wake v i; Some (RV v', o)
  end.
(** array/readiness.rs:45-47, vec/readiness.rs:42-44 [awake_list] *)
Definition rd_awake_list (r : rd) : list nat :=
  match r with RA a => ra_awake_list a | RV v => rv_awake_list v end.
(** array/readiness.rs:49-62, vec/readiness.rs:45-58 [clear] *)
Definition rd_clear (r : rd) : option rd :=
  match r with RA a => option_map RA (ra_clear a) | RV v => option_map RV (rv_clear v) end.
