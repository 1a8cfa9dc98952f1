(** Model of async_ui_internal_utils/src/wakers_arena.rs: many circular doubly
    linked lists of wakers in one vector.  The vector of [Item]s is a length and one
    function per field; indexing past the length is a panic ([None]). *)
From Coq Require Import List Arith Bool.
Import ListNotations.

(** A waker as far as it can be observed: the task it wakes ([None] for
    dummy_waker.rs:4-14, which does nothing) and which of several equivalent handles
    it is. *)
Record waker := mkW { w_task : option nat; w_tag : nat }.
(** dummy_waker.rs:4-14 [dummy_waker] *)
Definition dummy_waker : waker := mkW None 0.

(** wakers_arena.rs:5-15 *)
Record arena := mkA { a_len : nat; a_wk : nat -> waker; a_prev : nat -> nat; a_next : nat -> nat }.

(** writing one place of the vector `items` of wakers_arena.rs:6-9 *)
Definition fupd {A} (f : nat -> A) (i : nat) (x : A) : nat -> A := fun j => if Nat.eqb j i then x else f j.

(** self.items[i].field = x, with the bounds check
    [wakers_arena.rs:26-180, wherever `self.items[..]` is assigned] *)
Definition set_wk (a : arena) (i : nat) (w : waker) : option arena :=
  if i <? a_len a then Some (mkA (a_len a) (fupd (a_wk a) i w) (a_prev a) (a_next a)) else None.
(** wakers_arena.rs: `self.items[i].prev = x`, with the bounds check *)
Definition set_prev (a : arena) (i x : nat) : option arena :=
  if i <? a_len a then Some (mkA (a_len a) (a_wk a) (fupd (a_prev a) i x) (a_next a)) else None.
(** wakers_arena.rs: `self.items[i].next = x`, with the bounds check *)
Definition set_next (a : arena) (i x : nat) : option arena :=
  if i <? a_len a then Some (mkA (a_len a) (a_wk a) (a_prev a) (fupd (a_next a) i x)) else None.
(** reading self.items[i].field
    [wakers_arena.rs:26-180, wherever `self.items[..]` is read] *)
Definition get_prev (a : arena) (i : nat) : option nat := if i <? a_len a then Some (a_prev a i) else None.
(** wakers_arena.rs: `self.items[i].next`, with the bounds check *)
Definition get_next (a : arena) (i : nat) : option nat := if i <? a_len a then Some (a_next a i) else None.
(** wakers_arena.rs: `self.items[i].waker`, with the bounds check *)
Definition get_wk (a : arena) (i : nat) : option waker := if i <? a_len a then Some (a_wk a i) else None.

Notation "'do' x <- e ; f" := (match e with Some x => f | None => None end)
  (at level 200, x pattern, e at level 100, f at level 200).

(** wakers_arena.rs:26-41 [WakersArena::new] *)
Definition ar_new : arena :=
  mkA 2 (fun _ => dummy_waker) (fun i => if Nat.eqb i 0 then 1 else 0) (fun i => if Nat.eqb i 0 then 1 else 0).

(** wakers_arena.rs:167-180 [grow_full_list] *)
Definition ar_grow (a : arena) : option (arena * nat) :=
  let old := a_len a in
  let a1 := mkA (old * 2)
    (fun i => if old <=? i then dummy_waker else a_wk a i)
    (fun i => if old <=? i then i - 1 else a_prev a i)
    (fun i => if old <=? i then i + 1 else a_next a i) in
  do a2 <- set_prev a1 (old + 1) 0;
  do a3 <- set_next a2 (old * 2 - 1) 0;
  do a4 <- set_prev a3 0 (old * 2 - 1);
  do a5 <- set_next a4 0 (old + 1);
  Some (a5, old).

(** wakers_arena.rs:46-58 and 76-88: take a node from the free list or grow; the
    flag says whether the free list must be fixed afterwards *)
Definition ar_take (a : arena) : option (arena * nat * bool) :=
  do n <- get_next a 0;
  if Nat.eqb n 0 then do (a', i) <- ar_grow a; Some (a', i, false)
  else Some (a, n, true).

(** wakers_arena.rs:64-68, 98-102 *)
Definition ar_fix (a : arena) (fix_free : bool) (old_prev old_next : nat) : option arena :=
  if fix_free then do a1 <- set_next a old_prev old_next; set_prev a1 old_next old_prev
  else Some a.

(** wakers_arena.rs:45-70 [add_sublist] *)
Definition ar_add_sublist (a : arena) : option (arena * nat) :=
  do (a0, i, fx) <- ar_take a;
  do op <- get_prev a0 i; do on <- get_next a0 i;
  do a1 <- set_prev a0 i i; do a2 <- set_next a1 i i;
  do a3 <- ar_fix a2 fx op on;
  Some (a3, i).

(** wakers_arena.rs:75-104 [add] *)
Definition ar_add (a : arena) (h : nat) : option (arena * nat) :=
  do (a0, i, fx) <- ar_take a;
  do up <- get_prev a0 h;
  do a1 <- set_prev a0 h i;
  do a2 <- set_next a1 up i;
  do op <- get_prev a2 i; do on <- get_next a2 i;
  do a3 <- set_prev a2 i up; do a4 <- set_next a3 i h;
  do a5 <- ar_fix a4 fx op on;
  Some (a5, i).

(** wakers_arena.rs:106-121 [remove] *)
Definition ar_remove (a : arena) (i : nat) : option arena :=
  do ofn <- get_next a 0;
  do a1 <- set_next a 0 i;
  do a2 <- set_prev a1 ofn i;
  do up <- get_prev a2 i; do un <- get_next a2 i;
  do a3 <- set_prev a2 i 0; do a4 <- set_next a3 i ofn;
  do a5 <- set_wk a4 i dummy_waker;
  do a6 <- set_next a5 up un;
  set_prev a6 un up.

(** wakers_arena.rs:123-138 [remove_sublist_if_empty] *)
Definition ar_remove_sublist (a : arena) (h : nat) : option (arena * bool) :=
  do n <- get_next a h;
  if Nat.eqb n h then
    do a1 <- set_prev a h 0;
    do on <- get_next a1 0;
    do a2 <- set_next a1 0 h;
    do a3 <- set_prev a2 on h;
    do a4 <- set_next a3 h on;
    Some (a4, true)
  else Some (a, false).

(** wakers_arena.rs:142-147 [update]; [ww] is Waker::will_wake *)
Definition ar_update (ww : waker -> waker -> bool) (a : arena) (i : nat) (w : waker) : option arena :=
  do t <- get_wk a i;
  if ww t w then Some a else set_wk a i w.

(** wakers_arena.rs:151-165 [iter], collected.  The fuel is one more than the
    number of nodes; running out of it (a cycle that misses the head) is [None]. *)
Fixpoint ar_iter_from (fuel : nat) (a : arena) (h i : nat) : option (list waker) :=
  match fuel with
  | 0 => None
  | S fuel =>
      if Nat.eqb i h then Some []
      else do w <- get_wk a i; do n <- get_next a i;
           do t <- ar_iter_from fuel a h n; Some (w :: t)
  end.
(** wakers_arena.rs:151-165 [iter], from the item after the head *)
Definition ar_iter (a : arena) (h : nat) : option (list waker) :=
  do i <- get_next a h; ar_iter_from (S (a_len a)) a h i.
