(** Specification for C08: what a set of waker lists is, without links. *)
From Coq Require Import List Arith Bool.
From Verif Require Import Arena.
Import ListNotations.

(** live lists, each with its handle and its live registrations (handle and waker)
    in the order of registration *)
Definition lists := list (nat * list (nat * waker)).
Definition lists_add (h i : nat) (w : waker) (S : lists) : lists :=
  map (fun p => if Nat.eqb (fst p) h then (fst p, snd p ++ [(i, w)]) else p) S.
Definition lists_remove (i : nat) (S : lists) : lists :=
  map (fun p => (fst p, filter (fun q => negb (Nat.eqb (fst q) i)) (snd p))) S.
Definition lists_set (i : nat) (w : waker) (S : lists) : lists :=
  map (fun p => (fst p, map (fun q => if Nat.eqb (fst q) i then (i, w) else q) (snd p))) S.
Definition lists_del (h : nat) (S : lists) : lists := filter (fun p => negb (Nat.eqb (fst p) h)) S.

(** all live handles *)
Definition handles (S : lists) : list nat := concat (map (fun p => fst p :: map fst (snd p)) S).
Definition slots (S : lists) : list nat := concat (map (fun p => map fst (snd p)) S).
Definition live_list (h : nat) (S : lists) : Prop := In h (map fst S).
Definition live_slot (i : nat) (S : lists) : Prop := In i (slots S).

(** two wakers are interchangeable when they wake the same task; Waker::will_wake
    may say [true] only for such *)
Definition same_task (w1 w2 : waker) : Prop := w_task w1 = w_task w2.
Definition will_wake_ok (ww : waker -> waker -> bool) : Prop := forall a b, ww a b = true -> same_task a b.
(** the tasks that waking every waker of a list wakes, in order *)
Definition tasks (l : list waker) : list (option nat) := map w_task l.

(** every history of the arena's API that respects ownership of handles: the arena
    on one side, the lists that the calls describe on the other *)
Inductive history (ww : waker -> waker -> bool) : arena -> lists -> Prop :=
| hist_new : history ww ar_new []
| hist_sublist : forall a S a' h, history ww a S ->
    ar_add_sublist a = Some (a', h) -> history ww a' (S ++ [(h, [])])
| hist_add : forall a S h a' i, history ww a S -> live_list h S ->
    ar_add a h = Some (a', i) -> history ww a' (lists_add h i dummy_waker S)
| hist_update : forall a S i w a', history ww a S -> live_slot i S ->
    ar_update ww a i w = Some a' -> history ww a' (lists_set i w S)
| hist_remove : forall a S i a', history ww a S -> live_slot i S ->
    ar_remove a i = Some a' -> history ww a' (lists_remove i S)
| hist_kept : forall a S h a', history ww a S -> live_list h S ->
    ar_remove_sublist a h = Some (a', false) -> history ww a' S
| hist_deleted : forall a S h a', history ww a S -> live_list h S ->
    ar_remove_sublist a h = Some (a', true) -> history ww a' (lists_del h S).
