(** Model of combinators/utils/wakers/shared_arc.rs, array/waker_array.rs and
    vec/waker_vec.rs (in /repo/async_ui_web_core/src): the wakers of all children of a
    combinator share one reference-counted allocation, and a waker is a pointer to a
    slot of the redirect slice in it.

    Addresses count pointer-sized words.  Where the allocator puts things is chosen by
    the environment; memory that was freed may be used again.  The counts are unbounded
    (in Rust, overflow of the count aborts).  All access is from one thread. *)
From Coq Require Import List Arith Bool.
From Verif Require Import Arena.
Import ListNotations.

(** array/waker_array.rs:17-20, vec/waker_vec.rs:16-19 and the header of the Arc:
    strong count, and where the redirect slice starts.  [a_id] is a ghost: which
    combinator this allocation was made for. *)
Record arc := mkArc { a_id : nat; a_strong : nat; a_slice : nat; a_size : nat }.

(** [h_mem]: the words of redirect slices; [None] is memory that is not allocated.
    [h_arcs]: what is behind a pointer obtained from Arc::into_raw.
    [h_woken]: the calls of wake_index, newest first; [h_freed]: the allocations freed.
    [what shared_arc.rs:60-150 reads and writes] *)
Record heap := mkHeap { h_mem : nat -> option nat; h_arcs : nat -> option arc;
                        h_woken : list (nat * nat); h_freed : list nat }.

(** record update: what is behind a raw Arc pointer [bookkeeping of the model] *)
Definition set_arc (h : heap) (raw : nat) (a : option arc) : heap :=
  mkHeap (h_mem h) (fupd (h_arcs h) raw a) (h_woken h) (h_freed h).
(** whether an address lies in a redirect slice (shared_arc.rs:50) *)
Definition in_slice (s n p : nat) : bool := (s <=? p) && (p <? s + n).

(** Arc::increment_strong_count; [None]: undefined behaviour (not a live Arc)
    [std, called at shared_arc.rs] *)
Definition arc_inc (h : heap) (raw : nat) : option heap :=
  do a <- h_arcs h raw ;
  Some (set_arc h raw (Some (mkArc (a_id a) (S (a_strong a)) (a_slice a) (a_size a)))).
(** Arc::decrement_strong_count: at zero the content, with the slice, is freed
    [std, called at shared_arc.rs] *)
Definition arc_dec (h : heap) (raw : nat) : option heap :=
  do a <- h_arcs h raw ;
  match a_strong a with
  | 0 => None
  | 1 => Some (mkHeap (fun p => if in_slice (a_slice a) (a_size a) p then None else h_mem h p)
                      (fupd (h_arcs h) raw None) (h_woken h) (a_id a :: h_freed h))
  | S m => Some (set_arc h raw (Some (mkArc (a_id a) m (a_slice a) (a_size a))))
  end.

(** shared_arc.rs:71-82 [clone_waker]; the new waker is the same pointer *)
Definition clone_waker (h : heap) (p : nat) : option heap :=
  do raw <- h_mem h p ; arc_inc h raw.
(** shared_arc.rs:86-101 [wake_by_ref]; waker_array.rs:56-58, waker_vec.rs:56-58
    [wake_index] (what it does to the readiness is in Readiness.v) *)
Definition wake_by_ref (h : heap) (p : nat) : option heap :=
  do raw <- h_mem h p ;
  do a <- h_arcs h raw ;
  if p <? a_slice a then None (* offset_from would be negative *)
  else Some (mkHeap (h_mem h) (h_arcs h) ((a_id a, p - a_slice a) :: h_woken h) (h_freed h)).
(** shared_arc.rs:105-113 [drop_waker] *)
Definition drop_waker (h : heap) (p : nat) : option heap :=
  do raw <- h_mem h p ; arc_dec h raw.
(** shared_arc.rs:117-123 [wake] *)
Definition wake (h : heap) (p : nat) : option heap :=
  do h1 <- wake_by_ref h p ; drop_waker h1 p.

(** waker_array.rs:11-14, waker_vec.rs:10-13 *)
Record wset := mkWset { ws_id : nat; ws_raw : nat; ws_wakers : list nat }.

(** shared_arc.rs:134-149: one waker, from one strong count *)
Definition make_waker (h : heap) (raw : nat) (index : nat) : option (heap * nat) :=
  do h1 <- arc_inc h raw ; (* the Arc::clone in the caller, then forgotten *)
  do a <- h_arcs h1 raw ;
  Some (h1, a_slice a + index).
(** waker_array.rs:24-38, waker_vec.rs:23-39: the wakers made for all indices *)
Fixpoint make_wakers (h : heap) (raw : nat) (is : list nat) : option (heap * list nat) :=
  match is with
  | [] => Some (h, [])
  | i :: is' =>
      do r <- make_waker h raw i ;
      do r' <- make_wakers (fst r) raw is' ;
      Some (fst r', snd r :: snd r')
  end.
(** waker_array.rs:24-38, waker_vec.rs:23-39 [new]; the allocator returned [raw] for
    the Arc and [slice] for the redirect slice (which for arrays is inside the Arc) *)
Definition ws_new (h : heap) (id n raw slice : nat) : option (heap * wset) :=
  let h1 := mkHeap (fun p => if in_slice slice n p then Some raw else h_mem h p)
                   (fupd (h_arcs h) raw (Some (mkArc id 1 slice n))) (h_woken h) (h_freed h) in
  do r <- make_wakers h1 raw (seq 0 n) ;
  Some (fst r, mkWset id raw (snd r)).
(** dropping the array or vector of wakers (waker_array.rs:11-15, waker_vec.rs:10-14) *)
Fixpoint drop_wakers (h : heap) (l : list nat) : option heap :=
  match l with [] => Some h | p :: l' => do h1 <- drop_waker h p ; drop_wakers h1 l' end.
(** dropping a WakerArray / WakerVec: its fields in order of declaration
    [waker_array.rs:11-15, waker_vec.rs:10-14] *)
Definition ws_drop (h : heap) (w : wset) : option heap :=
  do h1 <- drop_wakers h (ws_wakers w) ; arc_dec h1 (ws_raw w).

(** ** Any number of combinators, and wakers held by anyone *)
(** a waker somebody holds; [k_id], [k_index] are ghosts: the combinator and child it
    was made for [std::task::Waker, made by waker_array.rs:56-58] *)
Record held := mkHeld { k_id : nat; k_index : nat; k_ptr : nat }.
(** the memory, the combinators' waker sets and the wakers held elsewhere
    [shared_arc.rs:86-101] *)
Record state := mkSt { st_heap : heap; st_next : nat; st_sets : list wset; st_held : list held }.

(** waker_array.rs:24-58, shared_arc.rs:60-150 *)
Inductive op :=
| New (n raw slice : nat)      (* create a combinator of n children *)
| Get (c i : nat)              (* clone the waker the c-th combinator has for child i *)
| WakeOwn (c i : nat)          (* wake it by reference *)
| Clone (k : nat)              (* clone the k-th held waker *)
| WakeRef (k : nat)
| Wake (k : nat)               (* consumes the waker *)
| DropWaker (k : nat)
| DropSet (c : nat).           (* drop the c-th combinator *)

(** a held waker is consumed [bookkeeping of the model] *)
Fixpoint without {A} (l : list A) (i : nat) : list A :=
  match l, i with [], _ => [] | _ :: t, 0 => t | x :: t, S i' => x :: without t i' end.

(** the allocator only returns memory that is not in use [std] *)
Definition can_alloc (h : heap) (n raw slice : nat) : Prop :=
  h_arcs h raw = None /\ forall p, slice <= p < slice + n -> h_mem h p = None.

(** [None]: undefined behaviour.  Requests for things that do not exist do nothing.
    [waker_array.rs:24-58, shared_arc.rs:60-150] *)
Definition exec (s : state) (o : op) : option state :=
  let h := st_heap s in
  match o with
  | New n raw slice =>
      do r <- ws_new h (st_next s) n raw slice ;
      Some (mkSt (fst r) (S (st_next s)) (snd r :: st_sets s) (st_held s))
  | Get c i =>
      match nth_error (st_sets s) c with
      | None => Some s
      | Some w => match nth_error (ws_wakers w) i with
          | None => Some s
          | Some p => do h1 <- clone_waker h p ;
              Some (mkSt h1 (st_next s) (st_sets s) (mkHeld (ws_id w) i p :: st_held s))
          end
      end
  | WakeOwn c i =>
      match nth_error (st_sets s) c with
      | None => Some s
      | Some w => match nth_error (ws_wakers w) i with
          | None => Some s
          | Some p => do h1 <- wake_by_ref h p ; Some (mkSt h1 (st_next s) (st_sets s) (st_held s))
          end
      end
  | Clone k =>
      match nth_error (st_held s) k with
      | None => Some s
      | Some w => do h1 <- clone_waker h (k_ptr w) ; Some (mkSt h1 (st_next s) (st_sets s) (w :: st_held s))
      end
  | WakeRef k =>
      match nth_error (st_held s) k with
      | None => Some s
      | Some w => do h1 <- wake_by_ref h (k_ptr w) ; Some (mkSt h1 (st_next s) (st_sets s) (st_held s))
      end
  | Wake k =>
      match nth_error (st_held s) k with
      | None => Some s
      | Some w => do h1 <- wake h (k_ptr w) ; Some (mkSt h1 (st_next s) (st_sets s) (without (st_held s) k))
      end
  | DropWaker k =>
      match nth_error (st_held s) k with
      | None => Some s
      | Some w => do h1 <- drop_waker h (k_ptr w) ; Some (mkSt h1 (st_next s) (st_sets s) (without (st_held s) k))
      end
  | DropSet c =>
      match nth_error (st_sets s) c with
      | None => Some s
      | Some w => do h1 <- ws_drop h w ; Some (mkSt h1 (st_next s) (without (st_sets s) c) (st_held s))
      end
  end.

(** before anything is allocated [a history; not a function of /repo] *)
Definition init : state := mkSt (mkHeap (fun _ => None) (fun _ => None) [] []) 0 [] [].
(** the operations the allocator allows [a history; not a function of /repo] *)
Definition allowed (s : state) (o : op) : Prop :=
  match o with New n raw slice => can_alloc (st_heap s) n raw slice | _ => True end.

(** the states reachable by operations the allocator allows
    [a history; not a function of /repo] *)
Inductive reach : state -> Prop :=
| reach_init : reach init
| reach_step s o s' : reach s -> allowed s o -> exec s o = Some s' -> reach s'.
