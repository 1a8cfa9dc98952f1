(** Model of a whole tree of combinators: async blocks that await combinators, whose
    children are async blocks again, to any depth, growing and shrinking as the blocks
    go on.  It puts many of the combinators of Combinator.v together: each has its
    readiness set (Readiness.v) in memory shared with the wakers of its children, and
    waking a child's waker may wake the waker the combinator was last polled with, which
    belongs to the combinator above, and so on up to the root.

    What a block does between its awaits is arbitrary: [code] says, for the state of the
    application, a block, and what the awaited combinator gave, which wakers it wakes and
    how it goes on.  A block that waits for something else than a combinator (an event, a
    timer, a cell) asks [code] again each time it is polled.

    Simplifications: the memory shared by a combinator and its wakers is never reused
    (that it is not freed too early is C21); the detachment blockers and rendering are in
    Ui.v; the children's outputs and the combinator's result have one type [V]. *)
From Coq Require Import List Arith Bool Cantor.
From Verif Require Import Arena Readiness Combinator.
Import ListNotations.

(** an async block: the root one, or child [i] of combinator [n] (combinators are
    numbered in the order of their creation)
    [the children of combinators/common/vec.rs:37-50] *)
Inductive place := Root | Kid (n i : nat).
(** equality of places [bookkeeping of the model] *)
Definition place_eqb (p q : place) : bool :=
  match p, q with
  | Root, Root => true
  | Kid n i, Kid m j => Nat.eqb n m && Nat.eqb i j
  | _, _ => false
  end.

(** wakers/shared_arc.rs:60-150: a waker identifies a combinator's shared memory and an
    index in it.  As the number of the task it wakes: *)
Definition task_of (p : place) : nat := match p with Root => 0 | Kid n i => S (Cantor.to_nat (n, i)) end.
(** the block a task number stands for (a coding of places, not a part of /repo)
    [not a function of /repo] *)
Definition place_of (t : nat) : place :=
  match t with 0 => Root | S c => let '(n, i) := Cantor.of_nat c in Kid n i end.
(** common/array.rs:157, common/tuple.rs:172, common/vec.rs:117: the waker given to a child *)
Definition waker_of (p : place) : waker := mkW (Some (task_of p)) 0.

(** how a step of a program ends: [Panic] is a panic of a block's own code, [Fault] one of
    the combinators' bookkeeping, or a deadlock; [NoFuel] means the bound on the length of
    the step was too small [std] *)
Inductive res (A : Type) := Done (a : A) | Panic | Fault | NoFuel.
Arguments Done {A}. Arguments Panic {A}. Arguments Fault {A}. Arguments NoFuel {A}.
(** a panic, fault or lack of fuel ends the step [std] *)
Definition bind {A B} (r : res A) (f : A -> res B) : res B :=
  match r with Done a => f a | Panic => Panic | Fault => Fault | NoFuel => NoFuel end.
Notation "'try' p <- e ; k" := (bind e (fun p => k)) (at level 200, p pattern, k at level 200).
(** a failed access of the bookkeeping (Combinator.v, Readiness.v) is a fault [std] *)
Definition get {A} (o : option A) : res A := match o with Some a => Done a | None => Fault end.

Section Tree.
Variables V X : Type.
Variable ww : waker -> waker -> bool.
Variable debug : bool.
Notation beh := (behavior V V V).
Notation comb := (comb V).

(** what an async block does next; user code *)
Inductive next :=
| NPend                              (* something awaited in the block is pending *)
| NRet (v : V)                       (* the block returns *)
| NPanic                             (* the block panics *)
| NAwait (k : kind) (b : beh) (n : nat).   (* it awaits a new combinator with n children *)
Variable code : X -> place -> option V -> X * list place * next.

(** what can be observed; newest first in the trace *)
Inductive ev :=
| EPoll (p : place)                  (* block p is polled *)
| EPend (p : place)                  (* that poll returns Pending *)
| EDone (p : place) (v : V)          (* that poll returns Ready v *)
| EWake (p : place)                  (* the waker given to block p is woken *)
| ENew (n k : nat) (b : beh) (p : place)   (* block p creates combinator n with k children *)
| EGone (n : nat) (v : V)            (* combinator n returns v and is dropped, with its children *)
| ERun (p : place) (got : option V). (* the code of block p goes on, with the value of what it awaited *)

(** a combinator (common/array.rs:60-80, common/tuple.rs:59-78, common/vec.rs:37-50) *)
Record node := mkN { nd_c : comb; nd_b : beh; nd_owner : place }.
(** [w_sub p]: the combinator block [p] is awaiting [combinators/common/vec.rs:37-50] *)
Record world := mkT { w_hp : list node; w_sub : place -> option nat; w_x : X; w_over : bool; w_tr : list ev }.
(** records an event (trace only) [ghost] *)
Definition emit (e : ev) (w : world) : world := mkT (w_hp w) (w_sub w) (w_x w) (w_over w) (e :: w_tr w).
(** record update: the state of the blocks' own code [bookkeeping of the model] *)
Definition set_x (x : X) (w : world) : world := mkT (w_hp w) (w_sub w) x (w_over w) (w_tr w).
(** record update: what block [p] awaits [bookkeeping of the model] *)
Definition set_sub (p : place) (o : option nat) (w : world) : world :=
  mkT (w_hp w) (fun q => if place_eqb q p then o else w_sub w q) (w_x w) (w_over w) (w_tr w).
(** record update: the state of combinator [n] (combinators/common/*.rs) *)
Definition set_node (n : nat) (c : comb) (w : world) : world :=
  match nth_error (w_hp w) n with
  | None => w
  | Some nd => mkT (lset (w_hp w) n (mkN c (nd_b nd) (nd_owner nd))) (w_sub w) (w_x w) (w_over w) (w_tr w)
  end.

(** wakers/shared_arc.rs:86-101 [wake_by_ref], waker_array.rs:56-58 and waker_vec.rs:56-58
    [wake_index], readiness.rs [wake]: the parent's waker is woken while the mutex around
    the readiness set is held; [locked] are the combinators whose mutex is held.  The
    root's waker belongs to the executor.  [fuel] bounds the way up. *)
Fixpoint wake (fuel : nat) (locked : list nat) (t : waker) (w : world) : res world :=
  match w_task t with
  | None => Done w
  | Some c =>
      match place_of c with
      | Root => Done (emit (EWake Root) w)
      | Kid n i =>
          match fuel with
          | 0 => Fault
          | S fuel' =>
              if existsb (Nat.eqb n) locked then Fault
              else
                try nd <- get (nth_error (w_hp w) n);
                try (r, o) <- get (rd_wake (c_rd V (nd_c nd)) i);
                let w' := set_node n (set_rd V (nd_c nd) r) (emit (EWake (Kid n i)) w) in
                match o with None => Done w' | Some p => wake fuel' (n :: locked) p w' end
          end
      end
  end.
(** only the wakers of blocks that exist, or existed, can be woken
    [wakers/shared_arc.rs:86-101] *)
Definition exists_place (w : world) (p : place) : bool :=
  match p with
  | Root => true
  | Kid n i => match nth_error (w_hp w) n with None => false | Some nd => i <? c_n V (nd_c nd) end
  end.
(** a waker of block [p] is woken (combinators/utils/wakers/*/waker_*.rs [wake_index], for the root core executor.rs:81-89) *)
Definition wake_place (w : world) (p : place) : res world :=
  if exists_place w p then wake (S (length (w_hp w))) [] (waker_of p) w else Done w.
(** several wakers are woken, in this order [wakers/shared_arc.rs:86-101] *)
Fixpoint wake_all (l : list place) (w : world) : res world :=
  match l with [] => Done w | p :: l' => try w' <- wake_place w p; wake_all l' w' end.

(** common/array.rs:172-176, common/tuple.rs:182-183 and 194-197, common/vec.rs:126-130 *)
Definition store (c : comb) (i : nat) (s : V) : res comb :=
  match nth_error (c_items V c) i, c_pending V c with
  | Some _, S p => Done (mkC V (c_kind V c) (c_n V c) p (lset (c_items V c) i (Some s)) (lset (c_filled V c) i true) (c_rd V c))
  | _, _ => Fault
  end.
(** common/array.rs:182-208, common/tuple.rs:200-215, common/vec.rs:138-160: the end of a
    poll.  The slots are not emptied in the model: the combinator is dropped at once. *)
Definition finish (b : beh) (c : comb) : res (option V) :=
  if c_pending V c =? 0 then
    if debug && negb (forallb (fun f => f) (c_filled V c)) then Fault
    else try l <- get (all_some (c_items V c)); try o <- get (b_when_completed b l); Done (Some o)
  else Done None.

(** One poll of block [p].  Results: [None] is Pending.  [fuel] bounds the length of the
    poll; a block need not terminate. [common/vec.rs:90-161] *)
Fixpoint poll_block (fuel : nat) (p : place) (wk : waker) (w : world) {struct fuel} : res (world * option V) :=
  match fuel with
  | 0 => NoFuel
  | S f =>
      let w1 := emit (EPoll p) w in
      match w_sub w p with
      | None => run_code f p wk None w1
      | Some n => await f p wk n w1
      end
  end
(** the block's own code, up to where it returns or awaits
    [user code; the combinator it makes, common/vec.rs:37-50] *)
with run_code (fuel : nat) (p : place) (wk : waker) (got : option V) (w : world) {struct fuel} : res (world * option V) :=
  match fuel with
  | 0 => NoFuel
  | S f =>
      let w0 := emit (ERun p got) w in
      let '(x, wakes, nx) := code (w_x w0) p got in
      try w1 <- wake_all wakes (set_x x w0);
      match nx with
      | NPanic => Panic
      | NPend => Done (w1, None)
      | NRet v => Done (w1, Some v)
      | NAwait k b n =>
          let id := length (w_hp w1) in
          await f p wk id
            (set_sub p (Some id)
              (mkT (w_hp w1 ++ [mkN (c_new V k n) b p]) (w_sub w1) (w_x w1) (w_over w1) (ENew id n b p :: w_tr w1)))
      end
  end
(** [combinator.await]: the combinator is polled with the block's own waker; when it is
    ready it is dropped and the block goes on *)
with await (fuel : nat) (p : place) (wk : waker) (n : nat) (w : world) {struct fuel} : res (world * option V) :=
  match fuel with
  | 0 => NoFuel
  | S f =>
      try (w1, r) <- poll_comb f n wk w;
      match r with
      | None => Done (w1, None)
      | Some v => run_code f p wk (Some v) (emit (EGone n v) (set_sub p None w1))
      end
  end
(** common/array.rs:120-209, common/tuple.rs:139-216, common/vec.rs:90-161 [poll] *)
with poll_comb (fuel : nat) (n : nat) (wk : waker) (w : world) {struct fuel} : res (world * option V) :=
  match fuel with
  | 0 => NoFuel
  | S f =>
      try nd <- get (nth_error (w_hp w) n);
      match c_entry V V V (nd_b nd) (nd_c nd) with
      | Some PPending => Done (w, None)
      | Some _ => Fault
      | None =>
          let r1 := rd_set_parent ww (c_rd V (nd_c nd)) wk in
          try r2 <- get (rd_clear r1);
          loop f n (rd_awake_list r1) (set_node n (set_rd V (nd_c nd) r2) w)
      end
  end
(** common/array.rs:152-179, common/tuple.rs:161-198, common/vec.rs:112-136 *)
with loop (fuel : nat) (n : nat) (l : list nat) (w : world) {struct fuel} : res (world * option V) :=
  match fuel with
  | 0 => NoFuel
  | S f =>
      try nd <- get (nth_error (w_hp w) n);
      match l with
      | [] => try o <- finish (nd_b nd) (nd_c nd); Done (w, o)
      | i :: l' =>
          try filled <- get (nth_error (c_filled V (nd_c nd)) i);
          if (filled : bool) then loop f n l' w
          else
            try (w1, r) <- poll_block f (Kid n i) (waker_of (Kid n i)) w;
            match r with
            | None => loop f n l' (emit (EPend (Kid n i)) w1)
            | Some v =>
                let w2 := emit (EDone (Kid n i) v) w1 in
                match b_maybe_return (nd_b nd) i v with
                | inl o => Done (w2, Some o)
                | inr s =>
                    try nd2 <- get (nth_error (w_hp w2) n);
                    try c <- store (nd_c nd2) i s;
                    loop f n l' (set_node n c w2)
                end
            end
      end
  end.

(** what happens from outside: the executor polls the root block (with some handle of its
    waker), a waker is woken (by an event, a timer, ...), the state changes
    [executor.rs:49-89] *)
Inductive hev := HPoll (fuel tag : nat) | HWake (p : place) | HEnv (f : X -> X).
(** one step from outside: the root is polled (core executor.rs:49-62), a waker is woken, the blocks' state changes *)
Definition exec (w : world) (e : hev) : res world :=
  match e with
  | HPoll fuel tag =>
      if w_over w then Done w
      else
        try (w1, r) <- poll_block fuel Root (mkW (Some (task_of Root)) tag) w;
        match r with
        | None => Done (emit (EPend Root) w1)
        | Some v => let w2 := emit (EDone Root v) w1 in Done (mkT (w_hp w2) (w_sub w2) (w_x w2) true (w_tr w2))
        end
  | HWake p => wake_place w p
  | HEnv f => Done (set_x (f (w_x w)) w)
  end.
(** no combinator yet, the root block not polled [a history; not a function of /repo] *)
Definition start (x : X) : world := mkT [] (fun _ => None) x false [].
(** a sequence of steps [a history; not a function of /repo] *)
Fixpoint run_from (w : world) (evs : list hev) : res world :=
  match evs with [] => Done w | e :: t => try w' <- exec w e; run_from w' t end.
(** a whole history [a history; not a function of /repo] *)
Definition run (x : X) (evs : list hev) : res world := run_from (start x) evs.
End Tree.
Arguments NPend {V}. Arguments NRet {V}. Arguments NPanic {V}. Arguments NAwait {V}.
Arguments EPoll {V}. Arguments EPend {V}. Arguments EDone {V}. Arguments EWake {V}. Arguments ENew {V}. Arguments EGone {V}. Arguments ERun {V}.
Arguments HPoll {X}. Arguments HWake {X}. Arguments HEnv {X}.
