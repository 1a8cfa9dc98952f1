(** Model of how the items of a DynamicList run: lists/dynamic_list.rs:53-59 (the list has an
    [async_executor::LocalExecutor] of its own), 122-159 [insert], 166-186 [remove], 274-289
    [retain], 294-341 [render], whose end is [executor.run(pending())].  The executor is the one
    of Queue.v (async_executor and async_task from their documentation); here its runner is the
    render future of the list, which is polled by whatever code renders the list, with any waker,
    and it may be dropped and the list rendered again.

    The items are arbitrary futures: [code t y] is a poll of the [t]-th inserted one when the state
    of everything is [y]: the new state, the calls of the list (and wake-ups of items) it makes, and
    how the poll ends; [fin t y] is its drop.

    Simplifications: keys are numbers; markers and the document are in DynList.v and UiList.v, so
    calls that panic (an unknown key) are not here; [retain] is a sequence of removals; a panic of
    an item is [None] (C59 treats it); a render future that is dropped after it has yielded leaves
    the queued items in their order. *)
From Coq Require Import List Arith Bool.
From Verif Require Import Arena Executor Queue.
Import ListNotations.

(** calls that concern the running of items: insert and remove (dynamic_list.rs:122-186), and the
    waker of the [t]-th item is woken (async_task) *)
Inductive lact := LInsert (k : nat) | LRemove (k : nat) | LWake (t : nat).
(** for the specification: the [j]-th render future is polled with [w], its waker [w] is woken, it
    is dropped [ghost] *)
Inductive lev := LPoll (j : nat) (w : waker) | LWoken (w : waker) | LStop (j : nat).

Section ListRun.
Variable ww : waker -> waker -> bool.
Variable Y : Type.
Variable code : nat -> Y -> Y * list lact * outcome.
Variable fin : nat -> Y -> Y * list lact.

(** the state of the program; the items in the list by key; how many were inserted
    (dynamic_list.rs:61-70) *)
Record its := mkI { i_y : Y; i_map : list (nat * nat); i_n : nat }.
(** HashMap lookup (dynamic_list.rs:172-176) *)
Definition lookup (k : nat) (m : list (nat * nat)) : option nat :=
  match find (fun e => fst e =? k) m with Some e => Some (snd e) | None => None end.
(** HashMap remove (dynamic_list.rs:172-176) *)
Definition del (k : nat) (m : list (nat * nat)) : list (nat * nat) := filter (fun e => negb (fst e =? k)) m.
(** dynamic_list.rs:122-186: insert spawns the task, and drops the task it replaces, which cancels
    it; remove drops the task *)
Definition call (a : lact) (x : its) : its * list (option tact) :=
  match a with
  | LInsert k =>
      (mkI (i_y x) ((k, i_n x) :: del k (i_map x)) (S (i_n x)),
       Some TSpawn :: match lookup k (i_map x) with Some o => [Some (TCancel o)] | None => [] end)
  | LRemove k =>
      match lookup k (i_map x) with
      | Some o => (mkI (i_y x) (del k (i_map x)) (i_n x), [Some (TCancel o)])
      | None => (x, [])
      end
  | LWake t => (x, [Some (TWake t)])
  end.
(** several, in order [dynamic_list.rs:122-186] *)
Fixpoint calls (l : list lact) (x : its) : its * list (option tact) :=
  match l with
  | [] => (x, [])
  | a :: r => let (x1, t1) := call a x in let (x2, t2) := calls r x1 in (x2, t1 ++ t2)
  end.
(** the poll of an item [user code; dynamic_list.rs:137-139] *)
Definition item_step (t : nat) (x : its) : its * list (option tact) * outcome :=
  let '(y, l, o) := code t (i_y x) in let (x', tl) := calls l (mkI y (i_map x) (i_n x)) in (x', tl, o).
(** the drop of an item [user code; dynamic_list.rs:137-139] *)
Definition item_fin (t : nat) (x : its) : its * list (option tact) :=
  let '(y, l) := fin t (i_y x) in calls l (mkI y (i_map x) (i_n x)).

(** the list's executor; the render future that has been polled and not dropped; render futures
    that were dropped; the waker with which the runner waits; the trace
    (dynamic_list.rs:53-59, 294-341) *)
Record st := mkL { l_q : qu its; l_cur : option nat; l_dead : list nat; l_wk : option waker; l_tr : list lev }.

(** Code outside the list's executor does something; the [j]-th render future is polled or dropped
    (dynamic_list.rs:122-186, 294-341) *)
Inductive lop := OCode (f : Y -> Y * list lact) | OPoll (j : nat) (w : waker) | ODropRender (j : nat).
(** async_executor: the runner waits with this waker; an equivalent one is kept
    [dynamic_list.rs:340; async_executor Ticker, Sleepers::update] *)
Definition keep (o : option waker) (w : waker) : waker := match o with Some o => if ww o w then o else w | None => w end.
(** the waker [w] is woken by these actions [dynamic_list.rs:340; async_executor State::notify] *)
Definition woken (w : option waker) (al : list act) : list lev :=
  flat_map (fun a => match a, w with AWake, Some w => [LWoken w] | _, _ => [] end) al.
(** dynamic_list.rs:340: [executor.run(pending())] is polled with [w] *)
Definition run_items (j : nat) (w : waker) (s : st) : option st :=
  let '(q, al, p) := batch its item_step item_fin 200 (l_q s) in
  if p then None
  else Some (mkL q (Some j) (l_dead s) (if q_asleep its q then Some (keep (l_wk s) w) else None) (woken (Some w) al ++ LPoll j w :: l_tr s)).
(** dynamic_list.rs:122-186, 294-341.  Rendering the list while another render future runs panics
    (320) *)
Definition exec (s : st) (o : lop) : option st :=
  match o with
  | OCode f =>
      let x := q_x its (l_q s) in
      let (y, l) := f (i_y x) in
      let (x', tl) := calls l (mkI y (i_map x) (i_n x)) in
      let (q, al) := do_tacts its tl (q_setx its x' (l_q s)) in
      Some (mkL q (l_cur s) (l_dead s) (if q_asleep its q then l_wk s else None) (woken (l_wk s) al ++ l_tr s))
  | OPoll j w =>
      if existsb (Nat.eqb j) (l_dead s) then Some s
      else match l_cur s with
           | None => run_items j w s
           | Some i => if i =? j then run_items j w s else None
           end
  | ODropRender j =>
      if existsb (Nat.eqb j) (l_dead s) then Some s
      else match l_cur s with
           | Some i =>
               if i =? j
               then let q := l_q s in
                    Some (mkL (mkQ its (q_x its q) (q_run its q) (q_n its q) (q_st its q) false (q_tr its q)) None (j :: l_dead s) None (LStop j :: l_tr s))
               else Some (mkL (l_q s) (l_cur s) (j :: l_dead s) (l_wk s) (l_tr s))
           | None => Some (mkL (l_q s) (l_cur s) (j :: l_dead s) (l_wk s) (l_tr s))
           end
  end.
(** a new list (dynamic_list.rs:88-103) *)
Definition init (y : Y) : st := mkL (q_start its (mkI y [] 0)) None [] None [].
(** a sequence of steps [a history; not a function of /repo] *)
Fixpoint execs (s : st) (ops : list lop) : option st :=
  match ops with [] => Some s | o :: ops => match exec s o with Some s1 => execs s1 ops | None => None end end.
(** a whole history [a history; not a function of /repo] *)
Definition run (y : Y) (ops : list lop) : option st := execs (init y) ops.

(** async_executor: a LocalExecutor that is dropped drops the runnables in its queue [n: enough
    steps]; items cannot use the list any more (dynamic_list.rs:344-348), only wake *)
Fixpoint drain (n : nat) (q : qu its) : option (qu its) :=
  match q_run its q with
  | [] => Some q
  | t :: r =>
      match n with
      | 0 => None
      | S n =>
          if forallb (fun a => match a with LWake _ => true | _ => false end) (snd (fin t (i_y (q_x its q))))
          then drain n (fst (drop_fut its item_fin t (mkQ its (q_x its q) r (q_n its q) (q_st its q) false (q_tr its q))))
          else None
      end
  end.
(** the list is dropped (dynamic_list.rs:53-59: first the HashMap with the tasks, in the order
    [ks] of its keys, then the executor); it is not rendered, since render futures borrow it *)
Definition drop_list (ks : list nat) (s : st) : option st :=
  match l_cur s with
  | Some _ => None
  | None =>
      let (x, tl) := calls (map LRemove ks) (q_x its (l_q s)) in
      match i_map x with
      | _ :: _ => None
      | [] =>
          let (q, _) := do_tacts its tl (q_setx its x (l_q s)) in
          match drain (length (q_run its q)) q with
          | Some q => Some (mkL q None (l_dead s) None (l_tr s))
          | None => None
          end
      end
  end.
End ListRun.
