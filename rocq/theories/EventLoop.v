(** Model of a component that waits for events in a loop, as
    /repo/examples/web-simple-examples/src/counter.rs:7-31 does: it joins [m] futures that only
    show something with the block

      loop { text.set_data(..state..); select! { e = target0.until_event() => .., e = target1.. } }

    which shows its state, waits for the first event at one of [n] targets, and changes its
    state.  It is put together from the models of the other files: the tree of blocks and
    combinators of Tree.v, the select! macro (Select.v: a race of the branches, dropped before the
    arm of the branch that won is evaluated), the event streams and listener lists of Event.v, and
    the root executor of Executor.v, which App.v joins with the tree.

    Simplifications: those of App.v; what is shown is the state itself (its text in counter.rs); no
    target is inside another one, and nothing else listens to them; the document is not here. *)
From Coq Require Import List Arith Bool.
From Verif Require Import Arena Readiness Combinator Tree Executor App Event.
Import ListNotations.

Section EventLoop.
Variable ww : waker -> waker -> bool.
Variable debug : bool.
(** the number of futures that only show something; of targets [counter.rs:13-28] *)
Variables m n : nat.
(** the state of the component, and what an event does to it: its target and its number (counter.rs:20-27, where
    the events are not looked at; circles.rs:64-71, where they are) *)
Variable A : Type.
Variable step : A -> nat * nat -> A.
(** the bound on the length of one poll, and on the polls in one run of the executor; any bound
    that is not too small gives the same *)
Variables bound rounds : nat.

(** the component's state, what it shows, the event streams with the listeners in the browser, the
    first of the streams of the select! it waits in (counter.rs:8-11, 18-27) *)
Record lst := mkLp { lp_state : A; lp_shown : option A; lp_ev : Event.world; lp_base : nat }.
Notation val := (nat * nat)%type.
Notation nxt := (Tree.next val).
(** join/tuple.rs:8-18; the result, which is never reached, is of the same type here *)
Definition joinB : behavior val val val := mkB val val val false (fun _ v => inr v) (fun _ => Some (0, 0)).
(** race/tuple.rs:9-22; the outputs are the branches with their events (select.rs:58-82) *)
Definition raceB : behavior val val val := mkB val val val true (fun _ v => inl v) (fun _ => None).

(** counter.rs:19-21: show the state and make the streams of the select! *)
Definition enter (x : lst) : lst :=
  mkLp (lp_state x) (Some (lp_state x)) (fold_left (exec_b ww) (map (fun i => BNew i 0) (seq 0 n)) (lp_ev x)) (next (lp_ev x)).
(** select.rs:58-82, counter.rs:21-26: the streams of the select! are dropped, and the arm of the
    branch of [i] is evaluated with its event *)
Definition leave (i : val) (x : lst) : lst :=
  mkLp (step (lp_state x) i) (lp_shown x) (fold_left (exec_b ww) (map (fun i => BDrop (lp_base x + i)) (seq 0 n)) (lp_ev x)) (lp_base x).
(** select.rs:75: branch [i] polls its stream (event_handling.rs:87-136) *)
Definition poll_branch (x : lst) (i : nat) (wk : waker) : lst * nxt :=
  match streams (lp_ev x) (lp_base x + i) with
  | None => (x, NPend)
  | Some st =>
      (mkLp (lp_state x) (lp_shown x) (exec_b ww (lp_ev x) (BPoll (lp_base x + i) wk)) (lp_base x),
       if s_closure st then match s_slot st with Some e => NRet (i, e) | None => NPend end else NPend)
  end.

(** counter.rs:12-30 *)
Definition code (x : lst) (p : place) (got : option val) : lst * list place * nxt :=
  match p, got with
  | Root, None => (x, [], NAwait KTuple joinB (S m))
  | Root, Some v => (x, [], NRet v)
  | Kid 0 i, _ =>
      if i =? m then (enter (match got with Some b => leave b x | None => x end), [], NAwait KTuple raceB n)
      else (x, [], NPend)
  | Kid (S k) i, _ => let (x', nx) := poll_branch x i (waker_of (Kid (S k) i)) in (x', [], nx)
  end.

Notation tree := (Tree.world val lst).
Notation app_exec := (app_exec val lst ww debug code bound).

(** event_handling.rs:106-113: the closure of a stream is called: it keeps the event and wakes the
    waker of the stream; [run_now] follows ([pexec]) *)
Definition call (e : nat) (r : rres tree) (l : listener) : rres tree :=
  match r with
  | Live s =>
      match streams (lp_ev (w_x _ _ (xs _ s))) (l_cb l) with
      | None => r
      | Some st =>
          let r1 := app_exec r (AEnvB (fun x => mkLp (lp_state x) (lp_shown x) (invoke (lp_ev x) (l_cb l) e) (lp_base x))) in
          match w_task (s_waker st) with Some t => app_exec r1 (AWakeB (place_of t)) | None => r1 end
      end
  | _ => r
  end.
(** the browser calls the listeners of target [t] for event [e] (DOM standard; event_handling.rs:106-113) *)
Definition dispatch (r : rres tree) (te : nat * nat) : rres tree :=
  match r with
  | Live s => fold_left (call (snd te)) (copy 0 (fst te, false) (listeners (lp_ev (w_x _ _ (xs _ s))))) r
  | _ => r
  end.
(** does anything listen to one of these events? (DOM standard) *)
Definition heard_by (r : rres tree) (l : list (nat * nat)) : bool :=
  match r with
  | Live s => existsb (fun te => negb (length (copy 0 (fst te, false) (listeners (lp_ev (w_x _ _ (xs _ s))))) =? 0)) l
  | _ => false
  end.
(** What happens on the page.  [PEvents l]: the events [l] (targets and numbers) are dispatched, and
    if something listens to one of them, [run_now] then does its work.  One event from the browser
    is [PEvents [e]]; several events are dispatched by code that the executor runs
    ([element.click()]), where the calls of [run_now] in between do nothing (C23).  [PRun]: an event
    of something else on the page calls [run_now].  [PFire]: a timer fires (core executor.rs:49-79). *)
Inductive pev := PEvents (l : list (nat * nat)) | PRun | PFire.
(** one step (core executor.rs:49-79, event_handling.rs:106-113) *)
Definition pexec (r : rres tree) (e : pev) : rres tree :=
  match e with
  | PEvents l => let r' := fold_left dispatch l r in if heard_by r l then app_exec r' (ARunNow rounds) else r'
  | PRun => app_exec r (ARunNow rounds)
  | PFire => app_exec r (AFire rounds)
  end.
(** the component is mounted (mount.rs:23-28), then all this happens *)
Definition prun (a : A) (evs : list pev) : rres tree :=
  fold_left pexec evs
    (app_exec (Live (start tree (Tree.start val lst (mkLp a None (mkW 0 (fun _ => None) [] []) 0)))) AStart).
End EventLoop.
Arguments lp_state {A}. Arguments lp_shown {A}. Arguments lp_ev {A}. Arguments lp_base {A}.
