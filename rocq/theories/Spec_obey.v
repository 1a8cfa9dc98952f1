(** Specification for C66: a tree of async blocks runs the code of the blocks as written. *)
From Coq Require Import List Arith Bool.
From Verif Require Import Combinator Executor Queue App Page Tree.
Import ListNotations.

Section Spec.
Variables V X : Type.
Notation ev := (ev V).

(** the root block exists from the start, the children of a combinator from its creation *)
Definition made (p : place) (tr : list ev) : Prop :=
  match p with Root => True | Kid n i => exists k b q, In (ENew n k b q) tr /\ i < k end.

(** a wake of the waker of [p] goes some way up: the block that awaits the combinator of
    [p], the block that awaits the combinator of that one, ... *)
Inductive chain (tr : list ev) : place -> list place -> Prop :=
| chain_end p : chain tr p [p]
| chain_up n i k b q l : In (ENew n k b q) tr -> chain tr q l -> chain tr (Kid n i) (Kid n i :: l).
(** [ws] are woken, in this order *)
Inductive woke (tr : list ev) : list place -> list place -> Prop :=
| woke_nil : woke tr [] []
| woke_none p ws ks : ~ made p tr -> woke tr ws ks -> woke tr (p :: ws) ks
| woke_one p ws l ks : made p tr -> chain tr p l -> woke tr ws ks -> woke tr (p :: ws) (l ++ ks).

(** what must happen next when the code of block [p] says [nx] *)
Definition next_event (tr : list ev) (p : place) (nx : next V) (e : ev) : Prop :=
  match nx with
  | NPend => e = EPend p
  | NRet v => e = EDone p v
  | NPanic => False
  | NAwait _ b n => exists id, e = ENew id n b p /\ forall k' b' p', ~ In (ENew id k' b' p') tr
  end.

Variable code : X -> place -> option V -> X * list place * next V.
(** [plays tr x l x']: after [tr] (newest first), when the state is [x], the events [l]
    (oldest first) may happen, and then the state is [x'].  Whenever a block goes on, its code
    is run on the state as it is, the wakers it wakes are woken, and then it waits, returns,
    or creates the combinator, just as its code says.  Nothing else wakes a waker, returns
    from a block, creates a combinator or changes the state. *)
Inductive plays : list ev -> X -> list ev -> X -> Prop :=
| plays_nil tr x : plays tr x [] x
| plays_run tr x p got x1 ws nx ks e l x2 :
    code x p got = (x1, ws, nx) -> woke tr ws ks -> next_event tr p nx e ->
    plays (e :: rev (map EWake ks) ++ ERun p got :: tr) x1 l x2 ->
    plays tr x (ERun p got :: map EWake ks ++ e :: l) x2
| plays_other tr x e l x2 :
    match e with EPoll _ | EPend _ | EGone _ _ => True | _ => False end ->
    plays (e :: tr) x l x2 -> plays tr x (e :: l) x2.
End Spec.
Arguments made {V}. Arguments chain {V}. Arguments woke {V}. Arguments next_event {V}. Arguments plays {V X}.

(** ** Tasks (Queue.v) and pages (Page.v) *)
Definition count {A} (f : A -> bool) (l : list A) : nat := length (filter f l).
(** the event of the task's trace that says that [a] was done *)
Definition q_does (a : tact) (e : qev) : bool :=
  match a, e with
  | TWake t, QWake u => Nat.eqb t u
  | TSpawn, QSpawn _ => true
  | TCancel t, QCancel u => Nat.eqb t u
  | _, _ => false
  end.
(** the tasks dropped, oldest first *)
Fixpoint drops (tr : list qev) : list nat := match tr with [] => [] | QDrop t :: r => drops r ++ [t] | _ :: r => drops r end.
(** the spawns and cancellations, oldest first *)
Fixpoint orders (tr : list qev) : list tact :=
  match tr with [] => [] | QSpawn _ :: r => orders r ++ [TSpawn] | QCancel t :: r => orders r ++ [TCancel t] | _ :: r => orders r end.
(** the code does [a] *)
Definition does (a : tact) (o : option tact) : bool :=
  match a, o with
  | TWake t, Some (TWake u) => Nat.eqb t u
  | TSpawn, Some TSpawn => true
  | TCancel t, Some (TCancel u) => Nat.eqb t u
  | _, _ => false
  end.
(** code outside the executor does [a] *)
Definition outside {X} (a : tact) (e : xev X) : bool := match e with XDo b => does a (Some b) | _ => false end.
(** the spawns and cancellations among what code does *)
Definition t_orders (l : list (option tact)) : list tact :=
  flat_map (fun o => match o with Some TSpawn => [TSpawn] | Some (TCancel t) => [TCancel t] | _ => [] end) l.
(** Programs that keep a log of what they do: [log x] is the log in the state [x] *)
Definition keeps_log {X} (log : X -> list (option tact)) (step : nat -> X -> X * list (option tact) * outcome)
  (fin : nat -> X -> X * list (option tact)) (evs : list (xev X)) : Prop :=
  (forall t x x' l o, step t x = (x', l, o) -> log x' = log x ++ l) /\
  (forall t x x' l, fin t x = (x', l) -> log x' = log x ++ l) /\
  (forall f x, In (XEnv f) evs -> log (f x) = log x).

(** the same for pages *)
Definition g_does (a b : gact) : bool :=
  match a, b with
  | GWake t p, GWake u q => Nat.eqb t u && place_eqb p q
  | GSpawn, GSpawn => true
  | GCancel t, GCancel u => Nat.eqb t u
  | _, _ => false
  end.
Definition g_orders (l : list gact) : list tact :=
  flat_map (fun a => match a with GSpawn => [TSpawn] | GCancel t => [TCancel t] | _ => [] end) l.
Definition p_outside {X} (a : gact) (e : pev X) : bool := match e with PDo b => g_does a b | _ => false end.
Definition page_log {V X} (log : X -> list gact) (code : nat -> X -> place -> option V -> X * list gact * next V)
  (on_drop : nat -> X -> X * list gact) (evs : list (pev X)) : Prop :=
  (forall t x p got x' l nx, code t x p got = (x', l, nx) -> log x' = log x ++ l) /\
  (forall t x x' l, on_drop t x = (x', l) -> log x' = log x ++ l) /\
  (forall f x x' l, In (PCode f) evs -> f x = (x', l) -> log x' = log x ++ l).

(** what code was run: the block and what it got, oldest first *)
Definition runs {V} (tr : list (ev V)) : list (place * option V) :=
  flat_map (fun e => match e with ERun p got => [(p, got)] | _ => [] end) (rev tr).
(** Code that notes in the shared state when it is run, and for which application *)
Definition notes_runs {V X} (note : X -> list (nat * (place * option V))) (code : nat -> X -> place -> option V -> X * list gact * next V)
  (on_drop : nat -> X -> X * list gact) (evs : list (pev X)) : Prop :=
  (forall t x p got x' l nx, code t x p got = (x', l, nx) -> note x' = note x ++ [(t, (p, got))]) /\
  (forall t x x' l, on_drop t x = (x', l) -> note x' = note x) /\
  (forall f x x' l, In (PCode f) evs -> f x = (x', l) -> note x' = note x).
(** the notes of application [t] *)
Definition notes_of {A} (t : nat) (l : list (nat * A)) : list A := map snd (filter (fun e => Nat.eqb (fst e) t) l).
(** the same for the code that is run when an application is dropped *)
Definition notes_drops {V X} (note : X -> list nat) (code : nat -> X -> place -> option V -> X * list gact * next V)
  (on_drop : nat -> X -> X * list gact) (evs : list (pev X)) : Prop :=
  (forall t x p got x' l nx, code t x p got = (x', l, nx) -> note x' = note x) /\
  (forall t x x' l, on_drop t x = (x', l) -> note x' = note x ++ [t]) /\
  (forall f x x' l, In (PCode f) evs -> f x = (x', l) -> note x' = note x).
