(** Model of a whole page with everything it shows: any number of mounted applications on the
    application-wide executor (Page.v), whose blocks render elements (Screen.v) in the one
    document of the page (mount.rs:23-28, node_container.rs:17-97).

    Application [t] is mounted in the node [root t]; its elements are made as in Screen.v, from a
    supply of its own ([elem t k] is its [k]-th element).

    Simplifications: those of Page.v and Screen.v.  A panic in the drop of an application's future
    (it touches the document outside of any rendering context, C07) is recorded in [sg_crash];
    from then on nothing is rendered in the model, and the theorems about the document say nothing.
    When code panics in a poll, nothing of that poll is kept (nor in the document). *)
From Coq Require Import List Arith NArith Bool.
From Verif Require Import Arena Readiness Combinator Tree Position Dom Context Ui Screen Executor Queue Page.
Import ListNotations.

Section Stage.
Variables V X : Type.
Variable ww : waker -> waker -> bool.
Variable debug : bool.
Variable bound : nat.
Variables (root : nat -> Dom.node) (grp0 : nat -> gid) (adr0 : nat -> addr).
Variables (elem : nat -> nat -> Dom.node) (grp : nat -> nat -> gid) (adr_e adr_c : nat -> nat -> addr).
(** what block [p] of application [t] does: as in Page.v, and the elements it enters and leaves *)
Variable code : nat -> X -> place -> option V -> X * list gact * list uact * next V.
Variable on_drop : nat -> X -> X * list gact.
Notation tree := (world V (X * list gact)).

(** the same program without its rendering (user code, polled through common/vec.rs:90-161; for
    Page.v) *)
Definition unseen (t : nat) (x : X) (p : place) (got : option V) : X * list gact * next V :=
  let r := code t x p got in (fst (fst (fst r)), snd (fst (fst r)), snd r).
(** the code of the blocks of application [t], as Screen.v wants it (user code, polled through
    common/vec.rs:90-161) *)
Definition stage_code (t : nat) (z : X * list gact) (p : place) (got : option V)
  : (X * list gact) * list place * list uact * next V :=
  let r := code t (fst z) p got in
  ((fst (fst (fst r)), snd z ++ filter (foreign t) (snd (fst (fst r)))), flat_map (own t) (snd (fst (fst r))), snd (fst r), snd r).

(** of each application: its future with all it renders, how many elements it has made, what it
    has rendered [node_container.rs:17-25; ghost] *)
Record view := mkV { v_fut : ufut; v_next : nat; v_log : list dev }.
(** the page; the applications' views; the document (context.rs:29) *)
Record stage := mkSg { sg_p : page V X; sg_v : nat -> view; sg_u : ustate; sg_crash : bool }.
(** record update: the page, not the document (of context.rs:29) *)
Definition with_p (p : page V X) (y : stage) : stage := mkSg p (sg_v y) (sg_u y) (sg_crash y).
(** nothing is mounted yet (before mount.rs:23-28) *)
Definition stage0 (d : dom) (gr : gid -> group) (x : X) : stage :=
  mkSg (page0 V X x) (fun _ => mkV u0 0 []) (mkU (mkR d gr) None 0) false.

(** a poll of the future of task [t]: mount.rs:25, node_container.rs:61-74, executor.rs:31 *)
Definition stage_step (t : nat) (y : stage) : stage * list (option tact) * outcome :=
  let p := sg_p y in
  if sg_crash y then let '(p', l, o) := page_step V X ww debug bound unseen t p in (with_p p' y, l, o)
  else
  let w := Tree.set_x V _ (pg_x V X p, []) (pg_t V X p t) in
  let v := sg_v y t in
  match Screen.exec V _ ww debug (elem t) (grp t) (adr_e t) (adr_c t) (stage_code t) (root t) (grp0 t) (HPoll bound 0)
          (v_fut v, mkS V _ w (sg_u y) (v_next v) (v_log v)) with
  | Done (u', s') =>
      let w' := s_w V _ s' in
      let (p2, l) := do_gacts V X (snd (w_x V _ w')) (mkPg V X (pg_t V X (set_app V X t w' p)) (fst (w_x V _ w')) (pg_fault V X p)) in
      (mkSg p2 (fun s => if Nat.eqb s t then mkV u' (s_next V _ s') (s_log V _ s') else sg_v y s) (s_u V _ s') false,
       repeat (Some (TWake t)) (App.root_wakes V (w_tr V _ w) (w_tr V _ w')) ++ l, if w_over V _ w' then Ready else Pend)
  | Fault => (with_p (mkPg V X (pg_t V X p) (pg_x V X p) true) y, [], Panics)
  | _ => (y, [], Panics)
  end.
(** the future of an application, as Ui.v has it [mount.rs:23-28, node_container.rs:48-56] *)
Definition mounted (t : nat) (v : view) : fut :=
  mount (root t) (grp0 t) (adr0 t) (FBlock (cur_of (elem t) (grp t) (adr_e t) (adr_c t) (v_fut v))).
(** its drop (mount.rs:19-21, or because it is finished; node_container.rs:77-97), with no
    rendering context set *)
Definition stage_fin (t : nat) (y : stage) : stage * list (option tact) :=
  let (p, l) := page_fin V X on_drop t (sg_p y) in
  if sg_crash y then (with_p p y, l)
  else match unmount (mounted t (sg_v y t)) (sg_u y) with
       | Some st => (mkSg p (sg_v y) st false, l)
       | None => (mkSg p (sg_v y) (sg_u y) true, l)
       end.

(** what the executor gets to see of an event, as in Page.v (core executor.rs:49-79) *)
Definition sevents (y : stage) (e : pev X) : list (xev stage) :=
  match e with
  | PDo a => let (p', l) := do_gact V X a (sg_p y) in
      XEnv (fun _ => with_p p' y) :: flat_map (fun o => match o with Some b => [XDo b] | None => [] end) l
  | PCode f => let (x, a) := f (pg_x V X (sg_p y)) in
      let (p', l) := do_gacts V X a (mkPg V X (pg_t V X (sg_p y)) x (pg_fault V X (sg_p y))) in
      XEnv (fun _ => with_p p' y) :: flat_map (fun o => match o with Some b => [XDo b] | None => [] end) l
  | PFire f => [XFire f]
  | PRun f => [XRun f]
  end.
(** one step (core executor.rs:49-79) *)
Definition stexec (r : rres (qu stage)) (e : pev X) : rres (qu stage) :=
  match r with
  | Live s | Crashed s => fold_left (xexec stage stage_step stage_fin) (sevents (q_x _ (xs _ s)) e) r
  | Stuck => Stuck
  end.
(** a whole history, from executor.rs:29-32 on *)
Definition strun (d : dom) (gr : gid -> group) (x : X) (evs : list (pev X)) : rres (qu stage) :=
  fold_left stexec evs (Live (start _ (q_start _ (stage0 d gr x)))).
End Stage.
