(** Model of the select! macro: /repo/async_ui_web_macros/src/select.rs:58-82.  The
    generated code is

      match race((async { Variant0(future0.await) }, ..., )).await {
          Variant0(pattern0) => expr0, ... }

    on the model of race for tuples (Combinator.v).  Branches have one type [V] of outputs
    here; the enum is a pair of the number of the variant and the output.  Parsing (19-58) is
    not modelled. *)
From Coq Require Import List Arith Bool.
From Verif Require Import Arena Readiness Combinator.
Import ListNotations.

Section Select.
Variables V X : Type.
Variable ww : waker -> waker -> bool.
Variable debug : bool.
(** what polling the future of branch [i] does *)
Variable fut : X -> nat -> X * list nat * cres V.

(** select.rs:75: async { Variant_i(future_i.await) } *)
Definition branch (x : X) (i : nat) : X * list nat * cres (nat * V) :=
  let '(x', wakes, r) := fut x i in
  (x', wakes, match r with CPending => CPending | CReady v => CReady (i, v) | CPanic => CPanic end).
Notation world := (world (nat * V) Empty_set (nat * V) X).
Notation rexec := (exec (nat * V) Empty_set (nat * V) X ww debug (race_behavior (nat * V)) branch).

(** Racing; evaluating the handler of branch [i] for output [v] (with what had happened when
    that began); panicked; dropped before [select.rs:58-82] *)
Inductive status :=
| Racing
| Handling (i : nat) (v : V) (before : list (ev (nat * V) Empty_set (nat * V)))
| Panicked
| Dropped.
(** the future of a select! expression (select.rs:58-82): the race and where the block is *)
Record sel := mkSel { s_w : world; s_st : status }.

(** The enclosing async block.  When the race returns, it is dropped, as [.await] owns it, and
    the arm of the variant is evaluated.  A panic unwinds, which drops the race.
    [select.rs:58-82] *)
Definition sel_exec (s : sel) (e : sev X) : sel :=
  match e with
  | SPoll _ wk =>
      match s_st s with
      | Racing =>
          let w := rexec (s_w s) (SPoll _ wk) in
          match wtr _ _ _ _ w with
          | ERet (PReady (i, v)) :: _ => let w' := rexec w (SDrop _) in mkSel w' (Handling i v (wtr _ _ _ _ w'))
          | ERet PPanic :: _ => mkSel (rexec w (SDrop _)) Panicked
          | _ => mkSel w Racing
          end
      | _ => s
      end
  | SDrop _ =>
      match s_st s with
      | Racing => mkSel (rexec (s_w s) (SDrop _)) Dropped
      | _ => s
      end
  | _ => mkSel (rexec (s_w s) e) (s_st s)
  end.
(** a history of the expression (select.rs:58-82), beginning before its first poll *)
Definition sel_run (n : nat) (x : X) (evs : list (sev X)) : sel :=
  fold_left sel_exec evs (mkSel (start (nat * V) Empty_set (nat * V) X KTuple n x) Racing).
(** the value of the select! expression, with [handlers] the arms of the match
    [select.rs:58-82] *)
Definition sel_value {O} (handlers : nat -> V -> O) (s : sel) : option O :=
  match s_st s with Handling i v _ => Some (handlers i v) | _ => None end.
End Select.
