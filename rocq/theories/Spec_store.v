(** Specification for C44 and C45, on the traces of a store (newest event first). *)
From Coq Require Import List Arith Bool NArith.
From Verif Require Import Arena Spec_arena Xbow Spec_xbow XbowData XbowStore.
Import ListNotations.

Section Spec.
Variable K : Type.
Notation val := (val K).
Notation path := (list (seg K)).
Notation sev := (sev K).

(** what helper [h] was told last: the value its callback was called with, that its stream
    yielded, or that it stored itself for its incoming stream *)
Fixpoint shown (h : nat) (t : list sev) : option val :=
  match t with
  | [] => None
  | e :: t' =>
      let told h' v := if h' =? h then Some v else shown h t' in
      match e with
      | ECall _ h' v => told h' v
      | EFut _ h' _ v => told h' v
      | EItem _ h' (Some v) => told h' v
      | EWrote _ h' v => told h' v
      | _ => shown h t'
      end
  end.

(** [p] or something that contains it was borrowed mutably since the last poll of [h] *)
Definition changed (h : nat) (p : path) (t : list (ev (seg K))) : Prop :=
  exists d q, since_poll _ h t = Some d /\ In (TNotify _ q) d /\ contains _ q p.
Definition never_polled (h : nat) (t : list (ev (seg K))) : Prop := since_poll _ h t = None.
(** the task of the last poll of [h] was woken after that poll *)
Definition woken (h : nat) (t : list (ev (seg K))) : Prop :=
  exists d wk wk', since_poll _ h t = Some d /\ last_waker _ h t = Some wk /\ In (TWake _ wk') d /\ w_task wk' = w_task wk.

(** The operation does not change the data at [p] behind the back of a listener of [p]:
    writes strictly inside [p] and writes without notification are not reported to it. *)
Definition act_visible (p : path) (a : act K) : Prop :=
  match a with
  | AWrite _ q _ _ => contains _ p q -> q = p
  | AQuiet _ q _ _ => ~ contains _ p q /\ ~ contains _ q p
  | ANotify _ _ => True
  end.
Definition visible (p : path) (o : sop K) : Prop :=
  match o with
  | SAct _ a => act_visible p a
  | SPoll _ _ _ e => Forall (act_visible p) (e_acts _ e)
  | SNew _ KBind q => contains _ p q -> q = p
  | _ => True
  end.

(** futures *)
Definition created (h n : nat) (t : list sev) : Prop := exists v, In (EFut _ h n v) t.
Definition dropped (n : nat) (t : list sev) : Prop := In (EFutDrop _ n) t.

(** the paths that the operations of a store use (with everything that contains them) *)
Definition act_path (a : act K) : path :=
  match a with AWrite _ q _ _ => q | AQuiet _ q _ _ => q | ANotify _ q => q end.
Definition sop_paths (o : sop K) : list path :=
  match o with
  | SAct _ a => [act_path a]
  | SStream _ o => match op_path _ o with Some q => [q] | None => [] end
  | SNew _ _ q => [q]
  | SPoll _ _ _ e => map act_path (e_acts _ e)
  | SDrop _ _ => []
  end.
Definition sused (ops : list (sop K)) (p : path) : Prop :=
  exists o q, In o ops /\ In q (sop_paths o) /\ contains _ p q.
End Spec.
