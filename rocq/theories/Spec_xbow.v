(** Specification for C39-C41 and C43, on the trace (newest event first). *)
From Coq Require Import List Arith Bool NArith.
From Verif Require Import Arena Spec_arena Xbow.
Import ListNotations.

Section Spec.
Variable Seg : Type.
Notation ev := (ev Seg).
Notation path := (path Seg).

(** path [q] is [p] or contains [p] *)
Definition contains (q p : path) : Prop := exists r, p = q ++ r.
(** a mutable borrow of [q] counts as a change for a stream of path [p] *)
Definition affects (q p : path) (bubbling : bool) : Prop :=
  if bubbling then contains p q else contains q p.

(** what happened since stream [s] was polled last; [None] if it never was *)
Fixpoint since_poll (s : nat) (t : list ev) : option (list ev) :=
  match t with
  | [] => None
  | TPoll _ s' w r :: t' =>
      if s' =? s then Some []
      else match since_poll s t' with Some l => Some (TPoll _ s' w r :: l) | None => None end
  | e :: t' => match since_poll s t' with Some l => Some (e :: l) | None => None end
  end.
(** the waker of the last poll of [s] *)
Fixpoint last_waker (s : nat) (t : list ev) : option waker :=
  match t with
  | [] => None
  | TPoll _ s' w _ :: t' => if s' =? s then Some w else last_waker s t'
  | _ :: t' => last_waker s t'
  end.
(** stream [s] of path [p] exists *)
Definition live (s : nat) (p : path) (bubbling : bool) (t : list ev) : Prop :=
  In (TNew _ s p bubbling) t /\ ~ In (TDrop _ s) t.

(** the streams that exist, with their paths *)
Fixpoint alive (t : list ev) : list (nat * (path * bool)) :=
  match t with
  | [] => []
  | TNew _ s p b :: t' => (s, (p, b)) :: alive t'
  | TDrop _ s :: t' => filter (fun x => negb (fst x =? s)) (alive t')
  | _ :: t' => alive t'
  end.

(** the keys of a path, and freedom of collisions among some paths *)
Variable H : list Seg -> N.
Definition regular_key (p : path) : N := regular_from (H p) (N.of_nat (S (length p)) mod 256).
Definition bubbling_key (p : path) : N := bubbling_from (H p).
Definition no_collision (P : path -> Prop) : Prop :=
  forall p q, P p -> P q ->
  (regular_key p = regular_key q -> p = q) /\ (bubbling_key p = bubbling_key q -> p = q) /\
  regular_key p <> bubbling_key q.
(** the paths that a history mentions, with all paths that contain them *)
Definition op_path (o : op Seg) : option path :=
  match o with ONew _ p _ => Some p | ONotify _ q => Some q | _ => None end.
Definition used (ops : list (op Seg)) (p : path) : Prop :=
  exists o q, In o ops /\ op_path o = Some q /\ contains p q.
End Spec.
