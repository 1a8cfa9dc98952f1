(** Specification vocabulary for UI trees: what a UI future should show. *)
From Coq Require Import List NArith.
From Verif Require Import Ui Dom.
Import ListNotations.

(** the nodes a future shows directly in the surrounding element, in order *)
Fixpoint out (f : fut) : list node :=
  match f with
  | FLeaf => []
  | FElem n _ _ Added _ => [n]
  | FElem _ _ _ _ _ => []
  | FComb _ cs => flat_map out cs
  | FBlock c => out c
  end.

(** elements that are (or contain) rendered content, with the future running inside *)
Fixpoint containers (f : fut) : list (node * fut) :=
  match f with
  | FLeaf => []
  | FElem n _ _ m ch =>
      match m with ShouldAdd => [] | _ => [(n, ch)] end ++ containers ch
  | FComb _ cs => flat_map containers cs
  | FBlock c => containers c
  end.

(** all element nodes and group identities mentioned in a future *)
Fixpoint nodes (f : fut) : list node :=
  match f with
  | FLeaf => []
  | FElem n _ _ _ ch => n :: nodes ch
  | FComb _ cs => flat_map nodes cs
  | FBlock c => nodes c
  end.
Fixpoint gids (f : fut) : list nat :=
  match f with
  | FLeaf => []
  | FElem _ g _ _ ch => g :: gids ch
  | FComb _ cs => flat_map gids cs
  | FBlock c => gids c
  end.

(** a future that was never polled: every element still has to be added; and no
    combinator has more than 2^32-1 children *)
Fixpoint unpolled (f : fut) : Prop :=
  match f with
  | FLeaf => True
  | FElem _ _ _ m ch => m = ShouldAdd /\ unpolled ch
  | FComb _ cs => (N.of_nat (length cs) <= 4294967295)%N /\
      (fix all (l : list fut) : Prop :=
         match l with [] => True | f :: t => unpolled f /\ all t end) cs
  | FBlock c => unpolled c
  end.

(** the futures that a schedule creates while running *)
Fixpoint created (s : sched) : list fut :=
  match s with
  | SNone => []
  | SElem s' => created s'
  | SComb l => (fix go (l : list (nat * sched)) : list fut :=
                  match l with [] => [] | (_, s') :: t => created s' ++ go t end) l
  | SBlock l => (fix go (l : list baction) : list fut :=
                   match l with
                   | [] => []
                   | BPoll s' :: t => created s' ++ go t
                   | BReplace f :: t => f :: go t
                   end) l
  end.

(** addresses of the blockers in a future *)
Fixpoint addrs (f : fut) : list nat :=
  match f with
  | FLeaf => []
  | FElem _ _ a _ ch => a :: addrs ch
  | FComb a cs => a :: flat_map addrs cs
  | FBlock c => addrs c
  end.

(** does dropping the future have to remove nodes from the surrounding element
    (it contains a rendered element or a combinator not nested in another rendered
    element)? *)
Fixpoint touches (f : fut) : bool :=
  match f with
  | FLeaf => false
  | FElem _ _ _ Added _ => true
  | FElem _ _ _ _ ch => touches ch
  | FComb _ _ => true
  | FBlock c => touches c
  end.

(** identities used by an application: its elements are distinct, free (detached,
    not fragments) and new; its groups are distinct and new (empty) *)
Definition fresh_app (d : dom) (gr : nat -> list (list N * nat)) (root : node) (g : nat)
  (fs : list fut) : Prop :=
  NoDup (root :: flat_map nodes fs) /\ NoDup (g :: flat_map gids fs) /\
  frag d root = false /\
  (forall n, In n (flat_map nodes fs) -> par d n = None /\ frag d n = false) /\
  (forall h, In h (g :: flat_map gids fs) -> gr h = []) /\
  Forall unpolled fs.
