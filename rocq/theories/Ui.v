(** Model of UI futures: ContainerNodeFuture (node_container.rs), the combinators'
    interaction with the rendering context (combinators/common/*.rs), async
    blocks, and DetachmentBlocker (dropping.rs).

    What a poll does inside user code is not determined by the library; it is
    given by a schedule ([sched]): which children a combinator polls (any
    sequence of indices), and in an async block, whether the awaited future is
    polled or dropped and replaced by another one.  All theorems quantify over
    schedules. *)
From Coq Require Import List Arith NArith Bool.
From Verif Require Import Position Dom Context.
Import ListNotations.

(** address of a [DetachmentBlocker] object (dropping.rs:28; a zero-sized field,
    so different blockers MAY have the same address) *)
Definition addr := nat.

(** node_container.rs:28-32 [enum AddSelfMode] *)
Inductive addmode := ShouldNotAdd | ShouldAdd | Added.

Inductive fut :=
| FLeaf                                  (* a future that renders nothing and contains no UI future (NoChild, event waits, timers) *)
| FElem (n : node) (g : gid) (a : addr) (m : addmode) (child : fut)
                                         (* node_container.rs:18-25 ContainerNodeFuture: container node, its NodeGroup, blocker, mode, child_future *)
| FComb (a : addr) (children : list fut) (* join/race/... over array, tuple or vec: blocker and futures *)
| FBlock (cur : fut).                    (* async block awaiting [cur] *)

Inductive sched :=
| SNone                                  (* nothing below is polled *)
| SElem (s : sched)
| SComb (l : list (nat * sched))         (* children polled, in this order *)
| SBlock (l : list baction)
with baction :=
| BPoll (s : sched)                      (* the awaited future is polled *)
| BReplace (f : fut).                    (* it is dropped, [f] is created and awaited next *)

(** document and groups; [IS_DROPPING] (dropping.rs:14-21, [None] = null);
    a ghost counter of context removals performed by drops *)
Record ustate := mkU { ur : rstate; udrop : option addr; udet : nat }.

(** record update: document and groups [bookkeeping of the model] *)
Definition with_r (st : ustate) (r : rstate) : ustate := mkU r (udrop st) (udet st).

(** dropping.rs:35-44 [block_until_drop]: returns (was already blocked, new state) *)
Definition block_until_drop (a : addr) (st : ustate) : bool * ustate :=
  match udrop st with
  | None => (false, mkU (ur st) (Some a) (udet st))
  | Some _ => (true, st)
  end.

(** dropping.rs:47-57 [impl Drop for DetachmentBlocker] *)
Definition blocker_drop (a : addr) (st : ustate) : ustate :=
  match udrop st with
  | Some b => if Nat.eqb b a then mkU (ur st) None (udet st) else st
  | None => st
  end.

(** [DOM_CONTEXT.with(|ctx| ctx.remove_child(ChildPosition::default()))]:
    panics when no context is set (scoped_tls) [dropping.rs:47-57] *)
Definition detach_here (c : option ctx) (st : ustate) : option ustate :=
  match c with
  | None => None
  | Some c => match remove_child_ctx c pos_default (ur st) with
              | None => None
              | Some r => Some (mkU r (udrop st) (S (udet st)))
              end
  end.

(** Drop glue.
    FElem: node_container.rs:77-97 (PinnedDrop), then the fields in declaration
    order: child_future, group, container, add_self, drop (the blocker).
    FComb: combinators/common/array.rs:213-233 (tuple.rs, vec.rs alike), then the
    fields: futures in order, detachment_blocker last.
    The thread-local DOM_CONTEXT is that of the code performing the drop
    throughout. Dropping stored outputs is modelled in Combinator.v. *)
Fixpoint drop_fut (f : fut) (c : option ctx) (st : ustate) : option ustate :=
  match f with
  | FLeaf => Some st
  | FElem n g a m ch =>
      let r :=
        match m with
        | Added =>
            let (blocked, st1) := block_until_drop a st in
            if blocked then Some st1 else detach_here c st1
        | _ =>
            match remove_child_ctx (CContainer g n) pos_default (ur st) with
            | None => None
            | Some r => Some (with_r st r)
            end
        end in
      match r with
      | None => None
      | Some st2 =>
          match drop_fut ch c st2 with
          | None => None
          | Some st3 => Some (blocker_drop a st3)
          end
      end
  | FComb a cs =>
      let (blocked, st1) := block_until_drop a st in
      match (if blocked then Some st1 else detach_here c st1) with
      | None => None
      | Some st2 =>
          match (fix drop_all (l : list fut) (st : ustate) : option ustate :=
                   match l with
                   | [] => Some st
                   | f :: t => match drop_fut f c st with
                               | None => None
                               | Some st' => drop_all t st'
                               end
                   end) cs st2 with
          | None => None
          | Some st3 => Some (blocker_drop a st3)
          end
      end
  | FBlock cur => drop_fut cur c st
  end.

(** drop glue of an array, tuple or Vec of futures: in order (the loop of [drop_fut] by itself)
    [common/vec.rs, tuple.rs] *)
Definition drop_all (c : option ctx) : list fut -> ustate -> option ustate :=
  fix go (l : list fut) (st : ustate) : option ustate :=
    match l with
    | [] => Some st
    | f :: t => match drop_fut f c st with
                | None => None
                | Some st' => go t st'
                end
    end.

(** the polled child keeps its place among the futures of the combinator (combinators/common/array.rs:60-80) *)
Fixpoint set_nth {A} (i : nat) (x : A) (l : list A) : list A :=
  match l, i with
  | [], _ => []
  | _ :: t, O => x :: t
  | y :: t, S i' => y :: set_nth i' x t
  end.

(** node_container.rs:61-74 first lines of [poll]: add the node on first poll *)
Definition add_self (n : node) (m : addmode) (c : option ctx) (st : ustate)
  : option (addmode * ustate) :=
  match m with
  | ShouldAdd =>
      match c with
      | None => None
      | Some c => match add_child c pos_default n (ur st) with
                  | None => None
                  | Some r => Some (Added, with_r st r)
                  end
      end
  | _ => Some (m, st)
  end.

(** One poll of [f] in context [c] (None = DOM_CONTEXT not set) following a
    schedule; a schedule that does not fit the future does nothing.
    FElem: node_container.rs:61-74.  FComb: combinators/common/array.rs:152-167
    (each child polled in DomContext::Child with its index; polling needs a
    context). *)
Fixpoint poll (s : sched) (f : fut) (c : option ctx) (st : ustate) : option (fut * ustate) :=
  match s with
  | SNone => Some (f, st)
  | SElem s' =>
      match f with
      | FElem n g a m ch =>
          match add_self n m c st with
          | None => None
          | Some (m', st1) =>
              match poll s' ch (Some (CContainer g n)) st1 with
              | None => None
              | Some (ch', st2) => Some (FElem n g a m' ch', st2)
              end
          end
      | _ => Some (f, st)
      end
  | SComb l =>
      match f with
      | FComb a cs =>
          match (fix go (l : list (nat * sched)) (cs : list fut) (st : ustate)
                   : option (list fut * ustate) :=
                   match l with
                   | [] => Some (cs, st)
                   | (i, s') :: t =>
                       match nth_error cs i, c with
                       | Some ch, Some cx =>
                           match poll s' ch (Some (CChild cx (N.of_nat i))) st with
                           | None => None
                           | Some (ch', st') => go t (set_nth i ch' cs) st'
                           end
                       | Some _, None => None
                       | None, _ => go t cs st
                       end
                   end) l cs st with
          | None => None
          | Some (cs', st') => Some (FComb a cs', st')
          end
      | _ => Some (f, st)
      end
  | SBlock l =>
      match f with
      | FBlock cur =>
          match (fix go (l : list baction) (cur : fut) (st : ustate)
                   : option (fut * ustate) :=
                   match l with
                   | [] => Some (cur, st)
                   | BPoll s' :: t =>
                       match poll s' cur c st with
                       | None => None
                       | Some (cur', st') => go t cur' st'
                       end
                   | BReplace f' :: t =>
                       match drop_fut cur c st with
                       | None => None
                       | Some st' => go t f' st'
                       end
                   end) l cur st with
          | None => None
          | Some (cur', st') => Some (FBlock cur', st')
          end
      | _ => Some (f, st)
      end
  end.

(** mount.rs:23-28 [mount_at]: the application is a ContainerNodeFuture::new_root
    (node_container.rs:48-56) spawned on the executor, which polls it with no
    DOM_CONTEXT set. *)
Definition mount (root : node) (g : gid) (a : addr) (child : fut) : fut :=
  FElem root g a ShouldNotAdd child.

(** successive polls of the mounted application by the executor
    [executor.rs:49-64, mount.rs:23-28] *)
Fixpoint poll_root (l : list sched) (f : fut) (st : ustate) : option (fut * ustate) :=
  match l with
  | [] => Some (f, st)
  | s :: t => match poll s f None st with
              | None => None
              | Some (f', st') => poll_root t f' st'
              end
  end.

(** dropping the Task returned by mount_at: the executor drops the future, with
    no DOM_CONTEXT set *)
Definition unmount (f : fut) (st : ustate) : option ustate := drop_fut f None st.
