(** Running histories of renders and removals through the rendering contexts. *)
From Coq Require Import List Arith NArith.
From Verif Require Import Position Dom Context Spec_path Spec_render.
Import ListNotations.

(** The context of a future nested at combinator path [p] (outermost index
    first) inside [base]: each combinator wraps the current context in
    [DomContext::Child] (combinators/common/array.rs:161-167, vec.rs:118-124,
    tuple.rs: poll). *)
Definition ctx_at (base : ctx) (p : path) : ctx := fold_left CChild p base.

(** A first poll of a ContainerNodeFuture adds its node with the default position
    (node_container.rs:63-68); a drop removes at the default position
    (node_container.rs:82-86, combinators/common/array.rs:222-224). *)
Definition exec (base : ctx) (s : rstate) (o : rop) : option rstate :=
  match o with
  | Render p n => add_child (ctx_at base p) pos_default n s
  | Unrender p => remove_child_ctx (ctx_at base p) pos_default s
  end.

(** a history of renders and removals in one context (context.rs:45-98) *)
Fixpoint run (base : ctx) (s : rstate) (ops : list rop) : option rstate :=
  match ops with
  | [] => Some s
  | o :: t => match exec base s o with None => None | Some s' => run base s' t end
  end.
