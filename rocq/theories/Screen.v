(** Model of a mounted application with everything it renders: the tree of async blocks and
    combinators of Tree.v, whose code also renders elements, and the document of Ui.v.  Which
    blocks are polled, and when, is decided by the wakers and the readiness sets of the
    combinators (Tree.v), not by a schedule as in Ui.v; what rendering does to the document is
    Ui.v's [add_self] and [drop_fut].

    A block's code may enter an element (it awaits [element.render(..)], and goes on inside the
    future given to it) and leave it (that future has returned; the element's future is dropped).
    A child of a combinator that is itself an element future is a block whose code enters the
    element first; it may return without leaving it, since a combinator keeps the futures of the
    children that have completed until it is dropped itself (common/vec.rs:37-50).

    Simplifications: every [render] is of a new element ([elem k] is the [k]-th, with group
    [grp k] and blocker address [adr_e k]; [adr_c n] is the blocker address of combinator [n]);
    the end of the root block's task is in Ui.v (C07); list components and slots are not in the
    tree. *)
From Coq Require Import List Arith NArith Bool.
From Verif Require Import Arena Readiness Combinator Tree Position Dom Context Ui.
Import ListNotations.

(** rendering done by the code of a block (node_container.rs:34-75) *)
Inductive uact := Enter | Leave.
(** what was rendered, newest first: block [p] entered the new
    element [k], left its innermost one (no effect if it was in none) [ghost] *)
Inductive dev := DEnter (p : place) (k : nat) | DLeave (p : place).

Section Screen.
Variables V X : Type.
Variable ww : waker -> waker -> bool.
Variable debug : bool.
Variables (elem : nat -> Dom.node) (grp : nat -> gid) (adr_e adr_c : nat -> addr).
Variable code : X -> place -> option V -> X * list place * list uact * next V.
Notation world := (Tree.world V X).

(** the future of a block: the elements it is in, outermost first, and what it awaits inside the
    innermost one: a combinator (its number, and the futures of its children) or something else
    [node_container.rs:17-25, common/vec.rs:37-50] *)
Inductive ufut := U (fr : list nat) (sub : option (nat * list ufut)).
(** a block not polled yet [std] *)
Definition u0 : ufut := U [] None.

(** node_container.rs:69-73: the rendering context inside the innermost of these elements *)
Fixpoint inner (c : ctx) (fr : list nat) : ctx :=
  match fr with [] => c | k :: t => inner (CContainer (grp k) (elem k)) t end.
(** the elements around a future [node_container.rs:17-25] *)
Fixpoint wrap (fr : list nat) (x : fut) : fut :=
  match fr with [] => x | k :: t => FElem (elem k) (grp k) (adr_e k) Added (FBlock (wrap t x)) end.
(** a block's future as a value of Ui.v [node_container.rs:17-25, common/vec.rs:37-50] *)
Fixpoint cur_of (u : ufut) : fut :=
  match u with U fr sub =>
    wrap fr (match sub with
             | None => FLeaf
             | Some (n, us) => FComb (adr_c n) (map (fun u => FBlock (cur_of u)) us)
             end)
  end.

(** the blocks and combinators; the document; how many elements were made; what was rendered
    [executor.rs:49-89, context.rs:29] *)
Record screen := mkS { s_w : world; s_u : ustate; s_next : nat; s_log : list dev }.
(** record update: the blocks and combinators [bookkeeping of the model] *)
Definition with_w (w : world) (s : screen) : screen := mkS w (s_u s) (s_next s) (s_log s).
(** record update: the document [bookkeeping of the model] *)
Definition with_u (st : ustate) (s : screen) : screen := mkS (s_w s) st (s_next s) (s_log s).

(** node_container.rs:61-74 (the first poll of a new element) and 77-97 (its drop, when the
    future inside has returned); [c] is the context the block is polled in *)
Definition do_uact (p : place) (c : ctx) (a : uact) (fr : list nat) (s : screen) : res (list nat * screen) :=
  match a with
  | Enter =>
      let k := s_next s in
      try (_, st) <- get (add_self (elem k) ShouldAdd (Some (inner c fr)) (s_u s));
      Done (fr ++ [k], mkS (s_w s) st (S k) (DEnter p k :: s_log s))
  | Leave =>
      match rev fr with
      | [] => Done (fr, mkS (s_w s) (s_u s) (s_next s) (DLeave p :: s_log s))
      | k :: r =>
          try st <- get (drop_fut (FElem (elem k) (grp k) (adr_e k) Added (FBlock FLeaf)) (Some (inner c (rev r))) (s_u s));
          Done (rev r, mkS (s_w s) st (s_next s) (DLeave p :: s_log s))
      end
  end.
(** several, in order [node_container.rs:61-97] *)
Fixpoint do_uacts (p : place) (c : ctx) (l : list uact) (fr : list nat) (s : screen) : res (list nat * screen) :=
  match l with
  | [] => Done (fr, s)
  | a :: t => try (fr1, s1) <- do_uact p c a fr s; do_uacts p c t fr1 s1
  end.

(** Tree.v's poll, with the rendering: [c] is the rendering context the block is polled in
    (DOM_CONTEXT), [u] its future; the new future is in the result [common/vec.rs:90-161] *)
Fixpoint poll_block (fuel : nat) (p : place) (wk : waker) (c : ctx) (u : ufut) (s : screen) {struct fuel}
  : res (screen * ufut * option V) :=
  match fuel with
  | 0 => NoFuel
  | S f =>
      let s1 := with_w (emit V X (EPoll p) (s_w s)) s in
      match u with
      | U fr None => run_code f p wk c fr None s1
      | U fr (Some (n, us)) => await f p wk c fr n us s1
      end
  end
(** the block's own code, up to where it returns or awaits
    [user code; the combinator it makes, common/vec.rs:37-50] *)
with run_code (fuel : nat) (p : place) (wk : waker) (c : ctx) (fr : list nat) (got : option V) (s : screen) {struct fuel}
  : res (screen * ufut * option V) :=
  match fuel with
  | 0 => NoFuel
  | S f =>
      let w0 := emit V X (ERun p got) (s_w s) in
      let '(x, wakes, acts, nx) := code (w_x V X w0) p got in
      try w1 <- wake_all V X wakes (set_x V X x w0);
      try (fr1, s1) <- do_uacts p c acts fr (with_w w1 s);
      match nx with
      | NPanic => Panic
      | NPend => Done (s1, U fr1 None, None)
      | NRet v => Done (s1, U fr1 None, Some v)
      | NAwait k b n =>
          let id := length (w_hp V X w1) in
          await f p wk c fr1 id (repeat u0 n)
            (with_w (set_sub V X p (Some id)
              (mkT V X (w_hp V X w1 ++ [mkN V (c_new V k n) b p]) (w_sub V X w1) (w_x V X w1) (w_over V X w1) (ENew id n b p :: w_tr V X w1))) s1)
      end
  end
(** [combinator.await]: when the combinator is ready it is dropped, with the futures of all its
    children, in the context of the block (common/vec.rs:164-185), and the block goes on *)
with await (fuel : nat) (p : place) (wk : waker) (c : ctx) (fr : list nat) (n : nat) (us : list ufut) (s : screen) {struct fuel}
  : res (screen * ufut * option V) :=
  match fuel with
  | 0 => NoFuel
  | S f =>
      try (s1, us1, r) <- poll_comb f n wk (inner c fr) us s;
      match r with
      | None => Done (s1, U fr (Some (n, us1)), None)
      | Some v =>
          try st <- get (drop_fut (FComb (adr_c n) (map (fun u => FBlock (cur_of u)) us1)) (Some (inner c fr)) (s_u s1));
          run_code f p wk c fr (Some v) (with_u st (with_w (emit V X (EGone n v) (set_sub V X p None (s_w s1))) s1))
      end
  end
(** common/array.rs:120-209, common/tuple.rs:139-216, common/vec.rs:90-161 [poll] *)
with poll_comb (fuel : nat) (n : nat) (wk : waker) (c : ctx) (us : list ufut) (s : screen) {struct fuel}
  : res (screen * list ufut * option V) :=
  match fuel with
  | 0 => NoFuel
  | S f =>
      try nd <- get (nth_error (w_hp V X (s_w s)) n);
      match c_entry V V V (nd_b V nd) (nd_c V nd) with
      | Some PPending => Done (s, us, None)
      | Some _ => Fault
      | None =>
          let r1 := rd_set_parent ww (c_rd V (nd_c V nd)) wk in
          try r2 <- get (rd_clear r1);
          loop f n (rd_awake_list r1) c us (with_w (set_node V X n (set_rd V (nd_c V nd) r2) (s_w s)) s)
      end
  end
(** common/array.rs:152-179, common/tuple.rs:161-198, common/vec.rs:112-136: child [i] is polled
    in the context [DomContext::Child] with its index *)
with loop (fuel : nat) (n : nat) (l : list nat) (c : ctx) (us : list ufut) (s : screen) {struct fuel}
  : res (screen * list ufut * option V) :=
  match fuel with
  | 0 => NoFuel
  | S f =>
      try nd <- get (nth_error (w_hp V X (s_w s)) n);
      match l with
      | [] => try o <- finish V debug (nd_b V nd) (nd_c V nd); Done (s, us, o)
      | i :: l' =>
          try filled <- get (nth_error (c_filled V (nd_c V nd)) i);
          if (filled : bool) then loop f n l' c us s
          else
            try u <- get (nth_error us i);
            try (s1, u1, r) <- poll_block f (Kid n i) (waker_of (Kid n i)) (CChild c (N.of_nat i)) u s;
            let us1 := set_nth i u1 us in
            match r with
            | None => loop f n l' c us1 (with_w (emit V X (EPend (Kid n i)) (s_w s1)) s1)
            | Some v =>
                let s2 := with_w (emit V X (EDone (Kid n i) v) (s_w s1)) s1 in
                match b_maybe_return (nd_b V nd) i v with
                | inl o => Done (s2, us1, Some o)
                | inr st =>
                    try nd2 <- get (nth_error (w_hp V X (s_w s2)) n);
                    try cb <- store V (nd_c V nd2) i st;
                    loop f n l' c us1 (with_w (set_node V X n cb (s_w s2)) s2)
                end
            end
      end
  end.

(** what happens from outside, as in Tree.v: the executor polls the mounted future, which sets
    the context of the root node (mount.rs:23-28, node_container.rs:61-74); a waker is woken;
    the state changes [executor.rs:49-89] *)
Definition exec (root : Dom.node) (g : gid) (e : hev X) (us : ufut * screen) : res (ufut * screen) :=
  let '(u, s) := us in
  match e with
  | HPoll fuel tag =>
      if w_over V X (s_w s) then Done (u, s)
      else
        try (s1, u1, r) <- poll_block fuel Root (mkW (Some (task_of Root)) tag) (CContainer g root) u s;
        match r with
        | None => Done (u1, with_w (emit V X (EPend Root) (s_w s1)) s1)
        | Some v =>
            let w2 := emit V X (EDone Root v) (s_w s1) in
            Done (u1, with_w (mkT V X (w_hp V X w2) (w_sub V X w2) (w_x V X w2) true (w_tr V X w2)) s1)
        end
  | HWake p => try w <- wake_place V X (s_w s) p; Done (u, with_w w s)
  | HEnv f => Done (u, with_w (set_x V X (f (w_x V X (s_w s))) (s_w s)) s)
  end.
(** the application is mounted in [root] of a document, not polled yet [mount.rs:23-28] *)
Definition start (d : dom) (gr : gid -> group) (x : X) : ufut * screen :=
  (u0, mkS (Tree.start V X x) (mkU (mkR d gr) None 0) 0 []).
(** a sequence of steps [a history; not a function of /repo] *)
Fixpoint run_from (root : Dom.node) (g : gid) (us : ufut * screen) (evs : list (hev X)) : res (ufut * screen) :=
  match evs with [] => Done us | e :: t => try us' <- exec root g e us; run_from root g us' t end.
(** a whole history [a history; not a function of /repo] *)
Definition run (root : Dom.node) (g : gid) (d : dom) (gr : gid -> group) (x : X) (evs : list (hev X)) : res (ufut * screen) :=
  run_from root g (start d gr x) evs.
End Screen.
