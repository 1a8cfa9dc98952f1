(** Model of the subscription machinery of x-bow: /repo/x-bow/src/{hash,hash_visitor,
    wakers,until_change,borrow_mut_guard}.rs, on top of the waker arena (Arena.v).

    A path is the list of what its segments write to the hasher, from the root on
    (the root writes nothing); what a segment writes is an element of [Seg].  [H] is
    the hash of everything written so far: an arbitrary function (DefaultHasher).
    Version counters are unbounded numbers (u64 in the code). *)
From Coq Require Import List Arith Bool NArith.
From Verif Require Import Arena.
Import ListNotations.

Section Xbow.
Variable ww : waker -> waker -> bool.
Variable Seg : Type.
Variable H : list Seg -> N.
(** a path: the segments below the root (x-bow/src/path.rs:12-45, store.rs:73-109) *)
Definition path := list Seg.

(** hash.rs:7-10 *)
Definition regular_from (hash depth : N) : N := N.lor (N.ldiff hash 255) depth.
(** hash.rs:11-15 *)
Definition bubbling_from (hash : N) : N := N.lxor hash 0x33b741db0040f7e.

(** What a HashVisitor has seen each time [finish_one] is called while it visits a path
    (hash_visitor.rs:63-66): what was written, and the depth (u8, wrapping).  The
    visit_hashes of a path visits the parent first, then writes its own segment, then
    calls [finish_one] (store.rs:99-101 for the root; vec.rs:92-96, hash_map.rs:108-112,
    rc.rs:72-76, transparent.rs:48-53, x-bow-macros generate.rs for the others). *)
Fixpoint visit_from (written : path) (depth : N) (p : path) : list (path * N) :=
  match p with
  | [] => []
  | s :: p' => let written' := written ++ [s] in
               let depth' := ((depth + 1) mod 256)%N in
               (written', depth') :: visit_from written' depth' p'
  end.
(** path.rs:40 [visit_hashes] from the root (store.rs:101-103): the positions hashed, with their depth *)
Definition visit (p : path) : list (path * N) := ([], 1%N) :: visit_from [] 1 p.
(** the state of the visitor at the end (hash_visitor.rs:62-79) *)
Definition last_visit (p : path) : path * N := last (visit p) ([], 1%N).

(** the keys to which a stream of path [p] subscribes: hash_visitor.rs:68-75 for
    until_change, until_change.rs:46-49 for until_bubbling_change *)
Definition listen_keys (p : path) (bubbling : bool) : list N :=
  if bubbling then [bubbling_from (H (fst (last_visit p)))]
  else map (fun v => regular_from (H (fst v)) (snd v)) (visit p).
(** the keys woken by a notification of path [q]: borrow_mut_guard.rs:51-57,
    hash_visitor.rs:77-80 *)
Definition notify_keys (q : path) : list N :=
  map (fun v => bubbling_from (H (fst v))) (visit q) ++
  [regular_from (H (fst (last_visit q))) (snd (last_visit q))].

(** wakers.rs:9-17; the map is a list of pairs, whose order has no meaning *)
Record entry := mkE { e_list : nat; e_ver : nat }.
(** wakers.rs:9-17 [StoreWakers]: the arena and the map of entries *)
Record store := mkSt { st_arena : arena; st_map : list (N * entry) }.
(** HashMap::get (wakers.rs:50-81) *)
Fixpoint lookup (k : N) (m : list (N * entry)) : option entry :=
  match m with
  | [] => None
  | (k', e) :: m' => if N.eqb k' k then Some e else lookup k m'
  end.
(** `entry.version = v` (wakers.rs:59-65) *)
Definition set_ver (k : N) (v : nat) (m : list (N * entry)) : list (N * entry) :=
  map (fun x => if N.eqb (fst x) k then (fst x, mkE (e_list (snd x)) v) else x) m.
(** HashMap::remove (wakers.rs:67-81) *)
Definition remove_key (k : N) (m : list (N * entry)) : list (N * entry) :=
  filter (fun x => negb (N.eqb (fst x) k)) m.
(** wakers.rs:44-49 *)
Definition st_new : store := mkSt ar_new [].
(** wakers.rs:50-58, 18-25 *)
Definition get_entry (st : store) (k : N) : option (store * entry) :=
  match lookup k (st_map st) with
  | Some e => Some (st, e)
  | None => do (a, h) <- ar_add_sublist (st_arena st) ;
            Some (mkSt a (st_map st ++ [(k, mkE h 1)]), mkE h 1)
  end.
(** wakers.rs:32-34 *)
Definition add_slot (st : store) (k : N) : option (store * nat) :=
  do (st1, e) <- get_entry st k ;
  do (a, i) <- ar_add (st_arena st1) (e_list e) ;
  Some (mkSt a (st_map st1), i).
(** wakers.rs:59-66: the new store and the wakers woken *)
Definition wake_entry (st : store) (k : N) : option (store * list waker) :=
  match lookup k (st_map st) with
  | None => Some (st, [])
  | Some e => do ws <- ar_iter (st_arena st) (e_list e) ;
              Some (mkSt (st_arena st) (set_ver k (S (e_ver e)) (st_map st)), ws)
  end.
(** wakers.rs:67-81 *)
Definition remove_slot (st : store) (x : N * nat) : option store :=
  match lookup (fst x) (st_map st) with
  | None => None
  | Some e =>
      do a <- ar_remove (st_arena st) (snd x) ;
      do (a', b) <- ar_remove_sublist a (e_list e) ;
      Some (mkSt a' (if b then remove_key (fst x) (st_map st) else st_map st))
  end.

(** until_change.rs:17-21; [u_id] identifies the stream *)
Record stream := mkU { u_id : nat; u_slots : list (N * nat); u_last : nat }.
(** until_change.rs:24-55 *)
Fixpoint add_slots (st : store) (ks : list N) : option (store * list (N * nat)) :=
  match ks with
  | [] => Some (st, [])
  | k :: ks => do (st1, i) <- add_slot st k ;
               do (st2, l) <- add_slots st1 ks ;
               Some (st2, (k, i) :: l)
  end.
(** until_change.rs:71-77 *)
Fixpoint poll_slots (st : store) (l : list (N * nat)) (w : waker) : option (store * nat) :=
  match l with
  | [] => Some (st, 0)
  | (k, i) :: l =>
      do (st1, e) <- get_entry st k ;
      do a <- ar_update ww (st_arena st1) i w ;
      do (st2, v) <- poll_slots (mkSt a (st_map st1)) l w ;
      Some (st2, e_ver e + v)
  end.
(** until_change.rs:84-90 *)
Fixpoint remove_slots (st : store) (l : list (N * nat)) : option store :=
  match l with [] => Some st | x :: l => do st1 <- remove_slot st x ; remove_slots st1 l end.
(** borrow_mut_guard.rs:51-57 *)
Fixpoint wake_entries (st : store) (ks : list N) : option (store * list waker) :=
  match ks with
  | [] => Some (st, [])
  | k :: ks => do (st1, ws) <- wake_entry st k ;
               do (st2, ws') <- wake_entries st1 ks ;
               Some (st2, ws ++ ws')
  end.

(** ghost: not code of /repo *)
Inductive ev :=
| TNew (s : nat) (p : path) (bubbling : bool)   (* until_change, until_bubbling_change *)
| TPoll (s : nat) (w : waker) (ready : bool)
| TDrop (s : nat)
| TNotify (q : path)                            (* q is mutably borrowed / notify_changed *)
| TWake (w : waker).
(** the wakers of a store (wakers.rs), the live streams (until_change.rs:17-21) and the trace *)
Record world := mkWd { w_store : store; w_streams : list stream; w_next : nat; w_tr : list ev }.

(** histories: until_change / until_bubbling_change (until_change.rs:24-55), poll (64-80) and drop (83-90) of the stream, notify (borrow_mut_guard.rs:51-57) *)
Inductive op :=
| ONew (p : path) (bubbling : bool)
| OPoll (s : nat) (w : waker)
| ODrop (s : nat)
| ONotify (q : path).
(** the live streams of the application [bookkeeping of the model] *)
Definition find_stream (s : nat) (l : list stream) : option stream := find (fun u => u_id u =? s) l.
(** `self.last_version = v` (until_change.rs:64-80) *)
Definition set_last (s v : nat) (l : list stream) : list stream :=
  map (fun u => if u_id u =? s then mkU s (u_slots u) v else u) l.
(** [None] is a panic (index out of bounds in the arena, a key that is not in the map) *)
Definition exec (w : world) (o : op) : option world :=
  match o with
  | ONew p b =>
      do (st, l) <- add_slots (w_store w) (listen_keys p b) ;
      Some (mkWd st (mkU (w_next w) l 0 :: w_streams w) (S (w_next w)) (TNew (w_next w) p b :: w_tr w))
  | OPoll s wk =>
      match find_stream s (w_streams w) with
      | None => Some w
      | Some u =>
          (* until_change.rs:71-81 *)
          do (st, v) <- poll_slots (w_store w) (u_slots u) wk ;
          let ready := (1 <=? u_last u) && negb (u_last u =? v) in
          Some (mkWd st (set_last s v (w_streams w)) (w_next w) (TPoll s wk ready :: w_tr w))
      end
  | ODrop s =>
      match find_stream s (w_streams w) with
      | None => Some w
      | Some u =>
          do st <- remove_slots (w_store w) (u_slots u) ;
          Some (mkWd st (filter (fun u => negb (u_id u =? s)) (w_streams w)) (w_next w) (TDrop s :: w_tr w))
      end
  | ONotify q =>
      do (st, ws) <- wake_entries (w_store w) (notify_keys q) ;
      Some (mkWd st (w_streams w) (w_next w) (rev (map TWake ws) ++ TNotify q :: w_tr w))
  end.
(** store.rs:20-25 [new]: no entries, no streams *)
Definition init : world := mkWd st_new [] 0 [].
(** a sequence of steps [a history; not a function of /repo] *)
Fixpoint execs (w : world) (ops : list op) : option world :=
  match ops with [] => Some w | o :: ops => do w1 <- exec w o ; execs w1 ops end.
(** a whole history [a history; not a function of /repo] *)
Definition run (ops : list op) : option world := execs init ops.
End Xbow.
