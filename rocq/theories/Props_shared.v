(** Property C21: the storage shared by a combinator and its wakers.

    [reach s]: the state after creating any number of combinators and any sequence of
    clone, wake, wake_by_ref and drop of their wakers and drops of combinators. *)
From Coq Require Import List Arith Bool Lia.
From Verif Require Import Util Arena SharedArc Spec_shared SharedArc_proofs.
Import ListNotations.

(** C21: no operation touches freed memory (or otherwise fails), and waking a waker
    wakes the child of the combinator that it was made for; nothing else is woken. *)
Theorem C21_wakes_its_index :
  forall s o, reach s -> allowed s o ->
  exists s', exec s o = Some s' /\ h_woken (st_heap s') = wakes s o ++ h_woken (st_heap s).
Proof.
  intros s o R A. destruct (exec_ok s o (reach_SI s R) A) as (s' & E & _ & W). eauto.
Qed.
Print Assumptions C21_wakes_its_index.

(** C21: the storage of a combinator is there exactly as long as the combinator or
    one of its wakers is; it is freed once. *)
Theorem C21_freed_exactly_when_unused :
  forall s, reach s ->
  (forall id, allocated s id <-> in_use s id) /\
  (forall id, In id (h_freed (st_heap s)) <-> id < st_next s /\ ~ in_use s id) /\
  NoDup (h_freed (st_heap s)).
Proof.
  intros s R. pose proof (reach_SI s R) as I.
  assert (U : forall id, in_use s id <-> cnt s id > 0).
  { intro id. unfold in_use, cnt. rewrite <- cnt_sets_pos, <- cnt_held_pos. lia. }
  split; [|split; [|apply (si_nodup _ I)]].
  - intro id. rewrite U. split.
    + intros (raw & a & E & <-). apply (inv_arc _ _ (si_inv _ I) _ _ E).
    + intro C. destruct (inv_all _ _ (si_inv _ I) _ C) as (raw & a & E & Q). exists raw, a. auto.
  - intro id. rewrite (si_freed _ I), U. lia.
Qed.
Print Assumptions C21_freed_exactly_when_unused.

(** the redirect slot of every waker in use is readable and leads to its combinator's storage *)
Theorem C21_pointers_valid :
  forall s k, reach s -> In k (st_held s) ->
  exists raw a, h_mem (st_heap s) (k_ptr k) = Some raw /\ h_arcs (st_heap s) raw = Some a /\ a_id a = k_id k.
Proof.
  intros s k R H. pose proof (reach_SI s R) as I. destruct (si_held _ I k H) as (raw & sl & n & SH & L & E).
  exists raw. rewrite E, (slot_mem _ _ _ _ _ _ _ (si_inv _ I) SH L). destruct SH as (st & ->). eauto.
Qed.
Print Assumptions C21_pointers_valid.

(** Non-vacuity: a history with two combinators, whose memory is reused, and a waker
    that outlives its combinator. *)
Definition alloc_ok (s : state) (o : op) : bool :=
  match o with
  | New n raw slice =>
      match h_arcs (st_heap s) raw with None => true | _ => false end &&
      forallb (fun p => match h_mem (st_heap s) p with None => true | _ => false end) (seq slice n)
  | _ => true
  end.
Fixpoint script (s : state) (l : list op) : option state :=
  match l with
  | [] => Some s
  | o :: l' => if alloc_ok s o then match exec s o with Some s' => script s' l' | None => None end else None
  end.
Definition ex_ops : list op :=
  [New 3 100 200; Get 0 2; Clone 0; DropSet 0; WakeRef 1; Wake 0; Wake 0; New 2 100 199; Get 0 1; WakeRef 0; WakeOwn 0 0].
Definition ex_after (n : nat) : option (list (nat * nat) * list nat * nat) :=
  option_map (fun s => (h_woken (st_heap s), h_freed (st_heap s), length (st_held s))) (script init (firstn n ex_ops)).
Example ex_shared : ex_after 6 = Some ([(0, 2); (0, 2)], [], 1) /\ ex_after 7 = Some ([(0, 2); (0, 2); (0, 2)], [0], 0) /\
  ex_after 11 = Some ([(1, 0); (1, 1); (0, 2); (0, 2); (0, 2)], [0], 1).
Proof. vm_compute. auto. Qed.
(** such states are reachable *)
Lemma script_reach l : forall s s', reach s -> script s l = Some s' -> reach s'.
Proof.
  induction l as [|o l IH]; cbn [script]; intros s s' R E; [congruence|].
  destruct (alloc_ok s o) eqn:A; [|discriminate E]. destruct (exec s o) as [s1|] eqn:E1; [|discriminate E].
  apply (IH s1); auto. apply (reach_step s o); auto. destruct o; cbn [allowed]; auto. cbn in A.
  apply andb_true_iff in A as (A1 & A2). split; [destruct (h_arcs _ raw); [discriminate A1|reflexivity]|].
  intros p Hp. rewrite forallb_forall in A2. specialize (A2 p). rewrite in_seq in A2. specialize (A2 Hp).
  destruct (h_mem _ p); [discriminate A2|reflexivity].
Qed.
