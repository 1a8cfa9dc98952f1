(** Properties C52 and C53: a whole tree of async blocks and combinators.

    [run V X ww debug code x evs = Done w]: blocks with arbitrary code ([code]), awaiting
    arbitrary combinators of arbitrary blocks, were driven by an arbitrary sequence of
    polls of the root block, wakes of any block's waker, and changes of the state, in
    which no block panicked.  [ww] is any implementation of [Waker::will_wake] that never
    claims that wakers of two different tasks wake the same one. *)
From Coq Require Import List Arith Bool Lia.
From Verif Require Import Arena Spec_arena Readiness Combinator Tree Spec_tree Tree_proofs Goes_proofs.
Import ListNotations.

Section Props.
Variables V X : Type.
Variable ww : waker -> waker -> bool.
Variable debug : bool.
Variable code : X -> place -> option V -> X * list place * next V.
Hypothesis WW : will_wake_ok ww.
Hypothesis CO : code_ok code.
Notation tr := (w_tr V X).

Lemma run_snoc x evs e w w' : run V X ww debug code x evs = Done w -> run V X ww debug code x (evs ++ [e]) = Done w' ->
  exec V X ww debug code w e = Done w'.
Proof.
  unfold run. generalize (start V X x). induction evs as [|e0 evs IH]; intros w0 R R'; cbn [app run_from] in *.
  - injection R as ->. destruct (exec V X ww debug code w e); try discriminate R'. exact R'.
  - destruct (exec V X ww debug code w0 e0); try discriminate R. cbn [bind] in *. eapply IH; eauto.
Qed.

(** C52: when the waker of a block that is still there is woken from outside, the block
    counts as woken. *)
Theorem C52_wake_counts :
  forall x evs w w' p, run V X ww debug code x evs = Done w -> live (tr w) p ->
  run V X ww debug code x (evs ++ [HWake p]) = Done w' -> woken p (tr w') = true.
Proof.
  intros x evs w w' p R L R'. pose proof (run_snoc _ _ _ _ _ R R') as E. cbn [exec] in E.
  assert (I : Inv V X st0 None None w) by (apply (run_ok V X ww debug code WW CO x evs); auto).
  eapply (wake_woken V X); eauto. eapply live_exists; eauto.
Qed.

(** C52: when the waker of a block that is still there is woken, the root's waker has been
    woken too since the root was last polled, however deep the block is. *)
Theorem C52_wake_reaches_root :
  forall x evs w p, run V X ww debug code x evs = Done w ->
  live (tr w) p -> woken p (tr w) = true -> woken Root (tr w) = true.
Proof. intros x evs w p R. apply woken_root. apply (run_ok V X ww debug code WW CO x evs); auto. Qed.

(** C52: and the next poll of the root polls that block, unless during that poll the block
    is dropped (with a combinator that returns) before its turn comes. *)
Theorem C52_woken_is_polled :
  forall x evs fuel tag w w' p, run V X ww debug code x evs = Done w ->
  live (tr w) p -> woken p (tr w) = true ->
  run V X ww debug code x (evs ++ [HPoll fuel tag]) = Done w' ->
  exists new, tr w' = new ++ tr w /\ (In (EPoll p) new \/ ~ live (tr w') p).
Proof.
  intros x evs fuel tag w w' p R L W R'.
  pose proof (run_snoc _ _ _ _ _ R R') as E.
  eapply (next_poll V X ww debug code WW CO); eauto. apply (run_ok V X ww debug code WW CO x evs); auto.
Qed.

(** C52: a block is polled at once when its combinator is first polled: between two polls of
    the root, every block that is there has been polled. *)
Theorem C52_every_block_polled :
  forall x evs w p, run V X ww debug code x evs = Done w -> live (tr w) p -> p <> Root -> polls p (tr w) > 0.
Proof.
  intros x evs w p R L D. destruct (live_polled V X w p) as [Q|Q]; auto; [|congruence].
  apply (run_ok V X ww debug code WW CO x evs); auto.
Qed.

(** C52: whatever the blocks do, the bookkeeping of the combinators never fails (no index
    out of bounds, no failed assertion, no read of an empty slot), and a wake never waits
    for a lock that is held further down the same wake. *)
Theorem C52_no_fault : forall x evs, run V X ww debug code x evs <> Fault.
Proof. intros x evs. apply (run_ok V X ww debug code WW CO x evs). Qed.

(** C53: a block is polled at most once for its creation and once for each wake of its waker. *)
Theorem C53_polls_need_wakes :
  forall x evs w n i, run V X ww debug code x evs = Done w ->
  polls (Kid n i) (tr w) <= 1 + wakes (Kid n i) (tr w).
Proof. intros x evs w n i R. apply polls_wakes. apply (run_ok V X ww debug code WW CO x evs); auto. Qed.

(** C53: only live blocks are polled: never one that has returned, nor one whose combinator
    (or any combinator above) has been dropped. *)
Theorem C53_only_live_polled :
  forall x evs w, run V X ww debug code x evs = Done w -> always poll_live (tr w).
Proof. intros x evs w R. apply (run_ok V X ww debug code WW CO x evs); auto. Qed.

(** C53: each combinator, anywhere in the tree, returns the right value. *)
Theorem C53_results :
  forall x evs w, run V X ww debug code x evs = Done w -> always result_ok (tr w).
Proof. intros x evs w R. apply (run_ok V X ww debug code WW CO x evs); auto. Qed.

(** C53: a block's code only goes on when the block is polled, or when what it awaited has
    just returned, and it then gets the value that was returned. *)
Theorem C53_goes_on :
  forall x evs w, run V X ww debug code x evs = Done w -> always Spec_tree.run_ok (tr w).
Proof. intros x evs w R. apply (run_ok V X ww debug code WW CO x evs); auto. Qed.

(** C53: and it does go on then: when a block is polled that awaits no combinator, its code is
    run at once. *)
Theorem C53_code_runs :
  forall x evs w, run V X ww debug code x evs = Done w -> goes_on (tr w).
Proof. intros x evs w R. exact (Goes_proofs.run_goes V X ww debug code x evs w R). Qed.

(** C53: whenever a combinator returns a value, a block (by C53_goes_on the one that awaits
    it) at once goes on with this value. *)
Theorem C53_value_handed_on :
  forall x evs w n v, run V X ww debug code x evs = Done w -> In (EGone n v) (tr w) ->
  exists p later earlier, tr w = later ++ ERun p (Some v) :: EGone n v :: earlier.
Proof. intros x evs w n v R. apply (ans_run V X ww debug code x evs w R). Qed.

(** C53: between two polls of the root, a combinator that has not returned waits for a child
    (or is a race without children). *)
Theorem C53_waits_for_a_child :
  forall x evs w n k b p, run V X ww debug code x evs = Done w ->
  In (ENew n k b p) (tr w) -> ~ gone n (tr w) ->
  (k = 0 /\ b_pend_if_empty b = true) \/ exists i, i < k /\ ~ returned (Kid n i) (tr w).
Proof. intros x evs w n k b p R. eapply live_waits. apply (run_ok V X ww debug code WW CO x evs); auto. Qed.

(** the bound given to a poll only matters if it is too small *)
Theorem C52_fuel_irrelevant :
  forall f f' tag w, f <= f' -> exec V X ww debug code w (HPoll f tag) <> NoFuel ->
  exec V X ww debug code w (HPoll f' tag) = exec V X ww debug code w (HPoll f tag).
Proof. intros. apply exec_more; auto. Qed.
End Props.
Print Assumptions C52_wake_reaches_root.
Print Assumptions C52_woken_is_polled.
Print Assumptions C52_every_block_polled.
Print Assumptions C52_no_fault.
Print Assumptions C53_polls_need_wakes.
Print Assumptions C53_only_live_polled.
Print Assumptions C53_results.
Print Assumptions C52_wake_counts.
Print Assumptions C53_goes_on.
Print Assumptions C53_code_runs.
Print Assumptions C53_value_handed_on.
Print Assumptions C53_waits_for_a_child.
Print Assumptions C52_fuel_irrelevant.

(** Non-vacuity: one type for all values, and the four behaviours (the same as in
    Combinator.v, on this type) *)
Inductive val := VNat (n : nat) | VList (l : list val) | VOk (v : val) | VErr (v : val).
Definition join_val : behavior val val val := mkB val val val false (fun _ v => inr v) (fun l => Some (VList l)).
Definition race_val : behavior val val val := mkB val val val true (fun _ v => inl v) (fun _ => None).
Definition try_join_val : behavior val val val :=
  mkB val val val false (fun _ v => match v with VErr e => inl (VErr e) | VOk u => inr u | _ => inr v end) (fun l => Some (VOk (VList l))).
Definition race_ok_val : behavior val val val :=
  mkB val val val false (fun _ v => match v with VOk u => inl (VOk u) | VErr e => inr e | _ => inr v end) (fun l => Some (VErr (VList l))).
Example ex_behaviours : beh_ok join_val /\ beh_ok race_val /\ beh_ok try_join_val /\ beh_ok race_ok_val.
Proof.
  split; [left; discriminate|]. split; [right; split; [reflexivity|]; intros i v; exists v; reflexivity|].
  split; left; discriminate.
Qed.

(** The root joins two blocks; the first races two blocks, the second waits, wakes the
    racers' wakers when it goes on; the racers wait until the state says so. *)
Definition ex_code (x : nat) (p : place) (got : option val) : nat * list place * next val :=
  match p, got with
  | Root, None => (x, [], NAwait KVec join_val 2)
  | Root, Some v => (x, [], NRet v)
  | Kid 0 0, None => (x, [], NAwait KTuple race_val 2)
  | Kid 0 0, Some v => (x, [Kid 1 0], NRet v)
  | Kid 0 _, _ => if x =? 0 then (x, [], NPend) else (x, [Kid 1 1; Root], NRet (VNat 7))
  | _, _ => if x <? 2 then (x, [], NPend) else (x, [], NRet (VNat x))
  end.
Definition ex_ww (a b : waker) : bool :=
  match w_task a, w_task b with Some m, Some n => Nat.eqb m n | None, None => true | _, _ => false end.
Example ex_code_ok : code_ok ex_code.
Proof.
  intros x p got x' ws k b n. destruct p as [|[|m] [|i]], got; cbn;
    repeat match goal with |- context [if ?c then _ else _] => destruct c end; intros [= <- <- <- <- <-] || discriminate;
    (split; [|lia || discriminate]); apply ex_behaviours.
Qed.
Example ex_ww_ok : will_wake_ok ex_ww.
Proof.
  intros a b. unfold ex_ww, same_task. destruct (w_task a), (w_task b); try discriminate; auto.
  intro H. apply Nat.eqb_eq in H. congruence.
Qed.
Definition ex_hist : list (hev nat) :=
  [HPoll 30 0; HEnv (fun _ => 1); HWake (Kid 0 1); HPoll 30 1; HEnv (fun _ => 2)].
Definition traceof (r : res (world val nat)) : option (list (ev val) * bool) :=
  match r with Done w => Some (w_tr val nat w, w_over val nat w) | _ => None end.
(** after this, block 1 of combinator 1 (two levels down) has been woken and waits *)
Example ex_tree_woken :
  option_map (fun t => (woken (Kid 1 1) (fst t), woken Root (fst t), polls (Kid 1 1) (fst t), snd t))
    (traceof (run val nat ex_ww true ex_code 0 ex_hist)) = Some (true, true, 1, false).
Proof. vm_compute. reflexivity. Qed.
(** and the next poll of the root polls it; it ends the race, which ends the join *)
Example ex_tree_polled :
  option_map (fun t => (polls (Kid 1 1) (fst t), polls (Kid 1 0) (fst t), polls (Kid 0 1) (fst t), hd_error (fst t), snd t))
    (traceof (run val nat ex_ww true ex_code 0 (ex_hist ++ [HPoll 30 0])))
  = Some (2, 1, 2, Some (EDone Root (VList [VNat 2; VNat 7])), true).
Proof. vm_compute. reflexivity. Qed.
Example ex_tree_live :
  match run val nat ex_ww true ex_code 0 ex_hist with Done w => live (w_tr val nat w) (Kid 1 1) | _ => False end.
Proof.
  vm_compute.
  apply live_kid with (k := 2) (b := race_val) (p := Kid 0 0); [cbn; tauto|lia| | |].
  - intros (v & H). cbn in H. intuition discriminate.
  - intros (v & H). cbn in H. intuition discriminate.
  - apply live_kid with (k := 2) (b := join_val) (p := Root); [cbn; tauto|lia| | |].
    + intros (v & H). cbn in H. intuition discriminate.
    + intros (v & H). cbn in H. intuition discriminate.
    + constructor. intros (v & H). cbn in H. intuition discriminate.
Qed.
