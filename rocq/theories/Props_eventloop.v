(** C77: a component that waits for events in a loop (examples/web-simple-examples/src/counter.rs). *)
From Coq Require Import List Arith Bool Lia ZArith.
From Verif Require Import Arena Spec_arena Readiness Combinator Tree Executor App Event EventLoop Spec_eventloop EventLoop_proofs.
Import ListNotations.

Section Props.
Variable ww : waker -> waker -> bool.
Hypothesis WW : will_wake_ok ww.
Variable debug : bool.
Variables m n : nat.
Hypothesis N0 : n > 0.
Variable A : Type.
Variable step : A -> nat * nat -> A.
Variables bound rounds : nat.
Hypothesis BD : bound >= n + m + 20.
Hypothesis RD : rounds >= 2.
Notation prun := (prun ww debug m n A step bound rounds).
(** what the blocks of the component have when the run is at [s] *)
Notation inside s := (w_x (nat * nat) (lst A) (xs _ s)).

(** Whatever events come and whenever the executor runs: nothing panics and nothing hangs, the
    state is the first one changed by the events that count, in their order, and, from the time the
    executor has run, it is what is shown. *)
Theorem C77_state a evs : exists s, prun a evs = Live s /\
  lp_state (inside s) = fold_left step (counted n false evs) a /\
  lp_shown (inside s) = if begun evs then Some (fold_left step (counted n false evs) a) else None.
Proof.
  destruct (prun_all ww WW debug m n N0 A step bound rounds BD RD a evs) as (s & E & H). exists s. split; [exact E|].
  destruct (begun evs) eqn:B.
  - destruct H as (ev & (k & I) & _). destruct (ti_shows _ _ _ _ _ _ _ _ I) as (H1 & H2). auto.
  - destruct H as ((x & EX & H1 & H2 & _) & _). rewrite EX. cbn. rewrite H1, H2. split; [|reflexivity].
    assert (G : forall l, begun l = false -> counted n false l = []).
    { induction l as [|e l IH]; [reflexivity|]. intro Q. cbn in Q. apply orb_false_iff in Q. destruct Q as [Q1 Q2]. destruct e; try discriminate Q1. cbn. apply IH, Q2. }
    rewrite G by exact B. reflexivity.
Qed.
(** From the time the executor has run there is one listener for each target, however many events
    have come: those of earlier rounds of the loop are gone. *)
Theorem C77_one_listener a evs : begun evs = true -> exists s, prun a evs = Live s /\ map l_target (listeners (lp_ev (inside s))) = seq 0 n.
Proof.
  intro B. destruct (prun_all ww WW debug m n N0 A step bound rounds BD RD a evs) as (s & E & H). exists s. split; [exact E|].
  rewrite B in H. destruct H as (ev & (k & I) & _). rewrite (px_lis _ _ _ _ _ _ (ti_px _ _ _ _ _ _ _ _ I)), map_map.
  rewrite <- (map_id (seq 0 n)) at 2. apply map_ext. reflexivity.
Qed.
(** Events from the browser, one at a time: each counts, exactly once and in its turn, and the component gets that
    very event. *)
Theorem C77_each_event a e evs : runs e = true -> Forall alone evs -> exists s, prun a (e :: evs) = Live s /\
  lp_shown (inside s) = Some (fold_left step (filter (fun te => fst te <? n) (dispatched evs)) a).
Proof.
  intros R F. destruct (C77_state a (e :: evs)) as (s & E & _ & H). exists s. split; [exact E|]. rewrite H. unfold begun. cbn [existsb]. rewrite R. cbn [orb].
  f_equal. f_equal. rewrite counted_app, R. cbn [orb]. replace (counted n false [e]) with (@nil (nat * nat)) by (destruct e; [discriminate R|reflexivity|reflexivity]). cbn [app].
  clear -F. induction F as [|e evs Q F IH]; [reflexivity|]. cbn [counted dispatched flat_map]. destruct e as [l| |]; cbn [app]; try exact IH. rewrite filter_app. f_equal; [|exact IH].
  destruct l as [|(i, e) [|? ?]]; cbn in Q; try lia; [reflexivity|]. cbn [map fst find filter]. destruct (i <? n); [|reflexivity]. unfold latest. cbn [filter fst]. rewrite Nat.eqb_refl. reflexivity.
Qed.
End Props.

(** counter.rs:18-26: two buttons, the first counts up, the second down *)
Definition counter_step (v : Z) (te : nat * nat) : Z := if fst te =? 0 then (v + 1)%Z else (v - 1)%Z.
(** clicks one at a time: the counter shows the number of clicks on "+" less that on "-" *)
Theorem C77_counter ww (WW : will_wake_ok ww) debug e evs : runs e = true -> Forall alone evs ->
  exists s, prun ww debug 3 2 Z counter_step 40 2 0%Z (e :: evs) = Live s /\
    lp_shown (w_x _ _ (xs _ s)) = Some (Z.of_nat (count_occ Nat.eq_dec (map fst (dispatched evs)) 0%nat) - Z.of_nat (count_occ Nat.eq_dec (map fst (dispatched evs)) 1%nat))%Z.
Proof.
  intros R F. destruct (C77_each_event ww WW debug 3 2 ltac:(lia) Z counter_step 40 2 ltac:(lia) ltac:(lia) 0%Z e evs R F) as (s & E & H).
  exists s. split; [exact E|]. rewrite H. f_equal. generalize (dispatched evs). clear. intro l.
  assert (G : forall l v, fold_left counter_step (filter (fun te => fst te <? 2) l) v = (v + Z.of_nat (count_occ Nat.eq_dec (map fst l) 0%nat) - Z.of_nat (count_occ Nat.eq_dec (map fst l) 1%nat))%Z).
  { clear. induction l as [|[i e] l IH]; intro v; [cbn; lia|]. cbn [map fst]. destruct i as [|[|i]].
    - rewrite count_occ_cons_eq, count_occ_cons_neq by lia. cbn [filter fst]. change (0 <? 2) with true. cbn [fold_left]. rewrite IH. cbn [counter_step fst Nat.eqb]. lia.
    - rewrite count_occ_cons_neq, count_occ_cons_eq by lia. cbn [filter fst]. change (1 <? 2) with true. cbn [fold_left]. rewrite IH. unfold counter_step at 1. cbn [fst Nat.eqb]. lia.
    - rewrite !count_occ_cons_neq by lia. cbn [filter fst]. change (S (S i) <? 2) with false. apply IH. }
  rewrite G. lia.
Qed.

(** the wakers are the same when their tasks are *)
Definition ww0 (a b : waker) : bool :=
  match w_task a, w_task b with Some x, Some y => x =? y | None, None => true | _, _ => false end.
Lemma ww0_ok : will_wake_ok ww0.
Proof. intros a b. unfold ww0, same_task. destruct (w_task a), (w_task b); try discriminate; auto. intro H. apply Nat.eqb_eq in H. congruence. Qed.
(** what is shown *)
Definition shown_of {A} (r : rres (Tree.world (nat * nat) (lst A))) : option A := match r with Live s => lp_shown (w_x _ _ (xs _ s)) | _ => None end.

(** That every event counts is false: code that clicks twice before the executor runs (a click
    from inside the application, whose [run_now] does nothing) is counted once. *)
Theorem C77_every_event_refuted : ~ (forall e evs, runs e = true ->
  shown_of (prun ww0 true 3 2 Z counter_step 40 2 0%Z (e :: evs)) = Some (fold_left counter_step (filter (fun te => fst te <? 2) (dispatched evs)) 0%Z)).
Proof. intro H. specialize (H PFire [PEvents [(1, 0); (1, 1)]] eq_refl). vm_compute in H. discriminate H. Qed.

(** Non-vacuity: a click before the component is there is lost, then -, -, +, one elsewhere, - *)
Example ex_counter :
  let evs := [PEvents [(1, 0)]; PFire; PEvents [(1, 1)]; PRun; PEvents [(1, 2)]; PEvents [(0, 3)]; PEvents [(7, 4)]; PFire; PEvents [(1, 5)]] in
  shown_of (prun ww0 true 3 2 Z counter_step 40 2 0%Z evs) = Some (-2)%Z /\ counted 2 false evs = [(1, 1); (1, 2); (0, 3); (1, 5)] /\ begun evs = true /\ Forall alone evs.
Proof. cbv zeta. repeat split; try (vm_compute; reflexivity). repeat constructor. Qed.
(** three targets, three events at once: the target of the first counts, with the last event there *)
Example ex_list :
  shown_of (prun ww0 false 0 3 (list (nat * nat)) (fun l i => l ++ [i]) 40 2 [] [PRun; PEvents [(2, 0); (0, 1); (2, 5)]; PEvents [(1, 2)]]) = Some [(2, 5); (1, 2)].
Proof. vm_compute. reflexivity. Qed.

Print Assumptions C77_state.
Print Assumptions C77_one_listener.
Print Assumptions C77_each_event.
Print Assumptions C77_counter.
Print Assumptions C77_every_event_refuted.
