(** C90: the timer example. *)
From Coq Require Import List Bool Arith.
From Verif Require Import Timer Spec_timer Timer_proofs.
Import ListNotations.

Section Props.
Variable V : Type.
Variables (zero fifteen : V) (inc : V -> V) (lt : V -> V -> bool) (div : V -> V -> V).
Notation runs := (runs V zero inc lt div (start V zero fifteen)).

(** In whatever order the blocks go on: when none is pending, the text shows the time, the meter the time divided by the duration, and the duration is the slider's. *)
Theorem C90_timer : forall l s, runs l = Some s -> quiet V s = true ->
  let (t, d) := told V zero fifteen inc lt l in
  text V s = Some t /\ meter V s = div t d /\ slider V s = d.
Proof.
  intros l s R Q. destruct (runs_inv V zero inc lt div l _ _ s (inv_start V zero fifteen inc lt div) R) as [A E S M X]. destruct (quiet_facts V s Q) as (Q1 & Q2 & Q3 & Q4).
  unfold abs in A. rewrite Q4, Q3 in *. unfold told. rewrite <- A. split; [apply X; exact Q2|]. split; [apply M; auto|exact S].
Qed.
(** and they always come to rest *)
Theorem C90_comes_to_rest : forall l s, runs l = Some s ->
  (exists n, forall bs, busy V zero inc lt div s bs -> length bs <= n) /\ (quiet V s = false -> exists b, step V zero inc lt div s b <> s).
Proof. intros l s R. split; [exists (weight V s); intros bs B; exact (busy_weight V zero inc lt div bs s B)|apply not_quiet]. Qed.
End Props.
Print Assumptions C90_timer.
Print Assumptions C90_comes_to_rest.

(** ** A case with natural numbers: the duration is set to 2, three ticks come, and a reset *)
Definition up : list (act nat) := map (Block nat) [BEvent; BMeter; BSlider; BText; BMeter].
Definition down : list (act nat) := map (Block nat) [BText; BSlider; BEvent; BText; BMeter].
Definition day : list (act nat) := up ++ Comes nat (Slide nat 2) :: down ++ Comes nat (Tick nat) :: up ++ Comes nat (Tick nat) :: down ++ Comes nat (Tick nat) :: up.
Definition look (l : list (act nat)) := option_map (fun s => (text nat s, meter nat s, quiet nat s)) (runs nat 0 S Nat.ltb (fun a b => 10 * a + b) (start nat 0 15) l).
Example exm_day : look day = Some (Some 2, 22, true). Proof. vm_compute. reflexivity. Qed.
Example exm_reset : look (day ++ Comes nat (Reset nat) :: down) = Some (Some 0, 2, true). Proof. vm_compute. reflexivity. Qed.
