(** Properties C61 and C65, continued: how tasks and applications end. *)
From Coq Require Import List Arith Bool Lia.
From Verif Require Import Arena Spec_arena Readiness Combinator Tree Spec_tree Tree_proofs Props_tree Executor Spec_executor Executor_proofs
  Queue Spec_queue Queue_proofs App App_proofs Page Page_proofs Ends_proofs Props_queue Props_page.
Import ListNotations.

(** C61: for futures that record how their polls ended (any futures can be extended to do
    so): the polls in the trace are the polls that happened, in order; as long as the page
    works none has panicked; the future of a task that finished is dropped; and a future is
    dropped only because its task finished or was cancelled. *)
Theorem C61_ends :
  forall X step fin (ends : X -> list (nat * outcome)) x evs s,
  keeps_ends ends step fin evs -> ends x = [] -> xrun X step fin x evs = Live s ->
  let tr := q_tr X (xs _ s) in let l := ends (q_x X (xs _ s)) in
  pollseq tr = map fst l /\
  (forall t, ~ In (t, Panics) l) /\
  (forall t, In (t, Ready) l -> alive t tr = false) /\
  (forall t, In (QDrop t) tr -> cancelled t tr = true \/ In (t, Ready) l).
Proof.
  intros X step fin ends x evs s (KS & KF & KE) E0 R tr l.
  assert (I : EI X (fun x => forall t, ~ In (t, Panics) (ends x)) (fun t x => In (t, Ready) (ends x)) (fun p x => p = map fst (ends x)) (xs _ s)).
  { apply (xrun_ei X step fin) with (x := x) (evs := evs); auto.
    - intros t x0 x' l0 o J S N u. rewrite (KS _ _ _ _ _ S). intro H. apply in_app_iff in H as [H|[H|[]]]; [eapply J; eauto|]. injection H as _ H. auto.
    - intros t x0 x' l0 o u J _ S N. rewrite (KS _ _ _ _ _ S), in_app_iff. cbn. intuition congruence.
    - intros t x0 x' l0 o p J S N ->. rewrite (KS _ _ _ _ _ S), map_app. reflexivity.
    - intros t x0 x' l0 J F. rewrite (KF _ _ _ _ F). auto.
    - intros t x0 x' l0 u J F. rewrite (KF _ _ _ _ F). tauto.
    - intros t x0 x' l0 p J F. rewrite (KF _ _ _ _ F). auto.
    - rewrite E0. auto.
    - rewrite E0. auto.
    - rewrite E0. auto.
    - intros f y H J. rewrite (KE f y H). split; auto. split; auto. tauto. }
  destruct I as [I1 I2 I3 I4]. split; [exact I4|]. split; [exact I1|]. split; [|exact I3].
  intros t H. destruct (I2 t H) as [_ G]. destruct (proj1 (xrun_inv X step fin x evs) s R) as [Q _].
  unfold tr. rewrite (qi_alive X _ _ Q), G. apply andb_false_r.
Qed.
Print Assumptions C61_ends.

(** C65: as long as the page works, an application whose root block returned is dropped, and
    an application is dropped only when its root block returned or it was unmounted. *)
Theorem C65_ends :
  forall V X ww debug bound code on_drop x evs s t, will_wake_ok ww -> page_code_ok code ->
  prun V X ww debug bound code on_drop x evs = Live s ->
  (returned Root (app_tr s t) -> alive t (q_tr _ (xs _ s)) = false) /\
  (In (QDrop t) (q_tr _ (xs _ s)) -> returned Root (app_tr s t) \/ cancelled t (q_tr _ (xs _ s)) = true).
Proof.
  intros V X ww debug bound code on_drop x evs s t WW CO R.
  pose proof (prun_ei V X ww WW debug bound code on_drop CO x evs s R) as [I1 I2 I3 _].
  destruct (prun_pi V X ww debug bound code on_drop WW CO x evs s R) as [[Q _] _].
  assert (O : fini V X t (q_x _ (xs _ s)) <-> returned Root (app_tr s t)).
  { apply g_over with (1 := g_glob _ _ _ _ _ _ (prog_inv V X ww debug code WW CO t _ (gd_prog _ _ _ _ _ _ I1 t))). }
  rewrite <- O. split; [|intro H; destruct (I3 t H); auto].
  intro H. destruct (I2 t H) as [_ G]. rewrite (qi_alive _ _ _ Q), G. apply andb_false_r.
Qed.
Print Assumptions C65_ends.

(** Non-vacuity: the tasks of [ex_queue] (Props_queue.v), which record how their polls end:
    task 0 is cancelled and dropped, task 2 finishes and is dropped, task 1 goes on. *)
Definition exe_step (t : nat) (x : (nat * nat) * list (nat * outcome)) :=
  let '(y, l, o) := exq_step t (fst x) in ((y, snd x ++ [(t, o)]), l, o).
Definition exe_fin (t : nat) (x : (nat * nat) * list (nat * outcome)) := let (y, l) := exq_fin t (fst x) in ((y, snd x), l).
Definition exe_evs : list (xev ((nat * nat) * list (nat * outcome))) := mount_at ++ [XFire 5] ++ mount_at ++ [XRun 5].
Example ex_keeps_ends : keeps_ends snd exe_step exe_fin exe_evs.
Proof.
  split; [|split].
  - intros t x x' l o. unfold exe_step. destruct (exq_step t (fst x)) as [[y m] p]. intros [= <- <- <-]. reflexivity.
  - intros t x x' l. unfold exe_fin. destruct (exq_fin t (fst x)) as [y m]. intros [= <- <-]. reflexivity.
  - intros f x H. cbn in H. intuition discriminate.
Qed.
Example ex_ends :
  match xrun _ exe_step exe_fin ((0, 0), []) exe_evs with
  | Live s => (snd (q_x _ (xs _ s)), map (fun t => (alive t (q_tr _ (xs _ s)), cancelled t (q_tr _ (xs _ s)))) [0; 1; 2]) =
      ([(0, Pend); (1, Pend); (0, Pend); (1, Pend); (2, Ready)], [(false, true); (true, false); (false, false)])
  | _ => False
  end.
Proof. vm_compute. reflexivity. Qed.

(** and of applications: the page of Props_page.v, until applications 0 and 1 have returned; application 2
    was cancelled *)
Example ex_page_ends :
  match exp_run (exp_hist ++ [PFire 9; PEnv (fun _ => 5); PDo (GWake 1 (Kid 0 0)); PDo (GWake 1 (Kid 0 1)); PFire 9]) with
  | Live s => existsb (fun e => match e with EDone Root _ => true | _ => false end) (app_tr s 1) = true /\
      flat_map (fun e => match e with QDrop t => [t] | _ => [] end) (q_tr _ (xs _ s)) = [0; 1; 2] /\ map (fun t => (alive t (q_tr _ (xs _ s)), cancelled t (q_tr _ (xs _ s)))) [0; 1; 2] =
      [(false, false); (false, false); (false, true)]
  | _ => False
  end.
Proof. vm_compute. repeat split. Qed.
