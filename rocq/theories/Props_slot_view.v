(** Property C70: what a DynamicSlot was told to show is shown when the page comes to rest.

    A block awaits [slot.render()] (slot_view in Spec_slot_view.v).  This joins DynamicSlot, the
    combinators, async_executor and the root executor. *)
From Coq Require Import List Arith Bool Lia Cantor.
From Verif Require Import Util Arena Spec_arena Readiness Combinator Tree Spec_tree Tree_proofs Props_tree Executor Spec_executor
  Queue Spec_queue App Page Page_proofs Props_page Spec_view View_proofs Props_view
  Slot Spec_slot Slot_proofs Spec_slot_view View_slot_proofs.
Import ListNotations.

(** C70: the page is at rest, the block is there and awaits the render future of the slot, which
    is not dropped.  Then the render future was polled since the last call of set_future or
    clear_future, and this poll polled the future given by the last set_future (and no other; none
    if clear_future was called last), which is not dropped; all other futures ever given to the
    slot have been dropped, once. *)
Theorem C70_shown :
  forall V X ww debug bound code on_drop x evs s ww' Y poll dropf (sl : X -> st Y) on y ops t p,
  will_wake_ok ww -> will_wake_ok ww' -> page_code_ok code ->
  slot_view ww' poll dropf sl on t p code on_drop evs ->
  Slot.run ww' Y poll dropf y ops = Some (sl x) -> last_poll (Slot.tr Y (sl x)) = None ->
  prun V X ww debug bound code on_drop x evs = Live s -> at_rest ww debug bound code on_drop x evs s ->
  Spec_queue.alive t (q_tr _ (Executor.xs _ s)) = true -> Spec_tree.live (app_tr s t) p -> at_leaf p (app_tr s t) = true ->
  on (pg_x V X (q_x _ (Executor.xs _ s))) = true ->
  let s' := sl (pg_x V X (q_x _ (Executor.xs _ s))) in
  let tr := Slot.tr Y s' in
  Slot.alive Y s' = true ->
  (exists later w before, tr = later ++ Slot.TPoll w :: before /\ (forall e, In e later -> sets e = false) /\
     polled later = match current tr with Some f => [(f, w)] | None => [] end) /\
  (forall g, In (TSet g) tr -> drops g tr = if match current tr with Some f => f =? g | None => false end then 0 else 1).
Proof.
  intros V X ww debug bound code on_drop x evs s ww' Y poll dropf sl on y ops t p WW WW' CO SV R0 L0 R AR A L AL ON s' tr AS.
  pose proof (slot_view_of ww' WW' Y poll dropf t p sl on code on_drop evs SV) as VO.
  assert (J0 : JD ww' Y poll dropf t p (sl x)) by (split; [exists y, ops; exact R0|intros wk Q; congruence]).
  pose proof (C67_up_to_date V X ww debug bound code on_drop x evs s _ _ t p WW CO VO J0 R AR A L AL ON) as F. cbn beta in F.
  destruct (proj1 (view_inv V X ww debug bound code on_drop evs _ _ t p WW CO VO x s J0 (or_introl R))) as ((y' & ops' & RE) & _).
  destruct (taken_polled ww' WW' Y poll dropf ops' y' _ RE AS F) as (later & w & before & T & _ & NS & P & D). split.
  - exists later, w, before. split; auto. split; auto. intros e IN. destruct (sets e) eqn:Q; auto. exfalso.
    assert (existsb sets later = true) by (apply existsb_exists; eauto). congruence.
  - intros g IG. fold s' in D. fold tr in D. destruct (current tr) as [f|] eqn:C; [|apply D; auto; congruence].
    destruct (Nat.eqb_spec f g) as [->|N]; [|apply D; auto; congruence].
    apply current_kept; auto. eapply run_SI; eauto.
Qed.
Print Assumptions C70_shown.

(** Non-vacuity: application 0 joins two blocks; the first renders the slot.  The event handler
    calls set_future; slotted future 1 calls set_future itself when it is polled. *)
Definition exs_poll (y : unit) (f : nat) (w : waker) : unit * list act * bool := (y, if f =? 1 then [ASet] else [], false).
Definition exs_dropf (y : unit) (f : nat) : unit * list act := (y, []).
Notation exs_exec := (Slot.exec ex_ww unit exs_poll exs_dropf).
Definition exs_do (o : op unit) (s : st unit) : st unit * list gact :=
  match exs_exec s o with
  | Some s' => (s', flat_map (fun e => match e with Slot.TWake wk => exv_wake wk | _ => [] end) (firstn (length (Slot.tr unit s') - length (Slot.tr unit s)) (Slot.tr unit s')))
  | None => (s, [])
  end.
Definition exs_code (t : nat) (x : st unit) (p : place) (got : option val) : st unit * list gact * Tree.next val :=
  match t, p, got with
  | 0, Root, None => (x, [], NAwait KArray join_val 2)
  | 0, Kid 0 0, _ => if Slot.alive unit x then match exs_exec x (OPoll unit exv_wk) with Some _ => (exs_do (OPoll unit exv_wk) x, NPend) | None => (x, [], NPanic) end else (x, [], NPanic)
  | _, _, _ => (x, [], NPend)
  end.
Definition exs_drop (t : nat) (x : st unit) : st unit * list gact := (x, []).
Definition exs_click (x : st unit) : st unit * list gact := exs_do (OAct unit ASet) x.
Definition exs_evs : list (pev (st unit)) := pmount ++ [PFire 9; PCode exs_click; PFire 9; PCode exs_click; PFire 9; PFire 9].
Definition exs_x0 : st unit := init unit tt.

Notation exs_polls := (fun o => match o with OPoll _ wk => Some wk | _ => None end).
Notation exs_uses := (part_uses (st unit) (op unit) (fun s o s' => exs_exec s o = Some s') slot_tells).
Lemma exs_told s o s' : exs_exec s o = Some s' -> slot_tells s s' (snd (exs_do o s)).
Proof.
  intro E. unfold exs_do. rewrite E. cbn [snd]. pose proof (step_grows ex_ww unit exs_poll exs_dropf s o s' E) as G.
  assert (K : exists new, Slot.tr unit s' = new ++ Slot.tr unit s).
  { destruct o as [a|w| | |x]; try (destruct G as (new & T & _); eauto; fail). destruct (Slot.alive unit s); [|subst; exists []; reflexivity].
    destruct G as (new & T & _). exists (new ++ [Slot.TPoll w]). rewrite T, <- app_assoc. reflexivity. }
  destruct K as (new & T). exists new. split; auto. intros wk u q IN TK.
  rewrite T, app_length, Nat.add_sub, firstn_app, Nat.sub_diag, firstn_all, app_nil_r. apply in_flat_map. exists (Slot.TWake wk). split; auto.
  unfold exv_wake. rewrite TK. unfold block_task. rewrite cancel_of_to, place_task. left. reflexivity.
Qed.
Example exs_view : slot_view ex_ww exs_poll exs_dropf (fun x => x) (fun _ => true) 0 (Kid 0 0) exs_code exs_drop exs_evs.
Proof.
  split; [|split; [|split]].
  - intros x got x' l nx _ E. cbn [exs_code] in E. destruct (Slot.alive unit x) eqn:AL; [|injection E as <- <- <-; auto].
    destruct (exs_exec x (OPoll unit exv_wk)) as [x1|] eqn:E1; [|injection E as <- <- <-; auto]. right.
    pose proof (exs_told _ _ _ E1) as T. assert (F : fst (exs_do (OPoll unit exv_wk) x) = x1) by (unfold exs_do; rewrite E1; reflexivity).
    destruct (exs_do (OPoll unit exv_wk) x) as [x2 l2]. cbn in F, T. subst x2. injection E as <- <- <-. split.
    + eapply part_step with (o := OPoll unit exv_wk); [intros wk [= <-]; reflexivity|exact E1|exact T|constructor].
    + intros _ _. exists x, (OPoll unit exv_wk), exv_wk, x1. repeat split; auto; constructor.
  - intros u x q got x' l nx NE _ E.
    assert (NIL : forall r, (x, [], r) = (x', l, nx) -> nx = NPanic \/ exs_uses (fun o => exs_polls o = None) x l x' /\ (true = true -> true = true))
      by (intros r [= <- <- _]; right; split; [constructor|auto]).
    destruct u as [|u]; [|exact (NIL _ E)]. destruct q as [|n i]; [destruct got; exact (NIL _ E)|].
    destruct n as [|n]; [|exact (NIL _ E)]. destruct i as [|i]; [destruct NE; congruence|exact (NIL _ E)].
  - intros u x x' l _ [= <- <-]. split; [constructor|auto].
  - intros f x x' l IN _ E. cbn in IN. destruct IN as [Q|[Q|[Q|[Q|[Q|[Q|[Q|[Q|[]]]]]]]]]; try discriminate; injection Q as <-; (split; [|auto]);
      (unfold exs_click in E; destruct (exs_exec x (OAct unit ASet)) as [x1|] eqn:E1;
       [pose proof (exs_told _ _ _ E1) as T; rewrite E in T; assert (F : fst (exs_do (OAct unit ASet) x) = x1) by (unfold exs_do; rewrite E1; reflexivity);
        rewrite E in F; cbn in F, T; subst x1; eapply part_step with (o := OAct unit ASet); [reflexivity|exact E1|exact T|constructor]
       |unfold exs_do in E; rewrite E1 in E; injection E as <- <-; constructor]).
Qed.
Example exs_start : Slot.run ex_ww unit exs_poll exs_dropf tt [] = Some exs_x0 /\ last_poll (Slot.tr unit exs_x0) = None.
Proof. split; reflexivity. Qed.
Definition exs_run evs := prun val (st unit) ex_ww true 40 exs_code exs_drop exs_x0 evs.
Definition exs_see (r : rres (qu (Page.page val (st unit)))) :=
  match r with
  | Live s => let x := pg_x _ _ (q_x _ (Executor.xs _ s)) in
      Some (Spec_queue.alive 0 (q_tr _ (Executor.xs _ s)), timers _ s, current (Slot.tr unit x), rev (map fst (polled (Slot.tr unit x))), map (fun f => drops f (Slot.tr unit x)) [0; 1; 2], Slot.alive unit x)
  | _ => None
  end.
(** futures 0, 1 and 2 are polled in turn; at rest, 2 is shown, 0 and 1 are dropped *)
Example exs_shown :
  exs_see (exs_run (pmount ++ [PFire 9])) = Some (true, 0, None, [], [0; 0; 0], true) /\
  exs_see (exs_run (pmount ++ [PFire 9; PCode exs_click])) = Some (true, 1, Some 0, [], [0; 0; 0], true) /\
  exs_see (exs_run (pmount ++ [PFire 9; PCode exs_click; PFire 9])) = Some (true, 0, Some 0, [0], [0; 0; 0], true) /\
  exs_see (exs_run exs_evs) = Some (true, 0, Some 2, [0; 1; 2], [1; 1; 0], true) /\
  match exs_run exs_evs with Live s => Spec_tree.live (app_tr s 0) (Kid 0 0) /\ at_leaf (Kid 0 0) (app_tr s 0) = true | _ => False end.
Proof.
  split; [vm_compute; reflexivity|]. split; [vm_compute; reflexivity|]. split; [vm_compute; reflexivity|]. split; [vm_compute; reflexivity|].
  vm_compute. split; [|reflexivity]. apply live_kid with (k := 2) (b := join_val) (p := Root); [cbn; tauto|lia| | |].
  - intros (v & H). cbn in H. intuition discriminate.
  - intros (v & H). cbn in H. intuition discriminate.
  - constructor. intros (v & H). cbn in H. intuition discriminate.
Qed.
Example exs_rest : match exs_run exs_evs with Live s => at_rest ex_ww true 40 exs_code exs_drop exs_x0 exs_evs s | _ => False end.
Proof.
  destruct exs_shown as (_ & _ & _ & H & L). destruct (exs_run exs_evs) as [s|s|]; try contradiction. clear L. left. split; [right; left; reflexivity|].
  cbn [exs_see] in H. injection H as _ T _ _ _ _. exact T.
Qed.
