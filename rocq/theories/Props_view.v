(** Property C67: views are up to date when the page comes to rest.

    A view is a block of an application whose code brings something up to date with the state
    whenever it is polled (view_of, Spec_view.v); in particular, a block that awaits
    [cell.for_each(f)] (for_each_view): there, the last value [f] was called with is the value
    in the cell.  This joins ReactiveCell, the combinators, async_executor and the root
    executor: if any of them lost a wake-up, a view could stay out of date for ever. *)
From Coq Require Import List Arith Bool Lia Cantor.
From Verif Require Import Util Arena Spec_arena Readiness Combinator Tree Spec_tree Tree_proofs Props_tree Executor Spec_executor
  Queue Spec_queue App Page Page_proofs Props_page Cell Spec_cell Spec_view View_proofs View_cell_proofs.
Import ListNotations.

(** The page is at rest: it was mounted, and the browser holds no timer for it, or a timer has just fired, or an event handler has
    just called run_now. *)
Definition at_rest {V X} ww debug bound code on_drop (x : X) (evs : list (pev X)) (s : ex (qu (page V X))) : Prop :=
  In (PDo GSchedule) evs /\ timers _ s = 0 \/
  exists evs0 e s0, evs = evs0 ++ [e] /\ In (PDo GSchedule) evs0 /\ prun V X ww debug bound code on_drop x evs0 = Live s0 /\
    ((exists fuel, e = PRun fuel) \/ (exists fuel, e = PFire fuel) /\ timers _ s0 > 0).

Lemma at_rest_served {V X} ww debug bound code on_drop (x : X) evs (s : ex (qu (page V X))) :
  prun V X ww debug bound code on_drop x evs = Live s -> at_rest ww debug bound code on_drop x evs s -> forall t, owed t (q_tr _ (xs _ s)) = false.
Proof.
  intros R [(M & T)|(evs0 & e & s0 & -> & M & R0 & HE)].
  - eapply settled_idle; eauto.
  - eapply settled_turn; eauto.
Qed.

(** C67: when the page is at rest, every view that is there, and that awaits a future of its own
    (not a combinator), is up to date. *)
Theorem C67_up_to_date :
  forall V X ww debug bound code on_drop x evs s (J fresh : X -> Prop) t p, will_wake_ok ww -> page_code_ok code ->
  view_of J fresh t p code on_drop evs -> J x ->
  prun V X ww debug bound code on_drop x evs = Live s -> at_rest ww debug bound code on_drop x evs s ->
  alive t (q_tr _ (xs _ s)) = true -> Spec_tree.live (app_tr s t) p -> at_leaf p (app_tr s t) = true ->
  fresh (pg_x V X (q_x _ (xs _ s))).
Proof.
  intros V X ww debug bound code on_drop x evs s J fresh t p WW CO VO J0 R AR A L AL.
  apply (view_fresh V X ww debug bound code on_drop evs J fresh t p WW CO VO x s J0 R); auto.
  eapply at_rest_served; eauto.
Qed.
Print Assumptions C67_up_to_date.

(** C67: when the page is at rest, a block that is there and never awaited a combinator awaits a
    future of its own. *)
Theorem C67_awaits :
  forall V X ww debug bound code on_drop (x : X) evs s t p, will_wake_ok ww -> page_code_ok code ->
  prun V X ww debug bound code on_drop x evs = Live s -> at_rest ww debug bound code on_drop x evs s ->
  alive t (q_tr _ (xs _ s)) = true -> Spec_tree.live (app_tr s t) p ->
  (forall n k b, ~ In (ENew n k b p) (app_tr s t)) -> at_leaf p (app_tr s t) = true.
Proof.
  intros V X ww debug bound code on_drop x evs s t p WW CO R AR A L NN.
  apply (polled_leaf V X ww debug bound code on_drop evs t p WW CO x s R); auto. eapply at_rest_served; eauto.
Qed.
Print Assumptions C67_awaits.

(** C67: when the page is at rest, no mutable borrow of the cell is alive, the block is there and
    awaits the cell's for_each, and the for_each future is not dropped: then its
    function was last called with the value that is in the cell. *)
Theorem C67_for_each :
  forall T V X ww debug bound code on_drop x evs s ww' fuel (v0 : T) (cw : X -> fworld T) on ftr j t p f,
  will_wake_ok ww -> will_wake_ok ww' -> 1 <= fuel -> page_code_ok code ->
  for_each_view ww' fuel v0 cw on j t p code on_drop evs ->
  fhist T ww' fuel v0 ftr (cw x) -> ~ fpolled T j ftr ->
  prun V X ww debug bound code on_drop x evs = Live s -> at_rest ww debug bound code on_drop x evs s ->
  alive t (q_tr _ (xs _ s)) = true -> Spec_tree.live (app_tr s t) p -> at_leaf p (app_tr s t) = true ->
  on (pg_x V X (q_x _ (xs _ s))) = true ->
  let w := cw (pg_x V X (q_x _ (xs _ s))) in
  guarded T (fw_tr T w) = false -> In (j, f) (fw_fes T w) ->
  exists rest, fe_calls T f = c_data T (cw_cell T (fw_w T w)) :: rest.
Proof.
  intros T V X ww debug bound code on_drop x evs s ww' fuel v0 cw on ftr j t p f WW WW' FU CO FV H NP R AR A L AL ON w G IN.
  assert (F : freshC T j w).
  { revert ON. apply (C67_up_to_date V X ww debug bound code on_drop x evs s _ _ t p WW CO (for_each_view_of ww' fuel v0 cw on j t p code on_drop evs WW' FU FV)); auto.
    exists ftr. split; auto. intros wk E. exfalso. apply NP. clear - E. induction ftr as [|e ftr IH]; cbn in *; [discriminate|].
    destruct e; auto. destruct (Nat.eqb_spec j0 j); auto. }
  destruct F as (_ & F). destruct (F f IN) as (v & r & C & [Q|Q]); [congruence|]. exists r. rewrite C, Q. reflexivity.
Qed.
Print Assumptions C67_for_each.

(** Non-vacuity: the shared state is a cell with a number.  Application 0 joins two blocks:
    the first awaits a join of one block, which returns at once, and then the cell's for_each
    (future 0, made then); the second sets the cell to 6 when it finds 5 in it. *)
Definition exv_wake (wk : waker) : list gact :=
  match w_task wk with Some k => let (u, c) := of_nat k in [GWake u (place_of c)] | None => [] end.
Notation exv_fexec := (fexec nat ex_ww 1).
Definition exv_set (v : nat) (w : fworld nat) : fworld nat * list gact :=
  if guarded nat (fw_tr nat w) then (w, []) else
  match exv_fexec w (FCell nat (CBegin nat)) with
  | Some (w1, _) => match exv_fexec w1 (FCell nat (CWrite nat v)) with
    | Some (w2, _) => match exv_fexec w2 (FCell nat (CEnd nat)) with
      | Some (w3, OWoken ws) => (w3, flat_map exv_wake ws)
      | _ => (w, [])
      end
    | None => (w, [])
    end
  | None => (w, [])
  end.
Definition exv_wk := mkW (Some (block_task 0 (Kid 0 0))) 7.
Definition exv_code (t : nat) (x : fworld nat) (p : place) (got : option val) : fworld nat * list gact * next val :=
  match t, p, got with
  | 0, Root, None => (x, [], NAwait KArray join_val 2)
  | 0, Kid 0 0, _ =>
      if match got with None => fw_next nat x =? 0 | Some _ => false end then (x, [], NAwait KArray join_val 1) else
      let x1 := if fw_next nat x =? 0 then match exv_fexec x (FStart nat) with Some (y, _) => y | None => x end else x in
      if guarded nat (fw_tr nat x1) then (x, [], NPanic) else
      match exv_fexec x1 (FPoll nat 0 exv_wk) with Some (x2, _) => (x2, [], NPend) | None => (x, [], NPanic) end
  | 0, Kid 0 1, _ => if c_data nat (cw_cell nat (fw_w nat x)) =? 5 then let (x', l) := exv_set 6 x in (x', l, NPend) else (x, [], NPend)
  | 0, Kid 1 0, _ => (x, [], NRet (VNat 3))
  | _, _, _ => (x, [], NPend)
  end.
Definition exv_drop (t : nat) (x : fworld nat) : fworld nat * list gact := (x, []).
(** an event handler sets the cell to 5 and wakes the second block *)
Definition exv_click (x : fworld nat) : fworld nat * list gact := let (x', l) := exv_set 5 x in (x', l ++ [GWake 0 (Kid 0 1)]).
Definition exv_evs : list (pev (fworld nat)) := pmount ++ [PFire 9; PCode exv_click; PFire 9].
Definition exv_x0 : fworld nat := match cw_new nat 1 with Some c => mkFW nat c [] 0 [] | None => mkFW nat (mkCW nat (mkC nat 0 ar_new 0 false) [] 0) [] 0 [] end.

Lemma exv_wakes ws : does_wakes (OWoken ws) (flat_map exv_wake ws).
Proof.
  intros wk u q IN E. apply in_flat_map. exists wk. split; auto. unfold exv_wake. rewrite E. unfold block_task. rewrite cancel_of_to, place_task. left. reflexivity.
Qed.
Lemma exv_set_uses v w w' l l' : exv_set v w = (w', l) -> uses ex_ww 1 (fun e => forall wk, e <> FPoll nat 0 wk) w (l ++ l') w'.
Proof.
  unfold exv_set. destruct (guarded nat (fw_tr nat w)) eqn:G; [intros [= <- <-]; constructor|].
  destruct (exv_fexec w _) as [[w1 o1]|] eqn:E1; [|intros [= <- <-]; constructor].
  destruct (exv_fexec w1 _) as [[w2 o2]|] eqn:E2; [|intros [= <- <-]; constructor].
  destruct (exv_fexec w2 _) as [[w3 o3]|] eqn:E3; [|intros [= <- <-]; constructor].
  destruct o3 as [| | |ws]; intros [= <- <-]; try constructor.
  assert (T1 : fw_tr nat w1 = CBegin nat :: fw_tr nat w).
  { cbn in E1. destruct (cell_borrow_mut nat _); [|discriminate]. injection E1 as <- <-. reflexivity. }
  assert (T2 : fw_tr nat w2 = CWrite nat v :: fw_tr nat w1).
  { cbn in E2. destruct (cell_write nat _ v); [|discriminate]. injection E2 as <- <-. reflexivity. }
  assert (O1 : o1 = OUnit) by (cbn in E1; destruct (cell_borrow_mut nat _); [|discriminate]; injection E1 as <- <-; reflexivity).
  assert (O2 : o2 = OUnit) by (cbn in E2; destruct (cell_write nat _ v); [|discriminate]; injection E2 as <- <-; reflexivity).
  subst o1 o2.
  eapply uses_step with (e := FCell nat (CBegin nat)); [intros ? Q; discriminate Q| |exact E1|exact Logic.I|]; [split; [exact G|exact Logic.I]|].
  eapply uses_step with (e := FCell nat (CWrite nat v)); [intros ? Q; discriminate Q| |exact E2|exact Logic.I|]; [split; [cbn; rewrite T1; reflexivity|exact Logic.I]|].
  eapply uses_step with (e := FCell nat (CEnd nat)); [intros ? Q; discriminate Q| |exact E3| |constructor]; [split; [cbn; rewrite T2, T1; reflexivity|exact Logic.I]|].
  intros wk u q IN E. apply in_app_iff. left. exact (exv_wakes ws wk u q IN E).
Qed.
Lemma exv_uses_app ok w l w1 w' : uses ex_ww 1 ok w l w1 -> uses ex_ww 1 ok w1 l w' -> uses ex_ww (T := nat) 1 ok w l w'.
Proof. induction 1; auto. intro. econstructor; eauto. Qed.
Example exv_view : for_each_view ex_ww 1 1 (fun x => x) (fun _ => true) 0 0 (Kid 0 0) exv_code exv_drop exv_evs.
Proof.
  split; [|split; [|split]].
  - intros x got x' l nx (ftr & H) E. cbn [exv_code] in E.
    destruct (match got with None => fw_next nat x =? 0 | Some _ => false end); [injection E as <- <- <-; right; split; [constructor|discriminate]|].
    set (x1 := if fw_next nat x =? 0 then _ else x) in *. destruct (guarded nat (fw_tr nat x1)) eqn:G; [injection E as <- <- <-; auto|].
    destruct (exv_fexec x1 (FPoll nat 0 exv_wk)) as [[x2 o]|] eqn:E2; [|injection E as <- <- <-; auto]. injection E as <- <- <-. right.
    assert (U1 : uses ex_ww 1 (fun e => forall wk, e = FPoll nat 0 wk -> w_task wk = Some (block_task 0 (Kid 0 0))) x [] x1).
    { unfold x1. destruct (fw_next nat x =? 0); [|constructor]. eapply uses_step with (e := FStart nat); [intros ? Q; discriminate Q|exact Logic.I|reflexivity|exact Logic.I|constructor]. }
    assert (AL : fallowed nat x1 (FPoll nat 0 exv_wk)); [|split].
    + split; auto. cbn in E2. destruct (f_get nat 0 (fw_fes nat x1)) as [f|] eqn:EG; [|discriminate].
      apply in_map_iff. exists (0, f). split; auto. clear - EG. induction (fw_fes nat x1) as [|[i g] r IH]; [discriminate|]. cbn in EG.
      destruct (Nat.eqb_spec i 0) as [->|]; [injection EG as ->; left; reflexivity|right; auto].
    + eapply exv_uses_app; [exact U1|]. eapply uses_step with (e := FPoll nat 0 exv_wk); [intros ? [= <-]; reflexivity|exact AL|exact E2| |constructor].
      cbn in E2. destruct (f_get _ _ _); [|discriminate]. destruct (fe_poll _ _ _ _ _ _) as [[[? ?] ?]|]; [|discriminate]. injection E2 as _ <-. exact Logic.I.
    + intros _ _. exists x1, exv_wk, o, x2. repeat split; auto; try constructor; apply AL.
  - intros u x q got x' l nx NE (ftr & H) E.
    assert (NIL : forall r, (x, [], r) = (x', l, nx) -> nx = NPanic \/ uses ex_ww 1 (fun e => forall wk, e <> FPoll nat 0 wk) x l x' /\ (true = true -> true = true))
      by (intros r [= <- <- _]; right; split; [constructor|auto]).
    destruct u as [|u]; [|exact (NIL _ E)]. destruct q as [|n i]; [destruct got; exact (NIL _ E)|].
    destruct n as [|[|n]]; [|destruct i; exact (NIL _ E)|exact (NIL _ E)]. destruct i as [|[|i]]; [destruct NE; congruence| |exact (NIL _ E)].
    cbn [exv_code] in E. destruct (_ =? 5); [|exact (NIL _ E)]. destruct (exv_set 6 x) as [y m] eqn:ES. injection E as <- <- <-. right. split; auto.
    rewrite <- (app_nil_r m). eapply exv_set_uses; eauto.
  - intros u x x' l _ [= <- <-]. split; [constructor|auto].
  - intros f x x' l IN (ftr & H) E. cbn in IN. destruct IN as [Q|[Q|[Q|[Q|[Q|[]]]]]]; try discriminate. injection Q as <-.
    unfold exv_click in E. destruct (exv_set 5 x) as [y m] eqn:ES. injection E as <- <-. split; auto. eapply exv_set_uses; eauto.
Qed.
Example exv_start : fhist nat ex_ww 1 1 [] exv_x0 /\ ~ fpolled nat 0 [].
Proof. split; [|intros []]. eapply fh_new. reflexivity. Qed.
Definition exv_run evs := prun val (fworld nat) ex_ww true 40 exv_code exv_drop exv_x0 evs.
Definition exv_see (r : rres (qu (page val (fworld nat)))) : option (bool * nat * bool * list (nat * list nat) * nat) :=
  match r with
  | Live s => let w := pg_x _ _ (q_x _ (xs _ s)) in
      Some (alive 0 (q_tr _ (xs _ s)), timers _ s, guarded nat (fw_tr nat w), map (fun f => (fst f, fe_calls nat (snd f))) (fw_fes nat w),
        c_data nat (cw_cell nat (fw_w nat w)))
  | _ => None
  end.
(** at rest; then out of date, after the handler ran, until the timer fires; then at rest again:
    the function was called with 1, 5 and 6 *)
Example exv_shown :
  exv_see (exv_run (pmount ++ [PFire 9])) = Some (true, 0, false, [(0, [1])], 1) /\
  exv_see (exv_run (pmount ++ [PFire 9; PCode exv_click])) = Some (true, 1, false, [(0, [1])], 5) /\
  exv_see (exv_run exv_evs) = Some (true, 0, false, [(0, [6; 5; 1])], 6) /\
  match exv_run exv_evs with Live s => Spec_tree.live (app_tr s 0) (Kid 0 0) /\ at_leaf (Kid 0 0) (app_tr s 0) = true | _ => False end.
Proof.
  split; [vm_compute; reflexivity|]. split; [vm_compute; reflexivity|]. split; [vm_compute; reflexivity|].
  vm_compute. split; [|reflexivity]. apply live_kid with (k := 2) (b := join_val) (p := Root); [cbn; tauto|lia| | |].
  - intros (v & H). cbn in H. intuition discriminate.
  - intros (v & H). cbn in H. intuition discriminate.
  - constructor. intros (v & H). cbn in H. intuition discriminate.
Qed.
Example exv_rest : match exv_run exv_evs with Live s => at_rest ex_ww true 40 exv_code exv_drop exv_x0 exv_evs s | _ => False end.
Proof.
  destruct exv_shown as (_ & _ & H & L). destruct (exv_run exv_evs) as [s|s|]; try contradiction. clear L. left. split; [right; left; reflexivity|].
  cbn [exv_see] in H. injection H as _ T _ _ _. exact T.
Qed.
