(** Property C72: a VirtualizedList follows the scrolling.

    C37 and C55 say which items an update shows; here: when it is updated, when it listens, and
    that in a page at rest no scroll event and no report of the observer is left unseen. *)
From Coq Require Import List Arith Bool Lia Cantor.
From Verif Require Import Util Arena Spec_arena Readiness Combinator Tree Spec_tree Tree_proofs Props_tree Executor Spec_executor
  Queue Spec_queue App Page Page_proofs Props_page Spec_view View_proofs Props_view
  Cell Cell_proofs Virtual VLife Spec_vlife VLife_proofs.
Import ListNotations.

(** C72: whenever a scroll event is dispatched on the root, or the observer reports: nothing panics,
    the list is not updated at once, and exactly one waker is woken, namely the one with which the
    render future was last polled; none if the list is not rendered. *)
Theorem C72_told :
  forall ww ops s o, will_wake_ok ww -> run ww ops = Some s -> o = OScroll \/ o = OInter ->
  exists s' ws e, exec ww s o = Some s' /\ vr_list s' = vr_list s /\
  vr_tr s' = rev (map TWake ws) ++ e :: vr_tr s /\ e = (match o with OScroll => TScroll | _ => TInter end) /\
  match rendering (vr_tr s) with
  | Some j => exists w wk, ws = [w] /\ last_waker j (vr_tr s) = Some wk /\ same_task w wk
  | None => ws = []
  end.
Proof.
  intros ww ops s o WW R O. destruct (run_inv ww WW _ _ R) as (ctr & IV). pose proof (inv_quiet _ _ IV) as Q.
  assert (K : forall ws, Forall2 same_task ws (map (fun id => wk_of unit id ctr) (Spec_cell.live_ids unit ctr)) ->
    match rendering (vr_tr s) with Some j => exists w wk, ws = [w] /\ last_waker j (vr_tr s) = Some wk /\ same_task w wk | None => ws = [] end).
  { intros ws F. destruct IV as (_ & P). unfold phase in P. destruct (rendering (vr_tr s)) as [j|].
    - destruct P as (id & P1 & _ & _ & _ & _ & P6 & P7 & _). rewrite P1 in F. inversion F as [|w y ws' l ST F' E1 E2]. inversion F'. exists w, (wk_of unit id ctr). split; [reflexivity|]. split; [|exact ST].
      unfold wk_of. rewrite P6. destruct (last_waker j (vr_tr s)); congruence.
    - destruct P as (P1 & _). rewrite P1 in F. inversion F. reflexivity. }
  destruct O as [ -> | -> ]; cbn [exec].
  - destruct (scroll_ok ww WW s ctr (proj1 IV) Q) as (s1 & ws & ctr' & E1 & T & C & L & F). exists s1, ws, TScroll. do 4 (split; [assumption || reflexivity|]). exact (K ws F).
  - destruct (told_ok ww WW s ctr TInter (proj1 IV) (or_intror eq_refl) (or_introl eq_refl) Q) as (s1 & ws & ctr' & E1 & T & C & L & F). exists s1, ws, TInter. do 4 (split; [assumption || reflexivity|]). exact (K ws F).
Qed.
Print Assumptions C72_told.

(** C72: when a render future that exists was polled, it is the one that renders the list, and all
    that the list was told is followed by an update; the first poll always updates the list, a later
    one does not if it was told nothing. *)
Theorem C72_polled :
  forall ww ops s s' j wk us, will_wake_ok ww -> run ww ops = Some s -> made j (vr_tr s) = true -> exec ww s (OPoll j wk us) = Some s' ->
  rendering (vr_tr s') = Some j /\ last_waker j (vr_tr s') = Some wk /\ unseen (vr_tr s') = false /\
  (rendering (vr_tr s) <> Some j -> exists o l, updates (vr_tr s') = updates (vr_tr s) ++ o :: l) /\
  (rendering (vr_tr s) = Some j -> heard (vr_tr s) = false -> updates (vr_tr s') = updates (vr_tr s)).
Proof.
  intros ww ops s s' j wk us WW R M E. destruct (run_inv ww WW _ _ R) as (ctr & IV). apply (b_made _ _ (proj1 IV)) in M. destruct (get j (vr_futs s)) as [f|] eqn:G; [|congruence].
  pose proof (poll_ok ww WW s ctr j wk us f IV G) as PO. cbn [exec] in E. rewrite E in PO. destruct PO as (ctr' & _ & R' & LW & U & _ & _ & UP & UN). split; [exact R'|]. split; [exact LW|]. split; [exact U|]. split.
  2: { intros RJ H. apply UN; [|exact H]. intro K. destruct IV as (B & P). unfold phase in P. rewrite RJ in P. destruct P as (id & _ & _ & _ & P4 & _). apply in_get in P4; [congruence|apply B]. }
  intro NR. apply UP. destruct f as [id|]; [|exact G]. destruct IV as (B & P). unfold phase in P. apply get_in in G. destruct (rendering (vr_tr s)) as [i|].
  - destruct P as (id' & _ & _ & _ & _ & P5 & _). rewrite (P5 _ _ G) in NR. congruence.
  - destruct P as (_ & _ & _ & P). specialize (P _ _ G). discriminate.
Qed.
Print Assumptions C72_polled.

(** C72: the scroll listener is registered and the observer connected exactly while the list is
    rendered: both are gone when the render future was dropped. *)
Theorem C72_watches :
  forall ww ops s, will_wake_ok ww -> run ww ops = Some s ->
  (vr_listen s = true <-> exists j, rendering (vr_tr s) = Some j) /\ (vr_obs s = true <-> exists j, rendering (vr_tr s) = Some j) /\
  vr_listen s = listening (vr_tr s) /\ vr_obs s = observing (vr_tr s).
Proof.
  intros ww ops s WW R. destruct (run_inv ww WW _ _ R) as (ctr & (B & P)). rewrite (b_listen _ _ B), (b_obs _ _ B). unfold phase in P. destruct (rendering (vr_tr s)) as [j|].
  - destruct P as (id & _ & -> & -> & _). split; [split; eauto|]. split; [split; eauto|]. auto.
  - destruct P as (_ & -> & -> & _). split; [split; [discriminate|intros (j & Q); discriminate]|]. split; [split; [discriminate|intros (j & Q); discriminate]|]. auto.
Qed.
Print Assumptions C72_watches.

(** C72: the list is what these updates made of it (C37, C55). *)
Theorem C72_list :
  forall ww ops s, will_wake_ok ww -> run ww ops = Some s -> vl_run vl_new (updates (vr_tr s)) = Some (vr_list s).
Proof. intros ww ops s WW R. destruct (run_inv ww WW _ _ R) as (ctr & (B & _)). apply B. Qed.
Print Assumptions C72_list.

(** C72: a step panics only if a second render future is polled while the list is rendered, or some
    further updates of the list panic (C37 and C55 say when they do). *)
Theorem C72_panics :
  forall ww ops s o, will_wake_ok ww -> run ww ops = Some s -> exec ww s o = None ->
  (exists j wk us i, o = OPoll j wk us /\ made j (vr_tr s) = true /\ rendering (vr_tr s) = Some i /\ i <> j) \/
  exists l, vl_run vl_new (updates (vr_tr s) ++ l) = None.
Proof.
  intros ww ops s o WW R E. destruct (run_inv ww WW _ _ R) as (ctr & IV). pose proof (exec_inv ww WW s ctr o IV) as X. rewrite E in X. destruct X as [(j & wk & us & -> & G & RN)|X]; [left|right; exact X].
  destruct (rendering (vr_tr s)) as [i|] eqn:RE; [|congruence]. exists j, wk, us, i. split; [reflexivity|]. split; [apply (b_made _ _ (proj1 IV)); congruence|]. split; [reflexivity|]. intros ->.
  destruct IV as (B & P). unfold phase in P. rewrite RE in P. destruct P as (id & _ & _ & _ & P4 & _). apply in_get in P4; [congruence|apply B].
Qed.
Print Assumptions C72_panics.

(** C72: a second render future cannot be polled. *)
Theorem C72_one :
  forall ww ops s j i wk us, will_wake_ok ww -> run ww ops = Some s -> made j (vr_tr s) = true -> rendering (vr_tr s) = Some i -> i <> j -> exec ww s (OPoll j wk us) = None.
Proof.
  intros ww ops s j i wk us WW R M RE NE. destruct (run_inv ww WW _ _ R) as (ctr & (B & P)). cbn [exec]. unfold poll. apply (b_made _ _ B) in M. unfold phase in P. rewrite RE in P.
  destruct P as (id & _ & _ & _ & P4 & P5 & _). destruct (get j (vr_futs s)) as [[f|]|] eqn:G; [|replace (existsb started (vr_futs s)) with true; [reflexivity|]|congruence].
  - destruct NE. symmetry. apply get_in in G. exact (P5 _ _ G).
  - symmetry. apply existsb_exists. exists (i, Some id). auto.
Qed.
Print Assumptions C72_one.

(** C72: the page is at rest, and the block is there and awaits the render future [j]: then it has
    polled it; and if [j] is not dropped since and no other future renders the list, all that the
    list was told is followed by an update, the listener is registered and the observer is
    connected, so that it will be told again. *)
Theorem C72_rest :
  forall V X ww debug bound code on_drop x evs st ww' (vs : X -> vr) on ops j t p,
  will_wake_ok ww -> will_wake_ok ww' -> page_code_ok code ->
  vlist_view ww' vs on j t p code on_drop evs ->
  VLife.run ww' ops = Some (vs x) -> last_waker j (vr_tr (vs x)) = None ->
  prun V X ww debug bound code on_drop x evs = Live st -> at_rest ww debug bound code on_drop x evs st ->
  Spec_queue.alive t (q_tr _ (xs _ st)) = true -> Spec_tree.live (app_tr st t) p -> at_leaf p (app_tr st t) = true ->
  on (pg_x V X (q_x _ (xs _ st))) = true ->
  let s := vs (pg_x V X (q_x _ (xs _ st))) in
  last_waker j (vr_tr s) <> None /\
  (rendering (vr_tr s) = Some j -> unseen (vr_tr s) = false /\ vr_listen s = true /\ vr_obs s = true).
Proof.
  intros V X ww debug bound code on_drop x evs st ww' vs on ops j t p WW WW' CO EV E0 L0 R AR A L AL ON s.
  pose proof (vlist_view_of ww' WW' j t p vs on code on_drop evs EV) as VO.
  assert (J0 : JV ww' j t p (vs x)) by (split; [exists ops; exact E0|intros wk Q; congruence]).
  destruct (C67_up_to_date V X ww debug bound code on_drop x evs st _ _ t p WW CO VO J0 R AR A L AL ON) as (F1 & F2).
  destruct (proj1 (view_inv V X ww debug bound code on_drop evs _ _ t p WW CO VO x st J0 (or_introl R))) as ((ops' & RE) & _).
  split; [exact F1|]. intro RJ. split; [exact (F2 RJ)|]. destruct (C72_watches ww' ops' _ WW' RE) as (W1 & W2 & _). split; [apply W1|apply W2]; eauto.
Qed.
Print Assumptions C72_rest.

(** ** Non-vacuity *)
(** the example of the wakers: two with the same data are of the same task *)
Definition exl_win (k : nat) : option (nat * nat) * nat := (Some (k, k + 3), 0).
Definition exl_ops : list op := [ORender; ONum 50 (None, 0); OPoll 0 exv_wk [exl_win 0]; OScroll; OPoll 0 exv_wk [exl_win 2]; OInter].
Example exl_run :
  option_map (fun s => (vl_keys (vr_list s), (vr_listen s, vr_obs s), unseen (vr_tr s), rev (vr_tr s))) (VLife.run ex_ww exl_ops) =
  Some ([2; 3; 4], (true, true), true,
        [VLife.TRender 0; TUpdate (Some 50) None; VLife.TPoll 0 exv_wk; TConnect; TUpdate None (Some (0, 3)); TAdd;
         TScroll; TWake exv_wk; VLife.TPoll 0 exv_wk; TUpdate None (Some (2, 5)); TInter; TWake exv_wk]).
Proof. vm_compute. reflexivity. Qed.
(** a second render future *)
Example exl_two : VLife.run ex_ww (exl_ops ++ [ORender; OPoll 1 exv_wk []]) = None /\
  option_map (fun s => (vr_listen s, vr_obs s, rendering (vr_tr s))) (VLife.run ex_ww (exl_ops ++ [ORender; ODrop 0; OPoll 1 exv_wk []; ODrop 1])) = Some (false, false, None).
Proof. split; vm_compute; reflexivity. Qed.

(** Application 0 joins two blocks.  The first awaits the render future of the list; it shows the
    three items from the scroll position on.  The second scrolls to 7 when it is polled at
    position 5. *)
Definition exl_st : Type := vr * nat.
Definition exl_do (o : op) (x : exl_st) : option (exl_st * list gact) :=
  match VLife.exec ex_ww (fst x) o with
  | Some y => Some ((y, snd x), flat_map exv_wake (woken (firstn (length (vr_tr y) - length (vr_tr (fst x))) (vr_tr y))))
  | None => None
  end.
Definition exl_scroll (k : nat) (x : exl_st) : exl_st * list gact := match exl_do OScroll (fst x, k) with Some r => r | None => (x, []) end.
Definition exl_code (t : nat) (x : exl_st) (p : place) (got : option val) : exl_st * list gact * Tree.next val :=
  match t, p, got with
  | 0, Root, None => (x, [], NAwait KArray join_val 2)
  | 0, Kid 0 0, _ => if made 0 (vr_tr (fst x)) then match exl_do (OPoll 0 exv_wk [exl_win (snd x)]) x with Some (x', l) => (x', l, NPend) | None => (x, [], NPanic) end else (x, [], NPanic)
  | 0, Kid 0 1, _ => if snd x =? 5 then let (x', l) := exl_scroll 7 x in (x', l, NPend) else (x, [], NPend)
  | _, _, _ => (x, [], NPend)
  end.
Definition exl_drop (t : nat) (x : exl_st) : exl_st * list gact := (x, []).
Definition exl_wake (x : exl_st) : exl_st * list gact := (x, [GWake 0 (Kid 0 1)]).
Definition exl_evs : list (pev exl_st) := pmount ++ [PFire 9; PCode (exl_scroll 5); PFire 9; PCode exl_wake; PFire 9; PFire 9].
Definition exl_x0 : exl_st := (match VLife.run ex_ww [ORender; ONum 50 (None, 0)] with Some s => s | None => mkVR vl_new (mkCW unit (mkC unit tt ar_new 1 false) [] 0) false false [] 0 [] end, 0).
Notation exl_polls := (fun o => match o with OPoll i wk _ => if i =? 0 then Some wk else None | _ => None end).
Notation exl_uses := (part_uses vr op (fun s o s' => VLife.exec ex_ww s o = Some s') vlist_tells).
Lemma exl_tells o x x' l l' : (exists ops, VLife.run ex_ww ops = Some (fst x)) -> exl_do o x = Some (x', l) -> VLife.exec ex_ww (fst x) o = Some (fst x') /\ snd x' = snd x /\ vlist_tells (fst x) (fst x') (l ++ l').
Proof.
  intros (ops & R). unfold exl_do. destruct (VLife.exec ex_ww (fst x) o) as [y|] eqn:E; [|discriminate]. intros [= <- <-]. cbn [fst snd]. split; [reflexivity|]. split; [reflexivity|].
  destruct (run_inv ex_ww ex_ww_ok _ _ R) as (ctr & IV). destruct (grows ex_ww ex_ww_ok _ _ _ _ IV E) as (new & T). exists new. split; [exact T|]. intros wk u q IN TK. apply in_app_iff. left.
  rewrite T, app_length, Nat.add_sub, firstn_app, Nat.sub_diag, firstn_all, app_nil_r. apply in_flat_map. exists wk. split; auto.
  unfold exv_wake. rewrite TK. unfold block_task. rewrite cancel_of_to, place_task. left. reflexivity.
Qed.
Lemma exl_scrolls k x x' l : (exists ops, VLife.run ex_ww ops = Some (fst x)) -> exl_scroll k x = (x', l) -> exl_uses (fun o => exl_polls o = None) (fst x) l (fst x').
Proof.
  intros R. unfold exl_scroll. destruct (exl_do OScroll (fst x, k)) as [[y m]|] eqn:E; intros [= <- <-]; [|constructor]. destruct (exl_tells OScroll (fst x, k) y m [] R E) as (E1 & _ & T). rewrite app_nil_r in T.
  eapply part_step with (o := OScroll); [reflexivity|exact E1|exact T|constructor].
Qed.
Example exl_view : vlist_view ex_ww fst (fun _ => true) 0 0 (Kid 0 0) exl_code exl_drop exl_evs.
Proof.
  split; [|split; [|split]].
  - intros x got x' l nx R E. cbn [exl_code] in E. destruct (made 0 (vr_tr (fst x))) eqn:M; [|injection E as <- <- <-; auto].
    destruct (exl_do _ x) as [[y m]|] eqn:ED; [|injection E as <- <- <-; auto]. injection E as <- <- <-. right. destruct (exl_tells _ x y m [] R ED) as (E1 & _ & T). rewrite app_nil_r in T. split.
    + eapply part_step with (o := OPoll 0 exv_wk [exl_win (snd x)]); [intros wk [= <-]; reflexivity|exact E1|exact T|constructor].
    + intros _ _. exists (fst x), (OPoll 0 exv_wk [exl_win (snd x)]), exv_wk, (fst y). split; [constructor|]. split; [reflexivity|]. split; [reflexivity|]. split; [exact E1|]. split; [exact T|]. split; [exact M|constructor].
  - intros u x q got x' l nx NE R E.
    assert (NIL : forall r, (x, [], r) = (x', l, nx) -> nx = NPanic \/ exl_uses (fun o => exl_polls o = None) (fst x) l (fst x') /\ (true = true -> true = true))
      by (intros r [= <- <- _]; right; split; [constructor|auto]).
    destruct u as [|u]; [|exact (NIL _ E)]. destruct q as [|n i]; [destruct got; exact (NIL _ E)|].
    destruct n as [|n]; [|exact (NIL _ E)]. destruct i as [|[|i]]; [destruct NE; congruence| |exact (NIL _ E)].
    cbn [exl_code] in E. destruct (snd x =? 5); [|exact (NIL _ E)]. destruct (exl_scroll 7 x) as [y m] eqn:ES. injection E as <- <- <-. right. split; auto. exact (exl_scrolls _ _ _ _ R ES).
  - intros u x x' l _ [= <- <-]. split; [constructor|auto].
  - intros f x x' l IN R E. cbn in IN. destruct IN as [Q|[Q|[Q|[Q|[Q|[Q|[Q|[Q|[]]]]]]]]]; try discriminate; injection Q as <-; (split; [|auto]).
    + exact (exl_scrolls _ _ _ _ R E).
    + injection E as <- <-. constructor.
Qed.
Example exl_start : VLife.run ex_ww [ORender; ONum 50 (None, 0)] = Some (fst exl_x0) /\ last_waker 0 (vr_tr (fst exl_x0)) = None.
Proof. split; reflexivity. Qed.
Definition exl_runs evs := prun val exl_st ex_ww true 40 exl_code exl_drop exl_x0 evs.
Definition exl_see (r : rres (qu (Page.page val exl_st))) :=
  match r with
  | Live s => let x := fst (pg_x _ _ (q_x _ (xs _ s))) in
      Some (Spec_queue.alive 0 (q_tr _ (xs _ s)), timers _ s, vl_keys (vr_list x), unseen (vr_tr x), rendering (vr_tr x))
  | _ => None
  end.
(** the list follows the scroll position when the timer fires *)
Example exl_shown :
  exl_see (exl_runs (pmount ++ [PFire 9])) = Some (true, 0, [0; 1; 2], false, Some 0) /\
  exl_see (exl_runs (pmount ++ [PFire 9; PCode (exl_scroll 5)])) = Some (true, 1, [0; 1; 2], true, Some 0) /\
  exl_see (exl_runs (pmount ++ [PFire 9; PCode (exl_scroll 5); PFire 9])) = Some (true, 0, [5; 6; 7], false, Some 0) /\
  exl_see (exl_runs exl_evs) = Some (true, 0, [7; 8; 9], false, Some 0) /\
  match exl_runs exl_evs with Live s => Spec_tree.live (app_tr s 0) (Kid 0 0) /\ at_leaf (Kid 0 0) (app_tr s 0) = true | _ => False end.
Proof.
  split; [vm_compute; reflexivity|]. split; [vm_compute; reflexivity|]. split; [vm_compute; reflexivity|]. split; [vm_compute; reflexivity|].
  vm_compute. split; [|reflexivity]. apply live_kid with (k := 2) (b := join_val) (p := Root); [cbn; tauto|lia| | |].
  - intros (v & H). cbn in H. intuition discriminate.
  - intros (v & H). cbn in H. intuition discriminate.
  - constructor. intros (v & H). cbn in H. intuition discriminate.
Qed.
Example exl_rest : match exl_runs exl_evs with Live s => at_rest ex_ww true 40 exl_code exl_drop exl_x0 exl_evs s | _ => False end.
Proof.
  destruct exl_shown as (_ & _ & _ & H & L). destruct (exl_runs exl_evs) as [s|s|]; try contradiction. clear L. left. split; [right; left; reflexivity|].
  cbn [exl_see] in H. injection H as _ T _ _ _. exact T.
Qed.
