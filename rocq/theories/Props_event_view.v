(** Property C69: the events of an element are seen when the page comes to rest.

    A block awaits an event stream ([button.until_click().await], in a loop; event_view in
    Spec_event_view.v).  This joins EventFutureStream, the combinators, async_executor and the
    root executor. *)
From Coq Require Import List Arith Bool Lia Cantor.
From Verif Require Import Util Arena Spec_arena Readiness Combinator Tree Spec_tree Tree_proofs Props_tree Executor Spec_executor
  Queue Spec_queue App Page Page_proofs Props_page Spec_view View_proofs Props_view
  Event Spec_event Event_proofs Spec_event_view View_event_proofs.
Import ListNotations.

(** C69: the page is at rest, and the block is there and awaits the event stream [s]: then it has
    polled [s], and the last event that was given to [s] has been returned by a later poll of
    [s]. *)
Theorem C69_seen :
  forall V X ww debug bound code on_drop x evs st ww' (ew : X -> Event.page) on ops s t p,
  will_wake_ok ww -> will_wake_ok ww' -> page_code_ok code ->
  event_view ww' ew on s t p code on_drop evs ->
  ew x = Event.run ww' ops -> last_waker s (Event.tr (pg_w (ew x))) = None ->
  prun V X ww debug bound code on_drop x evs = Live st -> at_rest ww debug bound code on_drop x evs st ->
  Spec_queue.alive t (q_tr _ (xs _ st)) = true -> Spec_tree.live (app_tr st t) p -> at_leaf p (app_tr st t) = true ->
  on (pg_x V X (q_x _ (xs _ st))) = true ->
  let tr := Event.tr (pg_w (ew (pg_x V X (q_x _ (xs _ st))))) in
  last_waker s tr <> None /\
  forall later e before, tr = later ++ TDeliver s e :: before -> (forall e', ~ In (TDeliver s e') later) ->
  exists wk, In (Event.TPoll s wk (Some e)) later.
Proof.
  intros V X ww debug bound code on_drop x evs st ww' ew on ops s t p WW WW' CO EV E0 L0 R AR A L AL ON tr.
  pose proof (event_view_of ww' WW' s t p ew on code on_drop evs EV) as VO.
  assert (J0 : JE ww' s t p (ew x)) by (split; [eauto|intros wk Q; congruence]).
  destruct (C67_up_to_date V X ww debug bound code on_drop x evs st _ _ t p WW CO VO J0 R AR A L AL ON) as (F1 & F2).
  destruct (proj1 (view_inv V X ww debug bound code on_drop evs _ _ t p WW CO VO x st J0 (or_introl R))) as (RE & _).
  split; auto. eapply latest_seen; eauto.
Qed.
Print Assumptions C69_seen.

(** C69: and if its stream is not dropped, it listens: every further event is given to it, until
    the page is at rest again, by C24_reaches. *)
Theorem C69_listens :
  forall V X ww debug bound code on_drop x evs st ww' (ew : X -> Event.page) on ops s t p tg n,
  will_wake_ok ww -> will_wake_ok ww' -> page_code_ok code ->
  event_view ww' ew on s t p code on_drop evs ->
  ew x = Event.run ww' ops -> last_waker s (Event.tr (pg_w (ew x))) = None ->
  prun V X ww debug bound code on_drop x evs = Live st -> at_rest ww debug bound code on_drop x evs st ->
  Spec_queue.alive t (q_tr _ (xs _ st)) = true -> Spec_tree.live (app_tr st t) p -> at_leaf p (app_tr st t) = true ->
  on (pg_x V X (q_x _ (xs _ st))) = true ->
  let w := pg_w (ew (pg_x V X (q_x _ (xs _ st)))) in
  In (TNew s tg n) (Event.tr w) -> ~ In (Event.TDrop s) (Event.tr w) ->
  exists l, In l (listeners w) /\ l_cb l = s /\ l_target l = tg /\ l_name l = n.
Proof.
  intros V X ww debug bound code on_drop x evs st ww' ew on ops s t p tg n WW WW' CO EV E0 L0 R AR A L AL ON w IN ND.
  destruct (C69_seen V X ww debug bound code on_drop x evs st ww' ew on ops s t p WW WW' CO EV E0 L0 R AR A L AL ON) as (LW & _).
  pose proof (event_view_of ww' WW' s t p ew on code on_drop evs EV) as VO.
  assert (J0 : JE ww' s t p (ew x)) by (split; [eauto|intros wk Q; congruence]).
  destruct (proj1 (view_inv V X ww debug bound code on_drop evs _ _ t p WW CO VO x st J0 (or_introl R))) as (RE & _).
  apply (reach_EI ww' WW') in RE. fold w in RE.
  destruct (proj1 (listening_ok w s tg n RE)) as (q & E & C & T & N); [split; auto|].
  destruct (ei_stream _ RE s q E) as (_ & _ & _ & _ & _ & _ & K). specialize (K C). apply in_map_iff in K as (l & <- & K).
  exists l. split; auto. split; auto. destruct (ei_listener _ RE l K) as (_ & _ & Q). rewrite E in Q. destruct Q as (_ & -> & ->). auto.
Qed.
Print Assumptions C69_listens.

(** Non-vacuity: application 0 joins two blocks.  The first awaits clicks (event name 8) of element
    7, in a loop, and writes down what it got; the second dispatches click 101 on element 7
    when it is polled after click 100. *)
Definition exe_st : Type := Event.page * list nat.
Definition exe_do (o : op) (x : exe_st) : exe_st * list gact :=
  let y := Event.exec ex_ww (fst x) o in
  ((y, snd x), flat_map (fun e => match e with TWake wk => exv_wake wk | _ => [] end) (firstn (length (Event.tr (pg_w y)) - length (Event.tr (pg_w (fst x)))) (Event.tr (pg_w y)))).
Fixpoint exe_dos (l : list op) (x : exe_st) : exe_st * list gact :=
  match l with [] => (x, []) | o :: r => let (x1, a) := exe_do o x in let (x2, b) := exe_dos r x1 in (x2, a ++ b) end.
Definition exe_note (x : exe_st) : exe_st :=
  match Event.tr (pg_w (fst x)) with Event.TPoll _ _ (Some e) :: _ => (fst x, e :: snd x) | _ => x end.
Definition exe_code (t : nat) (x : exe_st) (p : place) (got : option val) : exe_st * list gact * Tree.next val :=
  match t, p, got with
  | 0, Root, None => (x, [], NAwait KArray join_val 2)
  | 0, Kid 0 0, _ =>
      let x1 := if Event.next (pg_w (fst x)) =? 0 then fst (exe_do (Basic (BNew 7 8)) x) else x in
      let x2 := exe_note (fst (exe_do (Basic (BPoll 0 exv_wk)) x1)) in
      let x3 := fst (exe_do (Basic (BPoll 0 exv_wk)) x2) in
      match Event.tr (pg_w (fst x3)) with
      | Event.TPoll 0 _ None :: _ => if (length (Event.tr (pg_w (fst x3))) =? S (length (Event.tr (pg_w (fst x2))))) then (x3, [], NPend) else (x, [], NPanic)
      | _ => (x, [], NPanic)
      end
  | 0, Kid 0 1, _ => match snd x with
                     | 100 :: _ => let (x', l) := exe_dos [Begin [7] 8 101 true; Next; Next; Next; Next] x in (x', l, NPend)
                     | _ => (x, [], NPend)
                     end
  | _, _, _ => (x, [], NPend)
  end.
Definition exe_drop (t : nat) (x : exe_st) : exe_st * list gact := (x, []).
(** the browser dispatches click 100 on element 7: the listener's closure wakes and runs *)
Definition exe_click (x : exe_st) : exe_st * list gact := exe_dos [Begin [7] 8 100 true; Next; Next; Next; Next] x.
Definition exe_wake (x : exe_st) : exe_st * list gact := (x, [GWake 0 (Kid 0 1)]).
Definition exe_evs : list (pev exe_st) := pmount ++ [PFire 9; PCode exe_click; PRun 9; PCode exe_wake; PFire 9; PFire 9].
Definition exe_x0 : exe_st := (Event.run ex_ww [], []).

Notation exe_polls := (fun o => match o with Basic (BPoll i wk) => if i =? 0 then Some wk else None | _ => None end).
Notation exe_uses := (part_uses Event.page op (fun x o x' => x' = Event.exec ex_ww x o) event_tells).
Lemma exe_grows x o : exists new, Event.tr (pg_w (Event.exec ex_ww x o)) = new ++ Event.tr (pg_w x).
Proof.
  destruct o as [b|path n e b| |k now]; cbn [Event.exec].
  - destruct b as [tg n|i c|i wk|i]; cbn [pg_w exec_b]; [eexists [_]; reflexivity| | |]; (destruct (streams (pg_w x) i) as [st|]; [|exists []; reflexivity]).
    + eexists [_]; reflexivity.
    + unfold poll_next. destruct (s_closure st); eexists [_]; reflexivity.
    + eexists [_]; reflexivity.
  - destruct (existsb _ _); [exists []|eexists [_]]; reflexivity.
  - destruct (pg_stack x) as [|f st]; [exists []; reflexivity|]. destruct (f_cur f) as [|l cur].
    + destruct (f_todo f) as [|tp todo]; [|destruct (f_stop f)]; [eexists [_]|eexists [_]|exists []]; reflexivity.
    + cbn [pg_w]. destruct (existsb _ _); [|exists []; reflexivity]. unfold invoke. destruct (streams _ _); [eexists [_; _; _]|eexists [_]]; reflexivity.
  - destruct (nth_error _ _) as [f|]; [eexists [_]|exists []]; reflexivity.
Qed.
Lemma exe_told o x l : event_tells (fst x) (fst (fst (exe_do o x))) (snd (exe_do o x) ++ l).
Proof.
  unfold exe_do. cbn [fst snd]. destruct (exe_grows (fst x) o) as (new & T). exists new. split; [exact T|]. intros wk u q IN TK. apply in_app_iff. left.
  rewrite T, app_length, Nat.add_sub, firstn_app, Nat.sub_diag, firstn_all, app_nil_r. apply in_flat_map. exists (TWake wk). split; auto.
  unfold exv_wake. rewrite TK. unfold block_task. rewrite cancel_of_to, place_task. left. reflexivity.
Qed.
Lemma exe_dos_uses ops : forall x x' l l', Forall (fun o => exe_polls o = None) ops -> exe_dos ops x = (x', l) -> exe_uses (fun o => exe_polls o = None) (fst x) (l' ++ l) (fst x').
Proof.
  induction ops as [|o ops IH]; intros x x' l l' F; cbn [exe_dos]; [intros [= <- <-]; constructor|].
  pose proof (exe_told o x) as T. assert (ST : fst (fst (exe_do o x)) = Event.exec ex_ww (fst x) o) by reflexivity.
  destruct (exe_do o x) as [x1 a]. destruct (exe_dos ops x1) as [x2 b] eqn:E. intros [= <- <-].
  eapply part_step with (o := o); [exact (Forall_inv F)|exact ST| |].
  - destruct (T b) as (new & T1 & T2). exists new. split; auto. intros wk u q IN TK. apply in_app_iff. right. eapply T2; eauto.
  - rewrite app_assoc. eapply IH; eauto. exact (Forall_inv_tail F).
Qed.
Lemma exe_quiet x b l : event_tells (fst x) (fst (fst (exe_do (Basic b) x))) l.
Proof.
  unfold exe_do. cbn [fst]. destruct b as [tg n|i c|i wk|i]; cbn [Event.exec pg_w exec_b]; [eexists [_]; split; [reflexivity|]; intros ? ? ? [Q|[]]; discriminate| | |];
    (destruct (streams (pg_w (fst x)) i) as [st|]; [|exists []; split; [reflexivity|intros ? ? ? []]]).
  - eexists [_]; split; [reflexivity|]; intros ? ? ? [Q|[]]; discriminate.
  - unfold poll_next. destruct (s_closure st); (eexists [_]; split; [reflexivity|]; intros ? ? ? [Q|[]]; discriminate).
  - eexists [_]; split; [reflexivity|]; intros ? ? ? [Q|[]]; discriminate.
Qed.
Lemma exe_note_fst x : fst (exe_note x) = fst x.
Proof. unfold exe_note. destruct (Event.tr (pg_w (fst x))) as [|[| |? ? []| | | | | | | |] ?]; reflexivity. Qed.
Example exe_view : event_view ex_ww fst (fun _ => true) 0 0 (Kid 0 0) exe_code exe_drop exe_evs.
Proof.
  split; [|split; [|split]].
  - intros x got x' l nx _ E. cbn [exe_code] in E.
    set (x1 := if Event.next (pg_w (fst x)) =? 0 then fst (exe_do (Basic (BNew 7 8)) x) else x) in *. set (x2 := exe_note (fst (exe_do (Basic (BPoll 0 exv_wk)) x1))) in *. set (x3 := fst (exe_do (Basic (BPoll 0 exv_wk)) x2)) in *.
    set (own := exe_uses (fun o => forall wk, exe_polls o = Some wk -> w_task wk = Some (block_task 0 (Kid 0 0)))).
    assert (U1 : forall y, own (fst x1) [] y -> own (fst x) [] y).
    { intros y U. unfold x1 in U. destruct (Event.next (pg_w (fst x)) =? 0); auto. eapply part_step with (o := Basic (BNew 7 8)); [discriminate|reflexivity|apply exe_quiet|exact U]. }
    assert (U2 : own (fst x) [] (fst x2)).
    { apply U1. replace (fst x2) with (fst (fst (exe_do (Basic (BPoll 0 exv_wk)) x1))).
      - eapply part_step with (o := Basic (BPoll 0 exv_wk)); [intros wk [= <-]; reflexivity|reflexivity|apply exe_quiet|constructor].
      - symmetry. apply exe_note_fst. }
    assert (U3 : own (fst x) [] (fst x3)).
    { assert (A : forall a l b, own a l b -> forall c, own b l c -> own a l c) by (intros a l0 b U; induction U as [|y0 l0 o y1 y2 O1 O2 O3 U IH]; auto; intros c Q; exact (part_step _ _ _ _ _ y0 l0 o y1 c O1 O2 O3 (IH c Q))).
      eapply A; [exact U2|]. eapply part_step with (o := Basic (BPoll 0 exv_wk)); [intros wk [= <-]; reflexivity|reflexivity|apply exe_quiet|constructor]. }
    destruct (Event.tr (pg_w (fst x3))) as [|a r] eqn:T3; [injection E as <- <- <-; auto|].
    destruct a as [| |i wk [e|]| | | | | | | |]; try (injection E as <- <- <-; auto; fail); destruct i as [|i]; try (injection E as <- <- <-; auto; fail). destruct (length (Event.TPoll 0 wk None :: r) =? S (length (Event.tr (pg_w (fst x2))))) eqn:LN; injection E as <- <- <-; auto. right.
    apply Nat.eqb_eq in LN. split; [exact U3|]. intros _ _. exists (fst x2), (Basic (BPoll 0 exv_wk)), exv_wk, (fst x3).
    split; [exact U2|]. split; [reflexivity|]. split; [reflexivity|]. split; [reflexivity|]. split; [apply exe_quiet|]. split; [|constructor].
    exists wk. rewrite T3. f_equal. destruct (exe_grows (fst x2) (Basic (BPoll 0 exv_wk))) as (new & G).
    change (Event.exec ex_ww (fst x2) _) with (fst x3) in G. rewrite T3 in G. assert (LG : length (Event.TPoll 0 wk None :: r) = length (new ++ Event.tr (pg_w (fst x2)))) by (rewrite G; reflexivity).
    rewrite app_length, LN in LG. destruct new as [|n0 [|n1 new]]; cbn in LG; try lia. injection G as _ G. exact G.
  - intros u x q got x' l nx NE _ E.
    assert (NIL : forall r, (x, [], r) = (x', l, nx) -> nx = NPanic \/ exe_uses (fun o => exe_polls o = None) (fst x) l (fst x') /\ (true = true -> true = true))
      by (intros r [= <- <- _]; right; split; [constructor|auto]).
    destruct u as [|u]; [|exact (NIL _ E)]. destruct q as [|n i]; [destruct got; exact (NIL _ E)|].
    destruct n as [|n]; [|exact (NIL _ E)]. destruct i as [|[|i]]; [destruct NE; congruence| |exact (NIL _ E)].
    cbn [exe_code] in E. destruct (snd x) as [|k r]; [exact (NIL _ E)|].
    destruct (Nat.eq_dec k 100) as [->|D].
    + destruct (exe_dos _ x) as [y m] eqn:ES in E. injection E as <- <- <-. right. split; auto.
      eapply (exe_dos_uses _ x y m []); [|exact ES]. repeat constructor.
    + assert (K : (x, [], NPend) = (x', l, nx)).
      { rewrite <- E. clear - D. do 100 (destruct k as [|k]; [reflexivity|]). destruct k; [contradiction|reflexivity]. }
      exact (NIL _ K).
  - intros u x x' l _ [= <- <-]. split; [constructor|auto].
  - intros f x x' l IN _ E. cbn in IN. destruct IN as [Q|[Q|[Q|[Q|[Q|[Q|[Q|[Q|[]]]]]]]]]; try discriminate; injection Q as <-; (split; [|auto]).
    + eapply (exe_dos_uses _ x x' l []); [|exact E]. repeat constructor.
    + injection E as <- <-. constructor.
Qed.
Example exe_start : fst exe_x0 = Event.run ex_ww [] /\ last_waker 0 (Event.tr (pg_w (fst exe_x0))) = None.
Proof. split; reflexivity. Qed.
Definition exe_run evs := prun val exe_st ex_ww true 40 exe_code exe_drop exe_x0 evs.
Definition exe_see (r : rres (qu (Page.page val exe_st))) :=
  match r with
  | Live s => let x := pg_x _ _ (q_x _ (xs _ s)) in
      Some (Spec_queue.alive 0 (q_tr _ (xs _ s)), timers _ s, latest 0 (Event.tr (pg_w (fst x))), snd x)
  | _ => None
  end.
(** at rest; then click 100 was given but not seen, until the closure calls run_now; then the second block dispatches click 101, and the page
    comes to rest when the timers fire *)
Example exe_shown :
  exe_see (exe_run (pmount ++ [PFire 9])) = Some (true, 0, None, []) /\
  exe_see (exe_run (pmount ++ [PFire 9; PCode exe_click])) = Some (true, 1, Some 100, []) /\
  exe_see (exe_run (pmount ++ [PFire 9; PCode exe_click; PRun 9])) = Some (true, 1, None, [100]) /\
  exe_see (exe_run exe_evs) = Some (true, 0, None, [101; 100]) /\
  match exe_run exe_evs with Live s => Spec_tree.live (app_tr s 0) (Kid 0 0) /\ at_leaf (Kid 0 0) (app_tr s 0) = true | _ => False end.
Proof.
  split; [vm_compute; reflexivity|]. split; [vm_compute; reflexivity|]. split; [vm_compute; reflexivity|]. split; [vm_compute; reflexivity|].
  vm_compute. split; [|reflexivity]. apply live_kid with (k := 2) (b := join_val) (p := Root); [cbn; tauto|lia| | |].
  - intros (v & H). cbn in H. intuition discriminate.
  - intros (v & H). cbn in H. intuition discriminate.
  - constructor. intros (v & H). cbn in H. intuition discriminate.
Qed.
Example exe_rest : match exe_run exe_evs with Live s => at_rest ex_ww true 40 exe_code exe_drop exe_x0 exe_evs s | _ => False end.
Proof.
  destruct exe_shown as (_ & _ & _ & H & L). destruct (exe_run exe_evs) as [s|s|]; try contradiction. clear L. left. split; [right; left; reflexivity|].
  cbn [exe_see] in H. injection H as _ T _ _. exact T.
Qed.
