(** C74: the items of a DynamicList run.

    [run ww Y code fin y ops]: the items are arbitrary futures ([code], [fin]); [ops] is any
    history: code outside inserts, removes and wakes items, the list is rendered, the render
    future is polled with any waker, dropped, and the list is rendered again. *)
From Coq Require Import List Arith Bool Lia.
From Verif Require Import Arena Spec_arena Executor Queue Spec_queue Queue_proofs ListRun Spec_listrun ListRun_proofs.
Import ListNotations.

(** every history, for any program *)
Lemma reach ww Y code fin y ops s : will_wake_ok ww -> run ww Y code fin y ops = Some s -> LI Y False (fun _ => []) s.
Proof. intros WW R. eapply (run_ok ww WW Y code fin False (fun _ => [])); try exact R; try tauto. intros [f|j w|j] _; cbn; tauto. Qed.

(** C74, no lost wake-up: since the render future was last polled (with [w]) and was not dropped,
    an item was inserted, woken or removed (it is owed attention): then [w], or a waker of the
    same task, has been woken since. *)
Theorem C74_no_lost_wake :
  forall ww Y code fin y ops s later j w before t,
  will_wake_ok ww -> run ww Y code fin y ops = Some s ->
  l_tr Y s = later ++ LPoll j w :: before -> existsb marks later = false ->
  owed t (q_tr _ (l_q Y s)) = true ->
  exists w', In (LWoken w') later /\ same_task w' w.
Proof.
  intros ww Y code fin y ops s later j w before t WW R T M O. destruct (reach _ _ _ _ _ _ _ WW R) as [IQ _ IO IR _].
  rewrite T, open_app in IO by exact M. cbn in IO. unfold ready in IR. rewrite <- IO in IR.
  destruct IR as (later' & w1 & before' & T' & M' & IR). rewrite T in T'.
  assert (EQ : later = later' /\ LPoll j w :: before = LPoll j w1 :: before').
  { clear - M M' T'. revert later' M' T'. induction later as [|e l IH]; intros [|e' l'] M' T'; cbn in *.
    - auto.
    - injection T' as <- T'. discriminate.
    - injection T' as -> T'. discriminate.
    - injection T' as <- T'. destruct (marks e); try discriminate. cbn in M, M'. destruct (IH M l' M' T') as (-> & ->). auto. }
  destruct EQ as (-> & [= <- <-]).
  destruct (q_asleep _ (l_q Y s)) eqn:A; [|destruct IR as (_ & IR); exact IR].
  apply (owed_queued _ _ _ IQ) in O. rewrite (qi_asleep _ _ _ IQ A) in O. destruct O.
Qed.
Print Assumptions C74_no_lost_wake.

(** C74, every poll of the render future serves the items: afterwards no item is owed attention,
    or 200 turns were taken and the waker [w] of this poll has been woken. *)
Theorem C74_poll_serves :
  forall ww Y code fin y ops s j w s',
  will_wake_ok ww -> run ww Y code fin y ops = Some s ->
  ~ In j (l_dead Y s) -> exec ww Y code fin s (OPoll Y j w) = Some s' ->
  (forall t, owed t (q_tr _ (l_q Y s')) = false) \/
  exists new lnew, q_tr _ (l_q Y s') = new ++ q_tr _ (l_q Y s) /\ 200 <= turns new /\
    l_tr Y s' = lnew ++ LPoll j w :: l_tr Y s /\ In (LWoken w) lnew.
Proof.
  intros ww Y code fin y ops s j w s' WW R ND E. pose proof (reach _ _ _ _ _ _ _ WW R) as I.
  cbn [exec] in E. destruct (existsb _ _) eqn:D.
  { apply existsb_exists in D as (i & D1 & D2). apply Nat.eqb_eq in D2. subst. destruct (ND D1). }
  assert (RI : run_items ww Y code fin j w s = Some s' /\ (l_cur Y s = None \/ l_cur Y s = Some j)).
  { destruct (l_cur Y s) as [i|]; auto. destruct (Nat.eqb_spec i j) as [Q|]; [rewrite Q; auto|discriminate]. }
  destruct RI as (RI & C).
  destruct (run_items_ok ww WW Y code fin False (fun _ => []) ltac:(tauto) ltac:(tauto) j w s s' I C ND RI) as (I' & _ & new & lnew & T & LT & _ & [A|(A & B)]).
  - left. intro t. destruct (owed t _) eqn:O; auto. apply (owed_queued _ _ _ (li_q _ _ _ _ I')) in O. rewrite (qi_asleep _ _ _ (li_q _ _ _ _ I') A) in O. destruct O.
  - right. exists new, lnew. auto.
Qed.
Print Assumptions C74_poll_serves.

(** C74, order: an item is polled only when it is owed attention, is in the list (not removed, not
    replaced, not finished), and no other item is being polled; it is dropped once. *)
Theorem C74_legal :
  forall ww Y code fin y ops s,
  will_wake_ok ww -> run ww Y code fin y ops = Some s -> legal (q_tr _ (l_q Y s)).
Proof. intros ww Y code fin y ops s WW R. apply (qi_legal _ _ _ (li_q _ _ _ _ (reach _ _ _ _ _ _ _ WW R))). Qed.
Print Assumptions C74_legal.

(** C74, only rendering runs items: nothing but a poll of the render future polls or drops any. *)
Theorem C74_only_rendered :
  forall ww Y code fin s o s',
  exec ww Y code fin s o = Some s' -> (forall j w, o <> OPoll Y j w) ->
  exists new, q_tr _ (l_q Y s') = new ++ q_tr _ (l_q Y s) /\ turns new = 0.
Proof. exact exec_quiet. Qed.
Print Assumptions C74_only_rendered.

(** C74, fairness: while [t] is owed attention and not served, every other item is polled at most
    once, however often it wakes itself. *)
Theorem C74_fair :
  forall ww Y code fin y ops s tr3 tr2 tr1 t u,
  will_wake_ok ww -> run ww Y code fin y ops = Some s ->
  q_tr _ (l_q Y s) = tr3 ++ tr2 ++ tr1 ->
  owed t tr1 = true -> (forall e, In e tr2 -> e <> QPoll t /\ e <> QDrop t) ->
  polls u tr2 <= 1.
Proof.
  intros ww Y code fin y ops s tr3 tr2 tr1 t u WW R T O N. pose proof (qi_fair _ _ _ (li_q _ _ _ _ (reach _ _ _ _ _ _ _ WW R))) as F.
  rewrite T in F. eapply fair_polls; eauto.
Qed.
Print Assumptions C74_fair.

(** C74, removal: the future of an item that was removed or replaced is owed attention until it is
    dropped; so the next poll of the render future drops it (C74_poll_serves), and it is not polled
    again (C74_legal). *)
Theorem C74_removed :
  forall ww Y code fin y ops s t,
  will_wake_ok ww -> run ww Y code fin y ops = Some s ->
  alive t (q_tr _ (l_q Y s)) = true -> cancelled t (q_tr _ (l_q Y s)) = true -> owed t (q_tr _ (l_q Y s)) = true.
Proof.
  intros ww Y code fin y ops s t WW R A C. pose proof (li_q _ _ _ _ (reach _ _ _ _ _ _ _ WW R)) as I.
  pose proof A as A'. rewrite (qi_alive _ _ _ I) in A'. apply andb_true_iff in A' as (A1 & A2).
  rewrite (qi_canc _ _ _ I) in C; [|apply Nat.ltb_lt; auto|apply negb_true_iff; auto].
  rewrite (qi_owed _ _ _ I), A1, A2, C, orb_true_r. reflexivity.
Qed.
Print Assumptions C74_removed.

(** C74, the end: when the list is dropped (its items in any order), no item's future is left. *)
Theorem C74_dropped_with_list :
  forall ww Y code fin y ops s ks s' t,
  will_wake_ok ww -> run ww Y code fin y ops = Some s -> drop_list Y fin ks s = Some s' ->
  alive t (q_tr _ (l_q Y s')) = false.
Proof.
  intros ww Y code fin y ops s ks s' t WW R D.
  exact (drop_list_ok Y code fin False (fun _ => []) ks s s' (reach _ _ _ _ _ _ _ WW R) D t).
Qed.
Print Assumptions C74_dropped_with_list.

(** C74: and the drop goes through, when the list is not being rendered, [ks] are its keys, and the
    drop of an item only wakes (it cannot use the list that is being dropped). *)
Theorem C74_drop_total :
  forall ww Y code fin y ops s ks,
  will_wake_ok ww -> run ww Y code fin y ops = Some s -> l_cur Y s = None ->
  (forall k, lookup k (i_map Y (q_x _ (l_q Y s))) <> None -> In k ks) ->
  (forall t z a, In a (snd (fin t z)) -> exists u, a = LWake u) ->
  drop_list Y fin ks s <> None.
Proof.
  intros ww Y code fin y ops s ks WW R C KS FW.
  exact (drop_list_total Y code fin False (fun _ => []) ks s (reach _ _ _ _ _ _ _ WW R) C KS FW).
Qed.
Print Assumptions C74_drop_total.

(** C74, the trace is what happened: for programs that keep a record of what they do in their own
    state, the trace says the same: what was inserted, removed, woken, polled and dropped, and in
    which order; and the items in the list are the ones inserted last under their keys. *)
Theorem C74_as_written :
  forall ww Y code fin y ops s rec,
  will_wake_ok ww -> records rec code fin ops -> rec y = [] -> run ww Y code fin y ops = Some s ->
  filter shown (q_tr _ (l_q Y s)) = said (rec (i_y Y (q_x _ (l_q Y s)))) /\
  forall k, lookup k (i_map Y (q_x _ (l_q Y s))) = held (rec (i_y Y (q_x _ (l_q Y s)))) k.
Proof.
  intros ww Y code fin y ops s rec WW (R1 & R2 & R3) R0 R.
  assert (I : LI Y True rec s).
  { refine (run_ok ww WW Y code fin True rec (fun _ => R1) (fun _ => R2) y ops s (fun _ => R0) _ R).
    intros [f|j w|j] H; cbn; auto. }
  destruct (li_w _ _ _ _ I) as (cs & (_ & W2) & (W3 & _) & W4). rewrite (W4 Logic.I). auto.
Qed.
Print Assumptions C74_as_written.

(** C74, which render future renders the list: the one that was polled and never dropped; a dropped
    one never counts again, so the list can be rendered anew.  Only one thing panics, unless an
    item does: polling a render future while another one renders the list. *)
Theorem C74_renders :
  forall ww Y code fin y ops s,
  run ww Y code fin y ops = Some s ->
  (forall j, l_cur Y s = Some j <-> (exists w, In (OPoll Y j w) ops) /\ ~ In (ODropRender Y j) ops) /\
  ((forall t y, snd (code t y) <> Panics) -> forall o,
   run ww Y code fin y (ops ++ [o]) = None <->
   exists j w i w', o = OPoll Y j w /\ ~ In (ODropRender Y j) ops /\
     In (OPoll Y i w') ops /\ ~ In (ODropRender Y i) ops /\ i <> j).
Proof.
  intros ww Y code fin y ops s R. destruct (rend_run _ _ _ _ _ _ _ R) as (C & D). split; [exact C|]. intros N o.
  assert (A : run ww Y code fin y (ops ++ [o]) = exec ww Y code fin s o).
  { unfold run in *. revert R. generalize (init Y y). clear. induction ops as [|o' ops IH]; intros s0 E; cbn [execs app] in *.
    - injection E as <-. destruct (exec _ _ _ _ _ _); auto.
    - destruct (exec _ _ _ _ s0 o'); [auto|discriminate]. }
  rewrite A, (exec_total ww Y code fin s o N). split.
  - intros (j & w & i & E & X & C' & Q). destruct (proj1 (C i) C') as ((w' & H) & H'). exists j, w, i, w'. rewrite <- D. auto.
  - intros (j & w & i & w' & E & X & H & H' & Q). exists j, w, i. rewrite D, C. split; [exact E|]. split; [exact X|]. split; [|exact Q]. split; eauto.
Qed.
Print Assumptions C74_renders.

(** A program: items 0 and 1 are inserted under keys 7 and 8 before the list is rendered; item 0
    waits; item 1, when it is polled, inserts item 2 under key 7 (replacing item 0) and waits;
    item 2 finishes at its second poll.  The state is the record. *)
Definition ex_code (t : nat) (y : list lrec) : list lrec * list lact * outcome :=
  match t with
  | 0 => (Polled 0 :: y, [], Pend)
  | 1 => (Did (LInsert 7) :: Polled 1 :: y, [LInsert 7], Pend)
  | _ => if existsb (fun e => match e with Polled 2 => true | _ => false end) y then (Polled t :: y, [], Ready)
         else (Polled t :: y, [], Pend)
  end.
Definition ex_fin (t : nat) (y : list lrec) : list lrec * list lact := (Dropped t :: y, []).
Definition ex_do (l : list lact) : lop (list lrec) := OCode _ (fun y => (map Did (rev l) ++ y, l)).
Definition ex_w (n : nat) : waker := mkW (Some n) n.
Definition ex_ww (a b : waker) : bool := match w_task a, w_task b with Some x, Some y => x =? y | _, _ => false end.
Definition ex_run (ops : list (lop (list lrec))) := run ex_ww (list lrec) ex_code ex_fin [] ops.
Definition ex_obs (ops : list (lop (list lrec))) := option_map (fun s => (q_tr _ (l_q _ s), l_tr _ s)) (ex_run ops).
Definition ex_ops1 : list (lop (list lrec)) := [ex_do [LInsert 7; LInsert 8]].
Definition ex_ops2 := ex_ops1 ++ [OPoll _ 0 (ex_w 5)].
Definition ex_ops3 := ex_ops2 ++ [ex_do [LWake 2]].
Definition ex_ops4 := ex_ops3 ++ [OPoll _ 0 (ex_w 6); ODropRender _ 0; ex_do [LRemove 8]].
Example ex_ww_ok : will_wake_ok ex_ww.
Proof. intros a b. unfold ex_ww, same_task. destruct (w_task a), (w_task b); try discriminate. intro E. apply Nat.eqb_eq in E. congruence. Qed.
Example ex_records ops : Forall (fun o => exists l, o = ex_do l \/ (exists j w, o = OPoll _ j w) \/ exists j, o = ODropRender _ j) ops ->
  records (fun y => y) ex_code ex_fin ops.
Proof.
  intro F. split; [|split; [reflexivity|]].
  - intros [|[|t]] y; try reflexivity. unfold ex_code. destruct (existsb _ y); reflexivity.
  - intros f y H. rewrite Forall_forall in F. destruct (F _ H) as (l & [E|[(j & w & E)|(j & E)]]); try discriminate. injection E as ->. reflexivity.
Qed.
Example ex_listrun :
  ex_obs ex_ops1 = Some ([QSpawn 1; QSpawn 0], []) /\
  ex_obs ex_ops2 = Some ([QDrop 0; QEnd 2; QPoll 2; QEnd 1; QCancel 0; QSpawn 2; QPoll 1; QEnd 0; QPoll 0; QSpawn 1; QSpawn 0], [LPoll 0 (ex_w 5)]) /\
  option_map snd (ex_obs ex_ops3) = Some [LWoken (ex_w 5); LPoll 0 (ex_w 5)] /\
  option_map (fun p => owed 2 (fst p)) (ex_obs ex_ops3) = Some true /\
  option_map (fun p => firstn 4 (fst p)) (ex_obs ex_ops4) = Some [QCancel 1; QDrop 2; QEnd 2; QPoll 2] /\
  option_map snd (ex_obs ex_ops4) = Some [LStop 0; LPoll 0 (ex_w 6); LWoken (ex_w 5); LPoll 0 (ex_w 5)] /\
  (* item 1 was removed while the list is not rendered: its future lives until it is rendered again
     or dropped *)
  option_map (fun p => (alive 1 (fst p), cancelled 1 (fst p), owed 1 (fst p))) (ex_obs ex_ops4) = Some (true, true, true) /\
  option_map (fun p => firstn 1 (fst p)) (ex_obs (ex_ops4 ++ [OPoll _ 1 (ex_w 6)])) = Some [QDrop 1] /\
  match ex_run ex_ops4 with Some s => option_map (fun s => firstn 1 (q_tr _ (l_q _ s))) (drop_list _ ex_fin [7] s) | None => None end = Some [QDrop 1].
Proof. repeat split; vm_compute; reflexivity. Qed.
(** render future 1 cannot run while future 0 does; once 0 is dropped it can *)
Example ex_renders :
  ex_run (ex_ops2 ++ [OPoll _ 1 (ex_w 6)]) = None /\
  option_map (l_cur _) (ex_run (ex_ops2 ++ [ODropRender _ 0; OPoll _ 1 (ex_w 6); OPoll _ 0 (ex_w 5)])) = Some (Some 1).
Proof. split; vm_compute; reflexivity. Qed.
