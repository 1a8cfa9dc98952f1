(** Property C75: when the page comes to rest, the items of a rendered DynamicList have run.

    A block awaits [list.render()] (list_view in Spec_list_view.v).  This joins DynamicList's own
    executor, the combinators, async_executor and the root executor. *)
From Coq Require Import List Arith Bool Lia Cantor.
From Verif Require Import Util Arena Spec_arena Readiness Combinator Tree Spec_tree Tree_proofs Props_tree Executor Spec_executor
  Queue Spec_queue Queue_proofs App Page Page_proofs Props_page Spec_view View_proofs Props_view
  ListRun Spec_listrun ListRun_proofs Spec_list_view View_list_proofs.
Import ListNotations.

(** C75: the page is at rest, and the block is there and awaits the [j]-th render future of the
    list, which is not dropped.  Then no item is owed attention: every item inserted or woken has
    been polled since (or is finished), and every item removed or replaced has been dropped. *)
Theorem C75_items_served :
  forall V X ww debug bound code on_drop x evs s ww' Y icode ifin (sl : X -> ListRun.st Y) on y ops j t p,
  will_wake_ok ww -> will_wake_ok ww' -> page_code_ok code ->
  list_view ww' icode ifin sl on j t p code on_drop evs ->
  ListRun.run ww' Y icode ifin y ops = Some (sl x) -> (forall w, ~ In (LPoll j w) (l_tr Y (sl x))) ->
  prun V X ww debug bound code on_drop x evs = Live s -> at_rest ww debug bound code on_drop x evs s ->
  Spec_queue.alive t (q_tr _ (Executor.xs _ s)) = true -> Spec_tree.live (app_tr s t) p -> at_leaf p (app_tr s t) = true ->
  on (pg_x V X (q_x _ (Executor.xs _ s))) = true ->
  let s' := sl (pg_x V X (q_x _ (Executor.xs _ s))) in
  let tr := q_tr _ (l_q Y s') in
  l_cur Y s' = Some j ->
  (forall i, owed i tr = false) /\
  (forall i, cancelled i tr = true -> Spec_queue.alive i tr = false).
Proof.
  intros V X ww debug bound code on_drop x evs s ww' Y icode ifin sl on y ops j t p WW WW' CO SV R0 L0 R AR A L AL ON s' tr CU.
  pose proof (list_view_of ww' WW' Y icode ifin j t p sl on code on_drop evs SV) as VO.
  assert (J0 : JL ww' Y icode ifin j t p (sl x)).
  { split; [exists y, ops; exact R0|]. intros later w before T _. destruct (L0 w). rewrite T. apply in_app_iff. right. left. reflexivity. }
  pose proof (C67_up_to_date V X ww debug bound code on_drop x evs s _ _ t p WW CO VO J0 R AR A L AL ON CU) as F. cbn beta in F.
  pose proof (lreach_LI ww' WW' Y icode ifin _ (proj1 (proj1 (view_inv V X ww debug bound code on_drop evs _ _ t p WW CO VO x s J0 (or_introl R))))) as I.
  pose proof (li_q _ _ _ _ I) as IQ. fold s' in F, IQ. fold tr in IQ.
  assert (O : forall i, owed i tr = false).
  { intro i. destruct (owed i tr) eqn:O; auto. apply (owed_queued _ _ _ IQ) in O. rewrite (qi_asleep _ _ _ IQ F) in O. destruct O. }
  split; auto. intros i C. destruct (Spec_queue.alive i tr) eqn:AI; auto. exfalso.
  pose proof AI as A'. unfold tr in A'. rewrite (qi_alive _ _ _ IQ) in A'. apply andb_true_iff in A' as (A1 & A2).
  unfold tr in C. rewrite (qi_canc _ _ _ IQ) in C; [|apply Nat.ltb_lt; auto|apply negb_true_iff; auto].
  specialize (O i). unfold tr in O. rewrite (qi_owed _ _ _ IQ), A1, A2, C, orb_true_r in O. discriminate.
Qed.
Print Assumptions C75_items_served.

(** Non-vacuity: application 0 joins two blocks; the first renders the list.  The event handler
    inserts an item under key 3; an item with an even number wakes itself at its first poll (the
    state: the items polled). *)
Definition exl_icode (i : nat) (y : list nat) : list nat * list lact * outcome :=
  (i :: y, if Nat.even i && negb (existsb (Nat.eqb i) y) then [LWake i] else [], Pend).
Definition exl_ifin (i : nat) (y : list nat) : list nat * list lact := (y, []).
Notation lst := (ListRun.st (list nat)).
Notation exl_exec := (ListRun.exec ex_ww (list nat) exl_icode exl_ifin).
Definition exl_do (o : lop (list nat)) (s : lst) : lst * list gact :=
  match exl_exec s o with
  | Some s' => (s', flat_map (fun e => match e with LWoken wk => exv_wake wk | _ => [] end) (firstn (length (l_tr _ s') - length (l_tr _ s)) (l_tr _ s')))
  | None => (s, [])
  end.
Definition exl_code (t : nat) (x : lst) (p : place) (got : option val) : lst * list gact * Tree.next val :=
  match t, p, got with
  | 0, Root, None => (x, [], NAwait KArray join_val 2)
  | 0, Kid 0 0, _ => match exl_exec x (OPoll _ 0 exv_wk) with Some _ => (exl_do (OPoll _ 0 exv_wk) x, NPend) | None => (x, [], NPanic) end
  | _, _, _ => (x, [], NPend)
  end.
Definition exl_drop (t : nat) (x : lst) : lst * list gact := (x, []).
Definition exl_op : lop (list nat) := OCode _ (fun y => (y, [LInsert 3])).
Definition exl_click (x : lst) : lst * list gact := exl_do exl_op x.
Definition exl_evs : list (pev lst) := pmount ++ [PFire 9; PCode exl_click; PFire 9; PCode exl_click; PFire 9; PFire 9].
Definition exl_x0 : lst := ListRun.init _ [].

Notation exl_polls := (fun o => match o with OPoll _ i wk => if i =? 0 then Some wk else None | _ => None end).
Notation exl_uses := (part_uses lst (lop (list nat)) (fun s o s' => exl_exec s o = Some s') list_tells).
Lemma exl_told s o s' : exl_exec s o = Some s' -> list_tells s s' (snd (exl_do o s)).
Proof.
  intro E. unfold exl_do. rewrite E. cbn [snd]. pose proof (lstep_trace ex_ww _ exl_icode exl_ifin s o s' E) as G.
  assert (K : exists new, l_tr _ s' = new ++ l_tr _ s).
  { destruct o as [f|i w|i].
    - destruct G as (new & T & _). eauto.
    - destruct G as [(-> & _)|(new & T & _)]; [exists []; reflexivity|]. exists (new ++ [LPoll i w]). rewrite T, <- app_assoc. reflexivity.
    - destruct G as [(T & _)|(T & _)]; [exists []|exists [LStop i]]; exact T. }
  destruct K as (new & T). exists new. split; auto. intros wk u q IN TK.
  rewrite T, app_length, Nat.add_sub, firstn_app, Nat.sub_diag, firstn_all, app_nil_r. apply in_flat_map. exists (LWoken wk). split; auto.
  unfold exv_wake. rewrite TK. unfold block_task. rewrite cancel_of_to, place_task. left. reflexivity.
Qed.
Example exl_view : list_view ex_ww exl_icode exl_ifin (fun x => x) (fun _ => true) 0 0 (Kid 0 0) exl_code exl_drop exl_evs.
Proof.
  split; [|split; [|split]].
  - intros x got x' l nx _ E. cbn [exl_code] in E.
    destruct (exl_exec x (OPoll _ 0 exv_wk)) as [x1|] eqn:E1; [|injection E as <- <- <-; auto]. right.
    pose proof (exl_told _ _ _ E1) as T. assert (F : fst (exl_do (OPoll _ 0 exv_wk) x) = x1) by (unfold exl_do; rewrite E1; reflexivity).
    destruct (exl_do (OPoll _ 0 exv_wk) x) as [x2 l2]. cbn in F, T. subst x2. injection E as <- <- <-. split.
    + eapply part_step with (o := OPoll _ 0 exv_wk); [intros wk [= <-]; reflexivity|exact E1|exact T|constructor].
    + intros _ _. exists x, (OPoll _ 0 exv_wk), exv_wk, x1. repeat split; auto; constructor.
  - intros u x q got x' l nx NE _ E.
    assert (NIL : forall r, (x, [], r) = (x', l, nx) -> nx = NPanic \/ exl_uses (fun o => exl_polls o = None) x l x' /\ (true = true -> true = true))
      by (intros r [= <- <- _]; right; split; [constructor|auto]).
    destruct u as [|u]; [|exact (NIL _ E)]. destruct q as [|n i]; [destruct got; exact (NIL _ E)|].
    destruct n as [|n]; [|exact (NIL _ E)]. destruct i as [|i]; [destruct NE; congruence|exact (NIL _ E)].
  - intros u x x' l _ [= <- <-]. split; [constructor|auto].
  - intros f x x' l IN _ E. cbn in IN. destruct IN as [Q|[Q|[Q|[Q|[Q|[Q|[Q|[Q|[]]]]]]]]]; try discriminate; injection Q as <-; (split; [|auto]);
      (unfold exl_click in E; destruct (exl_exec x exl_op) as [x1|] eqn:E1;
       [pose proof (exl_told _ _ _ E1) as T; rewrite E in T; assert (F : fst (exl_do exl_op x) = x1) by (unfold exl_do; rewrite E1; reflexivity);
        rewrite E in F; cbn in F, T; subst x1; eapply part_step with (o := exl_op); [reflexivity|exact E1|exact T|constructor]
       |unfold exl_do in E; rewrite E1 in E; injection E as <- <-; constructor]).
Qed.
Example exl_start : ListRun.run ex_ww _ exl_icode exl_ifin [] [] = Some exl_x0 /\ (forall w, ~ In (LPoll 0 w) (l_tr _ exl_x0)).
Proof. split; [reflexivity|intros w []]. Qed.
Definition exl_run evs := prun val lst ex_ww true 40 exl_code exl_drop exl_x0 evs.
Definition exl_see (r : rres (qu (Page.page val lst))) :=
  match r with
  | Live s => let x := pg_x _ _ (q_x _ (Executor.xs _ s)) in
      Some (Spec_queue.alive 0 (q_tr _ (Executor.xs _ s)), timers _ s, rev (q_tr _ (l_q _ x)), l_cur _ x)
  | _ => None
  end.
(** item 0 is inserted, polled twice (it wakes itself), replaced by item 1 and dropped *)
Example exl_shown :
  exl_see (exl_run (pmount ++ [PFire 9])) = Some (true, 0, [], Some 0) /\
  exl_see (exl_run (pmount ++ [PFire 9; PCode exl_click])) = Some (true, 1, [QSpawn 0], Some 0) /\
  exl_see (exl_run (pmount ++ [PFire 9; PCode exl_click; PFire 9])) = Some (true, 0, [QSpawn 0; QPoll 0; QWake 0; QEnd 0; QPoll 0; QEnd 0], Some 0) /\
  exl_see (exl_run exl_evs) = Some (true, 0, [QSpawn 0; QPoll 0; QWake 0; QEnd 0; QPoll 0; QEnd 0; QSpawn 1; QCancel 0; QPoll 1; QEnd 1; QDrop 0], Some 0) /\
  match exl_run exl_evs with Live s => Spec_tree.live (app_tr s 0) (Kid 0 0) /\ at_leaf (Kid 0 0) (app_tr s 0) = true | _ => False end.
Proof.
  split; [vm_compute; reflexivity|]. split; [vm_compute; reflexivity|]. split; [vm_compute; reflexivity|]. split; [vm_compute; reflexivity|].
  vm_compute. split; [|reflexivity]. apply live_kid with (k := 2) (b := join_val) (p := Root); [cbn; tauto|lia| | |].
  - intros (v & H). cbn in H. intuition discriminate.
  - intros (v & H). cbn in H. intuition discriminate.
  - constructor. intros (v & H). cbn in H. intuition discriminate.
Qed.
Example exl_rest : match exl_run exl_evs with Live s => at_rest ex_ww true 40 exl_code exl_drop exl_x0 exl_evs s | _ => False end.
Proof.
  destruct exl_shown as (_ & _ & _ & H & L). destruct (exl_run exl_evs) as [s|s|]; try contradiction. clear L. left. split; [right; left; reflexivity|].
  cbn [exl_see] in H. injection H as _ T _ _. exact T.
Qed.
