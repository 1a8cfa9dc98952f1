(** Proofs for C75. *)
From Coq Require Import List Arith Bool Lia.
From Verif Require Import Util Arena Spec_arena Combinator Tree Page Spec_view View_part_proofs Executor Queue Spec_queue Queue_proofs
  ListRun Spec_listrun ListRun_proofs Spec_list_view.
Import ListNotations.

Section Lists.
Variable ww : waker -> waker -> bool.
Hypothesis WW : will_wake_ok ww.
Variable Y : Type.
Variable icode : nat -> Y -> Y * list lact * outcome.
Variable ifin : nat -> Y -> Y * list lact.
Notation st := (ListRun.st Y). Notation exec := (ListRun.exec ww Y icode ifin). Notation LI := (LI Y False (fun _ => [])).
Notation l_tr := (l_tr Y). Notation l_cur := (l_cur Y). Notation l_q := (l_q Y). Notation l_wk := (l_wk Y). Notation l_dead := (l_dead Y).
Notation asleep s := (q_asleep _ (l_q s)).
Variables (j t : nat) (p : place).
Notation polls := (fun o => match o with OPoll _ i wk => if i =? j then Some wk else None | _ => None end).
Definition lreached (s : st) : Prop := exists y ops, ListRun.run ww Y icode ifin y ops = Some s.
Definition JL (s : st) : Prop := lreached s /\
  forall later w before, l_tr s = later ++ LPoll j w :: before -> existsb marks later = false -> w_task w = Some (block_task t p).
Definition freshL (s : st) : Prop := l_cur s = Some j -> asleep s = true.

Lemma lreach_LI s : lreached s -> LI s.
Proof. intros (y & ops & R). eapply (run_ok ww WW Y icode ifin False (fun _ => [])); try exact R; try tauto. intros [f|i w|i] _; cbn; tauto. Qed.
Lemma execs_snoc ops : forall s o, execs ww Y icode ifin s (ops ++ [o]) = match execs ww Y icode ifin s ops with Some s1 => exec s1 o | None => None end.
Proof.
  induction ops as [|a ops IH]; intros s o; cbn [execs app]; [destruct (exec s o); reflexivity|]. destruct (exec s a); auto.
Qed.
Lemma lreach_step s o s' : lreached s -> exec s o = Some s' -> lreached s'.
Proof. intros (y & ops & R) E. exists y, (ops ++ [o]). unfold run in *. rewrite execs_snoc, R. exact E. Qed.

(** a step polls a render future if it is [OPoll], and then first *)
Lemma lstep_trace s o s' : exec s o = Some s' ->
  match o with
  | OCode _ _ => exists new, l_tr s' = new ++ l_tr s /\ existsb marks new = false /\ l_cur s' = l_cur s
  | OPoll _ i w => s' = s /\ In i (l_dead s) \/ exists new, l_tr s' = new ++ LPoll i w :: l_tr s /\ existsb marks new = false /\ l_cur s' = Some i
  | ODropRender _ i => l_tr s' = l_tr s /\ l_cur s' = l_cur s /\ l_q s' = l_q s /\ l_wk s' = l_wk s \/ l_tr s' = LStop i :: l_tr s /\ l_cur s' = None
  end.
Proof.
  assert (RI : forall i w, run_items ww Y icode ifin i w s = Some s' -> exists new, l_tr s' = new ++ LPoll i w :: l_tr s /\ existsb marks new = false /\ l_cur s' = Some i).
  { intros i w. unfold run_items. destruct (batch _ _ _ _ _) as [[q al] []]; [discriminate|]. intros [= <-]. exists (woken (Some w) al). cbn. split; auto. split; auto. apply woken_marks. }
  destruct o as [f|i w|i]; cbn [ListRun.exec]; intro E.
  - destruct (f _) as [y l]. destruct (ListRun.calls Y l _) as [x tl]. destruct (do_tacts _ tl _) as [q al]. injection E as <-. exists (woken (l_wk s) al). cbn. split; auto. split; auto. apply woken_marks.
  - destruct (existsb _ _) eqn:D; [left; split; [congruence|]|right].
    + apply existsb_exists in D as (i' & D1 & D2). apply Nat.eqb_eq in D2. congruence.
    + destruct (l_cur s) as [i'|]; auto. destruct (i' =? i); [auto|discriminate].
  - destruct (existsb _ _); [injection E as <-; auto|]. destruct (l_cur s) as [i'|] eqn:C; [destruct (i' =? i)|]; injection E as <-; cbn; auto.
Qed.
Lemma split_same (later later' : list lev) x y r r' : later ++ x :: r = later' ++ y :: r' -> existsb marks later = false -> existsb marks later' = false ->
  marks x = true -> marks y = true -> later = later' /\ x = y /\ r = r'.
Proof.
  revert later'. induction later as [|e l IH]; intros [|e' l'] E M M' MX MY; cbn in *.
  - injection E as -> ->. auto.
  - injection E as -> E. rewrite MX in M'. discriminate.
  - injection E as -> E. rewrite MY in M. discriminate.
  - injection E as -> E. apply orb_false_iff in M as (_ & M). apply orb_false_iff in M' as (_ & M'). destruct (IH l' E M M' MX MY) as (-> & -> & ->). auto.
Qed.
Lemma open_split tr i : open_of tr = Some i -> exists later w before, tr = later ++ LPoll i w :: before /\ existsb marks later = false.
Proof.
  induction tr as [|e tr IH]; [discriminate|]. destruct e as [k w|w|k]; cbn; try discriminate.
  - intros [= ->]. exists [], w, tr. auto.
  - intro H. destruct (IH H) as (l & w' & b & -> & M). exists (LWoken w :: l), w', b. auto.
Qed.
Lemma peel new later i w before tr : new ++ tr = later ++ LPoll i w :: before -> existsb marks new = false -> exists l, later = new ++ l /\ tr = l ++ LPoll i w :: before.
Proof.
  revert later. induction new as [|e n IH]; intros later E M; cbn in *; [eauto|]. apply orb_false_iff in M as (M1 & M).
  destruct later as [|e' l]; cbn in E; injection E as -> E; [discriminate|]. destruct (IH _ E M) as (l' & -> & ->). eauto.
Qed.
Lemma jl_step s o s' : JL s -> (forall wk, polls o = Some wk -> w_task wk = Some (block_task t p)) -> exec s o = Some s' -> JL s'.
Proof.
  intros (R & L) M E. split; [eapply lreach_step; eauto|]. intros later w before T MK. pose proof (lstep_trace s o s' E) as G. destruct o as [f|i w'|i].
  - destruct G as (new & TN & MN & _). rewrite TN in T. destruct (peel _ _ _ _ _ _ T MN) as (l & -> & T'). rewrite existsb_app in MK. apply orb_false_iff in MK as (_ & MK). eapply L; eauto.
  - destruct G as [(-> & _)|(new & TN & MN & _)]; [eapply L; eauto|]. rewrite TN in T.
    destruct (split_same _ _ _ _ _ _ T MN MK eq_refl eq_refl) as (_ & [= -> ->] & _). apply M. rewrite Nat.eqb_refl. reflexivity.
  - destruct G as [(TN & _)|(TN & _)]; rewrite TN in T; [eapply L; eauto|]. destruct later as [|e l]; cbn in T; injection T as T1 T2; [discriminate|]. subst e. discriminate.
Qed.
Lemma told_of s s' l w' : list_tells s s' l -> forall new, l_tr s' = new ++ l_tr s -> In (LWoken w') new -> w_task w' = Some (block_task t p) -> In (GWake t p) l.
Proof. intros (new' & T' & TE) new T IN TK. assert (new' = new) as -> by (rewrite T in T'; apply app_inv_tail in T'; auto). eapply TE; eauto. Qed.
Lemma fl_step s o s' l : JL s -> freshL s -> polls o = None -> exec s o = Some s' -> list_tells s s' l -> freshL s' \/ In (GWake t p) l.
Proof.
  intros J F PN E TE. pose proof (lreach_LI _ (proj1 J)) as I. pose proof (jl_step s o s' J ltac:(congruence) E) as J'. pose proof (lreach_LI _ (proj1 J')) as I'.
  destruct (l_cur s') as [i|] eqn:C; [|left; unfold freshL; rewrite C; discriminate].
  destruct (Nat.eq_dec i j) as [->|N]; [|left; unfold freshL; rewrite C; congruence].
  destruct (asleep s') eqn:AS; [left; unfold freshL; auto|]. right.
  pose proof (lstep_trace s o s' E) as G. destruct o as [f|i w|i].
  - destruct G as (new & TN & MN & CC). rewrite C in CC. symmetry in CC. specialize (F CC).
    cbn [ListRun.exec] in E. destruct (f _) as [y a]. destruct (ListRun.calls Y a _) as [x tl].
    destruct (do_tacts_facts _ tl (q_setx _ x (l_q s))) as (_ & _ & _ & F2).
    destruct (do_tacts _ tl _) as [q al]. injection E as <-. cbn [ListRun.l_q ListRun.l_tr fst snd] in *. specialize (F2 F AS).
    pose proof (li_ready _ _ _ _ I) as RD. unfold ready in RD. rewrite CC, F in RD. destruct RD as (later & w & before & T & M & w' & WK & SM).
    eapply (told_of _ _ _ w' TE (woken (l_wk s) al)); [reflexivity|rewrite WK; apply woken_in; exact F2|].
    unfold same in SM. rewrite SM. apply (proj2 J later w before T M).
  - cbn in PN. destruct (Nat.eqb_spec i j) as [->|N]; [discriminate|]. destruct G as [(-> & _)|(new & _ & _ & CC)]; [|congruence]. rewrite (F C) in AS. discriminate.
  - destruct G as [(_ & CC & Q & _)|(_ & CC)]; [|congruence]. rewrite Q in AS. rewrite CC in C. rewrite (F C) in AS. discriminate.
Qed.
Lemma fl_poll s wk s' l : JL s -> w_task wk = Some (block_task t p) -> exec s (OPoll Y j wk) = Some s' -> list_tells s s' l -> freshL s' \/ In (GWake t p) l.
Proof.
  intros J TK E TE. pose proof (lreach_LI _ (proj1 J)) as I. cbn [ListRun.exec] in E. destruct (existsb _ _) eqn:D.
  - injection E as <-. left. intro C. exfalso. apply (li_dead _ _ _ _ I j C). apply existsb_exists in D as (i' & D1 & D2). apply Nat.eqb_eq in D2. congruence.
  - apply not_dead in D. assert (RI : run_items ww Y icode ifin j wk s = Some s' /\ (l_cur s = None \/ l_cur s = Some j)).
    { destruct (l_cur s) as [i|]; auto. destruct (Nat.eqb_spec i j) as [Q|]; [rewrite Q; auto|discriminate]. }
    destruct RI as (RI & C).
    destruct (run_items_ok ww WW Y icode ifin False (fun _ => []) ltac:(tauto) ltac:(tauto) j wk s s' I C D RI) as (_ & _ & new & lnew & _ & T & _ & [A|(A & _)]).
    + left. intros _. exact A.
    + right. eapply (told_of _ _ _ wk TE (lnew ++ [LPoll j wk])); [rewrite T, <- app_assoc; reflexivity|apply in_app_iff; auto|exact TK].
Qed.
Lemma list_view_of {V X} (sl : X -> st) on (code : nat -> X -> place -> option V -> X * list gact * Tree.next V) on_drop evs :
  list_view ww icode ifin sl on j t p code on_drop evs ->
  view_of (fun x => JL (sl x)) (fun x => on x = true -> freshL (sl x)) t p code on_drop evs.
Proof.
  apply part_view_of.
  - intros x (R & _). exact R.
  - exact jl_step.
  - exact fl_step.
  - intros s o s' l wk J PO TK ST TE _. destruct o as [|i w|]; try discriminate. destruct (Nat.eqb_spec i j) as [->|]; [|discriminate]. injection PO as ->. eapply fl_poll; eauto.
Qed.
End Lists.
