(** Proofs for C70. *)
From Coq Require Import List Arith Bool Lia.
From Verif Require Import Util Arena Spec_arena Combinator Tree Page Spec_view View_part_proofs Slot Spec_slot Slot_proofs Spec_slot_view.
Import ListNotations.

Section Slots.
Variable ww : waker -> waker -> bool.
Hypothesis WW : will_wake_ok ww.
Variable Y : Type.
Variable poll : Y -> nat -> waker -> Y * list act * bool.
Variable dropf : Y -> nat -> Y * list act.
Notation st := (st Y). Notation tr := (tr Y). Notation exec := (Slot.exec ww Y poll dropf). Notation SI := (SI Y). Notation alive := (Slot.alive Y).
Variables (t : nat) (p : place).
Definition reached (s : st) : Prop := exists y ops, Slot.run ww Y poll dropf y ops = Some s.
Definition JD (s : st) : Prop := reached s /\ forall wk, last_poll (tr s) = Some wk -> w_task wk = Some (block_task t p).
Definition freshD (s : st) : Prop := taken_up (tr s) = true.

Lemma reach_SI s : reached s -> SI s.
Proof. intros (y & ops & R). eapply run_SI; eauto. Qed.
Lemma reach_step s o s' : reached s -> exec s o = Some s' -> reached s'.
Proof. intros (y & ops & R) E. exists y, (ops ++ [o]). unfold run in *. rewrite execs_app, R. cbn. rewrite E. reflexivity. Qed.

(** calls of set_future and clear_future do not poll the render future *)
Notation nopoll new := (forall wk, ~ In (TPoll wk) new).
Definition grows (s s' : st) : Prop := exists new, tr s' = new ++ tr s /\ nopoll new.
Lemma grows_refl s : grows s s. Proof. exists []. split; auto. Qed.
Lemma grows_trans a b c : grows a b -> grows b c -> grows a c.
Proof.
  intros (n1 & E1 & N1) (n2 & E2 & N2). exists (n2 ++ n1). rewrite E2, E1, app_assoc. split; auto.
  intros wk H. apply in_app_iff in H as [H|H]; [destruct (N2 wk H)|destruct (N1 wk H)].
Qed.
Lemma grows_one s s' e : tr s' = e :: tr s -> (forall wk, e <> TPoll wk) -> grows s s'.
Proof. intros E N. exists [e]. split; auto. intros wk [H|[]]. destruct (N wk H). Qed.
Lemma grows_same s s' : tr s' = tr s -> grows s s'.
Proof. intros E. exists []. split; auto. Qed.
Lemma borrowed_grows f s s' : drop_borrowed Y dropf f s = Some s' -> grows s s'.
Proof. unfold drop_borrowed. destruct (dropf (xs Y s) f) as [x [|a l]]; [|discriminate]. intros [= <-]. eapply grows_one; [reflexivity|discriminate]. Qed.
Lemma msg_grows s s' : drop_msg Y dropf s = Some s' -> grows s s'.
Proof. unfold drop_msg. destruct (msg Y s); try (intros [= <-]; apply grows_refl). apply borrowed_grows. Qed.
Lemma act_grows s a s' : exec_act Y dropf (Some s) a = Some s' -> grows s s'.
Proof.
  destruct a; cbn; unfold set_future, clear_future; (match goal with |- context [drop_msg Y dropf ?x] => destruct (drop_msg Y dropf x) as [s1|] eqn:E end; [|discriminate]);
    cbn; intros [= <-]; apply msg_grows in E.
  - eapply grows_trans; [|eapply grows_trans; [exact E|]]; (eapply grows_one; [reflexivity|discriminate]).
  - eapply grows_trans; [|eapply grows_trans; [exact E|]]; (eapply grows_one; [reflexivity|discriminate]).
Qed.
Lemma acts_grow l : forall s s', fold_left (exec_act Y dropf) l (Some s) = Some s' -> grows s s'.
Proof.
  induction l as [|a l IH]; intros s s' H; cbn [fold_left] in H; [injection H as <-; apply grows_refl|].
  destruct (exec_act Y dropf (Some s) a) as [s1|] eqn:E; [|rewrite acts_none in H; discriminate].
  eapply grows_trans; [eapply act_grows; eauto|auto].
Qed.
Lemma replace_grows f s s' : replace_shown Y dropf f s = Some s' -> grows s s'.
Proof.
  unfold replace_shown. destruct (shown Y s) as [g|]; cbn.
  - destruct (drop_borrowed Y dropf g s) as [s1|] eqn:E; [|discriminate]. cbn. intros [= <-]. eapply grows_trans; [eapply borrowed_grows; eauto|apply grows_same; reflexivity].
  - intros [= <-]. apply grows_same. reflexivity.
Qed.
(** a step polls the render future if it is [OPoll], and then first *)
Lemma step_grows s o s' : exec s o = Some s' ->
  match o with
  | OPoll _ w => if alive s then exists new, tr s' = new ++ TPoll w :: tr s /\ nopoll new else s' = s
  | _ => grows s s'
  end.
Proof.
  destruct o as [a|w| | |x]; cbn [Slot.exec]; intro E.
  - destruct (exists_slot Y s); [eapply act_grows; eauto|injection E as <-; apply grows_refl].
  - destruct (alive s); [|congruence]. unfold render_poll in E. destruct (take_message _ _ _) as [s1|] eqn:ET; [|discriminate]. cbn [bind] in E.
    assert (G1 : grows (emit Y (TPoll w) s) s1).
    { unfold take_message in ET. destruct (msg Y _); [|apply replace_grows in ET|injection ET as <-; apply grows_same; reflexivity]; [apply replace_grows in ET|];
        (eapply grows_trans; [|exact ET]; apply grows_same; reflexivity). }
    set (s2 := set_chan Y _ s1) in E. assert (G2 : grows s2 s').
    { unfold poll_shown in E. destruct (shown Y s2) as [f|]; [|injection E as <-; apply grows_refl]. destruct (poll (xs Y s2) f w) as [[x acts] r].
      destruct (fold_left _ _ _) as [s3|] eqn:EF; [|discriminate]. cbn [bind] in E. apply acts_grow in EF.
      eapply grows_trans; [|eapply grows_trans; [exact EF|]].
      - eapply grows_one; [reflexivity|discriminate].
      - injection E as <-. destruct r; [eapply grows_one; [reflexivity|discriminate]|apply grows_refl]. }
    destruct G1 as (n1 & T1 & N1). destruct G2 as (n2 & T2 & N2). exists (n2 ++ n1). split.
    + rewrite T2. change (tr s2) with (tr s1). rewrite T1. cbn. rewrite <- app_assoc. reflexivity.
    + intros wk H. apply in_app_iff in H as [H|H]; [destruct (N2 wk H)|destruct (N1 wk H)].
  - destruct (alive s); [|injection E as <-; apply grows_refl]. destruct (shown Y s) as [f|]; [|injection E as <-; apply grows_same; reflexivity].
    destruct (dropf (xs Y s) f) as [x acts]. apply acts_grow in E. eapply grows_trans; [|exact E]. eapply grows_one; [reflexivity|discriminate].
  - destruct (_ || _)%bool; [injection E as <-; apply grows_refl|]. destruct (msg Y s); injection E as <-; try (apply grows_same; reflexivity). eapply grows_one; [reflexivity|discriminate].
  - injection E as <-. apply grows_same. reflexivity.
Qed.
Lemma last_poll_app new tr' : nopoll new -> last_poll (new ++ tr') = last_poll tr'.
Proof.
  induction new as [|e new IH]; intro N; auto. cbn [app]. assert (IH' : last_poll (new ++ tr') = last_poll tr') by (apply IH; intros wk H; apply (N wk); right; auto).
  destruct e; cbn; auto. destruct (N w). left. reflexivity.
Qed.
Lemma taken_app new tr' : nopoll new -> existsb sets new = false -> taken_up (new ++ tr') = taken_up tr'.
Proof.
  induction new as [|e new IH]; intros N F; auto. cbn [app]. cbn in F. apply orb_false_iff in F as (F1 & F2).
  assert (IH' : taken_up (new ++ tr') = taken_up tr') by (apply IH; auto; intros wk H; apply (N wk); right; auto).
  destruct e; cbn in *; try discriminate; auto. destruct (N w). left. reflexivity.
Qed.
Lemma always_app (P : ev -> list ev -> Prop) a b : always P (a ++ b) -> always P b.
Proof. induction a as [|e a IH]; auto. intros [_ H]. auto. Qed.
Lemma woken_of new tr' wk : nopoll new -> always step_ok (new ++ tr') -> owed (new ++ tr') = false -> last_poll tr' = Some wk -> existsb sets new = true ->
  exists w, In (TWake w) new /\ same_task w wk.
Proof.
  intros N A O L. revert A O. induction new as [|e new IH]; intros A O EX; [discriminate|]. cbn in EX.
  assert (N' : nopoll new) by (intros w H; apply (N w); right; auto). cbn [app] in A, O. destruct A as [S A].
  assert (K : owed (new ++ tr') = false -> existsb sets new = true -> exists w, In (TWake w) (e :: new) /\ same_task w wk).
  { intros OW Q. destruct (IH N' A OW Q) as (w & H & T). exists w. split; [right; auto|auto]. }
  unfold step_ok in S. destruct (owed (new ++ tr')) eqn:OW.
  - destruct e; try contradiction.
    + rewrite last_poll_app, L in S by auto. exists w. split; [left; reflexivity|exact S].
    + cbn in O. congruence.
  - destruct e; cbn in EX, O; try discriminate; auto.
Qed.
Lemma jd_step s o s' : JD s -> (forall wk, match o with OPoll _ wk => Some wk | _ => None end = Some wk -> w_task wk = Some (block_task t p)) -> exec s o = Some s' -> JD s'.
Proof.
  intros (R & L) M E. split; [eapply reach_step; eauto|]. intros wk. pose proof (step_grows s o s' E) as G. destruct o as [a|w| | |x];
    try (destruct G as (new & -> & N); rewrite last_poll_app; auto; fail).
  destruct (alive s); [|subst; auto]. destruct G as (new & -> & N). rewrite last_poll_app by auto. cbn. intros [= <-]. apply M. reflexivity.
Qed.
Lemma fd_step s o s' l : JD s -> freshD s -> match o with OPoll _ wk => Some wk | _ => None end = None -> exec s o = Some s' -> slot_tells s s' l -> freshD s' \/ In (GWake t p) l.
Proof.
  intros (R & L) F PN E (new' & T' & TE). pose proof (reach_SI _ (reach_step _ _ _ R E)) as I'. pose proof (step_grows s o s' E) as G.
  assert (GR : grows s s') by (destruct o; auto; discriminate). destruct GR as (new & T & N).
  assert (new' = new) as -> by (rewrite T in T'; apply app_inv_tail in T'; auto).
  unfold freshD. destruct (existsb sets new) eqn:EX; [|left; rewrite T, taken_app; auto].
  destruct (last_poll (tr s)) as [wk|] eqn:LP.
  - right. destruct (woken_of new (tr s) wk N) as (w & IN & ST); auto; try (rewrite <- T; apply I'; fail).
    apply (TE w t p IN). rewrite <- (L wk eq_refl). exact ST.
  - exfalso. revert F LP. unfold freshD. generalize (tr s). clear. intro l. induction l as [|e l IH]; [discriminate|]. destruct e; cbn; auto; discriminate.
Qed.
Lemma fd_poll s wk s' l : JD s -> w_task wk = Some (block_task t p) -> exec s (OPoll Y wk) = Some s' -> slot_tells s s' l -> alive s = true -> freshD s' \/ In (GWake t p) l.
Proof.
  intros (R & L) TK E (new' & T' & TE) AL. pose proof (reach_SI _ (reach_step _ _ _ R E)) as I'. pose proof (step_grows s _ s' E) as G. cbn in G. rewrite AL in G.
  destruct G as (new & T & N). assert (new' = new ++ [TPoll wk]) as ->.
  { change (TPoll wk :: tr s) with ([TPoll wk] ++ tr s) in T. rewrite app_assoc in T. rewrite T in T'. apply app_inv_tail in T'. auto. }
  unfold freshD. destruct (existsb sets new) eqn:EX; [|left; rewrite T, taken_app; auto].
  right. destruct (woken_of new (TPoll wk :: tr s) wk N) as (w & IN & ST); auto; try (rewrite <- T; apply I'; fail).
  apply (TE w t p); [apply in_app_iff; auto|]. rewrite <- TK. exact ST.
Qed.
Lemma slot_view_of {V X} (sl : X -> st) on (code : nat -> X -> place -> option V -> X * list gact * Tree.next V) on_drop evs :
  slot_view ww poll dropf sl on t p code on_drop evs ->
  view_of (fun x => JD (sl x)) (fun x => on x = true -> freshD (sl x)) t p code on_drop evs.
Proof.
  apply part_view_of.
  - intros x (R & _). exact R.
  - exact jd_step.
  - exact fd_step.
  - intros s o s' l wk J PO TK ST TE AL. destruct o as [|w| | |]; try discriminate. injection PO as ->. eapply fd_poll; eauto.
Qed.
(** what [taken_up] means *)
Lemma taken_split new tr' : nopoll new -> taken_up (new ++ tr') = true -> existsb sets new = false /\ taken_up tr' = true.
Proof.
  induction new as [|e new IH]; intros N F; auto. cbn [app] in F. assert (N' : nopoll new) by (intros wk H; apply (N wk); right; auto).
  destruct e; cbn in F |- *; try discriminate; auto. destruct (N w). left. reflexivity.
Qed.
Lemma exec_dead s o s' : SI s -> exec s o = Some s' -> alive s' = true -> alive s = true.
Proof.
  intros I E. destruct o as [a|w| | |x]; cbn [Slot.exec] in E.
  - destruct (exists_slot Y s) eqn:EX; [|congruence]. destruct (act_ok Y poll dropf s a s' I EX E) as (_ & (_ & A & _)). congruence.
  - destruct (alive s) eqn:AL; auto. injection E as <-; congruence.
  - destruct (alive s) eqn:AL; auto. injection E as <-; congruence.
  - destruct (alive s) eqn:AL; auto. cbn in E. destruct (negb _); [injection E as <-; congruence|]. destruct (msg Y s); injection E as <-; cbn; auto.
  - injection E as <-. auto.
Qed.
Lemma current_app0 new tr' : existsb sets new = false -> current (new ++ tr') = current tr'.
Proof. induction new as [|e new IH]; auto. cbn. intro F. apply orb_false_iff in F as (F1 & F2). destruct e; try discriminate; auto. Qed.
Lemma drops_app f a b : drops f (a ++ b) = drops f a + drops f b.
Proof. induction a as [|e a IH]; auto. destruct e; cbn; rewrite ?IH; auto; lia. Qed.
(** the current future is not dropped *)
Lemma current_kept s f : SI s -> alive s = true -> current (tr s) = Some f -> drops f (tr s) = 0.
Proof.
  intros I A C. rewrite (si_drops _ _ I f). destruct (_ <? _); auto. rewrite (si_cur _ _ I A) in C. unfold held.
  destruct (msg Y s) as [g| |]; [injection C as ->; rewrite Nat.eqb_refl; reflexivity|discriminate|]. rewrite C, Nat.eqb_refl. reflexivity.
Qed.
(** the last poll of the render future polled the current slotted future *)
Lemma taken_polled ops : forall y s, Slot.run ww Y poll dropf y ops = Some s -> alive s = true -> taken_up (tr s) = true ->
  exists later w before, tr s = later ++ TPoll w :: before /\ nopoll later /\ existsb sets later = false /\
    polled later = match current (tr s) with Some f => [(f, w)] | None => [] end /\
    (forall g, In (TSet g) (tr s) -> current (tr s) <> Some g -> drops g (tr s) = 1).
Proof.
  induction ops as [|o ops IH] using rev_ind; intros y s R A T.
  - injection R as <-. discriminate.
  - unfold run in *. rewrite execs_app in R. destruct (execs ww Y poll dropf (init Y y) ops) as [s0|] eqn:R0; [|discriminate].
    cbn [execs] in R. destruct (exec s0 o) as [s1|] eqn:E; [|discriminate]. injection R as <-.
    assert (I0 : SI s0) by (eapply (run_SI ww WW Y poll dropf y ops); exact R0).
    pose proof (exec_dead _ _ _ I0 E A) as A0. destruct (exec_ok ww WW Y poll dropf _ _ _ I0 E) as (_ & _ & evs & TE & PE & _).
    pose proof (step_grows _ _ _ E) as G. assert (CASE : (exists w, o = OPoll Y w) \/ grows s0 s1 /\ polled evs = []) by (destruct o; eauto).
    destruct CASE as [(w & ->)|((new & TN & NN) & PN)].
    + rewrite A0 in G. destruct G as (new & TN & NN). rewrite A0 in PE.
      assert (evs = new ++ [TPoll w]) as ->.
      { change (TPoll w :: tr s0) with ([TPoll w] ++ tr s0) in TN. rewrite app_assoc in TN. rewrite TN in TE. apply app_inv_tail in TE. auto. }
      rewrite polled_app in PE. cbn in PE. rewrite app_nil_r in PE. rewrite TN in T. destruct (taken_split _ _ NN T) as (F & _).
      exists new, w, (tr s0). split; auto. split; auto. split; auto. rewrite TN, current_app0 by auto. split; [exact PE|].
      cbn [current]. intros g IG CG. cbn [Slot.exec] in E. rewrite A0 in E. destruct (poll_ok ww WW Y poll dropf _ _ _ I0 A0 E) as (_ & _ & _ & _ & _ & D). rewrite <- TN.
      rewrite (D g).
      * destruct (current (tr s0)) as [h|]; auto. destruct (Nat.eqb_spec h g); congruence.
      * apply in_app_iff in IG as [IG|[IG|IG]]; [|discriminate|auto]. exfalso. assert (Q : existsb sets new = true) by (apply existsb_exists; exists (TSet g); auto). congruence.
    + assert (evs = new) as -> by (rewrite TN in TE; apply app_inv_tail in TE; auto). rewrite TN in T. destruct (taken_split _ _ NN T) as (F & T0).
      destruct (IH y s0 R0 A0 T0) as (later & w & before & T1 & N1 & F1 & P1 & D1). exists (new ++ later), w, before.
      split; [rewrite TN, T1, app_assoc; reflexivity|]. split; [intros wk H; apply in_app_iff in H as [H|H]; [destruct (NN wk H)|destruct (N1 wk H)]|].
      split; [rewrite existsb_app, F, F1; reflexivity|]. rewrite TN, current_app0 by auto. rewrite polled_app, P1.
      rewrite PN. split; [reflexivity|]. intros g IG CG.
      assert (I1 : SI s1) by (apply (reach_SI s1); exists y, (ops ++ [o]); unfold run; rewrite execs_app, R0; cbn; rewrite E; reflexivity).
      assert (LE : drops g (tr s1) <= 1) by (rewrite (si_drops _ _ I1 g); destruct (_ <? _); [destruct (held _ _ _)|]; lia).
      rewrite TN, drops_app in LE. rewrite drops_app. assert (D0 : drops g (tr s0) = 1); [|lia]. apply D1; auto.
      apply in_app_iff in IG as [IG|IG]; auto. exfalso. assert (Q : existsb sets new = true) by (apply existsb_exists; exists (TSet g); auto). congruence.
Qed.
End Slots.
