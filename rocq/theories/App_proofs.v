(** Proofs about a tree of async blocks driven by the root executor. *)
From Coq Require Import List Arith Bool Lia.
From Verif Require Import Arena Spec_arena Readiness Combinator Tree Spec_tree Tree_proofs Executor Spec_executor Executor_proofs App.
Import ListNotations.

Section Proofs.
Variables V X : Type.
Variable ww : waker -> waker -> bool.
Variable debug : bool.
Variable code : X -> place -> option V -> X * list place * next V.
Variable bound : nat.
Hypothesis WW : will_wake_ok ww.
Hypothesis CO : code_ok code.
Notation tree := (world V X). Notation ttr := (w_tr V X). Notation tinv := (Inv V X (st0) None None).
Notation poll_main := (poll_main V X ww debug code bound).
Notation texec := (Tree.exec V X ww debug code).
Notation ex := (ex tree).

(** ** Traces *)
Lemma wakes_app p (a b : list (Tree.ev V)) : wakes p (a ++ b) = wakes p a + wakes p b.
Proof. induction a as [|e a IH]; cbn; auto. destruct e; auto. destruct (place_eqb p0 p); lia. Qed.
Lemma root_wakes_app (a b : list (Tree.ev V)) : root_wakes V b (a ++ b) = wakes Root a.
Proof. unfold root_wakes. rewrite wakes_app. lia. Qed.
Lemma woken_wakes p (a b : list (Tree.ev V)) : woken p (a ++ b) = true -> wakes p a > 0 \/ (~ In (Tree.EPoll p) a /\ woken p b = true).
Proof.
  induction a as [|e a IH]; cbn [app woken wakes In]; auto. destruct e as [q| | |q| | |]; intro H;
    try (destruct (IH H) as [Q|(Q & R)]; [auto|right; split; [intros [Q'|Q']; [discriminate Q'|auto]|auto]]; fail).
  - destruct (place_eqb_spec q p) as [->|D]; [discriminate H|].
    destruct (IH H) as [Q|(Q & R)]; [auto|right; split; [intros [Q'|Q']; [congruence|auto]|auto]].
  - destruct (place_eqb_spec q p) as [->|D]; [lia|].
    destruct (IH H) as [Q|(Q & R)]; [auto|right; split; [intros [Q'|Q']; [discriminate Q'|auto]|auto]].
Qed.

(** what a poll of the main future does to the trace *)
Lemma poll_trace w w' tag : tinv w -> texec w (HPoll bound tag) = Done w' ->
  tinv w' /\ exists new, ttr w' = new ++ ttr w /\ (w_over V X w = false -> In (Tree.EPoll Root) new).
Proof.
  intros I E. split; [apply (Tree_proofs.exec_ok V X ww debug code WW CO w (HPoll bound tag)); auto|].
  cbn [Tree.exec] in E. destruct (w_over V X w) eqn:O; [injection E as <-; exists []; split; [reflexivity|discriminate]|].
  destruct (root_poll V X ww debug code WW CO bound tag w I O) as (_ & HD).
  destruct (poll_block V X ww debug code bound Root (mkW (Some (task_of Root)) tag) w) as [(w1, r)| | |]; try discriminate E. cbn [bind] in E.
  destruct (HD _ _ eq_refl) as (_ & ((evs & E1 & _) & _)). cbn in E1.
  destruct r as [v|]; injection E as <-; cbn; rewrite E1.
  - exists (Tree.EDone Root v :: evs ++ [Tree.EPoll Root]). cbn. rewrite <- app_assoc. split; [reflexivity|]. intros _. right. apply in_app_iff. right. now left.
  - exists (Tree.EPend Root :: evs ++ [Tree.EPoll Root]). cbn. rewrite <- app_assoc. split; [reflexivity|]. intros _. right. apply in_app_iff. right. now left.
Qed.

(** ** The executor *)
Definition wk_ok (s : ex) : Prop := w_over V X (xs tree s) = false -> woken Root (ttr (xs tree s)) = true -> scheduled tree s = true.
Definition AI (s : ex) : Prop := tinv (xs tree s) /\ wk_ok s.
Definition grows (w w' : tree) : Prop := exists new, ttr w' = new ++ ttr w.
Lemma grows_refl w : grows w w. Proof. exists []. reflexivity. Qed.
Lemma grows_trans a b c : grows a b -> grows b c -> grows a c.
Proof. intros (n1 & E1) (n2 & E2). exists (n2 ++ n1). rewrite E2, E1, app_assoc. reflexivity. Qed.

Lemma schedule_xs s : xs tree (schedule tree s) = xs tree s.
Proof. unfold schedule. destruct (negb (scheduled tree s) && negb (active tree s)); reflexivity. Qed.
Lemma schedule_on s : scheduled tree (schedule tree s) = true.
Proof. unfold schedule. destruct (negb (scheduled tree s) && negb (active tree s)); reflexivity. Qed.
Lemma acts_on k : forall s, scheduled tree s = true \/ k > 0 -> scheduled tree (fold_left (do_act tree) (repeat AWake k) s) = true.
Proof.
  induction k as [|k IH]; intros s H; cbn [repeat fold_left do_act]; [destruct H; [auto|lia]|].
  apply IH. left. apply schedule_on.
Qed.

Lemma loop_app f : forall s s', AI s -> run_loop tree poll_main f s = Live s' ->
  AI s' /\ grows (xs tree s) (xs tree s') /\
  (scheduled tree s = true -> exists w1, texec (xs tree s) (HPoll bound 0) = Done w1 /\ grows w1 (xs tree s')).
Proof.
  induction f as [|f IH]; intros s s' (I & W) E; cbn [run_loop] in E; [discriminate E|].
  destruct (scheduled tree s) eqn:SC.
  - cbn [xs] in E. unfold App.poll_main in E at 1. destruct (texec (xs tree s) (HPoll bound 0)) as [w1| | |] eqn:E1;
      try discriminate E.
    destruct (poll_trace _ _ _ I E1) as (I1 & new & EN & HN).
    apply IH in E.
    + destruct E as (A & G & _). cbn [emit xs] in G. rewrite acts_xs in G. cbn [xs] in G.
      split; auto. split; [eapply grows_trans; [exists new; exact EN|exact G]|]. intros _. exists w1. auto.
    + unfold AI, wk_ok. cbn [emit xs scheduled]. rewrite acts_xs. cbn [xs]. split; auto. intros O WR. apply acts_on. right.
      rewrite EN, root_wakes_app. rewrite EN in WR. destruct (woken_wakes _ _ _ WR) as [Q|(Q & _)]; auto.
      destruct Q. apply HN. destruct (w_over V X (xs tree s)) eqn:O'; auto.
      cbn [Tree.exec] in E1. rewrite O' in E1. injection E1 as <-. congruence.
  - injection E as <-. cbn [xs scheduled]. split; [|split; [apply grows_refl|discriminate]]. split; auto.
    intros O WR. rewrite (W O WR) in SC. discriminate SC.
Qed.

Lemma run_now_app f s s' : AI s -> active tree s = false -> run_now tree poll_main f s = Live s' ->
  AI s' /\ grows (xs tree s) (xs tree s') /\
  (scheduled tree s = true -> exists w1, texec (xs tree s) (HPoll bound 0) = Done w1 /\ grows w1 (xs tree s')).
Proof. intros A N E. unfold run_now in E. rewrite N in E. apply loop_app in E; auto. Qed.

Notation Idle := (Idle tree).
Lemma swakes k : forall s s', Idle s -> fold_left (exec tree poll_main) (repeat (SWake tree) k) (Live s) = Live s' ->
  Idle s' /\ xs tree s' = xs tree s /\ (scheduled tree s = true \/ k > 0 -> scheduled tree s' = true).
Proof.
  induction k as [|k IH]; intros s s' I E; cbn [repeat fold_left exec exec1] in E.
  - injection E as <-. split; auto. split; auto. intros [H|H]; auto. lia.
  - apply IH in E; [|apply schedule_idle; auto]. destruct E as (A & B & C). split; auto. split; [rewrite B; apply schedule_xs|].
    intros _. apply C. left. apply schedule_on.
Qed.
Lemma swakes_live k : forall s, exists s', fold_left (exec tree poll_main) (repeat (SWake tree) k) (Live s) = Live s'.
Proof. induction k as [|k IH]; intro s; cbn [repeat fold_left exec exec1]; eauto. Qed.

Lemma app_step e s s' : Idle s -> AI s -> app_exec V X ww debug code bound (Live s) e = Live s' ->
  Idle s' /\ AI s' /\ grows (xs tree s) (xs tree s').
Proof.
  intros Id (I & W) E. destruct e as [|p|f|f|g]; cbn [app_exec] in E.
  - split; [apply (Executor_proofs.exec_ok tree poll_main (SWake tree) s s' Id E)|].
    cbn [exec exec1] in E. injection E as <-. unfold AI, wk_ok. rewrite schedule_xs, schedule_on. split; [split; auto|apply grows_refl].
  - destruct (texec (xs tree s) (HWake p)) as [w'| | |] eqn:Ew; try discriminate E.
    assert (I' : tinv w') by (apply (Tree_proofs.exec_ok V X ww debug code WW CO (xs tree s) (HWake p)); auto).
    assert (exists new, ttr w' = new ++ ttr (xs tree s)) as (new & EN).
    { destruct (wake_place_ok V X st0 p (xs tree s) I) as (w2 & E2 & _ & ((evs & E3 & _) & _)).
      cbn [Tree.exec] in Ew. rewrite E2 in Ew. injection Ew as <-. eauto. }
    assert (OV : w_over V X w' = w_over V X (xs tree s)).
    { destruct (wake_place_ok V X st0 p (xs tree s) I) as (w2 & E2 & _ & (_ & _ & _ & _ & Q)).
      cbn [Tree.exec] in Ew. rewrite E2 in Ew. injection Ew as <-. exact Q. }
    cbn [exec exec1] in E.
    assert (Id1 : Idle (mkEx tree (scheduled tree s) (active tree s) (timers tree s) w' (tr tree s))) by exact Id.
    destruct (swakes _ _ _ Id1 E) as (Id2 & EX & SC). cbn [xs scheduled] in EX, SC.
    split; auto. unfold AI, wk_ok, grows. rewrite EX, OV. split; [split; auto|exists new; exact EN].
    intros O WR. apply SC. rewrite EN, root_wakes_app. rewrite EN in WR. destruct (woken_wakes _ _ _ WR) as [Q|(_ & Q)]; auto.
  - destruct (Executor_proofs.exec_ok tree poll_main (SFire tree f) s s' Id E) as (Id' & _). split; auto.
    cbn [exec exec1] in E. destruct (timers tree s) as [|n]; [injection E as <-; split; [split; auto|apply grows_refl]|].
    destruct (run_now_app f _ s' (conj I W : AI (mkEx tree (scheduled tree s) (active tree s) n (xs tree s) (tr tree s))) (proj1 Id) E) as (A & G & _). auto.
  - destruct (Executor_proofs.exec_ok tree poll_main (SRun tree f) s s' Id E) as (Id' & _). split; auto.
    cbn [exec exec1] in E. destruct (run_now_app f s s' (conj I W) (proj1 Id) E) as (A & G & _). auto.
  - destruct (Executor_proofs.exec_ok tree poll_main _ s s' Id E) as (Id' & _). split; auto.
    cbn [exec exec1] in E. injection E as <-. split; [|exists []; reflexivity]. split; [apply Inv_set_x; auto|exact W].
Qed.
Lemma app_dead evs : forall r, (forall s, r <> Live s) -> forall s, fold_left (app_exec V X ww debug code bound) evs r <> Live s.
Proof.
  induction evs as [|e evs IH]; intros r H s; cbn [fold_left]; auto. apply IH. intros s0.
  destruct r as [s1|s1|]; [destruct (H s1); reflexivity| |]; destruct e; cbn [app_exec exec]; try discriminate; destruct (exec1 _ _ _ _); discriminate.
Qed.
Lemma app_inv x evs : forall s, app_run V X ww debug code bound x evs = Live s -> Idle s /\ AI s.
Proof.
  unfold app_run.
  assert (G : forall s0, Idle s0 -> AI s0 -> forall s, fold_left (app_exec V X ww debug code bound) evs (Live s0) = Live s -> Idle s /\ AI s).
  { induction evs as [|e evs IH]; intros s0 I0 A0 s E; cbn [fold_left] in E; [injection E as <-; auto|].
    destruct (app_exec V X ww debug code bound (Live s0) e) as [s1|s1|] eqn:E1.
    - destruct (app_step _ _ _ I0 A0 E1) as (I1 & A1 & _). eapply IH; eauto.
    - exfalso. eapply (app_dead evs); [|exact E]. discriminate.
    - exfalso. eapply (app_dead evs); [|exact E]. discriminate. }
  apply G.
  - apply (run_ok tree poll_main (Tree.start V X x) [] (start tree (Tree.start V X x)) eq_refl).
  - split; [apply Inv_start|]. intros _ Q. discriminate Q.
Qed.

(** ** Liveness is not regained *)
Lemma live_back w1 w2 t0 p : tinv w2 -> grows w1 w2 -> (exists n0, ttr w1 = n0 ++ t0) -> live t0 p -> live (ttr w2) p -> live (ttr w1) p.
Proof.
  intros I2 (n2 & E2) (n1 & E1) L0. induction L0 as [R|n k b q i H Hi G R L0 IH]; intro L2.
  - constructor. intro Q. inversion L2 as [R2|]. apply R2. destruct Q as (v & Q). exists v. rewrite E2. apply in_app_iff; auto.
  - inversion L2 as [|n' k' b' q' i' H' Hi' G' R' L2']; subst.
    assert (H2 : In (Tree.ENew n k b q) (ttr w2)). { rewrite E2, E1. apply in_app_iff. right. apply in_app_iff; auto. }
    destruct (g_new _ _ _ (g_glob _ _ _ _ _ _ I2) _ _ _ _ H2) as (nd & A & _ & _ & O1).
    destruct (g_new _ _ _ (g_glob _ _ _ _ _ _ I2) _ _ _ _ H') as (nd' & A' & _ & _ & O2).
    assert (nd' = nd) by (eapply at_fun; eauto). subst nd'. rewrite O1 in O2. subst q'.
    apply (live_kid _ _ n k b q i); auto.
    + rewrite E1. apply in_app_iff; auto.
    + intros (v & Q). apply G'. exists v. rewrite E2. apply in_app_iff; auto.
    + intros (v & Q). apply R'. exists v. rewrite E2. apply in_app_iff; auto.
Qed.

Lemma live_over w p : tinv w -> live (ttr w) p -> w_over V X w = false.
Proof.
  intros I L. destruct (w_over V X w) eqn:O; auto. exfalso. apply (g_over _ _ _ (g_glob _ _ _ _ _ _ I)) in O.
  clear - L O. induction L as [R|n k b p i H Hi G R L IH]; auto.
Qed.
Lemma pending s p : AI s -> live (ttr (xs tree s)) p -> woken p (ttr (xs tree s)) = true -> scheduled tree s = true.
Proof.
  intros (I & W) L WP. apply W; [eapply live_over; eauto|]. eapply woken_root; eauto.
Qed.
Lemma polled s s' p f : AI s -> active tree s = false -> live (ttr (xs tree s)) p -> woken p (ttr (xs tree s)) = true ->
  run_now tree poll_main f s = Live s' ->
  exists new, ttr (xs tree s') = new ++ ttr (xs tree s) /\ (In (Tree.EPoll p) new \/ ~ live (ttr (xs tree s')) p).
Proof.
  intros A N L WP E. destruct (run_now_app f s s' A N E) as ((I' & _) & (new & EN) & H).
  exists new. split; auto. destruct (H (pending s p A L WP)) as (w1 & E1 & (n1 & G1)).
  destruct (next_poll V X ww debug code WW CO _ _ _ _ p (proj1 A) L WP E1) as (n0 & E0 & [Q|Q]).
  - left. assert (n1 ++ n0 = new). { apply (app_inv_tail (ttr (xs tree s))). rewrite <- EN, G1, E0, app_assoc. reflexivity. }
    subst new. apply in_app_iff; auto.
  - right. intro L'. apply Q. apply (live_back w1 (xs tree s') (ttr (xs tree s)) p I'); auto; [exists n1; auto|exists n0; auto].
Qed.
End Proofs.
