(** Two versions of the same tasks (with and without a part of their state) on the executor of
    Queue.v: if their polls and drops agree, so do whole histories.  Used for C76. *)
From Coq Require Import List Arith Bool Lia.
From Verif Require Import Executor Executor_proofs Queue Spec_queue Queue_proofs.
Import ListNotations.

Section Sim.
Variables Y1 Y2 : Type.
Variable step1 : nat -> Y1 -> Y1 * list (option tact) * outcome.
Variable fin1 : nat -> Y1 -> Y1 * list (option tact).
Variable step2 : nat -> Y2 -> Y2 * list (option tact) * outcome.
Variable fin2 : nat -> Y2 -> Y2 * list (option tact).
Variable pi : Y2 -> Y1.
(** what holds of the state, given which tasks are dropped *)
Variable Rel : (nat -> bool) -> Y2 -> Prop.
Hypothesis REXT : forall G G' y, (forall t, G t = G' t) -> Rel G y -> Rel G' y.
Hypothesis RSTEP : forall G t y, Rel G y -> G t = false -> forall y' l o, step2 t y = (y', l, o) ->
  step1 t (pi y) = (pi y', l, o) /\ (o <> Panics -> Rel G y').
Hypothesis RFIN : forall G t y, Rel G y -> G t = false -> forall y' l, fin2 t y = (y', l) ->
  fin1 t (pi y) = (pi y', l) /\ Rel (fun u => if Nat.eqb u t then true else G u) y'.

(** the queue, without that part of the state *)
Definition fq (q : qu Y2) : qu Y1 := mkQ Y1 (pi (q_x _ q)) (q_run _ q) (q_n _ q) (q_st _ q) (q_asleep _ q) (q_tr _ q).
(** the executor *)
Definition fs (s : ex (qu Y2)) : ex (qu Y1) := mkEx _ (scheduled _ s) (active _ s) (timers _ s) (fq (xs _ s)) (tr _ s).
(** and the outcome of a history *)
Definition fr (r : rres (qu Y2)) : rres (qu Y1) :=
  match r with Live s => Live (fs s) | Crashed s => Crashed (fs s) | Stuck => Stuck end.
(** the task's future was dropped *)
Definition gone (q : qu Y2) (t : nat) : bool := Nat.ltb t (q_n _ q) && t_gone (q_st _ q t).

Lemma tact_sim a q : do_tact Y1 a (fq q) = (fq (fst (do_tact Y2 a q)), snd (do_tact Y2 a q)).
Proof.
  destruct a as [t| |t|]; cbn [do_tact]; auto; cbn [fq Queue.q_n Queue.q_st].
  - destruct (_ && _); auto. destruct (t_run _); reflexivity.
  - destruct (_ && _); auto. destruct (_ || _); reflexivity.
Qed.
Lemma tacts_sim l : forall q, do_tacts Y1 l (fq q) = (fq (fst (do_tacts Y2 l q)), snd (do_tacts Y2 l q)).
Proof.
  induction l as [|[a|] l IH]; intro q; cbn [do_tacts]; auto.
  - rewrite tact_sim. destruct (do_tact Y2 a q) as [q1 a1]. cbn [fst snd]. rewrite IH. destruct (do_tacts Y2 l q1). reflexivity.
  - rewrite IH. destruct (do_tacts Y2 l q). reflexivity.
Qed.
Lemma tact_x a q : q_x Y2 (fst (do_tact Y2 a q)) = q_x Y2 q /\ forall t, gone (fst (do_tact Y2 a q)) t = gone q t.
Proof.
  assert (SET : forall t s q0, t_gone (q_st _ q t) = false -> t_gone s = false ->
    q_n _ q0 = q_n _ q -> q_st _ q0 = q_st _ (q_sets Y2 t s q) -> forall u, gone q0 u = gone q u).
  { intros t s q0 A B E1 E2 u. unfold gone. rewrite E1, E2. cbn. destruct (Nat.eqb_spec u t) as [->|]; auto. rewrite A, B. reflexivity. }
  destruct a as [t| |t|]; cbn [do_tact].
  - destruct (_ && _) eqn:C; cbn [fst]; auto. apply andb_true_iff in C as [C _]. apply andb_true_iff in C as [C _]. apply andb_true_iff in C as [_ C].
    apply negb_true_iff in C. destruct (t_run _); cbn [fst push]; (split; [reflexivity|]; eapply (SET t _ _ C); [|reflexivity|reflexivity]; reflexivity).
  - cbn [fst push]. split; [reflexivity|]. intro u. unfold gone. cbn [Queue.q_n Queue.q_st q_sets]. destruct (Nat.eqb_spec u (q_n _ q)) as [->|N].
    + cbn [t_gone]. rewrite andb_false_r. rewrite Nat.ltb_irrefl. reflexivity.
    + replace (u <? S (q_n _ q)) with (u <? q_n _ q); auto.
      destruct (Nat.ltb_spec u (q_n _ q)), (Nat.ltb_spec u (S (q_n _ q))); auto; lia.
  - destruct (_ && _) eqn:C; cbn [fst]; auto. apply andb_true_iff in C as [C _]. apply andb_true_iff in C as [_ C].
    apply negb_true_iff in C. destruct (_ || _); cbn [fst push]; (split; [reflexivity|]; eapply (SET t _ _ C); [|reflexivity|reflexivity]; reflexivity).
  - auto.
Qed.
Lemma tacts_x2 l : forall q, q_x Y2 (fst (do_tacts Y2 l q)) = q_x Y2 q /\ forall t, gone (fst (do_tacts Y2 l q)) t = gone q t.
Proof.
  induction l as [|[a|] l IH]; intro q; cbn [do_tacts]; auto.
  - destruct (tact_x a q) as [A B]. destruct (do_tact Y2 a q) as [q1 a1]. cbn [fst] in *. destruct (IH q1) as [C D].
    destruct (do_tacts Y2 l q1) as [q2 a2]. cbn [fst] in *. split; [congruence|]. intro t. rewrite D; auto.
  - specialize (IH q). destruct (do_tacts Y2 l q). exact IH.
Qed.
(** the relation holds of the state in the queue *)
Definition RQ (q : qu Y2) : Prop := Rel (gone q) (q_x _ q).
Lemma drop_sim t q : RQ q -> t < q_n _ q -> gone q t = false ->
  drop_fut Y1 fin1 t (fq q) = (fq (fst (drop_fut Y2 fin2 t q)), snd (drop_fut Y2 fin2 t q)) /\ RQ (fst (drop_fut Y2 fin2 t q)).
Proof.
  intros R L G. unfold drop_fut. cbn [fq Queue.q_x]. destruct (fin2 t (q_x _ q)) as [y' l] eqn:F.
  destruct (RFIN _ t _ R G y' l F) as (F1 & R'). rewrite F1.
  set (q1 := q_emit Y2 (QDrop t) (q_sets Y2 t (mkT false false true true) (q_setx Y2 y' q))).
  change (q_emit Y1 (QDrop t) (q_sets Y1 t (mkT false false true true) (q_setx Y1 (pi y') (fq q)))) with (fq q1).
  split; [apply tacts_sim|]. destruct (tacts_x2 l q1) as (A & B). unfold RQ. rewrite A. eapply REXT; [|exact R'].
  intro u. rewrite B. cbn beta. unfold gone, q1. cbn [q_emit q_sets q_setx Queue.q_n Queue.q_st].
  destruct (Nat.eqb_spec u t) as [->|]; [|reflexivity]. cbn [t_gone]. apply Nat.ltb_lt in L. rewrite L. reflexivity.
Qed.
Lemma tacts_n l : forall q, q_n _ q <= q_n _ (fst (do_tacts Y2 l q)).
Proof.
  induction l as [|[a|] l IH]; intro q1; cbn [do_tacts]; auto.
  - assert (K : q_n _ q1 <= q_n _ (fst (do_tact Y2 a q1))).
    { destruct a as [t| |t|]; cbn [do_tact]; auto; try (destruct (_ && _); [|cbn; auto]); try destruct (t_run _); try destruct (_ || _); cbn; auto. }
    destruct (do_tact Y2 a q1) as [q2 a2]. cbn [fst] in K. specialize (IH q2). destruct (do_tacts Y2 l q2). cbn [fst] in *. lia.
  - specialize (IH q1). destruct (do_tacts Y2 l q1). exact IH.
Qed.
Lemma run_one_sim t q q' al p : RQ q -> t < q_n _ q -> t_gone (q_st _ q t) = false ->
  run_one Y2 step2 fin2 t q = (q', al, p) ->
  run_one Y1 step1 fin1 t (fq q) = (fq q', al, p) /\ (p = false -> RQ q').
Proof.
  intros R L GN. assert (G : gone q t = false) by (unfold gone; rewrite GN, andb_false_r; auto).
  unfold run_one. change (q_st Y1 (fq q) t) with (q_st Y2 q t). change (q_x Y1 (fq q)) with (pi (q_x Y2 q)).
  destruct (t_closed (q_st Y2 q t)) eqn:CL.
  - destruct (drop_sim t q R L G) as (D & RD). rewrite D. destruct (drop_fut Y2 fin2 t q) as [q2 a2]. intros [= <- <- <-]. auto.
  - destruct (step2 t (q_x Y2 q)) as [[y' l] o] eqn:S. destruct (RSTEP _ t _ R G y' l o S) as (S1 & R1). rewrite S1.
    set (q1 := q_emit Y2 (QPoll t) (q_sets Y2 t (mkT false true false false) (q_setx Y2 y' q))).
    change (q_emit Y1 (QPoll t) (q_sets Y1 t (mkT false true false false) (q_setx Y1 (pi y') (fq q)))) with (fq q1).
    rewrite tacts_sim. destruct (tacts_x2 l q1) as (A & B).
    pose proof (tacts_n l q1) as NL.
    destruct (do_tacts Y2 l q1) as [q2 a2]. cbn [fst snd] in *.
    assert (GE : forall u, gone q2 u = gone q u).
    { intro u. rewrite B. unfold gone, q1. cbn [q_emit q_sets q_setx Queue.q_n Queue.q_st]. destruct (Nat.eqb_spec u t) as [->|]; cbn; auto.
      rewrite GN, andb_false_r. auto. }
    assert (L2 : t < q_n _ q2) by (cbn in NL; lia).
    assert (R2 : o <> Panics -> RQ q2).
    { intro NP. unfold RQ. rewrite A. cbn [q1 q_emit q_sets q_setx Queue.q_x]. eapply REXT; [|exact (R1 NP)]. intro u. rewrite GE. auto. }
    assert (D : o <> Panics -> drop_fut Y1 fin1 t (q_emit Y1 (QEnd t) (fq q2)) =
        (fq (fst (drop_fut Y2 fin2 t (q_emit Y2 (QEnd t) q2))), snd (drop_fut Y2 fin2 t (q_emit Y2 (QEnd t) q2))) /\
        RQ (fst (drop_fut Y2 fin2 t (q_emit Y2 (QEnd t) q2)))).
    { intro NP. change (q_emit Y1 (QEnd t) (fq q2)) with (fq (q_emit Y2 (QEnd t) q2)). apply drop_sim; [exact (R2 NP)|exact L2|].
      change (gone q2 t = false). rewrite GE. exact G. }
    change (q_st Y1 (fq q2) t) with (q_st Y2 q2 t).
    destruct o.
    + destruct (t_closed (q_st Y2 q2 t)).
      * destruct D as (D & RD); [discriminate|]. rewrite D. destruct (drop_fut Y2 fin2 t (q_emit Y2 (QEnd t) q2)) as [q3 a3]. cbn [fst snd] in *. intros [= <- <- <-]. auto.
      * assert (R3 : RQ (q_emit Y2 (QEnd t) (q_sets Y2 t (mkT (t_sched (q_st Y2 q2 t)) false false false) q2))).
        { unfold RQ. eapply REXT; [|apply R2; discriminate]. intro u. unfold gone at 2. cbn [q_emit q_sets Queue.q_n Queue.q_st].
          destruct (Nat.eqb_spec u t) as [->|]; cbn [t_gone]; [|reflexivity]. rewrite andb_false_r, GE. exact G. }
        destruct (t_sched (q_st Y2 q2 t)); cbn [push]; intros [= <- <- <-]; (split; [reflexivity|]); intros _; exact R3.
    + destruct D as (D & RD); [discriminate|]. rewrite D. destruct (drop_fut Y2 fin2 t (q_emit Y2 (QEnd t) q2)) as [q3 a3]. cbn [fst snd] in *. intros [= <- <- <-]. auto.
    + intros [= <- <- <-]. split; [reflexivity|discriminate].
Qed.
Lemma batch_sim n : forall q q' al p, QI Y2 None q -> RQ q -> batch Y2 step2 fin2 n q = (q', al, p) ->
  batch Y1 step1 fin1 n (fq q) = (fq q', al, p) /\ (p = false -> RQ q').
Proof.
  induction n as [|n IH]; intros q q' al p I R; cbn [batch]; [intros [= <- <- <-]; auto|].
  change (q_run Y1 (fq q)) with (q_run Y2 q). destruct (q_run Y2 q) as [|t r] eqn:E.
  - intros [= <- <- <-]. split; [reflexivity|]. intros _. exact R.
  - destruct (head_facts Y2 step2 fin2 q t r I E) as (L & GN & _).
    destruct (run_one Y2 step2 fin2 t _) as [[q1 a1] p1] eqn:R1.
    destruct (run_one_sim t (mkQ Y2 (q_x Y2 q) r (q_n Y2 q) (q_st Y2 q) false (q_tr Y2 q)) q1 a1 p1 R L GN R1) as (S1 & RR).
    change (mkQ Y1 (q_x Y1 (fq q)) r (q_n Y1 (fq q)) (q_st Y1 (fq q)) false (q_tr Y1 (fq q)))
      with (fq (mkQ Y2 (q_x Y2 q) r (q_n Y2 q) (q_st Y2 q) false (q_tr Y2 q))). rewrite S1.
    destruct p1; [intros [= <- <- <-]; split; [reflexivity|discriminate]|].
    destruct (run_one_qi Y2 step2 fin2 q t r q1 a1 false I E R1) as (I1 & _).
    destruct (batch Y2 step2 fin2 n q1) as [[q2 a2] p2] eqn:B. destruct (IH q1 q2 a2 p2 (I1 eq_refl) (RR eq_refl) B) as (B1 & R2).
    rewrite B1. intros [= <- <- <-]. auto.
Qed.

(** the invariant of a history *)
Definition OKR (r : rres (qu Y2)) : Prop :=
  match r with Live s => OI Y2 s /\ RQ (xs _ s) | Crashed s => active _ s = true /\ exists c, QI Y2 c (xs _ s) | Stuck => True end.
Notation m1 := (main_poll Y1 step1 fin1). Notation m2 := (main_poll Y2 step2 fin2).
Lemma acts_fs l : forall s, fold_left (do_act (qu Y1)) l (fs s) = fs (fold_left (do_act (qu Y2)) l s).
Proof.
  induction l as [|a l IH]; intro s; cbn [fold_left]; auto. rewrite <- IH. f_equal. destruct a; cbn [do_act]; [|reflexivity].
  unfold schedule. cbn [fs scheduled active timers xs tr]. destruct (_ && _); reflexivity.
Qed.
Lemma acts_keep l : forall s : ex (qu Y2), xs _ (fold_left (do_act (qu Y2)) l s) = xs _ s.
Proof.
  induction l as [|a l IH]; intro s; cbn [fold_left]; auto. rewrite IH. destruct a; cbn [do_act]; auto. unfold schedule. destruct (_ && _); reflexivity.
Qed.
Lemma loop_sim f : forall s, OI Y2 s -> RQ (xs _ s) -> run_loop (qu Y1) m1 f (fs s) = fr (run_loop (qu Y2) m2 f s) /\
  (forall s', run_loop (qu Y2) m2 f s = Live s' -> RQ (xs _ s')).
Proof.
  induction f as [|f IH]; intros s [I A] R; cbn [run_loop]; [split; [reflexivity|discriminate]|].
  cbn [fs scheduled active timers xs tr]. destruct (scheduled (qu Y2) s) eqn:SC; [|split; [reflexivity|intros s' [= <-]; exact R]].
  cbn [xs scheduled active timers tr]. destruct (m2 (xs (qu Y2) s)) as [[x acts] p] eqn:M. unfold main_poll in M.
  destruct (batch_sim 200 _ _ _ _ I R M) as (B & RR). destruct (batch_qi Y2 step2 fin2 200 _ _ _ _ I M) as (QQ & _).
  unfold main_poll at 1 2. rewrite B.
  change (mkEx (qu Y1) false (active (qu Y2) s) (timers (qu Y2) s) (fq x) (EPoll :: tr (qu Y2) s))
    with (fs (mkEx (qu Y2) false (active (qu Y2) s) (timers (qu Y2) s) x (EPoll :: tr (qu Y2) s))).
  rewrite acts_fs. destruct p; [split; [reflexivity|discriminate]|].
  set (s2 := fold_left (do_act (qu Y2)) acts _). change (Executor.emit (qu Y1) EEnd (fs s2)) with (fs (Executor.emit (qu Y2) EEnd s2)).
  destruct (QQ eq_refl) as (Q1 & Q2). apply IH.
  - split; cbn [Executor.emit xs]; unfold s2; rewrite acts_keep; cbn [xs]; [exact Q1|].
    intro Z. left. cbn [Executor.emit scheduled]. apply (acts_sched Y2). destruct Q2 as [Q2|Q2]; [congruence|auto].
  - cbn [Executor.emit xs]. unfold s2. rewrite acts_keep. exact (RR eq_refl).
Qed.
Lemma run_now_sim f s : OI Y2 s -> RQ (xs _ s) -> run_now (qu Y1) m1 f (fs s) = fr (run_now (qu Y2) m2 f s) /\
  (forall s', run_now (qu Y2) m2 f s = Live s' -> RQ (xs _ s')).
Proof.
  intros [I A] R. unfold run_now. change (active (qu Y1) (fs s)) with (active (qu Y2) s). destruct (active (qu Y2) s).
  - split; [reflexivity|]. intros s' [= <-]. exact R.
  - change (mkEx (qu Y1) (scheduled (qu Y1) (fs s)) true (timers (qu Y1) (fs s)) (xs (qu Y1) (fs s)) (ERun :: tr (qu Y1) (fs s)))
      with (fs (mkEx (qu Y2) (scheduled (qu Y2) s) true (timers (qu Y2) s) (xs (qu Y2) s) (ERun :: tr (qu Y2) s))).
    apply loop_sim; [|exact R]. split; cbn; auto. intro Q. destruct (A Q) as [Z|Z]; auto. right. intros [E|E]; [discriminate|auto].
Qed.

Lemma now_crashed f s s' : run_now (qu Y2) m2 f s = Crashed s' -> active _ s' = true.
Proof. intro H. apply (exec1_crashed (qu Y2) m2 (SRun (qu Y2) f) s s' H). Qed.

(** the same thing happening from outside *)
Definition alike (y : Y2) (e1 : xev Y1) (e2 : xev Y2) : Prop :=
  match e1, e2 with
  | XDo a, XDo b => a = b
  | XEnv f1, XEnv f2 => f1 (pi y) = pi (f2 y) /\ forall G, Rel G y -> Rel G (f2 y)
  | XFire f, XFire g | XRun f, XRun g => f = g
  | _, _ => False
  end.
Lemma swakes_sim (l : list act) : forall r, fold_left (exec (qu Y1) m1) (map (fun _ => SWake (qu Y1)) l) (fr r) =
  fr (fold_left (exec (qu Y2) m2) (map (fun _ => SWake (qu Y2)) l) r).
Proof.
  induction l as [|a l IH]; intro r; cbn [map fold_left]; auto. rewrite <- IH. f_equal.
  assert (K : forall s, schedule (qu Y1) (fs s) = fs (schedule (qu Y2) s)).
  { intro s. unfold schedule. cbn [fs scheduled active timers xs tr]. destruct (_ && _); reflexivity. }
  destruct r as [s|s|]; cbn [fr exec exec1]; rewrite ?K; reflexivity.
Qed.
Lemma xexec_sim r e1 e2 : OKR r -> (forall s, r = Live s \/ r = Crashed s -> alike (q_x _ (xs _ s)) e1 e2) ->
  xexec Y1 step1 fin1 (fr r) e1 = fr (xexec Y2 step2 fin2 r e2) /\ OKR (xexec Y2 step2 fin2 r e2).
Proof.
  intros O AL. destruct r as [s|s|]; [| |split; [reflexivity|exact Logic.I]].
  - specialize (AL s (or_introl eq_refl)). destruct O as (OI2 & R).
    assert (OUT : xexec Y1 step1 fin1 (fr (Live s)) e1 = fr (xexec Y2 step2 fin2 (Live s) e2) /\
       (forall s', xexec Y2 step2 fin2 (Live s) e2 = Live s' -> RQ (xs _ s')) /\
       (forall s', xexec Y2 step2 fin2 (Live s) e2 = Crashed s' -> active _ s' = true)).
    { destruct e1 as [a|f1|f|f], e2 as [a2|f2|f'|f']; cbn [alike] in AL; try contradiction; cbn [fr xexec events xs fs].
      - subst a2. rewrite tact_sim. destruct (tact_x a (xs _ s)) as (T1 & T2). destruct (do_tact Y2 a (xs (qu Y2) s)) as [q' al]. cbn [fst snd fold_left exec exec1] in *.
        destruct (swakes_facts Y2 step2 fin2 al (mkEx (qu Y2) (scheduled (qu Y2) s) (active (qu Y2) s) (timers (qu Y2) s) q' (tr (qu Y2) s))) as (s1 & E & E2 & _).
        change (Live (mkEx (qu Y1) (scheduled (qu Y1) (fs s)) (active (qu Y1) (fs s)) (timers (qu Y1) (fs s)) (fq q') (tr (qu Y1) (fs s))))
          with (fr (Live (mkEx (qu Y2) (scheduled (qu Y2) s) (active (qu Y2) s) (timers (qu Y2) s) q' (tr (qu Y2) s)))).
        rewrite swakes_sim, E. split; [reflexivity|]. split; [|discriminate]. intros s' [= <-]. rewrite E2. cbn [xs]. unfold RQ. rewrite T1.
        eapply REXT; [|exact R]. intro t. symmetry. apply T2.
      - destruct AL as (AL1 & AL2). cbn [fold_left exec exec1]. split; [|split; [|discriminate]].
        + unfold fs. cbn [scheduled active timers xs tr]. unfold fq, q_setx. cbn [Queue.q_x Queue.q_run Queue.q_n Queue.q_st Queue.q_asleep Queue.q_tr]. rewrite AL1. reflexivity.
        + intros s' [= <-]. cbn [xs]. apply (AL2 _ R).
      - subst f'. cbn [fold_left exec exec1]. change (timers (qu Y1) (fs s)) with (timers (qu Y2) s). destruct (timers (qu Y2) s) as [|n].
        + split; [reflexivity|]. split; [intros s' [= <-]; exact R|discriminate].
        + change (mkEx (qu Y1) (scheduled (qu Y1) (fs s)) (active (qu Y1) (fs s)) n (xs (qu Y1) (fs s)) (tr (qu Y1) (fs s)))
            with (fs (mkEx (qu Y2) (scheduled (qu Y2) s) (active (qu Y2) s) n (xs (qu Y2) s) (tr (qu Y2) s))).
          destruct (run_now_sim f (mkEx (qu Y2) (scheduled (qu Y2) s) (active (qu Y2) s) n (xs (qu Y2) s) (tr (qu Y2) s)) OI2 R) as (A & B).
          split; [exact A|]. split; [exact B|]. intros s' H. apply (now_crashed _ _ _ H).
      - subst f'. cbn [fold_left exec exec1]. destruct (run_now_sim f s OI2 R) as (A & B).
        split; [exact A|]. split; [exact B|]. intros s' H. apply (now_crashed _ _ _ H). }
    destruct OUT as (A & B & C). split; [exact A|]. destruct (xexec_oi Y2 step2 fin2 s e2 OI2) as (D & E).
    destruct (xexec Y2 step2 fin2 (Live s) e2) as [s'|s'|]; cbn [OKR]; auto.
  - specialize (AL s (or_intror eq_refl)). destruct O as (AC & Q).
    destruct (xexec_crashed Y2 step2 fin2 s e2 Q AC) as (s' & E & Q').
    destruct e1 as [a|f1|f|f], e2 as [a2|f2|f'|f']; cbn [alike] in AL; try contradiction; rewrite E; cbn [fr xexec events xs fs OKR] in *.
    + subst a2. rewrite tact_sim. destruct (do_tact Y2 a (xs (qu Y2) s)) as [q' al]. cbn [fst snd fold_left exec exec1] in *.
      change (Crashed (mkEx (qu Y1) (scheduled (qu Y1) (fs s)) (active (qu Y1) (fs s)) (timers (qu Y1) (fs s)) (fq q') (tr (qu Y1) (fs s))))
        with (fr (Crashed (mkEx (qu Y2) (scheduled (qu Y2) s) (active (qu Y2) s) (timers (qu Y2) s) q' (tr (qu Y2) s)))).
      rewrite swakes_sim, E. split; [reflexivity|]. split; auto. clear - E AC. revert E. generalize q'. clear q'.
      assert (K : forall r, (forall s0, r = Crashed s0 -> active _ s0 = true) -> forall s0, fold_left (exec (qu Y2) m2) (map (fun _ => SWake (qu Y2)) al) r = Crashed s0 -> active _ s0 = true).
      { induction al as [|b al IH]; intros r H s0; cbn [map fold_left]; [apply H|]. apply IH. intros s1. destruct r as [s2|s2|]; cbn [exec exec1]; try discriminate.
        intros [= <-]. unfold schedule. destruct (_ && _); cbn; apply H; auto. }
      intros q' E. eapply K; [|exact E]. intros s0 [= <-]. exact AC.
    + destruct AL as (AL1 & _). cbn [fold_left exec exec1] in *. injection E as <-. split; [|split; auto].
      unfold fs. cbn [scheduled active timers xs tr]. unfold fq, q_setx. cbn [Queue.q_x Queue.q_run Queue.q_n Queue.q_st Queue.q_asleep Queue.q_tr]. rewrite AL1. reflexivity.
    + subst f'. cbn [fold_left exec exec1] in *. change (timers (qu Y1) (fs s)) with (timers (qu Y2) s). destruct (timers (qu Y2) s) as [|n].
      * injection E as <-. split; [reflexivity|]. auto.
      * unfold run_now in *. cbn [active] in *. change (active (qu Y1) (fs s)) with (active (qu Y2) s). rewrite AC in *. injection E as <-. split; [reflexivity|]. split; auto.
    + subst f'. cbn [fold_left exec exec1] in *. unfold run_now in *. change (active (qu Y1) (fs s)) with (active (qu Y2) s). rewrite AC in *. injection E as <-. split; [reflexivity|]. split; auto.
Qed.
End Sim.
