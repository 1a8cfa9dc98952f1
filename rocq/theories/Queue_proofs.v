(** Proofs for C60 and C61. *)
From Coq Require Import List Arith Bool Lia.
From Verif Require Import Util Executor Spec_executor Executor_proofs Queue Spec_queue.
Import ListNotations.

(** the tasks polled since [t] is owed attention *)
Fixpoint since (t : nat) (tr : list qev) : list nat :=
  match tr with
  | [] => []
  | e :: r => if owed t r then match e with QPoll u => u :: since t r | _ => since t r end else []
  end.

(** at all times no task was polled twice since another is owed attention *)
Fixpoint fair (tr : list qev) : Prop :=
  (forall t, owed t tr = true -> NoDup (since t tr)) /\ match tr with [] => True | _ :: r => fair r end.
Lemma fair_top tr : fair tr -> forall t, owed t tr = true -> NoDup (since t tr).
Proof. destruct tr; cbn [fair]; tauto. Qed.
Lemma fair_cons e r : (forall t, owed t (e :: r) = true -> NoDup (since t (e :: r))) -> fair r -> fair (e :: r).
Proof. cbn [fair]. auto. Qed.

Section Proofs.
Variable X : Type.
Variable step : nat -> X -> X * list (option tact) * outcome.
Variable fin : nat -> X -> X * list (option tact).
Notation qu := (qu X).
Notation q_run := (q_run X). Notation q_n := (q_n X). Notation q_st := (q_st X).
Notation q_asleep := (q_asleep X). Notation q_tr := (q_tr X). Notation q_x := (q_x X).

(** [cur]: the task being polled *)
Record QI (cur : option nat) (q : qu) : Prop := {
  qi_nodup : NoDup (q_run q);
  qi_in : forall t, In t (q_run q) <->
    t < q_n q /\ t_gone (q_st q t) = false /\ t_sched (q_st q t) = true /\ t_run (q_st q t) = false;
  qi_run : forall t, t_run (q_st q t) = true <-> cur = Some t;
  qi_cur : forall t, cur = Some t -> t < q_n q /\ t_gone (q_st q t) = false;
  qi_closed : forall t, t < q_n q -> t_gone (q_st q t) = false -> t_closed (q_st q t) = true ->
    t_sched (q_st q t) = true \/ t_run (q_st q t) = true;
  qi_alive : forall t, alive t (q_tr q) = (t <? q_n q) && negb (t_gone (q_st q t));
  qi_canc : forall t, t < q_n q -> t_gone (q_st q t) = false -> cancelled t (q_tr q) = t_closed (q_st q t);
  qi_canc0 : forall t, q_n q <= t -> cancelled t (q_tr q) = false;
  qi_owed : forall t, owed t (q_tr q) =
    (t <? q_n q) && negb (t_gone (q_st q t)) && (t_sched (q_st q t) || t_closed (q_st q t));
  qi_poll : being_polled (q_tr q) = cur;
  qi_asleep : q_asleep q = true -> q_run q = [];
  qi_legal : legal (q_tr q);
  qi_spawn : forall t, In (QSpawn t) (q_tr q) <-> t < q_n q;
  qi_fair : fair (q_tr q);
  qi_fair2 : forall t l1 l2 u, owed t (q_tr q) = true -> q_run q = l1 ++ t :: l2 -> In u l1 -> ~ In u (since t (q_tr q));
  qi_fair3 : forall t, owed t (q_tr q) = true -> cur = Some t -> since t (q_tr q) = [] }.

Lemma start_qi x : QI None (q_start X x).
Proof.
  constructor; cbn; intros; auto; try discriminate; try tauto; try constructor; try lia; try discriminate; intros; discriminate.
Qed.

Lemma split_snoc (l l1 l2 : list nat) t v : l ++ [v] = l1 ++ t :: l2 ->
  (exists l2', l = l1 ++ t :: l2') \/ (t = v /\ l1 = l).
Proof.
  intro E. destruct (@exists_last _ (t :: l2)) as (m & z & EZ); [discriminate|]. rewrite EZ, app_assoc in E.
  apply app_inj_tail in E as [E ->]. destruct m as [|a m].
  - cbn in EZ. injection EZ as -> ->. right. rewrite app_nil_r in E. auto.
  - cbn in EZ. injection EZ as <- EZ. left. exists m. auto.
Qed.

Ltac eqs := repeat match goal with
  | |- context [Nat.eqb ?a ?b] => destruct (Nat.eqb_spec a b); try subst; cbn [negb andb orb]
  | H : context [Nat.eqb ?a ?b] |- _ => destruct (Nat.eqb_spec a b); try subst; cbn [negb andb orb] in H
  end.

(** a wake-up that changes nothing *)
Lemma wake_noop cur q t : QI cur q ->
  (t <? q_n q) && negb (t_gone (q_st q t)) && negb (t_closed (q_st q t)) && negb (t_sched (q_st q t)) = false ->
  QI cur (q_emit X (QWake t) q).
Proof.
  intros I N. assert (O : forall u, owed u (QWake t :: q_tr q) = owed u (q_tr q)).
  { intro u. cbn [owed]. destruct (Nat.eqb_spec t u) as [<-|]; [|reflexivity]. cbn [andb].
    rewrite (qi_alive _ _ I), (qi_owed _ _ I). destruct (_ <? _), (t_gone _), (t_closed _), (t_sched _); auto. }
  assert (Z : forall u, owed u (q_tr q) = true -> since u (QWake t :: q_tr q) = since u (q_tr q)).
  { intros u E. cbn [since]. rewrite E. reflexivity. }
  destruct I. constructor; unfold q_emit; cbn [Queue.q_run Queue.q_n Queue.q_st Queue.q_asleep Queue.q_tr]; auto.
  - intro u. rewrite O. auto.
  - cbn. auto.
  - intros u. cbn [In]. rewrite <- qi_spawn0. split; [intros [Q|Q]; [discriminate|auto]|auto].
  - apply fair_cons; [|auto]. intros u Q. rewrite O in Q. rewrite Z by auto. apply fair_top; auto.
  - intros u l1 l2 v Q. rewrite O in Q. rewrite Z by auto. eauto.
  - intros u Q. rewrite O in Q. rewrite Z by auto. auto.
Qed.
Lemma cancel_noop cur q t : QI cur q ->
  (t <? q_n q) && negb (t_gone (q_st q t)) && negb (t_closed (q_st q t)) = false ->
  QI cur (q_emit X (QCancel t) q).
Proof.
  intros I N. assert (O : forall u, owed u (QCancel t :: q_tr q) = owed u (q_tr q)).
  { intro u. cbn [owed]. destruct (Nat.eqb_spec t u) as [<-|]; [|reflexivity]. cbn [andb].
    rewrite (qi_alive _ _ I), (qi_owed _ _ I). destruct (_ <? _), (t_gone _), (t_closed _), (t_sched _); auto. }
  assert (Z : forall u, owed u (q_tr q) = true -> since u (QCancel t :: q_tr q) = since u (q_tr q)).
  { intros u E. cbn [since]. rewrite E. reflexivity. }
  assert (C : forall u, u < q_n q -> t_gone (q_st q u) = false -> cancelled u (QCancel t :: q_tr q) = cancelled u (q_tr q)).
  { intros u L G. cbn [cancelled]. destruct (Nat.eqb_spec t u) as [<-|]; [|reflexivity]. cbn [andb].
    rewrite (qi_alive _ _ I), (qi_canc _ _ I), G by auto. rewrite G in N. apply Nat.ltb_lt in L. rewrite L in *.
    destruct (t_closed _); auto. }
  assert (C0 : forall u, q_n q <= u -> cancelled u (QCancel t :: q_tr q) = false).
  { intros u L. cbn [cancelled]. rewrite (qi_alive _ _ I), (qi_canc0 _ _ I) by auto. apply Nat.ltb_ge in L. rewrite L.
    cbn. now rewrite andb_false_r. }
  destruct I. constructor; unfold q_emit; cbn [Queue.q_run Queue.q_n Queue.q_st Queue.q_asleep Queue.q_tr]; auto.
  - intros u L G. rewrite C; auto.
  - intro u. rewrite O. auto.
  - cbn. auto.
  - intros u. cbn [In]. rewrite <- qi_spawn0. split; [intros [Q|Q]; [discriminate|auto]|auto].
  - apply fair_cons; [|auto]. intros u Q. rewrite O in Q. rewrite Z by auto. apply fair_top; auto.
  - intros u l1 l2 v Q. rewrite O in Q. rewrite Z by auto. eauto.
  - intros u Q. rewrite O in Q. rewrite Z by auto. auto.
Qed.

(** a task gets (more) attention: [e] is its wake-up or cancellation; [p]: it is queued *)
Lemma touch cur q t e s' p :
  QI cur q -> t < q_n q -> t_gone (q_st q t) = false -> t_closed (q_st q t) = false ->
  (e = QWake t /\ t_closed s' = false \/ e = QCancel t /\ t_closed s' = true) ->
  t_gone s' = false -> t_run s' = t_run (q_st q t) -> t_sched s' || t_closed s' = true ->
  (t_sched s' = true \/ t_run s' = true) ->
  (p = true -> t_sched (q_st q t) = false /\ t_run (q_st q t) = false /\ t_sched s' = true) ->
  (p = false -> t_sched s' = t_sched (q_st q t) \/ t_run (q_st q t) = true) ->
  QI cur (mkQ X (q_x q) (if p then q_run q ++ [t] else q_run q) (q_n q)
             (fun u => if Nat.eqb u t then s' else q_st q u) (if p then false else q_asleep q) (e :: q_tr q)).
Proof.
  intros I LT G C E G' R' O' C' P1 P2.
  assert (AL : alive t (q_tr q) = true). { rewrite (qi_alive _ _ I), G. apply Nat.ltb_lt in LT. now rewrite LT. }
  assert (A : forall u, alive u (e :: q_tr q) = alive u (q_tr q)) by (intro u; destruct E as [[-> _]|[-> _]]; reflexivity).
  assert (O : forall u, owed u (e :: q_tr q) = Nat.eqb t u || owed u (q_tr q)).
  { intro u. destruct E as [[-> _]|[-> _]]; cbn [owed]; destruct (Nat.eqb_spec t u) as [<-|]; cbn [andb orb]; auto; now rewrite AL. }
  assert (K : forall u, cancelled u (e :: q_tr q) = (match e with QCancel _ => Nat.eqb t u | _ => false end) || cancelled u (q_tr q)).
  { intro u. destruct E as [[-> _]|[-> _]]; cbn [cancelled]; auto. destruct (Nat.eqb_spec t u) as [<-|]; cbn [andb orb]; auto; now rewrite AL. }
  assert (NS : ~ (exists u, e = QSpawn u)) by (destruct E as [[-> _]|[-> _]]; intros (u & Q); discriminate).
  assert (NP : forall u, since u (e :: q_tr q) = if owed u (q_tr q) then since u (q_tr q) else []).
  { intro u. cbn [since]. destruct E as [[-> _]|[-> _]]; reflexivity. }
  assert (IN : In t (q_run q) -> p = false).
  { intro Q. apply (qi_in _ _ I) in Q. destruct p; auto. destruct (P1 eq_refl) as (Z & _). destruct Q as (_ & _ & Q & _). congruence. }
  constructor; cbn [Queue.q_run Queue.q_n Queue.q_st Queue.q_asleep Queue.q_tr Queue.q_x].
  - destruct p; [|apply I]. apply nodup_app_intro; [apply I|repeat constructor; auto|].
    intros u Q [<-|[]]. discriminate (IN Q).
  - intro u. destruct (Nat.eqb_spec u t) as [->|NE].
    + destruct p.
      * destruct (P1 eq_refl) as (Z1 & Z2 & Z3). rewrite in_app_iff. cbn. rewrite G', Z3, R', Z2. intuition.
      * rewrite (qi_in _ _ I), G, G', R'. destruct (P2 eq_refl) as [->|Q]; [tauto|]. rewrite Q. intuition discriminate.
    + rewrite <- (qi_in _ _ I). destruct p; [|tauto]. rewrite in_app_iff. cbn. intuition congruence.
  - intro u. destruct (Nat.eqb_spec u t) as [->|NE]; [rewrite R'|]; apply I.
  - intros u Q. destruct (qi_cur _ _ I u Q). destruct (Nat.eqb_spec u t) as [->|NE]; auto.
  - intros u. destruct (Nat.eqb_spec u t) as [->|NE]; [auto|apply I].
  - intro u. rewrite A, (qi_alive _ _ I). destruct (Nat.eqb_spec u t) as [->|NE]; auto. now rewrite G, G'.
  - intros u L Q. rewrite K. destruct (Nat.eqb_spec u t) as [->|NE].
    + rewrite (qi_canc _ _ I) by auto. rewrite C, Nat.eqb_refl, orb_false_r. destruct E as [[-> ->]|[-> ->]]; reflexivity.
    + rewrite (qi_canc _ _ I) by auto. destruct (Nat.eqb_spec t u); [congruence|]. destruct e; reflexivity.
  - intros u L. rewrite K, (qi_canc0 _ _ I) by auto. rewrite orb_false_r. destruct e; auto.
    destruct (Nat.eqb_spec t u); auto. lia.
  - intro u. rewrite O, (qi_owed _ _ I). rewrite (Nat.eqb_sym t u). destruct (Nat.eqb_spec u t) as [->|NE]; cbn [orb]; auto.
    rewrite G', O'. apply Nat.ltb_lt in LT. rewrite LT. reflexivity.
  - destruct E as [[-> _]|[-> _]]; apply I.
  - destruct p; [discriminate|apply I].
  - cbn [legal]. split; [destruct E as [[-> _]|[-> _]]; exact Logic.I|apply I].
  - intros u. cbn [In]. rewrite <- (qi_spawn _ _ I u). split; [intros [Q|Q]; [destruct NS; eauto|auto]|auto].
  - apply fair_cons; [|exact (qi_fair _ _ I)]. intros u Q. rewrite NP. destruct (owed u (q_tr q)) eqn:Z; [exact (fair_top _ (qi_fair _ _ I) u Z)|constructor].
  - intros u l1 l2 v Q D V. rewrite NP. destruct (owed u (q_tr q)) eqn:Z; [|intros []].
    destruct p; [|eapply (qi_fair2 _ _ I); eauto].
    apply split_snoc in D as [(l2' & D)|[-> ->]]; [eapply (qi_fair2 _ _ I); eauto|].
    exfalso. rewrite (qi_owed _ _ I), G, C in Z. destruct (P1 eq_refl) as (Z1 & _). rewrite Z1 in Z. cbn in Z. rewrite andb_false_r in Z. discriminate.
  - intros u Q CU. rewrite NP. destruct (owed u (q_tr q)) eqn:Z; [|reflexivity]. apply (qi_fair3 _ _ I); auto.
Qed.

Lemma spawn_qi cur q : QI cur q -> QI cur (fst (do_tact X TSpawn q)).
Proof.
  intro I. cbn [do_tact push fst]. set (t := q_n q).
  assert (AL : alive t (q_tr q) = false). { rewrite (qi_alive _ _ I). unfold t. now rewrite Nat.ltb_irrefl. }
  assert (OW : owed t (q_tr q) = false). { rewrite (qi_owed _ _ I). unfold t. now rewrite Nat.ltb_irrefl. }
  assert (NP : forall u, since u (QSpawn t :: q_tr q) = if owed u (q_tr q) then since u (q_tr q) else []) by reflexivity.
  assert (NR : ~ In t (q_run q)). { intro Q. apply (qi_in _ _ I) in Q. unfold t in Q. lia. }
  unfold q_sets. constructor; cbn [Queue.q_run Queue.q_n Queue.q_st Queue.q_asleep Queue.q_tr Queue.q_x].
  - apply nodup_app_intro; [apply I|repeat constructor; auto|]. intros u Q [<-|[]]. auto.
  - intro u. rewrite in_app_iff, (qi_in _ _ I). cbn. destruct (Nat.eqb_spec u t) as [->|NE].
    + unfold t. cbn. intuition.
    + split; [intros [(A & B)|[Q|[]]]; [split; [lia|auto]|congruence]|]. intros (A & B). left. split; [unfold t in *; lia|auto].
  - intro u. destruct (Nat.eqb_spec u t) as [->|NE]; [|apply I]. cbn. split; [discriminate|]. intro Q.
    destruct (qi_cur _ _ I t Q). unfold t in *. lia.
  - intros u Q. destruct (qi_cur _ _ I u Q). destruct (Nat.eqb_spec u t) as [->|NE]; split; auto.
  - intros u L. destruct (Nat.eqb_spec u t) as [->|NE]; [auto|]. apply I. unfold t in *; lia.
  - intro u. cbn [alive]. rewrite (qi_alive _ _ I). rewrite (Nat.eqb_sym t u). destruct (Nat.eqb_spec u t) as [->|NE]; cbn [orb].
    + assert (t <? S t = true) as -> by (apply Nat.ltb_lt; lia). reflexivity.
    + destruct (Nat.ltb_spec u (q_n q)), (Nat.ltb_spec u (S t)); unfold t in *; auto; lia.
  - intros u L Q. cbn [cancelled]. destruct (Nat.eqb_spec u t) as [->|NE].
    + cbn. rewrite (qi_canc0 _ _ I); auto.
    + apply I; auto. unfold t in *; lia.
  - intros u L. cbn [cancelled]. apply I. unfold t in *; lia.
  - intro u. cbn [owed]. rewrite (qi_owed _ _ I). rewrite (Nat.eqb_sym t u). destruct (Nat.eqb_spec u t) as [->|NE]; cbn [orb].
    + assert (t <? S t = true) as -> by (apply Nat.ltb_lt; lia). reflexivity.
    + destruct (Nat.ltb_spec u (q_n q)), (Nat.ltb_spec u (S t)); unfold t in *; auto; lia.
  - apply I.
  - discriminate.
  - cbn [legal ev_ok]. split; [|apply I]. intro Q. apply (qi_spawn _ _ I) in Q. unfold t in Q. lia.
  - intros u. cbn [In]. split.
    + intros [Q|Q]; [injection Q as <-; lia|]. apply (qi_spawn _ _ I) in Q. unfold t. lia.
    + intro Q. destruct (Nat.eq_dec t u) as [->|N]; auto. right. apply (qi_spawn _ _ I). unfold t in *. lia.
  - apply fair_cons; [|exact (qi_fair _ _ I)]. intros u Q. rewrite NP. destruct (owed u (q_tr q)) eqn:Z; [exact (fair_top _ (qi_fair _ _ I) u Z)|constructor].
  - intros u l1 l2 v Q D V. rewrite NP. destruct (owed u (q_tr q)) eqn:Z; [|intros []].
    apply split_snoc in D as [(l2' & D)|[-> ->]]; [eapply (qi_fair2 _ _ I); eauto|]. congruence.
  - intros u Q CU. rewrite NP. destruct (owed u (q_tr q)) eqn:Z; [|reflexivity]. apply (qi_fair3 _ _ I); auto.
Qed.

Lemma do_tact_qi cur q a : QI cur q -> QI cur (fst (do_tact X a q)).
Proof.
  intro I. destruct a as [t| |t|]; [|apply spawn_qi, I| |exact I].
  - cbn [do_tact]. destruct (_ && negb (t_sched _)) eqn:B; [|apply wake_noop; auto].
    apply andb_true_iff in B as [B B4]. apply andb_true_iff in B as [B B3]. apply andb_true_iff in B as [B1 B2].
    apply Nat.ltb_lt in B1. apply negb_true_iff in B2, B3, B4.
    pose proof (touch cur q t (QWake t) (mkT true (t_run (q_st q t)) false false) (negb (t_run (q_st q t))) I B1 B2 B3) as K.
    cbn [t_sched t_run t_closed t_gone] in K.
    destruct (t_run (q_st q t)) eqn:R; cbn [fst push q_sets q_emit negb] in *; apply K; auto; try discriminate.
  - cbn [do_tact]. destruct (_ && negb (t_closed _)) eqn:B; [|apply cancel_noop; auto].
    apply andb_true_iff in B as [B B3]. apply andb_true_iff in B as [B1 B2].
    apply Nat.ltb_lt in B1. apply negb_true_iff in B2, B3.
    destruct (t_sched (q_st q t) || t_run (q_st q t)) eqn:SR.
    + apply (touch cur q t (QCancel t) (mkT (t_sched (q_st q t)) (t_run (q_st q t)) true false) false); cbn; auto; try discriminate.
      * apply orb_true_r.
      * apply orb_true_iff in SR. exact SR.
    + apply orb_false_iff in SR as [S1 S2].
      apply (touch cur q t (QCancel t) (mkT true false true false) true); cbn; auto; try discriminate.
Qed.
Lemma do_tacts_qi cur l : forall q, QI cur q -> QI cur (fst (do_tacts X l q)).
Proof.
  induction l as [|[a|] l IH]; intros q I; cbn [do_tacts fst]; auto.
  - pose proof (do_tact_qi cur q a I). destruct (do_tact X a q) as [q1 a1]. cbn in H. specialize (IH q1 H).
    destruct (do_tacts X l q1). exact IH.
  - specialize (IH q I). destruct (do_tacts X l q). exact IH.
Qed.

Definition gone_st : tstat := mkT false false true true.

Lemma head_facts q t r : QI None q -> q_run q = t :: r ->
  t < q_n q /\ t_gone (q_st q t) = false /\ t_sched (q_st q t) = true /\ t_run (q_st q t) = false /\ ~ In t r /\ NoDup r /\
  (forall u, u <> t -> In u r <-> In u (q_run q)).
Proof.
  intros I E. pose proof (qi_nodup _ _ I) as N. rewrite E in N. inversion N as [|? ? N1 N2]; subst.
  destruct (proj1 (qi_in _ _ I t)) as (A & B & C & D); [rewrite E; left; auto|]. do 6 (split; [assumption|]).
  intros u NE. rewrite E. cbn. intuition congruence.
Qed.

(** the executor drops the future of a cancelled task *)
Lemma pop_drop q t r x : QI None q -> q_run q = t :: r ->
  QI None (mkQ X x r (q_n q) (fun u => if Nat.eqb u t then gone_st else q_st q u) false (QDrop t :: q_tr q)).
Proof.
  intros I E. destruct (head_facts q t r I E) as (LT & G & SC & R & NI & ND & IR).
  assert (AL : alive t (q_tr q) = true). { rewrite (qi_alive _ _ I), G. apply Nat.ltb_lt in LT. now rewrite LT. }
  assert (NP : forall u, since u (QDrop t :: q_tr q) = if owed u (q_tr q) then since u (q_tr q) else []) by reflexivity.
  constructor; cbn [Queue.q_run Queue.q_n Queue.q_st Queue.q_asleep Queue.q_tr Queue.q_x].
  - auto.
  - intro u. destruct (Nat.eqb_spec u t) as [->|NE]; [cbn; intuition discriminate|]. rewrite IR by auto. apply I.
  - intro u. destruct (Nat.eqb_spec u t) as [->|NE]; [cbn; intuition discriminate|apply I].
  - discriminate.
  - intro u. destruct (Nat.eqb_spec u t) as [->|NE]; [cbn; discriminate|apply I].
  - intro u. cbn [alive]. rewrite (Nat.eqb_sym t u), (qi_alive _ _ I). destruct (Nat.eqb_spec u t) as [->|NE]; cbn [negb andb]; auto.
    cbn. now rewrite andb_false_r.
  - intros u. cbn [cancelled]. destruct (Nat.eqb_spec u t) as [->|NE]; [cbn; discriminate|apply I].
  - intros u. cbn [cancelled]. apply I.
  - intro u. cbn [owed]. rewrite (Nat.eqb_sym t u), (qi_owed _ _ I). destruct (Nat.eqb_spec u t) as [->|NE]; cbn [negb andb]; auto.
    cbn. now rewrite andb_false_r.
  - cbn. exact (qi_poll _ _ I).
  - discriminate.
  - cbn [legal ev_ok]. split; [|exact (qi_legal _ _ I)]. split; [auto|exact (qi_poll _ _ I)].
  - intros u. cbn [In]. rewrite <- (qi_spawn _ _ I u). split; [intros [Q|Q]; [discriminate|auto]|auto].
  - apply fair_cons; [|exact (qi_fair _ _ I)]. intros u Q. rewrite NP. destruct (owed u (q_tr q)) eqn:Z; [exact (fair_top _ (qi_fair _ _ I) u Z)|constructor].
  - intros u l1 l2 v Q D V. rewrite NP. destruct (owed u (q_tr q)) eqn:Z; [|intros []].
    apply (qi_fair2 _ _ I u (t :: l1) l2 v Z); [rewrite E, D; reflexivity|right; auto].
  - discriminate.
Qed.

(** the executor begins to poll the first task of the queue *)
Lemma pop_poll q t r x : QI None q -> q_run q = t :: r -> t_closed (q_st q t) = false ->
  QI (Some t) (mkQ X x r (q_n q) (fun u => if Nat.eqb u t then mkT false true false false else q_st q u) false (QPoll t :: q_tr q)).
Proof.
  intros I E CL. destruct (head_facts q t r I E) as (LT & G & SC & R & NI & ND & IR).
  assert (AL : alive t (q_tr q) = true). { rewrite (qi_alive _ _ I), G. apply Nat.ltb_lt in LT. now rewrite LT. }
  assert (OW : owed t (q_tr q) = true). { rewrite (qi_owed _ _ I), G, SC. apply Nat.ltb_lt in LT. now rewrite LT. }
  assert (NP : forall u, owed u (q_tr q) = true -> since u (QPoll t :: q_tr q) = t :: since u (q_tr q)).
  { intros u Q. cbn [since]. rewrite Q. reflexivity. }
  assert (OQ : forall u, owed u (QPoll t :: q_tr q) = true -> owed u (q_tr q) = true /\ u <> t).
  { intros u Q. cbn [owed] in Q. destruct (Nat.eqb_spec t u) as [->|NE]; [discriminate|]. auto. }
  constructor; cbn [Queue.q_run Queue.q_n Queue.q_st Queue.q_asleep Queue.q_tr Queue.q_x].
  - auto.
  - intro u. destruct (Nat.eqb_spec u t) as [->|NE]; [cbn; intuition discriminate|]. rewrite IR by auto. apply I.
  - intro u. destruct (Nat.eqb_spec u t) as [->|NE]; [cbn; intuition|]. rewrite (qi_run _ _ I). split; [discriminate|congruence].
  - intros u [= <-]. rewrite Nat.eqb_refl. auto.
  - intro u. destruct (Nat.eqb_spec u t) as [->|NE]; [auto|apply I].
  - intro u. cbn [alive]. rewrite (qi_alive _ _ I). destruct (Nat.eqb_spec u t) as [->|NE]; auto. now rewrite G.
  - intros u L. cbn [cancelled]. destruct (Nat.eqb_spec u t) as [->|NE]; [|apply I; auto]. intros _. rewrite (qi_canc _ _ I); auto.
  - intros u. cbn [cancelled]. apply I.
  - intro u. cbn [owed]. rewrite (Nat.eqb_sym t u), (qi_owed _ _ I). destruct (Nat.eqb_spec u t) as [->|NE]; cbn [negb andb]; auto.
    cbn. now rewrite andb_false_r.
  - reflexivity.
  - discriminate.
  - cbn [legal ev_ok]. split; [|exact (qi_legal _ _ I)]. split; [auto|]. split; [auto|]. split; [|exact (qi_poll _ _ I)]. rewrite (qi_canc _ _ I); auto.
  - intros u. cbn [In]. rewrite <- (qi_spawn _ _ I u). split; [intros [Q|Q]; [discriminate|auto]|auto].
  - apply fair_cons; [|exact (qi_fair _ _ I)]. intros u Q. apply OQ in Q as [Q NE]. rewrite NP by auto. constructor; [|exact (fair_top _ (qi_fair _ _ I) u Q)].
    destruct (in_dec Nat.eq_dec u (q_run q)) as [IU|NU].
    + rewrite E in IU. destruct IU as [->|IU]; [congruence|]. apply in_split in IU as (l1 & l2 & ->).
      apply (qi_fair2 _ _ I u (t :: l1) l2 t Q); [rewrite E; reflexivity|left; auto].
    + exfalso. apply NU. apply (qi_in _ _ I). rewrite (qi_owed _ _ I) in Q.
      apply andb_true_iff in Q as [Q Q2]. apply andb_true_iff in Q as [Q0 Q1]. apply Nat.ltb_lt in Q0. apply negb_true_iff in Q1.
      assert (RU : t_run (q_st q u) = false).
      { destruct (t_run (q_st q u)) eqn:Z; auto. apply (qi_run _ _ I) in Z. discriminate. }
      split; [exact Q0|]. split; [exact Q1|]. split; [|exact RU]. destruct (t_sched (q_st q u)) eqn:Z; auto. cbn in Q2.
      destruct (qi_closed _ _ I u Q0 Q1 Q2); congruence.
  - intros u l1 l2 v Q D V. apply OQ in Q as [Q NE]. rewrite NP by auto. intros [W|W].
    + subst v. rewrite D in NI. apply NI. rewrite in_app_iff. auto.
    + revert W. apply (qi_fair2 _ _ I u (t :: l1) l2 v Q); [rewrite E, D; reflexivity|right; auto].
  - intros u Q [= <-]. apply OQ in Q as [_ Q]. congruence.
Qed.

(** the poll ends, and the future is dropped *)
Lemma end_gone q t x : QI (Some t) q ->
  QI None (mkQ X x (q_run q) (q_n q) (fun u => if Nat.eqb u t then gone_st else q_st q u) (q_asleep q)
             (QDrop t :: QEnd t :: q_tr q)).
Proof.
  intros I. destruct (qi_cur _ _ I t eq_refl) as (LT & G).
  assert (R : t_run (q_st q t) = true) by (apply (qi_run _ _ I); auto).
  assert (AL : alive t (q_tr q) = true). { rewrite (qi_alive _ _ I), G. apply Nat.ltb_lt in LT. now rewrite LT. }
  assert (NI : ~ In t (q_run q)). { intro Q. apply (qi_in _ _ I) in Q. intuition congruence. }
  assert (NP : forall u, since u (QDrop t :: QEnd t :: q_tr q) = if owed u (q_tr q) then since u (q_tr q) else []).
  { intro u. cbn [since owed]. destruct (owed u (q_tr q)) eqn:Z; reflexivity. }
  assert (OQ : forall u, owed u (QDrop t :: QEnd t :: q_tr q) = true -> owed u (q_tr q) = true).
  { intros u Q. cbn [owed] in Q. apply andb_true_iff in Q as [_ Q]. exact Q. }
  constructor; cbn [Queue.q_run Queue.q_n Queue.q_st Queue.q_asleep Queue.q_tr Queue.q_x].
  - apply I.
  - intro u. destruct (Nat.eqb_spec u t) as [->|NE]; [cbn; intuition discriminate|]. apply I.
  - intro u. destruct (Nat.eqb_spec u t) as [->|NE]; [cbn; intuition discriminate|]. rewrite (qi_run _ _ I). intuition congruence.
  - discriminate.
  - intro u. destruct (Nat.eqb_spec u t) as [->|NE]; [cbn; discriminate|apply I].
  - intro u. cbn [alive]. rewrite (Nat.eqb_sym t u), (qi_alive _ _ I). destruct (Nat.eqb_spec u t) as [->|NE]; cbn [negb andb]; auto.
    cbn. now rewrite andb_false_r.
  - intros u. cbn [cancelled]. destruct (Nat.eqb_spec u t) as [->|NE]; [cbn; discriminate|apply I].
  - intros u. cbn [cancelled]. apply I.
  - intro u. cbn [owed]. rewrite (Nat.eqb_sym t u), (qi_owed _ _ I). destruct (Nat.eqb_spec u t) as [->|NE]; cbn [negb andb]; auto.
    cbn. now rewrite andb_false_r.
  - reflexivity.
  - apply I.
  - cbn [legal ev_ok]. split; [split; [exact AL|reflexivity]|]. split; [exact (qi_poll _ _ I)|exact (qi_legal _ _ I)].
  - intros u. cbn [In]. rewrite <- (qi_spawn _ _ I u). split; [intros [Q|[Q|Q]]; [discriminate|discriminate|auto]|auto].
  - apply fair_cons; [|apply fair_cons; [|exact (qi_fair _ _ I)]; intros u Q; cbn [owed since] in *; rewrite Q; exact (fair_top _ (qi_fair _ _ I) u Q)].
    intros u Q. apply OQ in Q. rewrite NP, Q. exact (fair_top _ (qi_fair _ _ I) u Q).
  - intros u l1 l2 v Q D V. apply OQ in Q. rewrite NP, Q. eapply (qi_fair2 _ _ I); eauto.
  - discriminate.
Qed.

(** the poll ends with the future pending; [t] is queued again if it was woken meanwhile *)
Lemma end_pend q t : QI (Some t) q -> t_closed (q_st q t) = false ->
  QI None (mkQ X (q_x q) (if t_sched (q_st q t) then q_run q ++ [t] else q_run q) (q_n q)
             (fun u => if Nat.eqb u t then mkT (t_sched (q_st q t)) false false false else q_st q u)
             (if t_sched (q_st q t) then false else q_asleep q) (QEnd t :: q_tr q)).
Proof.
  intros I CL. destruct (qi_cur _ _ I t eq_refl) as (LT & G).
  assert (R : t_run (q_st q t) = true) by (apply (qi_run _ _ I); auto).
  assert (NI : ~ In t (q_run q)). { intro Q. apply (qi_in _ _ I) in Q. intuition congruence. }
  assert (NP : forall u, since u (QEnd t :: q_tr q) = if owed u (q_tr q) then since u (q_tr q) else []) by reflexivity.
  constructor; cbn [Queue.q_run Queue.q_n Queue.q_st Queue.q_asleep Queue.q_tr Queue.q_x].
  - destruct (t_sched _); [|apply I]. apply nodup_app_intro; [apply I|repeat constructor; auto|]. intros u Q [<-|[]]. auto.
  - intro u. destruct (Nat.eqb_spec u t) as [->|NE].
    + cbn. destruct (t_sched (q_st q t)); [rewrite in_app_iff; cbn; intuition|]. intuition discriminate.
    + rewrite <- (qi_in _ _ I). destruct (t_sched (q_st q t)); [|tauto]. rewrite in_app_iff. cbn. intuition congruence.
  - intro u. destruct (Nat.eqb_spec u t) as [->|NE]; [cbn; intuition discriminate|]. rewrite (qi_run _ _ I). intuition congruence.
  - discriminate.
  - intro u. destruct (Nat.eqb_spec u t) as [->|NE]; [cbn; discriminate|apply I].
  - intro u. cbn [alive]. rewrite (qi_alive _ _ I). destruct (Nat.eqb_spec u t) as [->|NE]; auto. now rewrite G.
  - intros u L. cbn [cancelled]. destruct (Nat.eqb_spec u t) as [->|NE]; [|apply I; auto]. intros _. rewrite (qi_canc _ _ I); auto.
  - intros u. cbn [cancelled]. apply I.
  - intro u. cbn [owed]. rewrite (qi_owed _ _ I). destruct (Nat.eqb_spec u t) as [->|NE]; auto. now rewrite G, CL.
  - reflexivity.
  - destruct (t_sched _); [discriminate|apply I].
  - cbn [legal ev_ok]. split; [exact (qi_poll _ _ I)|exact (qi_legal _ _ I)].
  - intros u. cbn [In]. rewrite <- (qi_spawn _ _ I u). split; [intros [Q|Q]; [discriminate|auto]|auto].
  - apply fair_cons; [|exact (qi_fair _ _ I)]. intros u Q. cbn [owed] in Q. rewrite NP, Q. exact (fair_top _ (qi_fair _ _ I) u Q).
  - intros u l1 l2 v Q D V. cbn [owed] in Q. rewrite NP, Q.
    destruct (t_sched (q_st q t)); [|eapply (qi_fair2 _ _ I); eauto].
    apply split_snoc in D as [(l2' & D)|[-> ->]]; [eapply (qi_fair2 _ _ I); eauto|].
    rewrite (qi_fair3 _ _ I t Q eq_refl). intros [].
  - discriminate.
Qed.

Definition QL (q : qu) : Prop := legal (q_tr q).
Lemma run_one_qi q t r q' al p : QI None q -> q_run q = t :: r ->
  run_one X step fin t (mkQ X (q_x q) r (q_n q) (q_st q) false (q_tr q)) = (q', al, p) ->
  (p = false -> QI None q') /\ exists c, QI c q'.
Proof.
  intros I E. unfold run_one. cbn [Queue.q_st Queue.q_x]. destruct (t_closed (q_st q t)) eqn:CL.
  - unfold drop_fut. cbn [Queue.q_x]. destruct (fin t (q_x q)) as [x l]. intros [= Q1 <-].
    pose proof (do_tacts_qi None l _ (pop_drop q t r x I E)) as K.
    unfold q_setx, q_sets, q_emit in Q1. cbn [Queue.q_run Queue.q_n Queue.q_st Queue.q_asleep Queue.q_tr Queue.q_x] in Q1.
    unfold gone_st in K. rewrite Q1 in K. cbn in K. split; eauto.
  - destruct (step t (q_x q)) as [[x l] o].
    pose proof (do_tacts_qi (Some t) l _ (pop_poll q t r x I E CL)) as K.
    unfold q_setx, q_sets at 1, q_emit at 1. cbn [Queue.q_run Queue.q_n Queue.q_st Queue.q_asleep Queue.q_tr Queue.q_x].
    destruct (do_tacts X l _) as [q1 a1]. cbn [fst] in K.
    assert (DR : forall q2 a2, drop_fut X fin t (q_emit X (QEnd t) q1) = (q2, a2) -> QI None q2).
    { intros q2 a2. unfold drop_fut. cbn [Queue.q_x q_emit]. destruct (fin t (q_x q1)) as [x2 l2]. intro D.
      pose proof (do_tacts_qi None l2 _ (end_gone q1 t x2 K)) as K2. unfold q_setx, q_sets, q_emit in D.
      cbn [Queue.q_run Queue.q_n Queue.q_st Queue.q_asleep Queue.q_tr Queue.q_x] in D. unfold gone_st in K2. rewrite D in K2. exact K2. }
    destruct o.
    + destruct (t_closed (q_st q1 t)) eqn:C1.
      * destruct (drop_fut X fin t (q_emit X (QEnd t) q1)) as [q2 a2] eqn:D. intros [= <- <- <-]. specialize (DR _ _ eq_refl). eauto.
      * pose proof (end_pend q1 t K C1) as K2. destruct (t_sched (q_st q1 t)) eqn:S1; cbn [push]; intros [= <- <- <-]; eauto.
    + destruct (drop_fut X fin t (q_emit X (QEnd t) q1)) as [q2 a2] eqn:D. intros [= <- <- <-]. specialize (DR _ _ eq_refl). eauto.
    + intros [= <- <- <-]. split; [discriminate|eauto].
Qed.
Lemma batch_qi n : forall q q' al p, QI None q -> batch X step fin n q = (q', al, p) ->
  (p = false -> QI None q' /\ (q_asleep q' = true \/ In AWake al)) /\ exists c, QI c q'.
Proof.
  induction n as [|n IH]; intros q q' al p I; cbn [batch].
  - intros [= <- <- <-]. split; [|eauto]. intros _. split; auto. right. left; auto.
  - destruct (q_run q) as [|t r] eqn:E.
    + assert (K : QI None (mkQ X (q_x q) [] (q_n q) (q_st q) true (q_tr q))) by (destruct I; rewrite E in *; constructor; auto).
      intros [= <- <- <-]. split; [|eauto]. auto.
    + destruct (run_one X step fin t _) as [[q1 a1] p1] eqn:R1. destruct (run_one_qi q t r q1 a1 p1 I E R1) as [K1 K2].
      destruct p1; [intros [= <- <- <-]; split; [discriminate|auto]|].
      destruct (batch X step fin n q1) as [[q2 a2] p2] eqn:R2. intros [= <- <- <-].
      destruct (IH q1 q2 a2 p2 (K1 eq_refl) R2) as [K3 K4]. split; auto.
      intro Q. destruct (K3 Q) as [K5 K6]. split; auto. destruct K6; auto. right. apply in_app_iff; auto.
Qed.

(** ** The queue on the root executor *)
Notation ex := (Executor.ex qu).
Notation main := (main_poll X step fin).
Definition OI (s : ex) : Prop :=
  QI None (xs qu s) /\ (q_asleep (xs qu s) = false -> scheduled qu s = true \/ ~ In EWake (tr qu s)).

Lemma acts_sched l : forall s : ex, In AWake l \/ scheduled qu s = true -> scheduled qu (fold_left (do_act qu) l s) = true.
Proof.
  induction l as [|a l IH]; intros s H; cbn [fold_left].
  - destruct H as [[]|H]; auto.
  - apply IH. destruct H as [[->|H]|H]; auto.
    + right. cbn. unfold schedule. destruct (_ && _); reflexivity.
    + right. destruct a; cbn; auto. unfold schedule. destruct (_ && _); reflexivity.
Qed.
Lemma loop_oi f : forall s, OI s ->
  (forall s', run_loop qu main f s = Live s' -> OI s') /\
  (forall s', run_loop qu main f s = Crashed s' -> exists c, QI c (xs qu s')).
Proof.
  induction f as [|f IH]; intros s [I A]; cbn [run_loop]; [split; discriminate|].
  destruct (scheduled qu s) eqn:SC.
  - cbn [xs scheduled active timers tr]. destruct (main (xs qu s)) as [[x acts] p] eqn:P. unfold main_poll in P.
    destruct (batch_qi 200 _ _ _ _ I P) as [K1 K2]. destruct p.
    + split; [discriminate|]. intros s' [= <-]. cbn. rewrite acts_xs. exact K2.
    + apply IH. destruct (K1 eq_refl) as [K3 K4]. split; cbn; rewrite acts_xs; cbn; auto.
      intro Q. left. apply acts_sched. left. destruct K4; [congruence|auto].
  - split; [|discriminate]. intros s' [= <-]. split; cbn; auto. intro Q. right. destruct (A Q) as [Z|Z]; [discriminate|].
    intros [E|E]; [discriminate|auto].
Qed.
Lemma run_now_oi f s : OI s ->
  (forall s', run_now qu main f s = Live s' -> OI s') /\
  (forall s', run_now qu main f s = Crashed s' -> exists c, QI c (xs qu s')).
Proof.
  intros [I A]. unfold run_now. destruct (active qu s).
  - split; [|discriminate]. intros s' [= <-]. split; cbn; auto. intro Q. destruct (A Q) as [Z|Z]; auto. right.
    intros [E|E]; [discriminate|auto].
  - apply loop_oi. split; cbn; auto. intro Q. destruct (A Q) as [Z|Z]; auto. right. intros [E|E]; [discriminate|auto].
Qed.

(** the world may change in any way *)
Lemma qi_setx c x q : QI c q -> QI c (q_setx X x q).
Proof. intro I. destruct I. constructor; auto. Qed.

Lemma do_tact_wakes a q : q_asleep (fst (do_tact X a q)) = false -> q_asleep q = false \/ snd (do_tact X a q) <> [].
Proof.
  destruct a as [t| |t|]; cbn [do_tact].
  - destruct (_ && _); [|cbn; auto]. destruct (t_run _); cbn; auto. destruct (q_asleep q); auto. right. discriminate.
  - cbn. destruct (q_asleep q); auto. right. discriminate.
  - destruct (_ && _); [|cbn; auto]. destruct (_ || _); cbn; auto. destruct (q_asleep q); auto. right. discriminate.
  - cbn. auto.
Qed.
Lemma schedule_facts (s : ex) : scheduled qu (schedule qu s) = true /\ xs qu (schedule qu s) = xs qu s /\ In EWake (tr qu (schedule qu s)).
Proof. unfold schedule. destruct (_ && _); cbn; auto. Qed.
Lemma swakes_facts (l : list act) : forall s : ex, exists s',
  fold_left (exec qu main) (map (fun _ => SWake qu) l) (Live s) = Live s' /\ xs qu s' = xs qu s /\
  (l = [] /\ s' = s \/ scheduled qu s' = true).
Proof.
  induction l as [|a l IH]; intro s; cbn [map fold_left exec exec1]; [exists s; auto|].
  destruct (IH (schedule qu s)) as (s' & E1 & E2 & E3). exists s'. destruct (schedule_facts s) as (A & B & _).
  split; [auto|]. split; [congruence|]. right. destruct E3 as [(_ & ->)|E3]; auto.
Qed.
Lemma swakes_crashed (l : list act) : forall s : ex, exists s',
  fold_left (exec qu main) (map (fun _ => SWake qu) l) (Crashed s) = Crashed s' /\ xs qu s' = xs qu s.
Proof.
  induction l as [|a l IH]; intro s; cbn [map fold_left exec exec1]; [exists s; auto|].
  destruct (IH (schedule qu s)) as (s' & E1 & E2). exists s'. destruct (schedule_facts s) as (A & B & _). split; [auto|congruence].
Qed.

(** in a crashed executor the tasks keep a good state, except that a poll does not end *)
Lemma xexec_crashed s e : (exists c, QI c (xs qu s)) -> active qu s = true ->
  exists s', xexec X step fin (Crashed s) e = Crashed s' /\ (exists c, QI c (xs qu s')).
Proof.
  intros (c & I) A. destruct e as [a|g|f|f]; cbn [xexec events].
  - pose proof (do_tact_qi c (xs qu s) a I) as K. destruct (do_tact X a (xs qu s)) as [q' al]. cbn [fold_left exec exec1].
    destruct (swakes_crashed al (mkEx qu (scheduled qu s) (active qu s) (timers qu s) q' (tr qu s))) as (s' & -> & E).
    exists s'. split; [auto|]. rewrite E. cbn. eauto.
  - cbn [fold_left exec exec1]. eexists. split; [reflexivity|]. cbn. exists c. apply qi_setx, I.
  - cbn [fold_left exec exec1]. destruct (timers qu s); [eauto|]. unfold run_now. cbn [active]. rewrite A. eexists. split; [reflexivity|]. cbn. eauto.
  - cbn [fold_left exec exec1]. unfold run_now. cbn [active]. rewrite A. eexists. split; [reflexivity|]. cbn. eauto.
Qed.
Lemma xexec_oi s e : OI s ->
  (forall s', xexec X step fin (Live s) e = Live s' -> OI s') /\
  (forall s', xexec X step fin (Live s) e = Crashed s' -> exists c, QI c (xs qu s')).
Proof.
  intros [I A]. destruct e as [a|g|f|f]; cbn [xexec events].
  - pose proof (do_tact_qi None (xs qu s) a I) as K. pose proof (do_tact_wakes a (xs qu s)) as W.
    destruct (do_tact X a (xs qu s)) as [q' al]. cbn [fold_left exec exec1 fst snd] in *.
    destruct (swakes_facts al (mkEx qu (scheduled qu s) (active qu s) (timers qu s) q' (tr qu s))) as (s1 & -> & E & SC).
    split; [|discriminate]. intros s' [= <-]. split; [rewrite E; exact K|]. rewrite E. cbn [xs]. intro Q.
    destruct SC as [[-> ->]|SC]; auto. cbn. destruct (W Q) as [Z|Z]; [auto|congruence].
  - cbn [fold_left exec exec1]. split; [|discriminate]. intros s' [= <-]. split; cbn; auto. apply qi_setx, I.
  - cbn [fold_left exec exec1]. destruct (timers qu s) as [|n].
    + split; [|discriminate]. intros s' [= <-]. split; auto.
    + apply run_now_oi. split; auto.
  - cbn [fold_left exec exec1]. apply run_now_oi. split; auto.
Qed.

Lemma exec_stuck l : fold_left (exec qu main) l Stuck = Stuck.
Proof. induction l; cbn; auto. Qed.
(** every history is one of the root executor *)
Lemma xrun_run x evs : exists l, xrun X step fin x evs = run qu main (q_start X x) l.
Proof.
  unfold xrun, run. induction evs as [|e evs IH] using rev_ind; [exists []; reflexivity|].
  destruct IH as (l & E). rewrite fold_left_app. cbn [fold_left]. rewrite E.
  destruct (fold_left (exec qu main) l (Live (start qu (q_start X x)))) as [s|s|] eqn:R; cbn [xexec].
  - exists (l ++ events X (xs qu s) e). rewrite fold_left_app, R. reflexivity.
  - exists (l ++ events X (xs qu s) e). rewrite fold_left_app, R. reflexivity.
  - exists l. auto.
Qed.
Lemma xrun_inv x evs :
  (forall s, xrun X step fin x evs = Live s -> OI s) /\
  (forall s, xrun X step fin x evs = Crashed s -> exists c, QI c (xs qu s)).
Proof.
  induction evs as [|e evs IH] using rev_ind.
  - split; [|discriminate]. intros s [= <-]. split; [apply start_qi|]. right. intros [].
  - destruct IH as [L C]. destruct (xrun_run x evs) as (l & E).
    unfold xrun in *. rewrite fold_left_app. cbn [fold_left]. destruct (fold_left (xexec X step fin) evs _) as [s|s|] eqn:R.
    + apply xexec_oi. auto.
    + symmetry in E. apply run_dead in E. destruct (xexec_crashed s e (C s eq_refl) E) as (s' & -> & K).
      split; [discriminate|]. intros s2 [= <-]. exact K.
    + split; discriminate.
Qed.
Lemma xrun_idle x evs s : xrun X step fin x evs = Live s -> Idle qu s.
Proof. destruct (xrun_run x evs) as (l & ->). apply run_ok. Qed.

(** the trace of the root executor grows *)
Lemma execs_grow l : forall s s', Idle qu s -> fold_left (exec qu main) l (Live s) = Live s' ->
  Idle qu s' /\ exists t, tr qu s' = t ++ tr qu s.
Proof.
  induction l as [|e l IH]; intros s s' I; cbn [fold_left].
  - intros [= <-]. split; auto. exists []. reflexivity.
  - destruct (exec qu main (Live s) e) as [s1|s1|] eqn:E.
    + destruct (exec_ok qu main e s s1 I E) as (I1 & (t1 & T1) & _). intro R. destruct (IH s1 s' I1 R) as (I2 & t2 & T2).
      split; auto. exists (t2 ++ t1). rewrite T2, T1. apply app_assoc.
    + intro Q. apply exec_dead in Q; [destruct Q|intros ? ?; discriminate].
    + rewrite exec_stuck. discriminate.
Qed.
Lemma xexec_live_from r e s : xexec X step fin r e = Live s -> exists s0, r = Live s0.
Proof.
  destruct r as [s0|s0|]; [eauto| |discriminate]. cbn [xexec]. intro Q. apply exec_dead in Q; [destruct Q|intros ? ?; discriminate].
Qed.
Lemma mounted_woken x evs s : xrun X step fin x evs = Live s -> In (XDo TSchedule) evs -> In EWake (tr qu s).
Proof.
  revert s. induction evs as [|e evs IH] using rev_ind; [intros s _ []|]. intros s R M.
  pose proof R as R0. unfold xrun in R0. rewrite fold_left_app in R0. cbn [fold_left] in R0.
  destruct (xexec_live_from _ _ _ R0) as (s0 & E). rewrite E in R0. pose proof (xrun_idle x evs s0 E) as I.
  cbn [xexec] in R0. destruct (execs_grow _ _ _ I R0) as (_ & t & T). rewrite T. apply in_app_iff in M as [M|[->|[]]].
  - apply in_app_iff. right. apply (IH s0 E M).
  - cbn [events do_tact map fold_left exec exec1] in R0. injection R0 as <-. rewrite <- T. apply schedule_facts.
Qed.

Lemma owed_queued q t : QI None q -> owed t (q_tr q) = true -> In t (q_run q).
Proof.
  intros I O. rewrite (qi_owed _ _ I) in O. apply andb_true_iff in O as [O O3]. apply andb_true_iff in O as [O1 O2].
  apply Nat.ltb_lt in O1. apply negb_true_iff in O2. apply (qi_in _ _ I).
  assert (R : t_run (q_st q t) = false). { destruct (t_run (q_st q t)) eqn:Z; auto. apply (qi_run _ _ I) in Z. discriminate. }
  split; [auto|]. split; [auto|]. split; [|auto]. destruct (t_sched (q_st q t)) eqn:Z; auto. cbn in O3.
  destruct (qi_closed _ _ I t O1 O2 O3); congruence.
Qed.
Lemma owed_scheduled x evs s t : xrun X step fin x evs = Live s -> In (XDo TSchedule) evs ->
  owed t (q_tr (xs qu s)) = true -> scheduled qu s = true.
Proof.
  intros R M O. destruct (proj1 (xrun_inv x evs) s R) as [I A]. pose proof (owed_queued _ t I O) as Q.
  destruct (q_asleep (xs qu s)) eqn:Z; [rewrite (qi_asleep _ _ I Z) in Q; destruct Q|].
  destruct (A eq_refl) as [B|B]; auto. destruct B. eapply mounted_woken; eauto.
Qed.
End Proofs.

(** ** fairness, from the trace *)
Lemma since_app t tr2 : forall tr1, owed t tr1 = true ->
  (forall e, In e tr2 -> e <> QPoll t /\ e <> QDrop t) ->
  owed t (tr2 ++ tr1) = true /\
  since t (tr2 ++ tr1) = flat_map (fun e => match e with QPoll u => [u] | _ => [] end) tr2 ++ since t tr1.
Proof.
  induction tr2 as [|e tr2 IH]; intros tr1 O N; cbn [app]; [auto|].
  destruct (IH tr1 O) as [O2 S2]; [intros e' Q; apply N; right; auto|]. cbn [since]. rewrite O2, S2. split.
  - destruct (N e (or_introl eq_refl)) as [N1 N2].
    destruct e as [u|u|u|u|u|u]; cbn [owed]; rewrite ?O2, ?orb_true_r; auto;
      (destruct (Nat.eqb_spec u t); [subst; congruence|auto]).
  - destruct e; reflexivity.
Qed.
Lemma fair_suffix tr2 : forall tr1, fair (tr2 ++ tr1) -> fair tr1.
Proof. induction tr2 as [|e tr2 IH]; cbn [app]; auto. intros tr1 F. apply IH. apply F. Qed.
Lemma polls_count u tr : polls u tr = count_occ Nat.eq_dec (flat_map (fun e => match e with QPoll u => [u] | _ => [] end) tr) u.
Proof.
  unfold polls. induction tr as [|e tr IH]; auto. destruct e as [v|v|v|v|v|v]; cbn [filter flat_map app]; auto.
  cbn [count_occ]. destruct (Nat.eqb_spec v u) as [->|NE].
  - destruct (Nat.eq_dec u u); [cbn [length]; auto|congruence].
  - destruct (Nat.eq_dec v u); [congruence|auto].
Qed.
Lemma fair_polls tr3 tr2 tr1 t u : fair (tr3 ++ tr2 ++ tr1) -> owed t tr1 = true ->
  (forall e, In e tr2 -> e <> QPoll t /\ e <> QDrop t) -> polls u tr2 <= 1.
Proof.
  intros F O N. apply fair_suffix in F. destruct (since_app t tr2 tr1 O N) as [O2 S2].
  pose proof (fair_top _ F t O2) as D. rewrite S2 in D. rewrite polls_count.
  apply nodup_app_l in D. apply (NoDup_count_occ Nat.eq_dec). exact D.
Qed.
(** tasks that do not panic do not make the poll panic *)
Lemma batch_calm X step fin : (forall t x, snd (step t x) <> Panics) -> forall n q, snd (batch X step fin n q) = false.
Proof.
  intros N n. induction n as [|n IH]; intro q; cbn [batch]; auto. destruct (q_run X q) as [|t r]; auto.
  assert (R : forall q, snd (run_one X step fin t q) = false).
  { intro q0. unfold run_one. destruct (t_closed _); auto. specialize (N t (q_x X q0)). destruct (step t (q_x X q0)) as [[x l] o]. cbn in N.
    destruct (do_tacts X l _) as [q1 a1]. destruct o; [| |congruence]; repeat (destruct (drop_fut _ _ _ _) || destruct (t_closed _) || destruct (t_sched _) || destruct (push _ _ _)); auto. }
  specialize (R (mkQ X (q_x X q) r (q_n X q) (q_st X q) false (q_tr X q))). destruct (run_one _ _ _ _ _) as [[q1 a1] p]. cbn in R. rewrite R.
  specialize (IH q1). destruct (batch X step fin n q1) as [[q2 a2] p2]. auto.
Qed.
Lemma xrun_calm X step fin : (forall t x, snd (step t x) <> Panics) -> forall x evs s, xrun X step fin x evs <> Crashed s.
Proof.
  intros N x evs. unfold xrun. assert (A : forall r, (forall s, r <> Crashed s) -> forall s, fold_left (xexec X step fin) evs r <> Crashed s).
  { induction evs as [|e evs IH]; intros r H s; cbn; auto. apply IH. intro s'. destruct r as [s0|s0|]; cbn [xexec]; [|destruct (H s0 eq_refl)|discriminate].
    apply fold_calm; auto. intro q. apply batch_calm. exact N. }
  apply A. discriminate.
Qed.
