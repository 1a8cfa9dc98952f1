(** Proofs for C61 and C65: when tasks end. *)
From Coq Require Import List Arith Bool Lia.
From Verif Require Import Util Executor Spec_executor Executor_proofs Queue Spec_queue Queue_proofs.
Import ListNotations.

Lemma cancelled_app t (a b : list qev) : cancelled t b = true -> cancelled t (a ++ b) = true.
Proof. intro H. induction a as [|e a IH]; cbn; auto. destruct e; auto. rewrite IH. apply orb_true_r. Qed.

Section Ends.
Variable X : Type.
Variable step : nat -> X -> X * list (option tact) * outcome.
Variable fin : nat -> X -> X * list (option tact).
Variable J : X -> Prop.
Variable fini : nat -> X -> Prop.          (* task t has finished *)
Variable Pl : list nat -> X -> Prop.       (* the polls so far *)
Hypothesis S_J : forall t x x' l o, J x -> step t x = (x', l, o) -> o <> Panics -> J x'.
Hypothesis S_d : forall t x x' l o u, J x -> ~ fini t x -> step t x = (x', l, o) -> o <> Panics -> (fini u x' <-> fini u x \/ (u = t /\ o = Ready)).
Hypothesis S_p : forall t x x' l o p, J x -> step t x = (x', l, o) -> o <> Panics -> Pl p x -> Pl (p ++ [t]) x'.
Hypothesis F_J : forall t x x' l, J x -> fin t x = (x', l) -> J x'.
Hypothesis F_d : forall t x x' l u, J x -> fin t x = (x', l) -> (fini u x' <-> fini u x).
Hypothesis F_p : forall t x x' l p, J x -> fin t x = (x', l) -> Pl p x -> Pl p x'.
Notation qu := (qu X). Notation qtr := (q_tr X). Notation q_x := (q_x X).
Definition quiet (e : qev) : Prop := match e with QPoll _ | QDrop _ => False | _ => True end.
Lemma pollseq_quiet new tr : Forall quiet new -> pollseq (new ++ tr) = pollseq tr.
Proof.
  intro F. induction F as [|e new Q F IH]; auto. unfold pollseq in *. cbn. rewrite flat_map_app, IH. destruct e; cbn; try contradiction; apply app_nil_r.
Qed.
(** the trace of the tasks when they do something *)
Lemma do_tacts_ext l : forall q, let q' := fst (do_tacts X l q) in
  q_x q' = q_x q /\ q_n X q <= q_n X q' /\ (forall u, u < q_n X q -> t_gone (q_st X q u) = true -> t_gone (q_st X q' u) = true) /\
  exists new, qtr q' = new ++ qtr q /\ Forall quiet new.
Proof.
  assert (K : forall a q, let q' := fst (do_tact X a q) in q_x q' = q_x q /\ q_n X q <= q_n X q' /\
    (forall u, u < q_n X q -> t_gone (q_st X q u) = true -> t_gone (q_st X q' u) = true) /\
    exists new, qtr q' = new ++ qtr q /\ Forall quiet new).
  { intros a q. destruct a as [t| |t|]; cbn [do_tact].
    - destruct (_ && negb (t_sched _)) eqn:B.
      + apply andb_true_iff in B as [B _]. apply andb_true_iff in B as [B _]. apply andb_true_iff in B as [_ B]. apply negb_true_iff in B.
        destruct (t_run _); cbn; (split; [auto|split; [auto|split; [|exists [QWake t]; split; [auto|repeat constructor]]]]);
          intros u _ G; destruct (Nat.eqb_spec u t) as [->|]; auto; congruence.
      + cbn. split; auto. split; auto. split; auto. exists [QWake t]. split; auto. repeat constructor.
    - cbn. split; auto. split; [lia|]. split; [|exists [QSpawn (q_n X q)]; split; [auto|repeat constructor]].
      intros u L G. destruct (Nat.eqb_spec u (q_n X q)); [lia|auto].
    - destruct (_ && negb (t_closed _)) eqn:B.
      + apply andb_true_iff in B as [B _]. apply andb_true_iff in B as [_ B]. apply negb_true_iff in B.
        destruct (_ || _); cbn; (split; [auto|split; [auto|split; [|exists [QCancel t]; split; [auto|repeat constructor]]]]);
          intros u _ G; destruct (Nat.eqb_spec u t) as [->|]; auto; congruence.
      + cbn. split; auto. split; auto. split; auto. exists [QCancel t]. split; auto. repeat constructor.
    - cbn. split; auto. split; auto. split; auto. exists []. split; auto. }
  induction l as [|[a|] l IH]; intro q; cbn [do_tacts].
  - cbn. split; auto. split; auto. split; auto. exists []. split; auto.
  - pose proof (K a q) as H. destruct (do_tact X a q) as [q1 a1]. cbn [fst] in H. destruct H as (A1 & A2 & A3 & n1 & A4 & A5).
    pose proof (IH q1) as H. destruct (do_tacts X l q1) as [q2 a2]. cbn [fst] in *. destruct H as (B1 & B2 & B3 & n2 & B4 & B5).
    split; [congruence|]. split; [lia|]. split; [intros u L G; apply B3; [lia|auto]|]. exists (n2 ++ n1). rewrite B4, A4, app_assoc. split; auto.
    apply Forall_app. auto.
  - pose proof (IH q) as H. destruct (do_tacts X l q) as [q2 a2]. exact H.
Qed.

Record EI (q : qu) : Prop := {
  ei_J : J (q_x q);
  ei_done : forall t, fini t (q_x q) -> t < q_n X q /\ t_gone (q_st X q t) = true;
  ei_why : forall t, In (QDrop t) (qtr q) -> cancelled t (qtr q) = true \/ fini t (q_x q);
  ei_polls : Pl (pollseq (qtr q)) (q_x q) }.
Lemma acts_ei q l : EI q -> EI (fst (do_tacts X l q)).
Proof.
  intro I. destruct (do_tacts_ext l q) as (A1 & A2 & A3 & new & A4 & A5). destruct I as [I1 I2 I3 I4]. constructor; rewrite ?A1, ?A4; auto.
  - intros t D. destruct (I2 t D). split; [lia|auto].
  - intros t H. apply in_app_iff in H as [H|H]; [rewrite Forall_forall in A5; destruct (A5 _ H)|].
    destruct (I3 t H); auto. left. apply cancelled_app. auto.
  - rewrite pollseq_quiet; auto.
Qed.
Lemma drop_ei q t : J (q_x q) -> t < q_n X q -> (forall u, u <> t -> fini u (q_x q) -> u < q_n X q /\ t_gone (q_st X q u) = true) ->
  (forall u, In (QDrop u) (qtr q) -> cancelled u (qtr q) = true \/ fini u (q_x q)) -> Pl (pollseq (qtr q)) (q_x q) ->
  cancelled t (qtr q) = true \/ fini t (q_x q) -> EI (fst (drop_fut X fin t q)).
Proof.
  intros H1 L H2 H3 H4 H5. unfold drop_fut. destruct (fin t (q_x q)) as [x l] eqn:E. apply acts_ei.
  constructor; cbn; [eauto| | |].
  - intros u D. rewrite (F_d _ _ _ _ u H1 E) in D. destruct (Nat.eqb_spec u t) as [->|N]; cbn; auto.
  - intros u [[= <-]|H]; rewrite (F_d _ _ _ _ _ H1 E); auto.
  - unfold pollseq. cbn. rewrite flat_map_app, app_nil_r. eapply F_p; eauto.
Qed.
Lemma run_one_ei q t r q' al : QI X None q -> EI q -> q_run X q = t :: r ->
  run_one X step fin t (mkQ X (q_x q) r (q_n X q) (q_st X q) false (qtr q)) = (q', al, false) -> EI q'.
Proof.
  intros I P E. destruct (head_facts X step fin q t r I E) as (L & GN & _).
  unfold run_one. cbn [Queue.q_st Queue.q_x]. destruct (t_closed (q_st X q t)) eqn:CL.
  - pose proof (drop_ei (mkQ X (q_x q) r (q_n X q) (q_st X q) false (qtr q)) t) as K.
    destruct (drop_fut X fin t _) as [q2 a2]. intros [= <- <-]. cbn in K. destruct P as [P1 P2 P3 P4]. apply K; auto.
    left. rewrite (qi_canc X _ _ I); auto.
  - destruct (step t (q_x q)) as [[x l] o] eqn:S.
    pose proof (do_tacts_qi X step fin (Some t) l _ (pop_poll X step fin q t r x I E CL)) as K.
    set (q1 := q_emit X (QPoll t) (q_sets X t (mkT false true false false) (q_setx X x (mkQ X (q_x q) r (q_n X q) (q_st X q) false (qtr q))))).
    destruct (do_tacts_ext l q1) as (A1 & A2 & A3 & new & A4 & A5).
    change (fst (do_tacts X l q1)) with (fst (do_tacts X l q1)) in K. destruct (do_tacts X l q1) as [q2 a1] eqn:DT. cbn [fst] in *.
    assert (K' : QI X (Some t) q2).
    { unfold q1, q_setx, q_sets, q_emit in DT. cbn [Queue.q_run Queue.q_n Queue.q_st Queue.q_asleep Queue.q_tr Queue.q_x] in DT. cbn in K. rewrite DT in K. exact K. }
    intro R. assert (NP : o <> Panics) by (intros ->; discriminate R).
    assert (NF : ~ fini t (q_x q)) by (intro Q; destruct (ei_done _ P t Q); congruence).
    assert (F1 : J (q_x q2)) by (rewrite A1; cbn; eapply S_J; eauto; apply P).
    assert (F2 : forall u, u <> t -> fini u (q_x q2) -> u < q_n X q2 /\ t_gone (q_st X q2 u) = true).
    { intros u D Q. rewrite A1 in Q. cbn in Q. rewrite (S_d _ _ _ _ _ u (ei_J _ P) NF S NP) in Q. destruct Q as [Q|[-> _]]; [|contradiction].
      destruct (ei_done _ P u Q) as [U V]. cbn in A2. split; [lia|]. apply A3; [exact U|]. cbn. destruct (Nat.eqb_spec u t); [contradiction|auto]. }
    assert (F3 : forall u, In (QDrop u) (qtr q2) -> cancelled u (qtr q2) = true \/ fini u (q_x q2)).
    { intros u H. rewrite A4 in H |- *. apply in_app_iff in H as [H|H]; [rewrite Forall_forall in A5; destruct (A5 _ H)|].
      destruct H as [H|H]; [discriminate H|]. destruct (ei_why _ P u H) as [Q|Q]; [left; apply cancelled_app; exact Q|].
      right. rewrite A1. cbn. apply (S_d _ _ _ _ _ u (ei_J _ P) NF S NP). auto. }
    assert (F4 : Pl (pollseq (qtr q2)) (q_x q2)).
    { rewrite A4, A1, pollseq_quiet by auto. cbn. unfold pollseq. cbn. rewrite flat_map_app. cbn. exact (S_p _ _ _ _ _ _ (ei_J _ P) S NP (ei_polls _ P)). }
    assert (F5 : fini t (q_x q2) <-> o = Ready).
    { rewrite A1. cbn. rewrite (S_d _ _ _ _ _ t (ei_J _ P) NF S NP). split; [|auto]. intros [Q|[_ Q]]; auto.
      destruct (ei_done _ P t Q). congruence. }
    assert (DR : cancelled t (qtr q2) = true \/ fini t (q_x q2) -> EI (fst (drop_fut X fin t (q_emit X (QEnd t) q2)))).
    { intro W. apply drop_ei; auto.
      - cbn in A2 |- *. lia.
      - cbn [q_emit Queue.q_tr Queue.q_x]. intros u [H|H]; [discriminate H|]. cbn. auto.
      - cbn [q_emit Queue.q_tr Queue.q_x]. unfold pollseq. cbn. rewrite flat_map_app, app_nil_r. exact F4. }
    assert (L2 : t < q_n X q2) by (cbn in A2; lia).
    assert (GN2 : t_gone (q_st X q2 t) = false) by (apply (qi_cur X _ _ K'); auto).
    destruct o; [| |congruence].
    + destruct (t_closed (q_st X q2 t)) eqn:C.
      * destruct (drop_fut X fin t (q_emit X (QEnd t) q2)) as [q3 a3]. injection R as <- <-. apply DR. left. rewrite (qi_canc X _ _ K'); auto.
      * assert (Z : forall q3, q_x q3 = q_x q2 -> q_n X q3 = q_n X q2 -> qtr q3 = QEnd t :: qtr q2 ->
          (forall u, u <> t -> q_st X q3 u = q_st X q2 u) -> EI q3).
        { intros q3 B1 B2 B3 B4. constructor; rewrite ?B1, ?B2, ?B3; auto.
          - intros u D. assert (N : u <> t) by (intros ->; apply F5 in D; discriminate D). rewrite B4; auto.
          - intros u [H|H]; [discriminate H|]. cbn. auto.
          - unfold pollseq. cbn. rewrite flat_map_app, app_nil_r. exact F4. }
        destruct (t_sched (q_st X q2 t)); cbn [push] in R; injection R as <- <-; apply Z; auto; intros u D; cbn;
          destruct (Nat.eqb_spec u t); congruence.
    + destruct (drop_fut X fin t (q_emit X (QEnd t) q2)) as [q3 a3]. injection R as <- <-. apply DR. right. apply F5. reflexivity.
Qed.
Lemma batch_ei n : forall q q' al, QI X None q -> EI q -> batch X step fin n q = (q', al, false) -> EI q'.
Proof.
  induction n as [|n IH]; intros q q' al I P; cbn [batch]; [intros [= <- <-]; auto|].
  destruct (q_run X q) as [|t r] eqn:E; [intros [= <- <-]; destruct P; constructor; auto|].
  destruct (run_one X step fin t _) as [[q1 a1] p1] eqn:R1. destruct (run_one_qi X step fin q t r q1 a1 p1 I E R1) as [K1 _].
  destruct p1; [discriminate|]. destruct (batch X step fin n q1) as [[q2 a2] p2] eqn:R2. intros [= <- <- ->].
  apply (IH q1 q2 a2); auto. apply (run_one_ei q t r q1 a1 I P E R1).
Qed.
Notation main := (main_poll X step fin).
Lemma loop_ei f : forall s s', OI X s -> EI (xs _ s) -> run_loop qu main f s = Live s' -> EI (xs _ s').
Proof.
  induction f as [|f IH]; intros s s' [I A] P; cbn [run_loop]; [discriminate|].
  destruct (scheduled qu s) eqn:SC; [|intros [= <-]; exact P].
  cbn [xs scheduled active timers tr]. destruct (main (xs qu s)) as [[x acts] p] eqn:M. unfold main_poll in M.
  destruct p; [discriminate|]. apply IH.
  - destruct (batch_qi X step fin 200 _ _ _ _ I M) as [K1 _]. destruct (K1 eq_refl) as [K3 K4].
    split; cbn; rewrite acts_xs; cbn; auto. intro Q. left. apply acts_sched. left. destruct K4; [congruence|auto].
  - cbn. rewrite acts_xs. cbn. eapply batch_ei; eauto.
Qed.
Lemma run_now_ei f s s' : OI X s -> EI (xs _ s) -> run_now qu main f s = Live s' -> EI (xs _ s').
Proof.
  intros [I A] P. unfold run_now. destruct (active qu s); [intros [= <-]; exact P|]. apply loop_ei; [|exact P]. split; cbn; auto.
  intro Q. destruct (A Q) as [Z|Z]; auto. right. intros [E|E]; [discriminate|auto].
Qed.
Definition env_ok (f : X -> X) (x : X) : Prop := J x -> J (f x) /\ (forall t, fini t (f x) <-> fini t x) /\ (forall p, Pl p x -> Pl p (f x)).
Lemma xexec_ei s e s' : OI X s -> EI (xs _ s) -> (forall f, e = XEnv f -> env_ok f (q_x (xs _ s))) -> xexec X step fin (Live s) e = Live s' -> EI (xs _ s').
Proof.
  intros O P EV. destruct e as [a|f|f|f]; cbn [xexec].
  - pose proof (acts_ei (xs _ s) [Some a] P) as K. cbn [do_tacts] in K. cbn [events]. destruct (do_tact X a (xs qu s)) as [q' al].
    cbn [fst fold_left exec exec1] in *.
    destruct (swakes_facts X step fin al (mkEx qu (scheduled qu s) (active qu s) (timers qu s) q' (tr qu s))) as (s1 & E1 & E & _). rewrite E1. intros [= <-]. rewrite E. exact K.
  - cbn [events fold_left exec exec1]. intros [= <-]. cbn. destruct (EV f eq_refl (ei_J _ P)) as (A & B & C).
    destruct P as [P1 P2 P3 P4]. constructor; cbn; auto.
    + intros t D. apply P2. apply B, D.
    + intros t H. destruct (P3 t H); auto. right. apply B. auto.
  - cbn [events fold_left exec exec1]. destruct (timers qu s) as [|n]; [intros [= <-]; auto|]. apply run_now_ei; auto.
  - cbn [events fold_left exec exec1]. apply run_now_ei; auto.
Qed.
Lemma xrun_ei x evs : J x -> (forall t, ~ fini t x) -> Pl [] x -> (forall f y, In (XEnv f) evs -> env_ok f y) ->
  forall s, xrun X step fin x evs = Live s -> EI (xs _ s).
Proof.
  intros J0 D0 P0. induction evs as [|e evs IH] using rev_ind; intros EV s R.
  - injection R as <-. cbn. constructor; cbn; auto. intros t Q. destruct (D0 t Q).
  - unfold xrun in R. rewrite fold_left_app in R. cbn [fold_left] in R. destruct (xexec_live_from X step fin _ _ _ R) as (s0 & E).
    rewrite E in R. apply (xexec_ei s0 e s); auto.
    + apply (proj1 (xrun_inv X step fin x evs) s0 E).
    + apply IH; auto. intros f y H. apply EV. apply in_app_iff. auto.
    + intros f ->. apply EV. apply in_app_iff. cbn. auto.
Qed.
End Ends.

(** ** pages *)
From Verif Require Import Arena Readiness Combinator Tree Spec_tree Tree_proofs App App_proofs Page Page_proofs.
Section PageEnds.
Variables V X : Type.
Variable ww : waker -> waker -> bool.
Hypothesis WW : Spec_arena.will_wake_ok ww.
Variable debug : bool.
Variable bound : nat.
Variable code : nat -> X -> place -> option V -> X * list gact * next V.
Variable on_drop : nat -> X -> X * list gact.
Hypothesis CO : forall t x p got x' l k b n, code t x p got = (x', l, NAwait k b n) -> beh_ok b /\ (k = KTuple -> n > 0).
Notation page := (page V X).
Notation Good := (Good V X ww debug code).
Notation step := (page_step V X ww debug bound code).
Notation fin := (page_fin V X on_drop).
Definition fini (t : nat) (y : page) : Prop := w_over V (X * list gact) (pg_t V X y t) = true.
Notation EI := (EI page Good fini (fun _ _ => True)).
Lemma p_S_d t x x' l o u : Good x -> ~ fini t x -> step t x = (x', l, o) -> o <> Panics -> (fini u x' <-> fini u x \/ (u = t /\ o = Ready)).
Proof.
  intros G N S P. unfold fini in *. destruct (step_woke V X ww debug bound code WW CO t x x' l o G (not_true_is_false _ N) S P) as (_ & A & B & _).
  destruct (Nat.eq_dec u t) as [->|D]; [rewrite <- A; intuition congruence|rewrite B by auto; intuition].
Qed.
Lemma p_F_d t x x' l u : Good x -> fin t x = (x', l) -> (fini u x' <-> fini u x).
Proof.
  intros G F. pose proof (fin_ok V X ww debug code on_drop WW CO t x G) as H. rewrite F in H. destruct H as (_ & W & _). unfold fini. rewrite W. tauto.
Qed.
Lemma p_S_J t x x' l o : Good x -> step t x = (x', l, o) -> o <> Panics -> Good x'.
Proof. intros G S _. pose proof (step_good V X ww debug bound code WW CO t x G) as H. rewrite S in H. exact H. Qed.
Lemma p_F_J t x x' l : Good x -> fin t x = (x', l) -> Good x'.
Proof. intros G F. pose proof (fin_ok V X ww debug code on_drop WW CO t x G) as H. rewrite F in H. apply H. Qed.
Lemma x_ei s e s' : OI page s -> EI (xs _ s) -> (forall f, e = XEnv f -> env_ok page Good fini (fun _ _ => True) f (q_x _ (xs _ s))) ->
  xexec page step fin (Live s) e = Live s' -> EI (xs _ s').
Proof. apply xexec_ei; [exact p_S_J|exact p_S_d|auto|exact p_F_J|exact p_F_d|auto]. Qed.
Lemma acts_p_ei l : forall s s', EI (xs _ s) -> fold_left (xexec page step fin) (acts_of V X l) (Live s) = Live s' -> EI (xs _ s').
Proof.
  intros s s' P. destruct (xdos_xs V X ww debug bound code on_drop l s) as (s1 & -> & E). intros [= <-]. rewrite E. apply acts_ei. exact P.
Qed.
Lemma pexec_ei s e s' : OI page s -> EI (xs _ s) -> pexec V X ww debug bound code on_drop (Live s) e = Live s' -> EI (xs _ s').
Proof.
  intros O P. destruct e as [a|g|f|f]; cbn [pexec pevents].
  - pose proof (do_gact_ok V X ww debug code WW CO a _ (ei_J _ _ _ _ _ P)) as H. destruct (do_gact V X a (q_x _ (xs _ s))) as [y' l]. destruct H as [G W].
    cbn [fold_left]. fold (acts_of V X l). destruct (xexec page step fin (Live s) (XEnv (fun _ => y'))) as [s1| |] eqn:E; try discriminate E.
    apply acts_p_ei. apply (x_ei s _ s1 O P) in E; auto. intros f [= <-] _. split; auto. split; auto. intro t. unfold fini. rewrite (proj1 W). tauto.
  - destruct (g (pg_x V X (q_x _ (xs _ s)))) as [x a].
    assert (G1 : Good (mkPg V X (pg_t V X (q_x _ (xs _ s))) x (pg_fault V X (q_x _ (xs _ s))))) by (destruct (ei_J _ _ _ _ _ P); constructor; auto).
    pose proof (do_gacts_ok V X ww debug code WW CO a _ G1) as H. destruct (do_gacts V X a _) as [y' l]. destruct H as [G W].
    cbn [fold_left]. fold (acts_of V X l). destruct (xexec page step fin (Live s) (XEnv (fun _ => y'))) as [s1| |] eqn:E; try discriminate E.
    apply acts_p_ei. apply (x_ei s _ s1 O P) in E; auto. intros f [= <-] _. split; auto. split; auto. intro t. unfold fini. rewrite (proj1 W). cbn. tauto.
  - cbn [fold_left]. apply x_ei; auto. intros g [=].
  - cbn [fold_left]. apply x_ei; auto. intros g [=].
Qed.
Lemma prun_ei x evs : forall s, prun V X ww debug bound code on_drop x evs = Live s -> EI (xs _ s).
Proof.
  induction evs as [|e evs IH] using rev_ind; intros s R.
  - injection R as <-. cbn. constructor; cbn; auto.
    + constructor; auto. intro t. exists (x, []), []. reflexivity.
    + discriminate.
  - pose proof R as R0. unfold prun in R0. rewrite fold_left_app in R0. cbn [fold_left] in R0.
    destruct (pexec_live_from V X ww debug bound code on_drop _ _ _ R0) as (s0 & E). rewrite E in R0. apply (pexec_ei s0 e s); auto.
    apply (prun_pi V X ww debug bound code on_drop WW CO x evs s0 E).
Qed.
End PageEnds.
