(** Proofs for C66, tasks and pages: what code does is done, and nothing else. *)
From Coq Require Import List Arith Bool Lia.
From Verif Require Import Util Arena Spec_arena Readiness Combinator Tree Spec_tree Tree_proofs Executor Spec_executor Executor_proofs
  Queue Spec_queue Queue_proofs App App_proofs Page Page_proofs Spec_obey Obey_proofs.
Import ListNotations.

Lemma count_app {A} (f : A -> bool) l l' : count f (l ++ l') = count f l + count f l'.
Proof. unfold count. rewrite filter_app, app_length. reflexivity. Qed.
Lemma count_cons {A} (f : A -> bool) a l : count f (a :: l) = (if f a then 1 else 0) + count f l.
Proof. unfold count. cbn. destruct (f a); reflexivity. Qed.

Section Track.
Variable X : Type.
Variable step : nat -> X -> X * list (option tact) * outcome.
Variable fin : nat -> X -> X * list (option tact).
Variable J : X -> Prop.
Variable Rx : X -> list (option tact) -> list nat -> X -> Prop.
Hypothesis J_step : forall t x x' l o, J x -> step t x = (x', l, o) -> J x' /\ Rx x l [] x'.
Hypothesis J_fin : forall t x x' l, J x -> fin t x = (x', l) -> J x' /\ Rx x l [t] x'.
Hypothesis Rx_nil : forall x, Rx x [] [] x.
Hypothesis Rx_app : forall x l d x' l' d' x'', Rx x l d x' -> Rx x' l' d' x'' -> Rx x (l ++ l') (d ++ d') x''.
Notation qu := (qu X). Notation qtr := (q_tr X). Notation q_x := (q_x X).
Notation main := (main_poll X step fin).
Notation qc a q := (count (q_does a) (qtr q)).
(** the trace of [q'] tells that of [q], and then that [l] was done *)
Definition tells (q q' : qu) (l : list (option tact)) : Prop :=
  (forall a, qc a q' = qc a q + count (does a) l) /\ orders (qtr q') = orders (qtr q) ++ t_orders l.
Lemma t_orders_app l l' : t_orders (l ++ l') = t_orders l ++ t_orders l'.
Proof. apply flat_map_app. Qed.
Lemma tells_trans a b c l l' : tells a b l -> tells b c l' -> tells a c (l ++ l').
Proof. intros [C O] [C' O']. split; [intro x; rewrite C', C, count_app; lia|]. rewrite O', O, t_orders_app, app_assoc. reflexivity. Qed.
Lemma tells_same q q' : (forall a, qc a q' = qc a q) -> orders (qtr q') = orders (qtr q) -> tells q q' [].
Proof. intros C O. split; [intro a; rewrite C; cbn; lia|]. rewrite O. cbn. rewrite app_nil_r. reflexivity. Qed.
Lemma tells_from q0 q q' l : (forall a, qc a q = qc a q0) -> orders (qtr q) = orders (qtr q0) -> tells q q' l -> tells q0 q' l.
Proof. intros C O [C' O']. split; [intro a; rewrite C', C; reflexivity|]. rewrite O', O. reflexivity. Qed.

Lemma do_tact_count b q : q_x (fst (do_tact X b q)) = q_x q /\
  drops (qtr (fst (do_tact X b q))) = drops (qtr q) /\ tells q (fst (do_tact X b q)) [Some b].
Proof.
  assert (K : forall q' e, q_x q' = q_x q -> qtr q' = e :: qtr q -> (forall a, q_does a e = does a (Some b)) -> drops [e] = [] ->
    orders [e] = t_orders [Some b] ->
    q_x q' = q_x q /\ drops (qtr q') = drops (qtr q) /\ tells q q' [Some b]).
  { intros q' e E1 E2 E3 E4 E5. split; auto. split; [rewrite E2; destruct e; auto; discriminate E4|].
    split; [intro a; rewrite E2, !count_cons, E3; cbn; lia|]. rewrite E2, <- E5. destruct e; cbn; rewrite ?app_nil_r; reflexivity. }
  destruct b as [t| |t|]; cbn [do_tact].
  - assert (E : forall a, q_does a (QWake t) = does a (Some (TWake t))) by (intros []; reflexivity).
    destruct (_ && negb (t_sched _)); [destruct (t_run _)|]; apply (K _ (QWake t)); auto.
  - apply (K _ (QSpawn (q_n X q))); auto.
  - assert (E : forall a, q_does a (QCancel t) = does a (Some (TCancel t))) by (intros []; reflexivity).
    destruct (_ && negb (t_closed _)); [destruct (_ || _)|]; apply (K _ (QCancel t)); auto.
  - split; auto. split; auto. split; [intros []; cbn; lia|]. cbn. rewrite app_nil_r. reflexivity.
Qed.
Lemma do_tacts_count l : forall q, q_x (fst (do_tacts X l q)) = q_x q /\
  drops (qtr (fst (do_tacts X l q))) = drops (qtr q) /\ tells q (fst (do_tacts X l q)) l.
Proof.
  induction l as [|[b|] l IH]; intro q; cbn [do_tacts].
  - split; [reflexivity|]. split; [reflexivity|]. apply tells_same; auto.
  - destruct (do_tact_count b q) as (E & D & C). destruct (do_tact X b q) as [q1 a1]. cbn [fst] in *.
    destruct (IH q1) as (E2 & D2 & C2). destruct (do_tacts X l q1) as [q2 a2]. cbn [fst] in *. split; [congruence|]. split; [congruence|].
    apply (tells_trans _ _ _ [Some b] l C C2).
  - destruct (IH q) as (E2 & D2 & C2). destruct (do_tacts X l q) as [q2 a2]. cbn [fst] in *. split; [auto|]. split; [auto|].
    destruct C2 as [C2 O2]. split; [|exact O2]. intro a. rewrite C2, count_cons. destruct a; cbn; lia.
Qed.

Definition RQ (q q' : qu) : Prop := J (q_x q) -> J (q_x q') /\
  exists l d, tells q q' l /\ drops (qtr q') = drops (qtr q) ++ d /\ Rx (q_x q) l d (q_x q').
Lemma RQ_refl q : RQ q q.
Proof. intro H. split; auto. exists [], []. rewrite app_nil_r. split; [|split; [auto|apply Rx_nil]]. apply tells_same; auto. Qed.
Lemma RQ_trans a b c : RQ a b -> RQ b c -> RQ a c.
Proof.
  intros H1 H2 Ja. destruct (H1 Ja) as (Jb & l & d & C & D & R). destruct (H2 Jb) as (Jc & l' & d' & C' & D' & R'). split; auto.
  exists (l ++ l'), (d ++ d'). split; [eapply tells_trans; eauto|]. split; eauto. rewrite D', D, app_assoc. reflexivity.
Qed.
Lemma RQ_same q q' : q_x q' = q_x q -> drops (qtr q') = drops (qtr q) -> orders (qtr q') = orders (qtr q) -> (forall a, qc a q' = qc a q) -> RQ q q'.
Proof. intros E D O C H. rewrite E. split; auto. exists [], []. rewrite app_nil_r. split; [|split; [auto|apply Rx_nil]]. apply tells_same; auto. Qed.
Lemma RQ_acts q q1 x' l d : (J (q_x q) -> J x' /\ Rx (q_x q) l d x') -> q_x q1 = x' -> drops (qtr q1) = drops (qtr q) ++ d -> orders (qtr q1) = orders (qtr q) ->
  (forall a, qc a q1 = qc a q) -> RQ q (fst (do_tacts X l q1)).
Proof.
  intros H E D O C Jq. destruct (H Jq) as [J' R]. destruct (do_tacts_count l q1) as (E2 & D2 & C2). rewrite E2, E. split; auto.
  exists l, d. split; [eapply tells_from; eauto|]. split; auto. congruence.
Qed.
Lemma drop_RQ t q : RQ q (fst (drop_fut X fin t q)).
Proof.
  unfold drop_fut. destruct (fin t (q_x q)) as [x l] eqn:E. eapply RQ_acts with (d := [t]); [|reflexivity|reflexivity|reflexivity|].
  - intro H. eapply J_fin; eauto.
  - intros []; reflexivity.
Qed.
Lemma run_one_RQ t q : let '(q', al, p) := run_one X step fin t q in RQ q q'.
Proof.
  unfold run_one. destruct (t_closed (q_st X q t)).
  - pose proof (drop_RQ t q) as H. destruct (drop_fut X fin t q). exact H.
  - destruct (step t (q_x q)) as [[x l] o] eqn:E.
    pose proof (RQ_acts q (q_emit X (QPoll t) (q_sets X t (mkT false true false false) (q_setx X x q))) x l []) as K. rewrite app_nil_r in K.
    destruct (do_tacts X l _) as [q1 a1]. cbn [fst] in K.
    assert (R1 : RQ q q1). { apply K; [intro H; eapply J_step; eauto|reflexivity|reflexivity|reflexivity|intros []; reflexivity]. }
    assert (D : RQ q (fst (drop_fut X fin t (q_emit X (QEnd t) q1)))).
    { eapply RQ_trans; [exact R1|]. eapply RQ_trans; [|apply drop_RQ]. apply RQ_same; [reflexivity|reflexivity|reflexivity|]. intros []; reflexivity. }
    destruct (drop_fut X fin t (q_emit X (QEnd t) q1)) as [q2 a2]. cbn [fst] in D.
    destruct o; auto. destruct (t_closed (q_st X q1 t)); [exact D|].
    destruct (t_sched (q_st X q1 t)); cbn [push]; (eapply RQ_trans; [exact R1|apply RQ_same; [reflexivity|reflexivity|reflexivity|intros []; reflexivity]]).
Qed.
Lemma batch_RQ n : forall q, let '(q', al, p) := batch X step fin n q in RQ q q'.
Proof.
  induction n as [|n IH]; intro q; cbn [batch]; [apply RQ_refl|].
  destruct (q_run X q) as [|t r]; [apply RQ_same; auto|].
  pose proof (run_one_RQ t (mkQ X (q_x q) r (q_n X q) (q_st X q) false (qtr q))) as H.
  destruct (run_one X step fin t _) as [[q1 a1] p1].
  assert (R1 : RQ q q1) by (eapply RQ_trans; [|exact H]; apply RQ_same; auto).
  destruct p1; auto. specialize (IH q1). destruct (batch X step fin n q1) as [[q2 a2] p2]. eapply RQ_trans; eauto.
Qed.
Definition RR (q : qu) (r : rres qu) : Prop := match r with Live s | Crashed s => RQ q (xs _ s) | Stuck => True end.
Lemma RR_trans q q' r : RQ q q' -> RR q' r -> RR q r.
Proof. destruct r as [s|s|]; cbn; auto; apply RQ_trans. Qed.
Lemma loop_RQ f : forall s, RR (xs _ s) (run_loop qu main f s).
Proof.
  induction f as [|f IH]; intros s; cbn [run_loop]; [exact Logic.I|].
  destruct (scheduled qu s); [|apply RQ_refl]. cbn [xs scheduled active timers tr].
  pose proof (batch_RQ 200 (xs qu s)) as H. unfold main_poll. destruct (batch X step fin 200 (xs qu s)) as [[x acts] p].
  destruct p; [cbn; rewrite acts_xs; exact H|]. eapply RR_trans; [|apply IH]. cbn. rewrite acts_xs. exact H.
Qed.
Lemma exec1_RQ s e : (forall f, e <> SEnv qu f) -> RR (xs _ s) (exec1 qu main s e).
Proof.
  intro N. destruct e as [|f|f|f]; cbn [exec1].
  - unfold schedule. destruct (_ && _); apply RQ_refl.
  - destruct (timers qu s) as [|n]; [apply RQ_refl|]. unfold run_now. destruct (active qu _); [apply RQ_refl|].
    apply (loop_RQ f (mkEx qu (scheduled qu s) true n (xs qu s) (Executor.ERun :: tr qu s))).
  - unfold run_now. destruct (active qu s); [apply RQ_refl|]. apply (loop_RQ f (mkEx qu (scheduled qu s) true (timers qu s) (xs qu s) (Executor.ERun :: tr qu s))).
  - destruct (N f); auto.
Qed.
(** the state of the queue after a history *)
Definition qof (r : rres qu) : option qu := match r with Live s | Crashed s => Some (xs _ s) | Stuck => None end.
Lemma exec_RQ r e q : (forall f, e <> SEnv qu f) -> qof r = Some q -> forall q', qof (exec qu main r e) = Some q' -> RQ q q'.
Proof.
  intros N Q q' Q'. destruct r as [s|s|]; [| |discriminate]; injection Q as <-; cbn [exec] in Q'; pose proof (exec1_RQ s e N) as H;
    destruct (exec1 qu main s e) as [s'|s'|]; try discriminate Q'; injection Q' as <-; exact H.
Qed.
Lemma env_qof r f q : qof r = Some q -> qof (exec qu main r (SEnv qu f)) = Some (f q).
Proof. destruct r as [s|s|]; [| |discriminate]; intros [= <-]; reflexivity. Qed.
Lemma swakes_qof (al : list act) : forall r q, qof r = Some q -> qof (fold_left (exec qu main) (map (fun _ => SWake qu) al) r) = Some q.
Proof.
  induction al as [|b al IH]; intros r q Q; cbn [map fold_left]; auto. apply IH.
  destruct r as [s|s|]; [| |discriminate]; injection Q as <-; cbn [exec exec1 qof]; unfold schedule; destruct (_ && _); reflexivity.
Qed.
Lemma xdo_qof r a q : qof r = Some q -> qof (xexec X step fin r (XDo a)) = Some (fst (do_tact X a q)).
Proof.
  intro Q. assert (K : qof (fold_left (exec qu main) (events X q (XDo a)) r) = Some (fst (do_tact X a q))).
  { cbn [events]. destruct (do_tact X a q) as [q' al]. cbn [fold_left fst]. apply swakes_qof. apply (env_qof r (fun _ => q') q Q). }
  destruct r as [s|s|]; [| |discriminate]; injection Q as <-; exact K.
Qed.
Lemma xenv_qof r f q : qof r = Some q -> qof (xexec X step fin r (XEnv f)) = Some (q_setx X (f (q_x q)) q).
Proof.
  intro Q. assert (K : qof (fold_left (exec qu main) (events X q (XEnv f)) r) = Some (q_setx X (f (q_x q)) q)).
  { cbn [events fold_left]. apply (env_qof r (fun q => q_setx X (f (q_x q)) q) q Q). }
  destruct r as [s|s|]; [| |discriminate]; injection Q as <-; exact K.
Qed.
Lemma xrun_qof r e q : qof r = Some q -> (exists f, e = XFire f \/ e = XRun f) -> forall q', qof (xexec X step fin r e) = Some q' -> RQ q q'.
Proof.
  intros Q (f & HE) q' Q'. assert (K : exists e', (forall f, e' <> SEnv qu f) /\ xexec X step fin r e = exec qu main r e').
  { destruct r as [s|s|]; [| |discriminate]; destruct HE as [->| ->]; cbn [xexec events fold_left];
      first [exists (SFire qu f); split; [discriminate|reflexivity]|exists (SRun qu f); split; [discriminate|reflexivity]]. }
  destruct K as (e' & N & E). rewrite E in Q'. eapply exec_RQ; eauto.
Qed.
Lemma xexec_stuck r e : qof r = None -> qof (xexec X step fin r e) = None.
Proof. destruct r; [discriminate|discriminate|reflexivity]. Qed.
End Track.

(** ** tasks that keep a log *)
Section Tasks.
Variable X : Type.
Variable step : nat -> X -> X * list (option tact) * outcome.
Variable fin : nat -> X -> X * list (option tact).
Variable log : X -> list (option tact).
Definition Lx (x : X) (l : list (option tact)) (x' : X) : Prop := log x' = log x ++ l.
Lemma tasks_counted x evs : keeps_log log step fin evs -> log x = [] -> forall q, qof X (xrun X step fin x evs) = Some q ->
  forall a, count (q_does a) (q_tr X q) = count (does a) (log (q_x X q)) + count (outside a) evs.
Proof.
  intros K L0. revert K. induction evs as [|e evs IH] using rev_ind; intros (KS & KF & KE) q Q a.
  - injection Q as <-. cbn. rewrite L0. reflexivity.
  - unfold xrun in Q. rewrite fold_left_app in Q. cbn [fold_left] in Q. fold (xrun X step fin x evs) in Q.
    destruct (qof X (xrun X step fin x evs)) as [q0|] eqn:Q0; [|rewrite xexec_stuck in Q by auto; discriminate].
    assert (C0 : count (q_does a) (q_tr X q0) = count (does a) (log (q_x X q0)) + count (outside a) evs).
    { apply IH; auto. split; auto. split; auto. intros f y H. apply KE. apply in_app_iff. auto. }
    rewrite count_app. destruct e as [b|f|f|f].
    + rewrite (xdo_qof X step fin _ b q0 Q0) in Q. injection Q as <-. destruct (do_tact_count X b q0) as (E & _ & C & _).
      rewrite E, C, C0, !(count_cons _ _ []). cbn [outside]. change (count (outside a) []) with 0. change (count (does a) []) with 0. lia.
    + rewrite (xenv_qof X step fin _ f q0 Q0) in Q. injection Q as <-. cbn. rewrite KE by (apply in_app_iff; cbn; auto).
      unfold count in *. cbn. lia.
    + apply (xrun_qof X step fin (fun _ => True) (fun x l _ x' => Lx x l x')) with (q := q0) in Q; eauto.
      * destruct (Q Logic.I) as (_ & l & d & (C & _) & _ & E). rewrite C, E, count_app, C0. unfold count. cbn. lia.
      * intros t y y' l o _ E. split; auto. unfold Lx. eauto.
      * intros t y y' l _ E. split; auto. unfold Lx. eauto.
      * intro y. unfold Lx. rewrite app_nil_r. reflexivity.
      * unfold Lx. intros y l d y' l' d' y'' E E'. rewrite E', E, app_assoc. reflexivity.
    + apply (xrun_qof X step fin (fun _ => True) (fun x l _ x' => Lx x l x')) with (q := q0) in Q; eauto.
      * destruct (Q Logic.I) as (_ & l & d & (C & _) & _ & E). rewrite C, E, count_app, C0. unfold count. cbn. lia.
      * intros t y y' l o _ E. split; auto. unfold Lx. eauto.
      * intros t y y' l _ E. split; auto. unfold Lx. eauto.
      * intro y. unfold Lx. rewrite app_nil_r. reflexivity.
      * unfold Lx. intros y l d y' l' d' y'' E E'. rewrite E', E, app_assoc. reflexivity.
Qed.
End Tasks.

(** ** pages that keep a log *)
Lemma wakes_app {V} p (a b : list (Tree.ev V)) : Spec_tree.wakes p (a ++ b) = Spec_tree.wakes p a + Spec_tree.wakes p b.
Proof. induction a as [|e a IH]; cbn; auto. destruct e; auto. destruct (place_eqb p0 p); lia. Qed.
Lemma wakes_rev {V} p (a : list (Tree.ev V)) : Spec_tree.wakes p (rev a) = Spec_tree.wakes p a.
Proof. induction a as [|e a IH]; cbn; auto. rewrite wakes_app, IH. destruct e; cbn; lia. Qed.
Lemma made_app {V} p (a b : list (Tree.ev V)) : made p b -> made p (a ++ b).
Proof. destruct p as [|n i]; cbn; auto. intros (k & c & q & H & L). exists k, c, q. split; auto. apply in_app_iff. auto. Qed.
Lemma chain_wakes {V} (t : list (Tree.ev V)) p l : chain t p l -> Spec_tree.wakes p (map (@Tree.EWake V) l) >= 1.
Proof. intro C. destruct C; cbn [map Spec_tree.wakes]; rewrite place_eqb_refl; lia. Qed.
Lemma woke_wakes {V} (t : list (Tree.ev V)) p ws ks : woke t ws ks -> made p t -> Spec_tree.wakes p (map (@Tree.EWake V) ks) >= count (place_eqb p) ws.
Proof.
  intros W M. induction W as [|q ws ks N W IH|q ws l ks N C W IH].
  - cbn. lia.
  - rewrite count_cons. destruct (place_eqb_spec p q) as [->|]; [contradiction|]. cbn. exact IH.
  - rewrite count_cons, map_app, wakes_app. destruct (place_eqb_spec p q) as [->|]; [pose proof (chain_wakes _ _ _ C)|]; lia.
Qed.
Lemma own_count t p l : count (place_eqb p) (flat_map (own t) l) = count (g_does (GWake t p)) l.
Proof.
  induction l as [|a l IH]; cbn [flat_map]; auto. rewrite count_app, count_cons, IH. f_equal. destruct a as [u q| | | |]; cbn; auto.
  rewrite (Nat.eqb_sym u t). destruct (Nat.eqb t u); cbn; auto. unfold count. cbn. destruct (place_eqb p q); reflexivity.
Qed.
Lemma foreign_count t l a : (forall p, a <> GWake t p) -> count (g_does a) (filter (foreign t) l) = count (g_does a) l.
Proof.
  intro N. induction l as [|b l IH]; cbn [filter]; auto. destruct (foreign t b) eqn:F; rewrite ?count_cons, IH; auto.
  destruct b as [u q| | | |]; try discriminate F. cbn in F. apply negb_false_iff, Nat.eqb_eq in F as ->.
  destruct a as [u p| | | |]; cbn; auto. destruct (Nat.eqb_spec u t) as [->|]; [destruct (N p); auto|reflexivity].
Qed.

Section Pages.
Variables V X : Type.
Variable ww : waker -> waker -> bool.
Variable debug : bool.
Variable bound : nat.
Variable code : nat -> X -> place -> option V -> X * list gact * next V.
Variable on_drop : nat -> X -> X * list gact.
Variable log : X -> list gact.
Hypothesis WW : will_wake_ok ww.
Hypothesis CO : forall t x p got x' l k b n, code t x p got = (x', l, NAwait k b n) -> beh_ok b /\ (k = KTuple -> n > 0).
Hypothesis LC : forall t x p got x' l nx, code t x p got = (x', l, nx) -> log x' = log x ++ l.
Hypothesis LD : forall t x x' l, on_drop t x = (x', l) -> log x' = log x ++ l.
Notation Z := (X * list gact)%type.
Notation page := (page V X). Notation ttr := (w_tr V Z). Notation bcode := (block_code V X code).
Notation step := (page_step V X ww debug bound code). Notation fin := (page_fin V X on_drop).
Notation pg_t := (pg_t V X). Notation pg_x := (pg_x V X).
Notation Good := (Good V X ww debug code).
Notation twakes := Spec_tree.wakes.

Lemma prog_PI t w : prog V X ww debug code t w -> Obey_proofs.PI V Z w.
Proof. intros (z & evs & R). eapply (run_PI V Z ww debug (bcode t) WW); [apply (PI_start V Z z)|exact R]. Qed.

(** what acts, counted by [n], do to the applications, with [l] what they do to tasks *)
Record Rp (n : gact -> nat) (l : list (option tact)) (y y' : page) : Prop := {
  rp_spawn : count (does TSpawn) l = n GSpawn;
  rp_cancel : forall u, count (does (TCancel u)) l = n (GCancel u);
  rp_root : forall u, twakes Root (ttr (pg_t y' u)) = twakes Root (ttr (pg_t y u)) + count (does (TWake u)) l;
  rp_wake : forall u p, made p (ttr (pg_t y u)) -> made p (ttr (pg_t y' u)) /\
    twakes p (ttr (pg_t y' u)) >= twakes p (ttr (pg_t y u)) + n (GWake u p) }.
Definition gc (L : list gact) (a : gact) : nat := count (g_does a) L.
Lemma Rp_nil n y y' : (forall a, n a = 0) -> pg_t y' = pg_t y -> Rp n [] y y'.
Proof. intros N E. constructor; intros; rewrite ?N, ?E; cbn; auto. split; auto. lia. Qed.
Lemma Rp_app n m k l l' a b c : (forall g, k g = n g + m g) -> Rp n l a b -> Rp m l' b c -> Rp k (l ++ l') a c.
Proof.
  intros K H1 H2. constructor; intros; rewrite ?K, ?count_app.
  - rewrite (rp_spawn _ _ _ _ H1), (rp_spawn _ _ _ _ H2). reflexivity.
  - rewrite (rp_cancel _ _ _ _ H1), (rp_cancel _ _ _ _ H2). reflexivity.
  - rewrite (rp_root _ _ _ _ H2), (rp_root _ _ _ _ H1). lia.
  - destruct (rp_wake _ _ _ _ H1 u p H) as [M1 W1]. destruct (rp_wake _ _ _ _ H2 u p M1) as [M2 W2]. split; auto. lia.
Qed.
Lemma count_repeat u a n : count (does a) (repeat (Some (TWake u)) n) = if does a (Some (TWake u)) then n else 0.
Proof. induction n as [|n IH]; cbn [repeat]; [destruct (does a _); reflexivity|]. rewrite count_cons, IH. destruct (does a _); reflexivity. Qed.

Lemma do_gact_rp a y : Good y -> let (y', l) := do_gact V X a y in Good y' /\ pg_x y' = pg_x y /\ Rp (gc [a]) l y y'.
Proof.
  intro G. pose proof (do_gact_ok V X ww debug code WW CO a y G) as H. destruct (do_gact V X a y) as [y' l] eqn:E. destruct H as [G' _]. split; auto.
  destruct a as [u p| |u| |]; cbn [do_gact] in E.
  - pose proof (prog_PI u _ (gd_prog _ _ _ _ _ _ G u)) as P.
    destruct (wake_place V Z (pg_t y u) p) as [w| | |] eqn:EW; try (injection E as <- <-; discriminate (gd_fault _ _ _ _ _ _ G')).
    injection E as <- <-. split; auto.
    assert (K : exists evs, ttr w = evs ++ ttr (pg_t y u) /\ (made p (ttr (pg_t y u)) -> twakes p evs >= 1)).
    { destruct (wake_place_chain V Z (pg_t y u) p w P EW) as [(M & ks & C & E1 & _)|(M & ->)].
      - eexists. split; [exact E1|]. intros _. rewrite wakes_rev. eapply chain_wakes; eauto.
      - exists []. split; [reflexivity|contradiction]. }
    destruct K as (evs & E1 & W1). rewrite E1, root_wakes_app. constructor.
    + rewrite count_repeat. reflexivity.
    + intro v. rewrite count_repeat. reflexivity.
    + intro v. rewrite count_repeat. cbn. destruct (Nat.eqb_spec v u) as [->|]; [rewrite E1, wakes_app; lia|lia].
    + intros v q M. cbn. destruct (Nat.eqb_spec v u) as [->|].
      * rewrite E1. split; [apply made_app; auto|]. rewrite wakes_app. unfold gc, count. cbn. rewrite ?Nat.eqb_refl. cbn.
        destruct (place_eqb_spec q p) as [->|]; cbn; [specialize (W1 M)|]; lia.
      * split; auto. unfold gc, count. cbn. destruct (Nat.eqb_spec v u); [contradiction|]. cbn. lia.
  - injection E as <- <-. split; auto. constructor; intros; cbn; auto. split; auto. unfold gc, count. cbn. lia.
  - injection E as <- <-. split; auto. constructor; intros; cbn; auto.
    + unfold gc, count. cbn. destruct (Nat.eqb u0 u); reflexivity.
    + split; auto. unfold gc, count. cbn. lia.
  - injection E as <- <-. split; auto. constructor; intros; cbn; auto. split; auto. unfold gc, count. cbn. lia.
  - injection E as <- <-. split; auto. constructor; intros; cbn; auto. split; auto. unfold gc, count. cbn. lia.
Qed.
Lemma do_gacts_rp l : forall y, Good y -> let (y', al) := do_gacts V X l y in Good y' /\ pg_x y' = pg_x y /\ Rp (gc l) al y y'.
Proof.
  induction l as [|a l IH]; intros y G; cbn [do_gacts].
  - split; auto. split; auto. apply Rp_nil; auto.
  - pose proof (do_gact_rp a y G) as H. destruct (do_gact V X a y) as [y1 l1]. destruct H as (G1 & E1 & R1).
    pose proof (IH y1 G1) as H. destruct (do_gacts V X l y1) as [y2 l2]. destruct H as (G2 & E2 & R2).
    split; auto. split; [congruence|]. eapply Rp_app; [|exact R1|exact R2]. intro g. unfold gc. rewrite <- count_app. reflexivity.
Qed.

(** the code of one application *)
Lemma plays_log t tr z l z' : plays (bcode t) tr z l z' -> exists L, log (fst z') = log (fst z) ++ L /\
  snd z' = snd z ++ filter (foreign t) L /\ forall p, made p tr -> twakes p l >= count (g_does (GWake t p)) L.
Proof.
  intro P. induction P as [tr z|tr z p got z1 ws nx ks e l z2 E W N P IH|tr z e l z2 E P IH].
  - exists []. rewrite !app_nil_r. split; auto.
  - destruct IH as (L & E1 & E2 & C). unfold block_code in E. destruct (code t (fst z) p got) as [[x a] nx'] eqn:EC. injection E as <- <- <-.
    cbn [fst snd] in *. exists (a ++ L). split; [rewrite E1, (LC _ _ _ _ _ _ _ EC), app_assoc; reflexivity|].
    split; [rewrite E2, filter_app, app_assoc; reflexivity|]. intros q M. cbn. rewrite wakes_app, count_app.
    pose proof (woke_wakes _ _ _ _ W M) as H. rewrite own_count in H.
    assert (M' : made q (e :: rev (map (@Tree.EWake V) ks) ++ Tree.ERun p got :: tr)).
    { change (made q ((e :: rev (map (@Tree.EWake V) ks) ++ [Tree.ERun p got]) ++ tr)) || idtac.
      replace (e :: rev (map (@Tree.EWake V) ks) ++ Tree.ERun p got :: tr) with ((e :: rev (map (@Tree.EWake V) ks) ++ [Tree.ERun p got]) ++ tr)
        by (cbn; rewrite <- app_assoc; reflexivity). apply made_app. exact M. }
    specialize (C q M'). enough (twakes q (e :: l) >= twakes q l) by lia. destruct e; cbn; auto. destruct (place_eqb p0 q); lia.
  - destruct IH as (L & E1 & E2 & C). exists L. split; auto. split; auto. intros p M.
    specialize (C p (made_app p [e] tr M)). destruct e; cbn in *; auto; contradiction.
Qed.

(** the order of spawns and cancellations *)
Lemma t_orders_wakes u n : t_orders (repeat (Some (TWake u)) n) = [].
Proof. induction n; auto. Qed.
Lemma do_gacts_orders l : forall y, t_orders (snd (do_gacts V X l y)) = g_orders l.
Proof.
  induction l as [|a l IH]; intro y; cbn [do_gacts]; auto.
  assert (K : t_orders (snd (do_gact V X a y)) = g_orders [a]).
  { destruct a as [u p| | | |]; auto. cbn [do_gact]. destruct (wake_place V Z (pg_t y u) p); auto. apply t_orders_wakes. }
  destruct (do_gact V X a y) as [y1 l1]. pose proof (IH y1) as H. destruct (do_gacts V X l y1) as [y2 l2]. cbn [snd] in *.
  rewrite t_orders_app, K, H. symmetry. apply (flat_map_app _ [a] l).
Qed.
Lemma foreign_orders t l : g_orders (filter (foreign t) l) = g_orders l.
Proof. induction l as [|a l IH]; auto. cbn [filter]. destruct (foreign t a) eqn:F; cbn; fold (g_orders l); rewrite <- IH; auto. destruct a; auto; discriminate F. Qed.
Definition Rx (y : page) (l : list (option tact)) (y' : page) : Prop :=
  exists L, log (pg_x y') = log (pg_x y) ++ L /\ Rp (gc L) l y y' /\ t_orders l = g_orders L.
Lemma Rx_nil y : Rx y [] y.
Proof. exists []. rewrite app_nil_r. split; auto. split; auto. apply Rp_nil; auto. Qed.
Lemma Rx_app y l y' l' y'' : Rx y l y' -> Rx y' l' y'' -> Rx y (l ++ l') y''.
Proof.
  intros (L & E & R & O) (L' & E' & R' & O'). exists (L ++ L'). split; [rewrite E', E, app_assoc; reflexivity|].
  split; [eapply Rp_app; eauto; intro g; apply count_app|]. rewrite t_orders_app, O, O'. symmetry. apply flat_map_app.
Qed.
Lemma step_rx t y y' l o : Good y -> step t y = (y', l, o) -> Good y' /\ Rx y l y'.
Proof.
  intros G S. pose proof (step_good V X ww debug bound code WW CO t y G) as H. rewrite S in H. split; auto.
  unfold page_step in S. set (w := Tree.set_x V Z (pg_x y, []) (pg_t y t)) in *.
  destruct (Tree.exec V Z ww debug (bcode t) w (HPoll bound 0)) as [w'| | |] eqn:E; try (injection S as <- <- <-; first [apply Rx_nil|discriminate (gd_fault _ _ _ _ _ _ H)]).
  set (y1 := mkPg V X (pg_t (set_app V X t w' y)) (fst (w_x V Z w')) (pg_fault V X y)) in *.
  assert (PW : prog V X ww debug code t w) by (apply prog_set; apply G).
  assert (G1 : Good y1).
  { constructor; [|apply G]. intro u. cbn. destruct (Nat.eqb_spec u t) as [->|]; [|apply G].
    eapply prog_step; eauto. }
  pose proof (do_gacts_rp (snd (w_x V Z w')) y1 G1) as K. pose proof (do_gacts_orders (snd (w_x V Z w')) y1) as O2.
  destruct (do_gacts V X _ _) as [y2 l2]. destruct K as (_ & X2 & R2). cbn [snd] in O2.
  injection S as <- <- <-.
  assert (K : exists new L, ttr w' = new ++ ttr w /\ log (fst (w_x V Z w')) = log (pg_x y) ++ L /\ snd (w_x V Z w') = filter (foreign t) L /\
    forall p, made p (ttr w) -> twakes p new >= count (g_does (GWake t p)) L).
  { destruct (w_over V Z w) eqn:O.
    - cbn [Tree.exec] in E. rewrite O in E. injection E as <-. exists [], []. rewrite app_nil_r. split; [reflexivity|]. split; [reflexivity|]. split; [reflexivity|]. intros. cbn. lia.
    - destruct (poll_plays V Z ww debug (bcode t) WW bound 0 w w' (prog_PI t w PW) O E) as (m & E1 & P).
      destruct (plays_log t _ _ _ _ P) as (L & E2 & E3 & C). exists (rev m), L. split; auto. split; [exact E2|]. split; [exact E3|].
      intros p M. rewrite wakes_rev. auto. }
  destruct K as (new & L & E1 & E2 & E3 & C). exists L. split; [rewrite X2; exact E2|].
  rewrite E1, root_wakes_app. rewrite E3 in R2.
  assert (T1 : pg_t y1 t = w') by (cbn; rewrite Nat.eqb_refl; reflexivity).
  assert (T2 : forall u, u <> t -> pg_t y1 u = pg_t y u) by (intros u D; cbn; destruct (Nat.eqb_spec u t); [contradiction|reflexivity]).
  split; [|rewrite t_orders_app, t_orders_wakes, O2, E3; apply foreign_orders].
  constructor; intros; rewrite ?count_app, ?count_repeat.
  - cbn. rewrite (rp_spawn _ _ _ _ R2). apply foreign_count. discriminate.
  - cbn. rewrite (rp_cancel _ _ _ _ R2). apply foreign_count. discriminate.
  - rewrite (rp_root _ _ _ _ R2). cbn [does]. destruct (Nat.eqb_spec u t) as [->|D]; [rewrite T1, E1, wakes_app; cbn; lia|rewrite T2; auto].
  - destruct (Nat.eq_dec u t) as [->|D].
    + assert (M1 : made p (ttr (pg_t y1 t))) by (rewrite T1, E1; apply made_app; auto).
      destruct (rp_wake _ _ _ _ R2 t p M1) as [M2 W2]. split; auto. rewrite T1, E1, wakes_app in W2. specialize (C p H0).
      change (ttr w) with (ttr (pg_t y t)) in W2. unfold gc in *. lia.
    + assert (M1 : made p (ttr (pg_t y1 u))) by (rewrite T2; auto). destruct (rp_wake _ _ _ _ R2 u p M1) as [M2 W2]. split; auto.
      rewrite T2 in W2 by auto. unfold gc in *. rewrite foreign_count in W2; [auto|]. intros q [= Q _]. auto.
Qed.
Lemma fin_rx t y y' l : Good y -> fin t y = (y', l) -> Good y' /\ Rx y l y'.
Proof.
  intros G. unfold page_fin. destruct (on_drop t (pg_x y)) as [x a] eqn:E.
  assert (G1 : Good (mkPg V X (pg_t y) x (pg_fault V X y))) by (destruct G; constructor; auto).
  pose proof (do_gacts_rp a _ G1) as H. pose proof (do_gacts_orders a (mkPg V X (pg_t y) x (pg_fault V X y))) as O2.
  destruct (do_gacts V X a _) as [y2 l2]. destruct H as (G2 & X2 & R2). intros [= <- <-]. split; auto.
  exists a. split; [rewrite X2; cbn; eauto|]. split; [|exact O2]. destruct R2. constructor; auto.
Qed.

(** whole histories *)
Notation qu := (qu page). Notation qtr := (q_tr page). Notation q_x := (q_x page).
Notation pexec := (pexec V X ww debug bound code on_drop).
Notation xexec := (xexec page step fin).
Definition PR (n : gact -> nat) (q q' : qu) : Prop := exists L l m, log (pg_x (q_x q')) = log (pg_x (q_x q)) ++ L /\
  tells page q q' l /\
  (forall g, m g = gc L g + n g) /\ Rp m l (q_x q) (q_x q') /\ (n GSpawn = 0 -> (forall t, n (GCancel t) = 0) -> t_orders l = g_orders L).
Lemma PR_refl q : PR (fun _ => 0) q q.
Proof.
  exists [], [], (fun _ => 0). rewrite app_nil_r. split; auto. split; [apply tells_same; auto|]. split; [reflexivity|]. split; [apply Rp_nil; auto|auto].
Qed.
Lemma PR_trans n m k a b c : (forall g, k g = n g + m g) -> PR n a b -> PR m b c -> PR k a c.
Proof.
  intros K (L & l & i & E & C & I & R & O) (L' & l' & i' & E' & C' & I' & R' & O'). exists (L ++ L'), (l ++ l'), (fun g => i g + i' g).
  split; [rewrite E', E, app_assoc; reflexivity|]. split; [eapply tells_trans; eauto|].
  split; [intro g; rewrite I, I', K; unfold gc; rewrite count_app; lia|]. split; [eapply Rp_app; eauto|].
  intros N1 N2. rewrite K in N1. assert (N3 : forall t, n (GCancel t) = 0 /\ m (GCancel t) = 0) by (intro t; specialize (N2 t); rewrite K in N2; lia).
  rewrite t_orders_app, O, O'; [symmetry; apply flat_map_app|lia|apply N3|lia|apply N3].
Qed.
Lemma acts_qof l : forall r q, qof page r = Some q ->
  qof page (fold_left xexec (acts_of V X l) r) = Some (fst (do_tacts page l q)).
Proof.
  induction l as [|[a|] l IH]; intros r q Q; cbn [acts_of flat_map app fold_left do_tacts]; auto; fold (acts_of V X l).
  - rewrite (IH _ _ (xdo_qof page step fin r a q Q)). destruct (do_tact page a q) as [q1 a1]. cbn [fst]. destruct (do_tacts page l q1). reflexivity.
  - rewrite (IH _ _ Q). destruct (do_tacts page l q). reflexivity.
Qed.
Lemma pexec_pr r e q q' : Good (q_x q) -> (forall f x x' l, e = PCode f -> f x = (x', l) -> log x' = log x ++ l) -> qof page r = Some q -> qof page (pexec r e) = Some q' ->
  Good (q_x q') /\ PR (fun g => if p_outside g e then 1 else 0) q q'.
Proof.
  intros G LE Q Q'. assert (E : pexec r e = fold_left xexec (pevents V X (q_x q) e) r).
  { destruct r as [s|s|]; [| |discriminate]; injection Q as <-; reflexivity. }
  rewrite E in Q'. clear E. destruct e as [a|f|f|f]; cbn [pevents] in Q'.
  - pose proof (do_gact_rp a (q_x q) G) as H. pose proof (do_gacts_orders [a] (q_x q)) as HO. destruct (do_gact V X a (q_x q)) as [y' l] eqn:EG. destruct H as (G' & E1 & R).
    cbn [fold_left] in Q'. fold (acts_of V X l) in Q'.
    rewrite (acts_qof l _ _ (xenv_qof page step fin r (fun _ => y') q Q)) in Q'. injection Q' as <-.
    destruct (do_tacts_count page l (q_setx page y' q)) as (E2 & _ & C2 & O2). rewrite E2. cbn [q_setx Queue.q_x]. split; auto.
    exists [], l, (gc [a]). rewrite E2. cbn [q_setx Queue.q_x]. rewrite app_nil_r, E1. split; auto. split; [split; [exact C2|exact O2]|].
    split; [intro g; unfold gc; rewrite count_cons; cbn; destruct (g_does g a); reflexivity|]. split; auto.
    cbn [p_outside]. intros N1 N2. cbn [do_gacts] in HO. destruct (do_gact V X a (q_x q)) as [z lz]. injection EG as -> ->. cbn [snd] in HO.
    rewrite app_nil_r in HO. rewrite HO. destruct a as [u p| |u| |]; cbn in N1; auto; [discriminate N1|]. specialize (N2 u). cbn in N2. rewrite Nat.eqb_refl in N2. discriminate N2.
  - destruct (f (pg_x (q_x q))) as [x a] eqn:EF.
    assert (G1 : Good (mkPg V X (pg_t (q_x q)) x (pg_fault V X (q_x q)))) by (destruct G; constructor; auto).
    pose proof (do_gacts_rp a _ G1) as H. pose proof (do_gacts_orders a (mkPg V X (pg_t (q_x q)) x (pg_fault V X (q_x q)))) as HO.
    destruct (do_gacts V X a _) as [y' l]. destruct H as (G' & E1 & R). cbn [snd] in HO.
    cbn [fold_left] in Q'. fold (acts_of V X l) in Q'.
    rewrite (acts_qof l _ _ (xenv_qof page step fin r (fun _ => y') q Q)) in Q'. injection Q' as <-.
    destruct (do_tacts_count page l (q_setx page y' q)) as (E2 & _ & C2 & O2). rewrite E2. cbn [q_setx Queue.q_x]. split; auto.
    exists a, l, (gc a). rewrite E2. cbn [q_setx Queue.q_x]. rewrite E1. cbn. split; [apply (LE f _ _ _ eq_refl EF)|]. split; [split; [exact C2|exact O2]|].
    split; [intro g; apply plus_n_O|]. split; [destruct R; constructor; auto|auto].
  - cbn [fold_left] in Q'.
    destruct (xrun_qof page step fin Good (fun y l _ y' => Rx y l y') step_rx fin_rx Rx_nil (fun y l _ y' l' _ y'' => Rx_app y l y' l' y'') r (XFire f) q Q (ex_intro _ f (or_introl eq_refl)) q' Q' G) as (G' & l & d & C & _ & L & E & R & O).
    split; auto. exists L, l, (gc L). auto 7.
  - cbn [fold_left] in Q'.
    destruct (xrun_qof page step fin Good (fun y l _ y' => Rx y l y') step_rx fin_rx Rx_nil (fun y l _ y' l' _ y'' => Rx_app y l y' l' y'') r (XRun f) q Q (ex_intro _ f (or_intror eq_refl)) q' Q' G) as (G' & l & d & C & _ & L & E & R & O).
    split; auto. exists L, l, (gc L). auto 7.
Qed.
Lemma pexec_none r e : qof page r = None -> qof page (pexec r e) = None.
Proof. destruct r; [discriminate|discriminate|reflexivity]. Qed.
Lemma fold_pr evs : forall r q q', Good (q_x q) -> (forall f x x' l, In (PCode f) evs -> f x = (x', l) -> log x' = log x ++ l) -> qof page r = Some q ->
  qof page (fold_left pexec evs r) = Some q' -> Good (q_x q') /\ PR (fun g => count (p_outside g) evs) q q'.
Proof.
  induction evs as [|e evs IH]; intros r q q' G LE Q Q'; cbn [fold_left] in Q'.
  - rewrite Q in Q'. injection Q' as <-. split; auto. apply PR_refl.
  - destruct (qof page (pexec r e)) as [q1|] eqn:Q1.
    + destruct (pexec_pr r e q q1 G) as [G1 R1]; auto. { intros f x x' l ->. apply LE. left. reflexivity. }
      destruct (IH (pexec r e) q1 q' G1) as [G2 R2]; auto. { intros f x x' l H. apply LE. right. exact H. }
      split; auto. eapply PR_trans; [|exact R1|exact R2]. intro g. apply count_cons.
    + exfalso. clear - Q' Q1. revert Q1 Q'. generalize (pexec r e). induction evs as [|e' evs IH]; intros r0 H; cbn [fold_left]; [congruence|].
      apply IH. apply pexec_none. auto.
Qed.
Lemma good0 x : Good (page0 V X x).
Proof. constructor; auto. intro t. exists (x, []), []. reflexivity. Qed.
End Pages.

(** the part that needs no log *)
Section Roots.
Variables V X : Type.
Variable ww : waker -> waker -> bool.
Variable debug : bool.
Variable bound : nat.
Variable code : nat -> X -> place -> option V -> X * list gact * next V.
Variable on_drop : nat -> X -> X * list gact.
Hypothesis WW : will_wake_ok ww.
Hypothesis CO : forall t x p got x' l k b n, code t x p got = (x', l, NAwait k b n) -> beh_ok b /\ (k = KTuple -> n > 0).
Notation page := (page V X). Notation Z := (X * list gact)%type. Notation ttr := (w_tr V Z).
Notation step := (page_step V X ww debug bound code). Notation fin := (page_fin V X on_drop).
Notation pg_t := (pg_t V X). Notation Good := (Good V X ww debug code).
Definition Rr (y : page) (l : list (option tact)) (y' : page) : Prop :=
  forall u, Spec_tree.wakes Root (ttr (pg_t y' u)) = Spec_tree.wakes Root (ttr (pg_t y u)) + count (does (TWake u)) l.
Lemma step_rr t y y' l o : Good y -> step t y = (y', l, o) -> Good y' /\ Rr y l y'.
Proof.
  intros G S. pose proof (step_good V X ww debug bound code WW CO t y G) as H. rewrite S in H. split; auto.
  unfold page_step in S. set (w := Tree.set_x V Z (pg_x V X y, []) (pg_t y t)) in *.
  destruct (Tree.exec V Z ww debug (block_code V X code t) w (HPoll bound 0)) as [w'| | |] eqn:E;
    try (injection S as <- <- <-; first [intro u; cbn; lia|discriminate (gd_fault _ _ _ _ _ _ H)]).
  set (y1 := mkPg V X (pg_t (set_app V X t w' y)) (fst (w_x V Z w')) (pg_fault V X y)) in *.
  assert (PW : prog V X ww debug code t w) by (apply prog_set; apply G).
  assert (G1 : Good y1).
  { constructor; [|apply G]. intro u. cbn. destruct (Nat.eqb_spec u t) as [->|]; [|apply G]. eapply prog_step; eauto. }
  pose proof (do_gacts_rp V X ww debug code WW CO (snd (w_x V Z w')) y1 G1) as K. destruct (do_gacts V X _ _) as [y2 l2]. destruct K as (_ & X2 & R2).
  injection S as <- <- <-.
  assert (K : exists new, ttr w' = new ++ ttr w).
  { destruct (w_over V Z w) eqn:O.
    - cbn [Tree.exec] in E. rewrite O in E. injection E as <-. exists []. reflexivity.
    - destruct (poll_plays V Z ww debug (block_code V X code t) WW bound 0 w w' (prog_PI V X ww debug code WW t w PW) O E) as (m & E1 & P). eauto. }
  destruct K as (new & E1). rewrite E1, root_wakes_app. intro u. rewrite count_app, count_repeat, (rp_root _ _ _ _ _ _ R2). cbn.
  destruct (Nat.eqb_spec u t) as [->|D]; [rewrite E1, wakes_app; cbn; lia|reflexivity].
Qed.
Lemma fin_rr t y y' l : Good y -> fin t y = (y', l) -> Good y' /\ Rr y l y'.
Proof.
  intros G. unfold page_fin. destruct (on_drop t (pg_x V X y)) as [x a] eqn:E.
  assert (G1 : Good (mkPg V X (pg_t y) x (pg_fault V X y))) by (destruct G; constructor; auto).
  pose proof (do_gacts_rp V X ww debug code WW CO a _ G1) as H. destruct (do_gacts V X a _) as [y2 l2]. destruct H as (G2 & X2 & R2). intros [= <- <-]. split; auto.
  intro u. apply (rp_root _ _ _ _ _ _ R2).
Qed.
Lemma Rr_nil y : Rr y [] y. Proof. intro u. cbn. lia. Qed.
Lemma Rr_app y l y' l' y'' : Rr y l y' -> Rr y' l' y'' -> Rr y (l ++ l') y''.
Proof. intros H H' u. rewrite H', H, count_app. lia. Qed.
Notation pexec := (pexec V X ww debug bound code on_drop).
Lemma roots_counted evs : forall r q q', Good (q_x page q) -> qof page r = Some q -> qof page (fold_left pexec evs r) = Some q' ->
  forall t, exists k, Spec_tree.wakes Root (ttr (pg_t (q_x page q') t)) = Spec_tree.wakes Root (ttr (pg_t (q_x page q) t)) + k /\
    count (q_does (TWake t)) (q_tr page q') = count (q_does (TWake t)) (q_tr page q) + k.
Proof.
  induction evs as [|e evs IH]; intros r q q' G Q Q' t; cbn [fold_left] in Q'.
  - rewrite Q in Q'. injection Q' as <-. exists 0. split; lia.
  - destruct (qof page (pexec r e)) as [q1|] eqn:Q1.
    + assert (K : Good (q_x page q1) /\ exists k, Spec_tree.wakes Root (ttr (pg_t (q_x page q1) t)) = Spec_tree.wakes Root (ttr (pg_t (q_x page q) t)) + k /\
        count (q_does (TWake t)) (q_tr page q1) = count (q_does (TWake t)) (q_tr page q) + k).
      { clear IH Q'. assert (E : pexec r e = fold_left (xexec page step fin) (pevents V X (q_x page q) e) r).
        { destruct r as [s|s|]; [| |discriminate]; injection Q as <-; reflexivity. }
        rewrite E in Q1. clear E. destruct e as [a|f|f|f]; cbn [pevents] in Q1.
        - pose proof (do_gact_rp V X ww debug code WW CO a (q_x page q) G) as H. destruct (do_gact V X a (q_x page q)) as [y' l]. destruct H as (G' & E1 & R).
          cbn [fold_left] in Q1. fold (acts_of V X l) in Q1.
          rewrite (acts_qof V X ww debug bound code on_drop l _ _ (xenv_qof page step fin r (fun _ => y') q Q)) in Q1. injection Q1 as <-.
          destruct (do_tacts_count page l (q_setx page y' q)) as (E2 & _ & C2 & O2). rewrite E2. cbn [q_setx Queue.q_x]. split; auto.
          exists (count (does (TWake t)) l). split; [apply (rp_root _ _ _ _ _ _ R)|]. rewrite C2. reflexivity.
        - destruct (f (pg_x V X (q_x page q))) as [x a].
          assert (G1 : Good (mkPg V X (pg_t (q_x page q)) x (pg_fault V X (q_x page q)))) by (destruct G; constructor; auto).
          pose proof (do_gacts_rp V X ww debug code WW CO a _ G1) as H. destruct (do_gacts V X a _) as [y' l]. destruct H as (G' & E1 & R).
          cbn [fold_left] in Q1. fold (acts_of V X l) in Q1.
          rewrite (acts_qof V X ww debug bound code on_drop l _ _ (xenv_qof page step fin r (fun _ => y') q Q)) in Q1. injection Q1 as <-.
          destruct (do_tacts_count page l (q_setx page y' q)) as (E2 & _ & C2 & O2). rewrite E2. cbn [q_setx Queue.q_x]. split; auto.
          exists (count (does (TWake t)) l). split; [apply (rp_root _ _ _ _ _ _ R)|]. rewrite C2. reflexivity.
        - cbn [fold_left] in Q1.
          destruct (xrun_qof page step fin Good (fun y l _ y' => Rr y l y') step_rr fin_rr Rr_nil (fun y l _ y' l' _ y'' => Rr_app y l y' l' y'') r (XFire f) q Q (ex_intro _ f (or_introl eq_refl)) q1 Q1 G) as (G' & l & d & (C & _) & _ & R). eauto.
        - cbn [fold_left] in Q1.
          destruct (xrun_qof page step fin Good (fun y l _ y' => Rr y l y') step_rr fin_rr Rr_nil (fun y l _ y' l' _ y'' => Rr_app y l y' l' y'') r (XRun f) q Q (ex_intro _ f (or_intror eq_refl)) q1 Q1 G) as (G' & l & d & (C & _) & _ & R). eauto. }
      destruct K as (G1 & k & W1 & C1). destruct (IH (pexec r e) q1 q' G1 Q1 Q' t) as (k' & W2 & C2). exists (k + k'). split; lia.
    + exfalso. clear - Q' Q1. revert Q1 Q'. generalize (pexec r e). induction evs as [|e' evs IH]; intros r0 H; cbn [fold_left]; [congruence|].
      apply IH. apply (pexec_none V X ww debug bound code on_drop). auto.
Qed.
End Roots.

(** ** a relation that every step keeps *)
Section Hist.
Variables V X : Type.
Variable ww : waker -> waker -> bool.
Variable debug : bool.
Variable bound : nat.
Variable code : nat -> X -> place -> option V -> X * list gact * next V.
Variable on_drop : nat -> X -> X * list gact.
Hypothesis WW : will_wake_ok ww.
Hypothesis CO : forall t x p got x' l k b n, code t x p got = (x', l, NAwait k b n) -> beh_ok b /\ (k = KTuple -> n > 0).
Notation page := (page V X). Notation Z := (X * list gact)%type. Notation ttr := (w_tr V Z).
Notation step := (page_step V X ww debug bound code). Notation fin := (page_fin V X on_drop).
Notation pg_t := (pg_t V X). Notation pg_x := (pg_x V X). Notation Good := (Good V X ww debug code).
Notation pexec := (pexec V X ww debug bound code on_drop).
Notation qu := (qu page). Notation qtr := (q_tr page). Notation q_x := (q_x page).
Variable Rx : page -> list (option tact) -> list nat -> page -> Prop.
Hypothesis Rx_nil : forall y, Rx y [] [] y.
Hypothesis Rx_app : forall y l d y' l' d' y'', Rx y l d y' -> Rx y' l' d' y'' -> Rx y (l ++ l') (d ++ d') y''.
Hypothesis Rx_step : forall t y y' l o, Good y -> step t y = (y', l, o) -> Rx y l [] y'.
Hypothesis Rx_fin : forall t y y' l, Good y -> fin t y = (y', l) -> Rx y l [t] y'.
Hypothesis Rx_do : forall a y y' l, Good y -> do_gact V X a y = (y', l) -> Rx y l [] y'.
(** outside code *)
Definition Rx_code (f : X -> X * list gact) : Prop := forall y x a y' l, Good y -> f (pg_x y) = (x, a) ->
  do_gacts V X a (mkPg V X (pg_t y) x (pg_fault V X y)) = (y', l) -> Rx y l [] y'.
Lemma good_set y x : Good y -> Good (mkPg V X (pg_t y) x (pg_fault V X y)).
Proof. intro G. destruct G. constructor; auto. Qed.
Lemma step_both t y y' l o : Good y -> step t y = (y', l, o) -> Good y' /\ Rx y l [] y'.
Proof. intros G S. split; [|eauto]. pose proof (step_good V X ww debug bound code WW CO t y G) as H. rewrite S in H. exact H. Qed.
Lemma fin_both t y y' l : Good y -> fin t y = (y', l) -> Good y' /\ Rx y l [t] y'.
Proof.
  intros G S. split; [|eauto]. unfold page_fin in S. destruct (on_drop t (pg_x y)) as [x a].
  pose proof (do_gacts_ok V X ww debug code WW CO a _ (good_set y x G)) as H. rewrite S in H. apply H.
Qed.
Definition QR (q q' : qu) : Prop := exists l d, (forall a, count (q_does a) (qtr q') = count (q_does a) (qtr q) + count (does a) l) /\
  drops (qtr q') = drops (qtr q) ++ d /\ Rx (q_x q) l d (q_x q').
Lemma pexec_qr r e q q' : Good (q_x q) -> (forall f, e = PCode f -> Rx_code f) -> qof page r = Some q -> qof page (pexec r e) = Some q' ->
  Good (q_x q') /\ QR q q'.
Proof.
  intros G LE Q Q'. assert (E : pexec r e = fold_left (xexec page step fin) (pevents V X (q_x q) e) r).
  { destruct r as [s|s|]; [| |discriminate]; injection Q as <-; reflexivity. }
  rewrite E in Q'. clear E.
  assert (K : forall y' l, Good y' -> Rx (q_x q) l [] y' ->
    fold_left (xexec page step fin) (XEnv (fun _ => y') :: acts_of V X l) r = fold_left (xexec page step fin) (pevents V X (q_x q) e) r -> Good (q_x q') /\ QR q q').
  { intros y' l G' R E. rewrite <- E in Q'. cbn [fold_left] in Q'.
    rewrite (acts_qof V X ww debug bound code on_drop l _ _ (xenv_qof page step fin r (fun _ => y') q Q)) in Q'. injection Q' as <-.
    destruct (do_tacts_count page l (q_setx page y' q)) as (E2 & D2 & C2 & O2). rewrite E2. cbn [q_setx Queue.q_x]. split; auto.
    exists l, []. rewrite E2, D2, app_nil_r. cbn [q_setx Queue.q_x]. split; [exact C2|]. split; [reflexivity|exact R]. }
  destruct e as [a|f|f|f]; cbn [pevents] in Q', K.
  - pose proof (do_gact_ok V X ww debug code WW CO a _ G) as H. destruct (do_gact V X a (q_x q)) as [y' l] eqn:EG. apply (K y' l); [apply H|eauto|reflexivity].
  - destruct (f (pg_x (q_x q))) as [x a] eqn:EF. pose proof (do_gacts_ok V X ww debug code WW CO a _ (good_set _ x G)) as H.
    destruct (do_gacts V X a _) as [y' l] eqn:EG. apply (K y' l); [apply H| |reflexivity]. eapply (LE f); eauto.
  - cbn [fold_left] in Q'.
    destruct (xrun_qof page step fin Good Rx step_both fin_both Rx_nil Rx_app r (XFire f) q Q (ex_intro _ f (or_introl eq_refl)) q' Q' G) as (G' & l & d & (C & _) & D & R).
    split; auto. exists l, d. auto.
  - cbn [fold_left] in Q'.
    destruct (xrun_qof page step fin Good Rx step_both fin_both Rx_nil Rx_app r (XRun f) q Q (ex_intro _ f (or_intror eq_refl)) q' Q' G) as (G' & l & d & (C & _) & D & R).
    split; auto. exists l, d. auto.
Qed.
Lemma QR_refl q : QR q q.
Proof. exists [], []. split; [intro a; cbn; lia|]. rewrite app_nil_r. auto. Qed.
Lemma QR_trans a b c : QR a b -> QR b c -> QR a c.
Proof.
  intros (l & d & C & D & R) (l' & d' & C' & D' & R'). exists (l ++ l'), (d ++ d'). split; [intro x; rewrite C', C, count_app; lia|].
  split; [rewrite D', D, app_assoc; reflexivity|eauto].
Qed.
Lemma fold_qr evs : forall r q q', Good (q_x q) -> (forall f, In (PCode f) evs -> Rx_code f) -> qof page r = Some q ->
  qof page (fold_left pexec evs r) = Some q' -> Good (q_x q') /\ QR q q'.
Proof.
  induction evs as [|e evs IH]; intros r q q' G LE Q Q'; cbn [fold_left] in Q'.
  - rewrite Q in Q'. injection Q' as <-. split; auto. apply QR_refl.
  - destruct (qof page (pexec r e)) as [q1|] eqn:Q1.
    + destruct (pexec_qr r e q q1 G) as [G1 R1]; auto. { intros f ->. apply LE. left. reflexivity. }
      destruct (IH (pexec r e) q1 q' G1) as [G2 R2]; auto. { intros f H. apply LE. right. exact H. }
      split; auto. eapply QR_trans; eauto.
    + exfalso. clear - Q' Q1. revert Q1 Q'. generalize (pexec r e). induction evs as [|e' evs IH]; intros r0 H; cbn [fold_left]; [congruence|].
      apply IH. apply (pexec_none V X ww debug bound code on_drop). auto.
Qed.
Lemma prun_qr x evs s : (forall f, In (PCode f) evs -> Rx_code f) ->
  prun V X ww debug bound code on_drop x evs = Live s \/ prun V X ww debug bound code on_drop x evs = Crashed s ->
  exists l, Rx (page0 V X x) l (drops (qtr (xs _ s))) (q_x (xs _ s)).
Proof.
  intros LE R. destruct (fold_qr evs (Live (start _ (q_start _ (page0 V X x)))) (q_start _ (page0 V X x)) (xs _ s)) as (_ & l & d & _ & D & H); auto.
  - apply good0.
  - unfold prun in R. destruct R as [R|R]; rewrite R; reflexivity.
  - exists l. rewrite D. exact H.
Qed.
(** waking runs no code *)
Lemma runs_app (a b : list (Tree.ev V)) : runs (a ++ b) = runs b ++ runs a.
Proof. unfold runs. rewrite rev_app_distr, flat_map_app. reflexivity. Qed.
Lemma runs_wakes (l : list place) : runs (rev (map (@Tree.EWake V) l)) = [].
Proof. unfold runs. rewrite rev_involutive. induction l; auto. Qed.
Lemma do_gact_runs a y y' l : Good y -> do_gact V X a y = (y', l) -> pg_x y' = pg_x y /\
  (forall u, runs (ttr (pg_t y' u)) = runs (ttr (pg_t y u))).
Proof.
  intros G E. pose proof (do_gact_ok V X ww debug code WW CO a y G) as H. rewrite E in H. destruct H as [G' _].
  destruct a as [u p| |u| |]; cbn [do_gact] in E; try (injection E as <- <-; auto; fail).
  pose proof (prog_PI V X ww debug code WW u _ (gd_prog _ _ _ _ _ _ G u)) as P.
  destruct (wake_place V Z (pg_t y u) p) as [w| | |] eqn:EW; try (injection E as <- <-; discriminate (gd_fault _ _ _ _ _ _ G')).
  injection E as <- <-. split; auto. intro v. cbn. destruct (Nat.eqb_spec v u) as [->|]; auto.
  destruct (wake_place_chain V Z (pg_t y u) p w P EW) as [(M & ks & C & E1 & _)|(M & ->)]; auto.
  rewrite E1, runs_app, runs_wakes. apply app_nil_r.
Qed.
Lemma do_gacts_runs a : forall y y' l, Good y -> do_gacts V X a y = (y', l) -> pg_x y' = pg_x y /\
  (forall u, runs (ttr (pg_t y' u)) = runs (ttr (pg_t y u))).
Proof.
  induction a as [|g a IH]; intros y y' l G; cbn [do_gacts]; [intros [= <- <-]; auto|].
  destruct (do_gact V X g y) as [y1 l1] eqn:E1. destruct (do_gacts V X a y1) as [y2 l2] eqn:E2. intros [= <- <-].
  destruct (do_gact_runs g y y1 l1 G E1) as [A B]. pose proof (do_gact_ok V X ww debug code WW CO g y G) as H. rewrite E1 in H. destruct H as [G1 _].
  destruct (IH y1 y2 l2 G1 E2) as [C D]. split; [congruence|]. intro u. rewrite D. auto.
Qed.
(** a poll is a play of the application's code *)
Lemma step_plays t y y' l o : Good y -> step t y = (y', l, o) -> y' = y /\ l = [] \/
  exists w' evs l2, ttr w' = rev evs ++ ttr (pg_t y t) /\ plays (block_code V X code t) (ttr (pg_t y t)) (pg_x y, []) evs (w_x V Z w') /\
    (w_over V Z (pg_t y t) = false -> Tree.exec V Z ww debug (block_code V X code t) (Tree.set_x V Z (pg_x y, []) (pg_t y t)) (HPoll bound 0) = Done w') /\
    Good (mkPg V X (pg_t (set_app V X t w' y)) (fst (w_x V Z w')) (pg_fault V X y)) /\
    do_gacts V X (snd (w_x V Z w')) (mkPg V X (pg_t (set_app V X t w' y)) (fst (w_x V Z w')) (pg_fault V X y)) = (y', l2).
Proof.
  intros G S. pose proof (step_good V X ww debug bound code WW CO t y G) as H. rewrite S in H.
  unfold page_step in S. set (w := Tree.set_x V Z (pg_x y, []) (pg_t y t)) in *.
  destruct (Tree.exec V Z ww debug (block_code V X code t) w (HPoll bound 0)) as [w'| | |] eqn:E;
    try (injection S as <- <- <-; first [left; split; reflexivity|discriminate (gd_fault _ _ _ _ _ _ H)]).
  assert (PW : prog V X ww debug code t w) by (apply prog_set; apply G).
  assert (G1 : Good (mkPg V X (pg_t (set_app V X t w' y)) (fst (w_x V Z w')) (pg_fault V X y))).
  { constructor; [|apply G]. intro u. cbn. destruct (Nat.eqb_spec u t) as [->|]; [|apply G]. eapply prog_step; eauto. }
  destruct (do_gacts V X _ _) as [y2 l2] eqn:D. injection S as <- <- <-. right. exists w'.
  destruct (w_over V Z w) eqn:O.
  - pose proof E as E'. cbn [Tree.exec] in E'. rewrite O in E'. injection E' as <-. exists [], l2. split; [reflexivity|]. split; [constructor|]. split; [auto|]. auto.
  - destruct (poll_plays V Z ww debug (block_code V X code t) WW bound 0 w w' (prog_PI V X ww debug code WW t w PW) O E) as (m & E1 & P).
    exists m, l2. split; [exact E1|]. split; [exact P|]. auto.
Qed.
End Hist.

(** ** whose code is run *)
Section Whose.
Variables V X : Type.
Variable ww : waker -> waker -> bool.
Variable debug : bool.
Variable bound : nat.
Variable code : nat -> X -> place -> option V -> X * list gact * next V.
Variable on_drop : nat -> X -> X * list gact.
Hypothesis WW : will_wake_ok ww.
Hypothesis CO : forall t x p got x' l k b n, code t x p got = (x', l, NAwait k b n) -> beh_ok b /\ (k = KTuple -> n > 0).
Notation page := (page V X). Notation Z := (X * list gact)%type. Notation ttr := (w_tr V Z).
Notation pg_t := (pg_t V X). Notation pg_x := (pg_x V X). Notation Good := (Good V X ww debug code).

Lemma code_noted x evs s note t : notes_runs note code on_drop evs -> note x = [] ->
  prun V X ww debug bound code on_drop x evs = Live s \/ prun V X ww debug bound code on_drop x evs = Crashed s ->
  runs (ttr (pg_t (q_x _ (xs _ s)) t)) = notes_of t (note (pg_x (q_x _ (xs _ s)))).
Proof.
  intros (NC & ND & NP) N0 R.
  set (Rn := fun (y : page) (l : list (option tact)) (d : list nat) (y' : page) => exists N, note (pg_x y') = note (pg_x y) ++ N /\
    forall u, runs (ttr (pg_t y' u)) = runs (ttr (pg_t y u)) ++ notes_of u N).
  assert (NA : forall u (a b : list (nat * (place * option V))), notes_of u (a ++ b) = notes_of u a ++ notes_of u b).
  { intros u a b. unfold notes_of. rewrite filter_app, map_app. reflexivity. }
  assert (SAME : forall y y' l d, note (pg_x y') = note (pg_x y) -> (forall u, runs (ttr (pg_t y' u)) = runs (ttr (pg_t y u))) -> Rn y l d y').
  { intros y y' l d E1 E2. exists []. rewrite app_nil_r. split; auto. intro u. rewrite app_nil_r. auto. }
  destruct (prun_qr V X ww debug bound code on_drop WW CO Rn) with (x := x) (evs := evs) (s := s) as (l & N & E & H); auto.
  - intros y l d y' l' d' y'' (N & E & H) (N' & E' & H'). exists (N ++ N'). split; [rewrite E', E, app_assoc; reflexivity|].
    intro u. rewrite H', H, NA, app_assoc. reflexivity.
  - intros u y y' l o G S. destruct (step_plays V X ww debug bound code WW CO u y y' l o G S) as [[-> ->]|(w' & m & l2 & E & P & _ & G1 & D)].
    { apply SAME; auto. }
    destruct (do_gacts_runs V X ww debug code WW CO _ _ _ _ G1 D) as [E1 E2]. cbn in E1.
    assert (K : forall tr z m z', plays (block_code V X code u) tr z m z' -> note (fst z') = note (fst z) ++ map (pair u) (runs (rev m))).
    { clear - NC. intros tr z m z' P. unfold runs. rewrite rev_involutive.
      induction P as [tr z|tr z p got z1 ws nx ks e l z2 E W N P IH|tr z e l z2 E P IH].
      - cbn. rewrite app_nil_r. reflexivity.
      - unfold block_code in E. destruct (code u (fst z) p got) as [[x a] nx'] eqn:EC. injection E as <- <- <-. cbn [fst] in IH.
        rewrite IH, (NC _ _ _ _ _ _ _ EC). cbn. rewrite flat_map_app, <- app_assoc. cbn.
        assert (Q : flat_map (fun e => match e with Tree.ERun p got => [(p, got)] | _ => [] end) (map (@Tree.EWake V) ks) = []) by (clear; induction ks; auto).
        rewrite Q. destruct nx' as [|v| |k b n]; cbn in N; try (subst e; reflexivity); [contradiction|]. destruct N as (id & -> & _). reflexivity.
      - rewrite IH. destruct e; try contradiction E; reflexivity. }
    specialize (K _ _ _ _ P). cbn [fst] in K. exists (map (pair u) (runs (rev m))). split; [rewrite E1; exact K|].
    intro v. rewrite E2. cbn. destruct (Nat.eqb_spec v u) as [->|D'].
    + rewrite E, runs_app. f_equal. unfold notes_of. clear K. induction (runs (rev m)) as [|e r IH]; cbn; auto. rewrite Nat.eqb_refl. cbn. f_equal. exact IH.
    + rewrite <- (app_nil_r (runs _)) at 1. f_equal. unfold notes_of. clear K. induction (runs (rev m)) as [|e r IH]; cbn; auto.
      destruct (Nat.eqb_spec u v); [congruence|exact IH].
  - intros u y y' l G S. unfold page_fin in S. destruct (on_drop u (pg_x y)) as [x1 a] eqn:ED.
    destruct (do_gacts_runs V X ww debug code WW CO _ _ _ _ (good_set V X ww debug code y x1 G) S) as [E1 E2].
    apply SAME; auto. rewrite E1. cbn. eauto.
  - intros a y y' l G S. destruct (do_gact_runs V X ww debug code WW CO a y y' l G S) as [E1 E2]. apply SAME; auto. congruence.
  - intros f HF y x1 a y' l G EF S. destruct (do_gacts_runs V X ww debug code WW CO _ _ _ _ (good_set V X ww debug code y x1 G) S) as [E1 E2].
    apply SAME; auto. rewrite E1. cbn. eauto.
  - rewrite H, E. cbn. rewrite N0. reflexivity.
Qed.
Lemma drops_noted x evs s note : notes_drops note code on_drop evs -> note x = [] ->
  prun V X ww debug bound code on_drop x evs = Live s \/ prun V X ww debug bound code on_drop x evs = Crashed s ->
  drops (q_tr _ (xs _ s)) = note (pg_x (q_x _ (xs _ s))).
Proof.
  intros (NC & ND & NP) N0 R.
  destruct (prun_qr V X ww debug bound code on_drop WW CO (fun y l d y' => note (pg_x y') = note (pg_x y) ++ d)) with (x := x) (evs := evs) (s := s) as (l & E); auto.
  - intro y. rewrite app_nil_r. reflexivity.
  - intros y l d y' l' d' y'' E E'. rewrite E', E, app_assoc. reflexivity.
  - intros u y y' l o G S. rewrite app_nil_r. destruct (step_plays V X ww debug bound code WW CO u y y' l o G S) as [[-> ->]|(w' & m & l2 & E & P & _ & G1 & D)]; auto.
    destruct (do_gacts_runs V X ww debug code WW CO _ _ _ _ G1 D) as [-> _]. cbn.
    assert (K : forall tr z m z', plays (block_code V X code u) tr z m z' -> note (fst z') = note (fst z)).
    { clear - NC. intros tr z m z' P. induction P as [tr z|tr z p got z1 ws nx ks e l z2 E W N P IH|tr z e l z2 E P IH]; auto.
      unfold block_code in E. destruct (code u (fst z) p got) as [[x a] nx'] eqn:EC. injection E as <- <- <-. rewrite IH. cbn. eauto. }
    apply (K _ _ _ _ P).
  - intros u y y' l G S. unfold page_fin in S. destruct (on_drop u (pg_x y)) as [x1 a] eqn:ED.
    destruct (do_gacts_runs V X ww debug code WW CO _ _ _ _ (good_set V X ww debug code y x1 G) S) as [E1 E2]. rewrite E1. cbn. eauto.
  - intros a y y' l G S. destruct (do_gact_runs V X ww debug code WW CO a y y' l G S) as [E1 E2]. rewrite app_nil_r. congruence.
  - intros f HF y x1 a y' l G EF S. destruct (do_gacts_runs V X ww debug code WW CO _ _ _ _ (good_set V X ww debug code y x1 G) S) as [E1 E2].
    rewrite E1, app_nil_r. cbn. eauto.
  - rewrite E. cbn. rewrite N0. reflexivity.
Qed.
End Whose.
