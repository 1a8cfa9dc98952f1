(** Proofs for C65: whole pages. *)
From Coq Require Import List Arith Bool Lia.
From Verif Require Import Util Arena Spec_arena Readiness Combinator Tree Spec_tree Tree_proofs Executor Spec_executor Executor_proofs
  Queue Spec_queue Queue_proofs App App_proofs Page.
Import ListNotations.
Notation tpolls := Spec_tree.polls.
Notation qpolls := Spec_queue.polls.

(** ** one poll of a tree polls its root once *)
Section Once.
Variables V X : Type.
Variable ww : waker -> waker -> bool.
Variable debug : bool.
Variable code : X -> place -> option V -> X * list place * next V.
Notation world := (world V X). Notation ttr := (w_tr V X).
Definition NR (w w' : world) : Prop := exists evs, ttr w' = evs ++ ttr w /\ tpolls Root evs = 0.
Lemma tpolls_app p (a b : list (Tree.ev V)) : tpolls p (a ++ b) = tpolls p a + tpolls p b.
Proof. induction a as [|e a IH]; cbn; auto. destruct e; auto. destruct (place_eqb p0 p); lia. Qed.
Lemma NR_refl w : NR w w. Proof. exists []. auto. Qed.
Lemma NR_trans a b c : NR a b -> NR b c -> NR a c.
Proof. intros (e1 & E1 & F1) (e2 & E2 & F2). exists (e2 ++ e1). rewrite E2, E1, app_assoc, tpolls_app. split; [auto|lia]. Qed.
Lemma NR_cons w w' e : tpolls Root [e] = 0 -> ttr w' = e :: ttr w -> NR w w'.
Proof. intros H E. exists [e]. auto. Qed.
Lemma NR_same w w' : ttr w' = ttr w -> NR w w'.
Proof. intro E. exists []. auto. Qed.
Lemma set_node_ttr n c w : ttr (set_node V X n c w) = ttr w.
Proof. unfold set_node. destruct (nth_error _ _); reflexivity. Qed.
Lemma wake_nr f : forall l t w w', wake V X f l t w = Done w' -> NR w w'.
Proof.
  induction f as [|f IH]; intros l t w w'; cbn [wake]; (destruct (w_task t) as [c|]; [|intros [= <-]; apply NR_refl]);
    (destruct (place_of c) as [|n i]; [intros [= <-]; apply (NR_cons _ _ (Tree.EWake Root)); reflexivity|]); [discriminate|].
  destruct (existsb (Nat.eqb n) l); [discriminate|]. destruct (nth_error (w_hp V X w) n) as [nd|]; [|discriminate]. cbn [get bind].
  destruct (rd_wake _ i) as [(r, o)|]; [|discriminate]. cbn [get bind]. intro E.
  assert (A : NR w (set_node V X n (set_rd V (nd_c V nd) r) (Tree.emit V X (Tree.EWake (Kid n i)) w))).
  { apply (NR_cons _ _ (Tree.EWake (Kid n i))); [reflexivity|]. apply set_node_ttr. }
  destruct o; [|injection E as <-; auto]. eapply NR_trans; [exact A|eapply IH; eauto].
Qed.
Lemma wake_place_nr p w w' : wake_place V X w p = Done w' -> NR w w'.
Proof. unfold wake_place. destruct (exists_place V X w p); [apply wake_nr|intros [= <-]; apply NR_refl]. Qed.
Lemma wake_all_nr l : forall w w', wake_all V X l w = Done w' -> NR w w'.
Proof.
  induction l as [|p l IH]; intros w w'; cbn [wake_all]; [intros [= <-]; apply NR_refl|].
  destruct (wake_place V X w p) as [w1| | |] eqn:E; try discriminate. cbn [bind]. intro E2.
  eapply NR_trans; [eapply wake_place_nr; eauto|eapply IH; eauto].
Qed.
Lemma polls_nr f :
  (forall n i wk w w' o, poll_block V X ww debug code f (Kid n i) wk w = Done (w', o) -> NR w w') /\
  (forall wk w w' o, poll_block V X ww debug code f Root wk w = Done (w', o) -> NR (Tree.emit V X (Tree.EPoll Root) w) w') /\
  (forall p wk got w w' o, run_code V X ww debug code f p wk got w = Done (w', o) -> NR w w') /\
  (forall p wk n w w' o, await V X ww debug code f p wk n w = Done (w', o) -> NR w w') /\
  (forall n wk w w' o, poll_comb V X ww debug code f n wk w = Done (w', o) -> NR w w') /\
  (forall n l w w' o, loop V X ww debug code f n l w = Done (w', o) -> NR w w').
Proof.
  induction f as [|f (HK & HR & HC & HA & HP & HL)]; [repeat split; intros; discriminate|]. split; [|split; [|split; [|split; [|split]]]].
  - intros n i wk w w' o. rewrite poll_block_S. intro E.
    apply NR_trans with (Tree.emit V X (Tree.EPoll (Kid n i)) w); [apply (NR_cons _ _ (Tree.EPoll (Kid n i))); reflexivity|].
    destruct (w_sub V X w (Kid n i)); [eapply HA|eapply HC]; eauto.
  - intros wk w w' o. rewrite poll_block_S. intro E. destruct (w_sub V X w Root); [eapply HA|eapply HC]; eauto.
  - intros p wk got w w' o. rewrite run_code_S. destruct (code _ p got) as [[x l] nx].
    destruct (wake_all V X l _) as [w1| | |] eqn:E1; try discriminate. cbn [bind]. apply wake_all_nr in E1.
    assert (A : NR w w1).
    { eapply NR_trans; [|exact E1]. apply (NR_cons _ _ (Tree.ERun p got)); reflexivity. }
    destruct nx as [|v| |k b n]; [intros [= <- <-]; auto|intros [= <- <-]; auto|discriminate|]. intro E2.
    apply HA in E2. eapply NR_trans; [exact A|]. eapply NR_trans; [|exact E2].
    apply (NR_cons _ _ (Tree.ENew (length (w_hp V X w1)) n b p)); reflexivity.
  - intros p wk n w w' o. rewrite await_S. destruct (poll_comb V X ww debug code f n wk w) as [(w1, r)| | |] eqn:E1; try discriminate.
    cbn [bind]. apply HP in E1. destruct r as [v|]; [|intro E2; injection E2 as <- <-; auto]. intro E2. apply HC in E2.
    eapply NR_trans; [exact E1|]. eapply NR_trans; [|exact E2]. apply (NR_cons _ _ (Tree.EGone n v)); reflexivity.
  - intros n wk w w' o. rewrite poll_comb_S. destruct (nth_error (w_hp V X w) n) as [nd|]; [|discriminate]. cbn [get bind].
    destruct (c_entry V V V (nd_b V nd) (nd_c V nd)) as [[]|]; try discriminate; [intros [= <- <-]; apply NR_refl|].
    destruct (rd_clear _) as [r2|]; [|discriminate]. cbn [get bind]. intro E. apply HL in E. eapply NR_trans; [|exact E].
    apply NR_same, set_node_ttr.
  - intros n l w w' o. rewrite loop_S. destruct (nth_error (w_hp V X w) n) as [nd|]; [|discriminate]. cbn [get bind]. destruct l as [|i l].
    + destruct (finish V debug (nd_b V nd) (nd_c V nd)) as [v| | |]; try discriminate. cbn [bind]. intros [= <- <-]. apply NR_refl.
    + destruct (nth_error (c_filled V (nd_c V nd)) i) as [[]|]; [|cbn [get bind]|discriminate]; [apply HL|].
      destruct (poll_block V X ww debug code f (Kid n i) _ w) as [(w1, r)| | |] eqn:E1; try discriminate. cbn [bind]. apply HK in E1.
      destruct r as [v|].
      * assert (A : NR w (Tree.emit V X (Tree.EDone (Kid n i) v) w1)).
        { eapply NR_trans; [exact E1|]. apply (NR_cons _ _ (Tree.EDone (Kid n i) v)); reflexivity. }
        destruct (b_maybe_return (nd_b V nd) i v) as [o'|s]; [intros [= <- <-]; auto|].
        destruct (nth_error (w_hp V X (Tree.emit V X (Tree.EDone (Kid n i) v) w1)) n) as [nd2|]; [|discriminate]. cbn [get bind].
        destruct (store V (nd_c V nd2) i s) as [c| | |]; try discriminate. cbn [bind]. intro E2. apply HL in E2.
        eapply NR_trans; [exact A|]. eapply NR_trans; [|exact E2]. apply NR_same, set_node_ttr.
      * intro E2. apply HL in E2. eapply NR_trans; [exact E1|]. eapply NR_trans; [|exact E2].
        apply (NR_cons _ _ (Tree.EPend (Kid n i))); reflexivity.
Qed.
Lemma hpoll_once f tag w w' : w_over V X w = false -> Tree.exec V X ww debug code w (HPoll f tag) = Done w' ->
  tpolls Root (ttr w') = S (tpolls Root (ttr w)).
Proof.
  intros O. cbn [Tree.exec]. rewrite O. destruct (poll_block V X ww debug code f Root _ w) as [(w1, r)| | |] eqn:E; try discriminate.
  destruct (polls_nr f) as (_ & HR & _). apply HR in E. destruct E as (evs & E & Z). cbn in E.
  cbn [bind]. destruct r as [v|]; intros [= <-]; cbn; rewrite E, tpolls_app, Z; reflexivity.
Qed.
End Once.

(** ** what code does to tasks, on the trace of the queue *)
Section Acts.
Variable Y : Type.
Notation qu := (qu Y). Notation qtr := (q_tr Y).
Definition kept (q q' : qu) : Prop :=
  q_x Y q' = q_x Y q /\ q_n Y q <= q_n Y q' /\
  (forall u, u < q_n Y q -> t_gone (q_st Y q u) = true -> t_gone (q_st Y q' u) = true) /\
  (forall u, qpolls u (qtr q') = qpolls u (qtr q)) /\
  (forall u, owed u (qtr q) = true -> owed u (qtr q') = true) /\
  (forall u, alive u (qtr q) = true -> alive u (qtr q') = true) /\
  (forall u, alive u (qtr q') = true -> alive u (qtr q) = true \/ owed u (qtr q') = true).
Lemma kept_refl q : kept q q. Proof. unfold kept. intuition. Qed.
Lemma kept_trans a b c : kept a b -> kept b c -> kept a c.
Proof.
  intros (A1 & A2 & A3 & A4 & A5 & A6 & A7) (B1 & B2 & B3 & B4 & B5 & B6 & B7). unfold kept. split; [congruence|]. split; [lia|].
  split; [intros u L G; apply B3; auto; lia|]. split; [intro u; rewrite B4; auto|]. split; [auto|]. split; [auto|].
  intros u H. destruct (B7 u H) as [Q|Q]; auto. destruct (A7 u Q); auto.
Qed.
Lemma do_tact_kept a q : kept q (fst (do_tact Y a q)) /\
  (forall u, a = TWake u -> alive u (qtr q) = true -> owed u (qtr (fst (do_tact Y a q))) = true).
Proof.
  assert (T : forall u b s n, qtr (fst (push Y u (mkQ Y (q_x Y q) (q_run Y q) n s b (qtr q)))) = qtr q) by reflexivity.
  destruct a as [t| |t|]; cbn [do_tact].
  - assert (W : forall q', q_x Y q' = q_x Y q -> q_n Y q' = q_n Y q -> qtr q' = QWake t :: qtr q ->
      (forall u, t_gone (q_st Y q u) = true -> t_gone (q_st Y q' u) = true) -> kept q q' /\
      (forall u, TWake t = TWake u -> alive u (qtr q) = true -> owed u (qtr q') = true)).
    { intros q' E1 E2 E3 E4. unfold kept. rewrite E1, E2, E3. cbn [owed alive qpolls filter length]. split.
      - split; auto. split; auto. split; auto. split; [reflexivity|]. split; [|auto]. intros u H. rewrite H. apply orb_true_r.
      - intros u [= ->] H. rewrite Nat.eqb_refl, H. reflexivity. }
    destruct (_ && negb (t_sched _)) eqn:B; [|apply W; auto].
    apply andb_true_iff in B as [B _]. apply andb_true_iff in B as [B _]. apply andb_true_iff in B as [_ B]. apply negb_true_iff in B.
    destruct (t_run _); apply W; auto; intros u G; cbn; destruct (Nat.eqb_spec u t) as [->|]; auto; congruence.
  - split; [|discriminate]. unfold kept. cbn [fst push Queue.q_x Queue.q_n Queue.q_tr Queue.q_st owed alive].
    split; auto. split; [lia|]. split; [intros u L G; cbn; destruct (Nat.eqb_spec u (q_n Y q)) as [->|]; auto; lia|].
    split; [reflexivity|]. split; [intros u H; rewrite H; apply orb_true_r|]. split; [intros u H; rewrite H; apply orb_true_r|].
    intros u H. destruct (Nat.eqb (q_n Y q) u); auto.
  - split; [|discriminate].
    assert (W : forall q', q_x Y q' = q_x Y q -> q_n Y q' = q_n Y q -> qtr q' = QCancel t :: qtr q ->
      (forall u, t_gone (q_st Y q u) = true -> t_gone (q_st Y q' u) = true) -> kept q q').
    { intros q' E1 E2 E3 E4. unfold kept. rewrite E1, E2, E3. cbn [owed alive qpolls filter length].
      split; auto. split; auto. split; auto. split; [reflexivity|]. split; [|auto]. intros u H. rewrite H. apply orb_true_r. }
    destruct (_ && negb (t_closed _)) eqn:B; [|apply W; auto].
    apply andb_true_iff in B as [B _]. apply andb_true_iff in B as [_ B]. apply negb_true_iff in B.
    destruct (_ || _); apply W; auto; intros u G; cbn; destruct (Nat.eqb_spec u t) as [->|]; auto; congruence.
  - split; [apply kept_refl|discriminate].
Qed.
Lemma do_tacts_kept l : forall q, kept q (fst (do_tacts Y l q)) /\
  (forall u, In (Some (TWake u)) l -> alive u (qtr q) = true -> owed u (qtr (fst (do_tacts Y l q))) = true).
Proof.
  induction l as [|[a|] l IH]; intro q; cbn [do_tacts].
  - split; [apply kept_refl|intros u []].
  - destruct (do_tact_kept a q) as [K W]. destruct (do_tact Y a q) as [q1 a1]. cbn [fst] in *. destruct (IH q1) as [K2 W2].
    destruct (do_tacts Y l q1) as [q2 a2]. cbn [fst] in *. split; [eapply kept_trans; eauto|].
    intros u [[= ->]|H] A.
    + apply K2. apply W; auto.
    + apply W2; auto. apply K; auto.
  - destruct (IH q) as [K2 W2]. destruct (do_tacts Y l q) as [q2 a2]. cbn [fst] in *. split; auto.
    intros u [Q|H] A; [discriminate|auto].
Qed.
End Acts.

(** ** pages *)
Section Proofs.
Variables V X : Type.
Variable ww : waker -> waker -> bool.
Variable debug : bool.
Variable bound : nat.
Variable code : nat -> X -> place -> option V -> X * list gact * next V.
Variable on_drop : nat -> X -> X * list gact.
Hypothesis WW : will_wake_ok ww.
Hypothesis CO : forall t x p got x' l k b n, code t x p got = (x', l, NAwait k b n) -> beh_ok b /\ (k = KTuple -> n > 0).
Notation Z := (X * list gact)%type.
Notation tree := (world V Z). Notation page := (page V X). Notation ttr := (w_tr V Z).
Notation bcode := (block_code V X code).
Notation step := (page_step V X ww debug bound code).
Notation fin := (page_fin V X on_drop).
Notation pg_t := (pg_t V X).
Notation over := (w_over V Z).
Notation trun t := (Tree.run V Z ww debug (bcode t)).

Lemma bcode_ok t : code_ok (bcode t).
Proof.
  intros z p got z' ws k b n. unfold block_code. destruct (code t (fst z) p got) as [[x l] nx] eqn:E. intros [= <- <- ->]. eauto.
Qed.

(** the state of application [t] is one of a program of its own *)
Definition prog (t : nat) (w : tree) : Prop := exists z evs, trun t z evs = Done w.
Lemma run_snoc t z evs w e w' : trun t z evs = Done w -> Tree.exec V Z ww debug (bcode t) w e = Done w' -> trun t z (evs ++ [e]) = Done w'.
Proof.
  unfold Tree.run. generalize (Tree.start V Z z). induction evs as [|e0 evs IH]; intros w0 R E; cbn [app run_from] in *.
  - injection R as ->. rewrite E. reflexivity.
  - destruct (Tree.exec V Z ww debug (bcode t) w0 e0); try discriminate R. cbn [bind] in *. auto.
Qed.
Lemma prog_step t w e w' : prog t w -> Tree.exec V Z ww debug (bcode t) w e = Done w' -> prog t w'.
Proof. intros (z & evs & R) E. exists z, (evs ++ [e]). eapply run_snoc; eauto. Qed.
Lemma prog_inv t w : prog t w -> Inv V Z st0 None None w.
Proof. intros (z & evs & R). apply (Tree_proofs.run_ok V Z ww debug (bcode t) WW (bcode_ok t) z evs). auto. Qed.
Lemma prog_set t w z : prog t w -> prog t (Tree.set_x V Z z w).
Proof. intro P. apply (prog_step t w (HEnv (fun _ => z))); auto. Qed.

(** what happens to the applications *)
Record Good (y : page) : Prop := { gd_prog : forall t, prog t (pg_t y t); gd_fault : pg_fault V X y = false }.
(** the applications after code woke some of their blocks, with [l] what it did to tasks *)
Definition woke (y y' : page) (l : list (option tact)) : Prop :=
  (forall u, over (pg_t y' u) = over (pg_t y u)) /\
  (forall u, tpolls Root (ttr (pg_t y' u)) = tpolls Root (ttr (pg_t y u))) /\
  (forall u, woken Root (ttr (pg_t y' u)) = true -> woken Root (ttr (pg_t y u)) = true \/ In (Some (TWake u)) l).
Lemma in_repeat_pos {A} (a : A) n : n > 0 -> In a (repeat a n).
Proof. destruct n; [lia|left; auto]. Qed.
Lemma do_gact_ok a y : Good y -> let (y', l) := do_gact V X a y in Good y' /\ woke y y' l.
Proof.
  intros G. assert (I : woke y y []) by (unfold woke; auto). destruct a as [t p| | | |]; cbn [do_gact]; try (split; [auto|unfold woke; auto]; fail).
  pose proof (prog_inv t _ (gd_prog _ G t)) as IT.
  destruct (wake_place_ok V Z st0 p (pg_t y t) IT) as (w & E & _ & ((evs & ET & FT) & _ & _ & _ & EO)). rewrite E. split.
  - constructor; [|apply G]. intro u. cbn. destruct (Nat.eqb_spec u t) as [->|]; [|apply G].
    eapply (prog_step t _ (HWake p)); [apply G|exact E].
  - split; [|split]; intro u; cbn; destruct (Nat.eqb_spec u t) as [->|]; auto.
    + destruct (wake_place_nr V Z p _ _ E) as (e2 & E2 & Z2). rewrite E2, tpolls_app, Z2. reflexivity.
    + intro W. rewrite ET, root_wakes_app. rewrite ET in W. destruct (woken_wakes V _ _ _ W) as [Q|(_ & Q)]; auto.
      right. apply in_repeat_pos, Q.
Qed.
Lemma do_gacts_ok l : forall y, Good y -> let (y', al) := do_gacts V X l y in Good y' /\ woke y y' al.
Proof.
  induction l as [|a l IH]; intros y G; cbn [do_gacts]; [split; [auto|unfold woke; auto]|].
  pose proof (do_gact_ok a y G) as H1. destruct (do_gact V X a y) as [y1 l1]. destruct H1 as (G1 & O1 & N1 & W1).
  pose proof (IH y1 G1) as H2. destruct (do_gacts V X l y1) as [y2 l2]. destruct H2 as (G2 & O2 & N2 & W2). split; auto.
  split; [intro u; rewrite O2; auto|]. split; [intro u; rewrite N2; auto|]. intros u W.
  destruct (W2 u W) as [Q|Q]; [|right; apply in_app_iff; auto]. destruct (W1 u Q) as [R|R]; auto. right. apply in_app_iff; auto.
Qed.

Lemma poll_trace' t w w' : Inv V Z st0 None None w -> over w = false -> Tree.exec V Z ww debug (bcode t) w (HPoll bound 0) = Done w' ->
  exists new, ttr w' = new ++ ttr w /\ In (Tree.EPoll Root) new.
Proof.
  intros I O E. destruct (poll_trace V Z ww debug (bcode t) bound WW (bcode_ok t) w w' 0 I E) as (_ & new & EN & H). eauto.
Qed.

Lemma step_good t y : Good y -> let '(y', l, o) := step t y in Good y'.
Proof.
  intros G. unfold page_step. pose proof (prog_inv t _ (gd_prog _ G t)) as IT.
  set (w := Tree.set_x V Z (pg_x V X y, []) (pg_t y t)).
  assert (IW : Inv V Z st0 None None w) by (apply Inv_set_x; auto).
  assert (PW : prog t w) by (apply prog_set; apply G).
  destruct (Tree_proofs.exec_ok V Z ww debug (bcode t) WW (bcode_ok t) w (HPoll bound 0) IW) as (NF & _).
  destruct (Tree.exec V Z ww debug (bcode t) w (HPoll bound 0)) as [w'| | |] eqn:E; [|exact G|destruct NF; auto|exact G].
  pose proof (prog_step t w _ w' PW E) as PW'.
  assert (G1 : Good (mkPg V X (pg_t (set_app V X t w' y)) (fst (w_x V Z w')) (pg_fault V X y))).
  { constructor; [|apply G]. intro u. cbn. destruct (Nat.eqb_spec u t) as [->|]; [auto|apply G]. }
  pose proof (do_gacts_ok (snd (w_x V Z w')) _ G1) as H. destruct (do_gacts V X _ _) as [y2 l]. apply H.
Qed.
Lemma step_woke t y y' l o : Good y -> over (pg_t y t) = false -> step t y = (y', l, o) -> o <> Panics ->
  Good y' /\ (o = Ready <-> over (pg_t y' t) = true) /\ (forall u, u <> t -> over (pg_t y' u) = over (pg_t y u)) /\
  (forall u, tpolls Root (ttr (pg_t y' u)) = (if Nat.eqb u t then 1 else 0) + tpolls Root (ttr (pg_t y u))) /\
  (forall u, woken Root (ttr (pg_t y' u)) = true -> u <> t /\ woken Root (ttr (pg_t y u)) = true \/ In (Some (TWake u)) l).
Proof.
  intros G O S NP. pose proof (step_good t y G) as H. rewrite S in H. split; auto.
  unfold page_step in S. pose proof (prog_inv t _ (gd_prog _ G t)) as IT.
  set (w := Tree.set_x V Z (pg_x V X y, []) (pg_t y t)) in *.
  assert (IW : Inv V Z st0 None None w) by (apply Inv_set_x; auto).
  assert (PW : prog t w) by (apply prog_set; apply G).
  destruct (Tree.exec V Z ww debug (bcode t) w (HPoll bound 0)) as [w'| | |] eqn:E; try (injection S as _ _ <-; contradiction).
  pose proof (prog_step t w _ w' PW E) as PW'.
  set (y1 := mkPg V X (pg_t (set_app V X t w' y)) (fst (w_x V Z w')) (pg_fault V X y)) in *.
  assert (G1 : Good y1).
  { constructor; [|apply G]. intro u. cbn. destruct (Nat.eqb_spec u t) as [->|]; [auto|apply G]. }
  pose proof (do_gacts_ok (snd (w_x V Z w')) _ G1) as K. destruct (do_gacts V X _ _) as [y2 l2]. destruct K as (_ & KO & KN & KW).
  injection S as <- <- <-.
  assert (E1 : pg_t y1 t = w') by (cbn; rewrite Nat.eqb_refl; reflexivity).
  assert (E2 : forall u, u <> t -> pg_t y1 u = pg_t y u) by (intros u D; cbn; destruct (Nat.eqb_spec u t); [contradiction|reflexivity]).
  split; [rewrite KO, E1; destruct (over w'); split; congruence|]. split; [intros u D; rewrite KO, E2; auto|]. split.
  - intro u. rewrite KN. destruct (Nat.eqb_spec u t) as [->|D]; [|rewrite E2; auto]. rewrite E1.
    rewrite (hpoll_once V Z ww debug (bcode t) bound 0 w w' O E). reflexivity.
  - intros u W. destruct (KW u W) as [Q|Q]; [|right; apply in_app_iff; auto].
    destruct (Nat.eq_dec u t) as [->|D]; [|left; split; auto; rewrite E2 in Q; auto]. right. apply in_app_iff. left.
    rewrite E1 in Q. destruct (poll_trace' t w w' IW O E) as (new & EN & IN). rewrite EN in Q |- *. rewrite root_wakes_app.
    destruct (woken_wakes V _ _ _ Q) as [R|(R & _)]; [apply in_repeat_pos; auto|contradiction].
Qed.

(** ** the invariant *)
Notation qu := (qu page). Notation qtr := (q_tr page). Notation q_x := (q_x page).
Record PI (q : qu) : Prop := {
  pi_good : Good (q_x q);
  pi_owed : forall u, alive u (qtr q) = true -> over (pg_t (q_x q) u) = false -> woken Root (ttr (pg_t (q_x q) u)) = true ->
    owed u (qtr q) = true;
  pi_over : forall u, over (pg_t (q_x q) u) = true -> u < q_n page q /\ t_gone (q_st page q u) = true;
  pi_polls : forall u, tpolls Root (ttr (pg_t (q_x q) u)) = qpolls u (qtr q) }.

(** changes of the application state, with what it does to tasks *)
Lemma pi_acts q y' l : PI q -> Good y' -> woke (q_x q) y' l ->
  PI (fst (do_tacts page l (q_setx page y' q))).
Proof.
  intros I G (WO & WN & WK). destruct (do_tacts_kept page l (q_setx page y' q)) as ((A1 & A2 & A3 & A4 & A5 & A6 & A7) & AW).
  set (q' := fst (do_tacts page l (q_setx page y' q))) in *. cbn [q_setx Queue.q_x Queue.q_n Queue.q_st Queue.q_tr] in *.
  constructor; rewrite ?A1; auto.
  - intros u AL O W. destruct (A7 u AL) as [Q|Q]; auto. rewrite WO in O. destruct (WK u W) as [R|R]; auto.
    apply A5. apply I; auto.
  - intros u O. rewrite WO in O. destruct (pi_over _ I u O). split; [lia|auto].
  - intro u. rewrite A4, WN. apply I.
Qed.
Lemma fin_ok t y : Good y -> let (y', l) := fin t y in Good y' /\ woke y y' l.
Proof.
  intro G. unfold page_fin. destruct (on_drop t (pg_x V X y)) as [x l].
  assert (G1 : Good (mkPg V X (pg_t y) x (pg_fault V X y))) by (destruct G; constructor; auto).
  pose proof (do_gacts_ok l _ G1) as H. destruct (do_gacts V X l _). exact H.
Qed.
(** dropping the future of a task, whose poll may just have ended *)
Lemma drop_pi t q : t < q_n page q ->
  Good (q_x q) ->
  (forall u, u <> t -> alive u (qtr q) = true -> over (pg_t (q_x q) u) = false -> woken Root (ttr (pg_t (q_x q) u)) = true -> owed u (qtr q) = true) ->
  (forall u, u <> t -> over (pg_t (q_x q) u) = true -> u < q_n page q /\ t_gone (q_st page q u) = true) ->
  (forall u, tpolls Root (ttr (pg_t (q_x q) u)) = qpolls u (qtr q)) ->
  PI (fst (drop_fut page fin t q)).
Proof.
  intros L G HO HV HN. unfold drop_fut. pose proof (fin_ok t (q_x q) G) as H. destruct (fin t (q_x q)) as [y' l]. destruct H as (G' & WO & WN & WK).
  set (q1 := q_emit page (QDrop t) (q_sets page t (mkT false false true true) (q_setx page y' q))).
  destruct (do_tacts_kept page l q1) as ((A1 & A2 & A3 & A4 & A5 & A6 & A7) & AW).
  set (q' := fst (do_tacts page l q1)) in *.
  assert (E1 : q_x q1 = y') by reflexivity. assert (E2 : q_n page q1 = q_n page q) by reflexivity.
  assert (E3 : qtr q1 = QDrop t :: qtr q) by reflexivity.
  assert (E4 : forall u, t_gone (q_st page q1 u) = if Nat.eqb u t then true else t_gone (q_st page q u)).
  { intro u. cbn. destruct (Nat.eqb u t); reflexivity. }
  constructor; rewrite ?A1, ?E1; auto.
  - intros u AL O W. destruct (A7 u AL) as [Q|Q]; auto. assert (D : u <> t).
    { rewrite E3 in Q. cbn in Q. intros ->. rewrite Nat.eqb_refl in Q. discriminate. }
    destruct (WK u W) as [R|R]; auto. apply A5. rewrite E3 in Q |- *. cbn in Q |- *. destruct (Nat.eqb_spec t u); [congruence|].
    cbn in Q |- *. apply HO; auto. rewrite <- WO; auto.
  - intros u O. rewrite WO in O. destruct (Nat.eq_dec u t) as [->|D].
    + split; [lia|]. apply A3; [lia|]. rewrite E4, Nat.eqb_refl. reflexivity.
    + destruct (HV u D O) as [Q R]. split; [lia|]. apply A3; [lia|]. rewrite E4. destruct (Nat.eqb u t); auto.
  - intro u. rewrite A4, WN, E3. apply HN.
Qed.

Lemma run_one_pi q t r q' al : QI page None q -> PI q -> q_run page q = t :: r ->
  run_one page step fin t (mkQ page (q_x q) r (q_n page q) (q_st page q) false (qtr q)) = (q', al, false) -> PI q'.
Proof.
  intros I P E. destruct (head_facts page step fin q t r I E) as (L & GN & _).
  set (q0 := mkQ page (q_x q) r (q_n page q) (q_st page q) false (qtr q)).
  unfold run_one. change (q_st page q0 t) with (q_st page q t).
  assert (O : over (pg_t (q_x q) t) = false).
  { destruct (over (pg_t (q_x q) t)) eqn:O; auto. destruct (pi_over _ P t O). congruence. }
  destruct (t_closed (q_st page q t)).
  - assert (K : PI (fst (drop_fut page fin t q0))).
    { apply drop_pi; cbn; auto; try apply P; intros u _; apply P. }
    destruct (drop_fut page fin t q0) as [q2 a2]. intros [= <- <-]. exact K.
  - change (Queue.q_x page q0) with (q_x q). destruct (step t (q_x q)) as [[y' l] o] eqn:S.
    set (q1 := q_emit page (QPoll t) (q_sets page t (mkT false true false false) (q_setx page y' q0))).
    destruct (do_tacts_kept page l q1) as ((A1 & A2 & A3 & A4 & A5 & A6 & A7) & AW).
    destruct (do_tacts page l q1) as [q2 a1] eqn:DT. cbn [fst snd] in *. intro R.
    assert (NP : o <> Panics) by (intros ->; discriminate R).
    destruct (step_woke t (q_x q) y' l o (pi_good _ P) O S NP) as (G' & SO & SO2 & SN & SW).
    assert (E1 : q_x q1 = y') by reflexivity. assert (E2 : q_n page q1 = q_n page q) by reflexivity.
    assert (E3 : qtr q1 = QPoll t :: qtr q) by reflexivity.
    assert (E4 : forall u, t_gone (q_st page q1 u) = if Nat.eqb u t then false else t_gone (q_st page q u)).
    { intro u. cbn. destruct (Nat.eqb u t); reflexivity. }
    assert (AL : alive t (qtr q) = true).
    { rewrite (qi_alive _ _ _ I). rewrite GN, (proj2 (Nat.ltb_lt _ _) L). reflexivity. }
    assert (HO : forall u, alive u (qtr q2) = true -> over (pg_t y' u) = false -> woken Root (ttr (pg_t y' u)) = true -> owed u (qtr q2) = true).
    { intros u A W1 W. destruct (A7 u A) as [Q|Q]; auto. destruct (SW u W) as [[D R1]|R1]; [|auto].
      apply A5. rewrite E3 in Q |- *. cbn in Q |- *. destruct (Nat.eqb_spec t u); [congruence|]. cbn. apply P; auto. rewrite <- SO2; auto. }
    assert (HV : forall u, u <> t -> over (pg_t y' u) = true -> u < q_n page q2 /\ t_gone (q_st page q2 u) = true).
    { intros u D OV. rewrite SO2 in OV; auto. destruct (pi_over _ P u OV). split; [lia|]. apply A3; [lia|]. rewrite E4. destruct (Nat.eqb_spec u t); [contradiction|auto]. }
    assert (HN : forall u, tpolls Root (ttr (pg_t y' u)) = qpolls u (qtr q2)).
    { intro u. rewrite A4, SN, E3. unfold Spec_queue.polls. cbn [filter]. rewrite (pi_polls _ P u). rewrite (Nat.eqb_sym t u).
      destruct (Nat.eqb u t); reflexivity. }
    assert (DR : forall q3 a3, drop_fut page fin t (q_emit page (QEnd t) q2) = (q3, a3) -> PI q3).
    { intros q3 a3 D. pose proof (drop_pi t (q_emit page (QEnd t) q2)) as K. rewrite D in K. cbn [fst] in K.
      change (q_x (q_emit page (QEnd t) q2)) with (q_x q2) in K. rewrite A1, E1 in K. apply K; auto.
      change (t < q_n page q2). lia. intros u _. apply HO. }
    destruct o; [| |congruence].
    + assert (OT : over (pg_t y' t) = false). { destruct (over (pg_t y' t)); auto. destruct SO as [_ SO]. discriminate (SO eq_refl). }
      destruct (t_closed (q_st page q2 t)) eqn:C.
      * destruct (drop_fut page fin t (q_emit page (QEnd t) q2)) as [q3 a3]. injection R as <- <-. eapply DR; eauto.
      * assert (K : forall q3, q_x q3 = q_x q2 -> q_n page q3 = q_n page q2 -> qtr q3 = QEnd t :: qtr q2 ->
          (forall u, u <> t -> q_st page q3 u = q_st page q2 u) -> PI q3).
        { intros q3 F1 F2 F3 F4. constructor; rewrite ?F1, ?F2, ?F3, ?A1, ?E1; auto.
          intros u OV. assert (D : u <> t) by congruence. rewrite F4; auto. }
        destruct (t_sched (q_st page q2 t)); cbn [push] in R; injection R as <- <-; apply K; auto; intros u D; cbn;
          destruct (Nat.eqb_spec u t); congruence.
    + destruct (drop_fut page fin t (q_emit page (QEnd t) q2)) as [q3 a3]. injection R as <- <-. eapply DR; eauto.
Qed.
Lemma batch_pi n : forall q q' al, QI page None q -> PI q -> batch page step fin n q = (q', al, false) -> PI q'.
Proof.
  induction n as [|n IH]; intros q q' al I P; cbn [batch]; [intros [= <- <-]; auto|].
  destruct (q_run page q) as [|t r] eqn:E; [intros [= <- <-]; destruct P; constructor; auto|].
  destruct (run_one page step fin t _) as [[q1 a1] p1] eqn:R1. destruct (run_one_qi page step fin q t r q1 a1 p1 I E R1) as [K1 _].
  destruct p1; [discriminate|]. destruct (batch page step fin n q1) as [[q2 a2] p2] eqn:R2. intros [= <- <- ->].
  apply (IH q1 q2 a2); auto. apply (run_one_pi q t r q1 a1 I P E R1).
Qed.
Notation main := (main_poll page step fin).
Lemma loop_pi f : forall s s', OI page s -> PI (xs _ s) -> run_loop qu main f s = Live s' -> PI (xs _ s').
Proof.
  induction f as [|f IH]; intros s s' [I A] P; cbn [run_loop]; [discriminate|].
  destruct (scheduled qu s) eqn:SC; [|intros [= <-]; exact P].
  cbn [xs scheduled active timers tr]. destruct (main (xs qu s)) as [[x acts] p] eqn:M. unfold main_poll in M.
  destruct p; [discriminate|]. apply IH.
  - destruct (batch_qi page step fin 200 _ _ _ _ I M) as [K1 _]. destruct (K1 eq_refl) as [K3 K4].
    split; cbn; rewrite acts_xs; cbn; auto. intro Q. left. apply acts_sched. left. destruct K4; [congruence|auto].
  - cbn. rewrite acts_xs. cbn. eapply batch_pi; eauto.
Qed.
Lemma run_now_pi f s s' : OI page s -> PI (xs _ s) -> run_now qu main f s = Live s' -> PI (xs _ s').
Proof.
  intros [I A] P. unfold run_now. destruct (active qu s); [intros [= <-]; exact P|]. apply loop_pi; [|exact P]. split; cbn; auto.
  intro Q. destruct (A Q) as [Z|Z]; auto. right. intros [E|E]; [discriminate|auto].
Qed.

(** several changes from outside *)
Definition acts_of (l : list (option tact)) : list (xev page) := flat_map (fun o => match o with Some b => [XDo b] | None => [] end) l.
Lemma xdo_xs a s : exists s', xexec page step fin (Live s) (XDo a) = Live s' /\ xs _ s' = fst (do_tact page a (xs _ s)).
Proof.
  cbn [xexec events]. destruct (do_tact page a (xs qu s)) as [q' al]. cbn [fold_left exec exec1 fst].
  destruct (swakes_facts page step fin al (mkEx qu (scheduled qu s) (active qu s) (timers qu s) q' (tr qu s))) as (s1 & -> & E & _). eauto.
Qed.
Lemma xdos_xs l : forall s, exists s', fold_left (xexec page step fin) (acts_of l) (Live s) = Live s' /\ xs _ s' = fst (do_tacts page l (xs _ s)).
Proof.
  induction l as [|[a|] l IH]; intro s; cbn [acts_of flat_map app fold_left do_tacts].
  - eauto.
  - destruct (xdo_xs a s) as (s1 & -> & E). destruct (IH s1) as (s2 & E2 & E3). exists s2. split; auto. rewrite E3, E.
    destruct (do_tact page a (xs qu s)) as [q1 a1]. cbn [fst]. destruct (do_tacts page l q1). reflexivity.
  - destruct (IH s) as (s2 & E2 & E3). exists s2. split; auto. rewrite E3. destruct (do_tacts page l (xs qu s)). reflexivity.
Qed.
Lemma pexec_pi s e s' : OI page s -> PI (xs _ s) -> pexec V X ww debug bound code on_drop (Live s) e = Live s' -> PI (xs _ s').
Proof.
  intros O P. destruct e as [a|g|f|f]; cbn [pexec pevents].
  - pose proof (do_gact_ok a _ (pi_good _ P)) as H. destruct (do_gact V X a (q_x (xs qu s))) as [y' l]. destruct H as [G W].
    cbn [fold_left]. cbn [xexec events fold_left exec exec1]. fold (acts_of l).
    destruct (xdos_xs l (mkEx qu (scheduled qu s) (active qu s) (timers qu s) (q_setx page y' (xs qu s)) (tr qu s))) as (s1 & -> & E).
    intros [= <-]. rewrite E. apply pi_acts; auto.
  - destruct (g (pg_x V X (q_x (xs qu s)))) as [x a].
    assert (G1 : Good (mkPg V X (pg_t (q_x (xs qu s))) x (pg_fault V X (q_x (xs qu s))))) by (destruct (pi_good _ P); constructor; auto).
    pose proof (do_gacts_ok a _ G1) as H. destruct (do_gacts V X a _) as [y' l]. destruct H as [G W].
    cbn [fold_left]. cbn [xexec events fold_left exec exec1]. fold (acts_of l).
    destruct (xdos_xs l (mkEx qu (scheduled qu s) (active qu s) (timers qu s) (q_setx page y' (xs qu s)) (tr qu s))) as (s1 & -> & E).
    intros [= <-]. rewrite E. apply pi_acts; auto.
  - cbn [fold_left xexec events exec exec1]. destruct (timers qu s) as [|n]; [intros [= <-]; auto|]. apply run_now_pi; auto.
  - cbn [fold_left xexec events exec exec1]. apply run_now_pi; auto.
Qed.

(** every history of the page is one of the queue *)
Notation prun := (prun V X ww debug bound code on_drop).
Lemma prun_xrun x evs : exists l, prun x evs = xrun page step fin (page0 V X x) l /\
  (In (PDo GSchedule) evs -> prun x evs <> Stuck -> In (XDo TSchedule) l).
Proof.
  unfold Page.prun, xrun. induction evs as [|e evs IH] using rev_ind; [exists []; split; [reflexivity|intros []]|].
  destruct IH as (l & E & M). rewrite fold_left_app. cbn [fold_left].
  assert (K : forall s r, r = Live s \/ r = Crashed s -> fold_left (pexec V X ww debug bound code on_drop) evs (Live (start qu (q_start page (page0 V X x)))) = r ->
    exists l0, fold_left (xexec page step fin) (pevents V X (q_x (xs qu s)) e) r =
      fold_left (xexec page step fin) l0 (Live (start qu (q_start page (page0 V X x)))) /\
      (In (PDo GSchedule) (evs ++ [e]) -> fold_left (xexec page step fin) (pevents V X (q_x (xs qu s)) e) r <> Stuck -> In (XDo TSchedule) l0)).
  { intros s r HR R. exists (l ++ pevents V X (q_x (xs qu s)) e). rewrite fold_left_app, <- E, R. split; auto. intros H _. apply in_app_iff.
    apply in_app_iff in H as [H|[->|[]]].
    - left. apply M; auto. rewrite R. destruct HR; subst r; discriminate.
    - right. cbn. auto. }
  destruct (fold_left (pexec V X ww debug bound code on_drop) evs (Live (start qu (q_start page (page0 V X x))))) as [s|s|] eqn:R; cbn [pexec].
  - apply (K s (Live s)); auto.
  - apply (K s (Crashed s)); auto.
  - exists l. split; auto. intros _ Q. destruct (Q eq_refl).
Qed.
Lemma pexec_live_from r e s : pexec V X ww debug bound code on_drop r e = Live s -> exists s0, r = Live s0.
Proof.
  destruct r as [s0|s0|]; [eauto| |discriminate]. cbn [pexec]. generalize (pevents V X (q_x (xs qu s0)) e). intro l.
  assert (K : forall r, (forall s1, r <> Live s1) -> fold_left (xexec page step fin) l r = Live s -> False).
  { induction l as [|e1 l IH]; intros r H; cbn [fold_left]; [apply H|]. apply IH. intros s1 Q. apply xexec_live_from in Q as (s2 & Q). eapply H; eauto. }
  intro Q. apply K in Q; [destruct Q|]. discriminate.
Qed.
Lemma prun_pi x evs : forall s, prun x evs = Live s -> OI page s /\ PI (xs _ s).
Proof.
  intros s R. split.
  - destruct (prun_xrun x evs) as (l & E & _). rewrite E in R. apply (proj1 (xrun_inv page step fin _ l) s R).
  - revert s R. induction evs as [|e evs IH] using rev_ind.
    + unfold Page.prun. intros s [= <-]. cbn. constructor; cbn.
      * constructor; auto. intro t. exists (x, []), []. reflexivity.
      * discriminate.
      * discriminate.
      * reflexivity.
    + intros s R. pose proof R as R0. unfold Page.prun in R0. rewrite fold_left_app in R0. cbn [fold_left] in R0.
      destruct (pexec_live_from _ _ _ R0) as (s0 & E). rewrite E in R0. apply (pexec_pi s0 e s); auto.
      destruct (prun_xrun x evs) as (l & E2 & _). unfold Page.prun in E2. rewrite E in E2. symmetry in E2. apply (proj1 (xrun_inv page step fin _ l) s0 E2).
Qed.
(** ** the applications after any history, also one with a panic *)
Lemma tacts_x l q : q_x (fst (do_tacts page l q)) = q_x q.
Proof. apply (proj1 (do_tacts_kept page l q)). Qed.
Lemma drop_good t q : Good (q_x q) -> Good (q_x (fst (drop_fut page fin t q))).
Proof.
  intro G. unfold drop_fut. pose proof (fin_ok t (q_x q) G) as H. destruct (fin t (q_x q)) as [y' l]. rewrite tacts_x. apply H.
Qed.
Lemma run_one_good t q : Good (q_x q) -> let '(q', al, p) := run_one page step fin t q in Good (q_x q').
Proof.
  intro G. unfold run_one. destruct (t_closed (q_st page q t)).
  - pose proof (drop_good t q G) as H. destruct (drop_fut page fin t q). exact H.
  - pose proof (step_good t (q_x q) G) as H. destruct (step t (q_x q)) as [[y' l] o].
    pose proof (tacts_x l (q_emit page (QPoll t) (q_sets page t (mkT false true false false) (q_setx page y' q)))) as T.
    destruct (do_tacts page l _) as [q1 a1]. cbn [fst] in T.
    assert (G1 : Good (q_x q1)) by (rewrite T; exact H).
    pose proof (drop_good t (q_emit page (QEnd t) q1) G1) as D.
    destruct (drop_fut page fin t (q_emit page (QEnd t) q1)) as [q2 a2].
    destruct o; auto. destruct (t_closed (q_st page q1 t)); [exact D|]. destruct (t_sched (q_st page q1 t)); exact G1.
Qed.
Lemma batch_good n : forall q, Good (q_x q) -> let '(q', al, p) := batch page step fin n q in Good (q_x q').
Proof.
  induction n as [|n IH]; intros q G; cbn [batch]; auto. destruct (q_run page q) as [|t r]; auto.
  pose proof (run_one_good t (mkQ page (q_x q) r (q_n page q) (q_st page q) false (qtr q)) G) as H.
  destruct (run_one page step fin t _) as [[q1 a1] p1]. destruct p1; auto. specialize (IH q1 H).
  destruct (batch page step fin n q1) as [[q2 a2] p2]. exact IH.
Qed.
Definition RG (r : rres qu) : Prop := match r with Live s | Crashed s => Good (q_x (xs _ s)) | Stuck => True end.
Lemma loop_good f : forall s, Good (q_x (xs _ s)) -> RG (run_loop qu main f s).
Proof.
  induction f as [|f IH]; intros s G; cbn [run_loop]; [exact Logic.I|].
  destruct (scheduled qu s); [|exact G]. cbn [xs scheduled active timers tr].
  pose proof (batch_good 200 (xs qu s) G) as H. unfold main_poll. destruct (batch page step fin 200 (xs qu s)) as [[x acts] p].
  destruct p; [|apply IH]; cbn; rewrite acts_xs; exact H.
Qed.
Lemma exec_good r e : RG r -> (forall f, e = SEnv qu f -> forall q, Good (q_x q) -> Good (q_x (f q))) -> RG (exec qu main r e).
Proof.
  intros G HE. assert (K : forall s, Good (q_x (xs _ s)) -> RG (exec1 qu main s e)).
  { intros s Gs. destruct e as [|f|f|f]; cbn [exec1].
    - unfold schedule. destruct (_ && _); exact Gs.
    - destruct (timers qu s) as [|n]; [exact Gs|]. unfold run_now. destruct (active qu _); [exact Gs|]. apply loop_good. exact Gs.
    - unfold run_now. destruct (active qu _); [exact Gs|]. apply loop_good. exact Gs.
    - cbn. apply (HE f); auto. }
  destruct r as [s|s|]; cbn [exec]; auto. specialize (K s G). destruct (exec1 qu main s e); exact K.
Qed.
Lemma xexec_good r e : RG r -> (forall f, e = XEnv f -> forall y, Good y -> Good (f y)) -> RG (xexec page step fin r e).
Proof.
  intros G HE. assert (K : forall s, Good (q_x (xs _ s)) -> forall l, l = events page (xs _ s) e -> forall r, RG r -> RG (fold_left (exec qu main) l r)).
  { intros s Gs l ->. destruct e as [a|f|f|f]; cbn [events].
    - pose proof (proj1 (do_tact_kept page a (xs qu s))) as (T & _). destruct (do_tact page a (xs qu s)) as [q' al]. cbn [fst] in T.
      intros r0 G0. cbn [fold_left]. assert (G1 : RG (exec qu main r0 (SEnv qu (fun _ => q')))).
      { apply exec_good; auto. intros f [= <-] q _. rewrite T. exact Gs. }
      revert G1. generalize (exec qu main r0 (SEnv qu (fun _ => q'))). clear - WW CO. induction al as [|b al IH]; intros r0 G0; cbn [map fold_left]; auto.
      apply IH. apply exec_good; auto. discriminate.
    - intros r0 G0. cbn [fold_left]. apply exec_good; auto. intros g [= <-] q Gq. cbn. apply (HE f); auto.
    - intros r0 G0. cbn [fold_left]. apply exec_good; auto. discriminate.
    - intros r0 G0. cbn [fold_left]. apply exec_good; auto. discriminate. }
  destruct r as [s|s|]; cbn [xexec]; auto; eapply (K s); eauto.
Qed.
Lemma pexec_good r e : RG r -> RG (pexec V X ww debug bound code on_drop r e).
Proof.
  intro G. assert (K : forall s, Good (q_x (xs _ s)) -> forall r, RG r -> RG (fold_left (xexec page step fin) (pevents V X (q_x (xs _ s)) e) r)).
  { intros s Gs. destruct e as [a|f|f|f]; cbn [pevents].
    - pose proof (do_gact_ok a _ Gs) as H. destruct (do_gact V X a (q_x (xs qu s))) as [y' l]. destruct H as [G' _].
      intros r0 G0. cbn [fold_left]. assert (G1 : RG (xexec page step fin r0 (XEnv (fun _ => y')))).
      { apply xexec_good; auto. intros f [= <-] y _. exact G'. }
      revert G1. generalize (xexec page step fin r0 (XEnv (fun _ => y'))). clear - WW CO. induction l as [|[b|] l IH]; intros r0 G0; cbn [flat_map app fold_left]; auto.
      apply IH. apply xexec_good; auto. discriminate.
    - destruct (f (pg_x V X (q_x (xs qu s)))) as [x a].
      assert (G1 : Good (mkPg V X (pg_t (q_x (xs qu s))) x (pg_fault V X (q_x (xs qu s))))) by (destruct Gs; constructor; auto).
      pose proof (do_gacts_ok a _ G1) as H. destruct (do_gacts V X a _) as [y' l]. destruct H as [G' _].
      intros r0 G0. cbn [fold_left]. assert (G2 : RG (xexec page step fin r0 (XEnv (fun _ => y')))).
      { apply xexec_good; auto. intros g [= <-] y _. exact G'. }
      revert G2. generalize (xexec page step fin r0 (XEnv (fun _ => y'))). clear - WW CO. induction l as [|[b|] l IH]; intros r0 G0; cbn [flat_map app fold_left]; auto.
      apply IH. apply xexec_good; auto. discriminate.
    - intros r0 G0. cbn [fold_left]. apply xexec_good; auto. discriminate.
    - intros r0 G0. cbn [fold_left]. apply xexec_good; auto. discriminate. }
  destruct r as [s|s|]; cbn [pexec]; auto; eapply (K s); eauto.
Qed.
Lemma prun_good x evs : RG (prun x evs).
Proof.
  unfold Page.prun. assert (G : RG (Live (start qu (q_start page (page0 V X x))))).
  { cbn. constructor; auto. intro t. exists (x, []), []. reflexivity. }
  revert G. generalize (Live (start qu (q_start page (page0 V X x)))). induction evs as [|e evs IH]; intros r G; cbn [fold_left]; auto.
  apply IH. apply pexec_good, G.
Qed.
Lemma woken_owed x evs s t p : prun x evs = Live s -> alive t (qtr (xs _ s)) = true ->
  live (ttr (pg_t (q_x (xs _ s)) t)) p -> woken p (ttr (pg_t (q_x (xs _ s)) t)) = true -> owed t (qtr (xs _ s)) = true.
Proof.
  intros R A L W. destruct (prun_pi x evs s R) as (O & P).
  pose proof (prog_inv t _ (gd_prog _ (pi_good _ P) t)) as I.
  apply P; auto.
  - apply (live_over V Z _ p I L).
  - eapply woken_root; eauto.
Qed.
End Proofs.
