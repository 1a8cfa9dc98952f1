(** Property C71: the children's code really runs.

    The properties C12-C20 speak about traces.  Here: the events in a trace about the children
    are what the children's code does when it is run on the state; all its effects take place. *)
From Coq Require Import List Arith Bool Lia.
From Verif Require Import Arena Spec_arena Readiness Combinator Spec_comb Combinator_proofs Props_comb Select Props_select Spec_child.
Import ListNotations.

Section Child.
Variables R S O X : Type.
Variable ww : waker -> waker -> bool.
Variable debug : bool.
Variable B : behavior R S O.
Variable child : X -> nat -> X * list nat * cres R.
Variable n : nat.
Notation world := (world R S O X).
Notation wtr := (wtr R S O X).
Notation wx := (wx R S O X).
Notation cn w := (c_n S (wc R S O X w)).
Notation about := (about_child R S O).
Notation ctrace := (child_trace R S O X child n).
(** [t] is added to the trace; the events about children in it are [m] *)
Definition adds (w w' : world) (m : list (ev R S O)) : Prop :=
  cn w' = cn w /\ exists t, wtr w' = t ++ wtr w /\ filter about (rev t) = m.
Lemma adds_refl w : adds w w [].
Proof. split; auto. exists []. auto. Qed.
Lemma adds_trans a b c m m' : adds a b m -> adds b c m' -> adds a c (m ++ m').
Proof.
  intros (N1 & t & E & F) (N2 & t' & E' & F'). split; [congruence|]. exists (t' ++ t). rewrite E', E, app_assoc. split; [reflexivity|].
  rewrite rev_app_distr, filter_app, F, F'. reflexivity.
Qed.
Lemma adds_one (w w' : world) e : cn w' = cn w -> wtr w' = e :: wtr w -> adds w w' (if about e then [e] else []).
Proof. intros N E. split; auto. exists [e]. rewrite E. split; [reflexivity|]. cbn. destruct (about e); reflexivity. Qed.
Lemma adds_wake w i : adds w (do_wake R S O X w i) (if i <? cn w then [EWake i] else []) /\ wx (do_wake R S O X w i) = wx w.
Proof.
  unfold do_wake. destruct (i <? cn w); [|split; [apply adds_refl|reflexivity]].
  set (w1 := emit R S O X (EWake i) w). change (wc R S O X w1) with (wc R S O X w) in *.
  destruct (rd_wake _ i) as [(r, [p|])|]; (split; [|reflexivity]); split; try reflexivity.
  - exists [EParent p; EWake i]. split; reflexivity.
  - exists [EWake i]. split; reflexivity.
  - exists [EFault; EWake i]. split; reflexivity.
Qed.
Lemma adds_wakes l : forall w, cn w = n -> adds w (fold_left (do_wake R S O X) l w) (map EWake (filter (fun j => j <? n) l)) /\ wx (fold_left (do_wake R S O X) l w) = wx w.
Proof.
  induction l as [|i l IH]; intros w N; [split; [apply adds_refl|reflexivity]|]. cbn [fold_left]. destruct (adds_wake w i) as (A & E).
  destruct (IH (do_wake R S O X w i)) as (A' & E'); [rewrite (proj1 A); exact N|]. split; [|congruence].
  rewrite N in A. cbn [filter]. pose proof (adds_trans _ _ _ _ _ A A') as Q. destruct (i <? n); exact Q.
Qed.
Lemma adds_store w i s w' : c_store R S O X w i s = Some w' -> adds w w' [] /\ wx w' = wx w.
Proof.
  unfold c_store. destruct (nth_error _ i); [|discriminate]. destruct (c_pending _ _); intros [= <-]; (split; [|reflexivity]).
  - refine (adds_one w _ EFault _ _); reflexivity.
  - refine (adds_one w _ (EStore i s) _ _); reflexivity.
Qed.
Lemma ct_app x t x' : ctrace x t x' -> forall t' x'', ctrace x' t' x'' -> ctrace x (t ++ t') x''.
Proof.
  induction 1 as [|x i x1 wakes r t x' E C IH]; intros t' x'' C'; [exact C'|]. rewrite <- app_comm_cons, <- app_assoc, <- app_comm_cons.
  eapply ct_child; eauto.
Qed.
Lemma loop_adds l : forall w w' r, cn w = n -> c_loop R S O X B child l w = (w', r) ->
  exists m, adds w w' m /\ ctrace (wx w) m (wx w') /\ (forall i, In (EChildPanic i) m -> r = Some PPanic /\ exists t, wtr w' = EChildPanic i :: t).
Proof.
  induction l as [|i l IH]; intros w w' r N; cbn [c_loop].
  { intros [= <- <-]. exists []. split; [apply adds_refl|]. split; [constructor|intros i []]. }
  destruct (nth_error _ i) as [[|]|].
  - apply IH; auto.
  - destruct (child (wx (emit R S O X (EChild i) w)) i) as [[x' wakes] cr] eqn:EC. change (wx (emit R S O X (EChild i) w)) with (wx w) in EC.
    set (w1 := set_x R S O X (emit R S O X (EChild i) w) x'). set (w2 := fold_left _ wakes w1).
    assert (A1 : adds w w1 [EChild i]) by exact (adds_one w w1 (EChild i) eq_refl eq_refl).
    assert (N1 : cn w1 = n) by exact N.
    destruct (adds_wakes wakes w1 N1) as (A2 & X2). fold w2 in A2, X2. assert (N2 : cn w2 = n) by (rewrite (proj1 A2); exact N1).
    pose proof (adds_trans _ _ _ _ _ A1 A2) as A12. cbn [app] in A12. clear A1 A2.
    assert (ONE : forall w3 e, cn w3 = cn w2 -> wx w3 = wx w2 -> wtr w3 = e :: wtr w2 -> e = report R S O i cr ->
      adds w w3 (EChild i :: map EWake (filter (fun j => j <? n) wakes) ++ [e]) /\ ctrace (wx w) (EChild i :: map EWake (filter (fun j => j <? n) wakes) ++ [e]) (wx w3)).
    { intros w3 e N3 X3 T3 E3. pose proof (adds_one w2 w3 e N3 T3) as A3. assert (AB : about e = true) by (rewrite E3; destruct cr; reflexivity). rewrite AB in A3.
      split; [exact (adds_trans _ _ _ _ _ A12 A3)|]. rewrite E3, X3, X2. eapply ct_child; [exact EC|constructor]. }
    assert (NW : forall j, ~ In (EChildPanic j) (EChild i :: map EWake (filter (fun j => j <? n) wakes) : list (ev R S O))).
    { intros j [Q|Q]; [discriminate|]. apply in_map_iff in Q as (k & Q & _). discriminate. }
    destruct cr as [|v|].
    + intro E. destruct (ONE (emit R S O X (EPend i) w2) (EPend i) eq_refl eq_refl eq_refl eq_refl) as (A3 & C3).
      destruct (IH _ _ _ (N2 : cn (emit R S O X (EPend i) w2) = n) E) as (m & A & C & P). eexists. split; [exact (adds_trans _ _ _ _ _ A3 A)|].
      split; [exact (ct_app _ _ _ C3 _ _ C)|]. intros j J. rewrite app_comm_cons in J. apply in_app_iff in J as [J|J]; auto. apply in_app_iff in J as [J|[J|[]]]; [destruct (NW j J)|discriminate].
    + destruct (ONE (emit R S O X (EDone i v) w2) (EDone i v) eq_refl eq_refl eq_refl eq_refl) as (A3 & C3).
      set (w3 := emit R S O X (EDone i v) w2) in *. assert (N3 : cn w3 = n) by exact N2.
      assert (P3 : forall j, ~ In (EChildPanic j) (EChild i :: map EWake (filter (fun j => j <? n) wakes) ++ [EDone i v] : list (ev R S O))).
      { intros j J. rewrite app_comm_cons in J. apply in_app_iff in J as [J|[J|[]]]; [destruct (NW j J)|discriminate]. }
      destruct (b_maybe_return B i v) as [o|s].
      * intros [= <- <-]. eexists. split; [exact A3|]. split; [exact C3|]. intros j J. destruct (P3 j J).
      * destruct (c_store R S O X w3 i s) as [w4|] eqn:ES.
        -- destruct (adds_store _ _ _ _ ES) as (A4 & X4). intro E. assert (N4 : cn w4 = n) by (rewrite (proj1 A4); exact N3).
           destruct (IH _ _ _ N4 E) as (m & A & C & P). pose proof (adds_trans _ _ _ _ _ A3 A4) as A34. rewrite app_nil_r in A34.
           eexists. split; [exact (adds_trans _ _ _ _ _ A34 A)|]. split; [rewrite X4 in C; exact (ct_app _ _ _ C3 _ _ C)|].
           intros j J. apply in_app_iff in J as [J|J]; auto. destruct (P3 j J).
        -- intros [= <- <-]. eexists. split; [exact A3|]. split; [exact C3|]. intros j J. destruct (P3 j J).
    + intros [= <- <-]. destruct (ONE (emit R S O X (EChildPanic i) w2) (EChildPanic i) eq_refl eq_refl eq_refl eq_refl) as (A3 & C3).
      eexists. split; [exact A3|]. split; [exact C3|]. intros j J. rewrite app_comm_cons in J. apply in_app_iff in J as [J|[J|[]]]; [destruct (NW j J)|].
      injection J as <-. split; [reflexivity|]. eexists. reflexivity.
  - intros [= <- <-]. exists []. split; [refine (adds_one w _ EFault _ _); reflexivity|]. split; [constructor|intros j []].
Qed.
Lemma finish_adds w w' r : c_finish R S O X debug B w = (w', r) -> adds w w' [] /\ wx w' = wx w.
Proof.
  unfold c_finish. destruct (c_pending _ _ =? 0); [|intros [= <- <-]; split; [apply adds_refl|reflexivity]].
  destruct (debug && _); [intros [= <- <-]; split; [apply adds_refl|reflexivity]|].
  destruct (all_some _) as [l|]; [|intros [= <- <-]; split; [refine (adds_one w _ EFault _ _); reflexivity|reflexivity]].
  assert (G : forall l i, filter about (gives R S O i l) = []) by (intro l0; induction l0; intro i; cbn; auto).
  assert (K : forall w1, cn w1 = cn w -> wtr w1 = wtr w -> adds w (mkWd R S O X (wc R S O X w1) (wx w1) (walive R S O X w1) (rev (gives R S O 0 l) ++ wtr w1)) []).
  { intros w1 N1 T1. split; [exact N1|]. exists (rev (gives R S O 0 l)). cbn [Combinator.wtr]. rewrite T1, rev_involutive, G. auto. }
  destruct (b_when_completed B l); intros [= <- <-]; (split; [apply K; reflexivity|reflexivity]).
Qed.
Lemma poll_adds wk w : cn w = n ->
  exists m, adds w (c_poll R S O X ww debug B child wk w) m /\ ctrace (wx w) m (wx (c_poll R S O X ww debug B child wk w)) /\
    forall i, In (EChildPanic i) m -> exists t, wtr (c_poll R S O X ww debug B child wk w) = ERet PPanic :: EChildPanic i :: t.
Proof.
  intro N. unfold c_poll. set (w1 := emit R S O X (ECall wk) w). assert (A1 : adds w w1 []) by exact (adds_one w w1 (ECall wk) eq_refl eq_refl).
  destruct (c_entry R S O B _) as [r|].
  { exists []. split; [|split; [constructor|intros i []]]. refine (adds_trans _ _ _ [] [] A1 (adds_one w1 _ (ERet r) _ _)); reflexivity. }
  destruct (rd_clear _) as [r2|].
  2: { exists []. split; [|split; [constructor|intros i []]]. refine (adds_trans _ _ _ [] [] A1 (adds_one w1 _ EFault _ _)); reflexivity. }
  set (w2 := set_c R S O X w1 _). assert (A2 : adds w1 w2 []) by (split; [reflexivity|exists []; split; reflexivity]).
  destruct (c_loop R S O X B child _ w2) as [w3 o] eqn:E. destruct (loop_adds _ w2 w3 o (N : cn w2 = n) E) as (m & A3 & C & P).
  pose proof (adds_trans _ _ _ [] _ A1 (adds_trans _ _ _ [] _ A2 A3)) as A. cbn [app] in A. change (wx w2) with (wx w) in C. destruct o as [r|].
  - exists m. split; [rewrite <- (app_nil_r m); refine (adds_trans _ _ _ _ [] A (adds_one w3 _ (ERet r) _ _)); reflexivity|]. split; [exact C|].
    intros i J. destruct (P i J) as ([= ->] & t & T). exists t. cbn. rewrite T. reflexivity.
  - destruct (c_finish R S O X debug B w3) as [w4 r] eqn:EF. destruct (finish_adds _ _ _ EF) as (A4 & X4). exists m. split; [|split].
    + pose proof (adds_trans _ _ _ _ _ A (adds_trans _ _ _ [] [] A4 (adds_one w4 (emit R S O X (ERet r) w4) (ERet r) eq_refl eq_refl))) as Q. cbn [app about_child] in Q. rewrite app_nil_r in Q. exact Q.
    + change (wx (emit R S O X (ERet r) w4)) with (wx w4). rewrite X4. exact C.
    + intros i J. destruct (P i J) as (Q & _). discriminate.
Qed.
Lemma drop_adds w : adds w (c_drop R S O X w) [].
Proof.
  split; [reflexivity|]. unfold c_drop. cbn [Combinator.wtr]. eexists (EDrop :: rev _). split; [reflexivity|]. cbn [rev]. rewrite rev_involutive, filter_app. cbn. rewrite app_nil_r.
  generalize (c_filled S (wc R S O X w)) (c_items S (wc R S O X w)). intro f. generalize 0. induction f as [|b f IH]; intros i [|o l]; try reflexivity. cbn.
  destruct b; [destruct o; cbn; apply IH|cbn; apply IH].
Qed.
Lemma run_cn k x evs : cn (run R S O X ww debug B child k n x evs) = n.
Proof.
  induction evs as [|e evs IH] using rev_ind; [reflexivity|]. rewrite run_snoc. set (w := run _ _ _ _ _ _ _ _ _ _ _ evs) in *. destruct e as [wk|i|f|]; cbn [exec].
  - destruct (walive R S O X w); auto. destruct (poll_adds wk w IH) as (m & A & _). rewrite (proj1 A). exact IH.
  - rewrite (proj1 (proj1 (adds_wake w i))). exact IH.
  - exact IH.
  - destruct (walive R S O X w); auto.
Qed.
End Child.

(** C71: Whatever has happened to a combinator of [n] children before: a poll runs the code of some
    children (those of C13), one after the other; the state changes, the wakes happen (only
    wakers of existing children exist) and the results come as their code says; and if a child
    panics, so does the poll, at once.  Nothing else happens to the children's state. *)
Theorem C71_children :
  forall R S O X ww debug (B : behavior R S O) child k n x evs e,
  let w := run R S O X ww debug B child k n x evs in
  let w' := run R S O X ww debug B child k n x (evs ++ [e]) in
  exists t, wtr _ _ _ _ w' = t ++ wtr _ _ _ _ w /\
  let events := filter (about_child R S O) (rev t) in
  match e with
  | SPoll _ wk => child_trace R S O X child n (wx _ _ _ _ w) events (wx _ _ _ _ w') /\
      forall i, In (EChildPanic i) t -> exists t', t = ERet PPanic :: EChildPanic i :: t'
  | SWake _ i => events = (if i <? n then [EWake i] else []) /\ wx _ _ _ _ w' = wx _ _ _ _ w
  | SEnv _ f => t = [] /\ wx _ _ _ _ w' = f (wx _ _ _ _ w)
  | SDrop _ => events = [] /\ wx _ _ _ _ w' = wx _ _ _ _ w
  end.
Proof.
  intros R S O X ww debug B child k n x evs e w w'. pose proof (run_cn R S O X ww debug B child n k x evs) as N. fold w in N.
  unfold w'. rewrite run_snoc. fold w. destruct e as [wk|i|f|]; cbn [exec].
  - destruct (walive R S O X w); [|exists []; split; [reflexivity|]; split; [constructor|intros i []]].
    destruct (poll_adds R S O X ww debug B child n wk w N) as (m & (_ & t & E & F) & C & P). exists t. split; [exact E|]. cbv zeta. rewrite F. split; [exact C|].
    intros i J. destruct (P i) as (t' & T).
    + rewrite <- F. apply filter_In. split; [apply in_rev; rewrite rev_involutive; exact J|reflexivity].
    + rewrite E in T. destruct t as [|a [|b t]]; [destruct J| |].
      * cbn in T. injection T as -> _. destruct J as [J|[]]; discriminate.
      * cbn in T. injection T as -> -> _. eauto.
  - destruct (adds_wake R S O X w i) as ((_ & t & E & F) & X1). exists t. split; [exact E|]. cbv zeta. rewrite F, N. auto.
  - exists []. auto.
  - destruct (walive R S O X w); [|exists []; auto]. destruct (drop_adds R S O X w) as (_ & t & E & F). exists t. auto.
Qed.
Print Assumptions C71_children.

(** C20: in every history of f.meanwhile(g), each of the two is driven with all its effects: [g] as
    long as it has not completed, and not afterwards. *)
Theorem C20_driven :
  forall R Q Y f g ww debug y evs,
  let w := meanwhile_run R Q Y f g ww debug y evs in
  exists d, mw_hist R Q Y f g y evs (filter (about_child _ _ _) (rev (wtr _ _ _ _ w))) (pa_y Q Y (wx _ _ _ _ w)) d.
Proof.
  intros R Q Y f g ww debug y evs. cbv zeta.
  enough (G : mw_hist R Q Y f g y evs (filter (about_child _ _ _) (rev (wtr _ _ _ _ (meanwhile_run R Q Y f g ww debug y evs)))) (pa_y Q Y (wx _ _ _ _ (meanwhile_run R Q Y f g ww debug y evs)))
    (negb (pa_some Q Y (wx _ _ _ _ (meanwhile_run R Q Y f g ww debug y evs))))) by eauto.
  assert (PT : forall x t x', child_trace R Empty_set R (pa Q Y) (meanwhile_child R Q Y f g) 2 x t x' ->
    mw_poll R Q Y f g (pa_y Q Y x) (negb (pa_some Q Y x)) t (pa_y Q Y x') (negb (pa_some Q Y x'))).
  { clear. intros x t x' C. induction C as [|x i x1 wakes r t x' E C IH]; [constructor|]. destruct i as [|i]; cbn [meanwhile_child] in E.
    - destruct (f (pa_y Q Y x)) as [[y1 l] q] eqn:EF. injection E as <- <- <-. apply (mw_f _ _ _ _ _ _ _ _ _ _ _ _ _ EF). exact IH.
    - unfold pa_poll in E. destruct (pa_some Q Y x) eqn:SM.
      + destruct (g (pa_y Q Y x)) as [[y1 l] q] eqn:EG. cbn [negb]. destruct q as [|v|]; injection E as <- <- <-.
        * exact (mw_g _ _ _ _ _ _ (S i) y1 l CPending t _ _ (Nat.neq_succ_0 i) EG IH).
        * exact (mw_g _ _ _ _ _ _ (S i) y1 l (CReady v) t _ _ (Nat.neq_succ_0 i) EG IH).
        * exact (mw_g _ _ _ _ _ _ (S i) y1 l CPanic t _ _ (Nat.neq_succ_0 i) EG IH).
      + injection E as <- <- <-. cbn [filter map app negb report]. rewrite SM in IH. apply mw_gone; [discriminate|exact IH]. }
  induction evs as [|e evs IH] using rev_ind; [constructor|]. unfold meanwhile_run in *. rewrite map_app. cbn [map].
  destruct (C71_children R Empty_set R (pa Q Y) ww debug (race_behavior R) (meanwhile_child R Q Y f g) KTuple 2 (mkPa Q Y y true []) (map (lift Q Y) evs) (lift Q Y e)) as (t & E & C).
  cbv zeta in C. rewrite E, rev_app_distr, filter_app. destruct e as [wk|i|h|]; cbn [lift] in C.
  - destruct C as (C & _). eapply mh_poll; [exact IH|]. apply PT. exact C.
  - destruct C as (C & X). cbn [lift] in *. rewrite X, C. apply mh_wake. exact IH.
  - destruct C as (-> & X). cbn [lift] in *. rewrite X. cbn [rev filter app pa_y pa_some]. rewrite app_nil_r. apply mh_env. exact IH.
  - destruct C as (C & X). cbn [lift] in *. rewrite X, C, app_nil_r. apply mh_drop. exact IH.
Qed.
Print Assumptions C20_driven.

(** C47: while select! waits, a poll of it runs the code of the futures of some branches (those
    which C13 says), with all its effects, and gives the results of this code to the race; if one
    panics, select! panics. *)
Theorem C47_branches :
  forall V X ww debug fut n x evs wk, will_wake_ok ww -> n > 0 ->
  let s := sel_run V X ww debug fut n x evs in
  let s' := sel_run V X ww debug fut n x (evs ++ [SPoll _ wk]) in
  let w := s_w V X s in let w' := s_w V X s' in
  s_st V X s = Racing V ->
  exists t, wtr _ _ _ _ w' = t ++ wtr _ _ _ _ w /\
    branch_trace V X fut n (wx _ _ _ _ w) (filter (about_child _ _ _) (rev t)) (wx _ _ _ _ w') /\
    forall i, In (EChildPanic i) t -> s_st V X s' = Panicked V.
Proof.
  intros V X ww debug fut n x evs wk WW N0 s s' w w' SR. destruct (sel_inv V X ww debug fut WW n N0 x evs) as ((evs' & RUN) & _). fold s w in RUN.
  destruct (C71_children (nat * V) Empty_set (nat * V) X ww debug (race_behavior (nat * V)) (branch V X fut) KTuple n x evs' (SPoll X wk)) as (t & E & C & P). rewrite run_snoc, <- RUN in E, C.
  set (w1 := exec _ _ _ _ _ _ _ _ w (SPoll X wk)) in *.
  assert (BT : forall x0 m x1, child_trace (nat * V) Empty_set (nat * V) X (branch V X fut) n x0 m x1 -> branch_trace V X fut n x0 m x1).
  { clear. intros x0 m x1 C. induction C as [|x i x1 wakes r t x' E C IH]; [constructor|]. unfold branch in E. destruct (fut x i) as [[y ws] q] eqn:EF. injection E as <- <- <-.
    replace (report (nat * V) Empty_set (nat * V) i _) with (branch_report V i q) by (destruct q; reflexivity). eapply bt_branch; eauto. }
  apply BT in C. clear BT.
  assert (DR : exists t1, wtr _ _ _ _ (exec (nat * V) Empty_set (nat * V) X ww debug (race_behavior (nat * V)) (branch V X fut) w1 (SDrop X)) = t1 ++ wtr _ _ _ _ w1 /\ filter (about_child _ _ _) (rev t1) = [] /\
    wx _ _ _ _ (exec (nat * V) Empty_set (nat * V) X ww debug (race_behavior (nat * V)) (branch V X fut) w1 (SDrop X)) = wx _ _ _ _ w1 /\ forall i, ~ In (EChildPanic i) t1).
  { assert (Q : exists t1, wtr _ _ _ _ (exec (nat * V) Empty_set (nat * V) X ww debug (race_behavior (nat * V)) (branch V X fut) w1 (SDrop X)) = t1 ++ wtr _ _ _ _ w1 /\ filter (about_child _ _ _) (rev t1) = [] /\
    wx _ _ _ _ (exec (nat * V) Empty_set (nat * V) X ww debug (race_behavior (nat * V)) (branch V X fut) w1 (SDrop X)) = wx _ _ _ _ w1).
    { cbn [exec]. destruct (walive _ _ _ _ w1); [|exists []; auto]. destruct (drop_adds _ _ _ X w1) as (_ & t1 & E1 & F1). exists t1. auto. }
    destruct Q as (t1 & E1 & F1 & X1). exists t1. split; [exact E1|]. split; [exact F1|]. split; [exact X1|]. intros i J.
    assert (J' : In (EChildPanic i) (filter (about_child _ _ _) (rev t1))) by (apply filter_In; split; [apply in_rev; rewrite rev_involutive; exact J|reflexivity]). rewrite F1 in J'. destruct J'. }
  destruct DR as (t1 & E1 & F1 & X1 & P1).
  assert (WS : s' = sel_exec V X ww debug fut s (SPoll X wk)) by (unfold s', s, sel_run; rewrite fold_left_app; reflexivity).
  cbn [sel_exec] in WS. rewrite SR in WS. fold w in WS. fold w1 in WS. unfold w'. rewrite WS. clear w' WS s'.
  assert (GO : forall w2 st, w2 = w1 \/ w2 = exec (nat * V) Empty_set (nat * V) X ww debug (race_behavior (nat * V)) (branch V X fut) w1 (SDrop X) ->
    (forall i, In (EChildPanic i) t -> st = Panicked V) -> exists t0, wtr _ _ _ _ (s_w V X (mkSel V X w2 st)) = t0 ++ wtr _ _ _ _ w /\
    branch_trace V X fut n (wx _ _ _ _ w) (filter (about_child _ _ _) (rev t0)) (wx _ _ _ _ (s_w V X (mkSel V X w2 st))) /\
    (forall i, In (EChildPanic i) t0 -> s_st V X (mkSel V X w2 st) = Panicked V)).
  { intros w2 st [ -> | -> ] Q; cbn [s_w s_st].
    - exists t. auto.
    - exists (t1 ++ t). rewrite E1, E, app_assoc, rev_app_distr, filter_app, F1, app_nil_r, X1. split; [reflexivity|]. split; [exact C|].
      intros i J. apply in_app_iff in J as [J|J]; [destruct (P1 i J)|eauto]. }
  assert (PAN : forall i, In (EChildPanic i) t -> exists r, wtr _ _ _ _ w1 = ERet PPanic :: r).
  { intros i J. destruct (P i J) as (t' & ->). rewrite E. eexists. reflexivity. }
  destruct (wtr _ _ _ _ w1) as [|[|[|[i v]|]| | | | | | | | | | |] r] eqn:ET; (apply GO; [auto|]); try (intros j J; destruct (PAN j J) as (r' & PAN'); discriminate). reflexivity.
Qed.
Print Assumptions C47_branches.

(** Non-vacuity: three children; the second poll runs the code of child 2, which completes with 7,
    and, as child 0 was woken by child 1 in the first poll (and child 1 by child 2), of these. *)
Example ex_children :
  filter (about_child _ _ _) (rev (wtr _ _ _ _ (run nat nat (list nat) _ ex_ww true (join_behavior nat) ex_child KVec 3 [None; None; None] (firstn 5 ex_evs)))) =
  [EChild 0; EPend 0; EChild 1; EWake 0; EPend 1; EChild 2; EWake 1; EPend 2; EWake 2; EWake 2;
   EChild 0; EPend 0; EChild 1; EWake 0; EPend 1; EChild 2; EDone 2 7].
Proof. vm_compute. reflexivity. Qed.
(** a branch that panics *)
Example ex_select_panics :
  s_st _ _ (sel_run nat bool (fun _ _ => false) true (fun x i => match i with 1 => (true, [0], if x then CPanic else CPending) | _ => (x, [], CPending) end) 2 false
    [SPoll _ wk0; SWake _ 1; SPoll _ wk0]) = Panicked _.
Proof. vm_compute. reflexivity. Qed.
(** f.meanwhile(g), where [g] counts its polls, completes with the third, and [f] completes when it has *)
Example ex_meanwhile_driven :
  let f := fun y : nat => (y, [], if 3 <=? y then CReady y else CPending) in
  let g := fun y : nat => (S y, [1], if 2 <=? y then CReady tt else CPending) in
  let w := meanwhile_run nat unit nat f g ex_ww true 0 [SPoll _ wk0; SPoll _ wk0; SPoll _ wk0; SPoll _ wk0; SWake _ 0; SPoll _ wk0] in
  pa_y _ _ (wx _ _ _ _ w) = 3 /\ filter (about_child _ _ _) (rev (wtr _ _ _ _ w)) =
    [EChild 0; EPend 0; EChild 1; EWake 1; EPend 1; EChild 1; EWake 1; EPend 1; EChild 1; EWake 1; EPend 1; EChild 1; EPend 1; EWake 0; EChild 0; EDone 0 3].
Proof. split; vm_compute; reflexivity. Qed.
