(** C47: select!.  The trace of a select ([wtr] of its race) is described in Spec_comb.v:
    [EChild i] is a poll of branch [i], [EDone i r] its completion. *)
From Coq Require Import List Arith Bool Lia.
From Verif Require Import Arena Spec_arena Readiness Combinator Spec_comb Combinator_proofs Props_comb Select.
Import ListNotations.

Section Props.
Variables V X : Type.
Variable ww : waker -> waker -> bool.
Variable debug : bool.
Variable fut : X -> nat -> X * list nat * cres V.
Hypothesis WW : will_wake_ok ww.
Variable n : nat.
Hypothesis N0 : n > 0.
Notation R := (nat * V)%type.
Notation tr s := (wtr R Empty_set R X (s_w V X s)).
Notation B := (race_behavior R).
Notation br := (branch V X fut).
Notation rexec := (exec R Empty_set R X ww debug B br).
Notation world := (world R Empty_set R X).
Notation wtr := (wtr R Empty_set R X).
Notation c_loop := (c_loop R Empty_set R X B br).
Notation c_finish := (c_finish R Empty_set R X debug B).
Notation do_wake := (do_wake R Empty_set R X).

(** what is added to a trace *)
Definition nocall (e : ev R Empty_set R) : Prop := match e with ECall _ | ERet _ => False | EDone i r => exists y, snd (br y i) = CReady r | _ => True end.
Definition nopoll (e : ev R Empty_set R) : Prop := match e with ECall _ | EChild _ | EDone _ _ | ERet _ => False | _ => True end.
Definition ext (P : ev R Empty_set R -> Prop) (w w' : world) : Prop := exists t, wtr w' = t ++ wtr w /\ Forall P t.
Lemma ext_refl P w : ext P w w. Proof. exists []. auto. Qed.
Lemma ext_trans P a b c : ext P a b -> ext P b c -> ext P a c.
Proof. intros (t & E & F) (t' & E' & F'). exists (t' ++ t). rewrite E', E, app_assoc. split; [reflexivity|]. apply Forall_app. auto. Qed.
Lemma ext_emit (P : ev R Empty_set R -> Prop) w w' e : P e -> wtr w' = e :: wtr w -> ext P w w'.
Proof. intros Q E. exists [e]. rewrite E. auto. Qed.
Lemma ext_same P w w' : wtr w' = wtr w -> ext P w w'.
Proof. intro E. exists []. rewrite E. auto. Qed.
Lemma ext_weaken w w' : ext nopoll w w' -> ext nocall w w'.
Proof. intros (t & E & F). exists t. split; [exact E|]. revert F. apply Forall_impl. intros []; cbn; auto. intros []. Qed.
Lemma ext_wake w i : ext nopoll w (do_wake w i).
Proof.
  unfold Combinator.do_wake. destruct (i <? _); [|apply ext_refl]. destruct (rd_wake _ i) as [(r, [p|])|].
  - exists [EParent p; EWake i]. split; [reflexivity|repeat constructor].
  - exists [EWake i]. split; [reflexivity|repeat constructor].
  - exists [EFault; EWake i]. split; [reflexivity|repeat constructor].
Qed.
Lemma ext_wakes l : forall w, ext nopoll w (fold_left do_wake l w).
Proof. induction l as [|i l IH]; intro w; [apply ext_refl|]. eapply ext_trans; [apply ext_wake|apply IH]. Qed.
Lemma ext_loop l : forall w w' r, c_loop l w = (w', r) -> ext nocall w w'.
Proof.
  induction l as [|i l IH]; intros w w' r; cbn [Combinator.c_loop]; [intros [= <- _]; apply ext_refl|].
  destruct (nth_error _ i) as [[|]|]; [apply IH| |intros [= <- _]; apply (ext_emit _ w _ EFault); [exact I|reflexivity]].
  destruct (br _ i) as [[x' wakes] cr] eqn:EC.
  set (w1 := set_x R Empty_set R X (emit R Empty_set R X (EChild i) w) x'). set (w2 := fold_left _ wakes w1).
  assert (E2 : ext nocall w w2). { eapply ext_trans; [apply (ext_emit _ w w1 (EChild i)); [exact I|reflexivity]|]. apply ext_weaken, ext_wakes. }
  destruct cr as [|v|].
  - intro E. eapply ext_trans; [exact E2|]. eapply ext_trans; [|apply (IH _ _ _ E)]. apply (ext_emit _ w2 _ (EPend i)); [exact I|reflexivity].
  - cbn [b_maybe_return race_behavior]. intros [= <- _]. eapply ext_trans; [exact E2|]. apply (ext_emit _ w2 _ (EDone i v)); [|reflexivity]. cbn. eexists. rewrite EC. reflexivity.
  - intros [= <- _]. eapply ext_trans; [exact E2|]. apply (ext_emit _ w2 _ (EChildPanic i)); [exact I|reflexivity].
Qed.
Lemma ext_finish w w' r : c_finish w = (w', r) -> ext nocall w w'.
Proof.
  unfold Combinator.c_finish. destruct (c_pending _ _ =? 0); [|intros [= <- _]; apply ext_refl]. destruct (debug && _); [intros [= <- _]; apply ext_refl|].
  destruct (all_some _) as [l|]; [|intros [= <- _]; apply (ext_emit _ w _ EFault); [exact I|reflexivity]].
  assert (G : forall l i, Forall nocall (gives R Empty_set R i l)) by (intro l0; induction l0; intro i; constructor; [exact I|auto]).
  destruct (b_when_completed B l); intros [= <- _]; (exists (rev (gives R Empty_set R 0 l)); split; [reflexivity|apply Forall_rev, G]).
Qed.
(** a poll is one ECall followed by other things and its return *)
Lemma ext_poll w wk : exists e t, wtr (c_poll R Empty_set R X ww debug B br wk w) = e :: t ++ ECall wk :: wtr w /\ Forall nocall t /\ match e with ECall _ => False | _ => True end.
Proof.
  unfold Combinator.c_poll. destruct (c_entry R Empty_set R B _) as [r|]; [exists (ERet r), []; split; [reflexivity|repeat constructor]|].
  destruct (rd_clear _) as [r2|]; [|exists EFault, []; split; [reflexivity|repeat constructor]].
  destruct (c_loop _ _) as [w' o] eqn:E. destruct (ext_loop _ _ _ _ E) as (t & E1 & F1). cbn in E1. destruct o as [r|].
  - exists (ERet r), t. cbn. rewrite E1. split; [reflexivity|]. split; [exact F1|exact I].
  - destruct (c_finish w') as [w'' r] eqn:Ef. destruct (ext_finish _ _ _ Ef) as (t' & E2 & F2). exists (ERet r), (t' ++ t). cbn. rewrite E2, E1, app_assoc. split; [reflexivity|].
    split; [apply Forall_app; auto|exact I].
Qed.
Lemma over_nocall t x : Forall nocall t -> over (t ++ x) = over x.
Proof. induction t as [|e t IH]; intro F; [reflexivity|]. inversion F as [|? ? Q F']; subst. destruct e; cbn; auto. destruct Q. Qed.
Notation walive := (walive R Empty_set R X).
Lemma alive_wake w i : walive (do_wake w i) = walive w.
Proof. unfold Combinator.do_wake. destruct (i <? _); [|reflexivity]. destruct (rd_wake _ i) as [(r, [p|])|]; reflexivity. Qed.
Lemma alive_wakes l : forall w, walive (fold_left do_wake l w) = walive w.
Proof. induction l as [|i l IH]; intro w; [reflexivity|]. cbn [fold_left]. rewrite IH. apply alive_wake. Qed.
Lemma alive_loop l : forall w w' r, c_loop l w = (w', r) -> walive w' = walive w.
Proof.
  induction l as [|i l IH]; intros w w' r; cbn [Combinator.c_loop]; [intros [= <- _]; reflexivity|].
  destruct (nth_error _ i) as [[|]|]; [apply IH| |intros [= <- _]; reflexivity]. destruct (br _ i) as [[x' wakes] cr].
  set (w2 := fold_left _ wakes _). assert (A2 : walive w2 = walive w) by (subst w2; rewrite alive_wakes; reflexivity).
  destruct cr as [|v|]; [intro E; rewrite (IH _ _ _ E); exact A2| |intros [= <- _]; exact A2]. cbn [b_maybe_return race_behavior]. intros [= <- _]. exact A2.
Qed.
Lemma alive_finish w w' r : c_finish w = (w', r) -> walive w' = walive w.
Proof.
  unfold Combinator.c_finish. destruct (c_pending _ _ =? 0); [|intros [= <- _]; reflexivity]. destruct (debug && _); [intros [= <- _]; reflexivity|].
  destruct (all_some _) as [l|]; [|intros [= <- _]; reflexivity]. destruct (b_when_completed B l); intros [= <- _]; reflexivity.
Qed.
Lemma alive_poll w wk : walive (c_poll R Empty_set R X ww debug B br wk w) = walive w.
Proof.
  unfold Combinator.c_poll. destruct (c_entry R Empty_set R B _) as [r|]; [reflexivity|]. destruct (rd_clear _) as [r2|]; [|reflexivity].
  destruct (c_loop _ _) as [w' o] eqn:E. pose proof (alive_loop _ _ _ _ E) as A. cbn in A. destruct o as [r|]; [exact A|].
  destruct (c_finish w') as [w'' r] eqn:Ef. cbn. rewrite (alive_finish _ _ _ Ef). exact A.
Qed.
Lemma proper_app t x : Forall nocall t -> proper (t ++ x) = proper x.
Proof. induction t as [|e t IH]; intro F; [reflexivity|]. inversion F as [|? ? Q F']; subst. destruct e; cbn; auto. destruct Q. Qed.
Lemma over_app t x : Forall nopoll t -> over (t ++ x) = over x.
Proof. induction t as [|e t IH]; intro F; [reflexivity|]. inversion F as [|? ? Q F']; subst. destruct e; cbn; auto. destruct Q. Qed.
Lemma done_app t x j : Forall nopoll t -> done j (t ++ x) = done j x.
Proof. unfold done. induction t as [|e t IH]; intro F; [reflexivity|]. inversion F as [|? ? Q F']; subst. destruct e; cbn; auto. destruct Q. Qed.
Lemma ext_drop w : walive w = true -> exists t, wtr (rexec w (SDrop X)) = EDrop :: t ++ wtr w /\ Forall nopoll t.
Proof.
  intro AL. cbn [exec]. rewrite AL. unfold c_drop. cbn [Combinator.wtr]. eexists. split; [reflexivity|]. apply Forall_rev.
  generalize (c_filled Empty_set (wc R Empty_set R X w)) (c_items Empty_set (wc R Empty_set R X w)). intro f. generalize 0. induction f as [|b f IH]; intros i [|o l]; try constructor. cbn.
  destruct b; [destruct o as [[]|]; constructor; [exact I|apply IH]|apply IH].
Qed.

(** a completed branch's value is its future's *)
Definition src (e : ev R Empty_set R) : Prop := match e with EDone i r => exists y, snd (br y i) = CReady r | _ => True end.
Lemma run_src x evs : Forall src (wtr (run R Empty_set R X ww debug B br KTuple n x evs)).
Proof.
  assert (NP : forall t, Forall nopoll t -> Forall src t) by (intro t; apply Forall_impl; intros []; cbn; auto; intros []).
  assert (NC : forall t, Forall nocall t -> Forall src t) by (intro t; apply Forall_impl; intros []; cbn; auto).
  induction evs as [|e evs IH] using rev_ind; [constructor|]. rewrite run_snoc. set (w := run _ _ _ _ _ _ _ _ _ _ _ evs) in *. destruct e as [wk|i|f|]; cbn [exec].
  - destruct (walive w) eqn:AL; [|exact IH].
    assert (RET : (exists r t, wtr (c_poll R Empty_set R X ww debug B br wk w) = ERet r :: t)).
    { destruct (C14_every_poll_returns R Empty_set R X ww debug B br KTuple n x evs wk WW ltac:(auto) (proj1 (run_alive _ _ _ _ _ _ _ _ _ _ _ WW _) AL)) as (r & t & E). rewrite run_snoc in E. cbn [exec] in E. fold w in E. rewrite AL in E. eauto. }
    destruct RET as (r & t & E). destruct (ext_poll w wk) as (e & t' & E' & F & _). rewrite E in E' |- *. injection E' as _ ->. constructor; [exact I|]. apply Forall_app. split; [apply NC, F|constructor; [exact I|exact IH]].
  - destruct (ext_wake w i) as (t & E & F). rewrite E. apply Forall_app. auto.
  - exact IH.
  - destruct (walive w) eqn:AL; [|exact IH]. destruct (ext_drop w AL) as (t & E & F). cbn [exec] in E. rewrite AL in E. rewrite E. constructor; [exact I|]. apply Forall_app. auto.
Qed.
Lemma run_done_from x evs i v : In (EDone i (i, v)) (wtr (run R Empty_set R X ww debug B br KTuple n x evs)) -> exists y, snd (fut y i) = CReady v.
Proof.
  intro J. pose proof (run_src x evs) as F. rewrite Forall_forall in F. destruct (F _ J) as (y & E). exists y. unfold branch in E. destruct (fut y i) as [[x' ws] [|v'|]]; cbn in *; congruence.
Qed.
Definition st_ok (s : sel V X) : Prop :=
  match s_st V X s with
  | Racing _ => over (tr s) = false /\ walive (s_w V X s) = true /\ forall j, done j (tr s) = false
  | Handling _ i v before =>
      i < n /\
      (exists t1 t2, before = EDrop :: t1 ++ ERet (PReady (i, v)) :: EDone i (i, v) :: t2 /\ (forall j, ~ In (EChild j) t1) /\ (forall j, done j t2 = false)) /\
      (exists t3, tr s = t3 ++ before /\ forall j, ~ In (EChild j) t3)
  | Panicked _ => exists i, In (EChildPanic i) (tr s)
  | Dropped _ => forall j, done j (tr s) = false
  end.
Lemma nopoll_child t : Forall nopoll t -> forall j, ~ In (EChild j) t.
Proof. intros F j J. rewrite Forall_forall in F. destruct (F _ J). Qed.

Lemma sel_inv x evs : let s := sel_run V X ww debug fut n x evs in
  (exists evs', s_w V X s = run R Empty_set R X ww debug B br KTuple n x evs') /\ proper (tr s) = true /\ st_ok s.
Proof.
  cbv zeta. induction evs as [|e evs IH] using rev_ind.
  - split; [exists []; reflexivity|]. split; [reflexivity|]. repeat split.
  - unfold sel_run in *. rewrite fold_left_app. cbn [fold_left]. set (s := fold_left _ evs _) in *. destruct IH as ((evs' & RUN) & PP & ST).
    assert (STEP : forall ev, rexec (s_w V X s) ev = run R Empty_set R X ww debug B br KTuple n x (evs' ++ [ev])) by (intro ev; rewrite run_snoc, RUN; reflexivity).
    assert (QUIET : forall w', (exists evs'', w' = run R Empty_set R X ww debug B br KTuple n x evs'') -> ext nopoll (s_w V X s) w' -> walive w' = walive (s_w V X s) ->
      (exists evs'', s_w V X (mkSel V X w' (s_st V X s)) = run R Empty_set R X ww debug B br KTuple n x evs'') /\ proper (tr (mkSel V X w' (s_st V X s))) = true /\ st_ok (mkSel V X w' (s_st V X s))).
    { intros w' RU (t & E & F) AL. split; [exact RU|]. cbn [s_w]. rewrite E.
      split; [rewrite proper_app; [exact PP|]; revert F; apply Forall_impl; intros []; cbn; auto; intros []|]. revert ST. unfold st_ok. cbn [s_st s_w]. destruct (s_st V X s) as [|i v before| |].
      - intros (O1 & A1 & D). rewrite E, AL, over_app by exact F. split; [exact O1|]. split; [exact A1|]. intro j. rewrite done_app by exact F. apply D.
      - intros (Hi & H1 & t3 & E3 & F3). split; [exact Hi|]. split; [exact H1|]. exists (t ++ t3). rewrite E, E3, app_assoc. split; [reflexivity|]. intros j J. apply in_app_iff in J as [J|J]; [apply (nopoll_child t F j J)|apply (F3 j J)].
      - intros (i & J). exists i. rewrite E. apply in_app_iff. auto.
      - intros D j. rewrite E, done_app by exact F. apply D. }
    destruct e as [wk|i|f|].
    + cbn [sel_exec]. destruct (s_st V X s) eqn:SS; try (split; [eauto|split; [exact PP|exact ST]]; fail).
      unfold st_ok in ST. rewrite SS in ST. destruct ST as (OV & AL & ND).
      set (w := rexec (s_w V X s) (SPoll X wk)) in *.
      assert (PW : proper (wtr w) = true).
      { subst w. cbn [exec]. rewrite AL. destruct (ext_poll (s_w V X s) wk) as (e & t & E & F & NE). rewrite E. assert (Q : proper (t ++ ECall wk :: tr s) = true) by (rewrite proper_app by exact F; cbn; rewrite OV, PP; reflexivity). destruct e; try exact Q. destruct NE. }
      assert (RW : w = run R Empty_set R X ww debug B br KTuple n x (evs' ++ [SPoll X wk])) by apply STEP.
      assert (RS := C16_race R X ww debug br KTuple n x (evs' ++ [SPoll X wk]) WW ltac:(auto)). cbv zeta in RS. rewrite <- RW in RS. specialize (RS PW).
      destruct (C14_every_poll_returns R Empty_set R X ww debug B br KTuple n x evs' wk WW ltac:(auto)) as (r & t & ET); [apply (run_alive R Empty_set R X ww debug B br KTuple n x WW); rewrite <- RUN; exact AL|]. rewrite <- RW in ET.
      assert (AW : walive w = true).
      { subst w. cbn [exec]. rewrite AL, alive_poll. exact AL. }
      rewrite ET in RS |- *. cbn [everywhere race_spec] in RS. destruct RS as (RS & _). destruct r as [|(i, v)|].
      * cbn [s_w]. split; [exists (evs' ++ [SPoll X wk]); exact RW|]. split; [exact PW|]. unfold st_ok. cbn [s_st s_w]. rewrite ET. split; [|split; [exact AW|]].
        -- subst w. cbn [exec] in ET. rewrite AL in ET. destruct (ext_poll (s_w V X s) wk) as (e & t0 & E & F & NE). rewrite E in ET. injection ET as -> <-. cbn. rewrite over_nocall by exact F. exact OV.
        -- intro j. cbn. apply RS.
      * destruct RS as (i' & t' & -> & Hi & DN). destruct (ext_drop w AW) as (t1 & E1 & F1).
        assert (i' = i). { destruct (Nat.eq_dec i' i) as [Q|Q]; [exact Q|]. exfalso. apply (run_nodone R Empty_set R X ww debug B br KTuple n x i' (i, v) (evs' ++ [SPoll X wk])).
          - intro y. unfold branch. destruct (fut y i') as [[? ?] [|?|]]; cbn; congruence.
          - rewrite <- RW, ET. cbn. auto. }
        subst i'. cbn [s_w]. split; [exists ((evs' ++ [SPoll X wk]) ++ [SDrop X]); rewrite run_snoc, <- RW; reflexivity|]. split.
        -- rewrite E1. cbn. rewrite proper_app; [exact PW|]. revert F1. apply Forall_impl. intros []; cbn; auto. intros [].
        -- unfold st_ok. cbn [s_st s_w]. split; [exact Hi|]. split; [|exists []; split; [reflexivity|intros j []]].
           exists t1, t'. rewrite E1, ET. split; [reflexivity|]. split; [apply nopoll_child, F1|exact DN].
      * destruct (ext_drop w AW) as (t1 & E1 & F1). cbn [s_w]. split; [exists ((evs' ++ [SPoll X wk]) ++ [SDrop X]); rewrite run_snoc, <- RW; reflexivity|]. split.
        -- rewrite E1. cbn. rewrite proper_app; [exact PW|]. revert F1. apply Forall_impl. intros []; cbn; auto. intros [].
        -- unfold st_ok. cbn [s_st s_w]. destruct RS as (i & t' & ->). exists i. rewrite E1, ET. right. apply in_app_iff. right. cbn. auto.
    + cbn [sel_exec]. apply QUIET; [eauto|apply ext_wake|]. apply alive_wake.
    + cbn [sel_exec]. apply QUIET; [eauto|apply ext_same; reflexivity|reflexivity].
    + cbn [sel_exec]. destruct (s_st V X s) eqn:SS; try (split; [eauto|split; [exact PP|exact ST]]; fail).
      unfold st_ok in ST. rewrite SS in ST. destruct ST as (OV & AL & ND). destruct (ext_drop _ AL) as (t1 & E1 & F1). cbn [s_w]. split; [eauto|]. rewrite E1. split.
      * cbn. rewrite proper_app; [exact PP|]. revert F1. apply Forall_impl. intros []; cbn; auto. intros [].
      * unfold st_ok. cbn [s_st s_w]. intro j. rewrite E1. change (EDrop :: t1 ++ tr s) with ((EDrop :: t1) ++ tr s). rewrite done_app; [apply ND|]. constructor; [exact I|exact F1].
Qed.
End Props.

(** C47.  While select! waits, no branch has completed.  When it evaluates a handler, that of
    branch [i] with value [v]: branch [i] has just completed with [v] and no branch had before;
    the branches have been dropped before the handler starts; and none is polled again.  It
    panics only if a branch panics. *)
Theorem C47_select :
  forall V X ww debug fut n x evs, will_wake_ok ww -> n > 0 ->
  let s := sel_run V X ww debug fut n x evs in
  let tr := wtr _ _ _ _ (s_w V X s) in
  match s_st V X s with
  | Racing _ => forall j, done j tr = false
  | Handling _ i v before =>
      i < n /\
      (exists t1 t2, before = EDrop :: t1 ++ ERet (PReady (i, v)) :: EDone i (i, v) :: t2 /\
         (forall j, ~ In (EChild j) t1) /\ (forall j, done j t2 = false)) /\
      (exists t3, tr = t3 ++ before /\ forall j, ~ In (EChild j) t3)
  | Panicked _ => exists i, In (EChildPanic i) tr
  | Dropped _ => forall j, done j tr = false
  end.
Proof.
  intros V X ww debug fut n x evs WW N0 s tr. destruct (sel_inv V X ww debug fut WW n N0 x evs) as (_ & _ & ST). fold s in ST. unfold st_ok in ST.
  destruct (s_st V X s); [apply ST|exact ST|exact ST|exact ST].
Qed.
Print Assumptions C47_select.

(** Its value is that of the handler of that branch for the output of its future. *)
Theorem C47_value :
  forall V X ww debug fut n x evs O (handlers : nat -> V -> O) o, will_wake_ok ww -> n > 0 ->
  let s := sel_run V X ww debug fut n x evs in
  sel_value V X handlers s = Some o ->
  exists i v, i < n /\ In (EDone i (i, v)) (wtr _ _ _ _ (s_w V X s)) /\ (exists y, snd (fut y i) = CReady v) /\ o = handlers i v.
Proof.
  intros V X ww debug fut n x evs O handlers o WW N0 s E. destruct (sel_inv V X ww debug fut WW n N0 x evs) as ((evs' & RUN) & _ & ST). fold s in RUN, ST. unfold st_ok in ST. unfold sel_value in E.
  destruct (s_st V X s) as [|i v before| |]; try discriminate. injection E as <-. destruct ST as (Hi & (t1 & t2 & -> & _) & t3 & E3 & _). exists i, v. split; [exact Hi|].
  assert (J : In (EDone i (i, v)) (wtr _ _ _ _ (s_w V X s))). { rewrite E3. apply in_app_iff. right. right. apply in_app_iff. right. cbn. auto. }
  split; [exact J|]. split; [|reflexivity]. apply (run_done_from V X ww debug fut WW n N0 x evs' i v). rewrite <- RUN. exact J.
Qed.
Print Assumptions C47_value.

(** It is woken when a branch is. *)
Theorem C47_woken :
  forall V X ww debug fut n x evs, will_wake_ok ww -> n > 0 ->
  parent_woken n (wtr _ _ _ _ (s_w V X (sel_run V X ww debug fut n x evs))).
Proof.
  intros V X ww debug fut n x evs WW N0. destruct (sel_inv V X ww debug fut WW n N0 x evs) as ((evs' & RUN) & PP & _). rewrite RUN in *.
  apply (C12_wakeups _ _ _ X ww debug (race_behavior (nat * V)) (branch V X fut) KTuple n x evs' WW ltac:(auto) PP).
Qed.
Print Assumptions C47_woken.

(** Three branches; the second completes when the environment says so, the third is woken in vain. *)
Definition ex_fut (x : bool) (i : nat) : bool * list nat * cres nat :=
  match i with 1 => (x, [], if x then CReady 7 else CPending) | _ => (x, [], CPending) end.
Definition ex_sel := sel_run nat bool (fun _ _ => false) true ex_fut 3 false.
Definition wk0 := mkW (Some 4) 0.
Example ex_waits : s_st _ _ (ex_sel [SPoll _ wk0; SWake _ 2; SPoll _ wk0]) = Racing _.
Proof. vm_compute. reflexivity. Qed.
Example ex_handles : sel_value _ _ (fun i v => (i, v + 1)) (ex_sel [SPoll _ wk0; SWake _ 2; SPoll _ wk0; SEnv _ (fun _ => true); SWake _ 1; SPoll _ wk0; SWake _ 0]) = Some (1, 8).
Proof. vm_compute. reflexivity. Qed.
