(** Proofs for C68: views of x-bow stores. *)
From Coq Require Import List Arith Bool Lia NArith Cantor.
From Verif Require Import Util Arena Spec_arena Combinator Tree Page Xbow Spec_xbow XbowData XbowStore Spec_store XbowStore_proofs XbowStore_run_proofs XbowStore_fut_proofs
  Props_store Spec_view Spec_store_view.
Import ListNotations.

Section Stores.
Variable ww : waker -> waker -> bool.
Hypothesis WW : will_wake_ok ww.
Variable K : Type.
Variable keqb : K -> K -> bool.
Hypothesis keqb_ok : forall a b, keqb a b = true <-> a = b.
Variable H : list (seg K) -> N.
Notation sstate := (sstate K).
Notation tr s := (w_tr (seg K) (sx K s)).
Notation sexec := (sexec ww K keqb H).
Notation srun := (srun ww K keqb H).
Notation since := (since_poll (seg K)).

(** ** which operations poll a stream *)
Notation xexec := (Xbow.exec ww (seg K) H).
Notation world := (Xbow.world (seg K)).
Notation poll_stream := (poll_stream ww K H).
Notation do_act := (do_act ww K keqb H).
Notation do_acts := (do_acts ww K keqb H).
Definition ext (P : nat -> waker -> Prop) (w w' : world) : Prop :=
  exists new, w_tr _ w' = new ++ w_tr _ w /\ forall i wk r, In (TPoll _ i wk r) new -> P i wk.
Lemma ext_refl P w : ext P w w.
Proof. exists []. split; [reflexivity|intros ? ? ? []]. Qed.
Lemma ext_trans P w w1 w2 : ext P w w1 -> ext P w1 w2 -> ext P w w2.
Proof.
  intros (n1 & E1 & H1) (n2 & E2 & H2). exists (n2 ++ n1). rewrite E2, E1, app_assoc. split; auto.
  intros i wk r IN. apply in_app_iff in IN as [IN|IN]; eauto.
Qed.
Lemma ext_x (P : nat -> waker -> Prop) w o w' : xexec w o = Some w' -> (forall i wk, o = OPoll _ i wk -> P i wk) -> ext P w w'.
Proof.
  intros E PO. destruct o as [q b|i wk|i|q]; unfold Xbow.exec in E.
  - destruct (add_slots _ _) as [[st l]|]; [|discriminate]. injection E as <-. exists [TNew _ (w_next _ w) q b]. split; [reflexivity|]. intros i wk r [[=]|[]].
  - destruct (find_stream _ _) as [u|]; [|injection E as <-; apply ext_refl].
    destruct (poll_slots _ _ _ _) as [[st v]|]; [|discriminate]. injection E as <-. eexists [_]. split; [reflexivity|]. intros i' wk' r [[= <- <- _]|[]]. auto.
  - destruct (find_stream _ _) as [u|]; [|injection E as <-; apply ext_refl].
    destruct (remove_slots _ _) as [st|]; [|discriminate]. injection E as <-. eexists [_]. split; [reflexivity|]. intros i' wk' r [[=]|[]].
  - destruct (wake_entries _ _) as [[st ws]|]; [|discriminate]. injection E as <-. exists (rev (map (TWake _) ws) ++ [TNotify _ q]). split; [rewrite <- app_assoc; reflexivity|].
    intros i wk r IN. apply in_app_iff in IN as [IN|[[=]|[]]]. apply in_rev, in_map_iff in IN as (? & [=] & _).
Qed.
Lemma ext_act P s a s' : do_act s a = Some s' -> ext P (sx K s) (sx K s').
Proof.
  intro E. destruct a as [q u f|q u f|q]; cbn [XbowStore.do_act] in E.
  - destruct (path_borrow_mut K keqb u q (sd K s)) as [(x, k)|]; [|injection E as <-; apply ext_refl].
    destruct (xexec (sx K s) (ONotify _ q)) as [w|] eqn:EX; [|discriminate]. injection E as <-. eapply ext_x; [exact EX|]. discriminate.
  - destruct (path_borrow_mut K keqb u q (sd K s)) as [(x, k)|]; injection E as <-; apply ext_refl.
  - destruct (xexec (sx K s) (ONotify _ q)) as [w|] eqn:EX; [|discriminate]. injection E as <-. eapply ext_x; [exact EX|]. discriminate.
Qed.
Lemma ext_acts P l : forall s s', do_acts s l = Some s' -> ext P (sx K s) (sx K s').
Proof.
  induction l as [|a l IH]; intros s s'; cbn [XbowStore.do_acts]; [intros [= <-]; apply ext_refl|].
  destruct (do_act s a) as [s1|] eqn:E; [|discriminate]. intro E'. eapply ext_trans; [eapply ext_act; eauto|eauto].
Qed.
Lemma ext_stream (P : nat -> waker -> Prop) s h wk s' r : P h wk -> poll_stream s h wk = Some (s', r) -> ext P (sx K s) (sx K s').
Proof.
  intros Ph. unfold XbowStore.poll_stream. destruct (xexec (sx K s) (OPoll _ h wk)) as [w|] eqn:E; [|discriminate].
  destruct (w_tr _ w) as [|[| | | |]]; try discriminate. intros [= <- _]. eapply ext_x; [exact E|]. intros i wk' [= <- <-]. exact Ph.
Qed.
Lemma ext_fut P s h o e s' : run_fut ww K keqb H s h o e = Some s' -> ext P (sx K s) (sx K s').
Proof.
  unfold run_fut. destruct o as [n|]; [|intros [= <-]; apply ext_refl]. destruct (do_acts (emit K s (EFutPoll K n)) (e_acts K e)) as [s1|] eqn:E; [|discriminate].
  apply (ext_acts P) in E. intro Q. destruct (e_done K e); injection Q as <-; exact E.
Qed.
Lemma ext_each (P : nat -> waker -> Prop) s x wk s' : P (h_id K x) wk -> poll_each ww K keqb H s x wk = Some s' -> ext P (sx K s) (sx K s').
Proof.
  intro Ph. unfold poll_each. destruct (poll_stream s (h_id K x) wk) as [(s1, r)|] eqn:E; [|discriminate]. apply (ext_stream P) in E; auto. intro Q.
  destruct (_ || _)%bool; [destruct (path_borrow _ _ _ _)|]; injection Q as <-; exact E.
Qed.
Lemma ext_exec s o s' : sexec s o = Some s' -> ext (fun i wk => polled_with K i o wk) (sx K s) (sx K s').
Proof.
  destruct o as [a|o|k q|h wk e|h]; cbn [XbowStore.sexec].
  - apply ext_act.
  - assert (GO : forall w, xexec (sx K s) o = Some w -> ext (fun i wk => polled_with K i (SStream K o) wk) (sx K s) w).
    { intros w E. eapply ext_x; [exact E|]. intros i wk ->. right. reflexivity. }
    destruct o as [q b|i wk|i|q].
    + destruct (xexec (sx K s) _) as [w|] eqn:E; [|discriminate]. intros [= <-]. apply GO. reflexivity.
    + destruct (is_helper K i (sh K s)); [intros [= <-]; apply ext_refl|]. destruct (xexec (sx K s) _) as [w|] eqn:E; [|discriminate]. intros [= <-]. apply GO. reflexivity.
    + destruct (is_helper K i (sh K s)); [intros [= <-]; apply ext_refl|]. destruct (xexec (sx K s) _) as [w|] eqn:E; [|discriminate]. intros [= <-]. apply GO. reflexivity.
    + intros [= <-]. apply ext_refl.
  - destruct (xexec (sx K s) (ONew _ q false)) as [w|] eqn:E; [|discriminate]. intros [= <-]. eapply ext_x; [exact E|discriminate].
  - destruct (find_helper K h (sh K s)) as [x|] eqn:F; [|intros [= <-]; apply ext_refl]. apply find_helper_some in F as (_ & <-).
    set (P := fun i wk0 => polled_with K i (SPoll K (h_id K x) wk e) wk0). assert (Ph : P (h_id K x) wk) by (left; eauto).
    destruct (h_kind K x) as [| |fire|].
    + intro E. apply (ext_each P) in E; auto.
    + unfold poll_async. destruct (poll_stream _ (h_id K x) wk) as [(s1, r)|] eqn:E; [|discriminate]. apply (ext_stream P) in E; auto. intro Q.
      eapply ext_trans; [exact E|]. destruct (_ || _)%bool; [destruct (path_borrow _ _ _ _)|]; apply (ext_fut P) in Q; try exact Q. destruct (h_fut K x); exact Q.
    + unfold poll_signal. destruct (poll_stream _ (h_id K x) wk) as [(s1, r)|] eqn:E; [|discriminate]. apply (ext_stream P) in E; auto. intro Q.
      destruct (_ || _)%bool; injection Q as <-; exact E.
    + unfold poll_bind. destruct (do_acts _ (e_acts K e)) as [sa|] eqn:EA; [|discriminate]. apply (ext_acts P) in EA. intro Q. eapply ext_trans; [exact EA|].
      destruct (take_ok K (h_id K x) (e_items K e) sa) as (_ & X0 & _). cbv zeta in X0. rewrite <- X0. set (s0 := take_items K sa (h_id K x) (e_items K e)) in *.
      destruct (e_end K e); [injection Q as <-; apply ext_refl|]. destruct (last_item K (e_items K e)) as [v|]; [|apply (ext_each P s0 x wk); auto].
      destruct (path_borrow_mut K keqb (e_uniq K e) (h_path K x) (sd K s0)) as [yk|]; [|injection Q as <-; apply ext_refl].
      destruct (do_act s0 _) as [s1|] eqn:E1; [|discriminate]. destruct (poll_stream _ (h_id K x) wk) as [(s2, r)|] eqn:E2; [|discriminate].
      apply (ext_act P) in E1. eapply ext_trans; [exact E1|]. apply (ext_stream P) in E2; auto.
      eapply ext_trans; [exact E2|]. apply (ext_each P s2 x wk); auto.
  - destruct (find_helper K h (sh K s)) as [x|]; [|intros [= <-]; apply ext_refl]. destruct (xexec (sx K s) (ODrop _ h)) as [w|] eqn:E; [|discriminate]. intros [= <-].
    destruct (h_fut K x); cbn; (eapply ext_x; [exact E|discriminate]).
Qed.

(** ** the trace since the last poll *)
Lemma since_none h t : since h t = None <-> forall wk r, ~ In (TPoll _ h wk r) t.
Proof.
  induction t as [|e t IH]; [cbn; tauto|]. destruct e as [i q b|i wk r|i|q|wk]; cbn.
  2: { destruct (Nat.eqb_spec i h) as [->|N]; [split; [discriminate|intro F; destruct (F wk r); auto]|].
       destruct (since h t) eqn:E; split; try discriminate.
       - intro F. exfalso. assert (A : forall wk0 r0, ~ In (TPoll _ h wk0 r0) t) by (intros wk0 r0 IN; apply (F wk0 r0); auto). apply IH in A. discriminate.
       - intros _ wk0 r0 [[= Q _ _]|IN]; [congruence|]. exact (proj1 IH eq_refl wk0 r0 IN).
       - reflexivity. }
  all: destruct (since h t) eqn:E; split; try discriminate; try reflexivity;
    [intro F; exfalso; assert (A : forall wk0 r0, ~ In (TPoll _ h wk0 r0) t) by (intros wk0 r0 IN; apply (F wk0 r0); auto); apply IH in A; discriminate
    |intros _ wk0 r0 [Q|IN]; [discriminate|exact (proj1 IH eq_refl wk0 r0 IN)]].
Qed.
Lemma since_app h new t : (forall wk r, ~ In (TPoll _ h wk r) new) -> since h (new ++ t) = match since h t with Some d => Some (new ++ d) | None => None end.
Proof.
  induction new as [|e new IH]; intro N; [cbn; destruct (since h t); reflexivity|]. cbn [app].
  rewrite since_snoc; [|intros w r ->; apply (N w r); cbn; auto]. rewrite IH; [|intros wk r IN; apply (N wk r); cbn; auto].
  destruct (since h t); reflexivity.
Qed.
Lemma since_new h new t d : (exists wk r, In (TPoll _ h wk r) new) -> since h (new ++ t) = Some d -> forall e, In e d -> In e new.
Proof.
  revert d. induction new as [|e new IH]; intros d (wk & r & IN); [destruct IN|]. cbn [app].
  assert (NP : (forall w r, e <> TPoll _ h w r) -> since h (e :: new ++ t) = Some d -> forall e0, In e0 d -> In e0 (e :: new)).
  { intros N. rewrite since_snoc by exact N. destruct (since h (new ++ t)) as [d'|] eqn:E; [|discriminate]. intros [= <-] e0 [<-|I0]; [left; reflexivity|right].
    eapply IH; eauto. destruct IN as [->|IN]; [destruct (N wk r eq_refl)|eauto]. }
  destruct e as [i q b|i wk' r'|i|q|wk']; try (apply NP; intros ? ? [=]; fail).
  destruct (Nat.eq_dec i h) as [->|N]; [cbn; rewrite Nat.eqb_refl; intros [= <-] e0 []|]. apply NP. intros w r0 [= Q _ _]. congruence.
Qed.
Lemma last_waker_app h new (t : list (Xbow.ev (seg K))) : forall wk, last_waker _ h (new ++ t) = Some wk -> (exists r, In (TPoll _ h wk r) new) \/ last_waker _ h t = Some wk.
Proof.
  induction new as [|e new IH]; intros wk; [auto|]. cbn [app]. destruct e as [i q b|i wk' r'|i|q|wk']; cbn; try (intro E; apply IH in E as [(r & E)|E]; [left; exists r; auto|auto]).
  destruct (Nat.eqb_spec i h) as [->|]; [intros [= ->]; left; exists r'; auto|]. intro E; apply IH in E as [(r & E)|E]; [left; exists r; auto|auto].
Qed.

(** ** the invariant *)
Variables (d0 : val K) (h t : nat) (pa : list (seg K)) (p : place).
Definition JS (s : sstate) : Prop := exists ops, srun d0 ops = Some s /\ Forall (visible K pa) ops /\ forall wk, last_waker _ h (tr s) = Some wk -> w_task wk = Some (block_task t p).
Definition freshS (s : sstate) : Prop := exists d, since h (tr s) = Some d /\ forall wk, In (TWake _ wk) d -> w_task wk <> Some (block_task t p).

Lemma js_step s o s' : JS s -> visible K pa o -> (forall wk, polled_with K h o wk -> w_task wk = Some (block_task t p)) -> sexec s o = Some s' -> JS s'.
Proof.
  intros (ops & R & V & L) VO PO E. exists (ops ++ [o]). split; [|split].
  - unfold XbowStore.srun in *. rewrite sexecs_app, R. cbn. rewrite E. reflexivity.
  - apply Forall_app. auto.
  - intros wk LW. destruct (ext_exec s o s' E) as (new & ET & NP). rewrite ET in LW. apply last_waker_app in LW as [(r & IN)|LW]; auto. apply PO. eapply NP; eauto.
Qed.
Lemma fresh_step s o s' l : freshS s -> ~ polls_helper K h o -> sexec s o = Some s' -> store_wakes K s s' l -> freshS s' \/ In (GWake t p) l.
Proof.
  intros (d & SD & NW) NP E (new & ET & WK). destruct (ext_exec s o s' E) as (new' & ET' & NPO). rewrite ET in ET'. apply app_inv_tail in ET'. subst new'.
  assert (NN : forall wk r, ~ In (TPoll _ h wk r) new) by (intros wk r IN; apply NP; destruct (NPO h wk r IN) as [(e & ->)| ->]; [left|right]; eauto).
  destruct (existsb (fun e => match e with TWake _ wk => match w_task wk with Some k => k =? block_task t p | None => false end | _ => false end) new) eqn:EX.
  - right. apply existsb_exists in EX as (e & IN & Q). destruct e as [| | | |wk]; try discriminate. destruct (w_task wk) as [k|] eqn:TK; [|discriminate]. apply Nat.eqb_eq in Q. subst k. eapply WK; eauto.
  - left. exists (new ++ d). split; [rewrite ET, since_app, SD; auto|]. intros wk IN. apply in_app_iff in IN as [IN|IN]; auto. intro TK.
    assert (F : existsb (fun e => match e with TWake _ wk => match w_task wk with Some k => k =? block_task t p | None => false end | _ => false end) new = true); [|congruence].
    apply existsb_exists. exists (TWake _ wk). split; auto. rewrite TK. apply Nat.eqb_refl.
Qed.
Lemma helper_found s : is_helper K h (sh K s) = true -> exists x, find_helper K h (sh K s) = Some x.
Proof.
  unfold is_helper, find_helper. induction (sh K s) as [|x l IH]; cbn; [discriminate|]. destruct (h_id K x =? h); eauto.
Qed.
(** the block has polled the helper, which is not completed *)
Lemma polled_now s wk e s' : JS s -> is_helper K h (sh K s) = true -> sexec s (SPoll K h wk e) = Some s' -> (~ exists tr, str K s' = EDone K h :: tr) ->
  exists new r, tr s' = new ++ tr s /\ In (TPoll _ h wk r) new.
Proof.
  intros (ops & R & _) IH E ND. destruct (run_inv ww WW K keqb keqb_ok H d0 ops) as (s_ & R_ & I & _). rewrite R in R_. injection R_ as <-.
  assert (G : GI K H (emit K s (EPoll K h wk))) by (apply (gi_same K H s); [apply (i_gi _ _ _ I)|reflexivity|reflexivity]). clear I. destruct (helper_found s IH) as (x & F).
  cbn [XbowStore.sexec] in E. rewrite F in E. apply find_helper_some in F as (Hx & ID). subst h.
  destruct (h_kind K x) as [| |fire|].
  - destruct (each_ok ww WW K keqb H _ x wk G Hx) as (s2 & r & E2 & _ & _ & _ & _ & T & _). rewrite E in E2. injection E2 as <-. exists [TPoll _ (h_id K x) wk r], r. split; [exact T|cbn; auto].
  - destruct (async_ok ww WW K keqb keqb_ok H _ x wk e G Hx) as (s2 & w & r & E2 & RF & T & _ & GM & _). cbv zeta in *. rewrite E in E2. injection E2 as <-.
    match type of RF with run_fut _ _ _ _ _ ?hh ?oo _ = _ => destruct (run_fut_ok ww K keqb keqb_ok H _ hh oo e GM) as (s3 & t1 & t2 & E3 & _ & _ & T3 & _); rewrite RF in E3; injection E3 as <- end.
    exists (t1 ++ [TPoll _ (h_id K x) wk r]), r. split; [|apply in_app_iff; cbn; auto]. rewrite T3, <- app_assoc. f_equal. cbn [app].
    change (tr s) with (tr (emit K s (EPoll K (h_id K x) wk))). rewrite <- T. unfold async_mid. destruct (async_val K keqb _ x _); cbn; [destruct (h_fut K x)|]; reflexivity.
  - destruct (signal_ok ww WW K keqb H _ x fire wk G Hx) as (s2 & r & E2 & _ & _ & _ & _ & T & _). rewrite E in E2. injection E2 as <-. exists [TPoll _ (h_id K x) wk r], r. split; [exact T|cbn; auto].
  - destruct (bind_ok ww WW K keqb keqb_ok H _ x wk e G Hx) as (s2 & sa & E2 & EA & _ & _ & CASES). cbv zeta in *. rewrite E in E2. injection E2 as <-.
    destruct (acts_ok ww K keqb keqb_ok H (e_acts K e) _ G) as (sa' & t1 & EA' & Ga & Ha & _ & Ta & _). rewrite EA in EA'. injection EA' as <-.
    destruct (take_ok K (h_id K x) (e_items K e) sa) as (_ & X0 & H0 & _). cbv zeta in *.
    destruct (e_end K e); [destruct ND; rewrite CASES; cbn; eauto|]. destruct (last_item K (e_items K e)) as [v|].
    + destruct (path_borrow_mut _ _ _ _ _) as [[y k]|]; [|destruct ND; rewrite CASES; cbn; eauto]. destruct CASES as (_ & _ & r & t2 & T & _).
      exists (TPoll _ (h_id K x) wk false :: TPoll _ (h_id K x) wk r :: t2 ++ t1), r. split; [|cbn; auto]. rewrite T. cbn. rewrite X0, Ta, <- app_assoc. reflexivity.
    + destruct (each_ok ww WW K keqb H (take_items K sa (h_id K x) (e_items K e)) x wk) as (s3 & r & E3 & _ & _ & _ & _ & T & _); [apply (gi_same K H sa); auto|rewrite H0, Ha; exact Hx|].
      rewrite CASES in E3. injection E3 as <-. exists (TPoll _ (h_id K x) wk r :: t1), r. split; [|cbn; auto]. rewrite T, X0, Ta. reflexivity.
Qed.
Lemma fresh_polled s wk e s' l : JS s -> is_helper K h (sh K s) = true -> sexec s (SPoll K h wk e) = Some s' -> (~ exists tr, str K s' = EDone K h :: tr) ->
  store_wakes K s s' l -> freshS s' \/ In (GWake t p) l.
Proof.
  intros J IH E ND (new & ET & WK). destruct (polled_now s wk e s' J IH E ND) as (new' & r & ET' & IN). rewrite ET in ET'. apply app_inv_tail in ET'. subst new'.
  destruct (since h (tr s')) as [d|] eqn:SD; [|exfalso; apply (proj1 (since_none h (tr s')) SD wk r); rewrite ET; apply in_app_iff; auto].
  rewrite ET in SD. pose proof (since_new h new (tr s) d (ex_intro _ wk (ex_intro _ r IN)) SD) as IND.
  destruct (existsb (fun e => match e with TWake _ wk => match w_task wk with Some k => k =? block_task t p | None => false end | _ => false end) d) eqn:EX.
  - right. apply existsb_exists in EX as (e0 & IN0 & Q). destruct e0 as [| | | |wk0]; try discriminate. destruct (w_task wk0) as [k|] eqn:TK; [|discriminate]. apply Nat.eqb_eq in Q. subst k. eapply WK; eauto.
  - left. exists d. split; [rewrite ET; exact SD|]. intros wk0 IN0 TK.
    assert (F : existsb (fun e => match e with TWake _ wk => match w_task wk with Some k => k =? block_task t p | None => false end | _ => false end) d = true); [|congruence].
    apply existsb_exists. exists (TWake _ wk0). split; auto. rewrite TK. apply Nat.eqb_refl.
Qed.
Lemma uses_js (ok : sop K -> Prop) s l s' : (forall o, ok o -> visible K pa o /\ forall wk, polled_with K h o wk -> w_task wk = Some (block_task t p)) ->
  store_uses ww K keqb H ok s l s' -> JS s -> JS s'.
Proof. intros O U. induction U as [|s l o s1 s' OK E WK U IH]; auto. intro J. destruct (O o OK). apply IH. eapply js_step; eauto. Qed.
Lemma uses_fresh s l s' : store_uses ww K keqb H (fun o => visible K pa o /\ ~ polls_helper K h o) s l s' -> JS s -> freshS s -> freshS s' \/ In (GWake t p) l.
Proof.
  intro U. induction U as [|s l o s1 s' [VO NP] E WK U IH]; auto. intros J F.
  assert (J1 : JS s1) by (eapply js_step; eauto; intros wk Q; destruct NP; destruct Q as [(e & ->)| ->]; [left|right]; eauto).
  destruct (fresh_step s o s1 l F NP E WK); auto.
Qed.
(** a fresh view was told the current data *)
Lemma fresh_told s k f x : JS s -> freshS s -> In (mkH K h k pa f) (sh K s) -> path_borrow K keqb pa (sd K s) = Some x ->
  shown K h (str K s) = Some x \/ (k = KSignal false /\ shown K h (str K s) = None).
Proof.
  intros (ops & R & V & L) (d & SD & NW) Hx B.
  destruct (C45_up_to_date ww K keqb H WW keqb_ok d0 ops s h k pa f R V Hx) with (x := x) as [Q|[(_ & W)|Q]]; auto.
  - unfold never_polled. congruence.
  - exfalso. destruct W as (d' & wk & wk' & SD' & LW & IN & TK). rewrite SD in SD'. injection SD' as <-. apply (NW wk' IN). rewrite TK. apply L. exact LW.
Qed.
End Stores.

Lemma store_view_of {V X} ww K keqb H (WW : will_wake_ok ww) (KO : forall a b, keqb a b = true <-> a = b) (d : val K) (st : X -> sstate K) on h pa t p
  (code : nat -> X -> place -> option V -> X * list gact * next V) on_drop evs :
  store_view ww K keqb H d st on h pa t p code on_drop evs ->
  view_of (fun x => JS ww K keqb H d h t pa p (st x)) (fun x => on x = true -> freshS K h t p (st x)) t p code on_drop evs.
Proof.
  intros (A & B & C & D). assert (US : forall x, JS ww K keqb H d h t pa p (st x) -> exists ops, srun ww K keqb H d ops = Some (st x)) by (intros x (ops & R & _); eauto).
  assert (O : forall s l s', store_uses ww K keqb H (fun o => visible K pa o /\ ~ polls_helper K h o) s l s' -> JS ww K keqb H d h t pa p s ->
    JS ww K keqb H d h t pa p s' /\ (freshS K h t p s -> freshS K h t p s' \/ In (GWake t p) l)).
  { intros s l s' U J. split; [|eapply (uses_fresh ww K keqb H d); eauto].
    eapply uses_js; eauto. intros o [VO NP]. split; auto. intros wk Q. destruct NP. destruct Q as [(e & ->)| ->]; [left|right]; eauto. }
  assert (O' : forall x l x', store_uses ww K keqb H (fun o => visible K pa o /\ ~ polls_helper K h o) (st x) l (st x') /\ (on x' = true -> on x = true) -> JS ww K keqb H d h t pa p (st x) ->
    JS ww K keqb H d h t pa p (st x') /\ ((on x = true -> freshS K h t p (st x)) -> (on x' = true -> freshS K h t p (st x')) \/ In (GWake t p) l)).
  { intros x l x' (U & ON) J. destruct (O _ _ _ U J) as (J' & F). split; auto. intro G. destruct (on x') eqn:E; [|left; discriminate].
    destruct (F (G (ON eq_refl))); auto. }
  split; [|split; [|split]].
  - intros x got x' l nx J E. destruct (A x got x' l nx (US x J) E) as [->|(U & P)]; auto. right.
    split; [eapply uses_js; eauto; cbn; tauto|]. intro NX. destruct (on x') eqn:ON; [|left; discriminate].
    destruct (P NX eq_refl) as (s & wk & e & s' & TK & U1 & IH & VO & E' & WK & ND & U2).
    assert (Js : JS ww K keqb H d h t pa p s) by (eapply uses_js; eauto; cbn; tauto).
    assert (Js' : JS ww K keqb H d h t pa p s') by (eapply js_step; eauto; intros wk' [(e' & [= <- _])|Q]; [exact TK|discriminate]).
    destruct (fresh_polled ww WW K keqb KO H d h t pa p s wk e s' l Js IH E' ND WK) as [F|F]; auto.
    destruct (O _ _ _ U2 Js') as (_ & F'). destruct (F' F); auto.
  - intros u x q got x' l nx N J E. destruct (B u x q got x' l nx N (US x J) E) as [->|U]; auto.
  - intros u x x' l J E. apply O'; eauto.
  - intros f x x' l IN J E. apply O'; eauto.
Qed.
