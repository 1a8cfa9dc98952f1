(** Proofs for C44 and C45: histories of a store. *)
From Coq Require Import List Arith Bool NArith Lia.
From Verif Require Import Util Arena Spec_arena Arena_proofs Xbow Spec_xbow Xbow_proofs Xbow_run_proofs XbowData XbowData_proofs XbowStore Spec_store XbowStore_proofs.
Import ListNotations.

Section Store.
Variable ww : waker -> waker -> bool.
Hypothesis WW : will_wake_ok ww.
Variable K : Type.
Variable keqb : K -> K -> bool.
Hypothesis keqb_ok : forall a b, keqb a b = true <-> a = b.
Notation val := (val K).
Notation path := (list (seg K)).
Variable H : path -> N.
Notation S_ := (seg K).
Notation xexec := (exec ww (seg K) H).
Notation xexecs := (execs ww (seg K) H).
Notation xlive := (live (seg K)).
Notation xsince := (since_poll (seg K)).
Notation tr s := (w_tr (seg K) (sx K s)).
Notation sexec := (sexec ww K keqb H).
Notation sexecs := (sexecs ww K keqb H).
Notation srun := (srun ww K keqb H).
Notation borrow := (path_borrow K keqb).
Notation sstate := (sstate K).
Notation helper := (helper K).
Notation GI := (GI K H).
Notation INV := (INV K H).
Notation VIS := (VIS K keqb).
Notation frame := (frame K keqb).
Notation synced := (synced K keqb).
Notation poll_result := (poll_result K keqb H).

(** events that are no polls *)
Lemma since_snoc h e (t : list (ev S_)) : (forall w r, e <> TPoll _ h w r) -> xsince h (e :: t) = match xsince h t with Some d => Some (e :: d) | None => None end.
Proof. intro N. destruct (since_app S_ h [e] t) as (Q & _); [intros w r [I|[]]; apply (N w r I)|]. exact Q. Qed.

(** helpers other than the polled one *)
Definition kept (s s' : sstate) : Prop :=
  forall y, In y (sh K s') -> exists z, In z (sh K s) /\ h_id K z = h_id K y /\ h_kind K z = h_kind K y /\ h_path K z = h_path K y.
Lemma since_back h t1 t : xsince h (t1 ++ t) = None -> xsince h t = None.
Proof. induction t1 as [|e t1 IH]; cbn; [auto|]. destruct e; try (destruct (xsince h (t1 ++ t)); [discriminate|auto]). destruct (s =? h); [discriminate|]. destruct (xsince h (t1 ++ t)); [discriminate|auto]. Qed.
Lemma inv_frame P s s' : INV s -> GI s' -> kept s s' -> frame P s s' None -> w_next _ (sx K s) <= w_next _ (sx K s') -> INV s'.
Proof.
  intros I G KE (t1 & T & N & SH & B) L. split; [exact G| |].
  - intros y Hy E. destruct (KE y Hy) as (z & Hz & ID & _). rewrite <- ID in E |- *. rewrite SH by discriminate. apply (i_never _ _ _ I _ Hz).
    rewrite T in E. apply since_back in E. exact E.
  - intros h Hh. rewrite SH by discriminate. apply (i_new _ _ _ I). lia.
Qed.
Lemma vis_frame P p s s' : VIS p s -> kept s s' -> frame P s s' None -> P p -> VIS p s'.
Proof.
  intros V KE F Pp. split.
  - intros y Hy. destruct (KE y Hy) as (z & Hz & ID & KI & PA). rewrite <- KI, <- PA. apply (v_bind _ _ _ _ V _ Hz).
  - intros y Hy. destruct (KE y Hy) as (z & Hz & ID & KI & PA). rewrite <- KI, <- PA, <- ID. intro E. eapply (synced_frame K keqb P s s' None z p F Pp Hz); [discriminate|]. apply (v_sync _ _ _ _ V _ Hz E).
Qed.
Lemma unique_id s x y : GI s -> In x (sh K s) -> In y (sh K s) -> h_id K x = h_id K y -> x = y.
Proof.
  intros G. pose proof (g_nd _ _ _ G) as ND. revert ND. generalize (sh K s). induction l as [|a l IH]; cbn; intros ND Hx Hy E; [destruct Hx|]. inversion ND as [|? ? NI ND']; subst.
  destruct Hx as [->|Hx], Hy as [->|Hy]; auto; exfalso; apply NI; [rewrite E|rewrite <- E]; apply in_map; auto.
Qed.
Lemma inv_poll s s' x acts : INV s -> In x (sh K s) -> poll_result s s' x acts -> w_next _ (sx K s) <= w_next _ (sx K s') ->
  INV s' /\ forall p, VIS p s -> Forall (act_visible K p) acts -> VIS p s'.
Proof.
  intros I Hx (G & MI & KE & F & SY) L. destruct (SY (i_never _ _ _ I x Hx)) as (SY1 & SY2). split.
  - destruct F as (t1 & T & N & SH & B). split; [exact G| |].
    + intros y Hy E. destruct (KE y Hy) as (z & Hz & ID & _). destruct (Nat.eq_dec (h_id K x) (h_id K y)) as [Q|Q].
      * rewrite <- Q in E |- *. apply SY1, E.
      * rewrite SH by congruence. rewrite <- ID in E |- *. apply (i_never _ _ _ I _ Hz). rewrite T in E. apply since_back in E. exact E.
    + intros h Hh. rewrite SH; [apply (i_new _ _ _ I); lia|]. intros [= Q]. pose proof (helper_lt _ _ _ _ (i_gi _ _ _ I) Hx). lia.
  - intros p V VA. split.
    + intros y Hy. destruct (KE y Hy) as (z & Hz & ID & KI & PA). rewrite <- KI, <- PA. apply (v_bind _ _ _ _ V _ Hz).
    + intros y Hy PY. destruct (KE y Hy) as (z & Hz & ID & KI & PA). rewrite <- KI, <- ID. destruct (Nat.eq_dec (h_id K x) (h_id K y)) as [Q|Q].
      * assert (z = x) by (apply (unique_id s); [apply (i_gi _ _ _ I)|auto|auto|congruence]). subst z. assert (PX : h_path K x = p) by congruence. subst p. rewrite <- PX in *. apply SY2; [exact VA|].
        apply (v_sync _ _ _ _ V _ Hx). reflexivity.
      * eapply synced_frame; [exact F| |exact Hz|congruence|apply (v_sync _ _ _ _ V _ Hz); congruence]. split; [exact VA|]. intros KB C. apply (v_bind _ _ _ _ V _ Hx KB C).
Qed.
Lemma kept_refl s s' : sh K s' = sh K s -> kept s s'.
Proof. intros E y Hy. rewrite E in Hy. eauto. Qed.
Lemma kept_trans s s1 s2 : kept s s1 -> kept s1 s2 -> kept s s2.
Proof. intros A B y Hy. destruct (B y Hy) as (z & Hz & E1 & E2 & E3). destruct (A z Hz) as (z' & Hz' & F1 & F2 & F3). exists z'. split; [auto|]. split; [congruence|]. split; congruence. Qed.

Lemma spoll_ok s0 x wk e : GI s0 -> In x (sh K s0) -> exists s', match h_kind K x with
    | KEach => poll_each ww K keqb H s0 x wk | KAsync => poll_async ww K keqb H s0 x wk e
    | KSignal fire => poll_signal ww K keqb H s0 x fire wk | KBind => poll_bind ww K keqb H s0 x wk e end = Some s' /\ poll_result s0 s' x (e_acts K e).
Proof.
  intros G Hx. destruct (h_kind K x) eqn:KI.
  - apply each_result; auto.
  - apply async_result; auto.
  - apply signal_result; auto.
  - apply bind_result; auto.
Qed.
Lemma step_ok s o : INV s -> exists s', sexec s o = Some s' /\ INV s' /\ forall p, VIS p s -> visible K p o -> VIS p s'.
Proof.
  intro I. pose proof (i_gi _ _ _ I) as G. destruct (g_w _ _ _ G) as (A & W).
  assert (QUIET : forall w o, xexec (sx K s) o = Some w -> GI (with_x K s w) -> (exists t1, w_tr _ w = t1 ++ tr s /\ forall h w r, In (TPoll _ h w r) t1 -> ~ In h (map (h_id K) (sh K s))) ->
     INV (with_x K s w) /\ forall p, VIS p s -> VIS p (with_x K s w)).
  { intros w o' E G' (t1 & T & N). assert (F : frame (fun _ => True) s (with_x K s w) None).
    { exists t1. split; [exact T|]. split; [intros; right; eapply N; eauto|]. auto. }
    split; [eapply inv_frame; eauto; [apply kept_refl; reflexivity|eapply exec_next; exact E]|]. intros p V. apply (vis_frame (fun _ => True) p s _ V); [apply kept_refl; reflexivity|exact F|exact Logic.I]. }
  assert (SAME : exists s', Some s = Some s' /\ INV s' /\ forall p, VIS p s -> visible K p o -> VIS p s') by (exists s; auto).
  destruct o as [a|o|k p|h wk e|h]; cbn [XbowStore.sexec].
  - destruct (act_ok ww K keqb keqb_ok H s a G) as (s' & t1 & E & G' & SH & _ & T & Q & SS & _ & _ & B). exists s'. split; [exact E|].
    assert (F : frame (fun p => act_visible K p a) s s' None). { exists t1. split; [exact T|]. split; [intros h w r J; destruct (Q _ J)|]. split; [intros; apply SS|exact B]. }
    split; [eapply inv_frame; eauto; [apply kept_refl; exact SH|eapply ws_next, ws_act; exact E]|]. intros p V VA. apply (vis_frame _ p s _ V (kept_refl _ _ SH) F VA).
  - destruct o as [p b|i wk|i|q]; [| | |exact SAME].
    + destruct (exec_new ww S_ H _ _ p b W) as (w & A' & E & W' & T). rewrite E. eexists. split; [reflexivity|].
      assert (G' : GI (with_x K s w)). { eapply gi_poll; [exact G|reflexivity|exists A'; exact W'|exact T|discriminate]. }
      destruct (QUIET w _ E G') as (Q1 & Q2); [|auto]. exists [TNew _ (w_next _ (sx K s)) p b]. split; [exact T|]. intros h w0 r [J|[]]. discriminate.
    + destruct (is_helper K i (sh K s)) eqn:IH; [exact SAME|]. apply is_helper_false in IH.
      destruct (exec_poll ww WW S_ H _ _ i wk W) as (w & A' & E & W' & C). rewrite E. eexists. split; [reflexivity|].
      destruct C as [(u & r & _ & _ & T & _)| ->].
      * assert (G' : GI (with_x K s w)). { eapply gi_poll; [exact G|reflexivity|exists A'; exact W'|exact T|discriminate]. }
        destruct (QUIET w _ E G') as (Q1 & Q2); [|auto]. exists [TPoll _ i wk r]. split; [exact T|]. intros h w0 r0 [J|[]]. injection J as <- _ _. exact IH.
      * destruct (QUIET (sx K s) _ E) as (Q1 & Q2); [destruct s; exact G| |auto]. exists []. split; [reflexivity|intros ? ? ? []].
    + destruct (is_helper K i (sh K s)) eqn:IH; [exact SAME|]. apply is_helper_false in IH.
      destruct (exec_drop ww S_ H _ _ i W) as (w & A' & E & W' & C). rewrite E. eexists. split; [reflexivity|].
      destruct C as [T| ->].
      * assert (G' : GI (with_x K s w)).
        { split; [exists A'; exact W'| |apply (g_nd _ _ _ G)]. intros x Hx. cbn in Hx |- *. rewrite T. destruct (g_h _ _ _ G _ Hx) as (L1 & L2). split; [cbn; auto|]. intros [J|J]; [|auto].
          injection J as J. apply IH. rewrite J. apply in_map, Hx. }
        destruct (QUIET w _ E G') as (Q1 & Q2); [|auto]. exists [TDrop _ i]. split; [exact T|]. intros h w0 r [J|[]]. discriminate.
      * destruct (QUIET (sx K s) _ E) as (Q1 & Q2); [destruct s; exact G| |auto]. exists []. split; [reflexivity|intros ? ? ? []].
  - destruct (exec_new ww S_ H _ _ p false W) as (w & A' & E & W' & T). rewrite E. eexists. split; [reflexivity|].
    assert (FR : ~ In (TDrop _ (w_next _ (sx K s))) (tr s)). { intro J. pose proof (wi_tr _ _ _ _ W _ (w_next _ (sx K s)) J eq_refl). lia. }
    assert (NW : forall w0 r, ~ In (TPoll _ (w_next _ (sx K s)) w0 r) (tr s)). { intros w0 r J. pose proof (wi_tr _ _ _ _ W _ (w_next _ (sx K s)) J eq_refl). lia. }
    assert (NX : w_next _ w = S (w_next _ (sx K s))). { cbn [exec] in E. destruct (add_slots _ _) as [(st, l)|]; [|discriminate]. injection E as <-. reflexivity. }
    assert (SN : xsince (w_next _ (sx K s)) (w_tr _ w) = None).
    { rewrite T, since_snoc by discriminate. destruct (since_none S_ (w_next _ (sx K s)) (tr s)) as (-> & _); [|reflexivity].
      intros ev0 J Q. pose proof (wi_tr _ _ _ _ W _ _ J Q). lia. }
    set (s' := mkS K (sd K s) w (mkH K (w_next _ (sx K s)) k p None :: sh K s) (snext K s) (str K s)).
    assert (KP : forall y, In y (sh K s) -> xsince (h_id K y) (w_tr _ w) = match xsince (h_id K y) (tr s) with Some d => Some (TNew _ (w_next _ (sx K s)) p false :: d) | None => None end).
    { intros y Hy. rewrite T. apply since_snoc. discriminate. }
    split; [split|].
    + split; [exists A'; exact W'| |].
      * intros x [<-|Hx]; cbn; rewrite T.
        -- split; [cbn; auto|]. intros [J|J]; [discriminate|auto].
        -- destruct (g_h _ _ _ G _ Hx) as (L1 & L2). split; [cbn; auto|]. intros [J|J]; [discriminate|auto].
      * cbn. constructor; [|apply (g_nd _ _ _ G)]. intro J. apply in_map_iff in J as (y & EQ & Hy). pose proof (helper_lt _ _ _ _ G Hy). lia.
    + intros x [<-|Hx]; cbn; [intros _; apply (i_new _ _ _ I); lia|]. rewrite (KP x Hx). destruct (xsince (h_id K x) (tr s)) eqn:Q; [discriminate|]. intros _. apply (i_never _ _ _ I _ Hx Q).
    + cbn. intros h Hh. apply (i_new _ _ _ I). lia.
    + intros p0 V VI. split.
      * intros x [<-|Hx]; cbn; [|apply (v_bind _ _ _ _ V _ Hx)]. intros ->. exact VI.
      * intros x [<-|Hx] PE; [intros d ED; cbn in ED; rewrite SN in ED; discriminate|]. intros d ED N v B. cbn in ED, B |- *. rewrite (KP x Hx) in ED.
        destruct (xsince (h_id K x) (tr s)) as [d0|] eqn:Q; [|discriminate]. injection ED as <-. apply (v_sync _ _ _ _ V _ Hx PE d0 Q); [|exact B]. intros q J. apply N. cbn. auto.
  - destruct (find_helper K h (sh K s)) as [x|] eqn:F; [|exact SAME]. pose proof F as F'. apply find_helper_some in F' as (Hx & ID).
    set (s0 := emit K s (EPoll K h wk)).
    assert (I0 : INV s0). { split; [apply gi_emit, G|apply (i_never _ _ _ I)|apply (i_new _ _ _ I)]. }
    assert (V0 : forall p, VIS p s -> VIS p s0). { intros p V. split; [apply (v_bind _ _ _ _ V)|apply (v_sync _ _ _ _ V)]. }
    destruct (spoll_ok s0 x wk e (i_gi _ _ _ I0) Hx) as (s' & E & R). exists s'. split; [exact E|].
    assert (EX : sexec s (SPoll K h wk e) = Some s'). { cbn [XbowStore.sexec]. rewrite F. exact E. }
    destruct (inv_poll s0 s' x (e_acts K e) I0 Hx R) as (I' & V'); [eapply (ws_next ww K H _ (sx K s)), (ws_exec ww K keqb); exact EX|]. split; [exact I'|].
    intros p V VA. apply V'; auto.
  - destruct (find_helper K h (sh K s)) as [x|] eqn:F; [|exact SAME]. apply find_helper_some in F as (Hx & ID).
    destruct (exec_drop ww S_ H _ _ h W) as (w & A' & E & W' & C). rewrite E. eexists. split; [reflexivity|].
    set (s1 := mkS K (sd K s) w (filter (fun y => negb (h_id K y =? h)) (sh K s)) (snext K s) (str K s)).
    assert (KE : kept s s1). { intros y Hy. apply filter_In in Hy as (Hy & _). eauto. }
    assert (TT : exists t1, w_tr _ w = t1 ++ tr s /\ (forall h' w0 r, ~ In (TPoll _ h' w0 r) t1)).
    { destruct C as [T| ->]; [exists [TDrop _ h]; split; [exact T|]; intros h' w0 r [J|[]]; discriminate|exists []; split; [reflexivity|intros ? ? ? []]]. }
    assert (G1 : GI s1).
    { split; [exists A'; exact W'| |].
      - intros y Hy. apply filter_In in Hy as (Hy & NE). apply negb_true_iff, Nat.eqb_neq in NE. destruct (g_h _ _ _ G _ Hy) as (L1 & L2). cbn. destruct C as [T| ->]; [|split; auto]. rewrite T.
        split; [cbn; auto|]. intros [J|J]; [congruence|auto].
      - cbn. pose proof (g_nd _ _ _ G) as ND. revert ND. generalize (sh K s). clear. induction l as [|a l IH]; intro ND; [constructor|]. cbn in *. inversion ND as [|? ? NI ND']; subst.
        destruct (negb (h_id K a =? h)); cbn; auto. constructor; auto. intro Q. apply in_map_iff in Q as (y & EQ & Hy). apply filter_In in Hy as (Hy & _). apply NI. rewrite <- EQ. apply in_map, Hy. }
    destruct TT as (t1 & T & N). assert (FR : forall P, frame P s (drop_fut K s1 (h_fut K x)) None).
    { intro P. exists t1. split; [destruct (h_fut K x); exact T|]. split; [intros h' w0 r J; destruct (N _ _ _ J)|]. destruct (h_fut K x); auto. }
    assert (G2 : GI (drop_fut K s1 (h_fut K x))) by (destruct (h_fut K x); [apply gi_emit|]; exact G1).
    assert (K2 : kept s (drop_fut K s1 (h_fut K x))) by (destruct (h_fut K x); exact KE).
    split; [eapply (inv_frame (fun _ => True)); eauto; destruct (h_fut K x); apply exec_next in E; exact E|]. intros p V _. apply (vis_frame (fun _ => True) p s _ V K2 (FR _) Logic.I).
Qed.

Lemma inv_init d : INV (sinit K d).
Proof. split; [split; [exists []; apply wi_init|intros ? []|constructor]|intros ? []|reflexivity]. Qed.
Lemma execs_inv ops : forall s, INV s -> exists s', sexecs s ops = Some s' /\ INV s' /\ forall p, VIS p s -> Forall (visible K p) ops -> VIS p s'.
Proof.
  induction ops as [|o ops IH]; intros s I; [exists s; cbn; auto|]. destruct (step_ok s o I) as (s1 & E & I1 & V1). destruct (IH s1 I1) as (s' & E' & I' & V').
  exists s'. cbn [XbowStore.sexecs]. rewrite E. split; [exact E'|]. split; [exact I'|]. intros p V VI. inversion VI; subst. auto.
Qed.
Lemma run_inv d ops : exists s, srun d ops = Some s /\ INV s /\ forall p, Forall (visible K p) ops -> VIS p s.
Proof.
  destruct (execs_inv ops _ (inv_init d)) as (s & E & I & V). exists s. split; [exact E|]. split; [exact I|]. intros p VI. apply V; [|exact VI]. split; intros ? [].
Qed.

(** * The world of a store is reachable *)
Lemma sexecs_app l1 : forall l2 s, sexecs s (l1 ++ l2) = match sexecs s l1 with Some s1 => sexecs s1 l2 | None => None end.
Proof. induction l1 as [|o l1 IH]; intros l2 s; [reflexivity|]. cbn [app XbowStore.sexecs]. destruct (sexec s o); [apply IH|reflexivity]. Qed.
Lemma step_helpers s o s' : INV s -> sexec s o = Some s' -> forall y, In y (sh K s') -> (exists z, In z (sh K s) /\ h_path K z = h_path K y) \/ In (h_path K y) (sop_paths K o).
Proof.
  intros I E. pose proof (i_gi _ _ _ I) as G.
  assert (SAME : forall s1, sh K s1 = sh K s -> forall y, In y (sh K s1) -> (exists z, In z (sh K s) /\ h_path K z = h_path K y) \/ In (h_path K y) (sop_paths K o)).
  { intros s1 Q y Hy. rewrite Q in Hy. left. eauto. }
  destruct o as [a|o|k p|h wk e|h]; cbn [XbowStore.sexec] in E.
  - destruct (act_ok ww K keqb keqb_ok H s a G) as (s1 & t1 & E1 & _ & SH & _). rewrite E in E1. injection E1 as <-. apply SAME, SH.
  - destruct o as [p b|i wk|i|q]; [|destruct (is_helper K i (sh K s))|destruct (is_helper K i (sh K s))|]; try (injection E as <-; apply SAME; reflexivity);
      (destruct (xexec (sx K s) _); [|discriminate]; injection E as <-; apply SAME; reflexivity).
  - destruct (xexec (sx K s) _); [|discriminate]. injection E as <-. intros y [<-|Hy]; [right; cbn; auto|left; eauto].
  - destruct (find_helper K h (sh K s)) as [x|] eqn:F; [|injection E as <-; apply SAME; reflexivity]. apply find_helper_some in F as (Hx & ID).
    destruct (spoll_ok (emit K s (EPoll K h wk)) x wk e (gi_emit _ _ _ _ G) Hx) as (s1 & E1 & _ & _ & KE & _). rewrite E in E1. injection E1 as <-.
    intros y Hy. destruct (KE y Hy) as (z & Hz & _ & _ & PA). left. eauto.
  - destruct (find_helper K h (sh K s)) as [x|] eqn:F; [|injection E as <-; apply SAME; reflexivity]. destruct (xexec (sx K s) _); [|discriminate]. injection E as <-.
    intros y Hy. left. exists y. split; [|reflexivity]. destruct (h_fut K x); cbn in Hy; apply filter_In in Hy; tauto.
Qed.
Lemma run_reach d ops : forall s, srun d ops = Some s ->
  (forall y, In y (sh K s) -> exists o, In o ops /\ In (h_path K y) (sop_paths K o)) /\
  exists wops, run ww S_ H wops = Some (sx K s) /\ forall wo q, In wo wops -> op_path _ wo = Some q -> exists o, In o ops /\ In q (sop_paths K o).
Proof.
  induction ops as [|o ops IH] using rev_ind; intros s E.
  - injection E as <-. split; [intros ? []|]. exists []. split; [reflexivity|intros ? ? []].
  - unfold XbowStore.srun in E. rewrite sexecs_app in E. destruct (run_inv d ops) as (s1 & E1 & I1 & _). unfold XbowStore.srun in E1. rewrite E1 in E. cbn [XbowStore.sexecs] in E.
    destruct (sexec s1 o) as [s2|] eqn:E2; [|discriminate]. injection E as <-. destruct (IH s1 E1) as (HP & wops & R & PW). split.
    + intros y Hy. destruct (step_helpers _ _ _ I1 E2 y Hy) as [(z & Hz & PZ)|Q].
      * destruct (HP z Hz) as (o' & Ho & Q). exists o'. rewrite <- PZ. split; [apply in_app_iff; auto|exact Q].
      * exists o. split; [apply in_app_iff; cbn; auto|exact Q].
    + destruct (ws_exec ww K keqb H _ _ _ E2) as (l & EL & PL). exists (wops ++ l). split; [eapply execs_app; eauto|].
      intros wo q J OP. apply in_app_iff in J as [J|J].
      * destruct (PW wo q J OP) as (o' & Ho & Q). exists o'. split; [apply in_app_iff; auto|exact Q].
      * destruct (PL wo q J OP) as [Q|(x & Hx & <-)].
        -- exists o. split; [apply in_app_iff; cbn; auto|exact Q].
        -- destruct (HP x Hx) as (o' & Ho & Q). exists o'. split; [apply in_app_iff; auto|exact Q].
Qed.

(** * A change that was not seen yet woke the task *)
Definition PW (t : list (ev S_)) : Prop := forall h p d q, xlive h p false t -> xsince h t = Some d -> In (TNotify _ q) d -> contains S_ q p -> woken K h t.
Lemma woken_app h t1 t : (forall w r, ~ In (TPoll _ h w r) t1) -> woken K h t -> woken K h (t1 ++ t).
Proof.
  intros N (d & wk & wk' & E & L & J & Q). destruct (since_app S_ h t1 t N) as (A & B). rewrite E in A. exists (t1 ++ d), wk, wk'.
  split; [exact A|]. split; [rewrite B; exact L|]. split; [apply in_app_iff; auto|exact Q].
Qed.
Lemma pw_one e t : PW t -> (forall q, e <> TNotify _ q) -> (forall w, e <> TWake _ w) -> (forall h p b, e = TNew _ h p b -> xsince h t = None) -> PW (e :: t).
Proof.
  intros P N1 N2 NW h p d q (L1 & L2) E J C.
  assert (X : (forall w r, e <> TPoll _ h w r) -> woken K h (e :: t)).
  { intro NP. rewrite (since_snoc h e t NP) in E. destruct (xsince h t) as [d0|] eqn:ED; [|discriminate]. injection E as <-. destruct J as [J|J]; [exfalso; apply (N1 q J)|].
    apply (woken_app h [e] t); [intros w r [Q|[]]; apply (NP w r Q)|]. apply (P h p d0 q); auto. split; [|intro Q; apply L2; cbn; auto].
    destruct L1 as [L1|L1]; [|exact L1]. rewrite (NW _ _ _ L1) in ED. discriminate. }
  destruct e; try (apply X; discriminate). cbn in E. destruct (Nat.eqb_spec s h); [injection E as <-; destruct J|]. apply X. congruence.
Qed.
Lemma pw_run wops : forall w, run ww S_ H wops = Some w -> PW (w_tr _ w).
Proof.
  induction wops as [|o wops IH] using rev_ind; intros w E.
  - injection E as <-. intros h p d q (L & _). destruct L.
  - destruct (run_ok ww WW S_ H wops) as (w1 & A & E1 & W). specialize (IH w1 E1).
    assert (E2 : xexec w1 o = Some w).
    { unfold run in E, E1. destruct (exec_ok ww WW S_ H w1 A o W) as (w2 & _ & E2 & _). rewrite E2. rewrite <- E. symmetry. eapply execs_app; [exact E1|]. cbn [execs]. rewrite E2. reflexivity. }
    destruct o as [p b|i wk|i|q].
    + destruct (exec_new ww S_ H _ _ p b W) as (w2 & _ & E3 & _ & T). rewrite E2 in E3. injection E3 as <-. rewrite T. apply pw_one; [exact IH|discriminate|discriminate|].
      intros h p' b' [= <- _ _]. apply (since_none S_). intros e J Q. pose proof (wi_tr _ _ _ _ W _ _ J Q). lia.
    + destruct (exec_poll ww WW S_ H _ _ i wk W) as (w2 & _ & E3 & _ & [(u & r & _ & _ & T & _)|Q]); rewrite E2 in E3; injection E3 as <-; [rewrite T; apply pw_one; [exact IH|discriminate|discriminate|discriminate]|rewrite Q; exact IH].
    + destruct (exec_drop ww S_ H _ _ i W) as (w2 & _ & E3 & _ & [T|Q]); rewrite E2 in E3; injection E3 as <-; [rewrite T; apply pw_one; [exact IH|discriminate|discriminate|discriminate]|rewrite Q; exact IH].
    + destruct (notify_wakes ww S_ H w1 A q W) as (w2 & ws & E3 & T & WK & _). rewrite E2 in E3. injection E3 as <-. rewrite T.
      assert (TE : rev (map (TWake S_) ws) ++ TNotify _ q :: w_tr _ w1 = (rev (map (TWake S_) ws) ++ [TNotify _ q]) ++ w_tr _ w1) by (rewrite <- app_assoc; reflexivity).
      rewrite TE. set (t1 := rev (map (TWake S_) ws) ++ [TNotify _ q]) in *.
      assert (QT : forall e, In e t1 -> quiet_ev K e).
      { intros e J. apply in_app_iff in J as [J|[<-|[]]]; [|exact Logic.I]. apply in_rev in J. apply in_map_iff in J as (? & <- & _). exact Logic.I. }
      intros h p d q' (L1 & L2) E4 J C. rewrite (quiet_since K h t1 _ QT) in E4. destruct (xsince h (w_tr _ w1)) as [d0|] eqn:ED; [|discriminate]. injection E4 as <-.
      assert (L : xlive h p false (w_tr _ w1)). { split; [|intro Q; apply L2, in_app_iff; auto]. apply in_app_iff in L1 as [L1|L1]; [|exact L1]. destruct (QT _ L1). }
      assert (NP : forall w0 r, ~ In (TPoll _ h w0 r) t1) by (intros w0 r Q; destruct (QT _ Q)).
      apply in_app_iff in J as [J|J].
      * assert (q' = q). { apply in_app_iff in J as [J|[J|[]]]; [|congruence]. apply in_rev in J. apply in_map_iff in J as (? & [=] & _). } subst q'.
        assert (LW : exists wk, last_waker S_ h (w_tr _ w1) = Some wk).
        { clear -ED. revert d0 ED. generalize (w_tr S_ w1). induction l as [|e l IH]; intros d0 ED; [discriminate|]. cbn in ED |- *.
          destruct e; try (destruct (xsince h l); [eauto|discriminate]). destruct (s =? h); [eauto|]. destruct (xsince h l); [eauto|discriminate]. }
        destruct LW as (wk & LW). destruct (affects_hit S_ H q p false C) as (k & K1 & K2). destruct (WK h p false k wk L K1 K2 LW) as (wk' & IW & ST).
        exists (t1 ++ d0), wk, wk'. split; [rewrite (quiet_since K h t1 _ QT), ED; reflexivity|]. split; [destruct (since_app S_ h t1 (w_tr _ w1) NP) as (_ & B); rewrite B; exact LW|]. split; [|exact ST].
        apply in_app_iff. left. apply in_app_iff. left. apply -> in_rev. apply in_map, IW.
      * apply woken_app; [exact NP|]. apply (IH h p d0 q'); auto.
Qed.
End Store.
