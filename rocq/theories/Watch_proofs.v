(** Proofs for C79: views that await a combinator of futures. *)
From Coq Require Import List Arith Bool Lia.
From Verif Require Import Util Arena Spec_arena Readiness Combinator Tree Spec_tree Spec_first Tree_proofs Goes_proofs First_proofs Executor Spec_executor Executor_proofs
  Queue Spec_queue Queue_proofs App App_proofs Page Page_proofs Spec_obey Obey_proofs Obey_page_proofs Props_queue Spec_view View_proofs Spec_watch.
Import ListNotations.

Section Watch.
Variables V X : Type.
Variable ww : waker -> waker -> bool.
Variable debug : bool.
Variable bound : nat.
Variable code : nat -> X -> place -> option V -> X * list gact * next V.
Variable on_drop : nat -> X -> X * list gact.
Variable evs0 : list (pev X).
Variables (J : X -> Prop) (ok : nat -> X -> Prop) (reg : nat -> place -> X -> Prop) (mine : nat -> bool) (t0 : nat) (p0 : place).
Hypothesis WW : will_wake_ok ww.
Hypothesis CO : forall t x p got x' l k b n, code t x p got = (x', l, NAwait k b n) -> beh_ok b /\ (k = KTuple -> n > 0).
Hypothesis WO : watches J ok reg mine t0 p0 code on_drop evs0.
Notation page := (page V X). Notation Z := (X * list gact)%type. Notation ttr := (w_tr V Z). Notation ev := (Tree.ev V).
Notation step := (page_step V X ww debug bound code). Notation fin := (page_fin V X on_drop).
Notation pg_t := (pg_t V X). Notation pg_x := (pg_x V X). Notation Good := (Good V X ww debug code).
Notation bcode := (block_code V X code).
Notation wk q := (GWake t0 q).
Notation wakes_of ks := (rev (map (@Tree.EWake V) ks)).

Definition HM (tr : list ev) : Prop := forall n k b q, In (ENew n k b q) tr -> (mine n = true <-> q = p0).
Record RI (tr : list ev) (x : X) (l : list gact) : Prop := {
  ri_leaf : forall n j m k b, mine n = true -> ~ In (ENew m k b (Kid n j)) tr;
  ri_one : forall n k b n' k' b', In (ENew n k b p0) tr -> In (ENew n' k' b' p0) tr -> ~ gone n tr -> ~ gone n' tr -> n = n';
  ri_new : forall n k b i, In (ENew n k b p0) tr -> ~ gone n tr -> i < k -> ~ returned (Kid n i) tr -> ~ begun (Kid n i) tr -> ok i x;
  ri_reg : forall n k b i, In (ENew n k b p0) tr -> ~ gone n tr -> i < k -> ~ returned (Kid n i) tr -> begun (Kid n i) tr ->
    reg i (Kid n i) x /\ (ok i x \/ unseen V (Kid n i) tr = true \/ In (wk (Kid n i)) l) }.
Lemma HM_cons e tr : HM (e :: tr) -> HM tr. Proof. intros H n k b q Q. apply (H n k b q). right. exact Q. Qed.
Lemma HM_app a tr : HM (a ++ tr) -> HM tr. Proof. intros H n k b q Q. apply (H n k b q). apply in_app_iff. auto. Qed.
(** events that run no code *)
Lemma RI_other e tr x l : match e with Tree.EPoll _ | Tree.EPend _ | EGone _ _ => True | _ => False end -> RI tr x l -> RI (e :: tr) x l.
Proof.
  intros E [A B C D].
  assert (NW : forall n k b q, In (ENew n k b q) (e :: tr) -> In (ENew n k b q) tr) by (intros n k b q [->|H]; [contradiction|exact H]).
  assert (NG : forall n, ~ gone n (e :: tr) -> ~ gone n tr) by (intros n N (v & H); apply N; exists v; right; exact H).
  assert (NR : forall q, ~ returned q (e :: tr) -> ~ returned q tr) by (intros q N (v & H); apply N; exists v; right; exact H).
  assert (BG : forall q, begun q (e :: tr) <-> begun q tr).
  { intro q. split; [intros (g & [->|H]); [contradiction|exists g; exact H]|apply begun_cons]. }
  assert (US : forall q, unseen V q (e :: tr) = unseen V q tr) by (intro q; destruct e; try contradiction; reflexivity).
  constructor.
  - intros n j m k b M H. apply (A n j m k b M). auto.
  - intros n k b n' k' b' H1 H2 G1 G2. eapply B; eauto.
  - intros n k b i H G L R N. apply (C n k b i); auto. intro Q. apply N, BG, Q.
  - intros n k b i H G L R N. rewrite US. apply (D n k b i); auto. apply BG, N.
Qed.
(** wakes *)
Lemma RI_wakes ks tr x l : RI tr x l -> (forall q, In (wk q) l -> made q tr -> In q ks) -> RI (wakes_of ks ++ tr) x [].
Proof.
  intros [A B C D] W.
  assert (NW : forall n k b q, In (ENew n k b q) (wakes_of ks ++ tr) -> In (ENew n k b q) tr) by (intros n k b q H; apply in_wakes' in H; cbn; auto).
  assert (NG : forall n, ~ gone n (wakes_of ks ++ tr) -> ~ gone n tr) by (intros n N (v & H); apply N; exists v; apply in_app_iff; auto).
  assert (NR : forall q, ~ returned q (wakes_of ks ++ tr) -> ~ returned q tr) by (intros q N (v & H); apply N; exists v; apply in_app_iff; auto).
  assert (BG : forall q, begun q (wakes_of ks ++ tr) <-> begun q tr).
  { intro q. split; intros (g & H); exists g; [apply in_wakes' in H; cbn; auto|apply in_app_iff; auto]. }
  constructor.
  - intros n j m k b M H. apply (A n j m k b M). auto.
  - intros n k b n' k' b' H1 H2 G1 G2. eapply B; eauto.
  - intros n k b i H G L R N. apply (C n k b i); auto. intro Q. apply N, BG, Q.
  - intros n k b i H G L R N. destruct (D n k b i) as (R1 & R2); auto; [apply BG, N|]. split; auto.
    rewrite unseen_wakes. destruct R2 as [Q|[Q|Q]]; auto. right. left. left. apply W; auto. cbn. eauto 6.
Qed.

(** the facts about traces that are used *)
Definition facts (tr : list ev) : Prop := Spec_tree.always poll_live tr /\ Spec_tree.always Spec_tree.run_ok tr /\ Spec_tree.always first_polls tr /\ forall n k b p, In (ENew n k b p) tr -> lvl p <= n.
Lemma facts_split a b : facts (a ++ b) -> facts b.
Proof.
  intros (A & B & C & D). split; [eapply always_split; eauto|]. split; [eapply always_split; eauto|]. split; [eapply always_split; eauto|].
  intros n k c p H. apply (D n k c p). apply in_app_iff. auto.
Qed.
Lemma ran_child (tr : list ev) n i got : facts (Tree.ERun (Kid n i) got :: tr) -> (forall m k b, ~ In (ENew m k b (Kid n i)) tr) ->
  exists k b q, In (ENew n k b q) tr /\ i < k /\ ~ gone n tr /\ ~ returned (Kid n i) tr.
Proof.
  intros (PL & RO & _) N. apply always_head in RO. cbn in RO. destruct got as [v|].
  - destruct RO as ((m & k & b & _ & H) & _). destruct (N m k b H).
  - destruct RO as [H _]. destruct tr as [|e tr]; [discriminate|]. injection H as ->. destruct PL as (_ & PL). apply always_head in PL. cbn in PL.
    inversion PL as [|n' k b q i' H1 H2 H3 H4 H5]; subst. exists k, b, q. split; [right; exact H1|]. split; auto. split.
    + intros (v & [H|H]); [discriminate|]. apply H3. exists v. exact H.
    + intros (v & [H|H]); [discriminate|]. apply H4. exists v. exact H.
Qed.
Lemma begun_made tr n i : facts tr -> (forall m k b, ~ In (ENew m k b (Kid n i)) tr) -> begun (Kid n i) tr -> exists k b q, In (ENew n k b q) tr.
Proof.
  intros F N (g & H). apply in_split in H as (a & b & ->). apply facts_split in F.
  destruct (ran_child b n i g F) as (k & c & q & H & _).
  - intros m k c Q. apply (N m k c). apply in_app_iff. right. right. exact Q.
  - exists k, c, q. apply in_app_iff. right. right. exact H.
Qed.
Lemma below_leaf (tr : list ev) n q : (forall j m k b, ~ In (ENew m k b (Kid n j)) tr) -> below tr n q -> exists j, q = Kid n j.
Proof.
  intros N B. induction B as [i|m k b p i H B IH]; [eauto|]. destruct IH as (j & ->). destruct (N j m k b H).
Qed.

(** a poll of the view's own application *)
Lemma plays_own tr z evs z' : plays (bcode t0) tr z evs z' -> facts (rev evs ++ tr) -> HM (rev evs ++ tr) ->
  J (fst z) -> RI tr (fst z) [] -> J (fst z') /\ RI (rev evs ++ tr) (fst z') [].
Proof.
  destruct WO as (WO1 & WO2 & WO3 & _).
  intro P. induction P as [tr z|tr z p got z1 ws nx ks e l z2 E W N P IH|tr z e l z2 E P IH]; intros FA H0 Jz I.
  - auto.
  - assert (FULL : rev (Tree.ERun p got :: map (@Tree.EWake V) ks ++ e :: l) ++ tr = rev l ++ e :: rev (map (@Tree.EWake V) ks) ++ Tree.ERun p got :: tr).
    { cbn [rev]. rewrite rev_app_distr. cbn [rev]. rewrite <- !app_assoc. reflexivity. }
    rewrite FULL in FA, H0 |- *.
    unfold block_code in E. destruct (code t0 (fst z) p got) as [[x' lg] nx'] eqn:EC. injection E as <- <- <-.
    assert (NP : nx' <> NPanic) by (intros ->; exact N).
    assert (OWN : forall q, In (wk q) lg -> In q (flat_map (own t0) lg)).
    { intros q H. apply in_flat_map. exists (wk q). split; auto. cbn. rewrite Nat.eqb_refl. left. reflexivity. }
    assert (H1 : HM (e :: wakes_of ks ++ Tree.ERun p got :: tr)) by (eapply HM_app; eauto).
    assert (HT : HM tr) by (apply HM_cons, HM_app, HM_cons in H1; exact H1).
    assert (F1 : facts (Tree.ERun p got :: tr)).
    { apply facts_split in FA. apply (facts_split (e :: wakes_of ks)). exact FA. }
    assert (FT : facts tr) by (apply (facts_split [_] tr) in F1; exact F1).
    destruct I as [A B C D].
    set (tr1 := e :: wakes_of ks ++ Tree.ERun p got :: tr) in *.
    assert (NW : forall n k b q, In (ENew n k b q) tr1 -> e = ENew n k b q /\ q = p \/ In (ENew n k b q) tr).
    { intros n k b q [H|H].
      - left. split; auto. destruct nx' as [|v| |kk bb nn]; cbn in N; [subst; discriminate|subst; discriminate|contradiction|].
        destruct N as (id & -> & _). injection H as _ _ _ ->. reflexivity.
      - right. apply in_wakes' in H; [|exact Logic.I]. destruct H as [H|H]; [discriminate|exact H]. }
    assert (NG : forall n, ~ gone n tr1 -> ~ gone n tr).
    { intros n Q (v & H). apply Q. exists v. right. apply in_app_iff. right. right. exact H. }
    assert (NR : forall q, ~ returned q tr1 -> ~ returned q tr).
    { intros q Q (v & H). apply Q. exists v. right. apply in_app_iff. right. right. exact H. }
    assert (NRp : ~ returned p tr1 -> forall v, e <> Tree.EDone p v).
    { intros Q v ->. apply Q. exists v. left. reflexivity. }
    assert (BG : forall q, begun q tr1 <-> q = p \/ begun q tr).
    { intro q. split.
      - intros (g & [H|H]).
        + destruct nx' as [|v| |kk bb nn]; cbn in N; [subst; discriminate|subst; discriminate|contradiction|]. destruct N as (id & -> & _). discriminate.
        + apply in_wakes' in H; [|exact Logic.I]. destruct H as [H|H]; [left; congruence|right; exists g; exact H].
      - intros [->|(g & H)]; [exists got|exists g]; right; apply in_app_iff; right; [left; reflexivity|right; exact H]. }
    assert (US : forall q, unseen V q tr1 = true <-> In q ks \/ (if place_eqb p q then false else unseen V q tr) = true).
    { intro q. rewrite <- (unseen_wakes V q ks (Tree.ERun p got :: tr)). unfold tr1.
      destruct nx' as [|v| |kk bb nn]; cbn in N; [subst; reflexivity|subst; reflexivity|contradiction|]. destruct N as (id & -> & _). reflexivity. }
    assert (WK : forall q, made q tr -> In (wk q) lg -> In q ks) by (intros q M H; eapply woke_in; eauto).
    assert (KM : forall n k b i, In (ENew n k b p0) tr -> i < k -> made (Kid n i) tr) by (intros; cbn; eauto 6).
    assert (RES : J x' /\ RI tr1 x' []).
    { assert (LEAF : (forall n j, p = Kid n j -> mine n = true -> forall k b m, nx' <> NAwait k b m) -> forall n j m k b, mine n = true -> ~ In (ENew m k b (Kid n j)) tr1).
      { intros Q n j m k b M H. apply NW in H as [[-> H]|H]; [|eapply A; eauto]. symmetry in H.
        destruct nx' as [|v| |kk bb nn]; cbn in N; try discriminate; try contradiction. exact (Q n j H M kk bb nn eq_refl). }
      destruct (place_eqb_spec p p0) as [->|Dp].
      - (* the view itself *)
        destruct (WO1 _ _ _ _ _ Jz EC) as [Q|(J' & F)]; [contradiction|]. split; auto.
        assert (GN : forall n k b, In (ENew n k b p0) tr -> gone n tr).
        { destruct F1 as (_ & RO & _). apply always_head in RO. cbn in RO. destruct got; apply RO. }
        constructor.
        + apply LEAF. intros n j Q M. exfalso.
          destruct (ran_child tr n j got) as (k & b & q & H & _); [rewrite <- Q; exact F1|intros m k b; apply A; exact M|].
          pose proof (proj1 (HT n k b q H) M) as HQ. rewrite HQ, Q in H. destruct FT as (_ & _ & _ & LV). apply LV in H. cbn in H. lia.
        + intros n k b n' k' b' Q1 Q2 G1 G2. apply NW in Q1 as [[Q1 _]|Q1]; [|destruct (NG n G1); eauto].
          apply NW in Q2 as [[Q2 _]|Q2]; [|destruct (NG n' G2); eauto]. congruence.
        + intros n k b i Q G L R NB. apply NW in Q as [[Q _]|Q]; [|destruct (NG n G); eauto].
          subst e. destruct nx' as [|v| |kk bb nn]; cbn in N; try discriminate; try contradiction.
          destruct N as (id & [= <- <- <-] & _). apply (F kk b k); auto.
        + intros n k b i Q G L R NB. apply NW in Q as [[Q _]|Q]; [|destruct (NG n G); eauto]. exfalso.
          assert (M : mine n = true) by (apply (H1 n k b p0); [left; exact Q|reflexivity]).
          apply BG in NB as [NB|NB].
          * destruct (ran_child tr n i got) as (k' & b' & q & H & _); [rewrite NB; exact F1|intros; apply A; exact M|].
            subst e. destruct nx' as [|v| |kk bb nn]; cbn in N; try discriminate; try contradiction. destruct N as (id & [= <- <- <-] & N). eapply N; eauto.
          * destruct (begun_made tr n i FT) as (k' & b' & q & H); auto.
            subst e. destruct nx' as [|v| |kk bb nn]; cbn in N; try discriminate; try contradiction. destruct N as (id & [= <- <- <-] & N). eapply N; eauto.
      - assert (NW' : forall n k b, In (ENew n k b p0) tr1 -> In (ENew n k b p0) tr) by (intros n k b Q; apply NW in Q as [[_ Q]|Q]; [congruence|exact Q]).
        assert (ONE : forall n k b n' k' b', In (ENew n k b p0) tr1 -> In (ENew n' k' b' p0) tr1 -> ~ gone n tr1 -> ~ gone n' tr1 -> n = n') by (intros n k b n' k' b' Q1 Q2 G1 G2; apply (B n k b n' k' b'); auto).
        destruct (match p with Kid n _ => mine n | Root => false end) eqn:EM.
        + (* a child of one of its combinators *)
          destruct p as [|n i]; [discriminate|].
          destruct (WO2 n i _ _ _ _ _ EM Jz EC) as [Q|(J' & NA & OT & SELF)]; [contradiction|]. split; auto.
          destruct (ran_child tr n i got F1) as (k0 & b0 & q0 & H & Li & G & NRi); [intros; apply A; exact EM|].
          pose proof (proj1 (HT n k0 b0 q0 H) EM) as ->.
          constructor; auto.
          * intros m k b j Q G' L R NB. apply NW' in Q.
            assert (m = n) by (eapply B; eauto). subst m.
            destruct (Nat.eq_dec j i) as [->|D']; [exfalso; apply NB, BG; auto|].
            apply (OT j D'). apply (C n k b j); auto. intro Q'. apply NB, BG. auto.
          * intros m k b j Q G' L R NB. apply NW' in Q.
            assert (m = n) by (eapply B; eauto). subst m.
            destruct (Nat.eq_dec j i) as [->|D'].
            -- assert (NXP : nx' = NPend).
               { destruct nx' as [|v| |kk bb nn]; auto; [|contradiction|destruct (NA kk bb nn eq_refl)]. cbn in N. destruct (NRp R v N). }
               destruct SELF as (R1 & R2); auto.
               { destruct (begun_dec V (Kid n i) tr) as [Q'|Q']; [right; apply (D n k b i); auto|left; apply (C n k b i); auto]. }
               split; auto. rewrite US. destruct R2 as [R2|R2]; auto. right. left. left. eapply WK; eauto.
            -- assert (NB' : begun (Kid n j) tr) by (apply BG in NB as [NB|NB]; [congruence|exact NB]).
               destruct (D n k b j) as (R1 & R2); auto. split; [apply OT; auto|]. rewrite US.
               destruct (place_eqb_spec (Kid n i) (Kid n j)) as [Q'|_]; [congruence|].
               destruct R2 as [R2|[R2|[]]]; auto. left. apply (OT j D'). exact R2.
        + (* other code *)
          destruct (WO3 t0 (fst z) p got x' lg nx') as [Q|(J' & KP)]; auto; [right; split; auto; intros n i ->; exact EM|contradiction|]. split; auto.
          assert (SEEN : forall n k b i, In (ENew n k b p0) tr -> ~ gone n tr -> i < k -> begun (Kid n i) tr).
          { intros n k b i Q G L. destruct (begun_dec V (Kid n i) tr) as [Q'|Q']; auto. exfalso.
            assert (M : mine n = true) by (apply (HT n k b p0 Q); reflexivity).
            destruct F1 as (_ & _ & FP & _). apply always_head in FP. cbn in FP. specialize (FP n). 
            destruct (below_leaf tr n p) as (j & ->); [intros; apply A; exact M|apply FP; exists k, b, p0, i; auto|]. congruence. }
          constructor; auto.
          * apply LEAF. intros n j -> M. congruence.
          * intros m k b j Q G' L R NB. apply NW' in Q. exfalso. apply NB, BG. right. eapply SEEN; eauto.
          * intros m k b j Q G' L R NB. apply NW' in Q.
            destruct (D m k b j) as (R1 & R2); auto; [eapply SEEN; eauto|]. destruct (KP j (Kid m j) R1) as (R1' & KO). split; auto.
            rewrite US. assert (DD : p <> Kid m j).
            { intros ->. assert (M : mine m = true) by (apply (HT m k b p0 Q); reflexivity). congruence. }
            destruct (place_eqb_spec p (Kid m j)) as [Q'|_]; [contradiction|].
            destruct R2 as [R2|[R2|[]]]; auto. destruct (KO R2) as [R3|R3]; auto. right. left. left. eapply WK; eauto. }
    destruct RES as (J' & RI'). apply IH; auto.
  - cbn [rev] in FA, H0 |- *. rewrite <- app_assoc in FA, H0 |- *. cbn [app] in FA, H0 |- *. apply IH; auto. apply RI_other; auto.
Qed.

(** code outside the view and its combinators, between polls of the view's application *)
Notation keeps x l x' := (forall i q, reg i q x -> reg i q x' /\ (ok i x -> ok i x' \/ In (wk q) l)).
Lemma RI_keeps tr x lx x' l lx' : (forall m, ~ beginning m tr) -> keeps x l x' -> (forall q, In (wk q) lx -> In (wk q) lx') -> (forall q, In (wk q) l -> In (wk q) lx') ->
  RI tr x lx -> RI tr x' lx'.
Proof.
  intros NB K I1 I2 [A B C D]. constructor; auto.
  - intros n k b i H G L R N. destruct (NB n). exists k, b, p0, i. auto.
  - intros n k b i H G L R N. destruct (D n k b i) as (R1 & R2); auto. destruct (K i (Kid n i) R1) as (R1' & KO). split; auto.
    destruct R2 as [R2|[R2|R2]]; auto. destruct (KO R2); auto.
Qed.
(** a poll of another application *)
Lemma plays_foreign u tr z evs z' tr0 : u <> t0 -> plays (bcode u) tr z evs z' -> (forall m, ~ beginning m tr0) -> J (fst z) -> RI tr0 (fst z) (snd z) ->
  J (fst z') /\ RI tr0 (fst z') (snd z').
Proof.
  destruct WO as (_ & _ & WO3 & _).
  intros D P NB. induction P as [tr z|tr z p got z1 ws nx ks e l z2 E W N P IH|tr z e l z2 E P IH]; intros Jz I; auto.
  unfold block_code in E. destruct (code u (fst z) p got) as [[x' lg] nx'] eqn:EC. injection E as <- <- <-.
  destruct (WO3 u (fst z) p got x' lg nx') as [Q|(J' & F)]; auto; [subst; contradiction|].
  apply IH; auto. cbn [fst snd]. eapply RI_keeps; [exact NB|exact F| | |exact I].
  - intros q H. apply in_app_iff. auto.
  - intros q H. apply in_app_iff. right. apply filter_In. split; auto. cbn. apply negb_true_iff, Nat.eqb_neq. congruence.
Qed.
Definition JV (y : page) : Prop := HM (ttr (pg_t y t0)) -> J (pg_x y) /\ RI (ttr (pg_t y t0)) (pg_x y) [].
Lemma do_gacts_all a : forall y y' l, Good y -> do_gacts V X a y = (y', l) -> pg_x y' = pg_x y /\
  exists ks, ttr (pg_t y' t0) = wakes_of ks ++ ttr (pg_t y t0) /\ forall q, In (wk q) a -> made q (ttr (pg_t y t0)) -> In q ks.
Proof.
  intros y y' l G E. destruct (do_gacts_wakes V X ww debug code t0 Root WW CO a y y' l G E) as (A & ks & B & _). split; auto. exists ks. split; auto.
  intros q H M. destruct (do_gacts_wakes V X ww debug code t0 q WW CO a y y' l G E) as (_ & ks' & B' & C'). specialize (C' H M).
  assert (Q : wakes_of ks = wakes_of ks') by (apply (app_inv_tail (ttr (pg_t y t0))); congruence).
  apply (f_equal (@rev _)) in Q. rewrite !rev_involutive in Q. 
  assert (INJ : forall a b : list place, map (@Tree.EWake V) a = map (@Tree.EWake V) b -> a = b).
  { clear. induction a as [|x a IH]; intros [|y b]; try discriminate; auto. cbn. intros [= -> E]. f_equal. auto. }
  rewrite (INJ _ _ Q). exact C'.
Qed.
Lemma acts_JV y1 a y' l : Good y1 -> do_gacts V X a y1 = (y', l) -> (HM (ttr (pg_t y1 t0)) -> J (pg_x y1) /\ RI (ttr (pg_t y1 t0)) (pg_x y1) a) -> JV y'.
Proof.
  intros G E H M. destruct (do_gacts_all a y1 y' l G E) as (A & ks & B & C). rewrite A, B in *. apply HM_app in M. destruct (H M) as (J' & R). split; auto.
  eapply RI_wakes; eauto.
Qed.
Lemma good_facts y t : Good y -> facts (ttr (pg_t y t)) /\ forall m, ~ beginning m (ttr (pg_t y t)).
Proof.
  intro G. destruct (gd_prog _ _ _ _ _ _ G t) as (z0 & tevs & TR).
  destruct (run_first V Z ww debug (bcode t) z0 tevs _ TR) as [F N]. split; auto. split; [|split; [|split; auto]].
  - apply (Tree_proofs.run_ok V Z ww debug (bcode t) WW (bcode_ok V X code CO t) z0 tevs); auto.
  - apply (Tree_proofs.run_ok V Z ww debug (bcode t) WW (bcode_ok V X code CO t) z0 tevs); auto.
  - apply (run_lvl V Z ww debug (bcode t) z0 tevs _ TR).
Qed.
Lemma RI_more tr x l l' : (forall q, In (wk q) l -> In (wk q) l') -> RI tr x l -> RI tr x l'.
Proof.
  intros H [A B C D]. constructor; auto. intros n k b i H1 H2 H3 H4 H5. destruct (D n k b i) as (R1 & R2); auto. split; auto.
  destruct R2 as [R2|[R2|R2]]; auto.
Qed.
Definition Rv (y : page) (l : list (option tact)) (d : list nat) (y' : page) : Prop := JV y -> JV y'.
Lemma Rv_step t y y' l o : Good y -> step t y = (y', l, o) -> Rv y l [] y'.
Proof.
  intros G S JY. destruct (step_plays V X ww debug bound code WW CO t y y' l o G S) as [(-> & _)|(w' & evs & l2 & E & P & _ & G1 & D)]; [exact JY|].
  eapply acts_JV; [exact G1|exact D|]. cbn [Page.pg_x]. intro M. destruct (good_facts _ t0 G1) as [F1 N1].
  destruct (Nat.eq_dec t t0) as [->|NE].
  - assert (TW : pg_t (mkPg V X (pg_t (set_app V X t0 w' y)) (fst (w_x V Z w')) (pg_fault V X y)) t0 = w').
    { cbn. rewrite Nat.eqb_refl. reflexivity. }
    rewrite TW in *. rewrite E in M, F1. destruct (JY (HM_app _ _ M)) as (Jy & I).
    destruct (plays_own _ _ _ _ P F1 M Jy I) as (J' & R'). split; auto. rewrite E. eapply RI_more; [|exact R']. intros q [].
  - assert (TW : pg_t (mkPg V X (pg_t (set_app V X t w' y)) (fst (w_x V Z w')) (pg_fault V X y)) t0 = pg_t y t0).
    { cbn. destruct (Nat.eqb_spec t0 t); congruence. }
    rewrite TW in *. destruct (JY M) as (Jy & I).
    destruct (plays_foreign t _ _ _ _ (ttr (pg_t y t0)) NE P N1 Jy I) as (J' & R'). split; auto.
Qed.
Lemma Rv_acts y x a y' l : Good y -> do_gacts V X a (mkPg V X (pg_t y) x (pg_fault V X y)) = (y', l) ->
  (J (pg_x y) -> J x /\ keeps (pg_x y) a x) -> JV y -> JV y'.
Proof.
  intros G D J' JY. eapply acts_JV; [apply (good_set V X ww debug code y x G)|exact D|]. cbn [Page.pg_x Page.pg_t]. intro M.
  destruct (JY M) as (Jy & I). destruct (J' Jy) as (Jx & K). split; auto. eapply RI_keeps; [apply (good_facts y t0 G)|exact K| | |exact I]; auto. intros q [].
Qed.
Lemma Rv_fin t y y' l : Good y -> fin t y = (y', l) -> Rv y l [t] y'.
Proof.
  intros G S JY. unfold page_fin in S. destruct (on_drop t (pg_x y)) as [x a] eqn:E. destruct WO as (_ & _ & _ & WO4 & _).
  eapply Rv_acts; eauto.
Qed.
Lemma Rv_do a y y' l : Good y -> do_gact V X a y = (y', l) -> Rv y l [] y'.
Proof.
  intros G E JY. assert (D : do_gacts V X [a] (mkPg V X (pg_t y) (pg_x y) (pg_fault V X y)) = (y', l ++ [])).
  { cbn [do_gacts]. replace (mkPg V X (pg_t y) (pg_x y) (pg_fault V X y)) with y by (destruct y; reflexivity). rewrite E. reflexivity. }
  eapply Rv_acts; eauto.
Qed.
Lemma Rv_code f : In (PCode f) evs0 -> Rx_code V X ww debug code Rv f.
Proof.
  intros H y x a y' l G E D JY. destruct WO as (_ & _ & _ & _ & WO5). eapply Rv_acts; eauto.
Qed.
Lemma watch_inv x s : J x -> prun V X ww debug bound code on_drop x evs0 = Live s \/ prun V X ww debug bound code on_drop x evs0 = Crashed s ->
  JV (q_x _ (xs _ s)).
Proof.
  intros J0 R. destruct (prun_qr V X ww debug bound code on_drop WW CO Rv) with (x := x) (evs := evs0) (s := s) as (l & H); auto.
  - intros y JY. exact JY.
  - intros y l d y' l' d' y'' A B JY. auto.
  - intros; eapply Rv_step; eauto.
  - intros; eapply Rv_fin; eauto.
  - intros; eapply Rv_do; eauto.
  - apply Rv_code.
  - apply H. intros _. split; auto. cbn. constructor; cbn; try contradiction; auto.
Qed.
(** nothing is owed: everything awaited is up to date *)
Lemma watch_ok x s : J x -> prun V X ww debug bound code on_drop x evs0 = Live s ->
  (forall t, owed t (q_tr _ (xs _ s)) = false) ->
  let tr := ttr (pg_t (q_x _ (xs _ s)) t0) in
  HM tr -> alive t0 (q_tr _ (xs _ s)) = true -> Spec_tree.live tr p0 ->
  forall n k b i, In (ENew n k b p0) tr -> ~ gone n tr -> i < k -> ~ returned (Kid n i) tr -> ok i (pg_x (q_x _ (xs _ s))).
Proof.
  intros J0 R NO tr M A L n k b i H G Li NR. destruct (watch_inv x s J0 (or_introl R) M) as (_ & [LF _ _ D]).
  destruct (prun_pi V X ww debug bound code on_drop WW CO x evs0 s R) as (_ & P).
  pose proof (Page_proofs.pi_good _ _ _ _ _ _ P) as GD. destruct (good_facts _ t0 GD) as [(_ & RO & _) NB].
  set (y := q_x _ (xs _ s)) in *. fold tr in LF, D, RO, NB. destruct (gd_prog _ _ _ _ _ _ GD t0) as (z0 & tevs & TR).
  pose proof (Goes_proofs.run_goes V Z ww debug (bcode t0) z0 tevs _ TR) as GO. fold tr in GO.
  assert (BG : begun (Kid n i) tr).
  { destruct (begun_dec V (Kid n i) tr) as [Q|Q]; auto. destruct (NB n). exists k, b, p0, i. auto. }
  destruct (D n k b i H G Li NR BG) as (_ & [Q|[Q|[]]]); auto. exfalso.
  assert (MN : mine n = true) by (apply (M n k b p0 H); reflexivity).
  assert (LV : Spec_tree.live tr (Kid n i)) by (eapply live_kid; eauto).
  assert (AL : at_leaf (Kid n i) tr = true).
  { clear - BG NR LF MN. assert (N : forall m k b, ~ In (ENew m k b (Kid n i)) tr) by (intros; apply LF; exact MN). clear LF.
    induction tr as [|e tr IH]; [destruct BG as (g & [])|].
    assert (K : begun (Kid n i) tr -> at_leaf (Kid n i) tr = true).
    { intro B. apply IH; auto; [intros (v & Q); apply NR; exists v; right; exact Q|intros m k b Q; apply (N m k b); right; exact Q]. }
    destruct BG as (g & [->|B]); [cbn [at_leaf]; rewrite place_eqb_refl; reflexivity|]. specialize (K (ex_intro _ g B)).
    destruct e as [q|q|q v|q|m k b q|m v|q g']; cbn [at_leaf]; auto.
    - destruct (place_eqb_spec q (Kid n i)) as [->|]; auto. destruct NR. exists v. left. reflexivity.
    - destruct (place_eqb_spec q (Kid n i)) as [->|]; auto. destruct (N m k b). left. reflexivity.
    - destruct (place_eqb_spec q (Kid n i)); auto. }
  apply (unseen_woken V (Kid n i) _ GO RO AL) in Q.
  pose proof (woken_owed V X ww debug bound code on_drop WW CO x evs0 s t0 (Kid n i) R A LV Q) as O. rewrite NO in O. discriminate.
Qed.
End Watch.
