From Coq Require Import List Arith NArith Bool Permutation Sorting.Sorted Lia.
From Verif Require Import Util Position Dom Context Spec_path Spec_render Render_history
  Dom_proofs Context_proofs Render_history_proofs Spec_list DynList Spec_dynlist DynList_proofs
  DynList_run_proofs Calls.
Import ListNotations.

Lemma adjacentb_iff a b ks : adjacentb a b ks = true <-> adjacent a b ks.
Proof.
  induction ks as [|x t IH]; simpl.
  - split; [discriminate|]. intros (l1 & l2 & E). destruct l1; discriminate.
  - destruct t as [|y u].
    + split; [discriminate|]. intros (l1 & l2 & E). destruct l1 as [|? [|? ?]]; discriminate.
    + rewrite orb_true_iff, andb_true_iff, !Nat.eqb_eq, IH. split.
      * intros [[-> ->]|(l1 & l2 & E)]; [exists [], u; auto|]. exists (x :: l1), l2. rewrite E. auto.
      * intros (l1 & l2 & E). destruct l1 as [|z l1]; inversion E; subst; auto.
        right. exists l1, l2. auto.
Qed.

Lemma ref_known_iff b ks : ref_known b ks = true <-> (forall b', b = Some b' -> In b' ks).
Proof.
  destruct b; simpl.
  - rewrite memb_iff. split; [intros H b' E; inversion E; subst; auto|auto].
  - split; auto. discriminate.
Qed.

Definition is_call (o : lop) : Prop :=
  match o with LInsert _ _ _ | LRemove _ | LMove _ _ | LSwap _ _ | LRetain _ => True | _ => False end.
Definition brought (o : lop) : list stored := match o with LInsert _ _ st => [st] | _ => [] end.

Lemma retain_loop_dead keep cont m : forall d d' m' dead,
  retain_loop d cont keep m = Some (d', m', dead) -> incl dead (map snd m).
Proof.
  induction m as [|[k st] t IH]; simpl; intros d d' m' dead H.
  - inversion H; subst. apply incl_refl.
  - destruct (keep k).
    + destruct (retain_loop d cont keep t) as [[[d1 m1] dd]|] eqn:E; simpl in H; inversion H; subst.
      apply IH in E. intros z Hz. simpl; auto.
    + destruct (remove_markers d cont st) as [d1|]; simpl in H; [|discriminate].
      destruct (retain_loop d1 cont keep t) as [[[d2 m1] dd]|] eqn:E; simpl in H; inversion H; subst.
      apply IH in E. intros z [->|Hz]; simpl; auto.
Qed.

Lemma hm_get_In k m st : hm_get k m = Some st -> In (k, st) m.
Proof.
  induction m as [|[k' v] t IH]; simpl; [discriminate|].
  destruct (Nat.eqb_spec k' k); intro E; [inversion E; subst; auto|auto].
Qed.

(** what a call leaves behind *)
Lemma call_frame w o w' b : is_call o -> lexec w o = Some (w', b) ->
  rgrp (lw_r w') = rgrp (lw_r w) /\
  incl (map snd (dl_items (lw_l w'))) (brought o ++ map snd (dl_items (lw_l w))) /\
  incl (dl_dead (lw_l w')) (dl_dead (lw_l w) ++ map snd (dl_items (lw_l w))).
Proof.
  intros C E. destruct o; simpl in C; try tauto; simpl in E.
  - destruct (dl_insert w k before fresh) as [[x w1]|] eqn:E1; simpl in E; inversion E; subst.
    destruct (insert_same_grp _ _ _ _ _ _ E1) as [G IC]. split; auto. split.
    + intros z Hz. apply in_map_iff in Hz as ((k' & st') & <- & Hin). simpl.
      apply IC in Hin as [[-> ->]|[_ Hin]]; auto. right. apply in_map_iff. eexists; split; [|exact Hin]; auto.
    + unfold dl_insert, obind in E1.
      repeat match type of E1 with
      | match ?e with _ => _ end = _ => destruct e eqn:?; try discriminate
      end; inversion E1; subst; simpl; intros z Hz; apply in_app_iff.
      * destruct Hz as [<-|Hz]; auto. right. apply in_map_iff. exists (k, s).
        split; auto. apply hm_get_In; auto.
      * auto.
  - destruct (dl_remove w k) as [[x w1]|] eqn:E1; simpl in E; inversion E; subst.
    destruct (remove_same_grp _ _ _ _ E1) as [G IC]. split; auto. split.
    + simpl. apply incl_map; auto.
    + unfold dl_remove, obind in E1.
      repeat match type of E1 with
      | match ?e with _ => _ end = _ => destruct e eqn:?; try discriminate
      end; inversion E1; subst; simpl; intros z Hz; apply in_app_iff; auto.
      destruct Hz as [<-|Hz]; auto. right. apply in_map_iff. exists (k, s).
      split; auto. apply hm_get_In; auto.
  - destruct (dl_move w k before) as [w1|] eqn:E1; simpl in E; inversion E; subst.
    destruct (move_same_grp _ _ _ _ E1) as [G IC]. split; auto. rewrite IC. split; [apply incl_refl|].
    unfold dl_move, obind in E1.
    repeat match type of E1 with
    | match ?e with _ => _ end = _ => destruct e eqn:?; try discriminate
    end; inversion E1; subst; simpl; intros z Hz; apply in_app_iff; auto.
  - destruct (dl_swap w a b0) as [w1|] eqn:E1; simpl in E; inversion E; subst.
    destruct (swap_same_grp _ _ _ _ E1) as [G IC]. split; auto. rewrite IC. split; [apply incl_refl|].
    unfold dl_swap, obind in E1.
    repeat match type of E1 with
    | match ?e with _ => _ end = _ => destruct e eqn:?; try discriminate
    end; inversion E1; subst; simpl; intros z Hz; apply in_app_iff; auto.
  - destruct (dl_retain w keep) as [w1|] eqn:E1; simpl in E; inversion E; subst.
    destruct (retain_same_grp _ _ _ E1) as [G IC]. split; auto. split; [apply incl_map; auto|].
    unfold dl_retain, obind in E1.
    destruct (retain_loop _ _ _ _) as [[[d1 m1] dd]|] eqn:E2; inversion E1; subst. simpl.
    apply retain_loop_dead in E2. intros z Hz. apply in_app_iff. apply in_app_iff in Hz as [Hz|Hz]; auto.
Qed.

(** detached nodes stay detached *)
Lemma call_detached w segs P Q w' segs' o n :
  LInv w segs P Q -> LInv w' segs' P Q -> stays w w' ->
  rgrp (lw_r w') = rgrp (lw_r w) ->
  (forall st, In st (brought o) -> rgrp (lw_r w) (st_g st) = []) ->
  incl (map snd (dl_items (lw_l w'))) (brought o ++ map snd (dl_items (lw_l w))) ->
  incl (dl_dead (lw_l w')) (dl_dead (lw_l w) ++ map snd (dl_items (lw_l w))) ->
  par (rdom (lw_r w)) n = None ->
  (forall st, In st (brought o) -> n <> st_s st /\ n <> st_e st) ->
  par (rdom (lw_r w')) n = None.
Proof.
  intros I I' ST G BG II ID PN NB.
  assert (W := v_wf _ _ _ _ _ _ _ _ (li_view _ _ _ _ I)).
  assert (W' := v_wf _ _ _ _ _ _ _ _ (li_view _ _ _ _ I')).
  assert (K := v_kids _ _ _ _ _ _ _ _ (li_view _ _ _ _ I)).
  assert (K' := v_kids _ _ _ _ _ _ _ _ (li_view _ _ _ _ I')).
  destruct (par (rdom (lw_r w')) n) as [p|] eqn:E; auto. exfalso.
  apply W' in E.
  assert (NOT : forall p, ~ In n (kids (rdom (lw_r w)) p)).
  { intros p0 Hp. apply W in Hp. congruence. }
  destruct (Nat.eq_dec p (cget (dl_cont (lw_l w)))) as [->|NP].
  2:{ rewrite (sy_kids _ _ ST) in E by auto. eapply NOT; eauto. }
  rewrite (sy_cont _ _ ST), (sy_start _ _ ST), (sy_end _ _ ST) in K'. rewrite K' in E.
  specialize (NOT (cget (dl_cont (lw_l w)))). rewrite K in NOT.
  rewrite !in_app_iff in *. simpl in E, NOT. rewrite !in_app_iff in *. simpl in E, NOT.
  assert (M : ~ In n (mid (rgrp (lw_r w)) segs)) by tauto.
  assert (In n (mid (rgrp (lw_r w')) segs')) as H by tauto. clear E NOT.
  apply in_flat_map in H as (x & Hx & Hn).
  assert (SI : forall st, In st (map snd (dl_items (lw_l w))) -> exists k, In (SItem k st) segs).
  { intros st H. apply in_map_iff in H as ((k & st') & <- & H). exists k. apply in_items.
    eapply Permutation_in; [apply (li_items _ _ _ _ I)|auto]. }
  assert (SD : forall st, In st (dl_dead (lw_l w)) -> In (SDead st) segs).
  { intros st H. apply in_dead. eapply Permutation_in; [apply (li_dead _ _ _ _ I)|auto]. }
  assert (CM : forall st, In st (dl_dead (lw_l w)) \/ In st (map snd (dl_items (lw_l w))) ->
     In n (content (rgrp (lw_r w)) st) -> False).
  { intros st H C. apply M. apply in_flat_map. destruct H as [H|H].
    - exists (SDead st). split; auto.
    - apply SI in H as [k H]. exists (SItem k st). split; auto. simpl. right. apply in_app_iff; auto. }
  rewrite G in Hn. destruct x as [k st|st]; simpl in Hn.
  - assert (X : In st (map snd (dl_items (lw_l w')))).
    { apply in_map_iff. exists (k, st). split; auto.
      eapply Permutation_in; [apply Permutation_sym, (li_items _ _ _ _ I')|]. apply in_items; auto. }
    apply II in X. apply in_app_iff in X as [X|X].
    + destruct (NB _ X). unfold content in Hn. rewrite (BG _ X) in Hn. simpl in Hn.
      intuition congruence.
    + destruct (SI _ X) as [k0 X0].
      rewrite in_app_iff in Hn. simpl in Hn. destruct Hn as [Hn|[Hn|[Hn|[]]]].
      * apply M. apply in_flat_map. exists (SItem k0 st). simpl; auto.
      * eapply CM; eauto.
      * apply M. apply in_flat_map. exists (SItem k0 st). simpl. split; auto. right.
        apply in_app_iff. simpl; auto.
  - assert (X : In st (dl_dead (lw_l w'))).
    { eapply Permutation_in; [apply Permutation_sym, (li_dead _ _ _ _ I')|]. apply in_dead; auto. }
    apply ID in X. apply in_app_iff in X. eapply CM; eauto.
Qed.

Lemma NoDup_flat_tail (st : stored) sts : NoDup (flat_map (fun st => [st_s st; st_e st]) (st :: sts)) ->
  st_s st <> st_e st /\ NoDup (flat_map (fun st => [st_s st; st_e st]) sts) /\
  (forall st', In st' sts -> st_s st' <> st_s st /\ st_s st' <> st_e st /\ st_e st' <> st_s st /\ st_e st' <> st_e st).
Proof.
  simpl. intro H. inversion H; subst. inversion H3; subst. simpl in H2. split; [intuition congruence|].
  split; auto. intros st' Hin.
  assert (A : forall n, n = st_s st' \/ n = st_e st' -> In n (flat_map (fun st => [st_s st; st_e st]) sts)).
  { intros n Hn. apply in_flat_map. exists st'. simpl. intuition. }
  assert (A1 := A _ (or_introl eq_refl)). assert (A2 := A _ (or_intror eq_refl)).
  repeat split; intro E; try rewrite E in A1; try rewrite E in A2; tauto.
Qed.

Lemma call_new w segs P Q w' segs' o b rest :
  LInv w segs P Q -> LInv w' segs' P Q -> stays w w' -> is_call o -> lexec w o = Some (w', b) ->
  new_nodes w (brought o ++ rest) -> new_nodes w' rest.
Proof.
  intros I I' ST C E (N1 & N2 & N3).
  destruct (call_frame _ _ _ _ C E) as (G & II & ID).
  assert (R : NoDup (flat_map (fun st => [st_s st; st_e st]) rest) /\ NoDup (map st_g rest) /\
    (forall st st', In st (brought o) -> In st' rest ->
       st_g st' <> st_g st /\
       st_s st' <> st_s st /\ st_s st' <> st_e st /\ st_e st' <> st_s st /\ st_e st' <> st_e st)).
  { destruct o; simpl in N1, N2 |- *; try (split; [auto|split; [auto|tauto]]).
    apply NoDup_flat_tail in N1 as (_ & N1 & N1'). inversion N2; subst. split; auto. split; auto.
    intros st st' [<-|[]] Hin. split; [|apply N1'; auto]. intro X. apply H1. rewrite <- X. apply in_map; auto. }
  destruct R as (R1 & R2 & R3). split; auto. split; auto.
  intros st Hin.
  assert (BG : forall s, In s (brought o) -> rgrp (lw_r w) (st_g s) = []).
  { intros s Hs. apply (N3 s). apply in_app_iff; auto. }
  destruct (N3 st) as (A1 & A2 & A3 & A4 & A5 & A6); [apply in_app_iff; auto|].
  split; [apply (call_detached w segs P Q w' segs' o); auto; intros s Hs; destruct (R3 _ _ Hs Hin); tauto|].
  split; [apply (call_detached w segs P Q w' segs' o); auto; intros s Hs; destruct (R3 _ _ Hs Hin); tauto|].
  rewrite (sy_dfrag _ _ ST), G. repeat (split; auto).
  intro X. apply in_app_iff in X as [X|X].
  - apply in_map_iff in X as (x & X1 & X2).
    assert (Y : In (snd x) (map snd (dl_items (lw_l w')))) by (apply in_map; auto).
    apply II in Y. apply in_app_iff in Y as [Y|Y].
    + destruct (R3 _ _ Y Hin). congruence.
    + apply A6. apply in_app_iff. left. apply in_map_iff in Y as (y & Y1 & Y2).
      apply in_map_iff. exists y. split; auto. congruence.
  - apply in_map_iff in X as (x & X1 & X2). apply ID in X2. apply in_app_iff in X2 as [Y|Y].
    + apply A6. apply in_app_iff. right. apply in_map_iff. eauto.
    + apply A6. apply in_app_iff. left. apply in_map_iff in Y as (y & Y1 & Y2).
      apply in_map_iff. exists y. split; auto. congruence.
Qed.

Lemma issued_cons c cs ops sts : issued (c :: cs) ops sts ->
  exists o ops' sts', ops = o :: ops' /\ sts = brought o ++ sts' /\ issued cs ops' sts' /\ is_call o /\
    issued [c] [o] (brought o).
Proof.
  intro H. inversion H; subst; do 3 eexists; (split; [reflexivity|]); simpl;
    (split; [reflexivity|]); (split; [eassumption|]); (split; [exact Logic.I|]); repeat constructor.
Qed.

(** a call with a meaning is legal and means the same *)
Lemma dstep_legal w segs P Q al c o ks' : LInv w segs P Q ->
  issued [c] [o] (brought o) -> new_nodes w (brought o) -> dstep (keys_of segs) c = Some ks' ->
  llegal w (keys_of segs) al o /\ astep (keys_of segs) o = ks'.
Proof.
  intros I H (N1 & N2 & N3) D. inversion H; subst; simpl in *.
  - destruct (ref_known b (keys_of segs)) eqn:R; simpl in D; [|discriminate].
    destruct (expected e (memb k (keys_of segs))); inversion D; subst.
    split; auto. split; [apply ref_known_iff; auto|].
    destruct (N3 st) as (A1 & A2 & A3 & A4 & A5 & A6); auto.
    apply (NoDup_flat_tail st []) in N1 as (NE & _). repeat (split; auto).
  - destruct (expected e (memb k (keys_of segs))); inversion D; subst. auto.
  - destruct (memb k (keys_of segs)) eqn:M; simpl in D; [|discriminate].
    destruct (ref_known b (keys_of segs)) eqn:R; simpl in D; [|discriminate].
    destruct b as [b|]; simpl in D.
    + destruct (Nat.eqb_spec b k); simpl in D; [discriminate|].
      assert (Some (if Nat.eqb b k then keys_of segs else l_before k b (l_remove k (keys_of segs))) = Some ks').
      { rewrite (proj2 (Nat.eqb_neq b k)); auto. }
      split.
      * split; [apply memb_iff; auto|]. intros b' E. inversion E; subst. split; auto. apply memb_iff; auto.
      * inversion H0; auto.
    + inversion D; subst. split; auto. split; [apply memb_iff; auto|discriminate].
  - destruct (memb a (keys_of segs)) eqn:M1; simpl in D; [|discriminate].
    destruct (memb b (keys_of segs)) eqn:M2; simpl in D; [|discriminate].
    destruct (adjacentb a b (keys_of segs)) eqn:A; simpl in D; inversion D; subst.
    split; auto. split; [apply memb_iff; auto|]. split; [apply memb_iff; auto|].
    intro X. apply adjacentb_iff in X. congruence.
  - inversion D; subst; auto.
Qed.

Lemma expected_ret c o ks ks' : issued [c] [o] (brought o) -> dstep ks c = Some ks' ->
  match c with
  | DInsert k _ e | DRemove k e => exists b, aret ks o = Some b /\ expected e b = true
  | _ => aret ks o = None
  end.
Proof.
  intros H D. inversion H; subst; simpl in *; auto.
  - exists (memb k ks). split; auto. destruct (ref_known b ks); simpl in D; [|discriminate].
    destruct (expected e (memb k ks)); [auto|discriminate].
  - exists (memb k ks). split; auto. destruct (expected e (memb k ks)); [auto|discriminate].
Qed.

Lemma calls_run cs : forall w segs P Q al ops sts ks',
  LInv w segs P Q -> alive_inv w al -> issued cs ops sts -> new_nodes w sts ->
  druns (keys_of segs) cs = Some ks' ->
  legal_lrun w (keys_of segs) al ops /\
  exists w' segs', lrun w ops = Some (w', arets (keys_of segs) ops) /\
    LInv w' segs' P Q /\ keys_of segs' = ks' /\
    alive_inv w' (contents_after (keys_of segs) al ops) /\ stays w w'.
Proof.
  induction cs as [|c cs IH]; intros w segs P Q al ops sts ks' I AI IS NN D; simpl in D.
  - inversion IS; subst. inversion D; subst. split; [exact Logic.I|]. exists w, segs. simpl.
    split; [auto|]. split; [auto|]. split; [auto|]. split; [auto|]. constructor; auto.
  - apply issued_cons in IS as (o & ops' & sts' & -> & -> & IS & C & I1).
    destruct (dstep (keys_of segs) c) as [ks1|] eqn:D1; [|discriminate].
    destruct NN as (N1 & N2 & N3).
    assert (NB : new_nodes w (brought o)).
    { rewrite flat_map_app in N1. rewrite map_app in N2.
      apply nodup_app_l in N1. apply nodup_app_l in N2.
      split; auto. split; auto. intros st Hs. apply N3. apply in_app_iff; auto. }
    destruct (dstep_legal _ _ _ _ al _ _ _ I I1 NB D1) as [L A].
    destruct (step_ok _ _ _ _ al _ I AI L) as (w1 & segs1 & P1 & Q1 & E & I1' & K1 & AI1 & S1 & S2 & X).
    assert (X' : P1 = P /\ Q1 = Q /\ stays w w1) by (destruct o; simpl in C; tauto). clear X.
    destruct X' as (-> & -> & ST).
    assert (NN1 : new_nodes w1 sts').
    { eapply (call_new w segs P Q w1 segs1 o); eauto. split; auto. }
    rewrite <- A, <- K1 in D.
    destruct (IH _ _ _ _ _ _ _ _ I1' AI1 IS NN1 D) as (LR & w2 & segs2 & E2 & I2 & K2 & AI2 & ST2).
    rewrite K1 in LR, E2, AI2.
    split.
    { split; auto. intros w' b E'. rewrite E in E'. inversion E'; subst. exact LR. }
    exists w2, segs2. cbn [lrun]. rewrite E, E2. split; [reflexivity|]. split; auto. split; auto. split; auto.
    destruct ST, ST2. constructor; try congruence.
    + intros q Hq. rewrite sy_kids0, sy_kids; auto. congruence.
    + intros g Hg. assert (GE : rgrp (lw_r w1) = rgrp (lw_r w)) by (eapply call_frame; eauto).
      destruct (in_dec Nat.eq_dec g (list_groups (lw_l w1))) as [Hi|Hi]; [|rewrite sy_grp0, sy_grp; auto].
      clear -E2 GE IS.
      assert (X : forall cs ops sts, issued cs ops sts -> forall w w' b, lrun w ops = Some (w', b) -> rgrp (lw_r w') = rgrp (lw_r w)).
      { induction cs0 as [|c0 cs0 IH0]; intros ops0 sts0 H0 w0 w0' b0 R0.
        - inversion H0; subst. simpl in R0. inversion R0; auto.
        - apply issued_cons in H0 as (o0 & ops1 & sts1 & -> & -> & H0 & C0 & _).
          simpl in R0. destruct (lexec w0 o0) as [[w1' b1]|] eqn:E0; [|discriminate].
          destruct (lrun w1' ops1) as [[w2' bs]|] eqn:E1; [|discriminate]. inversion R0; subst.
          destruct (call_frame _ _ _ _ C0 E0) as (G0 & _). rewrite <- G0. eapply IH0; eauto. }
      rewrite (X _ _ _ IS _ _ _ E2), GE. auto.
Qed.

(** legal histories compose *)
Lemma legal_lrun_app ops1 : forall w ks al ops2 w1 bs,
  lrun w ops1 = Some (w1, bs) -> legal_lrun w ks al ops1 ->
  legal_lrun w1 (fold_left astep ops1 ks) (contents_after ks al ops1) ops2 ->
  legal_lrun w ks al (ops1 ++ ops2).
Proof.
  induction ops1 as [|o t IH]; simpl; intros w ks al ops2 w1 bs R L1 L2.
  - inversion R; subst; auto.
  - destruct L1 as [L0 L1]. split; auto. intros w' b E. specialize (L1 _ _ E). rewrite E in R.
    destruct (lrun w' t) as [[w2 bs2]|] eqn:E2; [|discriminate]. inversion R; subst.
    eapply IH; eauto.
Qed.
Lemma lrun_app ops1 : forall w ops2 w1 bs w2 bs2,
  lrun w ops1 = Some (w1, bs) -> lrun w1 ops2 = Some (w2, bs2) -> lrun w (ops1 ++ ops2) = Some (w2, bs ++ bs2).
Proof.
  induction ops1 as [|o t IH]; simpl; intros w ops2 w1 bs w2 bs2 R1 R2.
  - inversion R1; subst; auto.
  - destruct (lexec w o) as [[w' b]|]; [|discriminate].
    destruct (lrun w' t) as [[w'' b'']|] eqn:E2; [|discriminate]. inversion R1; subst.
    rewrite (IH _ _ _ _ _ _ E2 R2). auto.
Qed.

(** an item that is neither replaced nor removed keeps its task and markers *)
Lemma retain_loop_keeps keep cont m : forall d d' m' dead k st,
  retain_loop d cont keep m = Some (d', m', dead) -> keep k = true -> In (k, st) m -> In (k, st) m'.
Proof.
  induction m as [|[k0 st0] t IH]; simpl; intros d d' m' dead k st H K I0; [tauto|].
  destruct (keep k0) eqn:K0.
  - destruct (retain_loop d cont keep t) as [[[d1 m1] dd]|] eqn:E; simpl in H; inversion H; subst.
    destruct I0 as [I0|I0]; [left; auto|right; eapply IH; eauto].
  - destruct (remove_markers d cont st0) as [d1|]; simpl in H; [|discriminate].
    destruct (retain_loop d1 cont keep t) as [[[d2 m1] dd]|] eqn:E; simpl in H; inversion H; subst.
    destruct I0 as [I0|I0]; [inversion I0; subst; congruence|eapply IH; eauto].
Qed.
Lemma hm_remove_keeps k k' st m : k' <> k -> In (k, st) m -> In (k, st) (hm_remove k' m).
Proof.
  intros N H. apply filter_In. split; auto. simpl. apply negb_true_iff, Nat.eqb_neq. auto.
Qed.
Lemma call_keeps w o w' b k st : is_call o -> lexec w o = Some (w', b) ->
  match o with LInsert k' _ _ => k' <> k | LRemove k' => k' <> k | LRetain f => f k = true | _ => True end ->
  In (k, st) (dl_items (lw_l w)) -> In (k, st) (dl_items (lw_l w')).
Proof.
  intros C E N H. destruct o; simpl in C; try tauto; simpl in E.
  - destruct (dl_insert w k0 before fresh) as [[x w1]|] eqn:E1; simpl in E; inversion E; subst.
    unfold dl_insert, obind in E1.
    repeat match type of E1 with
    | match ?e with _ => _ end = _ => destruct e eqn:?; try discriminate
    end; inversion E1; subst; simpl; right; apply hm_remove_keeps; auto.
  - destruct (dl_remove w k0) as [[x w1]|] eqn:E1; simpl in E; inversion E; subst.
    unfold dl_remove, obind in E1.
    repeat match type of E1 with
    | match ?e with _ => _ end = _ => destruct e eqn:?; try discriminate
    end; inversion E1; subst; simpl; auto; apply hm_remove_keeps; auto.
  - destruct (dl_move w k0 before) as [w1|] eqn:E1; simpl in E; inversion E; subst.
    destruct (move_same_grp _ _ _ _ E1) as [_ ->]. auto.
  - destruct (dl_swap w a b0) as [w1|] eqn:E1; simpl in E; inversion E; subst.
    destruct (swap_same_grp _ _ _ _ E1) as [_ ->]. auto.
  - destruct (dl_retain w keep) as [w1|] eqn:E1; simpl in E; inversion E; subst.
    unfold dl_retain, obind in E1.
    destruct (retain_loop _ _ _ _) as [[[d1 m1] dd]|] eqn:E2; inversion E1; subst. simpl.
    eapply retain_loop_keeps; eauto.
Qed.
