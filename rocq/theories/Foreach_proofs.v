(** Proofs for C11. *)
From Coq Require Import List Arith Bool Permutation Lia.
From Verif Require Import Util Arena Spec_arena Arena_proofs Cell Spec_cell Cell_proofs.
Import ListNotations.

Section Proofs.
Variable T : Type.
Variable ww : waker -> waker -> bool.
Hypothesis WW : will_wake_ok ww.
Variable fuel : nat.
Hypothesis FU : 1 <= fuel.

Definition fe_ok (x : T) (tr : list (cev T)) (ftr : list (fev T)) (j : nat) (f : fe T) : Prop :=
  match fe_stream _ f with
  | None => fe_calls _ f = [] /\ ~ fpolled T j ftr /\ flast_waker T j ftr = None
  | Some id => live T id tr /\ since_poll T id tr <> None /\ fpolled T j ftr /\
      (exists v t, fe_calls _ f = v :: t /\
         (guarded T tr = true \/ changed_since_poll T id tr \/ v = value_after T x tr)) /\
      (fchanged T j ftr <-> changed_since_poll T id tr) /\
      last_waker T id tr = flast_waker T j ftr
  end.

Record FInv (x : T) (ftr : list (fev T)) (w : fworld T) : Prop := {
  fi_c : CInv T x (fw_tr _ w) (fw_w _ w);
  fi_value : value_after T x (fw_tr _ w) = fvalue T x ftr;
  fi_nodup : NoDup (map fst (fw_fes _ w));
  fi_small : forall j, fw_next _ w <= j -> ~ In j (map fst (fw_fes _ w)) /\ ~ fpolled T j ftr /\ flast_waker T j ftr = None;
  fi_fes : forall j f, In (j, f) (fw_fes _ w) -> fe_ok x (fw_tr _ w) ftr j f;
  fi_own : forall j f j' f' id, In (j, f) (fw_fes _ w) -> In (j', f') (fw_fes _ w) ->
     fe_stream _ f = Some id -> fe_stream _ f' = Some id -> j = j'
}.

Lemma f_get_in (l : list (nat * fe T)) j f : f_get T j l = Some f -> In (j, f) l.
Proof.
  induction l as [|[i t] l IH]; simpl; [discriminate|]. destruct (Nat.eqb_spec i j); intro E; auto.
  inversion E; subst. auto.
Qed.
Lemma f_get_some (l : list (nat * fe T)) j : In j (map fst l) -> exists f, f_get T j l = Some f.
Proof.
  induction l as [|[i t] l IH]; simpl; [tauto|]. destruct (Nat.eqb_spec i j); eauto. intros [E|E]; auto. congruence.
Qed.
Lemma f_put_in j f (l : list (nat * fe T)) i t : In (i, t) (f_put T j f l) -> (i = j /\ t = f) \/ (i <> j /\ In (i, t) l).
Proof.
  unfold f_put. intro I. apply in_map_iff in I. destruct I as ([i' t'] & E & I). simpl in E.
  destruct (Nat.eqb_spec i' j); inversion E; subst; auto.
Qed.
Lemma f_put_fst j f (l : list (nat * fe T)) : map fst (f_put T j f l) = map fst l.
Proof. unfold f_put. rewrite map_map. apply map_ext. intros [i t]. simpl. destruct (Nat.eqb_spec i j); auto. Qed.
Lemma f_del_in j (l : list (nat * fe T)) i t : In (i, t) (f_del T j l) -> i <> j /\ In (i, t) l.
Proof. unfold f_del. rewrite filter_In. simpl. rewrite negb_true_iff, Nat.eqb_neq. tauto. Qed.

(** what other events on the cell do to a stream's status *)
Lemma keep_live id e tr : e <> CDrop _ id -> live T id tr -> live T id (e :: tr).
Proof.
  intros N [A B]. split.
  - destruct e; simpl; lia.
  - destruct e; simpl; auto. rewrite B, orb_false_r. apply Nat.eqb_neq. congruence.
Qed.
Lemma keep_since id e tr : (forall w, e <> CPoll _ id w) -> since_poll T id tr <> None -> since_poll T id (e :: tr) <> None.
Proof. intros N H. rewrite (proj1 (since_other T id tr e N)). destruct (since_poll T id tr); simpl; congruence. Qed.

(** cell events that leave stream [id] and the futures alone *)
Lemma fe_ok_other x tr ftr fev0 j f e :
  (forall id, fe_stream _ f = Some id -> e <> CDrop _ id /\ (forall w, e <> CPoll _ id w)) ->
  allowed T e tr -> e <> CEnd _ ->
  (fpolled T j (fev0 :: ftr) <-> fpolled T j ftr) -> (fchanged T j (fev0 :: ftr) <-> fchanged T j ftr) ->
  flast_waker T j (fev0 :: ftr) = flast_waker T j ftr ->
  fe_ok x tr ftr j f -> fe_ok x (e :: tr) (fev0 :: ftr) j f.
Proof.
  intros N AL NE P C L H. unfold fe_ok in *. destruct (fe_stream T f) as [id|].
  - destruct (N id eq_refl) as [N1 N2]. destruct H as (A & B & D & (v & t & E1 & E2) & F & G).
    split; [apply keep_live; auto|]. split; [apply keep_since; auto|]. split; [apply P; auto|]. split; [|split].
    + exists v, t. split; auto. rewrite changed_other by auto.
      destruct e; simpl; simpl in AL; auto; try congruence; tauto.
    + rewrite C, F. symmetry. apply changed_other; auto.
    + rewrite L, <- G. apply since_other; auto.
  - rewrite P, L. auto.
Qed.

Lemma fe_ok_end x tr ftr j f : fe_ok x tr ftr j f -> fe_ok x (CEnd _ :: tr) (FCell _ (CEnd _) :: ftr) j f.
Proof.
  intro H. unfold fe_ok in *. destruct (fe_stream T f) as [id|].
  - destruct H as (A & B & D & (v & t & E1 & E2) & F & G).
    split; [apply keep_live; auto; discriminate|]. split; [apply keep_since; auto; discriminate|].
    split; [exact D|]. split; [|split].
    + exists v, t. split; auto. right. left. apply changed_end. auto.
    + simpl. rewrite changed_end. tauto.
    + simpl. auto.
  - simpl. auto.
Qed.

(** several cell events in a row by a future *)
Lemma fe_ok_more x tr ftr j f e :
  (forall id, fe_stream _ f = Some id -> e <> CDrop _ id /\ (forall w, e <> CPoll _ id w)) ->
  allowed T e tr -> e <> CEnd _ -> fe_ok x tr ftr j f -> fe_ok x (e :: tr) ftr j f.
Proof.
  intros N AL NE H. unfold fe_ok in *. destruct (fe_stream T f) as [id|]; auto.
  destruct (N id eq_refl) as [N1 N2]. destruct H as (A & B & D & (v & t & E1 & E2) & F & G).
  split; [apply keep_live; auto|]. split; [apply keep_since; auto|]. split; [auto|]. split; [|split].
  + exists v, t. split; auto. rewrite changed_other by auto.
    destruct e; simpl; simpl in AL; auto; try congruence; tauto.
  + rewrite F. symmetry. apply changed_other; auto.
  + rewrite <- G. apply since_other; auto.
Qed.
Lemma fe_ok_fev x tr ftr j f fv :
  (fpolled T j (fv :: ftr) <-> fpolled T j ftr) -> (fchanged T j (fv :: ftr) <-> fchanged T j ftr) ->
  flast_waker T j (fv :: ftr) = flast_waker T j ftr ->
  fe_ok x tr ftr j f -> fe_ok x tr (fv :: ftr) j f.
Proof.
  intros P C L H. unfold fe_ok in *. destruct (fe_stream T f); [rewrite P, C, L; auto|rewrite P, L; auto].
Qed.

(** the loop of for_each, entered with the borrow flag down *)
Lemma fe_loop_ok x tr w calls wk tr0 : CInv T x tr w -> guarded T tr = false ->
  exists w', fe_loop T ww fuel w calls wk tr0 =
      Some (w', mkFE _ (Some (created T tr)) (value_after T x tr :: calls), CPoll _ (created T tr) wk :: CNew _ :: tr0) /\
    CInv T x (CPoll _ (created T tr) wk :: CNew _ :: tr) w' /\ allowed T (CNew _) tr /\ allowed T (CPoll _ (created T tr) wk) (CNew _ :: tr) /\
    since_poll T (created T tr) (CNew _ :: tr) = None.
Proof.
  intros H G. destruct fuel as [|fu]; [lia|]. cbn [fe_loop]. unfold cell_read. rewrite (ci_guard _ _ _ _ H), G.
  rewrite (ci_next _ _ _ _ H), (ci_data _ _ _ _ H).
  destruct (cexec_ok T ww WW x tr w (CNew _) H G) as (w1 & o1 & E1 & H1 & O1). rewrite E1.
  destruct (ci_small _ _ _ _ H (created T tr) ltac:(lia)) as (S1 & S2 & S3).
  assert (A2 : allowed T (CPoll _ (created T tr) wk) (CNew _ :: tr)).
  { simpl. split; auto. split; simpl; auto. }
  destruct (cexec_ok T ww WW x _ w1 (CPoll _ (created T tr) wk) H1 A2) as (w2 & o2 & E2 & H2 & O2). rewrite E2.
  assert (NC : ~ changed_since_poll T (created T tr) (CNew _ :: tr)).
  { intros (l & A & _). simpl in A. rewrite S1 in A. discriminate. }
  assert (OE : o2 = OPending) by (destruct o2; tauto). subst o2.
  exists w2. split; auto. split; auto. split; auto. split; auto. simpl. rewrite S1. auto.
Qed.

Lemma changed_polled j ftr : fchanged T j ftr -> fpolled T j ftr.
Proof.
  induction ftr as [|e t IH]; simpl; [tauto|]. destruct e as [e| |i wk|i]; auto.
  - destruct e; auto.
  - intros [_ H]. auto.
Qed.

(** one poll of a for_each future *)
Lemma fe_poll_ok x ftr w j f wk : FInv x ftr w -> guarded T (fw_tr _ w) = false -> In (j, f) (fw_fes _ w) ->
  exists w' f' tr', fe_poll T ww fuel (fw_w _ w) f wk = Some (w', f', tr') /\
    CInv T x (tr' ++ fw_tr _ w) w' /\ value_after T x (tr' ++ fw_tr _ w) = value_after T x (fw_tr _ w) /\
    guarded T (tr' ++ fw_tr _ w) = false /\
    (forall i g, i <> j -> In (i, g) (fw_fes _ w) ->
       fe_ok x (tr' ++ fw_tr _ w) (FPoll _ j wk :: ftr) i g /\ (forall id, fe_stream _ f' = Some id -> fe_stream _ g <> Some id)) /\
    fe_ok x (tr' ++ fw_tr _ w) (FPoll _ j wk :: ftr) j f' /\
    (fe_calls _ f' = value_after T x (fw_tr _ w) :: fe_calls _ f /\ (~ fpolled T j ftr \/ fchanged T j ftr) \/
     fe_calls _ f' = fe_calls _ f /\ fpolled T j ftr /\ ~ fchanged T j ftr).
Proof.
  intros H G I. destruct H as [HC HV HN HS HF HO]. set (tr := fw_tr T w) in *.
  assert (FP : forall i, i <> j -> (fpolled T i (FPoll _ j wk :: ftr) <-> fpolled T i ftr) /\
     (fchanged T i (FPoll _ j wk :: ftr) <-> fchanged T i ftr) /\ flast_waker T i (FPoll _ j wk :: ftr) = flast_waker T i ftr).
  { intros i N. simpl. rewrite (proj2 (Nat.eqb_neq j i)) by auto. intuition congruence. }
  assert (LT : forall i g id, In (i, g) (fw_fes _ w) -> fe_stream _ g = Some id -> id < created T tr).
  { intros i g id IG E. specialize (HF i g IG). unfold fe_ok in HF. rewrite E in HF. apply HF. }
  assert (FJ := HF j f I). unfold fe_poll. unfold fe_ok in FJ. destruct (fe_stream T f) as [id|] eqn:ES.
  - (* suspended on stream id *)
    destruct FJ as (LV & SP & PO & (v & t & E1 & E2) & FC & LW).
    assert (A1 : allowed T (CPoll _ id wk) tr) by (split; auto).
    destruct (cexec_ok T ww WW x tr (fw_w _ w) (CPoll _ id wk) HC A1) as (w1 & o1 & X1 & H1 & O1). rewrite X1.
    assert (OTH : forall i g, i <> j -> In (i, g) (fw_fes _ w) -> fe_stream _ g <> Some id).
    { intros i g N IG E. apply N. eapply (HO i g j f id); eauto. }
    destruct o1; try tauto.
    + (* ready *)
      assert (A2 : allowed T (CDrop _ id) (CPoll _ id wk :: tr)).
      { split; [exact G|]. apply keep_live; [discriminate|exact LV]. }
      destruct (cexec_ok T ww WW x _ w1 (CDrop _ id) H1 A2) as (w2 & o2 & X2 & H2 & O2). rewrite X2.
      destruct (fe_loop_ok x _ w2 (fe_calls _ f) wk [CDrop _ id; CPoll _ id wk] H2) as (w3 & X3 & H3 & A3 & A4 & NS). { auto. }
      cbn [created] in X3, H3, A3, A4, NS. cbn [value_after] in X3.
      rewrite X3. eexists _, _, _. split; [reflexivity|]. cbn [app]. split; [exact H3|]. split; [reflexivity|]. split; [exact G|].
      split; [|split].
      * intros i g N IG. assert (NG := OTH i g N IG). split.
        -- assert (Z : forall id', fe_stream _ g = Some id' -> id' <> id /\ id' < created T tr).
           { intros id' E. split; [congruence|eapply LT; eauto]. }
           destruct (FP i N) as (P1 & P2 & P3).
           apply fe_ok_more; try discriminate; auto.
           { intros id' E. split; [discriminate|]. intros w0 Q. inversion Q; subst. destruct (Z _ E). lia. }
           apply fe_ok_more; try discriminate; auto.
           { intros id' E. split; discriminate. }
           apply fe_ok_more; try discriminate; auto.
           { intros id' E. split; [|discriminate]. intro Q. inversion Q; subst. destruct (Z _ E). lia. }
           apply fe_ok_more; try discriminate; auto.
           { intros id' E. split; [discriminate|]. intros w0 Q. inversion Q; subst. destruct (Z _ E). lia. }
           apply fe_ok_fev; auto.
        -- cbn [fe_stream]. intros id' Q Q2. inversion Q; subst. specialize (LT _ _ _ IG Q2). lia.
      * unfold fe_ok. cbn [fe_stream fe_calls]. split.
        { split; [simpl; lia|]. simpl. rewrite (proj2 (Nat.eqb_neq id (created T tr))) by (destruct LV; lia). simpl.
          apply (ci_small _ _ _ _ HC). lia. }
        split; [simpl; rewrite Nat.eqb_refl; discriminate|]. split; [simpl; auto|]. split.
        { eexists _, _. split; [reflexivity|]. right. right. reflexivity. }
        split; [|simpl; rewrite !Nat.eqb_refl; auto].
        simpl. split; [intros [Q _]; congruence|]. unfold changed_since_poll. simpl. rewrite Nat.eqb_refl.
        intros (l & Q & R). inversion Q; subst. destruct R.
      * left. cbn [fe_calls]. split; auto. right. apply FC. exact O1.
    + (* pending *)
      eexists _, _, _. split; [reflexivity|]. cbn [app]. split; [exact H1|]. split; [reflexivity|]. split; [exact G|].
      split; [|split].
      * intros i g N IG. assert (NG := OTH i g N IG). destruct (FP i N) as (P1 & P2 & P3). split.
        -- apply fe_ok_more; try discriminate; auto.
           { intros id' E. split; [discriminate|]. intros w0 Q. inversion Q; subst. congruence. }
           apply fe_ok_fev; auto.
        -- rewrite ES. intros id' Q. inversion Q; subst. auto.
      * unfold fe_ok. rewrite ES. split; [apply keep_live; auto; discriminate|].
        split; [simpl; rewrite Nat.eqb_refl; discriminate|]. split; [simpl; auto|]. split.
        { exists v, t. split; auto. right. right. cbn [value_after]. destruct E2 as [E2|[E2|E2]]; auto; [fold tr in G; congruence|tauto]. }
        split; [|simpl; rewrite !Nat.eqb_refl; auto].
        simpl. split; [intros [Q _]; congruence|]. unfold changed_since_poll. simpl. rewrite Nat.eqb_refl.
        intros (l & Q & R). inversion Q; subst. destruct R.
      * right. split; auto. split; auto. rewrite FC. exact O1.
  - (* first poll *)
    destruct FJ as (E1 & NP & LW).
    destruct (fe_loop_ok x tr (fw_w _ w) (fe_calls _ f) wk [] HC G) as (w3 & X3 & H3 & A3 & A4 & NS).
    rewrite X3. eexists _, _, _. split; [reflexivity|]. cbn [app]. split; [exact H3|]. split; [reflexivity|]. split; [exact G|].
    split; [|split].
    + intros i g N IG. destruct (FP i N) as (P1 & P2 & P3). split.
      * apply fe_ok_more; try discriminate; auto.
        { intros id' E. split; [discriminate|]. intros w0 Q. inversion Q; subst. specialize (LT _ _ _ IG E). lia. }
        apply fe_ok_more; try discriminate; auto.
        { intros id' E. split; discriminate. }
        apply fe_ok_fev; auto.
      * cbn [fe_stream]. intros id' Q Q2. inversion Q; subst. specialize (LT _ _ _ IG Q2). lia.
    + unfold fe_ok. cbn [fe_stream fe_calls]. split.
      { split; [simpl; lia|]. simpl. apply (ci_small _ _ _ _ HC). lia. }
      split; [simpl; rewrite Nat.eqb_refl; discriminate|]. split; [simpl; auto|]. split.
      { eexists _, _. split; [reflexivity|]. right. right. reflexivity. }
      split; [|simpl; rewrite !Nat.eqb_refl; auto].
      simpl. split; [intros [Q _]; congruence|]. unfold changed_since_poll. simpl. rewrite Nat.eqb_refl.
      intros (l & Q & R). inversion Q; subst. destruct R.
    + left. cbn [fe_calls]. auto.
Qed.

Lemma fexec_ok x ftr w e : FInv x ftr w -> fallowed T w e ->
  exists w' o, fexec T ww fuel w e = Some (w', o) /\ FInv x (e :: ftr) w' /\
    match e with
    | FPoll _ j wk => exists f f', In (j, f) (fw_fes _ w) /\ In (j, f') (fw_fes _ w') /\
        (fe_calls _ f' = fvalue T x ftr :: fe_calls _ f /\ (~ fpolled T j ftr \/ fchanged T j ftr) \/
         fe_calls _ f' = fe_calls _ f /\ fpolled T j ftr /\ ~ fchanged T j ftr)
    | FCell _ (CEnd _) => exists ws, o = OWoken ws /\
        Forall2 same_task ws (map (fun id => wk_of T id (fw_tr _ w)) (live_ids T (fw_tr _ w)))
    | _ => True
    end.
Proof.
  intros H AL. assert (H' := H). destruct H as [HC HV HN HS HF HO]. destruct e as [e| |j wk|j]; simpl in AL.
  - destruct AL as [AL OWN].
    destruct (cexec_ok T ww WW x _ _ e HC AL) as (w1 & o & X & H1 & O). simpl. rewrite X.
    eexists _, _. split; [reflexivity|]. split.
    + constructor; cbn [fw_w fw_fes fw_next fw_tr]; [exact H1| |exact HN| | |exact HO].
      * destruct e; simpl; auto.
      * intros j L. destruct (HS j L) as (A & B & C). destruct e; simpl; auto.
      * intros j f I. specialize (HF j f I). destruct e as [|y| | |id wk|id].
        -- apply fe_ok_other; auto; try discriminate; try tauto. intros; split; discriminate.
        -- apply fe_ok_other; auto; try discriminate; try tauto. intros; split; discriminate.
        -- apply fe_ok_end; auto.
        -- apply fe_ok_other; auto; try discriminate; try tauto. intros; split; discriminate.
        -- apply fe_ok_other; auto; try discriminate; try tauto.
           intros id' E; split; [discriminate|]. intros w0 Q. inversion Q; subst. eapply OWN; eauto.
        -- apply fe_ok_other; auto; try discriminate; try tauto.
           intros id' E; split; [|discriminate]. intros Q. inversion Q; subst. eapply OWN; eauto.
    + destruct e; auto. destruct o; try tauto. eauto.
  - simpl. eexists _, _. split; [reflexivity|]. split; [|auto]. destruct (HS (fw_next _ w) ltac:(lia)) as (N1 & N2 & N3).
    constructor; cbn [fw_w fw_fes fw_next fw_tr]; [exact HC|exact HV| | | |].
    + rewrite map_app. simpl. eapply Permutation_NoDup; [apply Permutation_cons_append|]. constructor; auto.
    + intros j L. destruct (HS j ltac:(lia)) as (A & B & C). split; auto. rewrite map_app, in_app_iff. simpl. intros [X|[X|[]]]; auto. lia.
    + intros j f I. apply in_app_iff in I. destruct I as [I|[I|[]]].
      * apply fe_ok_fev; auto; try tauto.
      * inversion I; subst. unfold fe_ok. simpl. auto.
    + intros j f j' f' id I I' E E'. apply in_app_iff in I. apply in_app_iff in I'.
      destruct I as [I|[I|[]]]; [|inversion I; subst; discriminate].
      destruct I' as [I'|[I'|[]]]; [|inversion I'; subst; discriminate]. eauto.
  - destruct AL as [G I]. destruct (f_get_some _ _ I) as (f & EG). assert (IF := f_get_in _ _ _ EG).
    destruct (fe_poll_ok x ftr w j f wk H' G IF) as (w1 & f' & tr' & X & H1 & V1 & G1 & OT & OJ & CA).
    simpl. rewrite EG, X. eexists _, _. split; [reflexivity|]. split.
    + constructor; cbn [fw_w fw_fes fw_next fw_tr]; [exact H1| | | | |].
      * rewrite V1. auto.
      * rewrite f_put_fst. auto.
      * intros i L. rewrite f_put_fst. destruct (HS i L) as (A & B & C). split; auto. simpl.
        assert (N : j <> i) by (intros ->; auto). rewrite (proj2 (Nat.eqb_neq j i)) by auto. split; auto. tauto.
      * intros i g IG. apply f_put_in in IG. destruct IG as [[-> ->]|[N IG]]; auto. apply OT; auto.
      * intros i g i' g' id IG IG' E E'. apply f_put_in in IG. apply f_put_in in IG'.
        destruct IG as [[-> ->]|[N IG]], IG' as [[-> ->]|[N' IG']]; auto.
        -- exfalso. eapply (proj2 (OT i' g' N' IG')); eauto.
        -- exfalso. eapply (proj2 (OT i g N IG)); eauto.
        -- eauto.
    + exists f, f'. split; auto. split.
      * cbn [fw_fes]. unfold f_put. apply in_map_iff. exists (j, f). simpl. rewrite Nat.eqb_refl. auto.
      * rewrite <- HV. exact CA.
  - destruct AL as [G I]. destruct (f_get_some _ _ I) as (f & EG). assert (IF := f_get_in _ _ _ EG).
    assert (FJ := HF j f IF).
    assert (X : exists w1 tr', fe_drop T ww (fw_w _ w) f = Some (w1, tr') /\ CInv T x (tr' ++ fw_tr _ w) w1 /\
      value_after T x (tr' ++ fw_tr _ w) = value_after T x (fw_tr _ w) /\
      forall i g, i <> j -> In (i, g) (fw_fes _ w) -> fe_ok x (tr' ++ fw_tr _ w) ftr i g).
    { unfold fe_drop. unfold fe_ok in FJ. destruct (fe_stream T f) as [id|] eqn:ES.
      - destruct FJ as (LV & _). assert (A1 : allowed T (CDrop _ id) (fw_tr _ w)) by (split; auto).
        destruct (cexec_ok T ww WW x _ _ (CDrop _ id) HC A1) as (w1 & o1 & X1 & H1 & O1). rewrite X1.
        eexists _, _. split; [reflexivity|]. cbn [app]. split; auto. split; auto. intros i g N IG.
        apply fe_ok_more; auto; try discriminate. intros id' E. split; [|discriminate]. intro Q. inversion Q; subst.
        apply N. eapply (HO i g j f); eauto.
      - eexists _, _. split; [reflexivity|]. simpl. auto. }
    destruct X as (w1 & tr' & X & H1 & V1 & OT). simpl. rewrite EG, X. eexists _, _. split; [reflexivity|]. split; [|auto].
    constructor; cbn [fw_w fw_fes fw_next fw_tr]; [exact H1| | | | |].
    + rewrite V1. auto.
    + unfold f_del. clear - HN. induction (fw_fes T w) as [|p l IH]; simpl; [constructor|]. simpl in HN. inversion HN; subst.
      destruct (fst p =? j); simpl; auto. constructor; auto. intro Y. apply H1. apply in_map_iff in Y. destruct Y as (q & A & B).
      apply filter_In in B. apply in_map_iff. exists q. tauto.
    + intros i L. destruct (HS i L) as (A & B & C). split; [|auto]. intro Y. apply A. apply in_map_iff in Y. destruct Y as ([i' g] & Q & R).
      apply f_del_in in R. apply in_map_iff. exists (i', g). tauto.
    + intros i g IG. apply f_del_in in IG. destruct IG as [N IG]. apply fe_ok_fev; auto; tauto.
    + intros i g i' g' id IG IG' E E'. apply f_del_in in IG. apply f_del_in in IG'.
      eapply (HO i g i' g'); eauto; tauto.
Qed.

Lemma fhist_inv x ftr w : fhist T ww fuel x ftr w -> FInv x ftr w.
Proof.
  induction 1 as [w0 E|ftr w e w' o H IH AL E].
  - destruct (ci_init T x) as (w1 & E1 & I1). rewrite E in E1. inversion E1; subst w1.
    constructor; simpl; auto; try tauto. constructor.
  - destruct (fexec_ok x ftr w e IH AL) as (w1 & o1 & E1 & I1 & _). rewrite E in E1. inversion E1; subst. auto.
Qed.
End Proofs.
