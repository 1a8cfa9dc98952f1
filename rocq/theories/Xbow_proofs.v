(** Proofs for C39-C41 and C43. *)
From Coq Require Import List Arith Bool NArith Lia Permutation.
From Verif Require Import Util Arena Spec_arena Arena_proofs Xbow Spec_xbow.
Import ListNotations.

(** * The store as a list of rows: key, entry, registrations *)
Definition row := (N * (entry * list (nat * waker)))%type.
Definition view (A : list row) : lists := map (fun x => (e_list (fst (snd x)), snd (snd x))) A.
Definition rmap (A : list row) : list (N * entry) := map (fun x => (fst x, fst (snd x))) A.
Definition keys (A : list row) : list N := map fst A.
Record SI (st : store) (A : list row) : Prop := {
  si_free : exists free, AInv (st_arena st) free (view A);
  si_map : st_map st = rmap A;
  si_keys : NoDup (keys A) }.
Definition full (A : list row) : Prop := forall x, In x A -> snd (snd x) <> [] /\ 1 <= e_ver (fst (snd x)).
Definition regs (A : list row) : list (N * nat * waker) :=
  concat (map (fun x => map (fun q => (fst x, fst q, snd q)) (snd (snd x))) A).
Definition ver (A : list row) (k : N) : nat := match lookup k (rmap A) with Some e => e_ver e | None => 0 end.

Lemma regs_app A B : regs (A ++ B) = regs A ++ regs B.
Proof. unfold regs. rewrite map_app, concat_app. reflexivity. Qed.
Lemma regs_cons x A : regs (x :: A) = map (fun q => (fst x, fst q, snd q)) (snd (snd x)) ++ regs A.
Proof. reflexivity. Qed.
Lemma regs_slots A : map (fun r => snd (fst r)) (regs A) = slots (view A).
Proof.
  unfold slots, view. induction A as [|x A IH]; [reflexivity|]. rewrite regs_cons, map_app, IH. cbn. f_equal. rewrite map_map. reflexivity.
Qed.
Lemma lookup_split k A e : lookup k (rmap A) = Some e -> exists A1 l A2, A = A1 ++ (k, (e, l)) :: A2 /\ ~ In k (keys A1).
Proof.
  induction A as [|(k', (e', l')) A IH]; cbn; [discriminate|]. destruct (N.eqb_spec k' k) as [->|N].
  - intros [= ->]. exists [], l', A. auto.
  - intro H. destruct (IH H) as (A1 & l & A2 & -> & NI). exists ((k', (e', l')) :: A1), l, A2. split; [reflexivity|]. cbn. tauto.
Qed.
Lemma lookup_none k A : lookup k (rmap A) = None <-> ~ In k (keys A).
Proof.
  induction A as [|(k', (e', l')) A IH]; cbn; [tauto|]. destruct (N.eqb_spec k' k) as [->|N].
  - split; [discriminate|]. tauto.
  - rewrite IH. tauto.
Qed.
Lemma lookup_app k A B : lookup k (rmap (A ++ B)) = match lookup k (rmap A) with Some e => Some e | None => lookup k (rmap B) end.
Proof. induction A as [|(k', (e', l')) A IH]; cbn; [reflexivity|]. destruct (N.eqb k' k); auto. Qed.
Lemma lookup_mid k e l A1 A2 : ~ In k (keys A1) -> lookup k (rmap (A1 ++ (k, (e, l)) :: A2)) = Some e.
Proof. intro N. rewrite lookup_app. apply lookup_none in N. rewrite N. cbn. rewrite N.eqb_refl. reflexivity. Qed.

Lemma view_app A B : view (A ++ B) = view A ++ view B.
Proof. apply map_app. Qed.
Lemma si_handles st A : SI st A -> NoDup (handles (view A)).
Proof. intros [(free & F) _ _]. pose proof (ai_nodup _ _ _ F) as ND. inversion ND; subst. eapply nd_app_r; eauto. Qed.
Lemma si_slots st A : SI st A -> NoDup (slots (view A)).
Proof.
  intro I. pose proof (si_handles _ _ I) as ND. revert ND. generalize (view A). intro S. induction S as [|p S IH]; [constructor|].
  rewrite handles_cons, slots_cons. intro ND. inversion ND; subst. apply nodup_app_intro.
  - eapply nodup_app_l; eauto.
  - apply IH. eapply nodup_app_r; eauto.
  - intros x X1 X2. eapply nodup_app_disj; [exact H2|exact X1|apply slots_handles, X2].
Qed.
Lemma si_nodup st A : SI st A -> NoDup (map fst (regs A)).
Proof. intro I. apply (NoDup_map_inv snd). rewrite map_map. rewrite regs_slots. apply (si_slots _ _ I). Qed.

Lemma new_SI : SI st_new [].
Proof. split; [exists [1]; apply ar_new_inv|reflexivity|constructor]. Qed.

(** * The operations *)
Lemma get_entry_ok st A k : SI st A -> exists st' e A', get_entry st k = Some (st', e) /\ SI st' A' /\
  lookup k (rmap A') = Some e /\ regs A' = regs A /\
  (In k (keys A) -> st' = st /\ A' = A) /\ (~ In k (keys A) -> exists h, A' = A ++ [(k, (mkE h 1, []))]).
Proof.
  intros [(free & F) M K]. unfold get_entry. rewrite M. destruct (lookup k (rmap A)) as [e|] eqn:E.
  - exists st, e, A. split; [reflexivity|]. split; [split; eauto|]. split; [exact E|]. split; [reflexivity|]. split; [auto|].
    intro N. apply lookup_none in N. congruence.
  - destruct (add_sublist_ok _ _ _ F) as (a' & h & free' & E1 & N1 & _ & F1). rewrite E1. apply lookup_none in E.
    exists (mkSt a' (rmap A ++ [(k, mkE h 1)])), (mkE h 1), (A ++ [(k, (mkE h 1, []))]). split; [reflexivity|].
    split.
    + split.
      * exists free'. cbn. rewrite view_app. exact F1.
      * cbn. unfold rmap. rewrite map_app. reflexivity.
      * unfold keys. rewrite map_app. cbn. apply nodup_app_intro; auto; [constructor; auto; constructor|].
        intros x X [<-|[]]. contradiction.
    + split; [apply lookup_mid, E|]. split; [rewrite regs_app; cbn; apply app_nil_r|]. split; [contradiction|eauto].
Qed.

Lemma add_slot_ok st A k : SI st A -> full A -> exists st' i A', add_slot st k = Some (st', i) /\ SI st' A' /\ full A' /\
  Permutation (regs A') ((k, i, dummy_waker) :: regs A) /\
  (forall k', In k' (keys A) -> ver A' k' = ver A k') /\ (forall k', In k' (keys A') <-> In k' (keys A) \/ k' = k).
Proof.
  intros I FU. destruct (get_entry_ok _ _ k I) as (st1 & e & A1 & E1 & I1 & L1 & R1 & OLD & NEW). unfold add_slot. rewrite E1.
  destruct (lookup_split _ _ _ L1) as (B1 & l & B2 & -> & NI).
  pose proof (si_handles _ _ I1) as ND. destruct I1 as [(free & F) M K].
  assert (LV : live_list (e_list e) (view (B1 ++ (k, (e, l)) :: B2))).
  { unfold live_list. rewrite view_app, map_app, in_app_iff. cbn. auto. }
  destruct (add_ok _ _ _ (e_list e) F LV) as (a' & i & free' & E2 & N2 & _ & F2). rewrite E2.
  exists (mkSt a' (st_map st1)), i, (B1 ++ (k, (e, l ++ [(i, dummy_waker)])) :: B2). split; [reflexivity|]. split; [|split; [|split; [|split]]].
  - split.
    + exists free'. cbn [st_arena]. rewrite view_app in F2, ND |- *. cbn [view map fst snd] in F2, ND |- *. rewrite lists_add_split in F2 by exact ND. exact F2.
    + cbn. rewrite M. unfold rmap. rewrite !map_app. reflexivity.
    + unfold keys in *. rewrite map_app in *. exact K.
  - intros x X. rewrite in_app_iff in X. cbn in X.
    assert (OK : forall y, In y (B1 ++ (k, (e, l)) :: B2) -> y = (k, (e, l)) \/ In y A).
    { intros y Y. destruct (in_dec N.eq_dec k (keys A)) as [Q|Q].
      - destruct (OLD Q) as (_ & <-). auto.
      - destruct (NEW Q) as (h & EQ). rewrite EQ in Y. apply in_app_iff in Y as [Y|[<-|[]]]; auto.
        left. assert (X1 : In (k, (mkE h 1, [])) (B1 ++ (k, (e, l)) :: B2)) by (rewrite EQ; apply in_app_iff; cbn; auto).
        apply in_app_iff in X1 as [X1|[X1|X1]]; auto.
        + exfalso. apply NI. apply in_map_iff. exists (k, (mkE h 1, [])). auto.
        + exfalso. unfold keys in K. rewrite map_app in K. cbn in K. apply nodup_app_r in K. inversion K; subst. apply H1. apply in_map_iff. exists (k, (mkE h 1, [])). auto. }
    assert (V : 1 <= e_ver e).
    { destruct (in_dec N.eq_dec k (keys A)) as [Q|Q].
      - destruct (OLD Q) as (_ & <-). apply (FU (k, (e, l))). apply in_app_iff. cbn. auto.
      - destruct (NEW Q) as (h & EQ). rewrite EQ in L1. rewrite lookup_mid in L1 by exact Q. injection L1 as <-. cbn. lia. }
    destruct X as [X|[<-|X]].
    + destruct (OK x) as [->|Y]; [apply in_app_iff; auto| |apply FU, Y]. exfalso. apply NI. apply in_map_iff. exists (k, (e, l)). auto.
    + cbn. split; [destruct l; discriminate|exact V].
    + destruct (OK x) as [->|Y]; [apply in_app_iff; cbn; auto| |apply FU, Y].
      exfalso. unfold keys in K. rewrite map_app in K. cbn in K. apply nodup_app_r in K. inversion K; subst. apply H1. apply in_map_iff. exists (k, (e, l)). auto.
  - rewrite <- R1, !regs_app, !regs_cons. cbn [fst snd]. rewrite map_app. cbn [map fst snd]. rewrite <- app_assoc. cbn [app].
    rewrite !app_assoc. symmetry. apply Permutation_middle.
  - intros k' Q. unfold ver. transitivity (match lookup k' (rmap (B1 ++ (k, (e, l)) :: B2)) with Some e0 => e_ver e0 | None => 0 end).
    + unfold rmap. rewrite !map_app. reflexivity.
    + destruct (in_dec N.eq_dec k (keys A)) as [Z|Z].
      * destruct (OLD Z) as (_ & ->). reflexivity.
      * destruct (NEW Z) as (h & ->). rewrite lookup_app. destruct (lookup k' (rmap A)) eqn:E; [reflexivity|]. apply lookup_none in E. contradiction.
  - intro k'. assert (EK : keys (B1 ++ (k, (e, l ++ [(i, dummy_waker)])) :: B2) = keys (B1 ++ (k, (e, l)) :: B2)) by (unfold keys; rewrite !map_app; reflexivity).
    rewrite EK. destruct (in_dec N.eq_dec k (keys A)) as [Z|Z].
    + destruct (OLD Z) as (_ & ->). split; [auto|]. intros [?| ->]; auto.
    + destruct (NEW Z) as (h & ->). unfold keys. rewrite map_app, in_app_iff. cbn. intuition.
Qed.

Lemma add_slots_ok ks : forall st A, SI st A -> full A -> exists st' l A', add_slots st ks = Some (st', l) /\ SI st' A' /\ full A' /\
  map fst l = ks /\ Permutation (regs A') (map (fun x => (x, dummy_waker)) l ++ regs A) /\
  (forall k', In k' (keys A) -> ver A' k' = ver A k' /\ In k' (keys A')).
Proof.
  induction ks as [|k ks IH]; intros st A I FU; cbn [add_slots].
  - exists st, [], A. auto 10.
  - destruct (add_slot_ok _ _ k I FU) as (st1 & i & A1 & E1 & I1 & FU1 & P1 & V1 & K1). rewrite E1.
    destruct (IH _ _ I1 FU1) as (st2 & l & A2 & E2 & I2 & FU2 & M2 & P2 & V2). rewrite E2.
    exists st2, ((k, i) :: l), A2. split; [reflexivity|]. split; [auto|]. split; [auto|]. split; [cbn; congruence|]. split.
    + cbn. rewrite P2, P1. apply Permutation_sym, Permutation_middle.
    + intros k' Q. assert (Q1 : In k' (keys A1)) by (apply K1; auto). destruct (V2 k' Q1) as (-> & ?). rewrite V1; auto.
Qed.

(** registration of a new waker at some slots *)
Definition re_reg (l : list (N * nat)) (w : waker) (r : N * nat * waker) : N * nat * waker :=
  if existsb (fun x => snd x =? snd (fst r)) l then (fst r, w) else r.
Lemma regs_set A1 k e l1 i w0 l2 A2 w : NoDup (map (fun r => snd (fst r)) (regs (A1 ++ (k, (e, l1 ++ (i, w0) :: l2)) :: A2))) ->
  regs (A1 ++ (k, (e, l1 ++ (i, w) :: l2)) :: A2) = map (re_reg [(k, i)] w) (regs (A1 ++ (k, (e, l1 ++ (i, w0) :: l2)) :: A2)).
Proof.
  intro ND. rewrite !regs_app, !regs_cons in *. cbn [fst snd] in *. rewrite !map_app in *. cbn [map fst snd] in *.
  set (L1 := regs A1) in *. set (L2 := map (fun q => (k, fst q, snd q)) l1) in *. set (L3 := map (fun q => (k, fst q, snd q)) l2) in *. set (L4 := regs A2) in *.
  assert (ID : forall L, ~ In i (map (fun r : N * nat * waker => snd (fst r)) L) -> map (re_reg [(k, i)] w) L = L).
  { intros L N. rewrite <- (map_id L) at 2. apply map_ext_in. intros r Hr. unfold re_reg. cbn. destruct (Nat.eqb_spec i (snd (fst r))); [|reflexivity].
    exfalso. apply N. apply in_map_iff. exists r. auto. }
  rewrite <- app_assoc in ND. cbn [app] in ND. rewrite app_assoc in ND. pose proof (NoDup_remove_2 _ _ _ ND) as NI.
  rewrite !in_app_iff in NI. rewrite (ID L1), (ID L2), (ID L3), (ID L4) by tauto.
  unfold re_reg. cbn. rewrite Nat.eqb_refl. cbn. reflexivity.
Qed.

Lemma regs_in k i w A : In (k, i, w) (regs A) <-> exists e l, In (k, (e, l)) A /\ In (i, w) l.
Proof.
  unfold regs. rewrite in_concat. split.
  - intros (L & HL & H). apply in_map_iff in HL as ((k', (e, l)) & <- & HA). apply in_map_iff in H as ((i', w') & E & Hl). cbn in *. injection E as -> -> ->. eauto.
  - intros (e & l & HA & Hl). eexists. split; [apply in_map_iff; exists (k, (e, l)); split; [reflexivity|exact HA]|]. apply in_map_iff. exists (i, w). auto.
Qed.
Lemma row_unique A k e l e' l' : NoDup (keys A) -> In (k, (e, l)) A -> In (k, (e', l')) A -> e = e' /\ l = l'.
Proof.
  induction A as [|x A IH]; intros ND H1 H2; [destruct H1|]. cbn in ND. inversion ND; subst.
  destruct H1 as [->|H1], H2 as [H2|H2]; auto.
  - injection H2 as -> ->. auto.
  - exfalso. apply H3. apply in_map_iff. exists (k, (e', l')). auto.
  - subst. exfalso. apply H3. apply in_map_iff. exists (k, (e, l)). auto.
Qed.

Section Ww.
Variable ww : waker -> waker -> bool.
Hypothesis WW : will_wake_ok ww.

Lemma poll_slots_ok w l : forall st A, SI st A -> full A -> incl l (map fst (regs A)) ->
  exists st' A', poll_slots ww st l w = Some (st', fold_right (fun k n => ver A k + n) 0 (map fst l)) /\ SI st' A' /\ full A' /\
  regs A' = map (re_reg l w) (regs A) /\ keys A' = keys A /\ (forall k, ver A' k = ver A k).
Proof.
  induction l as [|(k, i) l IH]; intros st A I FU IN; cbn [poll_slots].
  - exists st, A. split; [reflexivity|]. split; [auto|]. split; [auto|]. split; [|auto]. rewrite <- (map_id (regs A)) at 1. apply map_ext. intros. reflexivity.
  - assert (HI : In (k, i) (map fst (regs A))) by (apply IN; cbn; auto). apply in_map_iff in HI as (((k0, i0), w0) & E0 & HR). cbn in E0. injection E0 as -> ->.
    apply regs_in in HR as (e0 & l0 & HA & Hl).
    assert (HK : In k (keys A)) by (apply in_map_iff; exists (k, (e0, l0)); auto).
    destruct (get_entry_ok _ _ k I) as (st1 & e & A1 & E1 & I1 & L1 & R1 & OLD & _). rewrite E1. destruct (OLD HK) as (-> & ->). clear OLD I1 R1.
    destruct (lookup_split _ _ _ L1) as (B1 & l1 & B2 & EA & NI).
    assert (X : e0 = e /\ l0 = l1) by (apply (row_unique A k); [apply (si_keys _ _ I)|exact HA|rewrite EA; apply in_app_iff; cbn; auto]).
    destruct X as (-> & ->). apply in_split in Hl as (l2 & l3 & ->). subst A.
    pose proof (si_handles _ _ I) as ND. pose proof (si_slots _ _ I) as NDS. destruct I as [(free & F) M K].
    assert (LV : live_slot i (view (B1 ++ (k, (e, l2 ++ (i, w0) :: l3)) :: B2))).
    { unfold live_slot. rewrite <- regs_slots. apply in_map_iff. exists (k, i, w0). split; [reflexivity|]. apply regs_in. exists e, (l2 ++ (i, w0) :: l3).
      split; [apply in_app_iff; cbn; auto|apply in_app_iff; cbn; auto]. }
    destruct (update_ok ww _ _ _ i w WW F LV) as (a' & E2 & F2). rewrite E2.
    set (A' := B1 ++ (k, (e, l2 ++ (i, w) :: l3)) :: B2).
    assert (I2 : SI (mkSt a' (st_map st)) A').
    { split.
      - exists free. cbn [st_arena]. unfold A'. rewrite view_app in F2, ND |- *. cbn [view map fst snd] in F2, ND |- *. rewrite lists_set_split in F2 by exact ND. exact F2.
      - cbn. rewrite M. unfold A', rmap. rewrite !map_app. reflexivity.
      - unfold A', keys in *. rewrite map_app in *. exact K. }
    assert (RM : rmap A' = rmap (B1 ++ (k, (e, l2 ++ (i, w0) :: l3)) :: B2)) by (unfold A', rmap; rewrite !map_app; reflexivity).
    assert (VE : forall k', ver A' k' = ver (B1 ++ (k, (e, l2 ++ (i, w0) :: l3)) :: B2) k') by (intro; unfold ver; rewrite RM; reflexivity).
    assert (FU2 : full A').
    { intros x X. unfold A' in X. apply in_app_iff in X as [X|[<-|X]].
      - apply FU, in_app_iff. auto.
      - cbn. split; [destruct l2; discriminate|]. apply (FU (k, (e, l2 ++ (i, w0) :: l3))), in_app_iff. cbn. auto.
      - apply FU, in_app_iff. cbn. auto. }
    assert (RG : regs A' = map (re_reg [(k, i)] w) (regs (B1 ++ (k, (e, l2 ++ (i, w0) :: l3)) :: B2))).
    { apply regs_set. rewrite regs_slots. exact NDS. }
    assert (RF : forall L, map fst (map (re_reg [(k, i)] w) L) = map fst L).
    { intro L. rewrite map_map. apply map_ext. intro r. unfold re_reg. destruct (existsb _ _); reflexivity. }
    assert (IN2 : incl l (map fst (regs A'))). { rewrite RG, RF. intros x X. apply IN. cbn. auto. }
    destruct (IH _ _ I2 FU2 IN2) as (st3 & A3 & E3 & I3 & FU3 & R3 & K3 & V3). rewrite E3.
    exists st3, A3. split.
    + cbn [map fst fold_right]. do 2 f_equal. unfold ver at 2. rewrite L1.
      f_equal. clear -VE. induction (map fst l) as [|x L IHL]; [reflexivity|]. cbn. rewrite VE, IHL. reflexivity.
    + split; [auto|]. split; [auto|]. split; [|split].
      * rewrite R3, RG, map_map. apply map_ext. intro r. unfold re_reg. cbn. destruct (Nat.eqb_spec i (snd (fst r))); cbn; [|reflexivity].
        destruct (existsb (fun x => snd x =? snd (fst r)) l); reflexivity.
      * rewrite K3. unfold A', keys. rewrite !map_app. reflexivity.
      * intro k'. rewrite V3. apply VE.
Qed.
End Ww.

Lemma perm_mid {X} (x : X) a b c d : Permutation (x :: a ++ (b ++ c) ++ d) (a ++ (b ++ x :: c) ++ d).
Proof. rewrite <- !app_assoc. cbn [app]. rewrite 2!(app_assoc a). apply Permutation_middle. Qed.
Lemma ver_skip A1 x A2 k : fst x <> k -> ver (A1 ++ x :: A2) k = ver (A1 ++ A2) k.
Proof.
  intro N. unfold ver. rewrite !lookup_app. destruct (lookup k (rmap A1)); [reflexivity|]. destruct x as (k', (e', l')). cbn in *.
  destruct (N.eqb_spec k' k); [contradiction|reflexivity].
Qed.

Lemma remove_slot_ok st A k i rest : SI st A -> full A -> Permutation (map fst (regs A)) ((k, i) :: rest) ->
  exists st' A', remove_slot st (k, i) = Some st' /\ SI st' A' /\ full A' /\ Permutation (map fst (regs A')) rest /\
  incl (regs A') (regs A) /\
  (forall k', In k' (keys A') <-> In k' (keys A) /\ (k' <> k \/ In k (map fst rest))) /\ (forall k', In k' (keys A') -> ver A' k' = ver A k').
Proof.
  intros I FU P. assert (HI : In (k, i) (map fst (regs A))) by (rewrite P; cbn; auto).
  apply in_map_iff in HI as (((k0, i0), w0) & E0 & HR). cbn in E0. injection E0 as -> ->.
  apply regs_in in HR as (e0 & l0 & HA & Hl).
  assert (HK : In k (keys A)) by (apply in_map_iff; exists (k, (e0, l0)); auto).
  unfold remove_slot. cbn [fst snd]. rewrite (si_map _ _ I). destruct (lookup k (rmap A)) as [e|] eqn:L1; [|apply lookup_none in L1; contradiction].
  destruct (lookup_split _ _ _ L1) as (B1 & l1 & B2 & EA & NI).
  assert (X : e0 = e /\ l0 = l1) by (apply (row_unique A k); [apply (si_keys _ _ I)|exact HA|rewrite EA; apply in_app_iff; cbn; auto]).
  destruct X as (-> & ->). apply in_split in Hl as (l2 & l3 & ->). subst A.
  pose proof (si_handles _ _ I) as ND. destruct I as [(free & F) M K].
  assert (LV : live_slot i (view (B1 ++ (k, (e, l2 ++ (i, w0) :: l3)) :: B2))).
  { unfold live_slot. rewrite <- regs_slots. apply in_map_iff. exists (k, i, w0). split; [reflexivity|]. apply regs_in. exists e, (l2 ++ (i, w0) :: l3).
    split; [apply in_app_iff; cbn; auto|apply in_app_iff; cbn; auto]. }
  destruct (remove_ok _ _ _ i F LV) as (a' & E2 & F2). rewrite E2.
  rewrite view_app in F2, ND. cbn [view map fst snd] in F2, ND. rewrite lists_remove_split in F2 by exact ND.
  destruct (remove_sublist_ok _ _ _ _ _ _ F2) as (NE & EMP).
  assert (P' : Permutation (map fst (regs (B1 ++ (k, (e, l2 ++ l3)) :: B2))) rest).
  { apply (Permutation_cons_inv (a := (k, i))). rewrite <- P. rewrite !regs_app, !regs_cons. cbn [fst snd]. rewrite !map_app. cbn [map fst snd].
    rewrite !map_map. cbn [fst]. apply perm_mid. }
  assert (KND : ~ In k (keys B1) /\ ~ In k (keys B2)).
  { unfold keys in K. rewrite map_app in K. cbn in K. apply NoDup_remove_2 in K. rewrite in_app_iff in K. tauto. }
  assert (KR : In k (map fst rest) <-> l2 ++ l3 <> []).
  { assert (E : In k (map fst rest) <-> exists i w, In (k, i, w) (regs (B1 ++ (k, (e, l2 ++ l3)) :: B2))).
    { split.
      - intro Q. apply in_map_iff in Q as ((k', i') & EQ & Q). cbn in EQ. subst. rewrite <- P' in Q. apply in_map_iff in Q as (((a, b), c) & EQ & Q). cbn in EQ. injection EQ as -> ->. eauto.
      - intros (i' & w' & Q). apply in_map_iff. exists (k, i'). split; [reflexivity|]. rewrite <- P'. apply in_map_iff. exists (k, i', w'). auto. }
    rewrite E. split.
    - intros (i' & w' & Q). apply regs_in in Q as (e1 & l1 & Q1 & Q2). apply in_app_iff in Q1 as [Q1|[Q1|Q1]].
      + exfalso. apply (proj1 KND). apply in_map_iff. exists (k, (e1, l1)). auto.
      + injection Q1 as -> ->. intro Z. rewrite Z in Q2. exact Q2.
      + exfalso. apply (proj2 KND). apply in_map_iff. exists (k, (e1, l1)). auto.
    - intro Z. destruct (l2 ++ l3) as [|(i', w') l'] eqn:EL; [contradiction|]. exists i', w'. apply regs_in. exists e, ((i', w') :: l'). split; [apply in_app_iff|]; cbn; auto. }
  destruct (l2 ++ l3) as [|y l'] eqn:EL.
  - destruct (EMP eq_refl) as (a2 & E3 & F3). rewrite E3. exists (mkSt a2 (remove_key k (rmap (B1 ++ (k, (e, l2 ++ (i, w0) :: l3)) :: B2)))), (B1 ++ B2).
    split; [reflexivity|]. assert (RK : remove_key k (rmap (B1 ++ (k, (e, l2 ++ (i, w0) :: l3)) :: B2)) = rmap (B1 ++ B2)).
    { unfold remove_key, rmap. rewrite !map_app, filter_app. cbn. rewrite N.eqb_refl. cbn.
      assert (ID : forall B, ~ In k (keys B) -> filter (fun x => negb (N.eqb (fst x) k)) (map (fun x : row => (fst x, fst (snd x))) B) = map (fun x : row => (fst x, fst (snd x))) B).
      { induction B as [|x B IHB]; cbn; intro Z; [reflexivity|]. destruct (N.eqb_spec (fst x) k); [tauto|]. cbn. f_equal. apply IHB. tauto. }
      rewrite !ID; tauto. }
    rewrite RK. split; [|split; [|split; [|split; [|split]]]].
    + split.
      * exists (e_list e :: i :: free). cbn [st_arena]. rewrite view_app. exact F3.
      * reflexivity.
      * unfold keys in *. rewrite map_app in *. cbn in K. apply NoDup_remove_1 in K. exact K.
    + intros x X. apply FU. apply in_app_iff in X. apply in_app_iff. cbn. tauto.
    + rewrite <- P', !regs_app. cbn. reflexivity.
    + rewrite !regs_app. cbn. intros x X. apply in_app_iff in X. rewrite !in_app_iff. tauto.
    + intro k'. unfold keys. rewrite !map_app, !in_app_iff. cbn. rewrite KR. unfold keys in KND. split.
      * intro Q. split; [tauto|]. left. intros ->. tauto.
      * intros ([Q|[Q|Q]] & [Z|Z]); auto; try congruence.
    + intros k' Q. symmetry. apply ver_skip. cbn. intros <-. unfold keys in *. rewrite map_app, in_app_iff in Q. tauto.
  - rewrite NE by discriminate. exists (mkSt a' (st_map st)), (B1 ++ (k, (e, y :: l')) :: B2). rewrite M.
    split; [reflexivity|]. split; [|split; [|split; [|split; [|split]]]].
    + split.
      * exists (i :: free). cbn [st_arena]. rewrite view_app. exact F2.
      * cbn. unfold rmap. rewrite !map_app. reflexivity.
      * unfold keys in *. rewrite map_app in *. exact K.
    + intros x X. apply in_app_iff in X as [X|[<-|X]].
      * apply FU, in_app_iff. auto.
      * cbn. split; [discriminate|]. apply (FU (k, (e, l2 ++ (i, w0) :: l3))), in_app_iff. cbn. auto.
      * apply FU, in_app_iff. cbn. auto.
    + exact P'.
    + rewrite <- EL. intros ((k1, i1), w1) X. apply regs_in in X as (e1 & l1 & X1 & X2). apply regs_in.
      apply in_app_iff in X1 as [X1|[X1|X1]].
      * exists e1, l1. split; [apply in_app_iff; auto|auto].
      * injection X1 as <- <- <-. exists e, (l2 ++ (i, w0) :: l3). split; [apply in_app_iff; cbn; auto|]. apply in_app_iff. cbn. apply in_app_iff in X2. tauto.
      * exists e1, l1. split; [apply in_app_iff; cbn; auto|auto].
    + intro k'. assert (EK : keys (B1 ++ (k, (e, y :: l')) :: B2) = keys (B1 ++ (k, (e, l2 ++ (i, w0) :: l3)) :: B2)) by (unfold keys; rewrite !map_app; reflexivity).
      rewrite EK. split; [|tauto]. intro Q. split; [exact Q|]. right. apply KR. discriminate.
    + intros k' _. unfold ver, rmap. rewrite !map_app. reflexivity.
Qed.

Lemma remove_slots_ok l : forall st A rest, SI st A -> full A -> Permutation (map fst (regs A)) (l ++ rest) ->
  exists st' A', remove_slots st l = Some st' /\ SI st' A' /\ full A' /\ Permutation (map fst (regs A')) rest /\
  incl (regs A') (regs A) /\ (forall k', In k' (keys A') -> ver A' k' = ver A k').
Proof.
  induction l as [|(k, i) l IH]; intros st A rest I FU P; cbn [remove_slots].
  - exists st, A. split; [reflexivity|]. split; [auto|]. split; [auto|]. split; [exact P|]. split; [apply incl_refl|auto].
  - destruct (remove_slot_ok _ _ _ _ _ I FU P) as (st1 & A1 & E1 & I1 & FU1 & P1 & IN1 & K1 & V1). rewrite E1.
    destruct (IH _ _ _ I1 FU1 P1) as (st2 & A2 & E2 & I2 & FU2 & P2 & IN2 & V2). exists st2, A2.
    split; [exact E2|]. split; [auto|]. split; [auto|]. split; [auto|]. split; [eapply incl_tran; eauto|].
    intros k' Q. rewrite V2 by exact Q. apply V1.
    apply in_map_iff in Q as ((k1, (e1, l1)) & <- & Q). destruct (FU2 _ Q) as (NE & _). cbn in *. destruct l1 as [|(i1, w1) l1]; [contradiction|].
    assert (R : In (k1, i1, w1) (regs A2)) by (apply regs_in; exists e1, ((i1, w1) :: l1); cbn; auto). apply IN2 in R. apply regs_in in R as (e2 & l2 & R & _).
    apply in_map_iff. exists (k1, (e2, l2)). auto.
Qed.

(** a notification *)
Lemma List_filter_nil {X} (f : X -> bool) l : (forall x, In x l -> f x = false) <-> filter f l = [].
Proof.
  induction l as [|x l IH]; cbn; [tauto|]. split.
  - intro H. rewrite (H x) by auto. apply IH. auto.
  - destruct (f x) eqn:E; [discriminate|]. intros H y [<-|Y]; auto. apply IH; auto.
Qed.
Lemma F2_in_l {X Y} (R : X -> Y -> Prop) l l' : Forall2 R l l' -> forall x, In x l -> exists y, In y l' /\ R x y.
Proof. induction 1; intros z []; subst; cbn; eauto. destruct (IHForall2 z H1) as (y' & ? & ?). eauto. Qed.
Lemma F2_in_r {X Y} (R : X -> Y -> Prop) l l' : Forall2 R l l' -> forall y, In y l' -> exists x, In x l /\ R x y.
Proof. induction 1; intros z []; subst; cbn; eauto. destruct (IHForall2 z H1) as (y' & ? & ?). eauto. Qed.
Lemma Permutation_nil_eq {X} (l : list X) : [] = l -> Permutation [] l.
Proof. intros <-. constructor. Qed.
Definition count (k : N) (ks : list N) : nat := count_occ N.eq_dec ks k.
Lemma wake_entry_ok st A k : SI st A -> full A -> exists st' ws A', wake_entry st k = Some (st', ws) /\ SI st' A' /\ full A' /\
  regs A' = regs A /\ keys A' = keys A /\ (forall k', In k' (keys A) -> ver A' k' = ver A k' + (if N.eq_dec k k' then 1 else 0)) /\
  (exists rs, Permutation rs (filter (fun r => N.eqb (fst (fst r)) k) (regs A)) /\ Forall2 same_task ws (map snd rs)).
Proof.
  intros I FU. unfold wake_entry. rewrite (si_map _ _ I). destruct (lookup k (rmap A)) as [e|] eqn:L1.
  - destruct (lookup_split _ _ _ L1) as (B1 & l & B2 & -> & NI). destruct I as [(free & F) M K].
    pose proof F as F'. rewrite view_app in F'. cbn [view map fst snd] in F'.
    destruct (iter_ok _ _ _ (e_list e) l F') as (ws & E2 & W2); [apply in_app_iff; cbn; auto|]. rewrite E2.
    assert (NI2 : ~ In k (keys B2)). { unfold keys in K. rewrite map_app in K. cbn in K. apply NoDup_remove_2 in K. rewrite in_app_iff in K. tauto. }
    assert (SV : set_ver k (S (e_ver e)) (rmap (B1 ++ (k, (e, l)) :: B2)) = rmap (B1 ++ (k, (mkE (e_list e) (S (e_ver e)), l)) :: B2)).
    { assert (ID : forall B, ~ In k (keys B) -> set_ver k (S (e_ver e)) (rmap B) = rmap B).
      { induction B as [|x B IHB]; [reflexivity|]. cbn. intro Z. destruct (N.eqb_spec (fst x) k); [tauto|]. f_equal. apply IHB. tauto. }
      unfold set_ver, rmap in *. rewrite !map_app. cbn. rewrite N.eqb_refl. rewrite !ID by tauto. reflexivity. }
    exists (mkSt (st_arena st) (set_ver k (S (e_ver e)) (rmap (B1 ++ (k, (e, l)) :: B2)))), ws, (B1 ++ (k, (mkE (e_list e) (S (e_ver e)), l)) :: B2).
    split; [reflexivity|]. rewrite SV. split; [|split; [|split; [|split; [|split]]]].
    + split.
      * exists free. rewrite view_app. exact F'.
      * reflexivity.
      * unfold keys in *. rewrite map_app in *. exact K.
    + intros x X. apply in_app_iff in X as [X|[<-|X]].
      * apply FU, in_app_iff. auto.
      * cbn. split; [|lia]. apply (FU (k, (e, l))), in_app_iff. cbn. auto.
      * apply FU, in_app_iff. cbn. auto.
    + rewrite !regs_app. reflexivity.
    + unfold keys. rewrite !map_app. reflexivity.
    + intros k' _. unfold ver. rewrite !lookup_app. destruct (N.eq_dec k k') as [<-|N].
      * apply lookup_none in NI. rewrite NI. cbn. rewrite N.eqb_refl. cbn. lia.
      * cbn. destruct (N.eqb_spec k k'); [contradiction|]. lia.
    + exists (map (fun q => (k, fst q, snd q)) l). split.
      * rewrite regs_app, regs_cons, !filter_app. cbn [fst snd].
        assert (NO : forall B, ~ In k (keys B) -> filter (fun r : N * nat * waker => N.eqb (fst (fst r)) k) (regs B) = []).
        { intros B Z. apply (proj1 (List_filter_nil _ _)). intros ((k1, i1), w1) X. apply regs_in in X as (e1 & l1 & X & _). cbn. apply N.eqb_neq. intros ->. apply Z. apply in_map_iff. exists (k, (e1, l1)). auto. }
        rewrite !NO by auto. cbn. rewrite app_nil_r. assert (ALL : forall L : list (nat * waker), filter (fun r : N * nat * waker => N.eqb (fst (fst r)) k) (map (fun q => (k, fst q, snd q)) L) = map (fun q => (k, fst q, snd q)) L).
        { induction L as [|q L IHL]; [reflexivity|]. cbn. rewrite N.eqb_refl. f_equal. exact IHL. }
        rewrite ALL. reflexivity.
      * rewrite map_map. exact W2.
  - exists st, [], A. split; [reflexivity|]. split; [auto|]. split; [auto|]. split; [auto|]. split; [auto|]. apply lookup_none in L1. split.
    + intros k' Q. destruct (N.eq_dec k k') as [<-|N]; [contradiction|lia].
    + exists []. split; [|constructor]. apply Permutation_nil_eq. symmetry. apply (proj1 (List_filter_nil _ _)).
      intros ((k1, i1), w1) X. apply regs_in in X as (e1 & l1 & X & _). cbn. apply N.eqb_neq. intros ->. apply L1. apply in_map_iff. exists (k, (e1, l1)). auto.
Qed.

Lemma wake_entries_ok ks : forall st A, SI st A -> full A -> exists st' ws A', wake_entries st ks = Some (st', ws) /\ SI st' A' /\ full A' /\
  regs A' = regs A /\ keys A' = keys A /\ (forall k', In k' (keys A) -> ver A' k' = ver A k' + count k' ks) /\
  (forall w, In w ws -> exists k i w', In k ks /\ In (k, i, w') (regs A) /\ same_task w w') /\
  (forall k i w', In k ks -> In (k, i, w') (regs A) -> exists w, In w ws /\ same_task w w').
Proof.
  induction ks as [|k ks IH]; intros st A I FU; cbn [wake_entries].
  - exists st, [], A. split; [reflexivity|]. split; [auto|]. split; [auto|]. split; [auto|]. split; [auto|]. split; [cbn; intros; lia|].
    split; [intros w []|intros k i w' []].
  - destruct (wake_entry_ok _ _ k I FU) as (st1 & ws & A1 & E1 & I1 & FU1 & R1 & K1 & V1 & (rs & P1 & W1)). rewrite E1.
    destruct (IH _ _ I1 FU1) as (st2 & ws2 & A2 & E2 & I2 & FU2 & R2 & K2 & V2 & W2 & W2'). rewrite E2.
    exists st2, (ws ++ ws2), A2. split; [reflexivity|]. split; [auto|]. split; [auto|]. split; [congruence|]. split; [congruence|]. split; [|split].
    + intros k' Q. rewrite V2 by congruence. rewrite V1 by exact Q. unfold count. cbn. destruct (N.eq_dec k k'); lia.
    + intros w Hw. apply in_app_iff in Hw as [Hw|Hw].
      * destruct (F2_in_l _ _ _ W1 w Hw) as (w' & Hw' & ST). apply in_map_iff in Hw' as (((k1, i1), w1) & EQ & HR). cbn in EQ. subst w1.
        rewrite P1 in HR. apply filter_In in HR as (HR & EQ). cbn in EQ. apply N.eqb_eq in EQ. subst k1. exists k, i1, w'. cbn. auto.
      * destruct (W2 w Hw) as (k1 & i1 & w1 & Q1 & Q2 & Q3). exists k1, i1, w1. rewrite <- R1. cbn. auto.
    + intros k1 i1 w1 [<-|Q1] Q2.
      * assert (Q3 : In w1 (map snd rs)). { apply in_map_iff. exists (k, i1, w1). split; [reflexivity|]. rewrite P1. apply filter_In. cbn. rewrite N.eqb_refl. auto. }
        destruct (F2_in_r _ _ _ W1 w1 Q3) as (w & Hw & ST). exists w. split; [apply in_app_iff; auto|exact ST].
      * rewrite <- R1 in Q2. destruct (W2' _ _ _ Q1 Q2) as (w & Hw & ST). exists w. split; [apply in_app_iff; auto|exact ST].
Qed.
