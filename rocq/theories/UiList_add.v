(** A rendered element appears: its place in the document, and the invariant after it. *)
From Coq Require Import List Arith NArith Bool Lia Permutation Sorting.Sorted.
From Verif Require Import Util Position Dom Context Spec_path Spec_list Render_history
  Position_proofs Dom_proofs Context_proofs Render_history_proofs Ui DynList DynList_proofs DynList_run_proofs
  UiList Spec_uilist UiList_core UiList_inv UiList_shape UiList_ops.
Import ListNotations.

Section Ops.
Variable base0 : node -> list node.
Variable U : list node.

Lemma own_le H H' ls : OWN H ls ->
  (forall x, occ x (flat_map f_n H') <= occ x (flat_map f_n H)) ->
  (forall x, occ x (flat_map f_c H') <= occ x (flat_map f_c H)) ->
  (forall x, occ x (flat_map f_g H') <= occ x (flat_map f_g H)) ->
  (forall x, occ x (flat_map f_r H') <= occ x (flat_map f_r H)) ->
  (forall x, occ x (flat_map f_l H') <= occ x (flat_map f_l H)) ->
  (forall x, occ x (flat_map f_fr H') <= occ x (flat_map f_fr H)) ->
  (forall x, occ x (flat_map f_o H') <= occ x (flat_map f_o H)) ->
  (forall x, occ x (flat_map f_b H') <= occ x (flat_map f_b H)) ->
  (forall l g e, In (Busy l g e) H <-> In (Busy l g e) H') ->
  (forall l g, In (Ren g l) H' -> In (Ren g l) H) -> OWN H' ls.
Proof.
  intros O N C G R L F OO B Q1 Q2. constructor; unfold all in *.
  - intro x. pose proof (ow_n O x) as Z. unfold all in Z. specialize (N x). rewrite flat_map_app, occ_app in *. olia.
  - intro x. pose proof (ow_c O x) as Z. unfold all in Z. specialize (C x). rewrite flat_map_app, occ_app in *. olia.
  - intro x. pose proof (ow_g O x) as Z. unfold all in Z. specialize (G x). rewrite flat_map_app, occ_app in *. olia.
  - intro x. pose proof (ow_r O x) as Z. unfold all in Z. specialize (R x). rewrite flat_map_app, occ_app in *. olia.
  - intro x. pose proof (ow_l O x) as Z. unfold all in Z. specialize (L x). rewrite flat_map_app, occ_app in *. olia.
  - intro x. pose proof (ow_fr O x) as Z. unfold all in Z. specialize (F x). rewrite flat_map_app, occ_app in *. olia.
  - intro x. pose proof (ow_o O x) as Z. unfold all in Z. specialize (OO x). rewrite flat_map_app, occ_app in *. olia.
  - intro x. pose proof (ow_b O x) as Z. unfold all in Z. specialize (B x). rewrite flat_map_app, occ_app in *. olia.
  - intros l o st L1 S1. destruct (ow_item O l o st L1 S1); auto. right. apply Q1. auto.
  - apply (ow_sib O).
  - intros l g e X. apply (ow_busy O). unfold all. rewrite in_app_iff in *. destruct X; auto. left. apply Q1. auto.
  - intros g l X. apply (ow_ren O g). unfold all. rewrite in_app_iff in *. destruct X; auto.
  - apply (ow_keys O).
Qed.

Ltac inA := rewrite ?in_app_iff in *; simpl in *; tauto.

(** ** an element appears *)
Lemma add_elem w n g' R b g p :
  INV base0 U w (FN n :: FG g' :: R) -> cbase R b g ->
  (forall q m, In (Ent g q m) R -> q <> p) ->
  lost_ref (ctx_at b p) pos_default w = false ->
  exists r', add_child (ctx_at b p) pos_default n (u_r w) = Some r' /\
    INV base0 U (w_r w r') (Ent g p n :: Con n g' :: R).
Proof.
  intros (OW & arr & cnt & blk & ord & SH) CB NE LR. set (H := FN n :: FG g' :: R) in *.
  assert (CB' : cbase H b g) by (eapply cbase_mono; [|eauto]; intros x Hx; simpl; auto).
  destruct (cbase_host OW SH b g CB') as (X & Y & R0 & PH & BO & FC & K).
  set (h := containing_node b) in *. set (ls := u_ls w) in *. set (d := rdom (u_r w)) in *. set (gr := rgrp (u_r w)) in *.
  assert (P := phost_place SH _ _ _ _ PH).
  rewrite lost_ctx_at in LR. unfold pos_default in LR. simpl in LR.
  assert (NEA : forall q m, In (Ent g q m) (all H ls) -> q <> p).
  { intros q m Q. apply in_app_iff in Q as [Q|Q].
    - simpl in Q. destruct Q as [Q|[Q|Q]]; [discriminate|discriminate|eauto].
    - exfalso. eapply held_stored; [apply OW|apply (cbase_held _ _ _ CB')|apply Q|eauto]. }
  destruct (ins_point SH b g p w Y R0 eq_refl eq_refl P NEA LR K)
    as (g1 & g2 & a1 & a2 & EG & EA & EL1 & EL2 & BI & RF).
  assert (FNA : In (FN n) (all H ls)) by (left; auto).
  destruct (sh_FN SH _ FNA) as (PN & FN' & KN).
  assert (HK := proj1 (host_kind SH) _ _ _ _ PH).
  assert (NH := host_not_FN OW SH h n HK FNA).
  assert (KH := proj1 (host_kids SH) _ _ _ _ PH).
  destruct (sh_place SH g P) as [(E1 & S1 & E2 & E3) EC].
  rewrite EC, EA, flatn_app in KH. rewrite <- !app_assoc in KH.
  destruct (insert_between d h n (hd_error (flatn blk a2 ++ Y)) (X ++ flatn blk a1) (flatn blk a2 ++ Y)
     (sh_wf SH) FN' PN) as (d' & ID & KD & WD & KO); auto.
  { rewrite KH. rewrite <- app_assoc. auto. }
  assert (FD : frag d' = frag d).
  { unfold insert_before in ID. destruct (match hd_error (flatn blk a2 ++ Y) with None => true | Some r => is_child d h r end); [|discriminate].
    rewrite FN' in ID. inversion ID; subst. simpl. unfold detach. rewrite PN. auto. }
  rewrite add_child_ctx_at. unfold pos_default. simpl app.
  rewrite (add_child_base _ _ _ _ _ _ _ BO). unfold add_here. fold gr d.
  rewrite RF, ID. destruct (BI n) as [BI1 BI2]. rewrite BI1.
  eexists. split; [reflexivity|].
  set (gr' := upd gr g (g1 ++ (rev p, n) :: g2)).
  assert (NG : g <> g').
  { intro Q. subst g'. apply (place_not_FG OW g P). right; left; auto. }
  assert (NP' : ~ place (all H ls) ls g').
  { intro Q. apply (place_not_FG OW g' Q). right; left; auto. }
  assert (NK : forall q, ~ In n (kids d q)).
  { intros q Q. apply (sh_wf SH) in Q. fold d in PN. congruence. }
  set (a' := a1 ++ inl n :: a2).
  destruct (geo_place OW SH g h X Y a' PH) as (c2 & b2 & Q1 & Q2 & Q3 & Q4 & Q5).
  { intros x Hx HX. unfold a' in Hx. rewrite flatn_app in Hx.
    assert (ND := proj1 (sh_wf SH) h). fold d in ND. rewrite KH in ND.
    assert (x <> n). { intro; subst x. apply (NK h). rewrite KH. apply in_app_iff; auto. }
    apply in_split in HX as (u & v & ->). rewrite <- app_assoc in ND. simpl in ND. apply NoDup_remove_2 in ND.
    apply ND. apply in_app_iff in Hx as [Hx|[Hx|Hx]]; [|congruence|]; rewrite !in_app_iff; auto 6. }
  { intros l Q. assert (Q' : In (inr l) (arr g)).
    { rewrite EA. unfold a' in Q. apply in_app_iff in Q as [Q|[Q|Q]]; [|discriminate|]; apply in_app_iff; auto. }
    apply E3 in Q'. eapply ow_ren; eauto. }
  assert (FA : flatn blk a' = flatn blk a1 ++ n :: flatn blk a2) by (unfold a'; rewrite flatn_app; auto).
  assert (KD' : kids d' h = X ++ flatn blk a' ++ Y) by (rewrite KD, FA; apps'; auto).
  set (H' := Ent g p n :: Con n g' :: R).
  assert (IN1 : forall x, In x (all H' ls) -> x = Ent g p n \/ x = Con n g' \/ In x (all H ls)).
  { intros x Q. destruct Q as [Q|[Q|Q]]; auto. right; right. right; right. auto. }
  assert (IN2 : forall x, In x (all H ls) -> x = FN n \/ x = FG g' \/ In x (all H' ls)).
  { intros x Q. destruct Q as [Q|[Q|Q]]; auto. right; right. right; right. auto. }
  assert (IC : forall m k, In (Con m k) (all H ls) -> In (Con m k) (all H' ls)).
  { intros m k Q. destruct (IN2 _ Q) as [E|[E|E]]; auto; discriminate. }
  assert (PM : forall k, place (all H ls) ls k -> place (all H' ls) ls k).
  { intros k [(m & Q)|Q]; [left; exists m; auto|right; auto]. }
  assert (PM2 : forall k, place (all H' ls) ls k -> k = g' \/ place (all H ls) ls k).
  { intros k [(m & Q)|Q]; [|right; right; auto]. destruct (IN1 _ Q) as [E|[E|E]]; [discriminate| |right; left; eauto].
    inversion E; auto. }
  split.
  { eapply own_le; [apply OW| | | | | | | | | |]; try (intro x; simpl; lia).
    - intros l k e. simpl. split; (intros [Q|[Q|Q]]; [discriminate|discriminate|auto]).
    - intros l k. simpl. intros [Q|[Q|Q]]; [discriminate|discriminate|auto]. }
  exists (upd (upd arr g a') g' []), (upd c2 g' []), b2, ord. constructor; simpl; fold ls.
  - auto.
  - intros q x Hx. rewrite FD. destruct (Nat.eq_dec q h) as [->|NQ].
    + rewrite KD in Hx. apply in_app_iff in Hx as [Hx|[Hx|Hx]]; [|subst; auto|];
        apply (sh_nofrag SH h); fold d; rewrite KH, !in_app_iff in *; tauto.
    + rewrite KO in Hx by auto. eapply sh_nofrag; eauto.
  - intros q x Hx HI. assert (HR : In (Rt x) (all H ls)) by (eapply (sh_base SH); eauto).
    destruct (IN2 _ HR) as [E|[E|E]]; auto; discriminate.
  - intros q NU. rewrite KO; [eapply sh_U; eauto|]. intro; subst q. apply NU. eapply host_U; eauto.
  - intros q Q. apply (sh_inU SH). exact Q.
  - intros q Q. rewrite FD. apply (sh_frag SH). exact Q.
  - intros m Q. destruct (IN1 _ Q) as [E|[E|E]]; try discriminate.
    destruct (sh_FN SH _ E) as (M1 & M2 & M3).
    assert (MH := host_not_FN OW SH h m HK E). rewrite KO, FD by auto. repeat split; auto.
    destruct (par d' m) as [q|] eqn:EP; auto. exfalso. apply WD in EP.
    assert (MN : m <> n).
    { intro; subst m. pose proof (ow_n OW n) as CC.
      change (flat_map f_n (all H ls)) with (n :: flat_map f_n (all R ls)) in CC. rewrite occ_cons in CC.
      destruct (Nat.eq_dec n n); [|congruence]. destruct Q as [Q|[Q|Q]]; [discriminate|discriminate|].
      pose proof (occ_flat_in f_n (all R ls) (FN n) n Q (or_introl eq_refl)). olia. }
    assert (In m (kids d q)).
    { destruct (Nat.eq_dec q h) as [->|NQ]; [|rewrite KO in EP; auto].
      rewrite KD in EP. rewrite KH. apply in_app_iff in EP as [EP|[EP|EP]]; [|congruence|];
        apply in_app_iff in EP; rewrite !in_app_iff; tauto. }
    apply (sh_wf SH) in H0. fold d in M1. congruence.
  - intros k Q. destruct (IN1 _ Q) as [E|[E|E]]; try discriminate. unfold gr'. rewrite upd_other; [eapply sh_FG; eauto|].
    intro; subst k. apply (place_not_FG OW g P E).
  - intros l fr Q. destruct (IN1 _ Q) as [E|[E|E]]; try discriminate.
    rewrite KO; [eapply sh_FL; eauto|]. apply (host_not_FL OW SH h l fr HK E).
  - intros m k Q. rewrite FD. destruct (IN1 _ Q) as [E|[E|E]]; [discriminate| |].
    + inversion E; subst m k. rewrite upd_same, KO, app_nil_r by auto. auto.
    + destruct (sh_Con SH _ _ E) as [M1 M2]. split; auto.
      assert (k <> g') by (intro; subst k; apply NP'; left; eauto). rewrite upd_other by auto.
      destruct (Q3 _ _ E) as [T1 T2]. destruct (Nat.eq_dec m h) as [->|NM].
      * rewrite T2 by auto. auto.
      * rewrite T1, KO by auto. auto.
  - intros k l Q. destruct (IN1 _ Q) as [E|[E|E]]; try discriminate. apply PM. eapply sh_Ren; eauto.
  - intros k q m Q. destruct (IN1 _ Q) as [E|[E|E]]; try discriminate.
    + inversion E; subst. auto.
    + apply PM. eapply sh_Ent; eauto.
  - intros k Q. destruct (PM2 _ Q) as [->|PK].
    + rewrite !upd_same. split; [|reflexivity]. unfold plc. rewrite upd_same. unfold gr'. rewrite upd_other by auto.
      assert (GE : gr g' = []) by (apply (sh_FG SH); right; left; auto).
      fold gr. rewrite GE. repeat split; simpl; auto; try constructor; try contradiction.
      * intro Q'. destruct (IN1 _ Q') as [E|[E|E]]; [congruence|discriminate|].
        apply NP'. eapply sh_Ent; eauto.
      * intro Q'. destruct (IN1 _ Q') as [E|[E|E]]; [discriminate|discriminate|].
        apply NP'. eapply sh_Ren; eauto.
    + assert (KG : k <> g') by (intro; subst k; auto). rewrite !(upd_other _ g') by auto.
      split; [|apply Q1; auto]. unfold plc. rewrite (upd_other _ g') by auto.
      destruct (sh_place SH k PK) as [(F1 & F2 & F3 & F4) _].
      destruct (Nat.eq_dec k g) as [->|NK'].
      * unfold gr'. rewrite !upd_same. fold (els a'). unfold a'. rewrite els_app. simpl. rewrite EL1, EL2, map_app. simpl.
        split; auto. split; auto. split.
        -- intros q m. split.
           ++ intro Q'. apply in_app_iff in Q'. assert (Q'' : In (rev q, m) (gr g) \/ (rev p, n) = (rev q, m)).
              { rewrite EG. rewrite in_app_iff. destruct Q' as [?|[?|?]]; auto. }
              destruct Q'' as [Q''|Q''].
              ** apply F3 in Q''. destruct (IN2 _ Q'') as [E|[E|E]]; auto; discriminate.
              ** inversion Q''. apply (f_equal (@rev _)) in H1. rewrite !rev_involutive in H1. subst. left; auto.
           ++ intro Q'. destruct (IN1 _ Q') as [E|[E|E]]; try discriminate.
              ** inversion E; subst. apply in_app_iff; simpl; auto.
              ** apply F3 in E. fold gr in E. rewrite EG in E. apply in_app_iff in E. apply in_app_iff; simpl; tauto.
        -- intro l. rewrite in_app_iff. simpl. rewrite EA in F4. specialize (F4 l). rewrite in_app_iff in F4.
           split.
           ++ intro Q'. assert (Q'' : In (Ren g l) (all H ls)) by (apply F4; destruct Q' as [?|[?|?]]; auto; discriminate).
              destruct (IN2 _ Q'') as [E|[E|E]]; auto; discriminate.
           ++ intro Q'. destruct (IN1 _ Q') as [E|[E|E]]; try discriminate. apply F4 in E. tauto.
      * unfold gr'. rewrite !(upd_other _ g) by auto. split; auto. split; auto. split.
        -- intros q m. fold gr in F3. rewrite F3. split; intro Q'.
           ++ destruct (IN2 _ Q') as [E|[E|E]]; auto; discriminate.
           ++ destruct (IN1 _ Q') as [E|[E|E]]; auto; [congruence|discriminate].
        -- intro l. rewrite F4. split; intro Q'.
           ++ destruct (IN2 _ Q') as [E|[E|E]]; auto; discriminate.
           ++ destruct (IN1 _ Q') as [E|[E|E]]; auto; discriminate.
  - intros l o L. destruct (sh_list SH _ _ L) as (M1 & M2 & M3 & M4). split; auto.
    rewrite (Q2 _ _ L). unfold whole. rewrite mids_upd_notin; auto. intros x Hx Q. apply NP'. rewrite <- Q.
    eapply item_place; eauto. eapply seg_item; eauto.
  - intros l o L. pose proof (sh_cont SH _ _ L) as M. destruct (dl_cont (lo_l o)) as [c|f] eqn:ED.
    + destruct M as (M1 & k & M2 & M2c). assert (dl_frag (lo_l o) <> h).
      { intro Q. pose proof (list_frag SH _ _ L). fold d in FC. congruence. }
      rewrite KO by auto. split; auto. exists k. split; [destruct (IN2 _ M2) as [E|[E|E]]; auto; discriminate|].
      intros m Q. destruct (IN1 _ Q) as [E|[E|E]]; [discriminate| |auto]. inversion E; subst. exfalso. apply NP'. eapply sh_Ren; eauto.
    + destruct M as (M1 & M2 & M3). split; auto. destruct (Q4 _ _ _ L ED) as [T1 T2]. split.
      * destruct (Nat.eq_dec f h) as [->|NF]; [rewrite T2 by auto; auto|rewrite T1, KO by auto; auto].
      * intros k Q. destruct (IN1 _ Q) as [E|[E|E]]; try discriminate. apply (M3 k E).
Qed.
End Ops.
