(** Rendering a list and moving it back: the invariant after them. *)
From Coq Require Import List Arith NArith Bool Lia Permutation Sorting.Sorted.
From Verif Require Import Util Position Dom Context Spec_path Spec_list Render_history
  Position_proofs Dom_proofs Context_proofs Render_history_proofs Ui DynList DynList_proofs DynList_run_proofs
  UiList Spec_uilist UiList_core UiList_inv UiList_shape UiList_ops UiList_add UiList_del.
Import ListNotations.

Lemma cut_uniq (P : list node) : forall Q P' Q', NoDup (P ++ Q) -> P ++ Q = P' ++ Q' -> hd_error Q = hd_error Q' ->
  P = P' /\ Q = Q'.
Proof.
  intros Q P' Q' ND E HQ. destruct Q as [|x Q], Q' as [|y Q']; try discriminate.
  - rewrite !app_nil_r in E. auto.
  - inversion HQ; subst y. destruct (split_uniq_nd x P Q P' Q') as [-> ->]; auto.
Qed.

Lemma insert_foreign_at d p n P Q : dom_wf d -> frag d n = false -> ~ In n (kids d p) -> kids d p = P ++ Q ->
  exists d', insert_before d p n (hd_error Q) = Some d' /\ kids d' p = P ++ n :: Q /\ dom_wf d' /\ frag d' = frag d /\
    par d' n = Some p /\ (forall m, m <> n -> par d' m = par d m) /\
    (forall q, q <> p -> kids d' q = remove_node n (kids d q)).
Proof.
  intros W F N K. destruct (insert_foreign d p n (hd_error Q) W F N) as (d' & P' & Q' & E & K' & R & K1 & W1 & F1 & P1 & P2 & K2).
  { destruct Q as [|x Q]; simpl; auto. rewrite K. apply in_app_iff; simpl; auto. }
  destruct (cut_uniq P Q P' Q') as [<- <-]; auto.
  - rewrite <- K. apply W.
  - congruence.
  - exists d'. auto 10.
Qed.

Lemma render_gen r l F M c base p g cont R g1 g2 P Q :
  dl_cont l = Fake F -> dl_frag l = F -> dom_wf (rdom r) -> (forall q x, In x (kids (rdom r) q) -> frag (rdom r) x = false) ->
  frag (rdom r) F = true -> kids (rdom r) F = dl_start l :: M ++ [dl_end l] ->
  c = ctx_at base p -> base_of g cont R base -> frag (rdom r) cont = false ->
  kids (rdom r) cont = P ++ Q -> rgrp r g = g1 ++ g2 ->
  bt_insert (rev p) (dl_start l) (rgrp r g) = (g1 ++ (rev p, dl_start l) :: g2, None) ->
  sorted (g1 ++ (rev p, dl_start l) :: g2) ->
  match range_from_first (rev p) (rgrp r g) with Some r => Some r | None => hd_error R end = hd_error Q ->
  pos_ok (rev p) -> (forall k m, In (k, m) (g1 ++ g2) -> ~ under p (rev k)) ->
  exists d' gr', dl_render (mkLW r l) c = Some (mkLW (mkR d' gr') (set_cont l (Real cont))) /\
    (forall h, gr' h = rgrp r h) /\ dom_wf d' /\ frag d' = frag (rdom r) /\
    kids d' cont = P ++ (dl_start l :: M ++ [dl_end l]) ++ Q /\ kids d' F = [] /\
    (forall q, q <> cont -> q <> F -> kids d' q = kids (rdom r) q).
Proof.
  intros HF HF2 W FRG FF K -> BO CF KPQ EG BI S' RF PO NU.
  set (d := rdom r) in *. set (ls := dl_start l) in *. set (le := dl_end l) in *.
  assert (NG : cont <> F) by congruence.
  assert (NDF := proj1 W F). rewrite K in NDF.
  assert (PLS : par d ls = Some F) by (apply W; rewrite K; simpl; auto).
  assert (PLE : par d le = Some F) by (apply W; rewrite K; simpl; right; apply in_app_iff; simpl; auto).
  assert (NSE : ls <> le).
  { intro X. inversion NDF; subst. apply H1. rewrite X. apply in_app_iff; simpl; auto. }
  assert (LSM : ~ In ls M) by (inversion NDF; subst; rewrite in_app_iff in H1; tauto).
  assert (LEM : ~ In le M).
  { inversion NDF; subst. apply NoDup_remove_2 in H2. rewrite app_nil_r in H2. auto. }
  assert (LSC : ~ In ls (kids d cont)) by (intro X; apply W in X; congruence).
  assert (LEC : ~ In le (kids d cont)) by (intro X; apply W in X; congruence).
  assert (FLS : frag d ls = false) by (apply (FRG F); rewrite K; simpl; auto).
  assert (FLE : frag d le = false) by (apply (FRG F); rewrite K; simpl; right; apply in_app_iff; simpl; auto).
  unfold dl_render. cbn [lw_l lw_r]. fold ls le.
  rewrite add_child_ctx_at. unfold pos_default at 1. simpl app.
  rewrite (add_child_base _ _ _ _ _ _ _ BO). unfold add_here. fold d. rewrite RF.
  destruct (insert_foreign_at d cont ls P Q W FLS LSC KPQ) as (d1 & E1 & K1 & W1 & F1 & P1 & P1' & K1').
  rewrite E1, BI. cbn [obind rdom]. rewrite P1. cbn [obind].
  assert (NP : ~ In ls P /\ ~ In ls Q) by (rewrite KPQ, in_app_iff in LSC; tauto).
  assert (NPE : ~ In le P /\ ~ In le Q) by (rewrite KPQ, in_app_iff in LEC; tauto).
  assert (NF : ~ In le (kids d1 cont)).
  { intro X. apply W1 in X. rewrite P1' in X by congruence. congruence. }
  destruct (insert_foreign_at d1 cont le P (ls :: Q) W1) as (d2 & E2 & K2 & W2 & F2 & P2 & P2' & K2').
  { rewrite F1; auto. }
  { auto. }
  { auto. }
  simpl hd_error in E2. rewrite E2. cbn [obind].
  rewrite remove_child_ctx_at. unfold pos_default at 1. simpl app.
  rewrite (remove_child_base _ _ _ _ _ _ BO).
  destruct (remove_only (with_dom (mkR d1 (upd (rgrp r) g (g1 ++ (rev p, ls) :: g2))) d2)
              g cont (rev p) ls g1 g2) as (r3 & E3 & G3 & G3' & W3 & F3 & P3 & P3' & K3); simpl; auto.
  { apply upd_same. }
  { rewrite upd_same. auto. }
  { intros k m X. rewrite rev_involutive. apply (NU k m); auto. }
  { rewrite K2. apply in_app_iff; simpl; auto. }
  simpl in G3', F3, P3', K3.
  rewrite E3. cbn [obind].
  assert (KC3 : kids (rdom r3) cont = P ++ le :: Q).
  { rewrite K3, K2. replace (P ++ le :: ls :: Q) with ((P ++ [le]) ++ ls :: Q) by (rewrite <- app_assoc; auto).
    rewrite remove_node_mid; [rewrite <- app_assoc; auto| |tauto].
    rewrite in_app_iff; simpl. intuition congruence. }
  destruct (insert_fresh_some (rdom r3) cont ls le P Q W3) as (d4 & E4 & W4 & F4 & P4 & P4' & K4 & K4'); auto.
  { rewrite F3, F2, F1; auto. }
  rewrite E4. cbn [obind]. rewrite HF.
  assert (KF4 : kids d4 F = M).
  { rewrite K4', K3, K2', K1' by auto. rewrite K.
    rewrite (remove_node_notin ls (remove_node le _)).
    - cbn [app]. rewrite remove_node_cons_same.
      rewrite remove_node_app, (remove_node_notin ls M) by auto. simpl.
      destruct (Nat.eqb_spec le ls); [congruence|]. simpl.
      rewrite remove_node_app, remove_node_notin by auto. simpl. rewrite Nat.eqb_refl. simpl. apply app_nil_r.
    - rewrite !in_remove_node. tauto. }
  destruct (insert_fragment_spec d4 cont F le (P ++ [ls]) Q W4) as (d5 & E5 & W5 & F5 & K5 & K5F & P5 & P5' & K5'); auto.
  { rewrite F4, F3, F2, F1. auto. }
  { rewrite K4, <- app_assoc. auto. }
  { intro X. assert (Y : frag d F = true) by auto. rewrite <- X in Y. congruence. }
  unfold obind. rewrite E5. unfold with_dom. exists d5, (rgrp r3).
  split; [reflexivity|]. split; [|split; [auto|split; [congruence|split; [|split; [auto|]]]]].
  - intro h. destruct (Nat.eq_dec h g) as [->|NE]; [rewrite G3; symmetry; auto|].
    rewrite G3' by auto. apply upd_other; auto.
  - rewrite K5, KF4. apps'. auto.
  - intros q Q1 Q2. rewrite K5', K4', K3, K2', K1' by auto.
    assert (LQ : ~ In ls (kids d q)) by (intro X; apply W in X; congruence).
    assert (LQE : ~ In le (kids d q)) by (intro X; apply W in X; congruence).
    rewrite (remove_node_notin ls (kids d q)) by auto.
    rewrite (remove_node_notin le (kids d q)) by auto. apply remove_node_notin; auto.
Qed.

(** ** replacing an object by one that differs only in [containing_node] *)
Definition lsame (o o' : lobj) : Prop :=
  dl_items (lo_l o') = dl_items (lo_l o) /\ dl_dead (lo_l o') = dl_dead (lo_l o) /\
  dl_start (lo_l o') = dl_start (lo_l o) /\ dl_end (lo_l o') = dl_end (lo_l o) /\
  dl_frag (lo_l o') = dl_frag (lo_l o) /\ lo_keys o' = lo_keys o /\ lo_futs o' = lo_futs o.
Lemma lsame_refl o : lsame o o.
Proof. repeat split. Qed.

Lemma lsame_all (u v : list (nat * lobj)) l o o' : lsame o o' ->
  map fst (u ++ (l, o') :: v) = map fst (u ++ (l, o) :: v) /\
  flat_map l_n (u ++ (l, o') :: v) = flat_map l_n (u ++ (l, o) :: v) /\
  flat_map l_g (u ++ (l, o') :: v) = flat_map l_g (u ++ (l, o) :: v) /\
  flat_map l_fr (u ++ (l, o') :: v) = flat_map l_fr (u ++ (l, o) :: v) /\
  flat_map l_b (u ++ (l, o') :: v) = flat_map l_b (u ++ (l, o) :: v) /\
  stored_facts (u ++ (l, o') :: v) = stored_facts (u ++ (l, o) :: v).
Proof.
  intros (E1 & E2 & E3 & E4 & E5 & E6 & E7). unfold stored_facts. rewrite !map_app, !flat_map_app.
  assert (F1 : l_n (l, o') = l_n (l, o)) by (unfold l_n, markers; simpl; rewrite E1, E3, E4; auto).
  assert (F2 : l_g (l, o') = l_g (l, o)) by (unfold l_g, stall; simpl; rewrite E1, E2; auto).
  assert (F3 : l_fr (l, o') = l_fr (l, o)) by (unfold l_fr; simpl; rewrite E5; auto).
  assert (F4 : l_b (l, o') = l_b (l, o)) by (unfold l_b; simpl; rewrite E7; auto).
  assert (F5 : l_facts (l, o') = l_facts (l, o)) by (unfold l_facts; simpl; rewrite E7; auto).
  cbn [map flat_map fst]. rewrite F1, F2, F3, F4, F5. auto 10.
Qed.
Lemma lsame_in (u v : list (nat * lobj)) l o o' k x : lsame o o' -> In (k, x) (u ++ (l, o') :: v) ->
  exists y, In (k, y) (u ++ (l, o) :: v) /\ lsame y x /\ (k = l -> x = o' /\ y = o \/ In (l, x) (u ++ v)) /\ (k <> l -> y = x).
Proof.
  intros LS Q. apply in_app_iff in Q as [Q|[Q|Q]].
  - exists x. split; [apply in_app_iff; auto|]. split; [apply lsame_refl|]. split; auto.
    intros ->. right. apply in_app_iff; auto.
  - inversion Q; subst. exists o. split; [apply in_app_iff; simpl; auto|]. split; auto. split; auto. congruence.
  - exists x. split; [apply in_app_iff; simpl; auto|]. split; [apply lsame_refl|]. split; auto.
    intros ->. right. apply in_app_iff; auto.
Qed.
Lemma lsame_item (u v : list (nat * lobj)) l o o' k g e : lsame o o' ->
  item_in k g e (u ++ (l, o') :: v) -> item_in k g e (u ++ (l, o) :: v).
Proof.
  intros LS (x & st & Q & I & E1 & E2). destruct (lsame_in u v l o o' k x LS Q) as (y & Q1 & Q2 & _).
  exists y, st. split; auto. split; auto. destruct Q2 as (A & B & _). unfold stall in *. rewrite <- A, <- B. auto.
Qed.
Lemma lsame_sym o o' : lsame o o' -> lsame o' o.
Proof. unfold lsame. intuition. Qed.
Lemma own_same H (u v : list (nat * lobj)) l o o' : lsame o o' -> OWN H (u ++ (l, o) :: v) -> OWN H (u ++ (l, o') :: v).
Proof.
  intros LS O. destruct (lsame_all u v l o o' LS) as (E0 & E1 & E2 & E3 & E4 & E5).
  constructor; unfold all; rewrite ?E0, ?E1, ?E2, ?E3, ?E4, ?E5; try apply O.
  - intros k x st Q I. destruct (lsame_in u v l o o' k x LS Q) as (y & Q1 & Q2 & _).
    destruct Q2 as (A1 & A2 & A3 & A4 & A5 & A6 & A7). rewrite A7. apply (ow_item O k y); auto.
    unfold stall in *. rewrite <- A1, <- A2. auto.
  - intros k x sb Q I. destruct (lsame_in u v l o o' k x LS Q) as (y & Q1 & Q2 & _).
    destruct Q2 as (A1 & A2 & A3 & A4 & A5 & A6 & A7). rewrite A7 in I. unfold stall. rewrite A1, A2.
    apply (ow_sib O k y); auto.
  - intros k g e Q. apply (lsame_item u v l o' o); [apply lsame_sym; auto|]. apply (ow_busy O); auto.
  - intros g k Q. destruct (ow_ren O g k Q) as (x & I).
    destruct (lsame_in u v l o' o k x (lsame_sym _ _ LS) I) as (y & I2 & _). eauto.
  - intros k x Q. destruct (lsame_in u v l o o' k x LS Q) as (y & Q1 & Q2 & _).
    destruct Q2 as (A1 & A2 & A3 & A4 & A5 & A6 & A7). rewrite A1, A6. apply (ow_keys O k y); auto.
Qed.
Lemma place_same A (u v : list (nat * lobj)) l o o' g : lsame o o' ->
  place A (u ++ (l, o') :: v) g -> place A (u ++ (l, o) :: v) g.
Proof.
  intros LS [Q|(k & e & Q)]; [left; auto|right]. exists k, e. eapply lsame_item; eauto.
Qed.

Section Ops.
Variable base0 : node -> list node.
Variable U : list node.

Lemma render_inv w H b g p l o f : INV base0 U w H -> cbase H b g -> indices_ok p ->
  (forall q m, In (Ent g q m) H -> ~ under p q) ->
  get_l l (u_ls w) = Some o -> dl_cont (lo_l o) = Fake f ->
  lost_ref (ctx_at b p) pos_default w = false ->
  exists w', list_render l (ctx_at b p) w = Ok w' /\ INV base0 U w' (Ren g l :: H) /\ u_drop w' = u_drop w.
Proof.
  intros (OW & arr & cnt & blk & ord & SH) CB IO NE GL HF LR.
  destruct (cbase_host OW SH b g CB) as (X & Y & R0 & PH & BO & FC & K).
  set (h := containing_node b) in *. set (ls := u_ls w) in *. set (d := rdom (u_r w)) in *. set (gr := rgrp (u_r w)) in *.
  assert (P := phost_place SH _ _ _ _ PH).
  assert (LR0 := LR). rewrite lost_ctx_at in LR0. unfold pos_default in LR0. simpl in LR0.
  assert (L := get_in _ _ _ GL).
  destruct (get_split _ _ _ GL (ow_nodup _ _ OW)) as (u & v & EL & NU & NV).
  assert (HG : held H g) by (eapply cbase_held; eauto).
  assert (NEA : forall q m, In (Ent g q m) (all H ls) -> ~ under p q).
  { intros q m Q. apply in_app_iff in Q as [Q|Q]; [eauto|]. exfalso. eapply held_stored; eauto. }
  destruct (ins_point SH b g p w Y R0 eq_refl eq_refl P) as (g1 & g2 & a1 & a2 & EG & EA & EL1 & EL2 & BI & RF); auto.
  { intros q m Q E. subst q. apply (NEA _ _ Q). apply under_refl. }
  assert (HK := proj1 (host_kind SH) _ _ _ _ PH).
  assert (KH := proj1 (host_kids SH) _ _ _ _ PH).
  destruct (sh_place SH g P) as [(E1 & S1 & E2 & E3) EC].
  pose proof (sh_cont SH _ _ L) as CT. rewrite HF in CT. destruct CT as (EF & KF & NR).
  destruct (sh_list SH _ _ L) as (EB & PI & PD & EK).
  set (F := dl_frag (lo_l o)) in *. subst f.
  assert (FF := list_frag SH _ _ L). fold F d in FF.
  assert (NF : h <> F) by congruence.
  rewrite EC, EA, flatn_app in KH. rewrite <- !app_assoc in KH.
  destruct (BI (dl_start (lo_l o))) as [BI1 BI2].
  destruct (render_gen (u_r w) (lo_l o) F (mids cnt (ord l)) (ctx_at b p) b p g h R0 g1 g2 (X ++ flatn blk a1) (flatn blk a2 ++ Y))
    as (d' & gr' & RD & GE & WD & FD & KD & KDF & KO); auto.
  { apply (sh_wf SH). }
  { apply (sh_nofrag SH). }
  { fold d. rewrite KF, EB. auto. }
  { fold d. rewrite KH. apps'. auto. }
  { apply indices_ok_pos; auto. }
  { intros k m Q. rewrite <- EG in Q. intro UU. apply (NEA (rev k) m); auto. apply E2. rewrite rev_involutive. auto. }
  fold d gr in GE, FD, KO.
  unfold list_render. fold ls. rewrite GL, HF, LR, RD. simpl. eexists. split; [reflexivity|]. split; [|reflexivity].
  set (o' := mkLO (set_cont (lo_l o) (Real h)) (lo_keys o) (lo_futs o)).
  assert (LS : lsame o o') by (repeat split).
  assert (ES : set_l l o' ls = u ++ (l, o') :: v) by (rewrite EL; apply set_split; auto).
  set (a' := a1 ++ inr l :: a2).
  assert (FA : flatn blk a' = flatn blk a1 ++ blk l ++ flatn blk a2) by (unfold a'; rewrite flatn_app; auto).
  destruct (geo_place OW SH g h X Y a' PH) as (c2 & b2 & Q1 & Q2 & Q3 & Q4 & Q5).
  { intros x Hx HX. rewrite FA in Hx. assert (ND := proj1 (sh_wf SH) h). fold d in ND. rewrite KH in ND.
    assert (~ In x (blk l)).
    { intro Q. rewrite <- KF in Q. apply (sh_wf SH) in Q. fold d in Q.
      assert (Q' : In x (kids d h)) by (rewrite KH; apply in_app_iff; auto). apply (sh_wf SH) in Q'. fold d in Q'. congruence. }
    apply in_split in HX as (x1 & x2 & ->). rewrite <- app_assoc in ND. simpl in ND. apply NoDup_remove_2 in ND.
    apply ND. rewrite !in_app_iff in *. tauto. }
  { intros k Q. unfold a' in Q. apply in_app_iff in Q as [Q|[Q|Q]].
    - apply (ow_ren OW g). apply E3. rewrite EA. apply in_app_iff; auto.
    - inversion Q; subst. eauto.
    - apply (ow_ren OW g). apply E3. rewrite EA. apply in_app_iff; auto. }
  assert (KD' : kids d' h = X ++ flatn blk a' ++ Y).
  { rewrite KD, FA, EB. unfold whole. apps'. auto. }
  assert (SF : stored_facts (set_l l o' ls) = stored_facts ls) by (rewrite ES, EL; apply lsame_all; auto).
  destruct (lsame_all u v l o o' LS) as (F0 & F1 & F2 & F3 & F4 & F5). rewrite <- ES, <- EL in F0, F1, F2, F3, F4.
  assert (INF : forall x, In x (all (Ren g l :: H) (set_l l o' ls)) <-> x = Ren g l \/ In x (all H ls)).
  { intro x. unfold all. rewrite SF. simpl. intuition. }
  assert (INC : forall x, x <> Ren g l -> In x (all (Ren g l :: H) (set_l l o' ls)) <-> In x (all H ls)).
  { intros x N. rewrite INF. tauto. }
  assert (FMn : forall f : fact -> list nat, f (Ren g l) = [] ->
     flat_map f (all (Ren g l :: H) (set_l l o' ls)) = flat_map f (all H ls)).
  { intros f Ef. unfold all. rewrite SF. simpl. rewrite Ef. auto. }
  assert (PM : forall k, place (all (Ren g l :: H) (set_l l o' ls)) (set_l l o' ls) k <-> place (all H ls) ls k).
  { intro k. split; intro Q.
    - rewrite EL. apply (place_same _ u v l o o'); auto. rewrite <- ES. destruct Q as [(m & Q)|Q]; [left|right; auto].
      exists m. apply INC in Q; [rewrite <- EL; auto|discriminate].
    - rewrite ES. apply (place_same _ u v l o' o); [apply lsame_sym; auto|]. rewrite <- ES, <- EL.
      destruct Q as [(m & Q)|Q]; [left|right; auto]. exists m. apply INC; [discriminate|auto]. }
  assert (LI : forall k x, In (k, x) (set_l l o' ls) -> exists y, In (k, y) ls /\ lsame y x /\
     (k <> l -> y = x) /\ (k = l -> x = o' /\ y = o)).
  { intros k x Q. rewrite ES in Q. destruct (lsame_in u v l o o' k x LS Q) as (y & J1 & J2 & J3 & J4). exists y.
    rewrite EL. split; auto. split; auto. split; auto. intro E. destruct (J3 E); auto. exfalso.
    apply (in_map fst) in H0. rewrite map_app, in_app_iff in H0. simpl in H0. tauto. }
  split; simpl; fold ls.
  - assert (O1 : OWN H (set_l l o' ls)) by (rewrite ES; eapply own_same; eauto; rewrite <- EL; auto).
    constructor; try apply O1.
    + intro x. change (occ x (l :: flat_map f_r (all H (set_l l o' ls))) <= 1). rewrite occ_cons. pose proof (ow_r O1 x) as Z.
      destruct (Nat.eq_dec l x) as [<-|]; [|exact Z].
      assert (occ l (flat_map f_r (all H (set_l l o' ls))) = 0); [|olia].
      apply occ_notin. intro Q. apply in_flat_map in Q as (y & Y1 & Y2). destruct y; simpl in Y2; try tauto.
      destruct Y2 as [->|[]]. apply (NR g0). unfold all in *. rewrite SF in Y1. auto.
    + intros k x st Q I. destruct (ow_item O1 k x st Q I); [left|right; right]; auto.
    + intros k gg e [Q|Q]; [discriminate|]. apply (ow_busy O1 k gg e Q).
    + intros gg k [Q|Q]; [|apply (ow_ren O1 gg k Q)]. inversion Q; subst. exists o'. rewrite ES. apply in_app_iff; simpl; auto.
  - exists (upd arr g a'), c2, b2, ord. constructor.
    + auto.
    + intros q x Hx. rewrite FD. destruct (Nat.eq_dec q h) as [->|NQ]; [|destruct (Nat.eq_dec q F) as [->|NQ2]].
      * rewrite KD', FA in Hx. rewrite !in_app_iff in Hx.
        destruct Hx as [Hx|[[Hx|[Hx|Hx]]|Hx]];
          try (apply (sh_nofrag SH h); fold d; rewrite KH, !in_app_iff; tauto).
        rewrite <- KF in Hx. apply (sh_nofrag SH F). auto.
      * rewrite KDF in Hx. destruct Hx.
      * rewrite KO in Hx by auto. apply (sh_nofrag SH q). auto.
    + intros q x Hx HI. apply INC; [discriminate|]. apply (sh_base SH q); auto. rewrite FMn in HI by auto. rewrite F1 in HI. auto.
    + intros q NQ. rewrite KO; [apply (sh_U SH); auto| |].
      * intro; subst q. apply NQ. eapply host_U; eauto.
      * intro; subst q. apply NQ. apply (sh_inU SH). rewrite !in_app_iff. right; right. apply in_flat_map. exists (l, o). simpl; auto.
    + intros q Q. apply (sh_inU SH). rewrite !FMn, F3 in Q by auto. auto.
    + intros q Q. rewrite FD. apply (sh_frag SH). rewrite !FMn, F3 in Q by auto. auto.
    + intros m Q. apply INC in Q; [|discriminate]. destruct (sh_FN SH _ Q) as (M1 & M2 & M3).
      assert (MH := host_not_FN OW SH h m HK Q). rewrite FD. split; [|split; auto].
      * destruct (par d' m) as [q|] eqn:EP; auto. exfalso. apply WD in EP. fold d in M1.
        assert (forall q', ~ In m (kids d q')) by (intros q' J; apply (sh_wf SH) in J; fold d in J; congruence).
        destruct (Nat.eq_dec q h) as [->|NQ]; [|destruct (Nat.eq_dec q F) as [->|NQ2]].
        -- rewrite KD', FA in EP. rewrite !in_app_iff in EP. pose proof (H0 h) as J1. rewrite KH, !in_app_iff in J1.
           pose proof (H0 F) as J2. fold d in KF. rewrite KF in J2. tauto.
        -- rewrite KDF in EP. destruct EP.
        -- rewrite KO in EP by auto. apply (H0 q EP).
      * rewrite KO; auto. intro; subst m. fold d in M2. congruence.
    + intros k Q. apply INC in Q; [|discriminate]. rewrite GE. apply (sh_FG SH); auto.
    + intros k fr Q. apply INC in Q; [|discriminate].
      assert (fr <> h) by (apply (host_not_FL OW SH h k fr HK Q)).
      rewrite KO; auto; [apply (sh_FL SH k); auto|]. intro; subst fr.
      apply (host_not_FL OW SH F k F); auto. right. exists l, o. auto.
    + intros m k Q. apply INC in Q; [|discriminate]. rewrite FD. destruct (sh_Con SH _ _ Q) as [M1 M2]. split; auto.
      destruct (Q3 _ _ Q) as [T1 T2]. destruct (Nat.eq_dec m h) as [->|NM].
      * rewrite T2 by auto. auto.
      * rewrite T1, KO; auto. intro; subst m. fold d in M2. congruence.
    + intros k l' Q. apply INF in Q as [Q|Q]; [inversion Q; subst; apply PM; auto|]. apply PM. apply (sh_Ren SH k l'); auto.
    + intros k q m Q. apply INC in Q; [|discriminate]. apply PM. apply (sh_Ent SH k q m); auto.
    + intros k PK. apply (PM k) in PK. split; [|apply Q1; auto]. unfold plc.
      destruct (sh_place SH k PK) as [(G1 & G2 & G3 & G4) _]. rewrite GE.
      destruct (Nat.eq_dec k g) as [->|NK].
      * rewrite upd_same. fold (els a'). fold (els (arr g)) in E1. split; [|split; [auto|split]].
        -- unfold a'. rewrite els_app. simpl. rewrite <- els_app, <- EA. auto.
        -- intros q m. rewrite INC by discriminate. auto.
        -- intro l'. rewrite INF. rewrite <- G4, EA. unfold a'. rewrite !in_app_iff. simpl. split.
           ++ intros [J|[J|J]]; auto. left. congruence.
           ++ intros [J|[J|J]]; auto. right; left. congruence.
      * rewrite upd_other by auto. split; auto. split; auto. split.
        -- intros q m. rewrite INC by discriminate. auto.
        -- intro l'. rewrite INC by congruence. auto.
    + intros k x Q. destruct (LI k x Q) as (y & J1 & (A1 & A2 & A3 & A4 & A5 & A6 & A7) & _). rewrite A1, A2, A3, A4, A6.
      destruct (sh_list SH _ _ J1) as (M1 & M2 & M3 & M4). split; auto.
    + intros k x Q. destruct (LI k x Q) as (y & J1 & (A1 & A2 & A3 & A4 & A5 & A6 & A7) & J3 & J4).
      destruct (Nat.eq_dec k l) as [->|NK].
      * destruct (J4 eq_refl) as [-> ->]. simpl. split; auto. exists g. split; [apply INF; auto|].
        intros m Q'. apply INF in Q' as [Q'|Q']; [discriminate|]. unfold h. inversion CB; subst.
        -- simpl. apply (con_uniq OW m g n g); auto. apply in_app_iff; auto.
        -- exfalso. eapply (con_not_item OW m g); eauto. apply (ow_busy OW). apply in_app_iff; eauto.
      * rewrite (J3 NK) in *. clear J3 J4. pose proof (sh_cont SH _ _ J1) as M.
        assert (NFF : dl_frag (lo_l x) <> F).
        { intro E. apply NK. apply (frag_uniq OW SH _ _ _ _ J1 L E). }
        assert (NHF : dl_frag (lo_l x) <> h).
        { intro E. pose proof (list_frag SH _ _ J1). fold d in FC. congruence. }
        destruct (dl_cont (lo_l x)) as [c|f] eqn:ED.
        -- destruct M as (M1 & kk & M2 & M2c). rewrite KO by auto. split; auto. exists kk. split; [apply INF; auto|].
           intros m Q'. apply INF in Q' as [Q'|Q']; [discriminate|auto].
        -- destruct M as (M1 & M2 & M3). split; auto. subst f. destruct (Q4 _ _ _ J1 ED) as [T1 T2]. split.
           ++ rewrite T1, KO by auto. auto.
           ++ intros kk Q'. apply INF in Q' as [Q'|Q']; [inversion Q'; congruence|]. apply (M3 kk Q').
Qed.
End Ops.

(** ** the render is dropped *)
Section Un.
Variable base0 : node -> list node.
Variable U : list node.

(** what drops leave of the table of lists *)
Definition keepl (w w' : uworld) : Prop :=
  forall l o', get_l l (u_ls w') = Some o' -> exists o, get_l l (u_ls w) = Some o /\
    dl_items (lo_l o') = dl_items (lo_l o) /\ dl_dead (lo_l o') = dl_dead (lo_l o).
Lemma keepl_refl w : keepl w w.
Proof. intros l o E. eauto. Qed.
Lemma keepl_trans a b c : keepl a b -> keepl b c -> keepl a c.
Proof.
  intros A B l o E. destruct (B _ _ E) as (o1 & E1 & Q1 & Q2). destruct (A _ _ E1) as (o2 & E2 & Q3 & Q4).
  exists o2. split; auto. split; congruence.
Qed.

Lemma get_set l o k ls : get_l k (set_l l o ls) = if Nat.eqb k l then match get_l k ls with Some _ => Some o | None => None end else get_l k ls.
Proof.
  induction ls as [|[a b] t IH]; simpl; [destruct (Nat.eqb k l); auto|].
  destruct (Nat.eqb_spec a l) as [->|N]; simpl.
  - destruct (Nat.eqb_spec l k) as [->|N2].
    + rewrite Nat.eqb_refl. auto.
    + rewrite IH. auto.
  - destruct (Nat.eqb_spec a k) as [->|N2]; auto. destruct (Nat.eqb_spec k l); [congruence|auto].
Qed.

Lemma unrender_inv w H g l : INV base0 U w (Ren g l :: H) ->
  exists w', u_unrender l w = Ok w' /\ INV base0 U w' H /\ u_drop w' = u_drop w /\ keepl w w'.
Proof.
  intros (OW & arr & cnt & blk & ord & SH).
  set (ls := u_ls w) in *. set (d := rdom (u_r w)) in *. set (gr := rgrp (u_r w)) in *.
  assert (IR : In (Ren g l) (all (Ren g l :: H) ls)) by (left; auto).
  destruct (ow_ren OW _ _ IR) as (o & L).
  assert (GL := get_some _ _ _ (ow_nodup _ _ OW) L).
  destruct (get_split _ _ _ GL (ow_nodup _ _ OW)) as (u & v & EL & NU & NV).
  assert (P := sh_Ren SH _ _ IR).
  destruct (phost_ex SH g P) as (h & X & Y & PH).
  assert (HK := proj1 (host_kind SH) _ _ _ _ PH).
  assert (KH := proj1 (host_kids SH) _ _ _ _ PH).
  destruct (sh_place SH g P) as [(E1 & S1 & E2 & E3) EC].
  assert (IA := proj2 (E3 l) IR). apply in_split in IA as (a1 & a2 & EA).
  rewrite EC, EA, flatn_app in KH. change (flatn blk (inr l :: a2)) with (blk l ++ flatn blk a2) in KH.
  destruct (sh_list SH _ _ L) as (EB & PI & PD & EK).
  set (F := dl_frag (lo_l o)) in *.
  assert (FF := list_frag SH _ _ L). fold F d in FF.
  assert (UNR : forall gg, In (Ren gg l) (all H ls) -> False).
  { intros gg Q. pose proof (ow_r OW l) as Z. change (occ l (l :: flat_map f_r (all H ls)) <= 1) in Z. rewrite occ_cons in Z.
    destruct (Nat.eq_dec l l); [|congruence]. pose proof (occ_flat_in f_r (all H ls) (Ren gg l) l Q (or_introl eq_refl)). olia. }
  assert (CR : exists c, dl_cont (lo_l o) = Real c /\ kids d F = []).
  { pose proof (sh_cont SH _ _ L) as M. destruct (dl_cont (lo_l o)) as [c|f]; [exists c; tauto|]. exfalso.
    destruct M as (_ & _ & M). apply (M g IR). }
  destruct CR as (c & CR & KF).
  assert (ND := proj1 (sh_wf SH) h). fold d in ND. rewrite KH in ND.
  assert (NF : h <> F).
  { intro E. rewrite E in KH. fold d in KF. fold d in KH. rewrite KF in KH. rewrite EB in KH.
    destruct X; [destruct (flatn blk a1)|]; discriminate. }
  set (X' := X ++ flatn blk a1). set (Y' := flatn blk a2 ++ Y).
  assert (KH' : kids d h = X' ++ (dl_start (lo_l o) :: mids cnt (ord l) ++ [dl_end (lo_l o)]) ++ Y').
  { fold d in KH. rewrite KH, EB. unfold X', Y', whole. apps'. auto. }
  assert (PS : par d (dl_start (lo_l o)) = Some h).
  { apply (sh_wf SH). fold d. rewrite KH'. rewrite !in_app_iff; simpl; auto. }
  destruct (move_out (mids cnt (ord l) ++ [dl_end (lo_l o)]) (dl_start (lo_l o)) d (S (length (kids d h))) h F X' Y' [])
    as (d' & MV & [WD FD KO PO] & KD & KDF); auto.
  { apply (sh_wf SH). }
  { intros n Hn. apply (sh_nofrag SH h). fold d. rewrite KH'. rewrite !in_app_iff. auto. }
  { rewrite KH', !app_length. simpl. olia. }
  rewrite app_comm_cons, last_last in MV.
  unfold u_unrender. fold ls. rewrite GL. fold d F. rewrite PS, MV. simpl.
  set (o' := mkLO (set_cont (lo_l o) (Fake F)) (lo_keys o) (lo_futs o)).
  eexists. split; [reflexivity|]. split; [|split; [reflexivity|]].
  2:{ intros k x G. simpl in G. fold ls in G |- *. rewrite get_set in G. destruct (Nat.eqb_spec k l) as [->|NK]; [|eauto].
      rewrite GL in G. inversion G; subst x. exists o. auto. }
  assert (LS : lsame o o') by (repeat split).
  assert (ES : set_l l o' ls = u ++ (l, o') :: v) by (rewrite EL; apply set_split; auto).
  set (a' := a1 ++ a2).
  assert (FA : flatn blk a' = flatn blk a1 ++ flatn blk a2) by (unfold a'; rewrite flatn_app; auto).
  destruct (geo_place OW SH g h X Y a' PH) as (c2 & b2 & Q1 & Q2 & Q3 & Q4 & Q5).
  { intros x Hx HX. rewrite FA in Hx. 
    apply in_split in HX as (x1 & x2 & ->). rewrite <- app_assoc in ND. simpl in ND. apply NoDup_remove_2 in ND.
    apply ND. rewrite !in_app_iff in *. tauto. }
  { intros k Q. unfold a' in Q. apply (ow_ren OW g). apply E3. rewrite EA. apply in_app_iff in Q. apply in_app_iff; simpl; tauto. }
  assert (B2 : b2 l = blk l).
  { apply Q5. intros x Hx HX. apply in_split in HX as (x1 & x2 & ->). rewrite <- app_assoc in ND. simpl in ND. apply NoDup_remove_2 in ND.
    apply ND. rewrite !in_app_iff in *. tauto. }
  assert (KD' : kids d' h = X ++ flatn blk a' ++ Y).
  { rewrite KD, FA. unfold X', Y'. apps'. auto. }
  assert (KDF' : kids d' F = blk l) by (rewrite KDF, EB; reflexivity).
  assert (KO' : forall q, q <> h -> q <> F -> kids d' q = kids d q).
  { intros q N1 N2. apply KO. simpl. intuition. }
  assert (SF : stored_facts (set_l l o' ls) = stored_facts ls) by (rewrite ES, EL; apply lsame_all; auto).
  destruct (lsame_all u v l o o' LS) as (F0 & F1 & F2 & F3 & F4 & F5). rewrite <- ES, <- EL in F0, F1, F2, F3, F4.
  assert (INF : forall x, In x (all (Ren g l :: H) ls) <-> x = Ren g l \/ In x (all H (set_l l o' ls))).
  { intro x. unfold all. rewrite SF. simpl. intuition. }
  assert (INC : forall x, x <> Ren g l -> In x (all H (set_l l o' ls)) <-> In x (all (Ren g l :: H) ls)).
  { intros x N. rewrite INF. tauto. }
  assert (FMn : forall f : fact -> list nat, f (Ren g l) = [] ->
     flat_map f (all H (set_l l o' ls)) = flat_map f (all (Ren g l :: H) ls)).
  { intros f Ef. unfold all. rewrite SF. simpl. rewrite Ef. auto. }
  assert (PM : forall k, place (all H (set_l l o' ls)) (set_l l o' ls) k <-> place (all (Ren g l :: H) ls) ls k).
  { intro k. split; intro Q.
    - rewrite EL. apply (place_same _ u v l o o'); auto. rewrite <- ES. destruct Q as [(m & Q)|Q]; [left|right; auto].
      exists m. apply INC in Q; [rewrite <- EL; auto|discriminate].
    - rewrite ES. apply (place_same _ u v l o' o); [apply lsame_sym; auto|]. rewrite <- ES, <- EL.
      destruct Q as [(m & Q)|Q]; [left|right; auto]. exists m. apply INC; [discriminate|auto]. }
  assert (LI : forall k x, In (k, x) (set_l l o' ls) -> exists y, In (k, y) ls /\ lsame y x /\
     (k <> l -> y = x) /\ (k = l -> x = o' /\ y = o)).
  { intros k x Q. rewrite ES in Q. destruct (lsame_in u v l o o' k x LS Q) as (y & J1 & J2 & J3 & J4). exists y.
    rewrite EL. split; auto. split; auto. split; auto. intro E. destruct (J3 E); auto. exfalso.
    apply (in_map fst) in H0. rewrite map_app, in_app_iff in H0. simpl in H0. tauto. }
  assert (RU : forall k, k <> l -> forall gg, In (Ren gg k) (all H (set_l l o' ls)) <-> In (Ren gg k) (all (Ren g l :: H) ls)).
  { intros k N gg. apply INC. congruence. }
  split; simpl; fold ls o'.
  - assert (O1 : OWN (Ren g l :: H) (set_l l o' ls)) by (rewrite ES; eapply own_same; eauto; rewrite <- EL; auto).
    eapply own_le; [apply O1| | | | | | | | | |]; try (intro x; simpl; lia).
    + intro x. change (flat_map f_r (Ren g l :: H)) with (l :: flat_map f_r H). rewrite occ_cons. lia.
    + intros k gg e. simpl. split; [intros [Q|Q]; [discriminate|auto]|auto].
    + intros k gg Q. right; auto.
  - exists (upd arr g a'), c2, b2, ord. constructor.
    + auto.
    + intros q x Hx. rewrite FD. destruct (Nat.eq_dec q h) as [->|NQ]; [|destruct (Nat.eq_dec q F) as [->|NQ2]].
      * rewrite KD', FA in Hx. rewrite !in_app_iff in Hx.
        apply (sh_nofrag SH h); fold d; rewrite KH, !in_app_iff; tauto.
      * rewrite KDF' in Hx. apply (sh_nofrag SH h); fold d; rewrite KH, !in_app_iff; tauto.
      * rewrite KO' in Hx by auto. apply (sh_nofrag SH q). auto.
    + intros q x Hx HI. apply INC; [discriminate|]. apply (sh_base SH q); auto. rewrite FMn in HI by auto. rewrite F1 in HI. auto.
    + intros q NQ. rewrite KO'; [apply (sh_U SH); auto| |].
      * intro; subst q. apply NQ. eapply host_U; eauto.
      * intro; subst q. apply NQ. apply (sh_inU SH). rewrite !in_app_iff. right; right. apply in_flat_map. exists (l, o). simpl; auto.
    + intros q Q. apply (sh_inU SH). rewrite !FMn, F3 in Q by auto. auto.
    + intros q Q. rewrite FD. apply (sh_frag SH). rewrite !FMn, F3 in Q by auto. auto.
    + intros m Q. apply INC in Q; [|discriminate]. destruct (sh_FN SH _ Q) as (M1 & M2 & M3).
      assert (MH := host_not_FN OW SH h m HK Q). rewrite FD. split; [|split; auto].
      * destruct (par d' m) as [q|] eqn:EP; auto. exfalso. apply WD in EP. fold d in M1.
        assert (forall q', ~ In m (kids d q')) by (intros q' J; apply (sh_wf SH) in J; fold d in J; congruence).
        pose proof (H0 h) as J1. rewrite KH, !in_app_iff in J1.
        destruct (Nat.eq_dec q h) as [->|NQ]; [|destruct (Nat.eq_dec q F) as [->|NQ2]].
        -- rewrite KD', FA in EP. rewrite !in_app_iff in EP. tauto.
        -- rewrite KDF' in EP. tauto.
        -- rewrite KO' in EP by auto. apply (H0 q EP).
      * rewrite KO'; auto. intro; subst m. fold d in M2. congruence.
    + intros k Q. apply INC in Q; [|discriminate]. apply (sh_FG SH); auto.
    + intros k fr Q. apply INC in Q; [|discriminate].
      assert (fr <> h) by (apply (host_not_FL OW SH h k fr HK Q)).
      rewrite KO'; auto; [apply (sh_FL SH k); auto|]. intro; subst fr.
      apply (host_not_FL OW SH F k F); auto. right. exists l, o. auto.
    + intros m k Q. apply INC in Q; [|discriminate]. rewrite FD. destruct (sh_Con SH _ _ Q) as [M1 M2]. split; auto.
      destruct (Q3 _ _ Q) as [T1 T2]. destruct (Nat.eq_dec m h) as [->|NM].
      * rewrite T2 by auto. auto.
      * rewrite T1, KO'; auto. intro; subst m. fold d in M2. congruence.
    + intros k l' Q. apply PM. apply (sh_Ren SH k l'); auto. apply INF. auto.
    + intros k q m Q. apply INC in Q; [|discriminate]. apply PM. apply (sh_Ent SH k q m); auto.
    + intros k PK. apply (PM k) in PK. split; [|apply Q1; auto]. unfold plc.
      destruct (sh_place SH k PK) as [(G1 & G2 & G3 & G4) _].
      destruct (Nat.eq_dec k g) as [->|NK].
      * rewrite upd_same. fold (els a'). fold (els (arr g)) in E1. split; [|split; [auto|split]].
        -- rewrite EA, els_app in E1. unfold a'. rewrite els_app. exact E1.
        -- intros q m. rewrite INC by discriminate. auto.
        -- intro l'. unfold a'. rewrite in_app_iff. split.
           ++ intro J. assert (J1 : In (inr l') (arr g)) by (rewrite EA, in_app_iff; simpl; tauto).
              apply G4 in J1. apply INF in J1 as [J1|J1]; auto. exfalso. inversion J1; subst l'.
              assert (NDA : NoDup (flatn blk a1 ++ blk l ++ flatn blk a2)).
              { apply (nodup_mid X _ Y). rewrite <- app_assoc in *. simpl. rewrite app_assoc in ND |- *. exact ND. }
              assert (SI : In (dl_start (lo_l o)) (blk l)) by (rewrite EB; left; auto).
              assert (SJ : In (dl_start (lo_l o)) (flatn blk a1 ++ flatn blk a2)).
              { destruct J as [J|J]; apply in_app_iff; [left|right]; apply in_flat_map; exists (inr l); auto. }
              apply in_split in SI as (s1 & s2 & ES'). rewrite ES' in NDA. apps'.
              rewrite <- app_assoc in NDA. simpl in NDA. rewrite app_assoc in NDA. apply NoDup_remove_2 in NDA.
              apply NDA. rewrite !in_app_iff in *. tauto.
           ++ intro J. assert (J1 : In (Ren g l') (all (Ren g l :: H) ls)) by (apply INF; auto). apply G4 in J1.
              rewrite EA in J1. apply in_app_iff in J1 as [J1|[J1|J1]]; auto. inversion J1; subst l'. exfalso.
              apply (UNR g). unfold all in *. rewrite SF in J. auto.
      * rewrite upd_other by auto. split; auto. split; auto. split.
        -- intros q m. rewrite INC by discriminate. auto.
        -- intro l'. rewrite INC by congruence. auto.
    + intros k x Q. destruct (LI k x Q) as (y & J1 & (A1 & A2 & A3 & A4 & A5 & A6 & A7) & _). rewrite A1, A2, A3, A4, A6.
      destruct (sh_list SH _ _ J1) as (M1 & M2 & M3 & M4). split; auto.
    + intros k x Q. destruct (LI k x Q) as (y & J1 & (A1 & A2 & A3 & A4 & A5 & A6 & A7) & J3 & J4).
      destruct (Nat.eq_dec k l) as [->|NK].
      * destruct (J4 eq_refl) as [-> ->]. simpl. split; auto. split; [rewrite KDF'; auto|].
        intros gg J. apply (UNR gg). unfold all in *. rewrite SF in J. auto.
      * rewrite (J3 NK) in *. clear J3 J4. pose proof (sh_cont SH _ _ J1) as M.
        assert (NFF : dl_frag (lo_l x) <> F).
        { intro E. apply NK. apply (frag_uniq OW SH _ _ _ _ J1 L E). }
        destruct (dl_cont (lo_l x)) as [c'|f] eqn:ED.
        -- destruct M as (M1 & kk & M2 & M2c). assert (dl_frag (lo_l x) <> h).
           { intro E. rewrite E in M1. fold d in M1. rewrite M1 in KH'. destruct X'; discriminate. }
           rewrite KO' by auto. split; auto. exists kk. split; [apply RU; auto|]. intros m Q'. apply M2c. right. unfold all in *. rewrite SF in Q'. auto.
        -- destruct M as (M1 & M2 & M3). split; auto. subst f. destruct (Q4 _ _ _ J1 ED) as [T1 T2]. split.
           ++ destruct (Nat.eq_dec (dl_frag (lo_l x)) h) as [E|N]; [rewrite (T2 E), E; auto|]. rewrite T1, KO' by auto. auto.
           ++ intros kk Q'. apply RU in Q'; auto. apply (M3 kk Q').
Qed.
End Un.
