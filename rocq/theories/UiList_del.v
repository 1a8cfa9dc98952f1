(** Detaching what a future shows: [remove_child] on a context, and the invariant after it. *)
From Coq Require Import List Arith NArith Bool Lia Permutation Sorting.Sorted.
From Verif Require Import Util Position Dom Context Spec_path Spec_list Render_history
  Position_proofs Dom_proofs Context_proofs Render_history_proofs Ui DynList DynList_proofs DynList_run_proofs
  UiList Spec_uilist UiList_core UiList_inv UiList_shape UiList_ops UiList_add.
Import ListNotations.

Definition without (gone : list node) (l : list node) : list node := filter (fun n => negb (memb n gone)) l.

Lemma memb_iff n l : memb n l = true <-> In n l.
Proof.
  unfold memb. rewrite existsb_exists. split.
  - intros (x & I & E). apply Nat.eqb_eq in E. subst; auto.
  - intro I. exists n. rewrite Nat.eqb_refl; auto.
Qed.
Lemma memb_false n l : memb n l = false <-> ~ In n l.
Proof. rewrite <- memb_iff. destruct (memb n l); split; congruence. Qed.
Lemma without_nil l : without [] l = l.
Proof. induction l; simpl; f_equal; auto. Qed.
Lemma without_none gone l : (forall x, In x gone -> ~ In x l) -> without gone l = l.
Proof.
  intro N. induction l as [|a l IH]; simpl; auto. destruct (memb a gone) eqn:E; simpl.
  - apply memb_iff in E. exfalso. apply (N a); simpl; auto.
  - f_equal. apply IH. intros x X Y. apply (N x); simpl; auto.
Qed.
Lemma without_in gone l x : In x (without gone l) <-> In x l /\ ~ In x gone.
Proof. unfold without. rewrite filter_In, negb_true_iff, memb_false. tauto. Qed.
Lemma without_app gone a b : without gone (a ++ b) = without gone a ++ without gone b.
Proof. apply filter_app. Qed.
Lemma without_remove n gone l : NoDup l -> without gone (remove_node n l) = without (n :: gone) l.
Proof.
  intros _. unfold without, remove_node. induction l as [|a l IH]; simpl; auto.
  destruct (Nat.eqb_spec a n); simpl; auto. destruct (memb a gone); simpl; auto. f_equal; auto.
Qed.

Lemma without_ext a b l : (forall x, In x a <-> In x b) -> without a l = without b l.
Proof.
  intro E. apply filter_ext. intro x. f_equal. apply eq_true_iff_eq. rewrite !memb_iff. auto.
Qed.

Lemma rem_all_gen g : forall d cont, dom_wf d -> NoDup (map snd g) ->
  (forall n, In n (map snd g) -> In n (kids d cont)) ->
  exists d', remove_all d cont g = Some d' /\ dom_wf d' /\ frag d' = frag d /\
    (forall q, kids d' q = without (map snd g) (kids d q)).
Proof.
  induction g as [|[k v] g IH]; simpl; intros d cont W ND I.
  - exists d. repeat split; auto; try apply W. intro; rewrite without_nil; auto.
  - inversion ND; subst. destruct (remove_child_spec d cont v W) as (d1 & E & W1 & F1 & P1 & P2 & K1); [apply I; auto|].
    rewrite E. destruct (IH d1 cont W1 H2) as (d2 & E2 & W2 & F2 & K2).
    + intros n Hn. rewrite K1. apply in_remove_node. split; [apply I; auto|]. intro; subst; auto.
    + exists d2. repeat split; auto; try apply W2; try congruence. intro q. rewrite K2, K1. apply without_remove. apply W.
Qed.

Lemma rem_range_gen fuel : forall lo hi d cont g, dom_wf d -> sorted g -> NoDup (map snd g) ->
  (forall n, In n (map snd g) -> In n (kids d cont)) ->
  length (filter (in_range lo hi) g) < fuel ->
  exists d', remove_range fuel lo hi d cont g = Some (d', filter (fun e => negb (in_range lo hi e)) g) /\
    dom_wf d' /\ frag d' = frag d /\
    (forall q, kids d' q = without (map snd (filter (in_range lo hi) g)) (kids d q)).
Proof.
  induction fuel as [|fuel IH]; intros lo hi d cont g W S ND I L; [lia|].
  simpl. unfold range_last.
  change (fun e : pos * node => (pos_leb lo (fst e) && pos_ltb (fst e) hi)%bool) with (in_range lo hi).
  destruct (filter_last_split (in_range lo hi) g) as [E|(l1 & [k v] & l2 & -> & H1 & H2 & H3)].
  - rewrite E. simpl. exists d.
    assert (FG : filter (fun e => negb (in_range lo hi e)) g = g).
    { clear - E. induction g as [|a g IH]; simpl in *; auto.
      destruct (in_range lo hi a); simpl; [discriminate|]. f_equal; auto. }
    rewrite FG. repeat split; auto; try apply W. intro; rewrite without_nil; auto.
  - rewrite H3, last_some_app. rewrite map_app in ND, I. simpl in ND, I.
    assert (Iv : In v (kids d cont)) by (apply I; rewrite in_app_iff; simpl; auto).
    destruct (remove_child_spec d cont v W Iv) as (d1 & E1 & W1 & F1 & P1 & P2 & K1).
    rewrite E1, bt_remove_mid by auto.
    pose proof (NoDup_remove_2 _ _ _ ND) as ND2. pose proof (NoDup_remove_1 _ _ _ ND) as ND1.
    destruct (IH lo hi d1 cont (l1 ++ l2) W1) as (d2 & E2 & W2 & F2 & K2).
    + unfold sorted, keys in *. rewrite map_app in *. simpl in S. eapply ssorted_drop_mid; eauto.
    + rewrite map_app. auto.
    + intros n Hn. rewrite map_app in Hn. rewrite K1. apply in_remove_node. split.
      * apply I. apply in_app_iff in Hn. apply in_app_iff; simpl; tauto.
      * intro; subst. auto.
    + rewrite H3, app_length in L. simpl in L. rewrite filter_app, H2, app_nil_r. lia.
    + assert (FE : filter (fun e => negb (in_range lo hi e)) (l1 ++ l2)
               = filter (fun e => negb (in_range lo hi e)) (l1 ++ (k, v) :: l2)).
      { rewrite !filter_app. simpl. rewrite H1. auto. }
      rewrite FE in *. exists d2. repeat split; try apply W2; auto; try congruence.
      intro q. rewrite K2, K1, without_remove by apply W. apply without_ext. intro x.
      rewrite filter_app, H2, app_nil_r. rewrite map_app. rewrite in_app_iff. simpl. tauto.
Qed.

(** what is removed *)
Definition gonef (p : pos) (g : group) : list node := map snd (filter (fun e => underb (rev p) (rev (fst e))) g).

Lemma rem_gen s g cont p : dom_wf (rdom s) -> sorted (rgrp s g) -> NoDup (map snd (rgrp s g)) ->
  (forall n, In n (map snd (rgrp s g)) -> In n (kids (rdom s) cont)) -> pos_ok p ->
  exists d', remove_here s g cont p = Some (mkR d' (upd (rgrp s) g (keep p (rgrp s g)))) /\
    dom_wf d' /\ frag d' = frag (rdom s) /\
    (forall q, kids d' q = without (gonef p (rgrp s g)) (kids (rdom s) q)).
Proof.
  intros W S ND I P. unfold remove_here, remove_children_here.
  destruct p as [|x t]; simpl is_root; cbv iota.
  - destruct (rem_all_gen _ _ _ W ND I) as (d' & E & W' & F' & K'). rewrite E. exists d'.
    assert (KE : keep [] (rgrp s g) = []).
    { unfold keep. simpl. clear. induction (rgrp s g); simpl; auto.
      rewrite (proj2 (underb_iff [] _) (under_nil _)). simpl. auto. }
    rewrite KE. split; auto. split; auto. split; auto. intro q. rewrite K'. f_equal. unfold gonef. f_equal.
    clear. induction (rgrp s g); simpl; auto. rewrite (proj2 (underb_iff [] _) (under_nil _)). f_equal; auto.
  - assert (NS : next_sibling (x :: t) = Some (x + 1 :: t)%N).
    { unfold next_sibling. simpl in P. apply N.ltb_lt in P. rewrite P; auto. }
    rewrite NS.
    assert (LF : length (filter (in_range (x :: t) (x + 1 :: t)%N) (rgrp s g)) < Datatypes.S (length (rgrp s g))).
    { clear. induction (rgrp s g); simpl; [lia|]. destruct (in_range _ _ _); simpl; lia. }
    destruct (rem_range_gen _ _ (x + 1 :: t)%N _ _ _ W S ND I LF) as (d' & E & W' & F' & K').
    rewrite E. exists d'.
    assert (IR : forall e, in_range (x :: t) (x + 1 :: t)%N e = underb (rev (x :: t)) (rev (fst e))).
    { intro e. apply eq_true_iff_eq. rewrite underb_iff. apply next_sibling_range; auto. }
    assert (KE : filter (fun e => negb (in_range (x :: t) (x + 1 :: t)%N e)) (rgrp s g) = keep (x :: t) (rgrp s g)).
    { unfold keep. apply filter_ext. intro; rewrite IR; auto. }
    rewrite KE. split; auto. split; auto. split; auto. intro q. rewrite K'. f_equal. unfold gonef. f_equal.
    apply filter_ext. auto.
Qed.

(** ** arrangements *)
Definition withouta (gone : list node) (a : list (node + nat)) : list (node + nat) :=
  filter (fun x => match x with inl n => negb (memb n gone) | inr _ => true end) a.
Lemma els_withouta gone a : els (withouta gone a) = without gone (els a).
Proof.
  induction a as [|[n|l] a IH]; auto. simpl. destruct (memb n gone); simpl; [|f_equal]; auto.
Qed.
Lemma flatn_withouta gone blk a : (forall l, In (inr l) a -> forall x, In x gone -> ~ In x (blk l)) ->
  flatn blk (withouta gone a) = without gone (flatn blk a).
Proof.
  induction a as [|[n|l] a IH]; intro N; auto.
  - simpl. destruct (memb n gone) eqn:E; simpl; [|f_equal]; apply IH; intros; eapply N; simpl; eauto.
  - change (withouta gone (inr l :: a)) with (inr l :: withouta gone a).
    change (flatn blk (inr l :: a)) with (blk l ++ flatn blk a).
    change (flatn blk (inr l :: withouta gone a)) with (blk l ++ flatn blk (withouta gone a)).
    rewrite without_app, without_none.
    + f_equal. apply IH. intros; eapply N; simpl; eauto.
    + apply N; simpl; auto.
Qed.
Lemma els_in_flatn blk a n : In n (els a) -> In n (flatn blk a).
Proof.
  induction a as [|[m|l] a IH]; simpl; auto.
  - intros [->|X]; auto.
  - intro X. apply in_app_iff. auto.
Qed.
Lemma flatn_nodup_els blk a : NoDup (flatn blk a) -> NoDup (els a) /\
  (forall l, In (inr l) a -> forall x, In x (els a) -> ~ In x (blk l)).
Proof.
  induction a as [|[m|l] a IH].
  - split; [constructor|]. simpl; tauto.
  - simpl. intro ND. inversion ND; subst. destruct (IH H2) as [N1 N2]. split.
    + constructor; auto. intro X. apply H1. apply els_in_flatn; auto.
    + intros l [X|X]; [discriminate|]. intros x [<-|Y]; [|eapply N2; eauto].
      intro Z. apply H1. clear - X Z. induction a as [|y a IH]; [destruct X|]. destruct X as [->|X].
      * simpl. apply in_app_iff; auto.
      * destruct y; simpl; [right|apply in_app_iff; right]; auto.
  - change (flatn blk (inr l :: a)) with (blk l ++ flatn blk a). intro ND.
    assert (ND' : NoDup (flatn blk a)).
    { clear - ND. induction (blk l); auto. inversion ND; auto. }
    destruct (IH ND') as [N1 N2]. split; auto. intros l' [X|X].
    + inversion X; subst l'. intros x Y Z. change (els (inr l :: a)) with (els a) in Y.
      apply (els_in_flatn blk) in Y. clear - ND Y Z. induction (blk l) as [|b t IH]; [destruct Z|].
      inversion ND; subst. destruct Z as [->|Z]; auto. apply H1. apply in_app_iff; auto.
    + apply N2; auto.
Qed.

Definition isgone (g : gid) (p : path) (x : fact) : bool :=
  match x with Ent g' q _ => Nat.eqb g' g && underb p q | _ => false end.
Definition cut (g : gid) (p : path) (H : list fact) : list fact := filter (fun x => negb (isgone g p x)) H.

Lemma occ_flat_filter {A} (k : A -> bool) (f : A -> list nat) l x :
  occ x (flat_map f (filter k l)) <= occ x (flat_map f l).
Proof. induction l as [|a l IH]; simpl; auto. destruct (k a); simpl; rewrite ?occ_app; lia. Qed.

Lemma in_cut g p H x : In x (cut g p H) <-> In x H /\ isgone g p x = false.
Proof. unfold cut. rewrite filter_In, negb_true_iff. tauto. Qed.

Section Ops.
Variable base0 : node -> list node.
Variable U : list node.

Lemma detach w H b g p : INV base0 U w H -> cbase H b g -> indices_ok p ->
  exists r', remove_child_ctx (ctx_at b p) pos_default (u_r w) = Some r' /\
    INV base0 U (w_r w r') (cut g p H).
Proof.
  intros (OW & arr & cnt & blk & ord & SH) CB IO.
  destruct (cbase_host OW SH b g CB) as (X & Y & R0 & PH & BO & FC & _).
  set (h := containing_node b) in *. set (ls := u_ls w) in *. set (d := rdom (u_r w)) in *. set (gr := rgrp (u_r w)) in *.
  assert (P := phost_place SH _ _ _ _ PH).
  assert (HK := proj1 (host_kind SH) _ _ _ _ PH).
  assert (KH := proj1 (host_kids SH) _ _ _ _ PH).
  destruct (sh_place SH g P) as [(E1 & S1 & E2 & E3) EC]. fold (els (arr g)) in E1.
  assert (ND : NoDup (X ++ flatn blk (arr g) ++ Y)) by (rewrite <- EC, <- KH; apply (sh_wf SH)).
  assert (NDF : NoDup (flatn blk (arr g))).
  { clear - ND. induction X; simpl in *; [|inversion ND; auto]. 
    induction (flatn blk (arr g)); [constructor|]. simpl in ND. inversion ND; subst. constructor; auto.
    intro Q. apply H1. apply in_app_iff; auto. }
  destruct (flatn_nodup_els _ _ NDF) as [NDE NEB].
  set (gone := gonef (rev p) (gr g)).
  assert (GI : forall x, In x gone -> In x (els (arr g))).
  { intros x Q. rewrite E1. unfold gone, gonef in Q. apply in_map_iff in Q as (e & <- & Q). apply filter_In in Q.
    apply in_map. tauto. }
  destruct (rem_gen (u_r w) g h (rev p)) as (d' & RH & WD & FD & KD).
  { apply (sh_wf SH). }
  { auto. }
  { change (NoDup (map snd (gr g))). rewrite <- E1. auto. }
  { intros n Hn. fold d. rewrite KH, EC. fold gr in Hn. rewrite <- E1 in Hn. rewrite !in_app_iff. right; left.
    apply els_in_flatn; auto. }
  { apply indices_ok_pos; auto. }
  fold d gr in RH, FD, KD. fold gone in KD.
  rewrite remove_child_ctx_at. unfold pos_default. simpl app.
  rewrite (remove_child_base _ _ _ _ _ _ BO). fold h. rewrite RH. eexists. split; [reflexivity|].
  set (a' := withouta gone (arr g)).
  assert (FA : flatn blk a' = without gone (flatn blk (arr g))).
  { apply flatn_withouta. intros l Il x Hx. apply NEB; auto. }
  assert (XG : forall x, In x gone -> ~ In x X /\ ~ In x Y).
  { intros x Hx. apply GI in Hx. apply (els_in_flatn blk) in Hx. apply in_split in Hx as (u & v & EU).
    rewrite EU in ND. apps'. rewrite <- app_assoc in ND. simpl in ND. rewrite app_assoc in ND. apply NoDup_remove_2 in ND.
    rewrite !in_app_iff in ND. tauto. }
  assert (KDH : kids d' h = X ++ flatn blk a' ++ Y).
  { rewrite KD, KH, EC, !without_app, FA. rewrite (without_none _ X), (without_none _ Y); auto; intros x Hx; apply XG; auto. }
  assert (KO : forall q, q <> h -> kids d' q = kids d q).
  { intros q NQ. rewrite KD. apply without_none. intros x Hx HQ. apply NQ.
    assert (In x (kids d h)). { rewrite KH, EC, !in_app_iff. right; left. apply els_in_flatn; auto. }
    apply (sh_wf SH) in HQ. apply (sh_wf SH) in H0. fold d in HQ, H0. congruence. }
  destruct (geo_place OW SH g h X Y a' PH) as (c2 & b2 & Q1 & Q2 & Q3 & Q4 & Q5).
  { intros x Hx HX. rewrite FA in Hx. apply without_in in Hx as [Hx _].
    apply in_split in Hx as (u & v & EU). rewrite EU in ND. rewrite <- app_assoc in ND. simpl in ND. rewrite app_assoc in ND.
    apply NoDup_remove_2 in ND. apply ND. rewrite !in_app_iff. auto. }
  { intros l Q. apply filter_In in Q as [Q _]. apply E3 in Q. eapply ow_ren; eauto. }
  assert (HG : held H g) by (eapply cbase_held; eauto).
  assert (INF : forall x, In x (all (cut g p H) ls) <-> In x (all H ls) /\ isgone g p x = false).
  { intro x. unfold all. rewrite !in_app_iff, in_cut. split; [|tauto].
    intros [Q|Q]; [tauto|]. split; auto. destruct x; auto. simpl. destruct (Nat.eqb_spec g0 g); auto. subst g0.
    exfalso. eapply held_stored; eauto. }
  assert (INC : forall x, isgone g p x = false -> In x (all (cut g p H) ls) <-> In x (all H ls)) by (intros; rewrite INF; tauto).
  assert (PM : forall k, place (all (cut g p H) ls) ls k <-> place (all H ls) ls k).
  { intro k. unfold place. split; (intros [(m & Q)|Q]; [left; exists m; apply INF in Q || apply INF; tauto|right; auto]). }
  assert (FM : forall f x, In x (flat_map f (all (cut g p H) ls)) -> In x (@flat_map _ nat f (all H ls))).
  { intros f x Q. apply in_flat_map in Q as (y & Y1 & Y2). apply INF in Y1. apply in_flat_map. exists y. tauto. }
  split.
  { simpl. fold ls. eapply own_le; [apply OW| | | | | | | | | |]; try (intro x; apply occ_flat_filter).
    - intros l k e. rewrite in_cut. simpl. tauto.
    - intros l k. rewrite in_cut. tauto. }
  exists (upd arr g a'), c2, b2, ord. constructor; simpl; fold ls.
  - auto.
  - intros q x Hx. rewrite FD. rewrite KD in Hx. apply without_in in Hx as [Hx _]. eapply sh_nofrag; eauto.
  - intros q x Hx HI. apply INC; auto. eapply (sh_base SH); eauto. rewrite in_app_iff in *. destruct HI as [HI|HI]; auto.
  - intros q NU. rewrite KO; [eapply sh_U; eauto|]. intro; subst q. apply NU. eapply host_U; eauto.
  - intros q Q. apply (sh_inU SH). rewrite !in_app_iff in *. destruct Q as [Q|[Q|Q]]; auto.
  - intros q Q. rewrite FD. apply (sh_frag SH). rewrite !in_app_iff in *. destruct Q as [Q|Q]; auto.
  - intros m Q. apply INF in Q as [E _]. destruct (sh_FN SH _ E) as (M1 & M2 & M3).
    assert (MH := host_not_FN OW SH h m HK E). rewrite KO, FD by auto. repeat split; auto.
    destruct (par d' m) as [q|] eqn:EP; auto. exfalso. apply WD in EP. rewrite KD in EP. apply without_in in EP as [EP _].
    apply (sh_wf SH) in EP. fold d in M1. congruence.
  - intros k Q. apply INF in Q as [E _]. rewrite upd_other; [eapply sh_FG; eauto|].
    intro; subst k. apply (place_not_FG OW g P E).
  - intros l fr Q. apply INF in Q as [E _]. 
    rewrite KO; [eapply sh_FL; eauto|]. apply (host_not_FL OW SH h l fr HK E).
  - intros m k Q. apply INF in Q as [E _]. rewrite FD.
    destruct (sh_Con SH _ _ E) as [M1 M2]. split; auto.
    destruct (Q3 _ _ E) as [T1 T2]. destruct (Nat.eq_dec m h) as [->|NM].
    + rewrite T2 by auto. auto.
    + rewrite T1, KO by auto. auto.
  - intros k l Q. apply INF in Q as [E _]. apply PM. eapply sh_Ren; eauto.
  - intros k q m Q. apply INF in Q as [E _]. apply PM. eapply sh_Ent; eauto.
  - intros k PK. apply (PM k) in PK. split; [|apply Q1; auto]. unfold plc.
    destruct (sh_place SH k PK) as [(F1 & F2 & F3 & F4) _].
    destruct (Nat.eq_dec k g) as [->|NK'].
    + rewrite !upd_same. fold (els a'). unfold a' at 1. rewrite els_withouta, E1.
      assert (KE : forall e, In e (gr g) -> memb (snd e) gone = underb p (rev (fst e))).
      { intros e He. apply eq_true_iff_eq. rewrite memb_iff. unfold gone, gonef. rewrite rev_involutive. split.
        - intro Q. apply in_map_iff in Q as (e' & Q6 & Q7). apply filter_In in Q7 as [Q7 Q8].
          assert (e' = e); [|subst e'; auto]. rewrite E1 in NDE. clear - NDE He Q7 Q6.
          induction (gr g) as [|a t IH]; [destruct He|]. simpl in NDE. inversion NDE; subst.
          destruct He as [->|He], Q7 as [->|Q7]; auto.
          + exfalso. apply H1. apply in_map_iff. exists e'. split; auto.
          + exfalso. apply H1. apply in_map_iff. exists e. split; auto.
        - intro Q. apply in_map. apply filter_In; auto. }
      split; [|split; [|split]].
      * unfold keep. rewrite rev_involutive. revert KE. generalize gone. generalize (gr g). clear.
        intros t go. induction t as [|e t IH]; intro KE; auto. simpl.
        assert (KE0 := KE e (or_introl eq_refl)). unfold pos in *. rewrite <- KE0.
        destruct (memb (snd e) go); simpl; [|f_equal]; apply IH; intros; apply KE; right; auto.
      * apply filter_sorted; auto.
      * intros q m. unfold keep. rewrite filter_In, INF. simpl. rewrite !rev_involutive, Nat.eqb_refl, negb_true_iff.
        simpl. rewrite <- F3. tauto.
      * intro l. rewrite INC by auto. rewrite <- F4. unfold a', withouta. rewrite filter_In. tauto.
    + rewrite !upd_other by auto. split; auto. split; auto. split.
      * intros q m. fold gr in F3. rewrite F3. rewrite INC; [tauto|]. simpl. destruct (Nat.eqb_spec k g); [exfalso; auto|reflexivity].
      * intro l. rewrite F4. rewrite INC; tauto.
  - intros l o L. destruct (sh_list SH _ _ L) as (M1 & M2 & M3 & M4). split; auto.
  - intros l o L. pose proof (sh_cont SH _ _ L) as M. destruct (dl_cont (lo_l o)) as [c|f] eqn:ED.
    + destruct M as (M1 & k & M2 & M2c). assert (dl_frag (lo_l o) <> h).
      { intro Q. pose proof (list_frag SH _ _ L). fold d in FC. congruence. }
      rewrite KO by auto. split; auto. exists k. split; [apply INC; auto|]. intros m Q. apply INF in Q as [Q _]. auto.
    + destruct M as (M1 & M2 & M3). split; auto. destruct (Q4 _ _ _ L ED) as [T1 T2]. split.
      * destruct (Nat.eq_dec f h) as [->|NF]; [rewrite T2 by auto; auto|rewrite T1, KO by auto; auto].
      * intros k Q. apply INF in Q as [E _]. apply (M3 k E).
Qed.
End Ops.
