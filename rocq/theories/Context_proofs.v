From Coq Require Import List Arith NArith Bool Lia Permutation Sorting.Sorted.
From Verif Require Import Position Spec_path Position_proofs Dom Dom_proofs Context.
Import ListNotations.

(** keys of a group as outermost-first paths *)
Definition keys (g : group) : list path := map (fun e => rev (fst e)) g.

Definition sorted (g : group) : Prop := StronglySorted path_lt (keys g).

Definition underb (p q : path) : bool := if under_dec_b p q then true else false.
Lemma underb_iff p q : underb p q = true <-> under p q.
Proof. unfold underb. destruct (under_dec_b p q); split; congruence || tauto. Qed.

Definition keep (p : pos) (g : group) : group :=
  filter (fun e => negb (underb (rev p) (rev (fst e)))) g.

Lemma sorted_nodup g : sorted g -> NoDup (keys g).
Proof.
  unfold sorted. induction 1 as [|x l S IH F]; constructor; auto.
  intro H. rewrite Forall_forall in F. apply (path_lt_irrefl x). auto.
Qed.

Lemma sorted_cons e g : sorted (e :: g) <->
  sorted g /\ Forall (fun k => path_lt (rev (fst e)) k) (keys g).
Proof.
  unfold sorted; simpl. split.
  - intro H; inversion H; auto.
  - intros []; constructor; auto.
Qed.

Lemma filter_sorted (f : pos * node -> bool) g : sorted g -> sorted (filter f g).
Proof.
  induction g as [|e g IH]; simpl; auto. rewrite sorted_cons. intros [S F].
  destruct (f e); auto. rewrite sorted_cons. split; auto.
  rewrite Forall_forall in *. intros k Hk. apply F.
  unfold keys in *. rewrite in_map_iff in *. destruct Hk as (x & <- & Hx).
  apply filter_In in Hx. exists x; tauto.
Qed.

(** decomposition of insertion at a position not yet present *)
Lemma bt_insert_split p n g : sorted g -> ~ In (rev p) (keys g) ->
  exists g1 g2, g = g1 ++ g2 /\ bt_insert p n g = (g1 ++ (p, n) :: g2, None) /\
    range_from_first p g = hd_error (map snd g2) /\
    sorted (g1 ++ (p, n) :: g2).
Proof.
  induction g as [|[k v] g IH]; intros S NI.
  - exists [], []. simpl. repeat split; auto. unfold sorted; simpl. repeat constructor.
  - apply sorted_cons in S as [S F]. simpl in NI, F.
    simpl. unfold pos_leb. destruct (pos_cmp p k) eqn:E.
    + apply pos_cmp_eq in E. subst. exfalso; auto.
    + exists [], ((k, v) :: g). simpl. repeat split; auto.
      apply pos_cmp_lt in E.
      apply sorted_cons. split.
      * apply sorted_cons; auto.
      * constructor; simpl; auto. rewrite Forall_forall in *.
        intros x Hx. eapply path_lt_trans; eauto.
    + apply pos_cmp_gt in E. destruct IH as (g1 & g2 & -> & B & R & S'); auto.
      exists ((k, v) :: g1), g2. rewrite B. simpl. repeat split; auto.
      apply sorted_cons. split; auto. simpl.
      unfold keys in *. rewrite map_app in *. simpl. rewrite Forall_app in *. simpl.
      destruct F as [F1 F2]. repeat split; auto.
Qed.

(** the picture of one group in the document: foreign nodes [F], the group's
    nodes in key order, then [R] (empty for an element's own group, starting with
    the reference node for a list item's group) *)
Definition picture (s : rstate) (g : gid) (cont : node) (F R : list node) : Prop :=
  dom_wf (rdom s) /\ sorted (rgrp s g) /\
  kids (rdom s) cont = F ++ map snd (rgrp s g) ++ R.

Lemma add_here_spec s g cont F R p n :
  picture s g cont F R ->
  ~ In (rev p) (keys (rgrp s g)) ->
  frag (rdom s) n = false -> par (rdom s) n = None ->
  let ref := match range_from_first p (rgrp s g) with
             | Some r => Some r | None => hd_error R end in
  exists s' g1 g2, add_here s g cont p n ref = Some s' /\
    rgrp s g = g1 ++ g2 /\ rgrp s' g = g1 ++ (p, n) :: g2 /\
    (forall h, h <> g -> rgrp s' h = rgrp s h) /\
    picture s' g cont F R /\
    frag (rdom s') = frag (rdom s) /\
    par (rdom s') n = Some cont /\
    (forall m, m <> n -> par (rdom s') m = par (rdom s) m) /\
    (forall q, q <> cont -> kids (rdom s') q = kids (rdom s) q).
Proof.
  intros (W & S & K) NI FR PA ref.
  destruct (bt_insert_split p n _ S NI) as (g1 & g2 & Eg & B & RF & S').
  unfold add_here.
  assert (IB : exists d', insert_before (rdom s) cont n ref = Some d' /\
     dom_wf d' /\ frag d' = frag (rdom s) /\
     par d' n = Some cont /\ (forall m, m <> n -> par d' m = par (rdom s) m) /\
     kids d' cont = F ++ map snd (g1 ++ (p, n) :: g2) ++ R /\
     (forall q, q <> cont -> kids d' q = kids (rdom s) q)).
  { subst ref. rewrite RF. rewrite Eg, map_app in K.
    destruct g2 as [|[k v] g2]; simpl in *.
    - destruct R as [|r R]; simpl.
      + destruct (insert_fresh_none (rdom s) cont n W FR PA)
          as (d' & E & W' & F' & P1 & P2 & K1 & K2).
        exists d'; repeat (split; auto). rewrite K1, K, map_app.
        simpl. rewrite !app_nil_r, app_assoc. auto.
      + rewrite app_nil_r in K. rewrite app_assoc in K.
        destruct (insert_fresh_some (rdom s) cont n r _ _ W FR PA K)
          as (d' & E & W' & F' & P1 & P2 & K1 & K2).
        exists d'; repeat (split; auto). rewrite K1, map_app. simpl.
        rewrite <- !app_assoc. auto.
    - rewrite <- app_assoc in K. simpl in K. rewrite app_assoc in K.
      destruct (insert_fresh_some (rdom s) cont n v _ _ W FR PA K)
        as (d' & E & W' & F' & P1 & P2 & K1 & K2).
      exists d'; repeat (split; auto). rewrite K1, map_app. simpl.
      rewrite <- !app_assoc. auto. }
  destruct IB as (d' & E & W' & F' & P1 & P2 & K1 & K2).
  rewrite E, B. eexists. exists g1, g2. split; [reflexivity|].
  simpl. rewrite upd_same. repeat split; simpl; auto.
  - intros; apply upd_other; auto.
  - apply W'.
  - apply W'.
  - apply W'.
  - rewrite upd_same; auto.
  - rewrite upd_same; auto.
Qed.

Lemma remove_all_spec g : forall d cont F R,
  dom_wf d -> kids d cont = F ++ map snd g ++ R ->
  exists d', remove_all d cont g = Some d' /\ dom_wf d' /\ frag d' = frag d /\
    kids d' cont = F ++ R /\
    (forall q, q <> cont -> kids d' q = kids d q) /\
    (forall m, ~ In m (map snd g) -> par d' m = par d m) /\
    (forall m, In m (map snd g) -> par d' m = None).
Proof.
  induction g as [|[k v] g IH]; simpl; intros d cont F R W K.
  - exists d. repeat split; auto; try apply W; tauto.
  - destruct (remove_child_spec d cont v W) as (d1 & E & W1 & F1 & P1 & P2 & K1).
    { rewrite K, in_app_iff; simpl; auto. }
    rewrite E.
    assert (ND : NoDup (F ++ v :: map snd g ++ R)) by (rewrite <- K; apply W).
    apply NoDup_remove_2 in ND. rewrite in_app_iff in ND.
    destruct (IH d1 cont F R W1) as (d2 & E2 & W2 & F2 & K2 & Q2 & P3 & P4).
    { rewrite K1, K, remove_node_mid; tauto. }
    exists d2. repeat split; try apply W2; auto; try congruence.
    + intros q Hq. rewrite Q2, K1 by auto. apply remove_node_notin.
      intro H. apply W in H.
      assert (In v (kids d cont)) by (rewrite K, in_app_iff; simpl; auto).
      apply W in H0. congruence.
    + intros m Hm. rewrite P3, P2; tauto || (intro; apply Hm; auto).
    + intros m [Hm|Hm]; auto. subst m.
      destruct (in_dec Nat.eq_dec v (map snd g)) as [Hi|Hi]; auto.
      rewrite P3; auto.
Qed.

Lemma last_some_app {A} (l : list A) (x : A) : last (map Some (l ++ [x])) None = Some x.
Proof. rewrite map_app. simpl. apply last_last. Qed.

Lemma filter_last_split {A} (f : A -> bool) (l : list A) :
  (filter f l = []) \/
  exists l1 x l2, l = l1 ++ x :: l2 /\ f x = true /\ filter f l2 = [] /\
     filter f l = filter f l1 ++ [x].
Proof.
  induction l as [|a l IH] using rev_ind; simpl; auto.
  rewrite filter_app. simpl. destruct (f a) eqn:E.
  - right. exists l, a, []. repeat split; auto.
  - rewrite app_nil_r. destruct IH as [H|(l1 & x & l2 & -> & H1 & H2 & H3)]; auto.
    right. exists l1, x, (l2 ++ [a]). rewrite <- app_assoc. simpl. repeat split; auto.
    rewrite filter_app; simpl. rewrite E, H2. auto.
Qed.

Lemma bt_remove_mid l1 k v l2 : sorted (l1 ++ (k, v) :: l2) ->
  bt_remove k (l1 ++ (k, v) :: l2) = l1 ++ l2.
Proof.
  intro S. apply sorted_nodup in S. unfold keys in S. rewrite map_app in S. simpl in S.
  apply NoDup_remove_2 in S. rewrite in_app_iff in S.
  assert (H : forall l, ~ In (rev k) (map (fun e : pos * node => rev (fst e)) l) -> bt_remove k l = l).
  { induction l as [|[a b] l IH]; simpl; intro H; auto. unfold bt_remove; simpl.
    destruct (pos_eqb a k) eqn:E; simpl.
    - apply pos_eqb_iff in E. subst. exfalso; auto.
    - f_equal. apply IH. tauto. }
  unfold bt_remove in *. rewrite filter_app. simpl.
  rewrite (proj2 (pos_eqb_iff k k) eq_refl). simpl. rewrite !H; tauto.
Qed.

Lemma ssorted_drop_mid (l1 l2 : list path) x :
  StronglySorted path_lt (l1 ++ x :: l2) -> StronglySorted path_lt (l1 ++ l2).
Proof.
  induction l1 as [|a l1 IH]; simpl; intro S; inversion S; subst; auto.
  constructor; auto. rewrite Forall_app in *. destruct H2 as [A B]. inversion B; auto.
Qed.

Definition in_range (lo hi : pos) (e : pos * node) : bool :=
  andb (pos_leb lo (fst e)) (pos_ltb (fst e) hi).

Lemma remove_range_spec fuel : forall lo hi d cont g F R,
  dom_wf d -> sorted g -> kids d cont = F ++ map snd g ++ R ->
  length (filter (in_range lo hi) g) < fuel ->
  exists d', remove_range fuel lo hi d cont g
      = Some (d', filter (fun e => negb (in_range lo hi e)) g) /\
    dom_wf d' /\ frag d' = frag d /\
    kids d' cont = F ++ map snd (filter (fun e => negb (in_range lo hi e)) g) ++ R /\
    (forall q, q <> cont -> kids d' q = kids d q) /\
    (forall m, ~ In m (map snd (filter (in_range lo hi) g)) -> par d' m = par d m) /\
    (forall m, In m (map snd (filter (in_range lo hi) g)) -> par d' m = None).
Proof.
  induction fuel as [|fuel IH]; intros lo hi d cont g F R W S K L; [lia|].
  simpl. unfold range_last. fold (in_range lo hi).
  change (fun e : pos * node => (pos_leb lo (fst e) && pos_ltb (fst e) hi)%bool) with (in_range lo hi).
  destruct (filter_last_split (in_range lo hi) g) as [E|(l1 & [k v] & l2 & -> & H1 & H2 & H3)].
  - rewrite E. simpl. exists d.
    assert (FG : filter (fun e => negb (in_range lo hi e)) g = g).
    { clear - E. induction g as [|a g IH]; simpl in *; auto.
      destruct (in_range lo hi a); simpl; [discriminate|]. f_equal; auto. }
    rewrite FG. repeat split; auto; try apply W. simpl; tauto.
  - rewrite H3, last_some_app.
    rewrite map_app in K. simpl in K.
    assert (Iv : In v (kids d cont)) by (rewrite K, !in_app_iff; simpl; auto).
    destruct (remove_child_spec d cont v W Iv) as (d1 & E1 & W1 & F1 & P1 & P2 & K1).
    rewrite E1, bt_remove_mid by auto.
    assert (ND : NoDup (kids d cont)) by apply W.
    rewrite K, <- app_assoc in ND. simpl in ND. rewrite app_assoc in ND.
    pose proof (NoDup_remove_2 _ _ _ ND) as ND2. rewrite !in_app_iff in ND2.
    destruct (IH lo hi d1 cont (l1 ++ l2) F R W1) as (d2 & E2 & W2 & F2 & K2 & Q2 & P3 & P4).
    + unfold sorted, keys in *. rewrite map_app in *. simpl in S.
      eapply ssorted_drop_mid; eauto.
    + rewrite K1, K, <- app_assoc. simpl. rewrite app_assoc, remove_node_mid, map_app.
      * rewrite <- !app_assoc; auto.
      * rewrite in_app_iff; tauto.
      * rewrite in_app_iff; tauto.
    + rewrite H3, app_length in L. simpl in L. rewrite filter_app, H2, app_nil_r. lia.
    + assert (FE : filter (fun e => negb (in_range lo hi e)) (l1 ++ l2)
               = filter (fun e => negb (in_range lo hi e)) (l1 ++ (k, v) :: l2)).
      { rewrite !filter_app. simpl. rewrite H1. auto. }
      rewrite FE in *. exists d2. repeat split; try apply W2; auto; try congruence.
      * intros q Hq. rewrite Q2, K1 by auto. apply remove_node_notin.
        intro Hv. apply W in Hv. apply W in Iv. congruence.
      * intros m Hm. rewrite map_app, in_app_iff in Hm. simpl in Hm.
        rewrite P3, P2; auto. rewrite filter_app, H2, app_nil_r. auto.
      * intros m Hm. rewrite map_app, in_app_iff in Hm. simpl in Hm.
        rewrite filter_app, H2, app_nil_r in P3, P4.
        destruct Hm as [Hm|[<-|[]]]; auto.
        destruct (in_dec Nat.eq_dec v (map snd (filter (in_range lo hi) l1))) as [Hi|Hi]; auto.
        rewrite P3; auto.
Qed.

Definition pos_ok (p : pos) : Prop := match p with [] => True | x :: _ => (x < u32_max)%N end.

Lemma remove_here_spec s g cont F R p :
  picture s g cont F R -> pos_ok p ->
  exists s', remove_here s g cont p = Some s' /\
    rgrp s' g = keep p (rgrp s g) /\
    (forall h, h <> g -> rgrp s' h = rgrp s h) /\
    picture s' g cont F R /\
    frag (rdom s') = frag (rdom s) /\
    (forall q, q <> cont -> kids (rdom s') q = kids (rdom s) q) /\
    (forall m, (forall k, In (k, m) (rgrp s g) -> ~ under (rev p) (rev k)) ->
       par (rdom s') m = par (rdom s) m) /\
    (forall k m, In (k, m) (rgrp s g) -> under (rev p) (rev k) -> par (rdom s') m = None).
Proof.
  intros (W & S & K) P. unfold remove_here, remove_children_here.
  destruct p as [|x t]; simpl is_root; cbv iota.
  - destruct (remove_all_spec _ _ _ _ _ W K) as (d' & E & W' & F' & K' & Q' & P3 & P4).
    rewrite E.
    assert (KE : keep [] (rgrp s g) = []).
    { unfold keep. simpl. clear. induction (rgrp s g); simpl; auto.
      rewrite (proj2 (underb_iff [] _) (under_nil _)). simpl. auto. }
    eexists; split; [reflexivity|]. rewrite KE. simpl. rewrite upd_same.
    repeat split; simpl; try apply W'; auto.
    + intros; apply upd_other; auto.
    + rewrite upd_same. constructor.
    + rewrite upd_same. auto.
    + intros m Hm. apply P3. rewrite in_map_iff. intros ([k v] & <- & Hi).
      apply (Hm k); auto. apply under_nil.
    + intros k m Hi _. apply P4. apply in_map_iff. exists (k, m); auto.
  - assert (NS : next_sibling (x :: t) = Some (x + 1 :: t)%N).
    { unfold next_sibling. simpl in P. apply N.ltb_lt in P. rewrite P; auto. }
    rewrite NS.
    assert (LF : length (filter (in_range (x :: t) (x + 1 :: t)%N) (rgrp s g)) < Datatypes.S (length (rgrp s g))).
    { clear. induction (rgrp s g); simpl; [lia|]. destruct (in_range _ _ _); simpl; lia. }
    destruct (remove_range_spec _ _ (x + 1 :: t)%N _ _ _ _ _ W S K LF)
      as (d' & E & W' & F' & K' & Q' & P3 & P4).
    rewrite E.
    assert (IR : forall e, in_range (x :: t) (x + 1 :: t)%N e = underb (rev (x :: t)) (rev (fst e))).
    { intro e. apply eq_true_iff_eq. rewrite underb_iff. apply next_sibling_range; auto. }
    assert (KE : filter (fun e => negb (in_range (x :: t) (x + 1 :: t)%N e)) (rgrp s g) = keep (x :: t) (rgrp s g)).
    { unfold keep. apply filter_ext. intro; rewrite IR; auto. }
    rewrite KE in *.
    eexists; split; [reflexivity|]. simpl. rewrite upd_same.
    repeat split; simpl; try apply W'; auto.
    + intros; apply upd_other; auto.
    + rewrite upd_same. apply filter_sorted; auto.
    + rewrite upd_same. auto.
    + intros m Hm. apply P3. rewrite in_map_iff. intros ([k v] & <- & Hi).
      apply filter_In in Hi as [Hi Hr]. rewrite IR, underb_iff in Hr.
      apply (Hm k); auto.
    + intros k m Hi U. apply P4. apply in_map_iff. exists (k, m); split; auto.
      apply filter_In. rewrite IR, underb_iff. auto.
Qed.

Lemma bt_insert_dup p n g : sorted g -> In (rev p) (keys g) -> exists v, snd (bt_insert p n g) = Some v.
Proof.
  induction g as [|[k v] g IH]; intros S I; [destruct I|]. apply sorted_cons in S as [S F]. cbn [bt_insert keys map fst] in *.
  destruct (pos_cmp p k) eqn:E; [exists v; reflexivity| |].
  - exfalso. apply pos_cmp_lt in E. destruct I as [I|I].
    + rewrite I in E. apply (path_lt_irrefl _ E).
    + rewrite Forall_forall in F. apply (path_lt_irrefl (rev p)). eapply path_lt_trans; [exact E|]. apply F, I.
  - destruct I as [I|I].
    + exfalso. apply pos_cmp_gt in E. simpl in I. rewrite I in E. apply (path_lt_irrefl _ E).
    + destruct (IH S I) as (x & X). destruct (bt_insert p n g) as [t o]. exists x. exact X.
Qed.
