From Coq Require Import List Arith NArith Bool Lia Permutation Sorting.Sorted.
From Verif Require Import Position Dom Context Spec_path Spec_render Render_history
  Util Position_proofs Dom_proofs Context_proofs.
Import ListNotations.

Lemma prefixb_iff p : forall q, prefixb p q = true <-> under p q.
Proof.
  induction p as [|x p IH]; intros [|y q]; simpl; split; intro H; auto; try discriminate.
  - apply under_nil.
  - apply under_nil.
  - destruct H as [r H]; discriminate.
  - apply andb_true_iff in H as [H1 H2]. apply N.eqb_eq in H1. apply IH in H2 as [r ->].
    subst. exists r; auto.
  - destruct H as [r H]. simpl in H. inversion H; subst. apply andb_true_iff. split.
    + apply N.eqb_refl.
    + apply IH. exists r; auto.
Qed.

Lemma ctx_at_snoc base p i : ctx_at base (p ++ [i]) = CChild (ctx_at base p) i.
Proof. unfold ctx_at. rewrite fold_left_app. auto. Qed.

Lemma add_child_ctx_at p : forall base q n s,
  add_child (ctx_at base p) q n s = add_child base (q ++ rev p) n s.
Proof.
  induction p as [|i p IH] using rev_ind; intros base q n s.
  - simpl. rewrite app_nil_r. auto.
  - rewrite ctx_at_snoc. simpl. rewrite IH, rev_app_distr. unfold wrap. simpl.
    rewrite <- app_assoc. auto.
Qed.
Lemma remove_child_ctx_at p : forall base q s,
  remove_child_ctx (ctx_at base p) q s = remove_child_ctx base (q ++ rev p) s.
Proof.
  induction p as [|i p IH] using rev_ind; intros base q s.
  - simpl. rewrite app_nil_r. auto.
  - rewrite ctx_at_snoc. simpl. rewrite IH, rev_app_distr. unfold wrap. simpl.
    rewrite <- app_assoc. auto.
Qed.

(** [base] is the context of element [cont] itself or of a list item whose end
    marker is the head of [R] *)
Inductive base_of (g : gid) (cont : node) : list node -> ctx -> Prop :=
| base_container : base_of g cont [] (CContainer g cont)
| base_sibling : forall parent r R,
    containing_node parent = cont -> base_of g cont (r :: R) (CSibling parent g r).

Lemma add_child_base g cont R base p n s : base_of g cont R base ->
  add_child base p n s =
  add_here s g cont p n (match range_from_first p (rgrp s g) with
                         | Some r => Some r | None => hd_error R end).
Proof.
  intro B; inversion B; subst; simpl.
  - destruct (range_from_first p (rgrp s g)); auto.
  - destruct (range_from_first p (rgrp s g)); auto.
Qed.
Lemma remove_child_base g cont R base p s : base_of g cont R base ->
  remove_child_ctx base p s = remove_here s g cont p.
Proof. intro B; inversion B; subst; simpl; auto. Qed.

Definition shown (g : group) : list (path * node) := map (fun e => (rev (fst e), snd e)) g.

Lemma shown_fst g : map fst (shown g) = keys g.
Proof. unfold shown, keys. rewrite map_map. auto. Qed.
Lemma shown_snd g : map snd (shown g) = map snd g.
Proof. unfold shown. rewrite map_map. auto. Qed.

Lemma permutation_filter {A} (f : A -> bool) l l' :
  Permutation l l' -> Permutation (filter f l) (filter f l').
Proof.
  induction 1; simpl; auto.
  - destruct (f x); auto.
  - destruct (f x), (f y); auto. constructor.
  - etransitivity; eauto.
Qed.

Lemma shown_keep p g : shown (keep p g) = filter (fun e => negb (prefixb (rev p) (fst e))) (shown g).
Proof.
  unfold keep, shown. induction g as [|[k v] g IH]; simpl; auto.
  assert (underb (rev p) (rev k) = prefixb (rev p) (rev k)) as ->.
  { apply eq_true_iff_eq. rewrite underb_iff, prefixb_iff. tauto. }
  destruct (prefixb (rev p) (rev k)); simpl; auto. f_equal. auto.
Qed.

Lemma indices_ok_pos p : indices_ok p -> pos_ok (rev p).
Proof.
  intro H. destruct (rev p) as [|x t] eqn:E; simpl; auto.
  unfold indices_ok in H. rewrite Forall_forall in H. apply (H x).
  apply in_rev. rewrite E. simpl; auto.
Qed.

Record Inv (d0 : dom) (s : rstate) (g : gid) (cont : node) (F R : list node)
       (live : list (path * node)) : Prop := {
  inv_pic : picture s g cont F R;
  inv_live : Permutation (shown (rgrp s g)) live;
  inv_frag : frag (rdom s) = frag d0;
  inv_kids : forall q, q <> cont -> kids (rdom s) q = kids d0 q;
  inv_par : forall m, ~ In m (map snd live) -> par d0 m = None -> par (rdom s) m = None
}.

Definition freenode (d0 : dom) (n : node) : Prop := par d0 n = None /\ frag d0 n = false.

Lemma exec_inv d0 s g cont F R live base o :
  base_of g cont R base ->
  Inv d0 s g cont F R live ->
  legal (freenode d0) live o ->
  exists s', exec base s o = Some s' /\ Inv d0 s' g cont F R (live_step live o).
Proof.
  intros B [PI LI FR KI PA] L. destruct o as [p n|p]; simpl in *.
  - destruct L as (L1 & L2 & L3 & L4).
    rewrite add_child_ctx_at, (add_child_base g cont R) by auto. simpl.
    destruct (add_here_spec s g cont F R (rev p) n PI) as
      (s' & g1 & g2 & E & G1 & G2 & _ & PI' & FR' & P1 & P2 & K2).
    + rewrite rev_involutive, <- shown_fst. intro H. apply L1.
      eapply Permutation_in; [|exact H]. apply Permutation_map. auto.
    + rewrite FR; auto.
    + apply PA; auto.
    + unfold pos_default. simpl. rewrite E. eexists; split; [reflexivity|]. constructor; auto.
      * rewrite G2. rewrite G1 in LI. unfold shown in *. rewrite map_app in *. simpl.
        rewrite rev_involutive. rewrite <- LI. symmetry. apply Permutation_middle.
      * congruence.
      * intros; rewrite K2; auto.
      * simpl. intros m Hm H0. rewrite P2 by auto. apply PA; auto.
  - rewrite remove_child_ctx_at, (remove_child_base g cont R) by auto. simpl.
    destruct (remove_here_spec s g cont F R (rev p) PI) as
      (s' & E & G & _ & PI' & FR' & K2 & P1 & P2).
    + apply indices_ok_pos; auto.
    + unfold pos_default. simpl. rewrite E. eexists; split; [reflexivity|]. constructor; auto.
      * rewrite G, shown_keep, rev_involutive. apply permutation_filter. auto.
      * congruence.
      * intros; rewrite K2; auto.
      * intros m Hm H0.
        destruct (in_dec Nat.eq_dec m (map snd live)) as [Hi|Hi].
        -- assert (H : In m (map snd (rgrp s g))).
           { rewrite <- shown_snd. eapply Permutation_in; [|exact Hi].
             apply Permutation_map. symmetry; auto. }
           apply in_map_iff in H as ([k v] & Hv & Hk). simpl in Hv; subst v.
           apply (P2 k); auto. rewrite rev_involutive.
           apply prefixb_iff. destruct (prefixb p (rev k)) eqn:Ep; auto.
           exfalso. apply Hm. apply in_map_iff. exists (rev k, m). split; auto.
           apply filter_In. simpl. rewrite Ep. split; auto.
           eapply Permutation_in; [exact LI|]. unfold shown. apply in_map_iff.
           exists (k, m); auto.
        -- rewrite P1; [apply PA; auto|].
           intros k Hk. exfalso. apply Hi.
           eapply Permutation_in; [apply Permutation_map; exact LI|].
           rewrite shown_snd. apply in_map_iff. exists (k, m); auto.
Qed.

Lemma run_inv d0 g cont F R base : base_of g cont R base -> forall ops s live,
  Inv d0 s g cont F R live ->
  legal_run (freenode d0) live ops ->
  exists s', run base s ops = Some s' /\ Inv d0 s' g cont F R (live_after live ops).
Proof.
  intros B. induction ops as [|o ops IH]; simpl; intros s live I L.
  - exists s; auto.
  - destruct L as [L1 L2]. destruct (exec_inv d0 s g cont F R live base o B I L1) as (s1 & E & I1).
    rewrite E. apply IH; auto.
Qed.

Lemma init_inv d0 gr g cont F R :
  dom_wf d0 -> kids d0 cont = F ++ R -> gr g = [] -> Inv d0 (mkR d0 gr) g cont F R [].
Proof.
  intros W K G. constructor; simpl; auto.
  - unfold picture; simpl. rewrite G. simpl. repeat split; try apply W; auto. constructor.
  - rewrite G. auto.
Qed.

Lemma history_picture d0 gr g cont F R base ops :
  dom_wf d0 -> kids d0 cont = F ++ R -> gr g = [] ->
  base_of g cont R base ->
  legal_run (freenode d0) [] ops ->
  exists s' l, run base (mkR d0 gr) ops = Some s' /\
    Permutation l (live_after [] ops) /\
    StronglySorted path_lt (map fst l) /\
    kids (rdom s') cont = F ++ map snd l ++ R /\
    (forall q, q <> cont -> kids (rdom s') q = kids d0 q).
Proof.
  intros W K G B L.
  destruct (run_inv d0 g cont F R base B ops _ _ (init_inv d0 gr g cont F R W K G) L)
    as (s' & E & [[W' [S' K']] LI FR KI PA]).
  exists s', (shown (rgrp s' g)). split; auto. split; auto. split.
  - rewrite shown_fst. auto.
  - split; auto. rewrite shown_snd. auto.
Qed.

Lemma unrender_exact d0 gr g cont F R base ops p :
  dom_wf d0 -> kids d0 cont = F ++ R -> gr g = [] ->
  base_of g cont R base ->
  legal_run (freenode d0) [] (ops ++ [Unrender p]) ->
  exists s s' keepb, run base (mkR d0 gr) ops = Some s /\
    run base s [Unrender p] = Some s' /\
    kids (rdom s') cont = filter keepb (kids (rdom s) cont) /\
    (forall n, In n (kids (rdom s) cont) ->
       (keepb n = false <-> exists q, In (q, n) (live_after [] ops) /\ under p q)).
Proof.
  intros W K G B L.
  assert (LA : forall ops live, legal_run (freenode d0) live (ops ++ [Unrender p]) ->
     legal_run (freenode d0) live ops /\ indices_ok p).
  { clear. induction ops as [|o ops IH]; simpl; intros live H; [tauto|].
    destruct H as [H1 H2]. apply IH in H2. tauto. }
  destruct (LA _ _ L) as [L1 L2].
  destruct (run_inv d0 g cont F R base B ops _ _ (init_inv d0 gr g cont F R W K G) L1)
    as (s & E & I).
  destruct (exec_inv d0 s g cont F R _ base (Unrender p) B I L2) as (s' & E' & I').
  exists s, s'.
  pose (isdead := fun n => existsb (fun e => andb (Nat.eqb (snd e) n) (prefixb p (fst e))) (shown (rgrp s g))).
  exists (fun n => negb (isdead n)).
  split; auto. split. { simpl. simpl in E'. rewrite E'. auto. }
  assert (DEAD : forall n, isdead n = true <-> exists q, In (q, n) (live_after [] ops) /\ under p q).
  { intro n. unfold isdead. rewrite existsb_exists. split.
    - intros ([q m] & H1 & H2). simpl in H2. apply andb_true_iff in H2 as [H2 H3].
      apply Nat.eqb_eq in H2. subst m. exists q. split.
      + eapply Permutation_in; [apply (inv_live _ _ _ _ _ _ _ I)|]; auto.
      + apply prefixb_iff; auto.
    - intros (q & H1 & H2). exists (q, n). split.
      + eapply Permutation_in; [symmetry; apply (inv_live _ _ _ _ _ _ _ I)|]; auto.
      + simpl. rewrite Nat.eqb_refl. simpl. apply prefixb_iff; auto. }
  split.
  - destruct I as [[W1 [S1 K1]] LI FR KI PA].
    simpl in E'. rewrite remove_child_ctx_at, (remove_child_base g cont R) in E' by auto.
    destruct (remove_here_spec s g cont F R (pos_default ++ rev p) ltac:(repeat split; auto; apply W1)) as
      (s2 & E2 & G2 & _ & PI' & _).
    { apply indices_ok_pos; auto. }
    rewrite E2 in E'. inversion E'; subst s2. destruct PI' as (_ & _ & K2).
    rewrite K2, K1, G2.
    assert (ND : NoDup (F ++ map snd (rgrp s g) ++ R)) by (rewrite <- K1; apply W1).
    rewrite !filter_app.
    assert (DIN : forall n, isdead n = true -> In n (map snd (rgrp s g))).
    { intros n H. unfold isdead in H. rewrite existsb_exists in H.
      destruct H as ([q m] & H1 & H2). apply andb_true_iff in H2 as [H2 _].
      apply Nat.eqb_eq in H2. simpl in H2; subst m.
      rewrite <- shown_snd. apply in_map_iff. exists (q, n); auto. }
    assert (KEEP : forall l, (forall n, In n l -> ~ In n (map snd (rgrp s g))) ->
       filter (fun n => negb (isdead n)) l = l).
    { induction l as [|a l IH]; simpl; intro H; auto.
      destruct (isdead a) eqn:Ea; simpl.
      - exfalso. apply (H a); auto.
      - f_equal. apply IH. intros; apply H; auto. }
    f_equal; [|f_equal].
    + symmetry. apply KEEP. intros n H1 H2.
      clear - ND H1 H2. induction F as [|a F' IH]; simpl in *; [tauto|].
      inversion ND; subst. destruct H1 as [->|H1]; auto.
      apply H3. rewrite !in_app_iff; auto.
    + simpl. unfold keep. rewrite rev_involutive.
      assert (NDg : NoDup (map snd (rgrp s g))).
      { clear - ND. apply nodup_app_r in ND. apply nodup_app_l in ND. auto. }
      assert (GEN : forall e, In e (rgrp s g) -> isdead (snd e) = prefixb p (rev (fst e))).
      { intros [k v] Hin. apply eq_true_iff_eq. unfold isdead. rewrite existsb_exists. simpl.
        split.
        - intros ([q m] & H1 & H2). apply andb_true_iff in H2 as [H2 H3].
          apply Nat.eqb_eq in H2. simpl in H2, H3; subst m.
          unfold shown in H1. apply in_map_iff in H1 as ([k' v'] & H4 & H5).
          inversion H4; subst q v'. clear H4.
          assert (k' = k).
          { clear - NDg H5 Hin. induction (rgrp s g) as [|[a b] l IH]; simpl in *; [tauto|].
            inversion NDg; subst.
            destruct H5 as [H5|H5], Hin as [H6|H6].
            - congruence.
            - inversion H5; subst. exfalso. apply H1. apply in_map_iff. exists (k, v); auto.
            - inversion H6; subst. exfalso. apply H1. apply in_map_iff. exists (k', v); auto.
            - auto. }
          subst. auto.
        - intro H. exists (rev k, v). simpl. rewrite Nat.eqb_refl, H. split; auto.
          unfold shown. apply in_map_iff. exists (k, v); auto. }
      assert (UE : forall q, underb p q = prefixb p q).
      { intro q. apply eq_true_iff_eq. rewrite underb_iff, prefixb_iff. tauto. }
      clear - GEN UE. clearbody isdead. induction (rgrp s g) as [|e l IH]; simpl; auto.
      rewrite (GEN e) by (simpl; auto). rewrite UE. unfold pos, path in *.
      destruct (prefixb p (rev (fst e))); simpl; [|f_equal]; apply IH; intros; apply GEN; simpl; auto.
    + symmetry. apply KEEP. intros n H1 H2.
      apply nodup_app_r in ND. clear - ND H1 H2.
      induction (map snd (rgrp s g)) as [|a l IH]; simpl in *; [tauto|].
      inversion ND; subst. destruct H2 as [->|H2]; auto.
      apply H3. rewrite in_app_iff; auto.
  - intros n _. rewrite negb_false_iff. apply DEAD.
Qed.

Lemma render_duplicate d0 gr g cont F R base ops p n :
  dom_wf d0 -> kids d0 cont = F ++ R -> gr g = [] ->
  base_of g cont R base ->
  legal_run (freenode d0) [] ops -> freenode d0 n -> ~ In n (map snd (live_after [] ops)) ->
  (run base (mkR d0 gr) (ops ++ [Render p n]) = None <-> In p (map fst (live_after [] ops))).
Proof.
  intros W K G B L FN NL.
  destruct (run_inv d0 g cont F R base B ops _ _ (init_inv d0 gr g cont F R W K G) L) as (s & E & I).
  assert (RA : forall l s0, run base s0 (l ++ [Render p n]) = match run base s0 l with None => None | Some s1 => exec base s1 (Render p n) end).
  { clear. induction l as [|o l IH]; intro s0; cbn [app run].
    - destruct (exec base s0 (Render p n)); reflexivity.
    - destruct (exec base s0 o); auto. }
  rewrite RA, E. split.
  - intro X. destruct (in_dec (list_eq_dec N.eq_dec) p (map fst (live_after [] ops))) as [Y|Y]; auto.
    destruct (exec_inv d0 s g cont F R _ base (Render p n) B I) as (s' & E' & _); [|congruence].
    cbn [legal]. auto.
  - intro Y. cbn [exec]. rewrite add_child_ctx_at, (add_child_base g cont R) by auto. unfold add_here.
    destruct (insert_before _ _ _ _); [|reflexivity].
    destruct (bt_insert_dup (rev p) n (rgrp s g)) as (v & V).
    + apply (inv_pic _ _ _ _ _ _ _ I).
    + rewrite rev_involutive, <- shown_fst. eapply Permutation_in; [|exact Y]. apply Permutation_map. symmetry. apply (inv_live _ _ _ _ _ _ _ I).
    + unfold pos_default. cbn [app]. destruct (bt_insert (rev p) n (rgrp s g)) as [t o]. cbn [snd] in V. subst o. reflexivity.
Qed.
