From Coq Require Import List Arith NArith Bool Lia Permutation Sorting.Sorted.
From Verif Require Import Util Position Dom Context Spec_path Spec_render Render_history
  Position_proofs Dom_proofs Context_proofs Render_history_proofs Spec_list DynList Spec_dynlist
  DynList_proofs.
Import ListNotations.

(** ** an item renders or removes something; a removed item is dropped *)
Lemma view_picture w segs P Q A x B : LInv w segs P Q -> segs = A ++ x :: B ->
  exists F R, kids (rdom (lw_r w)) (cget (dl_cont (lw_l w))) =
     F ++ map snd (rgrp (lw_r w) (sgid x)) ++ R /\
    (F = P ++ dl_start (lw_l w) :: mid (rgrp (lw_r w)) A ++
         match x with SItem _ st => [st_s st] | SDead _ => [] end) /\
    (R = match x with SItem _ st => [st_e st] | SDead _ => [] end ++
         mid (rgrp (lw_r w)) B ++ dl_end (lw_l w) :: Q).
Proof.
  intros I E. assert (K := v_kids _ _ _ _ _ _ _ _ (li_view _ _ _ _ I)).
  eexists; eexists. split; [|split; reflexivity].
  rewrite K, E, mid_app, mid_cons. destruct x as [k st|st]; simpl; apps; auto.
Qed.

Lemma sgid_notin A x B : NoDup (map sgid (A ++ x :: B)) ->
  (forall y, In y A -> sgid y <> sgid x) /\ (forall y, In y B -> sgid y <> sgid x).
Proof.
  rewrite map_app. simpl. intro ND. apply NoDup_remove_2 in ND. rewrite in_app_iff in ND.
  split; intros y Hy E; apply ND; rewrite <- E; [left|right]; apply in_map; auto.
Qed.

(** one group changed, the document changed accordingly *)
Lemma view_group w segs P Q A x B r' : LInv w segs P Q -> segs = A ++ x :: B ->
  dom_wf (rdom r') -> frag (rdom r') = frag (rdom (lw_r w)) ->
  (forall h, h <> sgid x -> rgrp r' h = rgrp (lw_r w) h) ->
  (forall n, In n (map snd (rgrp r' (sgid x))) ->
     In n (map snd (rgrp (lw_r w) (sgid x))) \/ frag (rdom r') n = false) ->
  (forall F R, kids (rdom (lw_r w)) (cget (dl_cont (lw_l w))) = F ++ map snd (rgrp (lw_r w) (sgid x)) ++ R ->
     F = P ++ dl_start (lw_l w) :: mid (rgrp (lw_r w)) A ++
         match x with SItem _ st => [st_s st] | SDead _ => [] end ->
     R = match x with SItem _ st => [st_e st] | SDead _ => [] end ++
         mid (rgrp (lw_r w)) B ++ dl_end (lw_l w) :: Q ->
     kids (rdom r') (cget (dl_cont (lw_l w))) = F ++ map snd (rgrp r' (sgid x)) ++ R) ->
  view (rdom r') (rgrp r') (cget (dl_cont (lw_l w))) (dl_start (lw_l w)) (dl_end (lw_l w)) segs P Q.
Proof.
  intros I E W F G N K.
  destruct (view_picture _ _ _ _ _ _ _ I E) as (FF & R & K0 & EF & ER).
  specialize (K _ _ K0 EF ER).
  assert (V := li_view _ _ _ _ I).
  assert (GN := li_gids _ _ _ _ I). rewrite E in GN. apply sgid_notin in GN as [GA GB].
  assert (MA : mid (rgrp r') A = mid (rgrp (lw_r w)) A) by (apply mid_ext; auto).
  assert (MB : mid (rgrp r') B = mid (rgrp (lw_r w)) B) by (apply mid_ext; auto).
  constructor; auto.
  - rewrite K, EF, ER, E, mid_app, mid_cons, MA, MB. destruct x as [k st|st]; simpl; apps; auto.
  - assert (VF := v_frag _ _ _ _ _ _ _ _ V).
    intros n Hn. rewrite E, mid_app, mid_cons, MA, MB in Hn. rewrite E, mid_app, mid_cons in VF.
    simpl in Hn, VF. rewrite !in_app_iff in Hn.
    assert (C : In n (map snd (rgrp r' (sgid x))) -> frag (rdom r') n = false).
    { intro H. apply N in H as [H|H]; auto. rewrite F. apply VF. right. rewrite !in_app_iff.
      left. right. left. destruct x as [k st|st]; simpl; auto. right. apply in_app_iff. left. exact H. }
    assert (D : In n (dl_start (lw_l w) ::
         (mid (rgrp (lw_r w)) A ++ seg_nodes (rgrp (lw_r w)) x ++ mid (rgrp (lw_r w)) B) ++ [dl_end (lw_l w)])
        -> frag (rdom r') n = false) by (intro H; rewrite F; apply VF; auto).
    simpl in D. rewrite !in_app_iff in D.
    destruct Hn as [Hn|[[Hn|[Hn|Hn]]|Hn]]; try (apply D; tauto).
    destruct x as [k st|st]; simpl in Hn, D.
    + rewrite in_app_iff in Hn, D. simpl in Hn, D.
      destruct Hn as [Hn|[Hn|Hn]]; [apply D; tauto|apply C; exact Hn|apply D; tauto].
    + apply C; exact Hn.
Qed.

Definition alive_inv (w : lworld) (al : contents) : Prop :=
  forall k st, In (k, st) (dl_items (lw_l w)) -> Permutation (shown (rgrp (lw_r w) (st_g st))) (al k).

Lemma items_gid_eq w segs P Q k st k' st' : LInv w segs P Q ->
  In (k, st) (dl_items (lw_l w)) -> In (k', st') (dl_items (lw_l w)) -> st_g st = st_g st' -> k = k'.
Proof.
  intros I H H' E.
  assert (X : In (SItem k st) segs) by (apply in_items; eapply Permutation_in; [apply (li_items _ _ _ _ I)|auto]).
  assert (X' : In (SItem k' st') segs) by (apply in_items; eapply Permutation_in; [apply (li_items _ _ _ _ I)|auto]).
  apply in_split in X as (A & B & ->). assert (GN := li_gids _ _ _ _ I). apply sgid_notin in GN as [GA GB].
  rewrite in_app_iff in X'. simpl in X'. destruct X' as [X|[X|X]].
  - exfalso. apply (GA _ X). symmetry; exact E.
  - inversion X; auto.
  - exfalso. apply (GB _ X). symmetry; exact E.
Qed.
Lemma dead_gid_neq w segs P Q k st st' : LInv w segs P Q ->
  In (k, st) (dl_items (lw_l w)) -> In st' (dl_dead (lw_l w)) -> st_g st <> st_g st'.
Proof.
  intros I H H' E.
  assert (X : In (SItem k st) segs) by (apply in_items; eapply Permutation_in; [apply (li_items _ _ _ _ I)|auto]).
  assert (X' : In (SDead st') segs) by (apply in_dead; eapply Permutation_in; [apply (li_dead _ _ _ _ I)|auto]).
  apply in_split in X as (A & B & ->). assert (GN := li_gids _ _ _ _ I). apply sgid_notin in GN as [GA GB].
  rewrite in_app_iff in X'. simpl in X'. destruct X' as [X|[X|X]].
  - apply (GA _ X). symmetry; exact E.
  - discriminate.
  - apply (GB _ X). symmetry; exact E.
Qed.

Lemma upd_same' {A} (f : nat -> A) k v : upd f k v k = v.
Proof. apply upd_same. Qed.

Lemma item_ok w segs P Q al c k o : LInv w segs P Q -> alive_inv w al ->
  llegal w (keys_of segs) al (LItem c k o) ->
  exists w', dl_item w c k o = Some w' /\ stays w w' /\ LInv w' segs P Q /\
    alive_inv w' (cstep (keys_of segs) al (LItem c k o)).
Proof.
  intros I AI (HC & HO). unfold dl_item.
  destruct (in_dec Nat.eq_dec k (keys_of segs)) as [H|H].
  2:{ rewrite (proj2 (linv_none _ _ _ _ k I) H). exists w. split; auto. split; [constructor; auto|].
      split; auto. simpl. rewrite (proj2 (memb_false _ _) H). auto. }
  destruct (linv_split _ _ _ _ _ I H) as (A & st & B & E & H1 & H2 & G). rewrite G.
  assert (GN := li_gids _ _ _ _ I). rewrite E in GN. apply sgid_notin in GN as [GA GB].
  assert (SS : sorted (rgrp (lw_r w) (st_g st))).
  { apply (li_sorted _ _ _ _ I (SItem k st)). rewrite E. apply in_app_iff; simpl; auto. }
  destruct (view_picture _ _ _ _ _ _ _ I E) as (F & R & K & EF & ER).
  change (sgid (SItem k st)) with (st_g st) in *.
  rewrite HC in K. simpl in K.
  assert (PIC : picture (lw_r w) (st_g st) (containing_node c) F R).
  { split; [apply I|]. split; auto. }
  assert (BO : base_of (st_g st) (containing_node c) R (CSibling c (st_g st) (st_e st))).
  { rewrite ER. simpl. constructor. auto. }
  assert (IG : In (st_g st) (list_groups (lw_l w))).
  { apply (in_groups w segs P Q (SItem k st) I). rewrite E. apply in_app_iff; simpl; auto. }
  assert (FIN : forall r', dom_wf (rdom r') -> frag (rdom r') = frag (rdom (lw_r w)) ->
     (forall h, h <> st_g st -> rgrp r' h = rgrp (lw_r w) h) ->
     (forall n, In n (map snd (rgrp r' (st_g st))) ->
        In n (map snd (rgrp (lw_r w) (st_g st))) \/ frag (rdom r') n = false) ->
     sorted (rgrp r' (st_g st)) ->
     kids (rdom r') (containing_node c) = F ++ map snd (rgrp r' (st_g st)) ++ R ->
     (forall q, q <> containing_node c -> kids (rdom r') q = kids (rdom (lw_r w)) q) ->
     Permutation (shown (rgrp r' (st_g st))) (live_step (shown (rgrp (lw_r w) (st_g st))) o) ->
     stays w (mkLW r' (lw_l w)) /\ LInv (mkLW r' (lw_l w)) segs P Q /\
     alive_inv (mkLW r' (lw_l w)) (cstep (keys_of segs) al (LItem c k o))).
  { intros r' W' F' G' N' S' K' Q' PL.
    assert (AI' : alive_inv (mkLW r' (lw_l w)) (cstep (keys_of segs) al (LItem c k o))).
    { intros k' st' Hin. simpl in Hin |- *. rewrite (proj2 (memb_iff _ _) H).
      destruct (Nat.eq_dec k' k) as [->|NE].
      - assert (st' = st) as ->.
        { apply (hm_get_in _ _ _ (linv_items_nodup _ _ _ _ I)) in Hin. congruence. }
        rewrite upd_same, PL. specialize (AI k st Hin). destruct o; simpl.
        + apply perm_skip; auto.
        + apply permutation_filter; auto.
      - rewrite upd_other by auto. rewrite G'; auto. intro EQ.
        apply NE. apply (items_gid_eq w segs P Q k' st' k st I Hin); auto.
        apply (hm_get_in _ _ _ (linv_items_nodup _ _ _ _ I)). auto. }
    assert (ST : stays w (mkLW r' (lw_l w))).
    { constructor; simpl; auto.
      - rewrite HC. simpl. auto.
      - intros g Hg. apply G'. intro; subst; auto. }
    split; auto. split; auto. eapply linv_edit; eauto; simpl.
    - eapply view_group; eauto. intros F0 R0 K0 EF0 ER0. subst F0 R0. rewrite HC. simpl.
      rewrite K', EF, ER. auto.
    - apply I.
    - apply I.
    - apply I.
    - apply I.
    - intros x Hx. destruct (Nat.eq_dec (sgid x) (st_g st)) as [->|NE]; auto.
      rewrite G' by auto. apply (li_sorted _ _ _ _ I); auto. }
  destruct o as [p n|p]; simpl in HO |- *.
  - destruct HO as (PA & FRn & NP).
    rewrite add_child_ctx_at. unfold pos_default. simpl app.
    rewrite (add_child_base _ _ _ _ _ _ _ BO).
    destruct (add_here_spec (lw_r w) (st_g st) (containing_node c) F R (rev p) n PIC)
      as (r' & g1 & g2 & E1 & EG & EG' & GO & (W' & S' & K') & F' & P1 & P2 & KO); auto.
    { rewrite rev_involutive. intro X. apply NP. rewrite <- shown_fst in X.
      eapply Permutation_in; [|exact X]. apply Permutation_map. apply AI.
      apply (hm_get_in _ _ _ (linv_items_nodup _ _ _ _ I)). auto. }
    rewrite E1. cbn [obind]. eexists. split; [reflexivity|].
    apply FIN; auto.
    + intros m Hm. rewrite EG', map_app in Hm. simpl in Hm. rewrite EG, map_app.
      rewrite !in_app_iff in *. simpl in Hm.
      destruct Hm as [Hm|[<-|Hm]]; auto. right. rewrite F'. auto.
    + rewrite EG', EG. unfold shown. rewrite !map_app. simpl. rewrite rev_involutive.
      symmetry. apply Permutation_middle.
  - rewrite remove_child_ctx_at. unfold pos_default. simpl app.
    rewrite (remove_child_base _ _ _ _ _ _ BO).
    destruct (remove_here_spec (lw_r w) (st_g st) (containing_node c) F R (rev p) PIC)
      as (r' & E1 & EG & GO & (W' & S' & K') & F' & KO & _); auto using indices_ok_pos.
    rewrite E1. cbn [obind]. eexists. split; [reflexivity|].
    apply FIN; auto.
    + intros m Hm. left. rewrite EG in Hm. unfold keep in Hm. apply in_map_iff in Hm as (y & <- & Hy).
      apply filter_In in Hy as [Hy _]. apply in_map; auto.
    + rewrite EG, shown_keep, rev_involutive. apply Permutation_refl.
Qed.

Lemma keep_nil g : keep [] g = [].
Proof.
  unfold keep. simpl. induction g; simpl; auto.
  rewrite (proj2 (underb_iff [] _) (under_nil _)). simpl. auto.
Qed.

Lemma reap_ok w segs P Q al c i : LInv w segs P Q -> alive_inv w al ->
  llegal w (keys_of segs) al (LReap c i) ->
  exists w' segs', dl_reap w c i = Some w' /\ stays w w' /\ LInv w' segs' P Q /\
    keys_of segs' = keys_of segs /\ alive_inv w' al.
Proof.
  intros I AI HC. simpl in HC. unfold dl_reap.
  destruct (nth_error (dl_dead (lw_l w)) i) as [st|] eqn:EN.
  2:{ exists w, segs. split; auto. split; [constructor; auto|]. auto. }
  destruct (nth_error_split _ _ EN) as (D1 & D2 & ED & LD).
  assert (IN : In (SDead st) segs).
  { apply in_dead. eapply Permutation_in; [apply (li_dead _ _ _ _ I)|]. eapply nth_error_In; eauto. }
  destruct (in_split _ _ IN) as (A & B & E).
  assert (GN := li_gids _ _ _ _ I). rewrite E in GN.
  assert (GN2 := GN). apply sgid_notin in GN2 as [GA GB].
  assert (SS : sorted (rgrp (lw_r w) (st_g st))) by (apply (li_sorted _ _ _ _ I (SDead st)); auto).
  destruct (view_picture _ _ _ _ _ _ _ I E) as (F & R & K & EF & ER).
  change (sgid (SDead st)) with (st_g st) in *.
  assert (KC := K). rewrite HC in KC. simpl in KC.
  assert (PIC : picture (lw_r w) (st_g st) (containing_node c) F R).
  { split; [apply I|]. split; auto. }
  destruct (remove_here_spec (lw_r w) (st_g st) (containing_node c) F R [] PIC)
    as (r' & E1 & EG & GO & (W' & S' & K') & F' & KO & _); [exact Logic.I|].
  simpl. unfold pos_default. rewrite E1. cbn [obind].
  rewrite keep_nil in EG.
  set (w' := mkLW _ _).
  assert (ST : stays w w').
  { constructor; simpl; auto.
    - rewrite HC. simpl. auto.
    - intros g Hg. apply GO. intros ->. apply Hg. apply (in_groups w segs P Q (SDead st) I IN). }
  exists w', (A ++ B). split; auto. split; auto.
  assert (V : view (rdom r') (rgrp r') (cget (dl_cont (lw_l w))) (dl_start (lw_l w)) (dl_end (lw_l w)) segs P Q).
  { eapply view_group; eauto.
    - change (sgid (SDead st)) with (st_g st). rewrite EG. simpl. tauto.
    - change (sgid (SDead st)) with (st_g st). intros F0 R0 K0 EF0 ER0. subst F0 R0. rewrite HC. simpl.
      rewrite K', EF, ER. auto. }
  assert (MM : mid (rgrp r') segs = mid (rgrp r') (A ++ B)).
  { rewrite E, !mid_app, mid_cons. simpl. unfold content. rewrite EG. auto. }
  split.
  - eapply linv_edit; eauto; simpl.
    + destruct V as [V1 V2 V3]. rewrite MM in *. constructor; auto.
    + rewrite (li_items _ _ _ _ I), E, !items_of_app. simpl. auto.
    + assert (PD := li_dead _ _ _ _ I). rewrite ED, E, dead_of_app in PD. simpl in PD.
      rewrite <- !Permutation_middle in PD. apply Permutation_cons_inv in PD.
      rewrite ED. change (match D1 ++ st :: D2 with [] => [] | _ :: l => skipn i l end)
        with (skipn (S i) (D1 ++ st :: D2)).
      assert (firstn i (D1 ++ st :: D2) = D1) as ->.
      { subst i. rewrite firstn_app, Nat.sub_diag, firstn_all. simpl. apply app_nil_r. }
      assert (skipn (S i) (D1 ++ st :: D2) = D2) as ->.
      { subst i. rewrite skipn_app, skipn_all2 by lia.
        replace (S (length D1) - length D1) with 1 by lia. reflexivity. }
      rewrite dead_of_app. auto.
    + assert (KN := li_keys _ _ _ _ I). rewrite E, keys_of_app in KN. rewrite keys_of_app. auto.
    + rewrite map_app in GN. simpl in GN. rewrite map_app. apply NoDup_remove_1 in GN. auto.
    + intros x Hx. assert (In x segs) by (rewrite E; rewrite in_app_iff in *; simpl; tauto).
      rewrite GO; [apply (li_sorted _ _ _ _ I); auto|].
      apply in_app_iff in Hx as [Hx|Hx]; auto.
  - split; [rewrite E, !keys_of_app; auto|].
    intros k' st' Hin. simpl in Hin |- *. rewrite GO; [apply AI; auto|].
    eapply dead_gid_neq; eauto. eapply nth_error_In; eauto.
Qed.

(** ** render *)
Lemma insert_foreign d p n ref : dom_wf d -> frag d n = false -> ~ In n (kids d p) -> ref_ok d p ref ->
  exists d' P Q, insert_before d p n ref = Some d' /\ kids d p = P ++ Q /\ ref = hd_error Q /\
    kids d' p = P ++ n :: Q /\ dom_wf d' /\ frag d' = frag d /\ par d' n = Some p /\
    (forall m, m <> n -> par d' m = par d m) /\
    (forall q, q <> p -> kids d' q = remove_node n (kids d q)).
Proof.
  intros W F N R.
  destruct (insert_before_spec d p n ref W F R) as (d' & E & W' & F' & P1 & P2 & K1 & K2).
  rewrite remove_node_notin in K1 by auto.
  destruct ref as [r|].
  - simpl in R. apply in_split in R as (P & Q & EK).
    assert (NE : r <> n) by (intro; subst; apply N; rewrite EK; apply in_app_iff; simpl; auto).
    exists d', P, (r :: Q). repeat (split; auto).
    rewrite K1. unfold eff_ref. destruct (Nat.eqb_spec r n); [contradiction|]. rewrite EK, ins_list_some; auto.
    assert (ND := proj1 W p). rewrite EK in ND. apply NoDup_remove_2 in ND. rewrite in_app_iff in ND. tauto.
  - exists d', (kids d p), []. rewrite app_nil_r. repeat (split; auto).
    rewrite K1. simpl. apply ins_list_none.
Qed.

Lemma bt_insert_only p n g : sorted g -> ~ In (rev p) (keys g) ->
  (forall k m, In (k, m) g -> ~ under (rev p) (rev k)) ->
  exists g1 g2, g = g1 ++ g2 /\ bt_insert p n g = (g1 ++ (p, n) :: g2, None) /\
    range_from_first p g = hd_error (map snd g2) /\ sorted (g1 ++ (p, n) :: g2).
Proof. intros S N _. apply bt_insert_split; auto. Qed.

(** removing at [p] when only [n] is there *)
Lemma remove_only s g cont p n g1 g2 : dom_wf (rdom s) ->
  rgrp s g = g1 ++ (p, n) :: g2 -> sorted (rgrp s g) -> pos_ok p ->
  (forall k m, In (k, m) (g1 ++ g2) -> ~ under (rev p) (rev k)) ->
  In n (kids (rdom s) cont) ->
  exists s', remove_here s g cont p = Some s' /\ rgrp s' g = g1 ++ g2 /\
    (forall h, h <> g -> rgrp s' h = rgrp s h) /\
    dom_wf (rdom s') /\ frag (rdom s') = frag (rdom s) /\
    par (rdom s') n = None /\ (forall m, m <> n -> par (rdom s') m = par (rdom s) m) /\
    (forall q, kids (rdom s') q = remove_node n (kids (rdom s) q)).
Proof.
  intros W EG S PO NU IN. unfold remove_here, remove_children_here.
  destruct (remove_child_spec _ _ _ W IN) as (d1 & E1 & W1 & F1 & P1 & P2 & K1).
  destruct p as [|x t]; simpl is_root; cbv iota.
  - assert (g1 = [] /\ g2 = []) as [-> ->].
    { destruct g1 as [|[a b] g1]; [destruct g2 as [|[a b] g2]; auto|];
        exfalso; apply (NU a b); simpl; auto; apply under_nil. }
    rewrite EG. simpl. rewrite E1. eexists; split; [reflexivity|]. simpl. rewrite upd_same.
    repeat (split; auto); try apply W1. intros; apply upd_other; auto.
  - assert (NS : next_sibling (x :: t) = Some (x + 1 :: t)%N).
    { unfold next_sibling. simpl in PO. apply N.ltb_lt in PO. rewrite PO; auto. }
    rewrite NS, EG.
    assert (IR : forall e, in_range (x :: t) (x + 1 :: t)%N e = underb (rev (x :: t)) (rev (fst e))).
    { intro e. apply eq_true_iff_eq. rewrite underb_iff. apply next_sibling_range; auto. }
    assert (FN : forall l, incl l (g1 ++ g2) -> filter (in_range (x :: t) (x + 1 :: t)%N) l = []).
    { induction l as [|[a b] l IH]; simpl; intro IC; auto. rewrite IR. simpl fst.
      destruct (underb (rev (x :: t)) (rev a)) eqn:U.
      - exfalso. apply underb_iff in U. apply (NU a b); auto. apply IC; simpl; auto.
      - apply IH. intros z Hz. apply IC; simpl; auto. }
    assert (RL : range_last (x :: t) (x + 1 :: t)%N (g1 ++ (x :: t, n) :: g2) = Some (x :: t, n)).
    { unfold range_last. fold (in_range (x :: t) (x + 1 :: t)%N).
      change (fun e : pos * node => (pos_leb (x :: t) (fst e) && pos_ltb (fst e) (x + 1 :: t)%N)%bool)
        with (in_range (x :: t) (x + 1 :: t)%N).
      rewrite filter_app. cbn [filter]. rewrite !FN.
      - rewrite IR. simpl fst. rewrite (proj2 (underb_iff _ _)); [reflexivity|]. exists []. rewrite app_nil_r; auto.
      - intros z Hz; apply in_app_iff; auto.
      - intros z Hz; apply in_app_iff; auto. }
    assert (RL2 : range_last (x :: t) (x + 1 :: t)%N (g1 ++ g2) = None).
    { unfold range_last.
      change (fun e : pos * node => (pos_leb (x :: t) (fst e) && pos_ltb (fst e) (x + 1 :: t)%N)%bool)
        with (in_range (x :: t) (x + 1 :: t)%N).
      rewrite FN by apply incl_refl. reflexivity. }
    destruct (length (g1 ++ (x :: t, n) :: g2)) as [|m] eqn:EL.
    { rewrite app_length in EL. simpl in EL. lia. }
    cbn [remove_range].
    match goal with |- context [range_last ?a ?b ?c] =>
      replace (range_last a b c) with (Some (x :: t, n)) by (symmetry; exact RL) end.
    rewrite E1.
    assert (BR : bt_remove (x :: t) (g1 ++ (x :: t, n) :: g2) = g1 ++ g2)
      by (apply bt_remove_mid; rewrite <- EG; auto).
    match goal with |- context [bt_remove ?a ?b] =>
      replace (bt_remove a b) with (g1 ++ g2) by (symmetry; exact BR) end.
    match goal with |- context [remove_range ?a _ _ _ _ _] =>
      replace a with (Datatypes.S m) by (symmetry; exact EL) end.
    cbn [remove_range]. rewrite RL2.
    eexists; split; [reflexivity|]. simpl. rewrite upd_same.
    repeat (split; auto); try apply W1. intros; apply upd_other; auto.
Qed.

Lemma room_base w c : room w c -> exists g cont base p,
  c = ctx_at base p /\ indices_ok p /\ cont <> dl_frag (lw_l w) /\ ~ In g (list_groups (lw_l w)) /\
  sorted (rgrp (lw_r w) g) /\
  (forall k n, In (k, n) (rgrp (lw_r w) g) -> In n (kids (rdom (lw_r w)) cont) /\ ~ under p (rev k)) /\
  exists R, base_of g cont R base /\ incl R (kids (rdom (lw_r w)) cont).
Proof.
  intros (g & cont & base & p & -> & IO & CF & B & NG & S & H).
  exists g, cont, base, p. repeat (split; auto); try apply H with (k := k); auto; try apply (H k n); auto.
  destruct B as [->|(parent & r & -> & CP & IR)].
  - exists []. split; [constructor|]. intros x [].
  - exists [r]. split; [constructor; auto|]. intros x [<-|[]]; auto.
Qed.

(** the effect of [render]: the whole list appears contiguously in front of the
    first node of the surrounding context that has a larger position *)
Lemma render_ok w segs c : LInv w segs [] [] -> (exists f, dl_cont (lw_l w) = Fake f) -> room w c ->
  exists w' g cont base p P Q R, dl_render w c = Some w' /\ c = ctx_at base p /\ base_of g cont R base /\
    kids (rdom (lw_r w)) cont = P ++ Q /\
    hd_error Q = match range_from_first (rev p) (rgrp (lw_r w) g) with
                 | Some r => Some r | None => hd_error R end /\
    LInv w' segs P Q /\ dl_cont (lw_l w') = Real cont /\
    dl_items (lw_l w') = dl_items (lw_l w) /\ dl_dead (lw_l w') = dl_dead (lw_l w) /\
    dl_start (lw_l w') = dl_start (lw_l w) /\ dl_end (lw_l w') = dl_end (lw_l w) /\
    dl_frag (lw_l w') = dl_frag (lw_l w) /\
    (forall h, rgrp (lw_r w') h = rgrp (lw_r w) h) /\
    (forall q, q <> cont -> q <> dl_frag (lw_l w) -> kids (rdom (lw_r w')) q = kids (rdom (lw_r w)) q).
Proof.
  intros I [f HF] RM.
  destruct (room_base _ _ RM) as (g & cont & base & p & -> & IO & CF & NG & S & HG & R & BO & IR).
  assert (CI := li_cont _ _ _ _ I). rewrite HF in CI. destruct CI as (-> & _ & _).
  assert (V := li_view _ _ _ _ I). destruct V as [W K FRG]. rewrite HF in K. simpl in K.
  set (d := rdom (lw_r w)) in *. set (ls := dl_start (lw_l w)) in *. set (le := dl_end (lw_l w)) in *.
  set (F := dl_frag (lw_l w)) in *. set (M := mid (rgrp (lw_r w)) segs) in *.
  assert (NDF := proj1 W F). rewrite K in NDF.
  assert (PLS : par d ls = Some F) by (apply W; rewrite K; simpl; auto).
  assert (PLE : par d le = Some F) by (apply W; rewrite K; simpl; right; apply in_app_iff; simpl; auto).
  assert (NSE : ls <> le).
  { intro X. inversion NDF; subst. apply H1. rewrite X. apply in_app_iff; simpl; auto. }
  assert (LSM : ~ In ls M) by (inversion NDF; subst; rewrite in_app_iff in H1; tauto).
  assert (LEM : ~ In le M).
  { inversion NDF; subst. apply NoDup_remove_2 in H2. rewrite app_nil_r in H2. auto. }
  assert (LSC : ~ In ls (kids d cont)) by (intro X; apply W in X; congruence).
  assert (LEC : ~ In le (kids d cont)) by (intro X; apply W in X; congruence).
  assert (FLS : frag d ls = false) by (apply FRG; simpl; auto).
  assert (FLE : frag d le = false) by (apply FRG; simpl; right; apply in_app_iff; simpl; auto).
  unfold dl_render. fold ls le.
  rewrite add_child_ctx_at. unfold pos_default at 1. simpl app.
  rewrite (add_child_base _ _ _ _ _ _ _ BO). unfold add_here. fold d.
  destruct (bt_insert_split (rev p) ls (rgrp (lw_r w) g) S) as (g1 & g2 & EG & BI & RF & S').
  { intro X. apply in_map_iff in X as ([k m] & X1 & X2). simpl in X1. rewrite rev_involutive in X1.
    apply HG in X2 as [_ X2]. apply X2. rewrite X1. exists []. rewrite app_nil_r; auto. }
  set (ref := match range_from_first (rev p) (rgrp (lw_r w) g) with Some r => Some r | None => hd_error R end).
  assert (RO : ref_ok d cont ref).
  { unfold ref. rewrite RF. destruct g2 as [|[k m] g2]; simpl.
    - destruct R as [|r R]; simpl; auto. apply IR; simpl; auto.
    - destruct (HG k m) as [X _]; auto. rewrite EG. apply in_app_iff; simpl; auto. }
  destruct (insert_foreign d cont ls ref W FLS LSC RO)
    as (d1 & P & Q & E1 & KPQ & RQ & K1 & W1 & F1 & P1 & P1' & K1').
  rewrite E1, BI. cbn [obind rdom]. rewrite P1. cbn [obind].
  assert (NP : ~ In ls P /\ ~ In ls Q) by (rewrite KPQ, in_app_iff in LSC; tauto).
  assert (NPE : ~ In le P /\ ~ In le Q) by (rewrite KPQ, in_app_iff in LEC; tauto).
  assert (NF : ~ In le (kids d1 cont)).
  { intro X. apply W1 in X. rewrite P1' in X by congruence. congruence. }
  destruct (insert_foreign d1 cont le (Some ls) W1) as (d2 & P' & Q' & E2 & KPQ2 & RQ2 & K2 & W2 & F2 & P2 & P2' & K2').
  { rewrite F1; auto. }
  { auto. }
  { simpl. rewrite K1. apply in_app_iff; simpl; auto. }
  assert (P' = P /\ Q' = ls :: Q) as [-> ->].
  { destruct Q' as [|q Q']; simpl in RQ2; inversion RQ2; subst q. rewrite K1 in KPQ2.
    assert (ND1 := proj1 W1 cont). rewrite K1 in ND1.
    assert (HP : forall A B A' B' : list node, ~ In ls A -> ~ In ls A' -> A ++ ls :: B = A' ++ ls :: B' -> A = A' /\ B = B').
    { induction A as [|a A IHA]; intros B A' B' N1 N2 EQ; destruct A' as [|a' A']; simpl in *.
      - inversion EQ; auto.
      - inversion EQ; subst; exfalso; auto.
      - inversion EQ; subst; exfalso; auto.
      - inversion EQ; subst. destruct (IHA B A' B') as [-> ->]; auto. }
    assert (NP2 : ~ In ls P').
    { rewrite KPQ2 in ND1. apply NoDup_remove_2 in ND1. rewrite in_app_iff in ND1. tauto. }
    destruct (HP P Q P' Q') as [<- <-]; tauto. }
  rewrite E2. cbn [obind].
  rewrite remove_child_ctx_at. unfold pos_default at 1. simpl app.
  rewrite (remove_child_base _ _ _ _ _ _ BO).
  destruct (remove_only (with_dom (mkR d1 (upd (rgrp (lw_r w)) g (g1 ++ (rev p, ls) :: g2))) d2)
              g cont (rev p) ls g1 g2) as (r3 & E3 & G3 & G3' & W3 & F3 & P3 & P3' & K3); simpl; auto.
  { apply upd_same. }
  { rewrite upd_same. auto. }
  { apply indices_ok_pos; auto. }
  { intros k m X. rewrite rev_involutive. rewrite <- EG in X. apply HG in X. tauto. }
  { rewrite K2. apply in_app_iff; simpl; auto. }
  simpl in G3', F3, P3', K3.
  rewrite E3. cbn [obind].
  assert (KC3 : kids (rdom r3) cont = P ++ le :: Q).
  { rewrite K3, K2. replace (P ++ le :: ls :: Q) with ((P ++ [le]) ++ ls :: Q) by (rewrite <- app_assoc; auto).
    rewrite remove_node_mid; [rewrite <- app_assoc; auto| |tauto].
    rewrite in_app_iff; simpl. intuition congruence. }
  destruct (insert_fresh_some (rdom r3) cont ls le P Q W3) as (d4 & E4 & W4 & F4 & P4 & P4' & K4 & K4'); auto.
  { rewrite F3, F2, F1; auto. }
  rewrite E4. cbn [obind]. rewrite HF.
  assert (KF4 : kids d4 F = M).
  { rewrite K4', K3, K2', K1' by auto. rewrite K.
    rewrite (remove_node_notin ls (remove_node le _)).
    - cbn [app]. rewrite remove_node_cons_same.
      rewrite remove_node_app, (remove_node_notin ls M) by auto. simpl.
      destruct (Nat.eqb_spec le ls); [congruence|]. simpl.
      rewrite remove_node_app, remove_node_notin by auto. simpl. rewrite Nat.eqb_refl. simpl. apply app_nil_r.
    - rewrite !in_remove_node. tauto. }
  destruct (insert_fragment_spec d4 cont F le (P ++ [ls]) Q W4) as (d5 & E5 & W5 & F5 & K5 & K5F & P5 & P5' & K5'); auto.
  { rewrite F4, F3, F2, F1. apply I. }
  { rewrite K4, <- app_assoc. auto. }
  { intro X. assert (Y : frag d F = true) by apply I. rewrite <- X in Y. congruence. }
  unfold obind. rewrite E5.
  set (w' := mkLW _ _).
  assert (GE : forall h, rgrp (lw_r w') h = rgrp (lw_r w) h).
  { intro h. simpl. destruct (Nat.eq_dec h g) as [->|NE]; [congruence|].
    rewrite G3' by auto. apply upd_other; auto. }
  assert (ME : mid (rgrp r3) segs = mid (rgrp (lw_r w)) segs) by (apply mid_ext; intros; apply GE).
  exists w', g, cont, base, p, P, Q, R.
  repeat match goal with |- _ /\ _ => split end; auto.
  - constructor; simpl.
    + fold ls le. constructor; auto.
      * rewrite K5, KF4, <- app_assoc. simpl. rewrite ME. auto.
      * intros n Hn. rewrite F5, F4, F3, F2, F1. apply FRG.
        rewrite ME in Hn; auto.
    + apply I.
    + apply I.
    + apply I.
    + apply I.
    + intros x Hx. change (rgrp r3) with (rgrp (lw_r w')). rewrite GE. apply (li_sorted _ _ _ _ I); auto.
    + rewrite F5, F4, F3, F2, F1. apply I.
    + split; auto.
  - intros q Q1 Q2. simpl. rewrite K5', K4', K3, K2', K1' by auto.
    assert (LQ : ~ In ls (kids d q)) by (intro X; apply W in X; congruence).
    assert (LQE : ~ In le (kids d q)) by (intro X; apply W in X; congruence).
    rewrite (remove_node_notin ls (kids d q)) by auto.
    rewrite (remove_node_notin le (kids d q)) by auto. apply remove_node_notin; auto.
Qed.

Lemma unrender_ok w segs P Q : LInv w segs P Q -> rendered w ->
  exists w' cont, dl_cont (lw_l w) = Real cont /\ dl_unrender w = Some w' /\ LInv w' segs [] [] /\
    dl_cont (lw_l w') = Fake (dl_frag (lw_l w)) /\
    dl_items (lw_l w') = dl_items (lw_l w) /\ dl_dead (lw_l w') = dl_dead (lw_l w) /\
    dl_start (lw_l w') = dl_start (lw_l w) /\ dl_end (lw_l w') = dl_end (lw_l w) /\
    dl_frag (lw_l w') = dl_frag (lw_l w) /\
    rgrp (lw_r w') = rgrp (lw_r w) /\
    kids (rdom (lw_r w')) cont = P ++ Q /\
    (forall q, q <> cont -> q <> dl_frag (lw_l w) -> kids (rdom (lw_r w')) q = kids (rdom (lw_r w)) q).
Proof.
  intros I [cont HR]. assert (CI := li_cont _ _ _ _ I). rewrite HR in CI. destruct CI as [CN CK].
  assert (V := li_view _ _ _ _ I). destruct V as [W K F]. rewrite HR in K. simpl in K.
  unfold dl_unrender, move_nodes_before. rewrite HR. simpl cget.
  set (M := mid (rgrp (lw_r w)) segs) in *.
  destruct (move_out (M ++ [dl_end (lw_l w)]) (dl_start (lw_l w)) (rdom (lw_r w))
     (S (length (kids (rdom (lw_r w)) cont))) cont (dl_frag (lw_l w)) P Q []) as (d' & E & FR & K1 & K2); auto.
  { rewrite K. apps. auto. }
  { rewrite K. repeat (rewrite app_length; simpl). lia. }
  assert (L : last (dl_start (lw_l w) :: M ++ [dl_end (lw_l w)]) (dl_start (lw_l w)) = dl_end (lw_l w))
    by (rewrite app_comm_cons; apply last_last).
  rewrite L in E. rewrite E. cbn [obind]. simpl in K2.
  set (w' := mkLW _ _). exists w', cont.
  repeat match goal with |- _ /\ _ => split end; auto.
  - constructor; simpl; try apply I.
    + constructor; [apply FR| |].
      * rewrite K2. auto.
      * intros n Hn. rewrite (df_frag _ _ _ _ FR). apply F. auto.
    + rewrite (df_frag _ _ _ _ FR). apply I.
    + auto.
  - intros q Q1 Q2. simpl. apply (df_kids _ _ _ _ FR). simpl. intuition congruence.
Qed.

Lemma split_uniq (x : node) A : forall B A' B', ~ In x A -> ~ In x A' ->
  A ++ x :: B = A' ++ x :: B' -> A = A' /\ B = B'.
Proof.
  induction A as [|a A IHA]; intros B A' B' N1 N2 EQ; destruct A' as [|a' A']; simpl in *.
  - inversion EQ; auto.
  - inversion EQ; subst; exfalso; auto.
  - inversion EQ; subst; exfalso; auto.
  - inversion EQ; subst. destruct (IHA B A' B') as [-> ->]; auto.
Qed.
Lemma split_uniq_nd (x : node) A B A' B' : NoDup (A ++ x :: B) ->
  A ++ x :: B = A' ++ x :: B' -> A = A' /\ B = B'.
Proof.
  intros ND E. apply split_uniq with (x := x); auto.
  - apply NoDup_remove_2 in ND. rewrite in_app_iff in ND. tauto.
  - rewrite E in ND. apply NoDup_remove_2 in ND. rewrite in_app_iff in ND. tauto.
Qed.

Lemma env_ok w segs P Q al r' : LInv w segs P Q -> llegal w (keys_of segs) al (LEnv r') ->
  exists P' Q', LInv (mkLW r' (lw_l w)) segs P' Q'.
Proof.
  intros I (W' & F' & KF & G' & HR).
  assert (V := li_view _ _ _ _ I). assert (NDV := v_nodup _ _ _ _ _ _ _ _ V). destruct V as [W K F].
  assert (GS : forall x, In x segs -> rgrp r' (sgid x) = rgrp (lw_r w) (sgid x)).
  { intros x Hx. apply G'. eapply in_groups; eauto. }
  assert (ME : mid (rgrp r') segs = mid (rgrp (lw_r w)) segs) by (apply mid_ext; auto).
  assert (C : forall P' Q', kids (rdom r') (cget (dl_cont (lw_l w))) =
      P' ++ dl_start (lw_l w) :: mid (rgrp (lw_r w)) segs ++ dl_end (lw_l w) :: Q' ->
      match dl_cont (lw_l w) with Fake f => P' = [] /\ Q' = [] | _ => True end ->
      LInv (mkLW r' (lw_l w)) segs P' Q').
  { intros P' Q' KK CC. constructor; simpl; try apply I.
    - constructor; auto.
      + rewrite KK, ME; auto.
      + intros n Hn. rewrite F'. apply F. rewrite ME in Hn; auto.
    - intros x Hx. rewrite GS by auto. apply (li_sorted _ _ _ _ I); auto.
    - rewrite F'. apply I.
    - assert (CI := li_cont _ _ _ _ I). destruct (dl_cont (lw_l w)) as [n|f].
      + rewrite KF. auto.
      + tauto. }
  assert (CI := li_cont _ _ _ _ I). destruct (dl_cont (lw_l w)) as [n|f] eqn:EC; simpl in *.
  - destruct (HR n eq_refl) as (P0 & m & Q0 & P' & Q' & K0 & K1).
    exists P', Q'. apply C; auto. rewrite K1. f_equal. f_equal. f_equal.
    rewrite K in K0. rewrite K0 in NDV.
    destruct (split_uniq_nd _ _ _ _ _ NDV (eq_sym K0)) as [-> E2].
    apply nodup_app_r in NDV. inversion NDV; subst.
    destruct (split_uniq_nd _ _ _ _ _ H2 E2) as [-> _]. auto.
  - destruct CI as (-> & -> & ->). exists [], []. apply C; auto. rewrite KF, K. auto.
Qed.

(** ** all operations *)
Lemma insert_same_grp w k b st x w' : dl_insert w k b st = Some (x, w') ->
  rgrp (lw_r w') = rgrp (lw_r w) /\
  (forall k' st', In (k', st') (dl_items (lw_l w')) -> (k' = k /\ st' = st) \/ (k' <> k /\ In (k', st') (dl_items (lw_l w)))).
Proof.
  unfold dl_insert, obind. intro H.
  repeat match type of H with
  | match ?e with _ => _ end = _ => destruct e eqn:?; try discriminate
  end; inversion H; subst; simpl; (split; [auto|]);
    intros k' st' [X|X]; try (inversion X; auto);
    unfold hm_remove in X; apply filter_In in X as [X1 X2]; simpl in X2;
    destruct (Nat.eqb_spec k' k); try discriminate; auto.
Qed.
Lemma remove_same_grp w k x w' : dl_remove w k = Some (x, w') ->
  rgrp (lw_r w') = rgrp (lw_r w) /\ incl (dl_items (lw_l w')) (dl_items (lw_l w)).
Proof.
  unfold dl_remove, obind. intro H.
  repeat match type of H with
  | match ?e with _ => _ end = _ => destruct e eqn:?; try discriminate
  end; inversion H; subst; simpl; (split; [auto|]); try apply incl_refl.
  intros z Hz. unfold hm_remove in Hz. apply filter_In in Hz. tauto.
Qed.
Lemma move_same_grp w k b w' : dl_move w k b = Some w' ->
  rgrp (lw_r w') = rgrp (lw_r w) /\ dl_items (lw_l w') = dl_items (lw_l w).
Proof.
  unfold dl_move, obind. intro H.
  repeat match type of H with
  | match ?e with _ => _ end = _ => destruct e eqn:?; try discriminate
  end; inversion H; subst; auto.
Qed.
Lemma swap_same_grp w k b w' : dl_swap w k b = Some w' ->
  rgrp (lw_r w') = rgrp (lw_r w) /\ dl_items (lw_l w') = dl_items (lw_l w).
Proof.
  unfold dl_swap, obind. intro H.
  repeat match type of H with
  | match ?e with _ => _ end = _ => destruct e eqn:?; try discriminate
  end; inversion H; subst; auto.
Qed.
Lemma retain_loop_incl keep cont m : forall d d' m' dead,
  retain_loop d cont keep m = Some (d', m', dead) -> incl m' m.
Proof.
  induction m as [|[k st] t IH]; simpl; intros d d' m' dead H.
  - inversion H; subst. apply incl_refl.
  - unfold obind in H. destruct (keep k).
    + destruct (retain_loop d cont keep t) as [[[d1 m1] dd]|] eqn:E; inversion H; subst.
      apply IH in E. intros z [<-|Hz]; simpl; auto.
    + destruct (remove_markers d cont st) as [d1|]; try discriminate.
      destruct (retain_loop d1 cont keep t) as [[[d2 m1] dd]|] eqn:E; inversion H; subst.
      apply IH in E. intros z Hz; simpl; auto.
Qed.
Lemma retain_same_grp w f w' : dl_retain w f = Some w' ->
  rgrp (lw_r w') = rgrp (lw_r w) /\ incl (dl_items (lw_l w')) (dl_items (lw_l w)).
Proof.
  unfold dl_retain, obind. intro H.
  destruct (retain_loop _ _ _ _) as [[[d1 m1] dd]|] eqn:E; inversion H; subst. simpl. split; auto.
  eapply retain_loop_incl; eauto.
Qed.

Lemma step_ok w segs P Q al o : LInv w segs P Q -> alive_inv w al -> llegal w (keys_of segs) al o ->
  exists w' segs' P' Q', lexec w o = Some (w', aret (keys_of segs) o) /\
    LInv w' segs' P' Q' /\ keys_of segs' = astep (keys_of segs) o /\
    alive_inv w' (cstep (keys_of segs) al o) /\
    dl_start (lw_l w') = dl_start (lw_l w) /\ dl_end (lw_l w') = dl_end (lw_l w) /\
    match o with
    | LRender _ | LUnrender | LEnv _ => True
    | _ => P' = P /\ Q' = Q /\ stays w w'
    end.
Proof.
  intros I AI L.
  assert (SUB : forall w', rgrp (lw_r w') = rgrp (lw_r w) -> incl (dl_items (lw_l w')) (dl_items (lw_l w)) ->
     alive_inv w' al).
  { intros w' G IC k st Hin. rewrite G. apply AI. apply IC; auto. }
  assert (EQI : forall l l' : list (key * stored), l' = l -> incl l' l) by (intros ? ? ->; apply incl_refl).
  destruct o; simpl lexec.
  - destruct (insert_ok _ _ _ _ al _ _ _ I L) as (w' & segs' & E & S & I' & K).
    exists w', segs', P, Q. assert (AI' : alive_inv w' (cstep (keys_of segs) al (LInsert k before fresh))).
    { destruct (insert_same_grp _ _ _ _ _ _ E) as [G IC]. intros k' st' Hin. rewrite G. simpl.
      destruct (IC _ _ Hin) as [[-> ->]|[NE Hi]].
      - rewrite upd_same. destruct L as (_ & _ & _ & _ & _ & _ & GE & _). rewrite GE. constructor.
      - rewrite upd_other by auto. apply AI; auto. }
    rewrite E. simpl. repeat (split; auto); apply S.
  - destruct (remove_ok _ _ _ _ k I) as (w' & E & S & I').
    destruct (remove_same_grp _ _ _ _ E) as [G IC].
    exists w', (kseg (notk k) segs), P, Q. rewrite E. simpl. rewrite keys_kseg. repeat (split; auto); apply S.
  - destruct (move_ok _ _ _ _ al _ _ I L) as (w' & segs' & E & S & I' & K).
    destruct (move_same_grp _ _ _ _ E) as [G IC].
    exists w', segs', P, Q. rewrite E. simpl. repeat (split; auto); apply S.
  - destruct (swap_ok _ _ _ _ al _ _ I L) as (w' & segs' & E & S & I' & K).
    destruct (swap_same_grp _ _ _ _ E) as [G IC].
    exists w', segs', P, Q. rewrite E. simpl. repeat (split; auto); apply S.
  - destruct (retain_ok _ _ _ _ keep I) as (w' & E & S & I').
    destruct (retain_same_grp _ _ _ E) as [G IC].
    exists w', (kseg keep segs), P, Q. rewrite E. simpl. rewrite keys_kseg. repeat (split; auto); apply S.
  - destruct (item_ok _ _ _ _ al _ _ _ I AI L) as (w' & E & S & I' & AI').
    exists w', segs, P, Q. rewrite E. split; auto. split; auto. split; auto. split; auto.
    repeat (split; auto); apply S.
  - destruct (reap_ok _ _ _ _ al _ _ I AI L) as (w' & segs' & E & S & I' & K & AI').
    exists w', segs', P, Q. rewrite E. simpl. repeat (split; auto); apply S.
  - destruct L as [L1 L2]. assert (CI := li_cont _ _ _ _ I).
    destruct L1 as [f HF]. rewrite HF in CI. destruct CI as (-> & -> & ->).
    destruct (render_ok _ _ c I) as (w' & g & cont & base & p & P' & Q' & R & E & _ & _ & _ & _ & I' & _ & SI & _ & S1 & S2 & _ & G & _); eauto.
    exists w', segs, P', Q'. rewrite E. simpl. repeat (split; auto).
    intros k st Hin. rewrite G. apply AI. rewrite <- SI; auto.
  - destruct (unrender_ok _ _ _ _ I L) as (w' & cont & _ & E & I' & _ & SI & _ & S1 & S2 & _ & G & _).
    exists w', segs, [], []. rewrite E. simpl. repeat (split; auto).
  - destruct (env_ok _ _ _ _ al _ I L) as (P' & Q' & I').
    exists (mkLW r (lw_l w)), segs, P', Q'. simpl. repeat (split; auto).
    intros k st Hin. simpl in *. destruct L as (_ & _ & _ & G & _). rewrite G; [apply AI; auto|].
    unfold list_groups. apply in_app_iff. left. apply in_map_iff. exists (k, st); auto.
Qed.

Lemma run_ok ops : forall w segs P Q al, LInv w segs P Q -> alive_inv w al ->
  legal_lrun w (keys_of segs) al ops ->
  exists w' segs' P' Q', lrun w ops = Some (w', arets (keys_of segs) ops) /\
    LInv w' segs' P' Q' /\ keys_of segs' = fold_left astep ops (keys_of segs) /\
    alive_inv w' (contents_after (keys_of segs) al ops) /\
    dl_start (lw_l w') = dl_start (lw_l w) /\ dl_end (lw_l w') = dl_end (lw_l w).
Proof.
  induction ops as [|o t IH]; intros w segs P Q al I AI L; simpl.
  - exists w, segs, P, Q. auto 7.
  - destruct L as [L1 L2].
    destruct (step_ok _ _ _ _ al _ I AI L1) as (w1 & s1 & P1 & Q1 & E & I1 & K1 & AI1 & S1 & S2 & _).
    rewrite E. specialize (L2 _ _ E). rewrite <- K1 in L2.
    destruct (IH _ _ _ _ _ I1 AI1 L2) as (w2 & s2 & P2 & Q2 & E2 & I2 & K2 & AI2 & S3 & S4).
    exists w2, s2, P2, Q2. rewrite E2, K1 in *. repeat (split; auto); congruence.
Qed.

Lemma new_ok r fr s e : dom_wf (rdom r) -> frag (rdom r) fr = true -> kids (rdom r) fr = [] ->
  s <> e -> par (rdom r) s = None -> par (rdom r) e = None ->
  frag (rdom r) s = false -> frag (rdom r) e = false ->
  exists w, dl_new r fr s e = Some w /\ LInv w [] [] [] /\ dl_start (lw_l w) = s /\ dl_end (lw_l w) = e /\
    dl_cont (lw_l w) = Fake fr /\ dl_frag (lw_l w) = fr /\
    (forall q, q <> fr -> kids (rdom (lw_r w)) q = kids (rdom r) q).
Proof.
  intros W FF KF NE PS PE FS FE. unfold dl_new.
  destruct (insert_fresh_none (rdom r) fr s W FS PS) as (d1 & E1 & W1 & F1 & P1 & P1' & K1 & K1').
  rewrite E1. cbn [obind].
  destruct (insert_fresh_none d1 fr e W1) as (d2 & E2 & W2 & F2 & P2 & P2' & K2 & K2').
  { rewrite F1; auto. }
  { rewrite P1'; auto. }
  rewrite E2. cbn [obind]. eexists; split; [reflexivity|]. simpl. repeat (split; auto); try apply W2; simpl; auto.
  - rewrite K2, K1, KF. reflexivity.
  - intros n [<-|[<-|[]]]; rewrite F2, F1; auto.
  - constructor.
  - constructor.
  - contradiction.
  - rewrite F2, F1. auto.
  - intros q Hq. rewrite K2', K1'; auto.
Qed.

(** the picture promised by the specification *)
Lemma shows_segs w al segs : (forall k st, In (SItem k st) segs -> In (k, st) (dl_items (lw_l w))) ->
  (forall st, In (SDead st) segs -> In st (dl_dead (lw_l w))) ->
  (forall x, In x segs -> sorted (rgrp (lw_r w) (sgid x))) -> alive_inv w al ->
  shows w al (mid (rgrp (lw_r w)) segs) (keys_of segs).
Proof.
  induction segs as [|[k st|st] t IH]; intros H1 H2 H3 AI; simpl.
  - constructor.
  - rewrite <- app_assoc. simpl. unfold content. rewrite <- shown_snd.
    apply shows_item; [apply H1; simpl; auto|apply AI, H1; simpl; auto| |].
    + rewrite shown_fst. apply (H3 (SItem k st)). simpl; auto.
    + apply IH; intros; [apply H1|apply H2|apply H3|]; simpl; auto.
  - apply shows_dead; [apply H2; simpl; auto|].
    apply IH; intros; [apply H1|apply H2|apply H3|]; simpl; auto.
Qed.
Lemma linv_shows w segs P Q al : LInv w segs P Q -> alive_inv w al ->
  shows w al (mid (rgrp (lw_r w)) segs) (keys_of segs) /\ NoDup (keys_of segs) /\
  Permutation (map fst (dl_items (lw_l w))) (keys_of segs).
Proof.
  intros I AI. split; [|split; [apply I|]].
  - apply shows_segs; auto.
    + intros k st H. apply in_items in H. eapply Permutation_in; [symmetry; apply (li_items _ _ _ _ I)|auto].
    + intros st H. apply in_dead in H. eapply Permutation_in; [symmetry; apply (li_dead _ _ _ _ I)|auto].
    + apply I.
  - rewrite keys_items. apply Permutation_map. apply I.
Qed.

(** ** place among siblings *)
Definition ingroup (g : group) (n : node) : bool := existsb (Nat.eqb n) (map snd g).
Lemma ingroup_iff g n : ingroup g n = true <-> In n (map snd g).
Proof. unfold ingroup. exact (memb_iff n (map snd g)). Qed.

Lemma insert_between d p n ref X Y : dom_wf d -> frag d n = false -> par d n = None ->
  kids d p = X ++ Y -> ref = hd_error Y ->
  exists d', insert_before d p n ref = Some d' /\ kids d' p = X ++ n :: Y /\
    dom_wf d' /\ (forall q, q <> p -> kids d' q = kids d q).
Proof.
  intros W F P K R. destruct Y as [|r Y]; simpl in R; subst ref.
  - destruct (insert_fresh_none d p n W F P) as (d' & E & W' & _ & _ & _ & K1 & K2).
    exists d'. rewrite K1, K, app_nil_r. auto.
  - destruct (insert_fresh_some d p n r X Y W F P K) as (d' & E & W' & _ & _ & _ & K1 & K2).
    exists d'. auto.
Qed.

Lemma filter_split {A} (f : A -> bool) l a x b : filter f l = a ++ x :: b ->
  exists l1 l2, l = l1 ++ x :: l2 /\ filter f l1 = a /\ filter f l2 = b.
Proof.
  revert a. induction l as [|y l IH]; simpl; intros a E.
  - destruct a; discriminate.
  - destruct (f y) eqn:Fy.
    + destruct a as [|z a]; simpl in E; inversion E; subst.
      * exists [], l. auto.
      * destruct (IH a H1) as (l1 & l2 & -> & E1 & E2). exists (z :: l1), l2. simpl. rewrite Fy, E1. auto.
    + destruct (IH a E) as (l1 & l2 & -> & E1 & E2). exists (y :: l1), l2. simpl. rewrite Fy, E1. auto.
Qed.

Lemma sorted_app_lt g1 g2 : sorted (g1 ++ g2) -> forall a b, In a g1 -> In b g2 ->
  path_lt (rev (fst a)) (rev (fst b)).
Proof.
  induction g1 as [|e g1 IH]; intros S a b Ha Hb; [destruct Ha|].
  simpl in S. rewrite sorted_cons in S. destruct S as [S F]. destruct Ha as [->|Ha]; [|eapply IH; eauto].
  rewrite Forall_forall in F. apply F. unfold keys. rewrite map_app, in_app_iff. right.
  apply in_map_iff. exists b; auto.
Qed.

Lemma sorted_mid_hi g1 x g2 e : sorted (g1 ++ x :: g2) -> In e g2 ->
  path_lt (rev (fst x)) (rev (fst e)).
Proof.
  intros S He. replace (g1 ++ x :: g2) with ((g1 ++ [x]) ++ g2) in S by (rewrite <- app_assoc; auto).
  eapply sorted_app_lt; eauto. apply in_app_iff; simpl; auto.
Qed.

Lemma app_prefix_cases {A} (a b c d : list A) : a ++ b = c ++ d ->
  (exists x, c = a ++ x /\ b = x ++ d) \/ (exists x, a = c ++ x /\ d = x ++ b /\ x <> []).
Proof.
  revert c. induction a as [|x a IH]; simpl; intros c E.
  - left. exists c. auto.
  - destruct c as [|y c]; simpl in E.
    + right. exists (x :: a). subst d. repeat split; auto. discriminate.
    + inversion E; subst. destruct (IH c H1) as [(z & -> & ->)|(z & -> & -> & NZ)].
      * left. exists z. auto.
      * right. exists z. auto.
Qed.

(** a sibling at path [q] renders beside the list rendered at path [p] *)
Lemma sibling_ok s g cont base F B1 L B2 R G1 G2 p q n :
  dom_wf (rdom s) -> base_of g cont R base ->
  kids (rdom s) cont = F ++ B1 ++ L ++ B2 ++ R ->
  rgrp s g = G1 ++ G2 -> sorted (G1 ++ G2) ->
  filter (ingroup (G1 ++ G2)) B1 = map snd G1 ->
  filter (ingroup (G1 ++ G2)) B2 = map snd G2 ->
  (forall e, In e G1 -> path_lt (rev (fst e)) p) ->
  (forall e, In e G2 -> path_lt p (rev (fst e))) ->
  frag (rdom s) n = false -> par (rdom s) n = None ->
  p <> q -> ~ In q (map (fun e => rev (fst e)) (G1 ++ G2)) ->
  exists s', add_child (ctx_at base q) pos_default n s = Some s' /\
    ((path_lt p q \/ (forall e, In e G1 -> ~ path_lt q (rev (fst e)))) ->
       exists X Y, kids (rdom s') cont = F ++ B1 ++ L ++ X ++ n :: Y ++ R /\ B2 = X ++ Y) /\
    ((path_lt q p /\ exists e, In e G1 /\ path_lt q (rev (fst e))) ->
       exists X Y, kids (rdom s') cont = F ++ X ++ n :: Y ++ L ++ B2 ++ R /\ B1 = X ++ Y).
Proof.
  intros W BO K EG S F1 F2 LT1 LT2 FN PN NPQ NIN.
  rewrite add_child_ctx_at. unfold pos_default. simpl app.
  rewrite (add_child_base _ _ _ _ _ _ _ BO). unfold add_here. rewrite EG.
  destruct (bt_insert_split (rev q) n (G1 ++ G2) S) as (g1 & g2 & EGG & BI & RF & S').
  { rewrite rev_involutive. auto. }
  rewrite BI, RF.
  assert (LO : forall e, In e g1 -> path_lt (rev (fst e)) q).
  { intros e He. assert (H := sorted_app_lt g1 ((rev q, n) :: g2) S' e (rev q, n) He (or_introl eq_refl)).
    simpl in H. rewrite rev_involutive in H. auto. }
  assert (HI : forall e, In e g2 -> path_lt q (rev (fst e))).
  { intros e He. assert (H := sorted_mid_hi _ _ _ e S' He). simpl in H. rewrite rev_involutive in H. auto. }
  destruct (app_prefix_cases _ _ _ _ EGG) as [(x & -> & ->)|(x & -> & -> & NX)].
  - (* everything of G1 is smaller: goes to B2 *)
    assert (XY : exists X Y, B2 = X ++ Y /\
       match hd_error (map snd g2) with Some r => Some r | None => hd_error R end = hd_error (Y ++ R)).
    { destruct g2 as [|[k v] g2]; simpl.
      - exists B2, []. rewrite app_nil_r. auto.
      - rewrite map_app in F2. simpl in F2. apply filter_split in F2 as (l1 & l2 & -> & _ & _).
        exists l1, (v :: l2). auto. }
    destruct XY as (X & Y & -> & RE).
    match goal with |- context [insert_before _ _ _ ?r] => replace r with (hd_error (Y ++ R)) by (symmetry; exact RE) end.
    destruct (insert_between (rdom s) cont n (hd_error (Y ++ R)) (F ++ B1 ++ L ++ X) (Y ++ R) W FN PN)
      as (d' & E & K' & _); auto.
    { rewrite K. rewrite <- !app_assoc. auto. }
    rewrite E. eexists; split; [reflexivity|]. simpl. split.
    + intros _. exists X, Y. split; auto. rewrite K'. rewrite <- !app_assoc. auto.
    + intros [_ (e & He & Hq)]. exfalso.
      apply (path_lt_irrefl q). eapply path_lt_trans; [exact Hq|]. apply LO. apply in_app_iff; auto.
  - (* some element of G1 is larger *)
    destruct x as [|[k v] x]; [congruence|].
    simpl. rewrite !map_app in F1. simpl in F1. apply filter_split in F1 as (l1 & l2 & -> & _ & _).
    destruct (insert_between (rdom s) cont n (Some v) (F ++ l1) (v :: l2 ++ L ++ B2 ++ R) W FN PN)
      as (d' & E & K' & _); auto.
    { rewrite K. rewrite <- !app_assoc. simpl. auto. }
    rewrite E. eexists; split; [reflexivity|]. simpl. split.
    + intros [H|H]; exfalso.
      * apply (path_lt_irrefl p). eapply path_lt_trans; [exact H|].
        eapply path_lt_trans; [apply (HI (k, v)); simpl; auto|]. apply (LT1 (k, v)). apply in_app_iff; simpl; auto.
      * apply (H (k, v)); [apply in_app_iff; simpl; auto|]. apply (HI (k, v)). simpl; auto.
    + intros _. exists l1, (v :: l2). split; auto. rewrite K'. rewrite <- !app_assoc. auto.
Qed.

(** where [render] puts the list *)
Lemma render_place w segs base p g cont F B R :
  LInv w segs [] [] -> (exists f, dl_cont (lw_l w) = Fake f) -> room w (ctx_at base p) ->
  base_of g cont R base ->
  kids (rdom (lw_r w)) cont = F ++ B ++ R ->
  sorted (rgrp (lw_r w) g) ->
  filter (ingroup (rgrp (lw_r w) g)) B = map snd (rgrp (lw_r w) g) ->
  ~ In p (keys (rgrp (lw_r w) g)) ->
  exists w' B1 B2 G1 G2, dl_render w (ctx_at base p) = Some w' /\ B = B1 ++ B2 /\
    rgrp (lw_r w) g = G1 ++ G2 /\
    kids (rdom (lw_r w')) cont = F ++ B1 ++ (dl_start (lw_l w) :: mid (rgrp (lw_r w)) segs ++ [dl_end (lw_l w)]) ++ B2 ++ R /\
    filter (ingroup (rgrp (lw_r w) g)) B1 = map snd G1 /\
    filter (ingroup (rgrp (lw_r w) g)) B2 = map snd G2 /\
    (forall e, In e G1 -> path_lt (rev (fst e)) p) /\
    (forall e, In e G2 -> path_lt p (rev (fst e))).
Proof.
  intros I HF RM BO K S FB NI.
  destruct (render_ok w segs (ctx_at base p) I HF RM)
    as (w' & g' & cont' & base' & p' & P & Q & R' & E & EC & BO' & KPQ & HQ & I' & RC & _ & _ & RS & RE & _ & GE & _).
  assert (EB : g' = g /\ cont' = cont /\ p' = p /\ hd_error R' = hd_error R).
  { assert (INJ : forall p base p' base' R R', base_of g cont R base -> base_of g' cont' R' base' ->
        ctx_at base p = ctx_at base' p' -> p = p' /\ base = base').
    { clear. induction p as [|i p IH] using rev_ind; intros base p' base' R R' B1 B2 E.
      - destruct p' as [|j p' _] using rev_ind; auto. rewrite ctx_at_snoc in E. simpl in E. inversion B1; subst; discriminate.
      - rewrite ctx_at_snoc in E. destruct p' as [|j p' _] using rev_ind.
        + simpl in E. inversion B2; subst; discriminate.
        + rewrite ctx_at_snoc in E. inversion E; subst. destruct (IH _ _ _ _ _ B1 B2 H0) as [-> ->]. auto. }
    destruct (INJ _ _ _ _ _ _ BO BO' EC) as [-> ->].
    inversion BO; subst; inversion BO'; subst; auto. }
  destruct EB as (-> & -> & -> & HR). clear EC BO'. rewrite HR in HQ.
  destruct (bt_insert_split (rev p) 0 (rgrp (lw_r w) g) S) as (G1 & G2 & EG & _ & RF & S').
  { rewrite rev_involutive. auto. }
  assert (LO : forall e, In e G1 -> path_lt (rev (fst e)) p).
  { intros e He. assert (H := sorted_app_lt G1 ((rev p, 0) :: G2) S' e (rev p, 0) He (or_introl eq_refl)).
    simpl in H. rewrite rev_involutive in H. auto. }
  assert (HI : forall e, In e G2 -> path_lt p (rev (fst e))).
  { intros e He. assert (H := sorted_mid_hi _ _ _ e S' He). simpl in H. rewrite rev_involutive in H. auto. }
  assert (KK : kids (rdom (lw_r w')) cont = P ++ dl_start (lw_l w) :: mid (rgrp (lw_r w)) segs ++ dl_end (lw_l w) :: Q).
  { assert (V := li_view _ _ _ _ I'). destruct V as [_ V _]. rewrite RC in V. simpl in V.
    rewrite V, RS, RE. f_equal. f_equal. f_equal. apply mid_ext. auto. }
  assert (ND := proj1 (v_wf _ _ _ _ _ _ _ _ (li_view _ _ _ _ I)) cont).
  rewrite RF in HQ. rewrite EG, map_app in FB.
  assert (X : exists B1 B2, B = B1 ++ B2 /\ P = F ++ B1 /\ Q = B2 ++ R /\
     filter (ingroup (rgrp (lw_r w) g)) B1 = map snd G1 /\ filter (ingroup (rgrp (lw_r w) g)) B2 = map snd G2).
  { rewrite EG. destruct G2 as [|[k v] G2]; simpl in HQ, FB.
    - exists B, []. rewrite !app_nil_r in *. rewrite FB. simpl.
      assert (P = F ++ B /\ Q = R) as [-> ->]; [|auto 6].
      rewrite KPQ in K. rewrite app_assoc in K.
      destruct R as [|r R]; simpl in HQ.
      + destruct Q; simpl in HQ; try discriminate. rewrite !app_nil_r in K. auto.
      + destruct Q as [|r' Q]; simpl in HQ; inversion HQ; subst r'.
        rewrite KPQ in ND. destruct (split_uniq_nd r P Q (F ++ B) R ND K) as [-> ->]. auto.
    - apply filter_split in FB as (l1 & l2 & -> & FA & FC).
      exists l1, (v :: l2). destruct Q as [|v' Q]; simpl in HQ; inversion HQ; subst v'.
      rewrite KPQ in K, ND.
      assert (K2 : P ++ v :: Q = (F ++ l1) ++ v :: l2 ++ R) by (rewrite K; rewrite <- !app_assoc; auto).
      destruct (split_uniq_nd v _ _ _ _ ND K2) as [-> ->].
      repeat match goal with |- _ /\ _ => split end; auto.
      simpl. rewrite FC.
      assert (ingroup (G1 ++ (k, v) :: G2) v = true) as ->; auto.
      apply ingroup_iff. rewrite map_app, in_app_iff. simpl; auto. }
  destruct X as (B1 & B2 & -> & -> & -> & FA & FC).
  exists w', B1, B2, G1, G2. repeat match goal with |- _ /\ _ => split end; auto.
  rewrite KK. rewrite <- !app_assoc. simpl. rewrite <- !app_assoc. auto.
Qed.

(** ** removed items *)
Lemma retain_loop_dead keep cont m : forall d d' m' dead,
  retain_loop d cont keep m = Some (d', m', dead) -> length dead = length (filter (fun k => negb (keep k)) (map fst m)).
Proof.
  induction m as [|[k st] t IH]; simpl; intros d d' m' dead H.
  - inversion H; subst. reflexivity.
  - unfold obind in H. destruct (keep k); cbn [negb].
    + destruct (retain_loop d cont keep t) as [[[d1 m1] dd]|] eqn:E; inversion H; subst. eapply IH; eauto.
    + destruct (remove_markers d cont st) as [d1|]; try discriminate.
      destruct (retain_loop d1 cont keep t) as [[[d2 m1] dd]|] eqn:E; inversion H; subst. cbn [length]. f_equal. eapply IH; eauto.
Qed.
Lemma step_dead w segs P Q o w' b : LInv w segs P Q -> lexec w o = Some (w', b) ->
  length (dl_dead (lw_l w')) = pending_step (keys_of segs) (length (dl_dead (lw_l w))) o.
Proof.
  intros I E.
  assert (G : forall k, match hm_get k (dl_items (lw_l w)) with Some _ => memb k (keys_of segs) = true | None => memb k (keys_of segs) = false end).
  { intro k. pose proof (linv_none _ _ _ _ k I) as N. destruct (hm_get k (dl_items (lw_l w))).
    - destruct (memb k (keys_of segs)) eqn:M; auto. apply memb_false in M. apply N in M. discriminate.
    - apply memb_false, N. reflexivity. }
  destruct o; cbn [lexec pending_step] in *; unfold yesret, noret in E.
  - specialize (G k). unfold dl_insert, obind in E. destruct (ref_node _ _); [|discriminate].
    destruct (insert_before _ _ _ _); [|discriminate]. destruct (insert_before _ _ _ _); [|discriminate].
    destruct (hm_get k (dl_items (lw_l w))); rewrite G.
    + destruct (remove_markers _ _ _); [|discriminate]. injection E as <- <-. reflexivity.
    + injection E as <- <-. reflexivity.
  - specialize (G k). unfold dl_remove, obind in E. destruct (hm_get k (dl_items (lw_l w))); rewrite G.
    + destruct (remove_markers _ _ _); [|discriminate]. injection E as <- <-. reflexivity.
    + injection E as <- <-. reflexivity.
  - unfold dl_move, obind in E. destruct (ref_node _ _); [|discriminate]. destruct (hm_get _ _); [|discriminate].
    destruct (move_nodes_before _ _ _ _ _ _); [|discriminate]. injection E as <- <-. reflexivity.
  - unfold dl_swap, obind in E. destruct (hm_get a _); [|discriminate]. destruct (hm_get b0 _); [|discriminate].
    destruct (Nat.eqb _ _); [injection E as <- <-; reflexivity|].
    destruct (move_nodes_before _ _ _ _ _ _); [|discriminate]. destruct (move_nodes_before _ _ _ _ _ _); [|discriminate].
    injection E as <- <-. reflexivity.
  - unfold dl_retain, obind in E. destruct (retain_loop _ _ _ _) as [[[d1 m1] dd]|] eqn:R; [|discriminate]. injection E as <- <-.
    cbn [lw_l set_items dl_dead]. rewrite app_length. f_equal. rewrite (retain_loop_dead _ _ _ _ _ _ _ R).
    rewrite keys_items. apply Permutation_length. apply permutation_filter, Permutation_map, (li_items _ _ _ _ I).
  - unfold dl_item, obind in E. destruct (hm_get _ _); [|injection E as <- <-; reflexivity].
    destruct (exec _ _ _); [|discriminate]. injection E as <- <-. reflexivity.
  - unfold dl_reap, obind in E. destruct (nth_error (dl_dead (lw_l w)) i) eqn:N.
    + destruct (remove_child_ctx _ _ _); [|discriminate]. injection E as <- <-. cbn [lw_l set_items dl_dead].
      assert (L : i < length (dl_dead (lw_l w))) by (apply nth_error_Some; congruence).
      rewrite (proj2 (Nat.ltb_lt _ _) L), app_length, firstn_length_le by lia.
      pose proof (@skipn_length stored (S i) (dl_dead (lw_l w))) as X. cbn [skipn] in X. rewrite X. lia.
    + apply nth_error_None in N. injection E as <- <-. rewrite (proj2 (Nat.ltb_ge _ _) N). reflexivity.
  - unfold dl_render, obind in E. destruct (add_child _ _ _ _); [|discriminate]. destruct (par _ _); [|discriminate].
    destruct (insert_before _ _ _ _); [|discriminate]. destruct (remove_child_ctx _ _ _); [|discriminate].
    destruct (insert_before _ _ _ _); [|discriminate]. destruct (dl_cont _); [discriminate|].
    destruct (insert_before _ _ _ _); [|discriminate]. injection E as <- <-. reflexivity.
  - unfold dl_unrender, obind in E. destruct (move_nodes_before _ _ _ _ _ _); [|discriminate]. injection E as <- <-. reflexivity.
  - injection E as <- <-. reflexivity.
Qed.
Lemma run_dead ops : forall w segs P Q al, LInv w segs P Q -> alive_inv w al ->
  legal_lrun w (keys_of segs) al ops -> forall w' bs, lrun w ops = Some (w', bs) ->
  length (dl_dead (lw_l w')) = pending_after (keys_of segs) (length (dl_dead (lw_l w))) ops.
Proof.
  induction ops as [|o t IH]; intros w segs P Q al I AI L w' bs R.
  - injection R as <- <-. reflexivity.
  - destruct L as [L1 L2].
    destruct (step_ok _ _ _ _ al _ I AI L1) as (w1 & s1 & P1 & Q1 & E & I1 & K1 & AI1 & _).
    specialize (L2 _ _ E). rewrite <- K1 in L2. cbn [lrun] in R. rewrite E in R.
    destruct (lrun w1 t) as [[w2 bs2]|] eqn:R2; [|discriminate]. injection R as <- <-.
    cbn [pending_after]. rewrite <- (step_dead _ _ _ _ _ _ _ I E), <- K1. eapply IH; eauto.
Qed.
Lemma shows_only_iff w al m ks : dl_dead (lw_l w) = [] -> shows w al m ks -> shows_only w al m ks.
Proof.
  intros D H. induction H as [|st m ks X H IH|k st c m ks X Y Z H IH].
  - constructor.
  - rewrite D in X. destruct X.
  - econstructor; eauto.
Qed.
