(** Calling a list's methods during a poll: the invariant after it. *)
From Coq Require Import List Arith NArith Bool Lia Permutation Sorting.Sorted.
From Verif Require Import Util Position Dom Context Spec_path Spec_list Render_history Spec_dynlist
  Position_proofs Dom_proofs Context_proofs Render_history_proofs Ui DynList DynList_proofs DynList_run_proofs
  Calls Calls_proofs
  UiList Spec_uilist UiList_core UiList_inv UiList_shape UiList_ops UiList_add UiList_del UiList_ren.
Import ListNotations.

(** the methods do not look at groups *)
Definition regr (gr : gid -> group) (w : lworld) : lworld := mkLW (mkR (rdom (lw_r w)) gr) (lw_l w).
Lemma op_run_grp o d gr1 gr2 dl :
  op_run o (mkLW (mkR d gr1) dl) = option_map (regr gr1) (op_run o (mkLW (mkR d gr2) dl)).
Proof.
  destruct o as [k before st a f|k|k before|k1 k2|keep]; simpl;
    unfold dl_insert, dl_remove, dl_move, dl_swap, dl_retain; cbn [lw_l lw_r rdom].
  - destruct (ref_node dl before); auto. cbn [obind]. destruct (insert_before d _ _ _) as [d1|]; auto. cbn [obind].
    destruct (insert_before d1 _ _ _) as [d2|]; auto. cbn [obind]. destruct (hm_get k (dl_items dl)); auto.
    destruct (remove_markers d2 _ _); auto.
  - destruct (hm_get k (dl_items dl)); auto. destruct (remove_markers d _ _); auto.
  - destruct (ref_node dl before); auto. cbn [obind]. destruct (hm_get k (dl_items dl)); auto. cbn [obind].
    destruct (move_nodes_before _ _ _ _ _ _); auto.
  - destruct (hm_get k1 (dl_items dl)); auto. cbn [obind]. destruct (hm_get k2 (dl_items dl)); auto. cbn [obind].
    destruct (Nat.eqb k1 k2); auto. destruct (move_nodes_before _ _ _ _ _ _) as [d1|]; auto. cbn [obind].
    destruct (move_nodes_before d1 _ _ _ _ _); auto.
  - destruct (retain_loop _ _ _ _) as [[[? ?] ?]|]; auto.
Qed.

(** what becomes of the items *)
Definition op_items (o : uop) : list (key * stored) :=
  match o with OInsert k _ st _ _ => [(k, st)] | _ => [] end.

Lemma filter_true {A} (f : A -> bool) l : (forall x, In x l -> f x = true) -> filter f l = l.
Proof. induction l; simpl; intro Hf; auto. rewrite Hf by auto. f_equal; auto. Qed.
Lemma hm_remove_rest k st m : NoDup (map fst m) -> hm_get k m = Some st ->
  Permutation m ((k, st) :: hm_remove k m).
Proof.
  unfold hm_remove. induction m as [|[k' st'] m IH]; simpl; intros ND G; [discriminate|]. inversion ND; subst.
  destruct (Nat.eqb_spec k' k) as [->|N]; simpl.
  - inversion G; subst. constructor. rewrite filter_true; auto. intros [a b] Q. simpl.
    destruct (Nat.eqb_spec a k); auto. subst a. exfalso. apply H1. apply in_map_iff. exists (k, b); auto.
  - rewrite (IH H2 G) at 1. apply perm_swap.
Qed.
Lemma hm_remove_none k m : hm_get k m = None -> hm_remove k m = m.
Proof.
  intro G. apply filter_true. intros [a b] Q. simpl. destruct (Nat.eqb_spec a k); auto. subst a.
  exfalso. apply hm_get_none in G. apply G. apply in_map_iff. exists (k, b); auto.
Qed.
Lemma retain_rest keep : forall m d cont d' m' dead, retain_loop d cont keep m = Some (d', m', dead) ->
  exists rest, Permutation m (m' ++ rest) /\ dead = map snd rest.
Proof.
  induction m as [|[k st] m IH]; simpl; intros d cont d' m' dead E.
  - inversion E; subst. exists []. auto.
  - destruct (keep k).
    + destruct (retain_loop d cont keep m) as [[[d1 m1] dd]|] eqn:R; [|discriminate]. simpl in E. inversion E; subst.
      destruct (IH _ _ _ _ _ R) as (rest & P1 & P2). exists rest. simpl. split; auto.
    + destruct (remove_markers d cont st) as [d0|]; [|discriminate]. simpl in E.
      destruct (retain_loop d0 cont keep m) as [[[d1 m1] dd]|] eqn:R; [|discriminate]. simpl in E. inversion E; subst.
      destruct (IH _ _ _ _ _ R) as (rest & P1 & P2). exists ((k, st) :: rest). simpl. split; [|subst; auto].
      rewrite P1 at 1. apply Permutation_middle.
Qed.

Lemma op_effect o w w' : NoDup (map fst (dl_items (lw_l w))) -> op_run o w = Some w' ->
  exists rest, Permutation (op_items o ++ dl_items (lw_l w)) (dl_items (lw_l w') ++ rest) /\
    Permutation (dl_dead (lw_l w')) (map snd rest ++ dl_dead (lw_l w)).
Proof.
  intro ND. destruct o as [k before st a f|k|k before|k1 k2|keep]; simpl;
    unfold dl_insert, dl_remove, dl_move, dl_swap, dl_retain.
  - destruct (ref_node (lw_l w) before); [|discriminate]. cbn [obind]. destruct (insert_before _ _ _ _) as [d1|]; [|discriminate]. cbn [obind].
    destruct (insert_before d1 _ _ _) as [d2|]; [|discriminate]. cbn [obind]. destruct (hm_get k (dl_items (lw_l w))) as [old|] eqn:G.
    + destruct (remove_markers d2 _ _); [|discriminate]. simpl. intro E. inversion E; subst. simpl.
      exists [(k, old)]. simpl. split; auto. constructor. rewrite (hm_remove_rest _ _ _ ND G) at 1.
      apply Permutation_cons_append.
    + simpl. intro E. inversion E; subst. simpl. exists []. simpl. rewrite app_nil_r, hm_remove_none; auto.
  - destruct (hm_get k (dl_items (lw_l w))) as [old|] eqn:G.
    + destruct (remove_markers _ _ _); [|discriminate]. simpl. intro E. inversion E; subst. simpl.
      exists [(k, old)]. simpl. split; auto. rewrite (hm_remove_rest _ _ _ ND G) at 1. apply Permutation_cons_append.
    + simpl. intro E. inversion E; subst. exists []. simpl. rewrite app_nil_r; auto.
  - destruct (ref_node (lw_l w) before); [|discriminate]. cbn [obind]. destruct (hm_get k _); [|discriminate]. cbn [obind].
    destruct (move_nodes_before _ _ _ _ _ _); [|discriminate]. simpl. intro E. inversion E; subst. exists []. simpl. rewrite app_nil_r; auto.
  - destruct (hm_get k1 _); [|discriminate]. cbn [obind]. destruct (hm_get k2 _); [|discriminate]. cbn [obind].
    destruct (Nat.eqb k1 k2).
    + intro E. inversion E; subst. exists []. simpl. rewrite app_nil_r; auto.
    + destruct (move_nodes_before _ _ _ _ _ _) as [d1|]; [|discriminate]. cbn [obind].
      destruct (move_nodes_before d1 _ _ _ _ _); [|discriminate]. simpl. intro E. inversion E; subst. exists []. simpl. rewrite app_nil_r; auto.
  - destruct (retain_loop _ _ _ _) as [[[d1 m1] dd]|] eqn:R; [|discriminate]. simpl. intro E. inversion E; subst. simpl.
    destruct (retain_rest _ _ _ _ _ _ _ R) as (rest & P1 & P2). exists rest. subst dd. auto.
Qed.

(** contents as groups *)
Fixpoint fg_from (i : N) (l : list node) : group :=
  match l with [] => [] | n :: t => ([i], n) :: fg_from (N.succ i) t end.
Lemma fg_snd l : forall i, map snd (fg_from i l) = l.
Proof. induction l; simpl; intro i; f_equal; auto. Qed.
Lemma fg_sorted l : forall i, sorted (fg_from i l).
Proof.
  assert (LO : forall l0 i j, (i < j)%N -> Forall (path_lt [i]) (keys (fg_from j l0))).
  { induction l0 as [|n t IH]; simpl; intros i j L; constructor; [constructor; auto|]. apply IH. lia. }
  unfold sorted. induction l as [|n t IH]; simpl; intro i; constructor; auto. apply LO. lia.
Qed.
Lemma mid_fg cnt segs : mid (fun g => fg_from 0%N (cnt g)) segs = mids cnt segs.
Proof.
  unfold mid, mids. apply flat_map_ext. intros [k st|st]; simpl; unfold content; rewrite fg_snd; auto.
Qed.

Lemma op_run_ok o d gr dl segs P Q cnt :
  dom_wf d -> kids d (cget (dl_cont dl)) = P ++ (dl_start dl :: mids cnt segs ++ [dl_end dl]) ++ Q ->
  (forall q x, In x (kids d q) -> frag d x = false) ->
  Permutation (dl_items dl) (items_of segs) -> Permutation (dl_dead dl) (dead_of segs) ->
  NoDup (keys_of segs) -> NoDup (map sgid segs) -> frag d (dl_frag dl) = true ->
  match dl_cont dl with
  | Fake f => f = dl_frag dl /\ P = [] /\ Q = []
  | Real n => n <> dl_frag dl /\ kids d (dl_frag dl) = []
  end ->
  op_bad o (keys_of segs) = None ->
  (forall k b st a f, o = OInsert k b st a f -> st_s st <> st_e st /\ par d (st_s st) = None /\ par d (st_e st) = None /\
     frag d (st_s st) = false /\ frag d (st_e st) = false /\ cnt (st_g st) = [] /\ ~ In (st_g st) (map sgid segs)) ->
  exists d' dl' segs', op_run o (mkLW (mkR d gr) dl) = Some (mkLW (mkR d' gr) dl') /\
    dl_cont dl' = dl_cont dl /\ dl_start dl' = dl_start dl /\ dl_end dl' = dl_end dl /\ dl_frag dl' = dl_frag dl /\
    dom_wf d' /\ frag d' = frag d /\ (forall q, q <> cget (dl_cont dl) -> kids d' q = kids d q) /\
    kids d' (cget (dl_cont dl)) = P ++ (dl_start dl :: mids cnt segs' ++ [dl_end dl]) ++ Q /\
    Permutation (dl_items dl') (items_of segs') /\ Permutation (dl_dead dl') (dead_of segs') /\
    NoDup (keys_of segs') /\ keys_of segs' = op_keys o (keys_of segs).
Proof.
  intros W K NF PI PD NK NG FF CT OB ON.
  set (fgr := fun g => fg_from 0%N (cnt g)). set (w0 := mkLW (mkR d fgr) dl).
  assert (KA : forall segs, P ++ (dl_start dl :: mids cnt segs ++ [dl_end dl]) ++ Q = P ++ dl_start dl :: mids cnt segs ++ dl_end dl :: Q).
  { intro s. simpl. rewrite <- app_assoc. auto. }
  assert (LI : LInv w0 segs P Q).
  { constructor; simpl; auto.
    - constructor; auto.
      + unfold fgr. rewrite mid_fg, K, KA. auto.
      + intros n Hn. apply (NF (cget (dl_cont dl))). rewrite K. apply in_app_iff; right. apply in_app_iff; left.
        unfold fgr in Hn. rewrite mid_fg in Hn. auto.
    - intros x _. apply fg_sorted. }
  assert (KEY : exists w' segs', op_run o w0 = Some w' /\ stays w0 w' /\ LInv w' segs' P Q /\
     keys_of segs' = op_keys o (keys_of segs)).
  { destruct o as [k before st a f|k|k before|k1 k2|keep]; simpl in OB |- *.
    - destruct (ON k before st a f eq_refl) as (O1 & O2 & O3 & O4 & O5 & O6 & O7).
      destruct (insert_ok w0 segs P Q (fun _ => []) k before st LI) as (w' & segs' & E & S & L' & KE).
      + simpl. split; [|repeat split; auto].
        * intros b' ->. simpl in OB. destruct (memb b' (keys_of segs)) eqn:M; [|discriminate]. apply memb_iff; auto.
        * unfold fgr. rewrite O6. auto.
        * intro Q1. apply O7. unfold list_groups in Q1. rewrite in_app_iff in Q1.
          assert (Z : In (st_g st) (map st_g (stall dl))).
          { unfold stall. rewrite map_app, map_map. apply in_app_iff; auto. }
          change (map sgid segs) with (map (fun x => st_g (seg_st x)) segs). rewrite <- (map_map seg_st st_g).
          eapply Permutation_in; [apply Permutation_map; apply (stall_perm _ _ PI PD)|]. auto.
      + exists w', segs'. rewrite E. auto.
    - destruct (remove_ok w0 segs P Q k LI) as (w' & E & S & L'). exists w', (kseg (notk k) segs). rewrite E.
      split; auto. split; auto. split; auto. apply keys_kseg.
    - destruct (memb k (keys_of segs)) eqn:M; [|discriminate].
      destruct (move_ok w0 segs P Q (fun _ => []) k before LI) as (w' & segs' & E & S & L' & KE).
      + simpl. split; [apply memb_iff; auto|]. intros b' ->. simpl in OB.
        destruct (memb b' (keys_of segs)) eqn:M'; [|discriminate]. simpl in OB. destruct (Nat.eqb_spec b' k); [discriminate|].
        split; auto. apply memb_iff; auto.
      + exists w', segs'. auto.
    - destruct (memb k1 (keys_of segs)) eqn:M1; [|discriminate]. destruct (memb k2 (keys_of segs)) eqn:M2; [|discriminate].
      simpl in OB. destruct (adjacentb k1 k2 (keys_of segs)) eqn:AD; [discriminate|].
      destruct (swap_ok w0 segs P Q (fun _ => []) k1 k2 LI) as (w' & segs' & E & S & L' & KE).
      + simpl. split; [apply memb_iff; auto|]. split; [apply memb_iff; auto|]. intro X. apply adjacentb_iff in X. congruence.
      + exists w', segs'. auto.
    - destruct (retain_ok w0 segs P Q keep LI) as (w' & E & S & L'). exists w', (kseg keep segs).
      split; auto. split; auto. split; auto. apply keys_kseg. }
  destruct KEY as (w' & segs' & E & [Y1 Y2 Y3 Y4 Y5 Y6 Y7] & [V LI1 LI2 LI3 LI4 LI5 LI6 LI7] & KE).
  assert (RG : rgrp (lw_r w') = fgr).
  { assert (Z := op_run_grp o d fgr fgr dl). unfold w0 in E. rewrite E in Z. simpl in Z. inversion Z. simpl. auto. }
  exists (rdom (lw_r w')), (lw_l w'), segs'. split.
  { rewrite (op_run_grp o d gr fgr). fold w0. rewrite E. reflexivity. }
  destruct V as [V1 V2 V3]. simpl in *. rewrite Y1, Y2, Y3 in *.
  repeat match goal with |- _ /\ _ => split end; auto.
  rewrite V2, RG. unfold fgr. rewrite mid_fg, KA. auto.
Qed.

(** ** a list's items change *)
Section Relist.
Variable base0 : node -> list node.
Variable U : list node.

Lemma start_not_in d gr H ls arr cnt blk ord l o x : SHP base0 U d gr H ls arr cnt blk ord ->
  In (l, o) ls -> In x (ord l) -> ~ In (dl_start (lo_l o)) (cnt (sgid x)).
Proof.
  intros SH L X Q. assert (ND := blk_nodup SH _ _ L). destruct (sh_list SH _ _ L) as (EB & _). rewrite EB in ND.
  unfold whole in ND. inversion ND; subst. apply H2. apply in_app_iff; left. apply in_flat_map. exists x. split; auto.
  destruct x as [k st|st]; simpl; auto. right. apply in_app_iff; auto.
Qed.

Lemma relist d gr d' H H' u v l o o' arr cnt blk ord h X Y gs segs' :
  OWN H (u ++ (l, o) :: v) -> SHP base0 U d gr H (u ++ (l, o) :: v) arr cnt blk ord ->
  ~ In l (map fst u) -> ~ In l (map fst v) ->
  lhost base0 H (u ++ (l, o) :: v) arr cnt blk ord l h X Y ->
  dl_start (lo_l o') = dl_start (lo_l o) -> dl_end (lo_l o') = dl_end (lo_l o) ->
  dl_frag (lo_l o') = dl_frag (lo_l o) -> dl_cont (lo_l o') = dl_cont (lo_l o) ->
  (forall x, In x (all H' (u ++ (l, o') :: v)) -> In x (all H (u ++ (l, o) :: v))) ->
  (forall x, In x (all H (u ++ (l, o) :: v)) -> In x (all H' (u ++ (l, o') :: v)) \/
     match x with FN _ | FG _ | Busy _ _ _ => True | _ => False end) ->
  (forall x, In x (l_n (l, o')) -> In x (l_n (l, o)) \/ In x (flat_map f_n (all H (u ++ (l, o) :: v)))) ->
  ~ place (all H (u ++ (l, o) :: v)) (u ++ (l, o) :: v) gs -> (In gs (map sgid segs') -> gr gs = []) ->
  (forall st, In st (stall (lo_l o')) -> In st (stall (lo_l o)) \/ st_g st = gs) ->
  (forall x g, In x (all H' (u ++ (l, o') :: v)) -> match x with Ent g' _ _ | Ren g' _ => g' = g | _ => False end ->
     place (all H' (u ++ (l, o') :: v)) (u ++ (l, o') :: v) g) ->
  Permutation (dl_items (lo_l o')) (items_of segs') -> Permutation (dl_dead (lo_l o')) (dead_of segs') ->
  keys_of segs' = lo_keys o' ->
  dom_wf d' -> frag d' = frag d -> (forall q, q <> h -> kids d' q = kids d q) ->
  kids d' h = X ++ (dl_start (lo_l o) :: mids (upd cnt gs []) segs' ++ [dl_end (lo_l o)]) ++ Y ->
  (forall x, In x (mids (upd cnt gs []) segs') -> In x (blk l) \/
     (In (FN x) (all H (u ++ (l, o) :: v)) /\ ~ In (FN x) (all H' (u ++ (l, o') :: v)))) ->
  exists arr' cnt' blk' ord', SHP base0 U d' gr H' (u ++ (l, o') :: v) arr' cnt' blk' ord'.
Proof.
  intros OW SH NU NV LH ES EE EF EC S1 S2 SN NG GG ST PL PI PD KE W FD KO KH NB.
  set (ls := u ++ (l, o) :: v) in *. set (ls' := u ++ (l, o') :: v) in *.
  assert (L : In (l, o) ls) by (apply in_app_iff; simpl; auto).
  destruct (sh_list SH _ _ L) as (EB & PI0 & PD0 & EK).
  assert (KH0 := proj2 (host_kids SH) _ _ _ _ LH).
  assert (HK := proj2 (host_kind SH) _ _ _ _ LH).
  assert (SG : forall x, In x segs' -> In (seg_st x) (stall (lo_l o))  \/ sgid x = gs).
  { intros x Hx. apply ST. eapply Permutation_in; [symmetry; apply (stall_perm _ _ PI PD)|]. apply in_map; auto. }
  destruct (geo_list OW SH l o h X Y gs [] segs' L LH) as (c2 & b2 & Q1 & Q2 & Q3 & Q4 & Q5 & _).
  { simpl. auto. }
  { simpl. tauto. }
  { intros x Hx. destruct (SG x Hx); auto. left. apply (item_place H ls l o); auto. }
  { intros x Hx N. destruct (SG x Hx) as [Q|Q]; [|contradiction].
    destruct (item_seg SH _ _ _ L Q) as (y & Y1 & Y2). unfold sgid. rewrite <- Y2. apply (start_not_in _ _ _ _ _ _ _ _ _ _ _ SH L Y1). }
  { intros k x y K1 _ K2 E. apply NG. rewrite <- E. eapply item_place; eauto. eapply seg_item; eauto. }
  cbv zeta in Q3, Q4. change (flatn blk []) with (@nil node) in *. fold ls in Q1, Q2, Q3, Q4.
  rewrite <- KH in Q3, Q4.
  assert (LI : forall k x, In (k, x) ls' -> k <> l /\ In (k, x) ls \/ k = l /\ x = o').
  { intros k x Q. apply in_app_iff in Q as [Q|[Q|Q]].
    - left. split; [|apply in_app_iff; auto]. intro; subst k. apply NU. apply in_map_iff. exists (l, x); auto.
    - right. inversion Q; auto.
    - left. split; [|apply in_app_iff; simpl; auto]. intro; subst k. apply NV. apply in_map_iff. exists (l, x); auto. }
  assert (FRE : flat_map l_fr ls' = flat_map l_fr ls).
  { unfold ls, ls'. rewrite !flat_map_app. cbn [flat_map]. unfold l_fr at 2 5. cbn [snd]. rewrite EF. auto. }
  assert (FM : forall (f : fact -> list nat) x, In x (flat_map f (all H' ls')) -> In x (flat_map f (all H ls))).
  { intros f x Q. apply in_flat_map in Q as (y & Y1 & Y2). apply in_flat_map. eauto. }
  assert (LN : forall x, In x (flat_map l_n ls') -> In x (flat_map f_n (all H ls)) \/ In x (flat_map l_n ls)).
  { intros x Q. apply in_flat_map in Q as ([k y] & Y1 & Y2). destruct (LI k y Y1) as [[N I]|[-> ->]].
    - right. apply in_flat_map. exists (k, y); auto.
    - destruct (SN x Y2); auto. right. apply in_flat_map. exists (l, o); auto. }
  assert (PM : forall g, place (all H' ls') ls' g -> place (all H ls) ls g \/ g = gs).
  { intros g [(n & Q)|(k & e & y & st & Q & I & E1 & E2)]; [left; left; eauto|].
    destruct (LI k y Q) as [[N J]|[-> ->]].
    - left. rewrite <- E1. eapply item_place; eauto.
    - destruct (ST _ I) as [J|J]; [left; rewrite <- E1; eapply item_place; eauto|right; congruence]. }
  assert (NEG : forall x, In x (all H' ls') -> match x with Ent g _ _ | Ren g _ => g <> gs | Con _ g => g <> gs | _ => True end).
  { intros x Q. apply S1 in Q. destruct x; auto; intro; subst g; apply NG.
    - eapply (sh_Ent SH); eauto.
    - left; eauto.
    - eapply (sh_Ren SH); eauto. }
  assert (SF : forall g, place (all H' ls') ls' g -> g = gs -> gr gs = []).
  { intros g Q E. subst g. apply GG. destruct Q as [(n & Q)|(k & e & y & st & Q & I & E1 & E2)].
    - apply S1 in Q. exfalso. apply NG. left; eauto.
    - destruct (LI k y Q) as [[N J]|[-> ->]].
      + exfalso. apply NG. rewrite <- E1. eapply item_place; eauto.
      + assert (Z : In st (map seg_st segs')) by (eapply Permutation_in; [apply (stall_perm _ _ PI PD)|auto]).
        apply in_map_iff in Z as (z & Z1 & Z2). apply in_map_iff. exists z. split; auto. unfold sgid. congruence. }
  assert (NW : forall x q, In x (kids d' q) -> In x (kids d q) \/ q = h /\ In (FN x) (all H ls) /\ ~ In (FN x) (all H' ls')).
  { intros x q Q. destruct (Nat.eq_dec q h) as [->|N]; [|rewrite KO in Q; auto].
    assert (IS : In (dl_start (lo_l o)) (blk l)) by (rewrite EB; left; auto).
    assert (IE : In (dl_end (lo_l o)) (blk l)) by (rewrite EB; right; apply in_app_iff; simpl; auto).
    rewrite KH in Q. rewrite KH0. apply in_app_iff in Q as [Q|Q]; [left; apply in_app_iff; auto|].
    apply in_app_iff in Q as [Q|Q]; [|left; rewrite !in_app_iff; auto].
    destruct Q as [Q|Q]; [subst x; left; rewrite !in_app_iff; auto|].
    apply in_app_iff in Q as [Q|[Q|[]]]; [|subst x; left; rewrite !in_app_iff; auto].
    destruct (NB x Q) as [Z|Z]; auto. left. rewrite !in_app_iff. auto. }
  exists (upd arr gs []), c2, b2, (upd ord l segs'). constructor.
  - auto.
  - intros q x Q. rewrite FD. destruct (NW x q Q) as [Z|(_ & Z & _)]; [apply (sh_nofrag SH q); auto|].
    apply (sh_FN SH) in Z. tauto.
  - intros n x Q I. assert (R : In (Rt x) (all H ls)).
    { apply (sh_base SH n); auto. apply in_app_iff in I as [I|I]; apply in_app_iff; auto. }
    destruct (S2 _ R); tauto.
  - intros q Q. rewrite KO; [apply (sh_U SH); auto|]. intro; subst q. apply Q. apply (host_U SH); auto.
  - intros q Q. apply (sh_inU SH). rewrite FRE in Q. rewrite !in_app_iff in *. intuition.
  - intros q Q. rewrite FD. apply (sh_frag SH). rewrite FRE in Q. rewrite !in_app_iff in *. intuition.
  - intros m Q. assert (Q0 := S1 _ Q). destruct (sh_FN SH _ Q0) as (M1 & M2 & M3). rewrite FD. split; [|split; auto].
    + destruct (par d' m) as [q|] eqn:EP; auto. exfalso. apply W in EP. destruct (NW _ _ EP) as [Z|(_ & _ & Z)]; auto.
      apply (sh_wf SH) in Z. congruence.
    + rewrite KO; auto. apply (host_not_FN OW SH h m HK Q0).
  - intros g Q. apply (sh_FG SH). auto.
  - intros k fr Q. assert (Q0 := S1 _ Q). rewrite KO; [apply (sh_FL SH k); auto|]. apply (host_not_FL OW SH h k fr HK Q0).
  - intros m g Q. assert (Q0 := S1 _ Q). destruct (sh_Con SH _ _ Q0) as [M1 M2]. rewrite FD. split; auto.
    assert (N := NEG _ Q). simpl in N. destruct (Q3 _ _ Q0 N) as [T1 T2].
    destruct (Nat.eq_dec m h) as [->|NM]; [symmetry; auto|]. rewrite T1, KO; auto.
  - intros g k Q. apply (PL _ g Q). reflexivity.
  - intros g p n Q. apply (PL _ g Q). reflexivity.
  - intros g P. split; [|apply Q1; auto]. unfold plc. destruct (Nat.eq_dec g gs) as [->|N].
    + rewrite upd_same, (SF _ P eq_refl). simpl. split; auto. split; [constructor|]. split.
      * intros p n. split; [tauto|]. intro Q. apply NEG in Q. tauto.
      * intro k. split; [tauto|]. intro Q. apply NEG in Q. tauto.
    + rewrite upd_other by auto. destruct (PM g P) as [P0|]; [|contradiction].
      destruct (sh_place SH g P0) as [(A1 & A2 & A3 & A4) _]. split; auto. split; auto. split.
      * intros p n. rewrite A3. split; auto. intro Q. destruct (S2 _ Q); tauto.
      * intro k. rewrite A4. split; auto. intro Q. destruct (S2 _ Q); tauto.
  - intros k x Q. destruct (LI k x Q) as [[N J]|[-> ->]].
    + rewrite (Q2 _ _ J). rewrite upd_other by auto. destruct (sh_list SH _ _ J) as (_ & J1 & J2 & J3). auto.
    + rewrite (Q2 _ _ L). rewrite upd_same, ES, EE. auto.
  - intros k x Q. destruct (LI k x Q) as [[N J]|[-> ->]].
    + pose proof (sh_cont SH _ _ J) as M. destruct (dl_cont (lo_l x)) as [c|f] eqn:ED.
      * destruct M as (M1 & g & M2 & M2c). split; [|exists g; split; [destruct (S2 _ M2); tauto|intros m Z; apply M2c; auto]].
        rewrite KO; auto. intro E. rewrite E, KH0, EB in M1. destruct X; discriminate.
      * destruct M as (M1 & M2 & M3). split; auto. split; [|intros g Z; apply (M3 g); auto].
        destruct (Q4 _ _ _ J ED) as [T1 T2]. destruct (Nat.eq_dec f h) as [E|NF]; [rewrite (T2 E), E; auto|]. rewrite T1, KO; auto.
    + pose proof (sh_cont SH _ _ L) as M. rewrite EC, EF. destruct (dl_cont (lo_l o)) as [c|f] eqn:ED.
      * destruct M as (M1 & g & M2 & M2c). split; [|exists g; split; [destruct (S2 _ M2); tauto|intros m Z; apply M2c; auto]].
        rewrite KO; auto. intro E. rewrite E, KH0, EB in M1. destruct X; discriminate.
      * destruct M as (M1 & M2 & M3). split; auto. split; [|intros g Z; apply (M3 g); auto].
        destruct (Q4 _ _ _ L ED) as [T1 T2]. destruct (Nat.eq_dec f h) as [E|NF]; [rewrite (T2 E), E; auto|]. rewrite T1, KO; auto.
Qed.
End Relist.

(** ** a method call *)
Definition op_n (o : uop) : list node := match o with OInsert _ _ st _ _ => [st_s st; st_e st] | _ => [] end.
Definition op_g (o : uop) : list gid := match o with OInsert _ _ st _ _ => [st_g st] | _ => [] end.
Definition op_f (o : uop) : list fact := match o with OInsert _ _ _ _ f => frees f | _ => [] end.
Definition op_facts (o : uop) : list fact := map FN (op_n o) ++ map FG (op_g o) ++ op_f o.
Definition op_new (o : uop) : Prop := match o with OInsert _ _ _ _ f => unew f | _ => True end.

Lemma op_spawn_facts o : op_new o -> flat_map sfacts (op_spawn o) = op_f o.
Proof. destruct o; simpl; auto. intro N. unfold sfacts. simpl. rewrite app_nil_r. apply facts_new; auto. Qed.
Lemma op_f_only o x : In x (op_f o) -> (exists n, x = FN n) \/ (exists g, x = FG g).
Proof. destruct o; simpl; try tauto. apply frees_only. Qed.
Lemma op_items_n o : flat_map (fun e => [st_s (snd e); st_e (snd e)]) (op_items o) = op_n o.
Proof. destruct o; auto. Qed.
Lemma op_items_g o : map (fun e => st_g (snd e)) (op_items o) = op_g o.
Proof. destruct o; auto. Qed.
Lemma op_spawn_g o : map sb_g (op_spawn o) = op_g o.
Proof. destruct o; auto. Qed.
Lemma flat_FN_n l : flat_map f_n (map FN l) = l.
Proof. induction l; simpl; f_equal; auto. Qed.
Lemma flat_FN_c l : flat_map f_c (map FN l) = l.
Proof. induction l; simpl; f_equal; auto. Qed.
Lemma flat_FG_g l : flat_map f_g (map FG l) = l.
Proof. induction l; simpl; f_equal; auto. Qed.
Lemma flat_map_none {A} (f : A -> fact) (q : fact -> list nat) l : (forall x, q (f x) = []) -> flat_map q (map f l) = [].
Proof. intro E. induction l; simpl; auto. rewrite E; auto. Qed.

Lemma place_gid H ls g : place (all H ls) ls g -> In g (flat_map f_g (all H ls) ++ flat_map l_g ls).
Proof.
  intros [(n & Q)|(l & e & o & st & L & I & E & _)]; apply in_app_iff.
  - left. apply in_flat_map. exists (Con n g); simpl; auto.
  - right. apply in_flat_map. exists (l, o). split; auto. rewrite <- E. apply in_map; auto.
Qed.
Lemma fresh_gid l : ~ In (S (list_max l)) l.
Proof.
  intro Q. assert (Z := proj1 (list_max_le l (list_max l)) (le_n _)). rewrite Forall_forall in Z. apply Z in Q. lia.
Qed.

Section Call.
Variable base0 : node -> list node.
Variable U : list node.

Lemma call_own R u v l o ob dl' ks' : op_new o -> OWN (op_facts o ++ R) (u ++ (l, ob) :: v) ->
  ~ In l (map fst u) -> ~ In l (map fst v) ->
  dl_start dl' = dl_start (lo_l ob) -> dl_end dl' = dl_end (lo_l ob) -> dl_frag dl' = dl_frag (lo_l ob) ->
  NoDup ks' -> NoDup (map fst (dl_items dl')) ->
  (exists rest, Permutation (op_items o ++ dl_items (lo_l ob)) (dl_items dl' ++ rest) /\
    Permutation (dl_dead dl') (map snd rest ++ dl_dead (lo_l ob))) ->
  OWN R (u ++ (l, mkLO dl' ks' (op_spawn o ++ lo_futs ob)) :: v).
Proof.
  intros ON OW NU NV ES EE EF NK ND (rest & P1 & P2).
  set (o' := mkLO dl' ks' (op_spawn o ++ lo_futs ob)). set (ls := u ++ (l, ob) :: v) in *. set (ls' := u ++ (l, o') :: v).
  assert (SF : Permutation (all R ls') (op_f o ++ all R ls)).
  { unfold all, stored_facts, ls, ls'. rewrite !flat_map_app. cbn [flat_map]. unfold l_facts at 2 5. cbn [snd lo_futs o'].
    rewrite flat_map_app, op_spawn_facts by auto. unfold o'; cbn [lo_futs].
    rewrite !app_assoc. rewrite (Permutation_app_comm _ (op_f o)) at 1. rewrite <- !app_assoc. auto. }
  assert (AE : all (op_facts o ++ R) ls = map FN (op_n o) ++ map FG (op_g o) ++ op_f o ++ all R ls).
  { unfold all, op_facts. rewrite <- !app_assoc. auto. }
  assert (CNT : forall f x, occ x (flat_map f (all R ls')) = occ x (flat_map f (op_f o)) + occ x (flat_map f (all R ls))).
  { intros f x. rewrite (occ_perm x _ _ (flat_perm f _ _ SF)), flat_map_app, occ_app. auto. }
  assert (CNO : forall f x, occ x (flat_map f (all (op_facts o ++ R) ls)) =
     occ x (flat_map f (map FN (op_n o))) + occ x (flat_map f (map FG (op_g o))) + occ x (flat_map f (op_f o)) + occ x (flat_map f (all R ls))).
  { intros f x. rewrite AE, !flat_map_app, !occ_app. lia. }
  assert (LN : forall x, occ x (flat_map l_n ls') <= occ x (op_n o) + occ x (flat_map l_n ls)).
  { intro x. unfold ls, ls'. rewrite !flat_map_app. cbn [flat_map]. rewrite !occ_app.
    assert (occ x (l_n (l, o')) <= occ x (op_n o) + occ x (l_n (l, ob))); [|olia].
    unfold l_n, o'. cbn [snd lo_l]. rewrite ES, EE. rewrite !occ_cons.
    assert (occ x (markers dl') <= occ x (op_n o) + occ x (markers (lo_l ob))); [|olia].
    assert (Z := occ_perm x _ _ (flat_perm (fun e => [st_s (snd e); st_e (snd e)]) _ _ P1)).
    rewrite !flat_map_app, !occ_app, op_items_n in Z. unfold markers. olia. }
  assert (LG : forall x, occ x (flat_map l_g ls') = occ x (op_g o) + occ x (flat_map l_g ls)).
  { intro x. unfold ls, ls'. rewrite !flat_map_app. cbn [flat_map]. rewrite !occ_app.
    assert (occ x (l_g (l, o')) = occ x (op_g o) + occ x (l_g (l, ob))); [|olia].
    unfold l_g, o', stall. cbn [snd lo_l]. rewrite !map_app, !occ_app, !map_map.
    assert (Z := occ_perm x _ _ (Permutation_map (fun e => st_g (snd e)) P1)).
    assert (Z2 := occ_perm x _ _ (Permutation_map st_g P2)).
    rewrite !map_app, !occ_app, op_items_g in Z. rewrite map_app, occ_app, map_map in Z2. olia. }
  assert (LF : flat_map l_fr ls' = flat_map l_fr ls).
  { unfold ls, ls'. rewrite !flat_map_app. cbn [flat_map]. unfold l_fr at 2 5. unfold o'. cbn [snd lo_l]. rewrite EF. auto. }
  assert (LB : forall x, occ x (flat_map l_b ls') = occ x (op_g o) + occ x (flat_map l_b ls)).
  { intro x. unfold ls, ls'. rewrite !flat_map_app. cbn [flat_map]. rewrite !occ_app.
    assert (occ x (l_b (l, o')) = occ x (op_g o) + occ x (l_b (l, ob))); [|olia].
    unfold l_b, o'. cbn [snd lo_futs]. rewrite map_app, occ_app, op_spawn_g. auto. }
  assert (MF : map fst ls' = map fst ls) by (unfold ls, ls'; rewrite !map_app; auto).
  assert (LI : forall k x, In (k, x) ls' -> k <> l /\ In (k, x) ls \/ k = l /\ x = o').
  { intros k x Q. apply in_app_iff in Q as [Q|[Q|Q]].
    - left. split; [|apply in_app_iff; auto]. intro; subst k. apply NU. apply in_map_iff. exists (l, x); auto.
    - right. inversion Q; auto.
    - left. split; [|apply in_app_iff; simpl; auto]. intro; subst k. apply NV. apply in_map_iff. exists (l, x); auto. }
  assert (LO : forall k x, In (k, x) ls -> k <> l /\ In (k, x) ls' \/ k = l /\ x = ob).
  { intros k x Q. apply in_app_iff in Q as [Q|[Q|Q]].
    - left. split; [|apply in_app_iff; auto]. intro; subst k. apply NU. apply in_map_iff. exists (l, x); auto.
    - right. inversion Q; auto.
    - left. split; [|apply in_app_iff; simpl; auto]. intro; subst k. apply NV. apply in_map_iff. exists (l, x); auto. }
  assert (L : In (l, ob) ls) by (apply in_app_iff; simpl; auto).
  assert (L' : In (l, o') ls') by (apply in_app_iff; simpl; auto).
  assert (PST : Permutation (stall dl') (map snd (op_items o) ++ stall (lo_l ob))).
  { unfold stall. rewrite P2, !app_assoc, <- map_app. apply Permutation_app_tail. rewrite <- map_app.
    apply Permutation_map. symmetry; auto. }
  assert (STU : forall st, In st (stall (lo_l ob)) -> In st (stall dl')).
  { intros st Q. eapply Permutation_in; [symmetry; apply PST|]. apply in_app_iff; auto. }
  assert (ITM : forall k g e, item_in k g e ls -> item_in k g e ls').
  { intros k g e (x & st & Q & I & E1 & E2). destruct (LO k x Q) as [[N J]|[-> ->]].
    - exists x, st. auto.
    - exists o', st. auto. }
  assert (BUSY : forall k g e, In (Busy k g e) (all R ls') -> In (Busy k g e) (all R ls)).
  { intros k g e Q. apply (Permutation_in _ SF) in Q. apply in_app_iff in Q as [Q|Q]; auto.
    apply op_f_only in Q as [(? & Q)|(? & Q)]; discriminate. }
  assert (NOF : forall (q : fact -> list nat) x, (forall n, q (FN n) = []) -> (forall g, q (FG g) = []) -> occ x (flat_map q (op_f o)) = 0).
  { intros q x Z1 Z2. apply occ_notin. intro Q. apply in_flat_map in Q as (y & Y1 & Y2).
    apply op_f_only in Y1 as [(? & ->)|(? & ->)]; [rewrite Z1 in Y2|rewrite Z2 in Y2]; destruct Y2. }
  constructor.
  - intro x. pose proof (ow_n OW x) as Z. rewrite CNO in Z. rewrite CNT. specialize (LN x).
    rewrite flat_FN_n in Z. olia.
  - intro x. pose proof (ow_c OW x) as Z. rewrite CNO in Z. rewrite CNT. olia.
  - intro x. pose proof (ow_g OW x) as Z. rewrite CNO in Z. rewrite CNT, LG. rewrite flat_FG_g in Z. olia.
  - intro x. pose proof (ow_r OW x) as Z. rewrite CNO in Z. rewrite CNT. olia.
  - intro x. pose proof (ow_l OW x) as Z. rewrite CNO in Z. rewrite CNT, MF. olia.
  - intro x. pose proof (ow_fr OW x) as Z. rewrite CNO in Z. rewrite CNT, LF. olia.
  - intro x. pose proof (ow_o OW x) as Z. rewrite CNO in Z. rewrite CNT. olia.
  - intro x. pose proof (ow_b OW x) as Z. rewrite CNO in Z. rewrite CNT, LB.
    destruct (in_dec Nat.eq_dec x (op_g o)) as [IG|NG].
    2:{ apply occ_notin in NG. olia. }
    assert (Z1 := ow_g OW x). rewrite CNO, flat_FG_g in Z1. apply occ_in in IG.
    assert (Z2 : occ x (flat_map f_b (all R ls)) = 0).
    { apply occ_notin. intro Q. apply in_flat_map in Q as (y & Y1 & Y2). destruct y; simpl in Y2; try tauto.
      destruct Y2 as [->|[]]. assert (IT : item_in l0 x e ls).
      { apply (ow_busy OW). rewrite AE. rewrite !in_app_iff. auto. }
      destruct IT as (x' & st & Q & I & E1 & E2).
      pose proof (occ_flat_in l_g ls (l0, x') x Q ltac:(rewrite <- E1; apply in_map; auto)). olia. }
    assert (Z3 : occ x (flat_map l_b ls) = 0).
    { apply occ_notin. intro Q. apply in_flat_map in Q as ([k y] & Y1 & Y2). apply in_map_iff in Y2 as (sb & Y2 & Y3).
      destruct (ow_sib OW k y sb Y1 Y3) as ((st & I & E1 & E2) & _).
      pose proof (occ_flat_in l_g ls (k, y) x Y1 ltac:(rewrite <- Y2, <- E1; apply in_map; auto)). olia. }
    assert (occ x (op_g o) <= 1) by olia.
    assert (occ x (flat_map f_b (op_f o)) = 0) by (apply NOF; auto). olia.
  - intros k x st Q I. destruct (LI k x Q) as [[N J]|[-> ->]].
    + destruct (ow_item OW k x st J I) as [Z|Z]; auto. right. apply in_app_iff in Z as [Z|Z]; auto. exfalso.
      unfold op_facts in Z. rewrite !in_app_iff in Z. destruct Z as [Z|[Z|Z]].
      * apply in_map_iff in Z as (? & Z & _); discriminate.
      * apply in_map_iff in Z as (? & Z & _); discriminate.
      * apply op_f_only in Z as [(? & Z)|(? & Z)]; discriminate.
    + apply (Permutation_in _ PST) in I. apply in_app_iff in I as [I|I].
      * left. destruct o; simpl in I; try tauto. destruct I as [<-|[]]. exists (mkSib (st_g st0) (st_e st0) a f). split; auto.
        simpl. auto.
      * destruct (ow_item OW l ob st L I) as [(sb & Z1 & Z2)|Z].
        -- left. exists sb. split; auto. apply in_app_iff; auto.
        -- right. apply in_app_iff in Z as [Z|Z]; auto. exfalso.
           unfold op_facts in Z. rewrite !in_app_iff in Z. destruct Z as [Z|[Z|Z]].
           ++ apply in_map_iff in Z as (? & Z & _); discriminate.
           ++ apply in_map_iff in Z as (? & Z & _); discriminate.
           ++ apply op_f_only in Z as [(? & Z)|(? & Z)]; discriminate.
  - intros k x sb Q I. destruct (LI k x Q) as [[N J]|[-> ->]].
    + apply (ow_sib OW k x sb J I).
    + apply in_app_iff in I as [I|I].
      * destruct o; simpl in I; try tauto. destruct I as [<-|[]]. simpl. split; [|apply unew_okf; auto].
        exists st. split; auto. eapply Permutation_in; [symmetry; apply PST|]. simpl; auto.
      * destruct (ow_sib OW l ob sb L I) as ((st & Z1 & Z2 & Z3) & Z4). split; auto. exists st. auto.
  - intros k g e Q. apply ITM. apply (ow_busy OW). rewrite AE. rewrite !in_app_iff. auto.
  - intros g k Q. apply (Permutation_in _ SF) in Q. destruct (ow_ren OW g k) as (x & I).
    { rewrite AE. rewrite !in_app_iff in *. tauto. }
    destruct (LO k x I) as [[N J]|[-> ->]]; eauto.
  - intros k x Q. destruct (LI k x Q) as [[N J]|[-> ->]]; [apply (ow_keys OW k x J)|]. auto.
Qed.

Lemma fresh_place H ls : exists gs, ~ place (all H ls) ls gs.
Proof.
  exists (S (list_max (flat_map f_g (all H ls) ++ flat_map l_g ls))). intro Q. apply place_gid in Q. apply fresh_gid in Q. auto.
Qed.
Lemma seg_in_blk d gr H ls arr cnt blk ord l o y x : SHP base0 U d gr H ls arr cnt blk ord -> In (l, o) ls -> In y (ord l) ->
  In x (segn cnt y) -> In x (blk l).
Proof.
  intros SH L Y X. destruct (sh_list SH _ _ L) as (EB & _). rewrite EB. right. apply in_app_iff; left.
  apply in_flat_map. eauto.
Qed.

Lemma call_inv w R l o : op_new o -> INV base0 U w (op_facts o ++ R) ->
  list_call l o w <> Panic /\
  forall w', list_call l o w = Ok w' -> INV base0 U w' R /\ u_drop w' = u_drop w.
Proof.
  intros ON (OW & arr & cnt & blk & ord & SH). unfold list_call.
  set (ls := u_ls w) in *. set (d := rdom (u_r w)) in *. set (gr := rgrp (u_r w)) in *.
  destruct (get_l l ls) as [ob|] eqn:GL; [|split; [|intro w']; discriminate].
  destruct (in_place w (lo_l ob)) eqn:IP; [|split; [|intro w']; discriminate].
  destruct (op_bad o (lo_keys ob)) eqn:OB; [split; [|intro w']; discriminate|].
  assert (L := get_in _ _ _ GL). destruct (get_split _ _ _ GL (ow_nodup _ _ OW)) as (u & v & EL & NU & NV).
  destruct (lhost_ex SH _ _ L) as (h & X & Y & LH).
  destruct (sh_list SH _ _ L) as (EB & PI & PD & EK).
  assert (KH := proj2 (host_kids SH) _ _ _ _ LH).
  assert (HC : h = cget (dl_cont (lo_l ob))).
  { unfold in_place in IP. fold d in IP.
    assert (Z : par d (dl_start (lo_l ob)) = Some h).
    { apply (sh_wf SH). rewrite KH, EB. rewrite !in_app_iff. right; left; left; auto. }
    rewrite Z in IP. apply Nat.eqb_eq in IP. auto. }
  set (A := all (op_facts o ++ R) ls) in *.
  assert (GS : exists gs, ~ place A ls gs /\ gr gs = [] /\ (forall g, In g (op_g o) -> g = gs) \/
                          ~ place A ls gs /\ op_g o = []).
  { destruct o; simpl; try (destruct (fresh_place (op_facts (ORemove k) ++ R) ls) as (gs & Z); exists gs; right; auto; fail);
      try (destruct (fresh_place R ls) as (gs & Z); exists gs; right; auto; fail).
    exists (st_g st). left. assert (IF : In (FG (st_g st)) A) by (unfold A, all, op_facts; simpl; auto). split; [|split].
    - intro P. apply (place_not_FG OW _ P IF).
    - apply (sh_FG SH); auto.
    - intuition. }
  destruct GS as (gs & GS).
  assert (NG : ~ place A ls gs) by tauto.
  assert (OG : forall g, In g (op_g o) -> g = gs /\ gr gs = []).
  { intros g Q. destruct GS as [(_ & G1 & G2)|[_ G2]]; [auto|]. rewrite G2 in Q. destruct Q. }
  set (c1 := upd cnt gs []).
  assert (NO : forall x, In x (ord l) -> sgid x <> gs).
  { intros x Hx E. apply NG. rewrite <- E. eapply item_place; eauto. eapply seg_item; eauto. }
  assert (MC : mids c1 (ord l) = mids cnt (ord l)) by (apply mids_upd_notin; auto).
  assert (IFN : forall n, In n (op_n o) -> In (FN n) A).
  { intros n Q. unfold A, all, op_facts. rewrite !in_app_iff. left; left; left. apply in_map; auto. }
  assert (SGE : map sgid (ord l) = map st_g (map seg_st (ord l))) by (rewrite map_map; auto).
  assert (PLG : Permutation (map sgid (ord l)) (l_g (l, ob))).
  { rewrite SGE. symmetry. apply Permutation_map. apply (stall_perm _ _ PI PD). }
  assert (AE : A = map FN (op_n o) ++ map FG (op_g o) ++ op_f o ++ all R ls).
  { unfold A, all, op_facts. rewrite <- !app_assoc. auto. }
  destruct (op_run_ok o d gr (lo_l ob) (ord l) X Y c1) as (d' & dl' & segs' & RUN & Z1 & Z2 & Z3 & Z4 & W & FD & KO & KD & PI' & PD' & NK & KE); auto.
  { apply (sh_wf SH). }
  { rewrite <- HC, KH, EB, MC. auto. }
  { apply (sh_nofrag SH). }
  { rewrite EK. apply (ow_keys OW l ob L). }
  { apply (Permutation_NoDup (Permutation_sym PLG)). apply occ_nodup. intro x. pose proof (ow_g OW x) as Z.
    rewrite EL, flat_map_app in Z. cbn [flat_map] in Z. rewrite !occ_app in Z. olia. }
  { apply (list_frag SH _ _ L). }
  { pose proof (sh_cont SH _ _ L) as M. destruct (dl_cont (lo_l ob)) as [c|f] eqn:EC.
    - destruct M as (M & _). simpl in HC. subst c. split; auto. intro E. rewrite <- E in M. rewrite KH, EB in M. destruct X; discriminate.
    - destruct M as (M1 & M2 & M3). split; auto. simpl in HC. subst h. rewrite M2 in KH.
      assert (length (blk l) = length X + (length (blk l) + length Y)) by (rewrite KH at 1; rewrite !app_length; auto).
      destruct X, Y; simpl in *; auto; lia. }
  { rewrite EK; auto. }
  { intros k b st a f ->. cbn [op_n op_g] in OG, IFN. pose proof (ow_n OW (st_s st)) as Z. fold A in Z.
    rewrite AE, flat_map_app, flat_FN_n, occ_app in Z. cbn [op_n] in Z. destruct (OG (st_g st) (or_introl eq_refl)) as [EG GE].
    destruct (sh_FN SH _ (IFN _ (or_introl eq_refl))) as (N1 & N2 & _).
    destruct (sh_FN SH _ (IFN _ (or_intror (or_introl eq_refl)))) as (N3 & N4 & _).
    split; [|repeat split; auto].
    - intro E. rewrite E in Z.
      rewrite !occ_cons in Z. destruct (Nat.eq_dec (st_e st) (st_e st)); [lia|congruence].
    - unfold c1. rewrite EG. apply upd_same.
    - rewrite EG. intro Q. apply in_map_iff in Q as (x & Q1 & Q2). apply (NO x Q2 Q1). }
  assert (NDI : NoDup (map fst (dl_items (lo_l ob)))) by apply (ow_keys OW l ob L).
  destruct (op_effect o (mkLW (mkR d gr) (lo_l ob)) _ NDI RUN) as (rest & P1 & P2). simpl in P1, P2.
  assert (ER : mkLW (u_r w) (lo_l ob) = mkLW (mkR d gr) (lo_l ob)) by (unfold d, gr; destruct (u_r w); auto).
  rewrite ER, RUN. simpl. split; [discriminate|]. intros w' E. inversion E; subst w'; clear E. split; auto.
  set (o' := mkLO dl' (op_keys o (lo_keys ob)) (op_spawn o ++ lo_futs ob)).
  assert (EST : set_l l o' ls = u ++ (l, o') :: v) by (rewrite EL; apply set_split; auto).
  assert (NDI' : NoDup (map fst (dl_items dl'))).
  { apply (Permutation_NoDup (l := keys_of segs')); auto. rewrite keys_items.
    apply Permutation_map. symmetry; auto. }
  assert (OW' : OWN R (u ++ (l, o') :: v)).
  { apply call_own; auto.
    - rewrite <- EL; auto.
    - rewrite <- EK, <- KE. auto.
    - exists rest. auto. }
  split; simpl; fold ls; fold o'; rewrite EST; auto.
  assert (SF : Permutation (all R (u ++ (l, o') :: v)) (op_f o ++ all R ls)).
  { rewrite EL. unfold all, stored_facts. rewrite !flat_map_app. cbn [flat_map]. unfold l_facts at 2 5. cbn [snd lo_futs o'].
    rewrite flat_map_app, op_spawn_facts by auto. unfold o'; cbn [lo_futs].
    rewrite !app_assoc. rewrite (Permutation_app_comm _ (op_f o)) at 1. rewrite <- !app_assoc. auto. }
  assert (PST : Permutation (stall dl') (map snd (op_items o) ++ stall (lo_l ob))).
  { unfold stall. rewrite P2, !app_assoc, <- map_app. apply Permutation_app_tail. rewrite <- map_app.
    apply Permutation_map. symmetry; auto. }
  assert (IOG : forall st, In st (map snd (op_items o)) -> In (st_g st) (op_g o)).
  { destruct o; simpl; intuition; subst; auto. }
  assert (ION : forall k st, In (k, st) (op_items o) -> In (st_s st) (op_n o) /\ In (st_e st) (op_n o) /\ In (st_g st) (op_g o)).
  { destruct o; simpl; try tauto. intros k' st' [E|[]]. inversion E; subst. auto. }
  assert (S1 : forall x, In x (all R (u ++ (l, o') :: v)) -> In x A).
  { intros x Q. apply (Permutation_in _ SF) in Q. rewrite AE. rewrite !in_app_iff in *. tauto. }
  assert (S2 : forall x, In x A -> In x (all R (u ++ (l, o') :: v)) \/
     match x with FN _ | FG _ | Busy _ _ _ => True | _ => False end).
  { intros x Q. rewrite AE in Q. apply in_app_iff in Q as [Q|Q]; [apply in_map_iff in Q as (? & <- & _); auto|].
    apply in_app_iff in Q as [Q|Q]; [apply in_map_iff in Q as (? & <- & _); auto|].
    left. apply (Permutation_in _ (Permutation_sym SF)). auto. }
  apply (relist base0 U d gr d' (op_facts o ++ R) R u v l ob o' arr cnt blk ord h X Y gs segs'); auto;
    rewrite <- ?EL; auto.
  - intros x Q. unfold o', l_n in Q. cbn [snd lo_l] in Q. rewrite Z2, Z3 in Q.
    destruct Q as [Q|[Q|Q]]; [left; left; auto|left; right; left; auto|].
    unfold markers in Q. apply in_flat_map in Q as ([k st] & Q1 & Q2).
    assert (Q3 : In (k, st) (op_items o ++ dl_items (lo_l ob))) by (eapply Permutation_in; [symmetry; apply P1|apply in_app_iff; auto]).
    apply in_app_iff in Q3 as [Q3|Q3].
    + right. apply in_flat_map. destruct (ION _ _ Q3) as (T1 & T2 & _).
      exists (FN x). simpl in Q2. destruct Q2 as [<-|[<-|[]]]; (split; [apply IFN; assumption|simpl; auto]).
    + left. right; right. apply in_flat_map. exists (k, st). auto.
  - intro Q. apply in_map_iff in Q as (y & Y1 & Y2).
    assert (Y3 : In (seg_st y) (stall dl')).
    { eapply Permutation_in; [symmetry; apply (stall_perm _ _ PI' PD')|]. apply in_map; auto. }
    apply (Permutation_in _ PST) in Y3. apply in_app_iff in Y3 as [Y3|Y3].
    + apply IOG in Y3. apply (OG _ Y3).
    + exfalso. apply NG. rewrite <- Y1. apply (item_place (op_facts o ++ R) ls l ob); auto.
  - intros st Q. apply (Permutation_in _ PST) in Q. apply in_app_iff in Q as [Q|Q]; auto. right. apply OG. auto.
  - intros x g Q M. assert (P0 : place A ls g).
    { apply S1 in Q. destruct x; try tauto; subst; [apply (sh_Ent SH _ _ _ Q)|apply (sh_Ren SH _ _ Q)]. }
    destruct P0 as [(n & C)|(k & e & y & st & I & J & E1 & E2)].
    + left. exists n. destruct (S2 _ C); tauto.
    + right. exists k, e. rewrite EL in I. apply in_app_iff in I as [I|[I|I]].
      * exists y, st. repeat split; auto. apply in_app_iff; auto.
      * inversion I; subst y k. exists o', st. split; [apply in_app_iff; simpl; auto|]. repeat split; auto.
        simpl. eapply Permutation_in; [symmetry; apply PST|]. apply in_app_iff; auto.
      * exists y, st. repeat split; auto. apply in_app_iff; simpl; auto.
  - simpl. rewrite KE, EK. auto.
  - intros q Q. apply KO. rewrite <- HC. auto.
  - rewrite HC. auto.
  - intros x Q. unfold mids in Q. apply in_flat_map in Q as (y & Y1 & Y2).
    assert (Y3 : In (seg_st y) (stall dl')).
    { eapply Permutation_in; [symmetry; apply (stall_perm _ _ PI' PD')|]. apply in_map; auto. }
    assert (CIN : forall n, In n (c1 (sgid y)) -> In n (blk l)).
    { intros n Q. unfold c1, upd in Q. destruct (Nat.eqb_spec (sgid y) gs) as [E|N]; [destruct Q|].
      apply (Permutation_in _ PST) in Y3. apply in_app_iff in Y3 as [Y3|Y3].
      - exfalso. apply N. apply IOG in Y3. apply (OG _ Y3).
      - destruct (item_seg SH _ _ _ L Y3) as (z & J1 & J2). eapply seg_in_blk; eauto.
        unfold sgid in Q. rewrite <- J2 in Q. destruct z; simpl in *; auto. right. apply in_app_iff; auto. }
    destruct y as [k st|st]; simpl in Y2; [|left; apply CIN; auto].
    assert (IT : In (k, st) (dl_items dl')).
    { eapply Permutation_in; [symmetry; apply PI'|]. apply in_items; auto. }
    assert (IT2 : In (k, st) (op_items o ++ dl_items (lo_l ob))) by (eapply Permutation_in; [symmetry; apply P1|apply in_app_iff; auto]).
    assert (MK : x = st_s st \/ x = st_e st \/ In x (c1 (st_g st))).
    { destruct Y2 as [Y2|Y2]; auto. apply in_app_iff in Y2 as [Y2|[Y2|[]]]; auto. }
    destruct MK as [MK|[MK|MK]]; [| |left; apply CIN; auto].
    all: apply in_app_iff in IT2 as [IT2|IT2].
    1, 3: right; destruct (ION _ _ IT2) as (T1 & T2 & _).
    1, 2: assert (TX : In x (op_n o)) by (subst x; auto); split; [apply IFN; auto|].
    1, 2: intro Q; apply (Permutation_in _ SF) in Q; pose proof (ow_n OW x) as Z; fold A in Z; rewrite AE in Z;
      rewrite flat_map_app, flat_FN_n, occ_app in Z; apply occ_in in TX;
      rewrite flat_map_app, occ_app in Z;
      pose proof (occ_flat_in f_n _ (FN x) x Q (or_introl eq_refl)); olia.
    all: left; assert (IO : In (SItem k st) (ord l)) by (apply in_items; eapply Permutation_in; [apply PI|auto]);
      eapply seg_in_blk; eauto; simpl; subst x; auto; right; apply in_app_iff; simpl; auto.
Qed.
End Call.
