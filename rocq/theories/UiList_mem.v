(** Taking futures out of the executor and putting them back, removing a finished
    task, creating and deleting lists: the invariant after them. *)
From Coq Require Import List Arith NArith Bool Lia Permutation Sorting.Sorted.
From Verif Require Import Util Position Dom Context Spec_path Spec_list Render_history Spec_dynlist
  Position_proofs Dom_proofs Context_proofs Render_history_proofs Ui DynList DynList_proofs DynList_run_proofs
  UiList Spec_uilist UiList_core UiList_inv UiList_shape UiList_ops UiList_add UiList_del UiList_ren UiList_call.
Import ListNotations.

Definition isbusy (x : fact) : Prop := match x with Busy _ _ _ => True | _ => False end.
Definition bf (l : lid) (s : sib) : list fact := Busy l (sb_g s) (sb_ref s) :: sfacts s.
Definition with_futs (o : lobj) (fs : list sib) : lobj := mkLO (lo_l o) (lo_keys o) fs.

Lemma two_in (u v : list (nat * lobj)) l o o' : ~ In l (map fst u) -> ~ In l (map fst v) ->
  forall k x, In (k, x) (u ++ (l, o') :: v) -> k <> l /\ In (k, x) (u ++ (l, o) :: v) \/ k = l /\ x = o'.
Proof.
  intros NU NV k x Q. apply in_app_iff in Q as [Q|[Q|Q]].
  - left. split; [|apply in_app_iff; auto]. intro; subst k. apply NU. apply in_map_iff. exists (l, x); auto.
  - right. inversion Q; auto.
  - left. split; [|apply in_app_iff; simpl; auto]. intro; subst k. apply NV. apply in_map_iff. exists (l, x); auto.
Qed.

Lemma no_busy f : okf f -> forall g p l k e, ~ In (Busy l k e) (facts g p f).
Proof.
  induction f as [|n g' a m ch IH|a cs IH|c IH|l r|l a f IH] using fut_ind'; intros OK g p l' k e Q.
  - destruct Q.
  - destruct OK as (_ & _ & OK). simpl in Q. apply in_app_iff in Q as [Q|Q]; [|apply (IH OK _ _ _ _ _ Q)].
    destruct m; simpl in Q; intuition discriminate.
  - rewrite facts_comb in Q. apply in_facts_list in Q as (i & f & E & Q). rewrite Forall_forall in IH.
    assert (IN := nth_error_In _ _ E). destruct OK as [_ OK]. apply (IH f IN (okf_in _ OK _ IN) _ _ _ _ _ Q).
  - apply (IH OK _ _ _ _ _ Q).
  - simpl in Q. destruct r; simpl in Q; intuition discriminate.
  - simpl in Q. destruct Q as [Q|Q]; [discriminate|]. apply (IH OK _ _ _ _ _ Q).
Qed.

Section Mem.
Variable base0 : node -> list node.
Variable U : list node.

(** the shape does not depend on who holds the futures *)
Lemma shp_futs d gr H H' u v l o fs arr cnt blk ord : ~ In l (map fst u) -> ~ In l (map fst v) ->
  SHP base0 U d gr H (u ++ (l, o) :: v) arr cnt blk ord ->
  (forall x, ~ isbusy x -> In x (all H (u ++ (l, o) :: v)) <-> In x (all H' (u ++ (l, with_futs o fs) :: v))) ->
  SHP base0 U d gr H' (u ++ (l, with_futs o fs) :: v) arr cnt blk ord.
Proof.
  intros NU NV SH IFF. set (o' := with_futs o fs) in *. set (ls := u ++ (l, o) :: v) in *. set (ls' := u ++ (l, o') :: v) in *.
  assert (LI : forall k x, In (k, x) ls' -> exists y, In (k, y) ls /\ lo_l x = lo_l y /\ lo_keys x = lo_keys y).
  { intros k x Q. destruct (two_in u v l o o' NU NV k x Q) as [[N J]|[-> ->]]; [exists x; auto|].
    exists o. split; [apply in_app_iff; simpl; auto|auto]. }
  assert (LO : forall k x, In (k, x) ls -> exists y, In (k, y) ls' /\ lo_l x = lo_l y /\ lo_keys x = lo_keys y).
  { intros k x Q. destruct (two_in u v l o' o NU NV k x Q) as [[N J]|[-> ->]]; [exists x; auto|].
    exists o'. split; [apply in_app_iff; simpl; auto|auto]. }
  assert (FM : forall f : fact -> list nat, (forall x, isbusy x -> f x = []) ->
     forall x, In x (flat_map f (all H ls)) <-> In x (flat_map f (all H' ls'))).
  { intros f Ef x. rewrite !in_flat_map. split; intros (y & Y1 & Y2); exists y; (split; [apply IFF; auto; intro B; rewrite (Ef _ B) in Y2; destruct Y2|auto]). }
  assert (FN' := FM f_n ltac:(intros []; simpl; tauto)). assert (FC' := FM f_c ltac:(intros []; simpl; tauto)).
  assert (FF' := FM f_fr ltac:(intros []; simpl; tauto)). clear FM.
  assert (EN : flat_map l_n ls' = flat_map l_n ls) by (unfold ls, ls'; rewrite !flat_map_app; auto).
  assert (EF : flat_map l_fr ls' = flat_map l_fr ls) by (unfold ls, ls'; rewrite !flat_map_app; auto).
  assert (PM : forall g, place (all H ls) ls g <-> place (all H' ls') ls' g).
  { intro g. split; (intros [(n & Q)|(k & e & x & st & Q & I & E1 & E2)]; [left; exists n; apply IFF; auto|right]).
    - destruct (LO k x Q) as (y & Y1 & Y2 & _). exists k, e, y, st. rewrite <- Y2. auto.
    - destruct (LI k x Q) as (y & Y1 & Y2 & _). exists k, e, y, st. rewrite <- Y2. auto. }
  constructor.
  - apply (sh_wf SH).
  - apply (sh_nofrag SH).
  - intros n x Q I. apply IFF; auto. apply (sh_base SH n); auto. rewrite EN in I. rewrite !in_app_iff in *. rewrite FN'. auto.
  - apply (sh_U SH).
  - intros q Q. apply (sh_inU SH). rewrite EF in Q. rewrite !in_app_iff in *. rewrite FC', FF'. auto.
  - intros q Q. apply (sh_frag SH). rewrite EF in Q. rewrite !in_app_iff in *. rewrite FF'. auto.
  - intros n Q. apply (sh_FN SH). apply IFF; auto.
  - intros g Q. apply (sh_FG SH). apply IFF; auto.
  - intros k fr Q. apply (sh_FL SH k). apply IFF; auto.
  - intros n g Q. apply (sh_Con SH). apply IFF; auto.
  - intros g k Q. apply PM. apply (sh_Ren SH g k). apply IFF; auto.
  - intros g p n Q. apply PM. apply (sh_Ent SH g p n). apply IFF; auto.
  - intros g P. apply PM in P. destruct (sh_place SH g P) as [(A1 & A2 & A3 & A4) A5]. split; auto. split; auto. split; auto. split.
    + intros p n. rewrite A3. apply IFF; auto.
    + intro k. rewrite A4. apply IFF; auto.
  - intros k x Q. destruct (LI k x Q) as (y & Y1 & Y2 & Y3). rewrite Y2, Y3. apply (sh_list SH _ _ Y1).
  - intros k x Q. destruct (LI k x Q) as (y & Y1 & Y2 & Y3). rewrite Y2. pose proof (sh_cont SH _ _ Y1) as M.
    destruct (dl_cont (lo_l y)).
    + destruct M as (M1 & g & M2 & M2c). split; auto. exists g. split; [apply IFF; auto|]. intros m Z. apply M2c, IFF; auto.
    + destruct M as (M1 & M2 & M3). split; auto. split; auto. intros g Z. apply (M3 g). apply IFF; auto.
Qed.

(** futures are taken out *)
Lemma take_inv w H l o a b : INV base0 U w H -> get_l l (u_ls w) = Some o -> Permutation (lo_futs o) (a ++ b) ->
  INV base0 U (w_ls w (set_l l (with_futs o b) (u_ls w))) (flat_map (bf l) a ++ H).
Proof.
  intros (OW & arr & cnt & blk & ord & SH) GL PF.
  set (ls := u_ls w) in *.
  destruct (get_split _ _ _ GL (ow_nodup _ _ OW)) as (u & v & EL & NU & NV).
  set (o' := with_futs o b). assert (ES : set_l l o' ls = u ++ (l, o') :: v) by (rewrite EL; apply set_split; auto).
  assert (PFA : Permutation (stored_facts ls) (flat_map sfacts a ++ stored_facts (u ++ (l, o') :: v))).
  { rewrite EL. unfold stored_facts. rewrite !flat_map_app. cbn [flat_map]. unfold l_facts at 2 5. cbn [snd lo_futs o' with_futs].
    rewrite (flat_perm sfacts _ _ PF), flat_map_app. rewrite !app_assoc. apply Permutation_app_tail.
    apply Permutation_app_tail. apply Permutation_app_comm. }
  assert (BFP : Permutation (flat_map (bf l) a) (map (fun s => Busy l (sb_g s) (sb_ref s)) a ++ flat_map sfacts a)).
  { clear. induction a as [|s a IH]; simpl; auto. constructor. rewrite IH. rewrite !app_assoc. apply Permutation_app_tail.
    apply Permutation_app_comm. }
  assert (AP : Permutation (all (flat_map (bf l) a ++ H) (u ++ (l, o') :: v)) (map (fun s => Busy l (sb_g s) (sb_ref s)) a ++ all H ls)).
  { unfold all. rewrite PFA, BFP, <- !app_assoc. apply Permutation_app_head. rewrite !app_assoc. apply Permutation_app_tail.
    apply Permutation_app_comm. }
  assert (CNT : forall f x, occ x (flat_map f (all (flat_map (bf l) a ++ H) (u ++ (l, o') :: v))) =
     occ x (flat_map f (map (fun s => Busy l (sb_g s) (sb_ref s)) a)) + occ x (flat_map f (all H ls))).
  { intros f x. rewrite (occ_perm x _ _ (flat_perm f _ _ AP)), flat_map_app, occ_app. auto. }
  assert (NIL : forall f x, (forall l g e, f (Busy l g e) = []) -> occ x (flat_map f (map (fun s => Busy l (sb_g s) (sb_ref s)) a)) = 0).
  { intros f x Z. rewrite flat_map_none; auto. }
  assert (EN : flat_map l_n (u ++ (l, o') :: v) = flat_map l_n ls) by (rewrite EL, !flat_map_app; auto).
  assert (EF : flat_map l_fr (u ++ (l, o') :: v) = flat_map l_fr ls) by (rewrite EL, !flat_map_app; auto).
  assert (EG : flat_map l_g (u ++ (l, o') :: v) = flat_map l_g ls) by (rewrite EL, !flat_map_app; auto).
  assert (EM : map fst (u ++ (l, o') :: v) = map fst ls) by (rewrite EL, !map_app; auto).
  assert (L : In (l, o) ls) by (apply get_in; auto).
  assert (LI : forall k x, In (k, x) (u ++ (l, o') :: v) -> k <> l /\ In (k, x) ls \/ k = l /\ x = o').
  { rewrite EL. apply two_in; auto. }
  assert (ITM : forall k g e, item_in k g e ls -> item_in k g e (u ++ (l, o') :: v)).
  { intros k g e (x & st & Q & I & E1 & E2). rewrite EL in Q. destruct (two_in u v l o' o NU NV k x Q) as [[N J]|[-> ->]].
    - exists x, st. auto.
    - exists o', st. split; auto. apply in_app_iff; simpl; auto. }
  split; simpl; fold ls; fold o'; rewrite ES.
  - constructor.
    + intro x. rewrite CNT, NIL by auto. rewrite EN. apply (ow_n OW).
    + intro x. rewrite CNT, NIL by auto. apply (ow_c OW).
    + intro x. rewrite CNT, NIL by auto. rewrite EG. apply (ow_g OW).
    + intro x. rewrite CNT, NIL by auto. apply (ow_r OW).
    + intro x. rewrite CNT, NIL by auto. rewrite EM. apply (ow_l OW).
    + intro x. rewrite CNT, NIL by auto. rewrite EF. apply (ow_fr OW).
    + intro x. rewrite CNT, NIL by auto. apply (ow_o OW).
    + intro x. rewrite CNT. pose proof (ow_b OW x) as Z.
      assert (occ x (flat_map f_b (map (fun s => Busy l (sb_g s) (sb_ref s)) a)) = occ x (map sb_g a)).
      { clear. induction a; auto. cbn [map flat_map f_b app]. rewrite !occ_cons. auto. }
      assert (Z2 := occ_perm x _ _ (Permutation_map sb_g PF)). rewrite map_app, occ_app in Z2.
      rewrite EL in Z at 2. rewrite flat_map_app in *. cbn [flat_map] in *. rewrite !occ_app in *. unfold l_b at 2 in Z.
      unfold l_b at 2. cbn [snd lo_futs o' with_futs] in *. olia.
    + intros k x st Q I. destruct (LI k x Q) as [[N J]|[-> ->]].
      * destruct (ow_item OW k x st J I) as [Z|Z]; auto. right. apply in_app_iff; auto.
      * destruct (ow_item OW l o st L I) as [(sb & Z1 & Z2)|Z]; [|right; apply in_app_iff; auto].
        apply (Permutation_in _ PF) in Z1. apply in_app_iff in Z1 as [Z1|Z1]; [|left; exists sb; auto]. right.
        apply in_app_iff; left. apply in_flat_map. exists sb. split; auto. left.
        assert (Z3 : In sb (lo_futs o)) by (eapply Permutation_in; [symmetry; apply PF|apply in_app_iff; auto]).
        destruct (ow_sib OW l o sb L Z3) as ((st' & S1 & S2 & S3) & _).
        destruct (gid_uniq OW SH l o l o st st' L L I S1) as (_ & _ & E); [congruence|]. subst st'. congruence.
    + intros k x sb Q I. destruct (LI k x Q) as [[N J]|[-> ->]]; [apply (ow_sib OW k x sb J I)|].
      apply (ow_sib OW l o sb L). eapply Permutation_in; [symmetry; apply PF|apply in_app_iff; auto].
    + intros k g e Q. apply (Permutation_in _ AP) in Q. apply in_app_iff in Q as [Q|Q].
      * apply in_map_iff in Q as (sb & Q & I). injection Q as <- <- <-.
        assert (Z3 : In sb (lo_futs o)) by (eapply Permutation_in; [symmetry; apply PF|apply in_app_iff; auto]).
        destruct (ow_sib OW l o sb L Z3) as ((st' & S1 & S2 & S3) & _). apply ITM. exists o, st'. auto.
      * apply ITM. apply (ow_busy OW); auto.
    + intros g k Q. apply (Permutation_in _ AP) in Q. apply in_app_iff in Q as [Q|Q].
      * apply in_map_iff in Q as (sb & Q & I). discriminate.
      * destruct (ow_ren OW g k Q) as (x & I). rewrite EL in I. destruct (two_in u v l o' o NU NV k x I) as [[N J]|[-> ->]]; eauto.
        exists o'. apply in_app_iff; simpl; auto.
    + intros k x Q. destruct (LI k x Q) as [[N J]|[-> ->]]; [apply (ow_keys OW k x J)|]. apply (ow_keys OW l o L).
  - exists arr, cnt, blk, ord. apply (shp_futs _ _ H); auto.
    + rewrite <- EL. auto.
    + intros x NB. rewrite <- EL. split; intro Q.
      * eapply Permutation_in; [symmetry; apply AP|]. apply in_app_iff; auto.
      * apply (Permutation_in _ AP) in Q. apply in_app_iff in Q as [Q|Q]; auto. apply in_map_iff in Q as (? & <- & _). exfalso. apply NB. exact I.
Qed.

(** a future is put back *)
Lemma put_inv w H l o s : INV base0 U w (bf l s ++ H) -> get_l l (u_ls w) = Some o -> okf (sb_f s) ->
  INV base0 U (w_ls w (set_l l (with_futs o (s :: lo_futs o)) (u_ls w))) H.
Proof.
  intros (OW & arr & cnt & blk & ord & SH) GL OK.
  set (ls := u_ls w) in *.
  destruct (get_split _ _ _ GL (ow_nodup _ _ OW)) as (u & v & EL & NU & NV).
  set (o' := with_futs o (s :: lo_futs o)). assert (ES : set_l l o' ls = u ++ (l, o') :: v) by (rewrite EL; apply set_split; auto).
  assert (PFA : Permutation (stored_facts (u ++ (l, o') :: v)) (sfacts s ++ stored_facts ls)).
  { rewrite EL. unfold stored_facts. rewrite !flat_map_app. cbn [flat_map]. unfold l_facts at 2 5. cbn [snd lo_futs o' with_futs].
    cbn [flat_map]. rewrite !app_assoc. apply Permutation_app_tail. apply Permutation_app_tail. apply Permutation_app_comm. }
  assert (AP : Permutation (all (bf l s ++ H) ls) (Busy l (sb_g s) (sb_ref s) :: all H (u ++ (l, o') :: v))).
  { unfold all. rewrite PFA. unfold bf. simpl. constructor. rewrite !app_assoc. apply Permutation_app_tail.
    apply Permutation_app_comm. }
  assert (CNT : forall f x, occ x (flat_map f (all (bf l s ++ H) ls)) =
     occ x (f (Busy l (sb_g s) (sb_ref s))) + occ x (flat_map f (all H (u ++ (l, o') :: v)))).
  { intros f x. rewrite (occ_perm x _ _ (flat_perm f _ _ AP)). cbn [flat_map]. rewrite occ_app. auto. }
  assert (EN : flat_map l_n (u ++ (l, o') :: v) = flat_map l_n ls) by (rewrite EL, !flat_map_app; auto).
  assert (EF : flat_map l_fr (u ++ (l, o') :: v) = flat_map l_fr ls) by (rewrite EL, !flat_map_app; auto).
  assert (EG : flat_map l_g (u ++ (l, o') :: v) = flat_map l_g ls) by (rewrite EL, !flat_map_app; auto).
  assert (EM : map fst (u ++ (l, o') :: v) = map fst ls) by (rewrite EL, !map_app; auto).
  assert (L : In (l, o) ls) by (apply get_in; auto).
  assert (LI : forall k x, In (k, x) (u ++ (l, o') :: v) -> k <> l /\ In (k, x) ls \/ k = l /\ x = o').
  { rewrite EL. apply two_in; auto. }
  assert (ITM : forall k g e, item_in k g e ls -> item_in k g e (u ++ (l, o') :: v)).
  { intros k g e (x & st & Q & I & E1 & E2). rewrite EL in Q. destruct (two_in u v l o' o NU NV k x Q) as [[N J]|[-> ->]].
    - exists x, st. auto.
    - exists o', st. split; auto. apply in_app_iff; simpl; auto. }
  assert (BS : In (Busy l (sb_g s) (sb_ref s)) (all (bf l s ++ H) ls)) by (left; auto).
  destruct (ow_busy OW _ _ _ BS) as (ox & sx & LX & SX & SG & SE).
  assert (ox = o) by (eapply ow_uniq; eauto). subst ox.
  split; simpl; fold ls; fold o'; rewrite ES.
  - constructor.
    + intro x. pose proof (ow_n OW x) as Z. rewrite CNT in Z. rewrite EN. olia.
    + intro x. pose proof (ow_c OW x) as Z. rewrite CNT in Z. olia.
    + intro x. pose proof (ow_g OW x) as Z. rewrite CNT in Z. rewrite EG. olia.
    + intro x. pose proof (ow_r OW x) as Z. rewrite CNT in Z. olia.
    + intro x. pose proof (ow_l OW x) as Z. rewrite CNT in Z. rewrite EM. olia.
    + intro x. pose proof (ow_fr OW x) as Z. rewrite CNT in Z. rewrite EF. olia.
    + intro x. pose proof (ow_o OW x) as Z. rewrite CNT in Z. olia.
    + intro x. pose proof (ow_b OW x) as Z. rewrite CNT in Z. cbn [f_b] in Z. rewrite occ_cons, occ_nil in Z.
      assert (occ x (flat_map l_b (u ++ (l, o') :: v)) = (if Nat.eq_dec (sb_g s) x then 1 else 0) + occ x (flat_map l_b ls)).
      { rewrite EL, !flat_map_app. cbn [flat_map]. rewrite !occ_app. unfold l_b at 2 5. cbn [snd lo_futs o' with_futs map]. rewrite occ_cons. olia. }
      olia.
    + intros k x st Q I. destruct (LI k x Q) as [[N J]|[-> ->]].
      * destruct (ow_item OW k x st J I) as [Z|Z]; auto. right. destruct Z as [Z|Z]; [inversion Z; congruence|].
        apply in_app_iff in Z as [Z|Z]; auto. exfalso. clear - Z OK.
        apply (no_busy _ OK _ _ _ _ _ Z).
      * destruct (ow_item OW l o st L I) as [(sb & Z1 & Z2)|Z].
        -- left. exists sb. split; auto. right; auto.
        -- destruct Z as [Z|Z]; [inversion Z; left; exists s; split; [left; auto|auto]|].
           apply in_app_iff in Z as [Z|Z]; auto. exfalso. clear - Z OK.
           apply (no_busy _ OK _ _ _ _ _ Z).
    + intros k x sb Q I. destruct (LI k x Q) as [[N J]|[-> ->]]; [apply (ow_sib OW k x sb J I)|].
      destruct I as [<-|I]; [|apply (ow_sib OW l o sb L I)]. split; auto. exists sx. auto.
    + intros k g e Q. apply ITM. apply (ow_busy OW). eapply Permutation_in; [symmetry; apply AP|]. right; auto.
    + intros g k Q. destruct (ow_ren OW g k) as (x & I); [eapply Permutation_in; [symmetry; apply AP|]; right; auto|].
      rewrite EL in I. destruct (two_in u v l o' o NU NV k x I) as [[N J]|[-> ->]]; eauto.
      exists o'. apply in_app_iff; simpl; auto.
    + intros k x Q. destruct (LI k x Q) as [[N J]|[-> ->]]; [apply (ow_keys OW k x J)|]. apply (ow_keys OW l o L).
  - exists arr, cnt, blk, ord. apply (shp_futs _ _ (bf l s ++ H)); auto.
    + rewrite <- EL. auto.
    + intros x NB. rewrite <- EL. split; intro Q.
      * apply (Permutation_in _ AP) in Q. destruct Q as [Q|Q]; auto. subst x. exfalso. apply NB. exact I.
      * eapply Permutation_in; [symmetry; apply AP|]. right; auto.
Qed.

(** ** facts are forgotten *)
Lemma shrink_shp d gr H ls H2 ls2 arr cnt blk ord : SHP base0 U d gr H ls arr cnt blk ord ->
  (forall e, In e ls2 -> In e ls) ->
  (forall x, In x (all H2 ls2) -> In x (all H ls)) ->
  (forall x, In x (all H ls) -> In x (all H2 ls2) \/
     match x with Ent g _ _ => ~ place (all H2 ls2) ls2 g | Ren _ _ | Rt _ => False | _ => True end) ->
  (forall x g, In x (all H2 ls2) -> match x with Ent g' _ _ | Ren g' _ => g' = g | _ => False end -> place (all H2 ls2) ls2 g) ->
  SHP base0 U d gr H2 ls2 arr cnt blk ord.
Proof.
  intros SH IL S1 S2 PL.
  assert (FM : forall (f : fact -> list nat) x, In x (flat_map f (all H2 ls2)) -> In x (flat_map f (all H ls))).
  { intros f x Q. apply in_flat_map in Q as (y & Y1 & Y2). apply in_flat_map. eauto. }
  assert (LM : forall (f : nat * lobj -> list nat) x, In x (flat_map f ls2) -> In x (flat_map f ls)).
  { intros f x Q. apply in_flat_map in Q as (y & Y1 & Y2). apply in_flat_map. eauto. }
  assert (PM : forall g, place (all H2 ls2) ls2 g -> place (all H ls) ls g).
  { intros g [(n & Q)|(l & e & o & st & Q & I)]; [left; eauto|right]. exists l, e, o, st. split; auto. }
  constructor.
  - apply (sh_wf SH).
  - apply (sh_nofrag SH).
  - intros n x Q I. assert (Z : In (Rt x) (all H ls)).
    { apply (sh_base SH n); auto. rewrite in_app_iff in *. destruct I; auto. }
    destruct (S2 _ Z); tauto.
  - apply (sh_U SH).
  - intros q Q. apply (sh_inU SH). rewrite !in_app_iff in *. intuition.
  - intros q Q. apply (sh_frag SH). rewrite !in_app_iff in *. intuition.
  - intros n Q. apply (sh_FN SH). auto.
  - intros g Q. apply (sh_FG SH). auto.
  - intros k fr Q. apply (sh_FL SH k). auto.
  - intros n g Q. apply (sh_Con SH). auto.
  - intros g k Q. apply (PL _ g Q). auto.
  - intros g p n Q. apply (PL _ g Q). auto.
  - intros g P. destruct (sh_place SH g (PM g P)) as [(A1 & A2 & A3 & A4) A5]. split; auto. split; auto. split; auto. split.
    + intros p n. rewrite A3. split; auto. intro Q. destruct (S2 _ Q); tauto.
    + intro k. rewrite A4. split; auto. intro Q. destruct (S2 _ Q); tauto.
  - intros k x Q. apply (sh_list SH _ _ (IL _ Q)).
  - intros k x Q. pose proof (sh_cont SH _ _ (IL _ Q)) as M. destruct (dl_cont (lo_l x)).
    + destruct M as (M1 & g & M2 & M2c). split; auto. exists g. split; [destruct (S2 _ M2); tauto|]. auto.
    + destruct M as (M1 & M2 & M3). split; auto. split; auto. intros g Z. apply (M3 g). auto.
Qed.

Definition shows (x : fact) (g : gid) : Prop := match x with Ent g' _ _ | Ren g' _ => g' = g | _ => False end.

Lemma forget w F R : INV base0 U w (F ++ R) ->
  (forall x, In x F -> match x with
     | Ent g _ _ => ~ place (all R (u_ls w)) (u_ls w) g
     | Con _ g => forall y, In y (all R (u_ls w)) -> ~ shows y g
     | Ren _ _ | Rt _ | Busy _ _ _ => False
     | _ => True end) ->
  INV base0 U w R.
Proof.
  intros (OW & arr & cnt & blk & ord & SH) FF. set (ls := u_ls w) in *.
  assert (AE : all (F ++ R) ls = F ++ all R ls) by (unfold all; rewrite app_assoc; auto).
  split.
  - eapply own_le; [apply OW| | | | | | | | | |]; try (intro x; rewrite flat_map_app, occ_app; lia).
    + intros l g e. rewrite in_app_iff. split; auto. intros [Q|Q]; auto. destruct (FF _ Q).
    + intros l g Q. apply in_app_iff; auto.
  - exists arr, cnt, blk, ord. apply (shrink_shp _ _ (F ++ R) ls); auto.
    + intros x Q. rewrite AE. apply in_app_iff; auto.
    + intros x Q. rewrite AE in Q. apply in_app_iff in Q as [Q|Q]; auto. right. specialize (FF x Q). destruct x; auto.
    + intros x g Q E. assert (P : place (all (F ++ R) ls) ls g).
      { assert (Z : In x (all (F ++ R) ls)) by (rewrite AE; apply in_app_iff; auto).
        destruct x; try tauto; subst; [apply (sh_Ent SH _ _ _ Z)|apply (sh_Ren SH _ _ Z)]. }
      destruct P as [(n & C)|P]; [|right; auto]. left. rewrite AE in C. apply in_app_iff in C as [C|C]; eauto.
      exfalso. apply (FF _ C x Q). destruct x; auto.
Qed.

Lemma del_get l l' ls : get_l l' (del_l l ls) = if Nat.eqb l' l then None else get_l l' ls.
Proof.
  induction ls as [|[k x] t IH]; simpl; [destruct (Nat.eqb l' l); auto|].
  destruct (Nat.eqb_spec k l) as [->|N]; simpl.
  - destruct (Nat.eqb_spec l l') as [->|N2]; [rewrite Nat.eqb_refl in *; auto|auto].
  - destruct (Nat.eqb_spec k l') as [->|N2]; auto. destruct (Nat.eqb_spec l' l); [congruence|auto].
Qed.

(** a list that is not rendered and has no futures is deleted *)
Lemma del_inv w F R l o f : INV base0 U w (F ++ R) -> get_l l (u_ls w) = Some o -> lo_futs o = [] ->
  dl_cont (lo_l o) = Fake f -> (forall g e, ~ In (Busy l g e) R) ->
  (forall g e, item_in l g e (u_ls w) -> forall y, In y (all R (u_ls w)) -> ~ shows y g) ->
  (forall x, In x F -> match x with
     | Ent g _ _ => ~ place (all R (u_ls w)) (del_l l (u_ls w)) g
     | Con _ g => forall y, In y (all R (u_ls w)) -> ~ shows y g
     | Busy k _ _ => k = l
     | Ren _ _ | Rt _ => False
     | _ => True end) ->
  INV base0 U (w_ls w (del_l l (u_ls w))) R.
Proof.
  intros (OW & arr & cnt & blk & ord & SH) GL EF EC NB NI FF. set (ls := u_ls w) in *.
  destruct (get_split _ _ _ GL (ow_nodup _ _ OW)) as (u & v & EL & NU & NV).
  assert (ED : del_l l ls = u ++ v) by (rewrite EL; apply del_split; auto).
  assert (AE : all (F ++ R) ls = F ++ all R ls) by (unfold all; rewrite app_assoc; auto).
  assert (AR : all R ls = all R (u ++ v)).
  { unfold all, stored_facts. rewrite EL, !flat_map_app. cbn [flat_map]. unfold l_facts at 2. cbn [snd]. rewrite EF. auto. }
  assert (IL : forall e, In e (u ++ v) -> In e ls).
  { intros e Q. rewrite EL. apply in_app_iff in Q. apply in_app_iff. simpl. tauto. }
  assert (LI : forall k x, In (k, x) ls -> k <> l -> In (k, x) (u ++ v)).
  { intros k x Q N. rewrite EL in Q. apply in_app_iff in Q. apply in_app_iff. simpl in Q. destruct Q as [Q|[Q|Q]]; auto. inversion Q; congruence. }
  assert (LC : forall (f : nat * lobj -> list nat) x, occ x (flat_map f (u ++ v)) <= occ x (flat_map f ls)).
  { intros q x. rewrite EL, !flat_map_app. cbn [flat_map]. rewrite !occ_app. olia. }
  assert (FC : forall (f : fact -> list nat) x, occ x (flat_map f (all R (u ++ v))) <= occ x (flat_map f (all (F ++ R) ls))).
  { intros q x. rewrite AE, AR, flat_map_app, occ_app. olia. }
  split; simpl; fold ls; rewrite ED.
  - constructor; rewrite <- ?AR.
    + intro x. pose proof (ow_n OW x). pose proof (LC l_n x). pose proof (FC f_n x). rewrite <- AR in *. olia.
    + intro x. pose proof (ow_c OW x). pose proof (FC f_c x). rewrite <- AR in *. olia.
    + intro x. pose proof (ow_g OW x). pose proof (LC l_g x). pose proof (FC f_g x). rewrite <- AR in *. olia.
    + intro x. pose proof (ow_r OW x). pose proof (FC f_r x). rewrite <- AR in *. olia.
    + intro x. pose proof (ow_l OW x). pose proof (FC f_l x). rewrite <- AR in *.
      assert (occ x (map fst (u ++ v)) <= occ x (map fst ls)); [|olia]. rewrite EL, !map_app. cbn [map fst]. rewrite !occ_app, occ_cons. olia.
    + intro x. pose proof (ow_fr OW x). pose proof (LC l_fr x). pose proof (FC f_fr x). rewrite <- AR in *. olia.
    + intro x. pose proof (ow_o OW x). pose proof (FC f_o x). rewrite <- AR in *. olia.
    + intro x. pose proof (ow_b OW x). pose proof (LC l_b x). pose proof (FC f_b x). rewrite <- AR in *. olia.
    + intros x k st Q I. assert (NK : x <> l).
      { intro; subst x. apply (in_map fst) in Q. rewrite map_app, in_app_iff in Q. tauto. }
      destruct (ow_item OW x k st (IL _ Q) I) as [Z|Z]; auto. right. apply in_app_iff in Z as [Z|Z]; auto.
      exfalso. apply NK. apply (FF _ Z).
    + intros x k sb Q I. apply (ow_sib OW x k sb (IL _ Q) I).
    + intros x g e Q. destruct (ow_busy OW x g e) as (y & st & I & J & E1 & E2); [rewrite AE; apply in_app_iff; auto|].
      exists y, st. split; auto. apply LI; auto. intro; subst x. unfold all in Q. apply in_app_iff in Q as [Q|Q]; [apply (NB _ _ Q)|].
      apply in_flat_map in Q as ([k z] & Q1 & Q2). apply in_flat_map in Q2 as (sb & Q2 & Q3).
      destruct (ow_sib OW k z sb Q1 Q2) as [_ OK]. apply (no_busy _ OK _ _ _ _ _ Q3).
    + intros x k Q. destruct (ow_ren OW x k) as (y & I); [rewrite AE; apply in_app_iff; auto|].
      exists y. apply LI; auto. intro; subst k. pose proof (sh_cont SH _ _ I) as M.
      assert (y = o) by (eapply ow_uniq; eauto; rewrite EL; apply in_app_iff; simpl; auto). subst y. rewrite EC in M.
      destruct M as (_ & _ & M). apply (M x). rewrite AE. apply in_app_iff; auto.
    + intros x k Q. apply (ow_keys OW x k (IL _ Q)).
  - exists arr, cnt, blk, ord. apply (shrink_shp _ _ (F ++ R) ls); auto.
    + intros x Q. rewrite AE, AR. apply in_app_iff; auto.
    + intros x Q. rewrite AE, AR in Q. apply in_app_iff in Q as [Q|Q]; auto. right. specialize (FF x Q).
      fold ls in FF. rewrite ED, AR in FF. destruct x; auto.
    + intros x g Q E. rewrite <- AR in Q. assert (P : place (all (F ++ R) ls) ls g).
      { assert (Z : In x (all (F ++ R) ls)) by (rewrite AE; apply in_app_iff; auto).
        destruct x; try tauto; subst; [apply (sh_Ent SH _ _ _ Z)|apply (sh_Ren SH _ _ Z)]. }
      destruct P as [(n & C)|(k & e & y & st & I & J & E1 & E2)].
      * left. rewrite AE in C. apply in_app_iff in C as [C|C]; [|rewrite <- AR; eauto].
        exfalso. apply (FF _ C x Q). destruct x; auto.
      * destruct (Nat.eq_dec k l) as [->|NK].
        -- exfalso. assert (IT : item_in l g e ls) by (exists y, st; auto). apply (NI g e IT x Q). destruct x; auto.
        -- right. exists k, e, y, st. split; auto.
Qed.

(** ** the task of a removed item ends *)
Definition live_seg (g : gid) (x : seg) : bool := match x with SItem _ _ => true | SDead st => negb (Nat.eqb (st_g st) g) end.

Lemma items_live g segs : items_of (filter (live_seg g) segs) = items_of segs.
Proof.
  induction segs as [|[k st|st] segs IH]; simpl; auto; [f_equal; auto|].
  destruct (Nat.eqb (st_g st) g); simpl; auto.
Qed.
Lemma keys_live g segs : keys_of (filter (live_seg g) segs) = keys_of segs.
Proof. rewrite !keys_items, items_live. auto. Qed.
Lemma dead_live g segs : dead_of (filter (live_seg g) segs) = filter (fun st => negb (Nat.eqb (st_g st) g)) (dead_of segs).
Proof.
  induction segs as [|[k st|st] segs IH]; simpl; auto.
  destruct (Nat.eqb (st_g st) g); simpl; auto. f_equal; auto.
Qed.
Lemma mids_live cnt g segs : cnt g = [] -> mids cnt (filter (live_seg g) segs) = mids cnt segs.
Proof.
  intro E. unfold mids. induction segs as [|[k st|st] segs IH]; simpl; auto; [congruence|].
  destruct (Nat.eqb_spec (st_g st) g); simpl; [|congruence]. subst g. rewrite E. auto.
Qed.
Lemma perm_filter {A} (f : A -> bool) l l' : Permutation l l' -> Permutation (filter f l) (filter f l').
Proof.
  induction 1; simpl; auto; repeat match goal with |- context[if ?b then _ else _] => destruct b end; auto.
  - constructor.
  - etransitivity; eauto.
Qed.
Lemma els_nil a : els a = [] -> (forall l, ~ In (inr l) a) -> a = [].
Proof.
  destruct a as [|[n|l] a]; simpl; intros E N; auto; [discriminate|]. exfalso. apply (N l). auto.
Qed.

Lemma reap_inv w R l g st o : INV base0 U w (Busy l g (st_e st) :: R) -> get_l l (u_ls w) = Some o ->
  In st (dl_dead (lo_l o)) -> st_g st = g -> (forall y, In y (all R (u_ls w)) -> ~ shows y g) ->
  exists w', rm_dead l g w = Ok w' /\ INV base0 U w' R /\ u_drop w' = u_drop w.
Proof.
  intros (OW & arr & cnt & blk & ord & SH) GL DD EG NS. unfold rm_dead. rewrite GL. eexists. split; [reflexivity|]. split; [|reflexivity].
  set (ls := u_ls w) in *. set (o' := mkLO (set_items (lo_l o) (dl_items (lo_l o)) (filter (fun st => negb (Nat.eqb (st_g st) g)) (dl_dead (lo_l o))))
                     (lo_keys o) (lo_futs o)).
  destruct (get_split _ _ _ GL (ow_nodup _ _ OW)) as (u & v & EL & NU & NV).
  assert (ES : set_l l o' ls = u ++ (l, o') :: v) by (rewrite EL; apply set_split; auto).
  assert (L : In (l, o) ls) by (apply get_in; auto).
  assert (IST : In st (stall (lo_l o))) by (apply in_app_iff; auto).
  assert (SF : stored_facts (u ++ (l, o') :: v) = stored_facts ls) by (rewrite EL; unfold stored_facts; rewrite !flat_map_app; auto).
  assert (AR : all R (u ++ (l, o') :: v) = all R ls) by (unfold all; rewrite SF; auto).
  assert (LI : forall k x, In (k, x) (u ++ (l, o') :: v) -> k <> l /\ In (k, x) ls \/ k = l /\ x = o').
  { rewrite EL. apply two_in; auto. }
  assert (STI : forall s, In s (stall (lo_l o')) <-> In s (stall (lo_l o)) /\ st_g s <> g).
  { intro s. unfold stall, o'. cbn [lo_l set_items dl_items dl_dead]. rewrite !in_app_iff, filter_In. split.
    - intros [Q|[Q1 Q2]].
      + split; auto. intro E. assert (In s (stall (lo_l o))) by (apply in_app_iff; auto).
        destruct (gid_uniq OW SH l o l o s st L L H IST) as (_ & _ & E2); [congruence|]. subst s.
        pose proof (ow_g OW g) as Z. assert (2 <= occ g (flat_map l_g ls)); [|olia].
        rewrite EL, flat_map_app. cbn [flat_map]. rewrite !occ_app. unfold l_g at 2, stall. cbn [snd]. rewrite map_app, occ_app.
        apply (in_map st_g) in Q, DD. rewrite EG in *. apply occ_in in Q, DD. olia.
      + destruct (Nat.eqb_spec (st_g s) g); [discriminate|auto].
    - intros [[Q|Q] N]; auto. right. split; auto. destruct (Nat.eqb_spec (st_g s) g); [contradiction|auto]. }
  assert (ITM : forall k h e, h <> g -> item_in k h e ls -> item_in k h e (u ++ (l, o') :: v)).
  { intros k h e NH (x & s & Q & I & E1 & E2). rewrite EL in Q. destruct (two_in u v l o' o NU NV k x Q) as [[N J]|[-> ->]].
    - exists x, s. auto.
    - exists o', s. split; [apply in_app_iff; simpl; auto|]. split; auto. apply STI. split; auto. congruence. }
  assert (BQ : forall k e, ~ In (Busy k g e) R).
  { intros k e Q. pose proof (ow_b OW g) as Z. change (occ g (g :: flat_map f_b (all R ls)) + occ g (flat_map l_b ls) <= 1) in Z.
    rewrite occ_cons in Z. destruct (Nat.eq_dec g g); [|congruence].
    assert (Z2 : In (Busy k g e) (all R ls)) by (apply in_app_iff; auto).
    pose proof (occ_flat_in f_b _ _ g Z2 (or_introl eq_refl)). olia. }
  assert (SB : forall k x sb, In (k, x) ls -> In sb (lo_futs x) -> sb_g sb <> g).
  { intros k x sb Q I E. pose proof (ow_b OW g) as Z. change (occ g (g :: flat_map f_b (all R ls)) + occ g (flat_map l_b ls) <= 1) in Z.
    rewrite occ_cons in Z. destruct (Nat.eq_dec g g); [|congruence].
    pose proof (occ_flat_in l_b ls (k, x) g Q ltac:(rewrite <- E; apply in_map; auto)). olia. }
  assert (OW' : OWN R (u ++ (l, o') :: v)).
  { constructor; rewrite ?AR.
    - intro x. replace (flat_map l_n (u ++ (l, o') :: v)) with (flat_map l_n ls) by (rewrite EL, !flat_map_app; auto). apply (ow_n OW).
    - apply (ow_c OW).
    - intro x. pose proof (ow_g OW x) as Z. change (occ x (flat_map f_g (all R ls)) + occ x (flat_map l_g ls) <= 1) in Z.
      assert (occ x (flat_map l_g (u ++ (l, o') :: v)) <= occ x (flat_map l_g ls)); [|olia].
      rewrite EL, !flat_map_app. cbn [flat_map]. rewrite !occ_app.
      assert (occ x (l_g (l, o')) <= occ x (l_g (l, o))); [|olia].
      unfold l_g, o', stall. cbn [snd lo_l set_items dl_items dl_dead]. rewrite !map_app, !occ_app.
      assert (HF : forall ds, occ x (map st_g (filter (fun s => negb (Nat.eqb (st_g s) g)) ds)) <= occ x (map st_g ds)).
      { induction ds as [|s ds IHd]; auto. cbn [filter map]. destruct (negb _); cbn [map]; rewrite ?occ_cons; olia. }
      specialize (HF (dl_dead (lo_l o))). olia.
    - apply (ow_r OW).
    - intro x. replace (map fst (u ++ (l, o') :: v)) with (map fst ls) by (rewrite EL, !map_app; auto). apply (ow_l OW).
    - intro x. replace (flat_map l_fr (u ++ (l, o') :: v)) with (flat_map l_fr ls) by (rewrite EL, !flat_map_app; auto). apply (ow_fr OW).
    - apply (ow_o OW).
    - intro x. replace (flat_map l_b (u ++ (l, o') :: v)) with (flat_map l_b ls) by (rewrite EL, !flat_map_app; auto).
      pose proof (ow_b OW x) as Z. change (occ x (g :: flat_map f_b (all R ls)) + occ x (flat_map l_b ls) <= 1) in Z. rewrite occ_cons in Z. olia.
    - intros k x s Q I. destruct (LI k x Q) as [[N J]|[-> ->]].
      + destruct (ow_item OW k x s J I) as [Z|[Z|Z]]; auto. inversion Z; congruence.
      + apply STI in I as [I N]. destruct (ow_item OW l o s L I) as [Z|[Z|Z]]; auto. inversion Z; congruence.
    - intros k x sb Q I. destruct (LI k x Q) as [[N J]|[-> ->]]; [apply (ow_sib OW k x sb J I)|].
      destruct (ow_sib OW l o sb L I) as ((s & S1 & S2 & S3) & OK). split; auto. exists s. split; auto. apply STI. split; auto.
      rewrite S2. apply (SB l o); auto.
    - intros k h e Q. apply ITM; [|apply (ow_busy OW); right; auto]. intro; subst h. unfold all in Q. apply in_app_iff in Q as [Q|Q]; [apply (BQ _ _ Q)|].
      apply in_flat_map in Q as ([k' z] & Q1 & Q2). apply in_flat_map in Q2 as (sb & Q2 & Q3).
      destruct (ow_sib OW k' z sb Q1 Q2) as [_ OK]. apply (no_busy _ OK _ _ _ _ _ Q3).
    - intros h k Q. destruct (ow_ren OW h k) as (x & I); [right; auto|]. rewrite EL in I.
      destruct (two_in u v l o' o NU NV k x I) as [[N J]|[-> ->]]; eauto. exists o'. apply in_app_iff; simpl; auto.
    - intros k x Q. destruct (LI k x Q) as [[N J]|[-> ->]]; [apply (ow_keys OW k x J)|]. apply (ow_keys OW l o L). }
  split; simpl; fold ls; fold o'; rewrite ES; auto.
  destruct (lhost_ex SH _ _ L) as (h & X & Y & LH).
  destruct (sh_list SH _ _ L) as (EB & PI & PD & EK).
  assert (KH := proj2 (host_kids SH) _ _ _ _ LH).
  destruct (fresh_place (Busy l g (st_e st) :: R) ls) as (gs & NG).
  assert (PG : place (all (Busy l g (st_e st) :: R) ls) ls g) by (rewrite <- EG; eapply item_place; eauto).
  assert (CG : cnt g = []).
  { destruct (sh_place SH g PG) as [(A1 & A2 & A3 & A4) A5]. rewrite A5.
    assert (NS' : forall y, In y (all (Busy l g (st_e st) :: R) ls) -> ~ shows y g).
    { intros y [<-|Q]; [simpl; tauto|auto]. }
    rewrite (els_nil (arr g)); auto.
    - change (els (arr g) = map snd (rgrp (u_r w) g)) in A1. rewrite A1.
      destruct (rgrp (u_r w) g) as [|[q n] t] eqn:EQ; auto. exfalso.
      apply (NS' (Ent g (rev q) n)); [|simpl; auto]. apply A3. rewrite rev_involutive. left; auto.
    - intros k Q. apply A4 in Q. apply (NS' _ Q). simpl; auto. }
  assert (NO : forall x, In x (ord l) -> sgid x <> gs).
  { intros x Hx E. apply NG. rewrite <- E. eapply item_place; eauto. eapply seg_item; eauto. }
  assert (NO2 : forall x, In x (filter (live_seg g) (ord l)) -> sgid x <> gs).
  { intros x Hx. apply filter_In in Hx as [Hx _]. auto. }
  apply (relist base0 U (rdom (u_r w)) (rgrp (u_r w)) (rdom (u_r w)) (Busy l g (st_e st) :: R) R u v l o o' arr cnt blk ord h X Y gs (filter (live_seg g) (ord l)));
    auto; rewrite <- ?EL; auto.
  - intros x Q. rewrite AR in Q. right; auto.
  - intros x [<-|Q]; [right; exact I|]. left. rewrite AR. auto.
  - intro Q. apply in_map_iff in Q as (x & Q1 & Q2). exfalso. apply (NO2 _ Q2 Q1).
  - intros s Q. apply STI in Q as [Q _]. auto.
  - intros x k Q E. rewrite AR in Q. assert (P : place (all (Busy l g (st_e st) :: R) ls) ls k).
    { assert (Z : In x (all (Busy l g (st_e st) :: R) ls)) by (right; auto).
      destruct x; try tauto; subst; [apply (sh_Ent SH _ _ _ Z)|apply (sh_Ren SH _ _ Z)]. }
    rewrite AR. destruct P as [(n & [C|C])|(k' & e & C)]; [discriminate|left; eauto|]. right. exists k', e. apply ITM; auto.
    intro; subst k. apply (NS x Q). destruct x; auto.
  - simpl. rewrite items_live. auto.
  - simpl. rewrite dead_live. apply perm_filter. auto.
  - simpl. rewrite keys_live. auto.
  - apply (sh_wf SH).
  - rewrite mids_upd_notin by auto. rewrite mids_live by auto. rewrite KH, EB. auto.
  - intros x Q. left. rewrite mids_upd_notin in Q by auto. rewrite mids_live in Q by auto. rewrite EB. right. apply in_app_iff; auto.
Qed.

(** ** a new list *)
Lemma new_inv w R l s e fr : INV base0 U w (FN s :: FN e :: FL l fr :: R) ->
  exists w', list_new l s e fr w = Ok w' /\ INV base0 U w' (Own l :: R) /\ u_drop w' = u_drop w.
Proof.
  intros (OW & arr & cnt & blk & ord & SH). set (ls := u_ls w) in *. set (H := FN s :: FN e :: FL l fr :: R) in *.
  assert (NL : ~ In l (map fst ls)).
  { intro Q. apply occ_in in Q. pose proof (ow_l OW l) as Z.
    change (occ l (l :: flat_map f_l (all R ls)) + occ l (map fst ls) <= 1) in Z. rewrite occ_cons in Z.
    destruct (Nat.eq_dec l l); [olia|congruence]. }
  assert (GN : get_l l ls = None).
  { destruct (get_l l ls) eqn:G; auto. exfalso. apply get_in in G. apply NL. apply in_map_iff. exists (l, l0); auto. }
  assert (IS : In (FN s) (all H ls)) by (left; auto). assert (IE : In (FN e) (all H ls)) by (right; left; auto).
  assert (IF : In (FL l fr) (all H ls)) by (right; right; left; auto).
  destruct (sh_FN SH _ IS) as (S1 & S2 & S3). destruct (sh_FN SH _ IE) as (E1 & E2 & E3).
  assert (FF : frag (rdom (u_r w)) fr = true).
  { apply (sh_frag SH). apply in_app_iff; left. apply in_flat_map. exists (FL l fr). simpl; auto. }
  assert (NSE : s <> e).
  { intro Q. subst e. pose proof (ow_n OW s) as Z. change (occ s (s :: s :: flat_map f_n (all R ls)) + occ s (flat_map l_n ls) <= 1) in Z.
    rewrite !occ_cons in Z. destruct (Nat.eq_dec s s); [olia|congruence]. }
  destruct (new_ok (u_r w) fr s e (sh_wf SH) FF (sh_FL SH _ _ IF) NSE S1 E1 S2 E2) as (lw & NW & LI & Z1 & Z2 & Z3 & Z4 & KO).
  assert (DL : lw_l lw = mkDL [] (Fake fr) s e fr [] /\ rgrp (lw_r lw) = rgrp (u_r w) /\ frag (rdom (lw_r lw)) = frag (rdom (u_r w))).
  { unfold dl_new in NW. destruct (insert_fresh_none (rdom (u_r w)) fr s (sh_wf SH) S2 S1) as (d1 & EQ1 & W1 & F1 & P1 & P1' & K1 & K1').
    rewrite EQ1 in NW. cbn [obind] in NW. destruct (insert_fresh_none d1 fr e W1) as (d2 & EQ2 & W2 & F2 & _).
    { rewrite F1; auto. } { rewrite P1'; auto. }
    rewrite EQ2 in NW. inversion NW; subst lw. simpl. split; auto. split; auto. congruence. }
  destruct DL as (DL & GE & FD).
  assert (KF : kids (rdom (lw_r lw)) fr = [s; e]).
  { destruct LI as [V _ _ _ _ _ _ _]. destruct V as [_ V _]. rewrite Z1, Z2, Z3 in V. simpl in V. auto. }
  assert (W' : dom_wf (rdom (lw_r lw))) by (destruct LI as [V _ _ _ _ _ _ _]; destruct V; auto).
  set (o' := mkLO (lw_l lw) [] []).
  unfold list_new. fold ls. rewrite GN, NW. simpl. eexists. split; [reflexivity|]. split; [|reflexivity].
  assert (AE : all (Own l :: R) ((l, o') :: ls) = Own l :: all R ls) by reflexivity.
  assert (AH : all H ls = FN s :: FN e :: FL l fr :: all R ls) by reflexivity.
  assert (LN : l_n (l, o') = [s; e]) by (unfold l_n, o', markers; simpl; rewrite DL; auto).
  assert (LG : l_g (l, o') = []) by (unfold l_g, o', stall; simpl; rewrite DL; auto).
  assert (LF : l_fr (l, o') = [fr]) by (unfold l_fr, o'; simpl; rewrite Z4; auto).
  assert (NR : forall g, ~ In (Ren g l) (all H ls)).
  { intros g Q. destruct (ow_ren OW _ _ Q) as (x & I). apply NL. apply in_map_iff. exists (l, x); auto. }
  assert (NO : forall x, In x (stall (lo_l o')) -> False) by (unfold o'; simpl; rewrite DL; auto).
  assert (INR : forall x, In x (all R ls) -> In x (all H ls)) by (intros x Q; right; right; right; auto).
  assert (ITM : forall k g x, item_in k g x ((l, o') :: ls) <-> item_in k g x ls).
  { intros k g x. split; intros (y & st & Q & I & J).
    - destruct Q as [Q|Q]; [inversion Q; subst; destruct (NO _ I)|exists y, st; auto].
    - exists y, st. split; auto. right; auto. }
  assert (INV1 : forall x, In x (all R ls) <-> In x (all H ls) /\ x <> FN s /\ x <> FN e /\ x <> FL l fr).
  { intro x. split.
    - intro Q. split; auto.
      pose proof (ow_n OW s) as T1. pose proof (ow_n OW e) as T2. pose proof (ow_l OW l) as T3. rewrite AH in T1, T2, T3.
      cbn [flat_map f_n f_l app] in T1, T2, T3. rewrite !occ_cons in *.
      destruct (Nat.eq_dec s s); [|congruence]. destruct (Nat.eq_dec e e); [|congruence]. destruct (Nat.eq_dec l l); [|congruence].
      split; [|split]; intro; subst x.
      + pose proof (occ_flat_in f_n _ _ s Q (or_introl eq_refl)). olia.
      + pose proof (occ_flat_in f_n _ _ e Q (or_introl eq_refl)). olia.
      + pose proof (occ_flat_in f_l _ _ l Q (or_introl eq_refl)). olia.
    - rewrite AH. intros (Q & N1 & N2 & N3). destruct Q as [Q|[Q|[Q|Q]]]; congruence. }
  assert (PM : forall g, place (all (Own l :: R) ((l, o') :: ls)) ((l, o') :: ls) g <-> place (all H ls) ls g).
  { intro g. rewrite AE. split; intros [(n & Q)|(k & x & Q)].
    - left. exists n. destruct Q; [discriminate|auto].
    - right. exists k, x. apply ITM; auto.
    - left. exists n. right. apply INV1. split; auto. repeat split; discriminate.
    - right. exists k, x. apply ITM; auto. }
  split; simpl; fold ls; fold o'.
  - constructor; rewrite ?AE; cbn [flat_map map fst]; rewrite ?LN, ?LG, ?LF; cbn [f_n f_c f_g f_r f_l f_fr f_o f_b app].
    + intro x. pose proof (ow_n OW x) as Z. rewrite AH in Z. cbn [flat_map f_n app] in Z. rewrite !occ_cons in *. olia.
    + intro x. pose proof (ow_c OW x) as Z. rewrite AH in Z. cbn [flat_map f_c app] in Z. rewrite !occ_cons in *. olia.
    + intro x. pose proof (ow_g OW x) as Z. rewrite AH in Z. exact Z.
    + intro x. pose proof (ow_r OW x) as Z. rewrite AH in Z. exact Z.
    + intro x. pose proof (ow_l OW x) as Z. rewrite AH in Z. cbn [flat_map f_l app] in Z. rewrite !occ_cons in *. olia.
    + intro x. pose proof (ow_fr OW x) as Z. rewrite AH in Z. cbn [flat_map f_fr app] in Z. rewrite !occ_cons in *. olia.
    + intro x. pose proof (ow_o OW x) as Z. rewrite AH in Z. cbn [flat_map f_o app] in Z. rewrite !occ_cons in *. olia.
    + intro x. pose proof (ow_b OW x) as Z. rewrite AH in Z. exact Z.
    + intros k x st Q I. destruct Q as [Q|Q]; [inversion Q; subst; destruct (NO _ I)|].
      destruct (ow_item OW k x st Q I) as [Z|Z]; auto. right. right. destruct Z as [Z|[Z|[Z|Z]]]; auto; discriminate.
    + intros k x sb Q I. destruct Q as [Q|Q]; [inversion Q; subst; destruct I|]. apply (ow_sib OW k x sb Q I).
    + intros k g x [Q|Q]; [discriminate|]. apply ITM. apply (ow_busy OW). auto.
    + intros g k [Q|Q]; [discriminate|]. destruct (ow_ren OW g k) as (x & I); auto. exists x. right; auto.
    + intros k x [Q|Q]; [|apply (ow_keys OW k x Q)]. inversion Q; subst. unfold o'; simpl. rewrite DL. split; constructor.
  - rewrite GE. exists arr, cnt, (upd blk l [s; e]), (upd ord l []).
    assert (FB : forall g, place (all H ls) ls g -> flatn (upd blk l [s; e]) (arr g) = flatn blk (arr g)).
    { intros g P. destruct (sh_place SH g P) as [(A1 & A2 & A3 & A4) A5]. apply flat_ext_in. intros [n|k] Q; auto. simpl.
      apply upd_other. intro; subst k. apply A4 in Q. apply (NR g Q). }
    constructor; rewrite ?AE.
    + auto.
    + intros q x Q. rewrite FD. destruct (Nat.eq_dec q fr) as [->|N].
      * rewrite KF in Q. destruct Q as [<-|[<-|[]]]; auto.
      * rewrite KO in Q by auto. apply (sh_nofrag SH q x Q).
    + intros n x Q I. right. apply INV1. split; [|repeat split; discriminate]. apply (sh_base SH n); auto.
      cbn [flat_map f_n] in I. rewrite LN in I. rewrite AH. cbn [flat_map f_n app]. rewrite !in_app_iff in *. simpl in *. rewrite in_app_iff. tauto.
    + intros q Q. rewrite KO; [apply (sh_U SH); auto|]. intro; subst q. apply Q. apply (sh_inU SH). rewrite !in_app_iff. right; left.
      apply in_flat_map. exists (FL l fr). simpl; auto.
    + intros q Q. apply (sh_inU SH). cbn [flat_map f_c f_fr] in Q. rewrite LF in Q. rewrite AH. cbn [flat_map f_c f_fr app].
      repeat (rewrite ?in_app_iff in *; cbn [In app] in * ). tauto.
    + intros q Q. rewrite FD. apply (sh_frag SH). cbn [flat_map f_fr] in Q. rewrite LF in Q. rewrite AH. cbn [flat_map f_fr app].
      repeat (rewrite ?in_app_iff in *; cbn [In app] in * ). tauto.
    + intros n [Q|Q]; [discriminate|]. apply INV1 in Q as (Q & N1 & N2 & _). destruct (sh_FN SH _ Q) as (T1 & T2 & T3).
      rewrite FD. assert (NF : n <> fr) by congruence. split; [|split; [auto|rewrite KO; auto]].
      destruct (par (rdom (lw_r lw)) n) as [q|] eqn:EP; auto. exfalso. apply W' in EP. destruct (Nat.eq_dec q fr) as [->|NQ].
      * rewrite KF in EP. destruct EP as [EP|[EP|[]]]; congruence.
      * rewrite KO in EP by auto. apply (sh_wf SH) in EP. congruence.
    + intros g [Q|Q]; [discriminate|]. apply (sh_FG SH); auto.
    + intros k f [Q|Q]; [discriminate|]. rewrite KO; [apply (sh_FL SH k); auto|]. intro; subst f.
      pose proof (ow_fr OW fr) as Z. rewrite AH in Z. cbn [flat_map f_fr app] in Z. rewrite occ_cons in Z.
      destruct (Nat.eq_dec fr fr); [|congruence]. pose proof (occ_flat_in f_fr _ _ fr Q (or_introl eq_refl)). olia.
    + intros n g [Q|Q]; [discriminate|]. apply INR in Q. destruct (sh_Con SH _ _ Q) as [T1 T2]. rewrite FD. split; auto.
      rewrite KO; auto. congruence.
    + intros g k [Q|Q]; [discriminate|]. rewrite <- AE. apply PM. apply (sh_Ren SH g k); auto.
    + intros g p n [Q|Q]; [discriminate|]. rewrite <- AE. apply PM. apply (sh_Ent SH g p n); auto.
    + intros g P. rewrite <- AE in P. apply PM in P. destruct (sh_place SH g P) as [(A1 & A2 & A3 & A4) A5].
      split; [|rewrite FB; auto]. split; auto. split; auto. split.
      * intros p n. rewrite A3. simpl. split; [intro Q; right; apply INV1; split; auto; repeat split; discriminate|].
        intros [Q|Q]; [discriminate|auto].
      * intro k. rewrite A4. simpl. split; [intro Q; right; apply INV1; split; auto; repeat split; discriminate|].
        intros [Q|Q]; [discriminate|auto].
    + intros k x [Q|Q].
      * inversion Q; subst k x. rewrite !upd_same. unfold o'; simpl. rewrite DL. simpl. auto.
      * assert (k <> l) by (intro; subst k; apply NL; apply in_map_iff; exists (l, x); auto).
        rewrite !upd_other by auto. apply (sh_list SH _ _ Q).
    + intros k x [Q|Q].
      * inversion Q; subst k x. unfold o'; simpl. rewrite DL. simpl. rewrite upd_same. split; auto. split; auto.
        intros g [Z|Z]; [discriminate|]. apply (NR g). auto.
      * assert (k <> l) by (intro; subst k; apply NL; apply in_map_iff; exists (l, x); auto).
        assert (dl_frag (lo_l x) <> fr).
        { intro E. pose proof (ow_fr OW fr) as Z. rewrite AH in Z. cbn [flat_map f_fr app] in Z. rewrite occ_cons in Z.
          destruct (Nat.eq_dec fr fr); [|congruence].
          pose proof (occ_flat_in l_fr ls (k, x) fr Q ltac:(left; auto)). olia. }
        pose proof (sh_cont SH _ _ Q) as M. destruct (dl_cont (lo_l x)) as [c|f].
        -- destruct M as (M1 & g & M2 & M2c). rewrite KO by auto. split; auto. exists g. split; [right; apply INV1; split; auto; repeat split; discriminate|].
           intros m [Z|Z]; [discriminate|]. apply M2c. auto.
        -- destruct M as (M1 & M2 & M3). split; auto. rewrite upd_other by auto. split; [rewrite KO; auto; congruence|].
           intros g [Z|Z]; [discriminate|]. apply (M3 g). auto.
Qed.
End Mem.
