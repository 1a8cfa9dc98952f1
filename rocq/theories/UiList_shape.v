(** Reading and changing the shape of the document. *)
From Coq Require Import List Arith NArith Bool Lia Permutation Sorting.Sorted.
From Verif Require Import Util Position Dom Context Spec_path Spec_list Render_history
  Position_proofs Dom_proofs Context_proofs Render_history_proofs Ui DynList DynList_proofs
  UiList Spec_uilist UiList_core UiList_inv.
Import ListNotations.

Ltac olia := unfold node, gid in *; lia.
Ltac apps' := repeat (rewrite <- app_assoc; simpl).

Lemma stall_perm dl A : Permutation (dl_items dl) (items_of A) -> Permutation (dl_dead dl) (dead_of A) ->
  Permutation (stall dl) (map seg_st A).
Proof.
  intros P1 P2. unfold stall. etransitivity.
  - apply Permutation_app; [apply Permutation_map; apply P1|apply P2].
  - clear. induction A as [|[k st|st] A IH]; simpl; auto.
    symmetry. apply Permutation_cons_app. symmetry. auto.
Qed.

Section Read.
Variable base0 : node -> list node.
Variable U : list node.
Variables (d : dom) (gr : gid -> group) (H : list fact) (ls : list (lid * lobj))
  (arr : gid -> list (node + lid)) (cnt : gid -> list node) (blk : lid -> list node) (ord : lid -> list seg).
Hypothesis OW : OWN H ls.
Hypothesis SH : SHP base0 U d gr H ls arr cnt blk ord.
Local Notation A := (all H ls).

Definition LSr (l : lid) (s e : node) : Prop :=
  exists o, In (l, o) ls /\ s = dl_start (lo_l o) /\ e = dl_end (lo_l o).

Lemma seg_item l o x : In (l, o) ls -> In x (ord l) -> In (seg_st x) (stall (lo_l o)).
Proof.
  intros L X. destruct (sh_list _ _ _ _ _ _ _ _ _ _ SH _ _ L) as (_ & P1 & P2 & _).
  eapply Permutation_in; [symmetry; apply (stall_perm _ _ P1 P2)|]. apply in_map; auto.
Qed.
Lemma item_seg l o st : In (l, o) ls -> In st (stall (lo_l o)) -> exists x, In x (ord l) /\ seg_st x = st.
Proof.
  intros L X. destruct (sh_list _ _ _ _ _ _ _ _ _ _ SH _ _ L) as (_ & P1 & P2 & _).
  assert (IN : In st (map seg_st (ord l))) by (eapply Permutation_in; [apply (stall_perm _ _ P1 P2)|auto]).
  apply in_map_iff in IN as (x & E & IN). exists x; auto.
Qed.
Lemma item_place l o st : In (l, o) ls -> In st (stall (lo_l o)) -> place A ls (st_g st).
Proof. intros L X. right. exists l, (st_e st), o, st. auto. Qed.

Lemma sitem_marker l o k st : In (l, o) ls -> In (SItem k st) (ord l) ->
  In (st_s st) (markers (lo_l o)) /\ In (st_e st) (markers (lo_l o)) /\ In (k, st) (dl_items (lo_l o)).
Proof.
  intros L X. destruct (sh_list _ _ _ _ _ _ _ _ _ _ SH _ _ L) as (_ & P1 & P2 & _).
  assert (IN : In (k, st) (dl_items (lo_l o))).
  { eapply Permutation_in; [symmetry; apply P1|]. apply in_items; auto. }
  unfold markers. rewrite !in_flat_map. repeat split; auto; exists (k, st); simpl; auto.
Qed.

Lemma eqs : EQS (place A ls) LSr arr cnt blk ord.
Proof.
  constructor.
  - intros g P. apply (sh_place _ _ _ _ _ _ _ _ _ _ SH g P).
  - intros l s e (o & L & -> & ->). apply (sh_list _ _ _ _ _ _ _ _ _ _ SH _ _ L).
  - intros g l P HI. destruct (sh_place _ _ _ _ _ _ _ _ _ _ SH g P) as [(_ & _ & _ & R) _].
    apply R in HI. destruct (ow_ren _ _ OW _ _ HI) as (o & L). exists (dl_start (lo_l o)), (dl_end (lo_l o)), o; auto.
  - intros l s e x (o & L & -> & ->) HI. apply item_place with (l := l) (o := o); auto.
    eapply seg_item; eauto.
Qed.

(** list nodes are not element nodes, and lists do not share nodes *)
Lemma lnode_split l o x : In (l, o) ls -> In x (l_n (l, o)) ->
  ~ In x (flat_map f_n A) /\ forall l' o', In (l', o') ls -> l' <> l -> ~ In x (l_n (l', o')).
Proof.
  intros L X. pose proof (ow_n _ _ OW x) as Q.
  pose proof (occ_flat_in l_n ls (l, o) x L X). split.
  - intro Y. apply occ_in in Y. olia.
  - intros l' o' L' N Y. apply in_split in L as (u & v & E). unfold node, gid in *; rewrite E in *.
    rewrite flat_map_app in Q. cbn [flat_map] in Q. rewrite !occ_app in Q.
    apply occ_in in X. assert (1 <= occ x (flat_map l_n u) + occ x (flat_map l_n v)); [|olia].
    apply in_app_iff in L' as [L'|[L'|L']].
    + pose proof (occ_flat_in l_n u (l', o') x L' Y). olia.
    + inversion L'; congruence.
    + pose proof (occ_flat_in l_n v (l', o') x L' Y). olia.
Qed.
Lemma own_list_nodup l o : In (l, o) ls -> NoDup (l_n (l, o)).
Proof.
  intro L. apply occ_nodup. intro x. pose proof (ow_n _ _ OW x) as Q.
  apply in_split in L as (u & v & E). rewrite E in Q.
  rewrite flat_map_app in Q. cbn [flat_map] in Q. rewrite !occ_app in Q. olia.
Qed.
Lemma arr_ent g n : place A ls g -> In (inl n) (arr g) -> exists p, In (Ent g p n) A.
Proof.
  intros P X. destruct (sh_place _ _ _ _ _ _ _ _ _ _ SH g P) as [(E & _ & Q & _) _].
  assert (IN : In n (map snd (gr g))).
  { rewrite <- E. apply in_flat_map. exists (inl n); simpl; auto. }
  apply in_map_iff in IN as ([k m] & Em & IN). simpl in Em. subst m.
  exists (rev k). apply Q. rewrite rev_involutive. auto.
Qed.
Lemma ent_fn g p n : In (Ent g p n) A -> In n (flat_map f_n A).
Proof. intro X. apply in_flat_map. exists (Ent g p n); simpl; auto. Qed.

Lemma gid_uniq l o l' o' st st' : In (l, o) ls -> In (l', o') ls ->
  In st (stall (lo_l o)) -> In st' (stall (lo_l o')) -> st_g st = st_g st' -> l = l' /\ o = o' /\ st = st'.
Proof.
  intros L L' X X' E. pose proof (ow_g _ _ OW (st_g st)) as Q.
  assert (Y : In (st_g st) (l_g (l, o))) by (apply in_map; auto).
  destruct (Nat.eq_dec l l') as [EQ|N].
  - subst l'. assert (o = o') by (eapply ow_uniq; eauto). subst o'. repeat split; auto.
    apply in_split in L as (u & v & EL). rewrite EL in Q. rewrite flat_map_app in Q. cbn [flat_map] in Q.
    rewrite !occ_app in Q.
    assert (Q2 : occ (st_g st) (l_g (l, o)) <= 1) by olia. unfold l_g in Q2. cbn [snd] in Q2.
    apply in_split in X as (a & b & EX). rewrite EX in X', Q2. rewrite map_app in Q2. simpl in Q2.
    rewrite occ_app, occ_cons in Q2. destruct (Nat.eq_dec (st_g st) (st_g st)); [|congruence].
    apply in_app_iff in X' as [X'|[X'|X']]; auto.
    + apply (in_map st_g) in X'. apply occ_in in X'. rewrite <- E in X'. olia.
    + apply (in_map st_g) in X'. apply occ_in in X'. rewrite <- E in X'. olia.
  - exfalso. apply in_split in L as (u & v & EL). unfold node, gid in *; rewrite EL in *. rewrite flat_map_app in Q.
    cbn [flat_map] in Q. rewrite !occ_app in Q. apply occ_in in Y.
    assert (Y' : In (st_g st) (l_g (l', o'))) by (rewrite E; apply in_map; auto).
    apply in_app_iff in L' as [L'|[L'|L']].
    + pose proof (occ_flat_in l_g u (l', o') _ L' Y'). olia.
    + inversion L'; congruence.
    + pose proof (occ_flat_in l_g v (l', o') _ L' Y'). olia.
Qed.
Lemma con_not_item n g l e : In (Con n g) A -> item_in l g e ls -> False.
Proof.
  intros C (o & st & L & X & E & _). pose proof (ow_g _ _ OW g) as Q.
  assert (Y : In g (l_g (l, o))) by (rewrite <- E; apply in_map; auto).
  pose proof (occ_flat_in l_g ls (l, o) _ L Y).
  assert (1 <= occ g (flat_map f_g A)) by (apply occ_flat_in with (y := Con n g); simpl; auto).
  olia.
Qed.
Lemma con_uniq n g n' g' : In (Con n g) A -> In (Con n' g') A -> (n = n' \/ g = g') -> n = n' /\ g = g'.
Proof.
  intros C C' E. pose proof (ow_g _ _ OW g) as Q. pose proof (ow_c _ _ OW n) as Q2. 
  apply in_split in C as (u & v & EA). unfold node, gid in *; rewrite EA in *. rewrite flat_map_app in Q, Q2. simpl in Q, Q2.
  rewrite !occ_app, ?occ_cons in *.
  destruct (Nat.eq_dec g g); [|congruence]. destruct (Nat.eq_dec n n); [|congruence].
  apply in_app_iff in C' as [C'|[C'|C']].
  - exfalso. destruct E; subst.
    + pose proof (occ_flat_in f_c u (Con n' g') n' C' (or_introl eq_refl)). olia.
    + pose proof (occ_flat_in f_g u (Con n' g') g' C' (or_introl eq_refl)). olia.
  - inversion C'; auto.
  - exfalso. destruct E; subst.
    + pose proof (occ_flat_in f_c v (Con n' g') n' C' (or_introl eq_refl)). olia.
    + pose proof (occ_flat_in f_g v (Con n' g') g' C' (or_introl eq_refl)). olia.
Qed.
Lemma frag_uniq l o l' o' : In (l, o) ls -> In (l', o') ls -> dl_frag (lo_l o) = dl_frag (lo_l o') -> l = l'.
Proof.
  intros L L' E. destruct (Nat.eq_dec l l') as [|N]; auto. exfalso.
  pose proof (ow_fr _ _ OW (dl_frag (lo_l o))) as Q.
  apply in_split in L as (u & v & EL). unfold node, gid in *; rewrite EL in *. rewrite flat_map_app in Q. simpl in Q.
  rewrite !occ_app, occ_cons in Q. destruct (Nat.eq_dec (dl_frag (lo_l o)) (dl_frag (lo_l o))); [|congruence].
  assert (Y : In (dl_frag (lo_l o)) (l_fr (l', o'))) by (rewrite E; simpl; auto).
  apply in_app_iff in L' as [L'|[L'|L']].
  + pose proof (occ_flat_in l_fr u (l', o') _ L' Y). olia.
  + inversion L'; congruence.
  + pose proof (occ_flat_in l_fr v (l', o') _ L' Y). olia.
Qed.
Lemma list_frag l o : In (l, o) ls -> frag d (dl_frag (lo_l o)) = true.
Proof.
  intro L. apply (sh_frag _ _ _ _ _ _ _ _ _ _ SH). apply in_app_iff. right. apply in_flat_map.
  exists (l, o); simpl; auto.
Qed.

(** ** where the contents are *)
Inductive phost : gid -> node -> list node -> list node -> Prop :=
| ph_con : forall n g, In (Con n g) A -> phost g n (base0 n) []
| ph_item : forall l o k st o1 o2 h X Y, In (l, o) ls -> ord l = o1 ++ SItem k st :: o2 -> lhost l h X Y ->
    phost (st_g st) h (X ++ dl_start (lo_l o) :: mids cnt o1 ++ [st_s st])
      (st_e st :: mids cnt o2 ++ dl_end (lo_l o) :: Y)
| ph_dead : forall l o st o1 o2 h X Y, In (l, o) ls -> ord l = o1 ++ SDead st :: o2 -> lhost l h X Y ->
    phost (st_g st) h (X ++ dl_start (lo_l o) :: mids cnt o1) (mids cnt o2 ++ dl_end (lo_l o) :: Y)
with lhost : lid -> node -> list node -> list node -> Prop :=
| lh_frag : forall l o f, In (l, o) ls -> dl_cont (lo_l o) = Fake f -> lhost l f [] []
| lh_ren : forall l g a1 a2 h X Y, In (Ren g l) A -> arr g = a1 ++ inr l :: a2 -> phost g h X Y ->
    lhost l h (X ++ flatn blk a1) (flatn blk a2 ++ Y).
Scheme phost_mut := Induction for phost Sort Prop
  with lhost_mut := Induction for lhost Sort Prop.
Combined Scheme host_mut from phost_mut, lhost_mut.

Lemma phost_place g h X Y : phost g h X Y -> place A ls g.
Proof.
  intro P. inversion P; subst; auto.
  - left; eauto.
  - eapply item_place; eauto. apply (seg_item l o (SItem k st)); auto. rewrite H1. apply in_app_iff; simpl; auto.
  - eapply item_place; eauto. apply (seg_item l o (SDead st)); auto. rewrite H1. apply in_app_iff; simpl; auto.
Qed.

Lemma host_kids :
  (forall g h X Y, phost g h X Y -> kids d h = X ++ cnt g ++ Y) /\
  (forall l h X Y, lhost l h X Y -> kids d h = X ++ blk l ++ Y).
Proof.
  apply host_mut.
  - intros n g C. rewrite app_nil_r. apply (sh_Con _ _ _ _ _ _ _ _ _ _ SH _ _ C).
  - intros l o k st o1 o2 h X Y L EO _ IH. rewrite IH.
    destruct (sh_list _ _ _ _ _ _ _ _ _ _ SH _ _ L) as (EB & _). rewrite EB, EO. unfold whole.
    rewrite mids_app. unfold mids; simpl. apps'. auto.
  - intros l o st o1 o2 h X Y L EO _ IH. rewrite IH.
    destruct (sh_list _ _ _ _ _ _ _ _ _ _ SH _ _ L) as (EB & _). rewrite EB, EO. unfold whole.
    rewrite mids_app. unfold mids; simpl. apps'. auto.
  - intros l o f L E. rewrite app_nil_r. simpl.
    pose proof (sh_cont _ _ _ _ _ _ _ _ _ _ SH _ _ L) as Q. rewrite E in Q. apply Q.
  - intros l g a1 a2 h X Y R E P IH. rewrite IH.
    destruct (sh_place _ _ _ _ _ _ _ _ _ _ SH g) as [_ EC]; [eapply phost_place; eauto|].
    rewrite EC, E, flatn_app. unfold flatn; simpl. apps'. auto.
Qed.

Lemma lhost_ex_aux : forall n l o, In (l, o) ls ->
  list_max (map (fun e => length (blk (fst e))) ls) - length (blk l) <= n ->
  exists h X Y, lhost l h X Y.
Proof.
  assert (MX : forall l o, In (l, o) ls -> length (blk l) <= list_max (map (fun e => length (blk (fst e))) ls)).
  { intros l o L. assert (Q := proj1 (list_max_le (map (fun e => length (blk (fst e))) ls) _) (le_n _)).
    rewrite Forall_forall in Q. apply Q. apply in_map_iff. exists (l, o); auto. }
  induction n as [|n IH]; intros l o L LE.
  all: pose proof (sh_cont _ _ _ _ _ _ _ _ _ _ SH _ _ L) as Q; destruct (dl_cont (lo_l o)) as [r|f] eqn:E.
  2, 4: exists f, [], []; eapply lh_frag; eauto.
  all: destruct Q as (_ & g & R & _); assert (P := sh_Ren _ _ _ _ _ _ _ _ _ _ SH _ _ R);
    destruct (sh_place _ _ _ _ _ _ _ _ _ _ SH g P) as [(_ & _ & _ & AR) EC];
    assert (IA := proj2 (AR l) R); apply in_split in IA as (a1 & a2 & EA).
  all: assert (LC : length (blk l) <= length (cnt g)) by
    (rewrite EC, EA, flatn_app; unfold flatn; simpl; rewrite !app_length; olia).
  all: destruct P as [(m & C)|(l' & e & o' & st & L' & X & EG & EE)];
    [exists m, (base0 m ++ flatn blk a1), (flatn blk a2 ++ []); eapply lh_ren; eauto; constructor; auto|].
  all: destruct (item_seg _ _ _ L' X) as (x & HX & ES); assert (HX' := HX); apply in_split in HX' as (o1 & o2 & EO);
    destruct (sh_list _ _ _ _ _ _ _ _ _ _ SH _ _ L') as (EB & _).
  all: assert (LB : length (blk l) < length (blk l')) by
    (rewrite EB, EO; unfold whole; rewrite mids_app; unfold mids; cbn [flat_map length];
     rewrite !app_length; cbn [length]; rewrite ?app_length;
     assert (length (cnt g) <= length (segn cnt x)) by
       (destruct x; simpl in *; subst; rewrite ?app_length; olia); olia).
  all: pose proof (MX _ _ L').
  - olia.
  - destruct (IH l' o' L') as (h & X' & Y' & HL); [olia|].
    destruct x as [k st'|st']; simpl in ES; subst st'.
    + exists h. do 2 eexists. eapply lh_ren; eauto. rewrite <- EG. eapply ph_item; eauto.
    + exists h. do 2 eexists. eapply lh_ren; eauto. rewrite <- EG. eapply ph_dead; eauto.
Qed.
Lemma lhost_ex l o : In (l, o) ls -> exists h X Y, lhost l h X Y.
Proof. intro L. eapply lhost_ex_aux; eauto. Qed.
Lemma phost_ex g : place A ls g -> exists h X Y, phost g h X Y.
Proof.
  intros [(m & C)|(l' & e & o' & st & L' & X & EG & EE)].
  - exists m, (base0 m), []. constructor; auto.
  - destruct (item_seg _ _ _ L' X) as (x & HX & ES). apply in_split in HX as (o1 & o2 & EO).
    destruct (lhost_ex _ _ L') as (h & X' & Y' & HL).
    destruct x as [k st'|st']; simpl in ES; subst st'; rewrite <- EG; exists h; do 2 eexists.
    + eapply ph_item; eauto.
    + eapply ph_dead; eauto.
Qed.
Lemma nodup_mid {T} (X B Y : list T) : NoDup (X ++ B ++ Y) -> NoDup B.
Proof.
  induction X as [|x X IH]; simpl; intro N; [|inversion N; auto].
  induction B as [|b B IH]; simpl in *; constructor; inversion N; subst; auto.
  rewrite in_app_iff in H2. tauto.
Qed.
Lemma cnt_nodup g : place A ls g -> NoDup (cnt g).
Proof.
  intro P. destruct (phost_ex g P) as (h & X & Y & Q). apply (nodup_mid X _ Y).
  rewrite <- (proj1 host_kids _ _ _ _ Q). apply (sh_wf _ _ _ _ _ _ _ _ _ _ SH).
Qed.
Lemma blk_nodup l o : In (l, o) ls -> NoDup (blk l).
Proof.
  intro L. destruct (lhost_ex _ _ L) as (h & X & Y & Q). apply (nodup_mid X _ Y).
  rewrite <- (proj2 host_kids _ _ _ _ Q). apply (sh_wf _ _ _ _ _ _ _ _ _ _ SH).
Qed.
Lemma start_in l o : In (l, o) ls -> In (dl_start (lo_l o)) (blk l).
Proof. intro L. destruct (sh_list _ _ _ _ _ _ _ _ _ _ SH _ _ L) as (EB & _). rewrite EB. simpl; auto. Qed.
Lemma start_notin_item l o x : In (l, o) ls -> In x (ord l) -> ~ In (dl_start (lo_l o)) (cnt (sgid x)).
Proof.
  intros L HX HI. pose proof (blk_nodup _ _ L) as ND.
  destruct (sh_list _ _ _ _ _ _ _ _ _ _ SH _ _ L) as (EB & _). rewrite EB in ND. unfold whole in ND.
  inversion ND; subst. apply H2. apply in_app_iff; left. apply in_flat_map. exists x. split; auto.
  destruct x; unfold sgid in HI; simpl in *; auto. right. apply in_app_iff; auto.
Qed.
Lemma base_not_list n l o : In (l, o) ls -> ~ In (dl_start (lo_l o)) (base0 n).
Proof.
  intros L HI.
  assert (X : In (dl_start (lo_l o)) (l_n (l, o))) by (simpl; auto).
  assert (Y : In (Rt (dl_start (lo_l o))) A).
  { apply (sh_base _ _ _ _ _ _ _ _ _ _ SH n); auto. apply in_app_iff. right. apply in_flat_map. eauto. }
  destruct (lnode_split _ _ _ L X) as [N _]. apply N. apply in_flat_map. exists (Rt (dl_start (lo_l o))). simpl; auto.
Qed.

(** ** changing a list *)
Lemma in_mid_host {T} (x : T) X B Y : In x B -> In x (X ++ B ++ Y).
Proof. rewrite !in_app_iff; auto. Qed.

Lemma geo_list l0 o0 h X0 Y0 gs a1 o1 :
  In (l0, o0) ls -> lhost l0 h X0 Y0 ->
  ~ In (dl_start (lo_l o0)) (flatn blk a1) ->
  (forall l, In (inr l) a1 -> exists o, In (l, o) ls) ->
  (forall x, In x o1 -> place A ls (sgid x) \/ sgid x = gs) ->
  (forall x, In x o1 -> sgid x <> gs -> ~ In (dl_start (lo_l o0)) (cnt (sgid x))) ->
  (forall l o x, In (l, o) ls -> l <> l0 -> In x (ord l) -> sgid x <> gs) ->
  exists cnt2 blk2,
    let b2 := dl_start (lo_l o0) :: mids (upd cnt gs (flatn blk a1)) o1 ++ [dl_end (lo_l o0)] in
    (forall g, place A ls g \/ g = gs -> cnt2 g = flatn blk2 (upd arr gs a1 g)) /\
    (forall l o, In (l, o) ls -> blk2 l = whole cnt2 (dl_start (lo_l o)) (dl_end (lo_l o)) (upd ord l0 o1 l)) /\
    (forall n g, In (Con n g) A -> g <> gs ->
       (n <> h -> cnt2 g = cnt g) /\ (n = h -> base0 n ++ cnt2 g = X0 ++ b2 ++ Y0)) /\
    (forall l o f, In (l, o) ls -> dl_cont (lo_l o) = Fake f ->
       (f <> h -> blk2 l = blk l) /\ (f = h -> blk2 l = X0 ++ b2 ++ Y0)) /\
    cnt2 gs = flatn blk a1 /\
    (forall l, ~ In (dl_start (lo_l o0)) (blk l) -> blk2 l = blk l).
Proof.
  intros L0 LH G1 G6 G3 G4 G5. set (s0 := dl_start (lo_l o0)) in *. set (e0 := dl_end (lo_l o0)) in *.
  assert (SN : In s0 (l_n (l0, o0))) by (simpl; auto).
  assert (ES := lnode_split _ _ _ L0 SN). destruct ES as [EN ELs].
  assert (LS0 : LSr l0 s0 e0) by (exists o0; auto).
  assert (H1 : forall g, place A ls g -> ~ In (inl s0) (arr g)).
  { intros g P Q. destruct (arr_ent g s0 P Q) as (p & QE). apply EN. eapply ent_fn; eauto. }
  assert (H2 : forall l s e, LSr l s e -> l <> l0 -> s <> s0 /\ e <> s0).
  { intros l s e (o & L & -> & ->) N. specialize (ELs _ _ L N). simpl in ELs. tauto. }
  assert (H3 : forall l s e k st, LSr l s e -> l <> l0 -> In (SItem k st) (ord l) -> st_s st <> s0 /\ st_e st <> s0).
  { intros l s e k st (o & L & -> & ->) N HI. specialize (ELs _ _ L N).
    destruct (sitem_marker _ _ _ _ L HI) as (M1 & M2 & _). split; intro Q; apply ELs; right; right; rewrite <- Q; auto. }
  assert (LSU : forall l s e s' e', LSr l s e -> LSr l s' e' -> s = s' /\ e = e').
  { intros l s e s' e' (o & L & -> & ->) (o' & L' & -> & ->). rewrite (ow_uniq _ _ _ _ _ OW L L'). auto. }
  assert (NDb : forall l s e, LSr l s e -> NoDup (blk l)).
  { intros l s e (o & L & _). eapply blk_nodup; eauto. }
  assert (SB := start_in _ _ L0). fold s0 in SB.
  assert (G2 : ~ In (inr l0) a1).
  { intro Q. apply G1. apply in_flat_map. exists (inr l0). auto. }
  assert (G6' : forall l, In (inr l) a1 -> exists s e, LSr l s e).
  { intros l Q. destruct (G6 l Q) as (o & L). exists (dl_start (lo_l o)), (dl_end (lo_l o)), o; auto. }
  assert (G5' : forall l s e x, LSr l s e -> l <> l0 -> In x (ord l) -> sgid x <> gs).
  { intros l s e x (o & L & _) N Q. eapply G5; eauto. }
  assert (CH := change _ _ _ _ _ _ eqs l0 s0 e0 LS0 H1 H2 H3 LSU cnt_nodup NDb gs a1 o1 G1 G2 G3 G4 G5' G6').
  set (b2 := s0 :: mids (upd cnt gs (flatn blk a1)) o1 ++ [e0]).
  set (R := rho cnt blk l0 s0 e0 gs a1 o1).
  assert (BH : hd_error (blk l0) = Some s0).
  { destruct (sh_list _ _ _ _ _ _ _ _ _ _ SH _ _ L0) as (EB & _). rewrite EB; auto. }
  assert (KH := proj2 host_kids _ _ _ _ LH).
  assert (RH : R (kids d h) = X0 ++ b2 ++ Y0).
  { rewrite KH. unfold R, rho. apply repl_at; auto.
    intro Q. pose proof (proj1 (sh_wf _ _ _ _ _ _ _ _ _ _ SH) h) as ND. rewrite KH in ND.
    apply in_split in Q as (u & v & ->). rewrite <- app_assoc in ND. simpl in ND. apply NoDup_remove_2 in ND.
    apply ND. rewrite !in_app_iff. auto. }
  assert (RO : forall q, q <> h -> ~ In s0 (kids d q)).
  { intros q N Q. apply N. destruct (sh_wf _ _ _ _ _ _ _ _ _ _ SH) as [_ W]. apply W in Q.
    assert (Q2 : In s0 (kids d h)) by (rewrite KH; apply in_mid_host; auto). apply W in Q2. congruence. }
  assert (RI : forall L, ~ In s0 L -> R L = L) by (intros; apply repl_notin; auto).
  assert (RB : R (blk l0) = b2).
  { unfold R, rho. rewrite <- (app_nil_r (blk l0)) at 2. rewrite <- (app_nil_l (blk l0 ++ [])).
    rewrite repl_at; auto. simpl. rewrite app_nil_r. auto. }
  assert (BR : forall l, blk' cnt blk l0 s0 e0 gs a1 o1 l = R (blk l)).
  { intro l. unfold blk'. destruct (Nat.eqb_spec l l0) as [Q|N]; auto. subst l. symmetry. apply RB. }
  exists (cnt' cnt blk l0 s0 e0 gs a1 o1), (blk' cnt blk l0 s0 e0 gs a1 o1). cbv zeta. fold b2.
  split; [|split; [|split; [|split; [|split]]]].
  - intros g P. exact (eq_cnt _ _ _ _ _ _ CH g P).
  - intros l o L. apply (eq_blk _ _ _ _ _ _ CH l). exists o; auto.
  - intros n g C N. destruct (sh_Con _ _ _ _ _ _ _ _ _ _ SH _ _ C) as [KN _].
    unfold cnt'. destruct (Nat.eqb_spec g gs) as [Q|_]; [contradiction|]. fold R. split.
    + intro NH. apply RI. intro Q. apply (RO n NH). rewrite KN. apply in_app_iff; auto.
    + intro Q. subst n. rewrite <- RH, KN. unfold R, rho. symmetry. apply repl_app_l.
      apply base_not_list with (l := l0); auto.
  - intros l o f L E. pose proof (sh_cont _ _ _ _ _ _ _ _ _ _ SH _ _ L) as Q. rewrite E in Q.
    destruct Q as (_ & KF & _). rewrite BR. split.
    + intro N. apply RI. rewrite <- KF. auto.
    + intro Q. subst f. rewrite <- KF. auto.
  - unfold cnt'. rewrite Nat.eqb_refl. reflexivity.
  - intros l Q. rewrite BR. auto.
Qed.

(** ** changing the arrangement of one place *)
Lemma upd_id {B} (f : nat -> B) k x : upd f k (f k) x = f x.
Proof. unfold upd. destruct (Nat.eqb_spec x k); subst; auto. Qed.

Lemma mids_upd_notin c g v o : (forall x, In x o -> sgid x <> g) -> mids (upd c g v) o = mids c o.
Proof.
  intro N. apply mids_ext. intros x Hx. apply upd_other. auto.
Qed.

Lemma ord_gid_uniq l o x o1 o2 : In (l, o) ls -> ord l = o1 ++ x :: o2 ->
  forall y, In y (o1 ++ o2) -> sgid y <> sgid x.
Proof.
  intros L E y Hy Q. destruct (sh_list _ _ _ _ _ _ _ _ _ _ SH _ _ L) as (_ & P1 & P2 & _).
  assert (P := stall_perm _ _ P1 P2). rewrite E in P.
  apply (Permutation_map st_g) in P. rewrite map_map in P.
  pose proof (ow_g _ _ OW (sgid x)) as C. apply in_split in L as (u & v & EL). rewrite EL in C.
  rewrite flat_map_app in C. cbn [flat_map] in C. rewrite !occ_app in C. unfold l_g in C at 2. cbn [snd] in C.
  rewrite (occ_perm _ _ _ P) in C. rewrite map_app in C. cbn [map] in C. rewrite occ_app, occ_cons in C.
  change (st_g (seg_st x)) with (sgid x) in C.
  destruct (Nat.eq_dec (sgid x) (sgid x)); [|congruence].
  assert (1 <= occ (sgid x) (map (fun z => st_g (seg_st z)) o1) + occ (sgid x) (map (fun z => st_g (seg_st z)) o2)).
  { rewrite <- Q. apply in_app_iff in Hy as [Hy|Hy]; apply (in_map (fun z => st_g (seg_st z))) in Hy;
      apply occ_in in Hy; unfold sgid in *; olia. }
  olia.
Qed.

Lemma geo_place g h X Y a1 : phost g h X Y ->
  (forall x, In x (flatn blk a1) -> ~ In x X) ->
  (forall l, In (inr l) a1 -> exists o, In (l, o) ls) ->
  exists cnt2 blk2,
    (forall g', place A ls g' -> cnt2 g' = flatn blk2 (upd arr g a1 g')) /\
    (forall l o, In (l, o) ls -> blk2 l = whole cnt2 (dl_start (lo_l o)) (dl_end (lo_l o)) (ord l)) /\
    (forall n g', In (Con n g') A ->
       (n <> h -> cnt2 g' = cnt g') /\ (n = h -> base0 n ++ cnt2 g' = X ++ flatn blk a1 ++ Y)) /\
    (forall l o f, In (l, o) ls -> dl_cont (lo_l o) = Fake f ->
       (f <> h -> blk2 l = blk l) /\ (f = h -> blk2 l = X ++ flatn blk a1 ++ Y)) /\
    (forall l, (forall x, In x (blk l) -> ~ In x X) -> blk2 l = blk l).
Proof.
  intros PH HX HL. inversion PH as [n0 g0 H0|l o k st o1 o2 h0 X0 Y0 H0 H1 H2|l o st o1 o2 h0 X0 Y0 H0 H1 H2]; subst.
  - exists (upd cnt g (flatn blk a1)), blk.
    split; [|split; [|split; [|split]]]; auto.
    + intros g' P. unfold upd. destruct (Nat.eqb_spec g' g); auto. apply (sh_place _ _ _ _ _ _ _ _ _ _ SH g' P).
    + intros l o L. destruct (sh_list _ _ _ _ _ _ _ _ _ _ SH _ _ L) as (EB & _). rewrite EB.
      unfold whole. rewrite mids_upd_notin; auto. intros x Hx Q. subst g.
      eapply con_not_item; [apply H0|]. exists o, (seg_st x). split; [apply L|].
      split; [eapply seg_item; eauto|]. split; reflexivity.
    + intros n g' C. split.
      * intro N. apply upd_other. intro Q. subst g'. apply N. apply (con_uniq _ _ _ _ C H0). auto.
      * intro Q. subst n. destruct (con_uniq _ _ _ _ C H0) as [_ Q]; auto. subst g'.
        rewrite upd_same, app_nil_r. auto.
    + intros l o f L E. split; auto. intro Q. subst f.
      pose proof (list_frag _ _ L) as FR. pose proof (sh_cont _ _ _ _ _ _ _ _ _ _ SH _ _ L) as Q. rewrite E in Q.
      destruct Q as (Q & _). destruct (sh_Con _ _ _ _ _ _ _ _ _ _ SH _ _ H0) as [_ FN']. congruence.
  - assert (GI := seg_item _ _ (SItem k st) H0 ltac:(rewrite H1; apply in_app_iff; simpl; auto)).
    destruct (geo_list l o h X0 Y0 (st_g st) a1 (ord l) H0 H2) as (c2 & b2 & E1 & E2 & E3 & E4 & E5 & E6); auto.
    + intro Q. apply (HX _ Q). apply in_app_iff; simpl; auto.
    + intros x Hx. left. eapply item_place; eauto. eapply seg_item; eauto.
    + intros x Hx _. eapply start_notin_item; eauto.
    + intros l' o' x L' N Hx Q. apply N. apply (gid_uniq l' o' l o (seg_st x) st); auto.
      eapply seg_item; eauto.
    + assert (EM : dl_start (lo_l o) :: mids (upd cnt (st_g st) (flatn blk a1)) (ord l) ++ [dl_end (lo_l o)]
         = dl_start (lo_l o) :: mids cnt o1 ++ st_s st :: flatn blk a1 ++ st_e st :: mids cnt o2 ++ [dl_end (lo_l o)]).
      { rewrite H1, mids_app. unfold mids at 2. cbn [flat_map segn]. rewrite upd_same. fold (mids (upd cnt (st_g st) (flatn blk a1)) o2).
        rewrite !mids_upd_notin; [apps'; auto| |];
          intros x Hx; apply (ord_gid_uniq _ _ _ _ _ H0 H1); apply in_app_iff; auto. }
      rewrite EM in *.
      exists c2, b2. split; [|split; [|split; [|split]]].
      * intros; apply E1; auto.
      * intros l' o' L'. rewrite (E2 _ _ L'). rewrite upd_id. auto.
      * intros n g' C. assert (g' <> st_g st).
        { intro Q. subst g'. eapply con_not_item; [apply C|]. exists o, st. split; [eauto|]. repeat split; auto. }
        destruct (E3 n g' C) as [Q1 Q2]; auto. split; auto. intro Q. rewrite (Q2 Q). apps'. auto.
      * intros l' o' f L' EF. destruct (E4 l' o' f L' EF) as [Q1 Q2]. split; auto. intro Q. rewrite (Q2 Q). apps'. auto.
      * intros l' Q. apply E6. intro Q2. apply (Q (dl_start (lo_l o))); auto.
        apply in_app_iff; simpl; auto.
  - assert (GI := seg_item _ _ (SDead st) H0 ltac:(rewrite H1; apply in_app_iff; simpl; auto)).
    destruct (geo_list l o h X0 Y0 (st_g st) a1 (ord l) H0 H2) as (c2 & b2 & E1 & E2 & E3 & E4 & E5 & E6); auto.
    + intro Q. apply (HX _ Q). apply in_app_iff; simpl; auto.
    + intros x Hx. left. eapply item_place; eauto. eapply seg_item; eauto.
    + intros x Hx _. eapply start_notin_item; eauto.
    + intros l' o' x L' N Hx Q. apply N. apply (gid_uniq l' o' l o (seg_st x) st); auto.
      eapply seg_item; eauto.
    + assert (EM : dl_start (lo_l o) :: mids (upd cnt (st_g st) (flatn blk a1)) (ord l) ++ [dl_end (lo_l o)]
         = dl_start (lo_l o) :: mids cnt o1 ++ flatn blk a1 ++ mids cnt o2 ++ [dl_end (lo_l o)]).
      { rewrite H1, mids_app. unfold mids at 2. cbn [flat_map segn]. rewrite upd_same. fold (mids (upd cnt (st_g st) (flatn blk a1)) o2).
        rewrite !mids_upd_notin; [apps'; auto| |];
          intros x Hx; apply (ord_gid_uniq _ _ _ _ _ H0 H1); apply in_app_iff; auto. }
      rewrite EM in *.
      exists c2, b2. split; [|split; [|split; [|split]]].
      * intros; apply E1; auto.
      * intros l' o' L'. rewrite (E2 _ _ L'). rewrite upd_id. auto.
      * intros n g' C. assert (g' <> st_g st).
        { intro Q. subst g'. eapply con_not_item; [apply C|]. exists o, st. split; [eauto|]. repeat split; auto. }
        destruct (E3 n g' C) as [Q1 Q2]; auto. split; auto. intro Q. rewrite (Q2 Q). apps'. auto.
      * intros l' o' f L' EF. destruct (E4 l' o' f L' EF) as [Q1 Q2]. split; auto. intro Q. rewrite (Q2 Q). apps'. auto.
      * intros l' Q. apply E6. intro Q2. apply (Q (dl_start (lo_l o))); auto.
        apply in_app_iff; simpl; auto.
Qed.
End Read.
