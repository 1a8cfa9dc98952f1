(** What the operations do to the invariant: rendering an element, detaching. *)
From Coq Require Import List Arith NArith Bool Lia Permutation Sorting.Sorted.
From Verif Require Import Util Position Dom Context Spec_path Spec_list Render_history
  Position_proofs Dom_proofs Context_proofs Render_history_proofs Ui DynList DynList_proofs DynList_run_proofs
  UiList Spec_uilist UiList_core UiList_inv UiList_shape.
Import ListNotations.

(** ** contexts of running futures *)
Inductive cbase (H : list fact) : ctx -> gid -> Prop :=
| cb_con : forall n g, In (Con n g) H -> cbase H (CContainer g n) g
| cb_sib : forall l g e b g' p, In (Busy l g e) H -> In (Ren g' l) H -> cbase H b g' ->
    cbase H (CSibling (ctx_at b p) g e) g.
(** a place whose user holds it *)
Definition held (H : list fact) (g : gid) : Prop := (exists n, In (Con n g) H) \/ (exists l e, In (Busy l g e) H).

Lemma cbase_held H b g : cbase H b g -> held H g.
Proof. intro C; inversion C; subst; [left|right]; eauto. Qed.
Lemma cbase_mono H H' b g : incl H H' -> cbase H b g -> cbase H' b g.
Proof. intros I C. induction C; econstructor; eauto. Qed.
Lemma held_mono H H' g : incl H H' -> held H g -> held H' g.
Proof. intros I [(n & Q)|(l & e & Q)]; [left|right]; eauto. Qed.

Lemma cont_ctx_at p : forall b, containing_node (ctx_at b p) = containing_node b.
Proof.
  induction p as [|i p IH] using rev_ind; intro b; auto. rewrite ctx_at_snoc. simpl. auto.
Qed.
Lemma lost_ctx_at p : forall b q w, lost_ref (ctx_at b p) q w = lost_ref b (q ++ rev p) w.
Proof.
  induction p as [|i p IH] using rev_ind; intros b q w.
  - simpl. rewrite app_nil_r. auto.
  - rewrite ctx_at_snoc. simpl. rewrite IH, rev_app_distr. unfold wrap. simpl. rewrite <- app_assoc. auto.
Qed.

Definition els (a : list (node + lid)) : list node :=
  flat_map (fun x => match x with inl n => [n] | inr _ => [] end) a.
Lemma els_app a b : els (a ++ b) = els a ++ els b.
Proof. apply flat_map_app. Qed.
Lemma els_cut a u v : els a = u ++ v -> exists a1 a2, a = a1 ++ a2 /\ els a1 = u /\ els a2 = v /\
  (v = [] -> a2 = []) /\ (forall r v', v = r :: v' -> exists a3, a2 = inl r :: a3).
Proof.
  revert u. induction a as [|x a IH]; simpl; intros u E.
  - destruct u; [|discriminate]. simpl in E. subst v. exists [], []. repeat split; auto. discriminate.
  - destruct x as [n|l]; simpl in E.
    + destruct u as [|y u].
      * simpl in E. subst v. exists [], (inl n :: a). repeat split; auto; [discriminate|].
        intros r v' Q. inversion Q; subst. eauto.
      * inversion E; subst y. destruct (IH u H1) as (a1 & a2 & E1 & E2 & E3 & E4 & E5).
        exists (inl n :: a1), a2. subst a. simpl. rewrite E2. repeat split; auto.
    + destruct (IH u E) as (a1 & a2 & E1 & E2 & E3 & E4 & E5).
      exists (inr l :: a1), a2. subst a. simpl. repeat split; auto.
Qed.

(** ** structure of the facts of a future *)
Definition fut_ind' (P : ufut -> Prop)
  (H1 : P ULeaf) (H2 : forall n g a m ch, P ch -> P (UElem n g a m ch))
  (H3 : forall a cs, Forall P cs -> P (UComb a cs)) (H4 : forall c, P c -> P (UBlock c))
  (H5 : forall l r, P (UList l r)) (H6 : forall l a f, P f -> P (UOwn l a f)) : forall f, P f :=
  fix go f := match f with
  | ULeaf => H1
  | UElem n g a m ch => H2 n g a m ch (go ch)
  | UComb a cs => H3 a cs ((fix all l := match l return Forall P l with
                             | [] => Forall_nil P
                             | x :: t => Forall_cons x (go x) (all t)
                             end) cs)
  | UBlock c => H4 c (go c)
  | UList l r => H5 l r
  | UOwn l a f => H6 l a f (go f)
  end.

Lemma in_facts_list g p cs : forall k x, In x (facts_list g p k cs) ->
  exists i f, nth_error cs i = Some f /\ In x (facts g (p ++ [N.of_nat (k + i)]) f).
Proof.
  induction cs as [|f cs IH]; simpl; intros k x Hx; [contradiction|].
  apply in_app_iff in Hx as [Hx|Hx].
  - exists 0, f. rewrite Nat.add_0_r. auto.
  - destruct (IH _ _ Hx) as (i & f' & E & Q). exists (S i), f'. replace (k + S i) with (S k + i) by lia. auto.
Qed.
Lemma facts_list_in g p cs : forall k i f x, nth_error cs i = Some f -> In x (facts g (p ++ [N.of_nat (k + i)]) f) ->
  In x (facts_list g p k cs).
Proof.
  induction cs as [|f' cs IH]; simpl; intros k i f x E Q; [destruct i; discriminate|].
  apply in_app_iff. destruct i as [|i]; simpl in E.
  - inversion E; subst. rewrite Nat.add_0_r in Q. auto.
  - right. apply (IH (S k) i f); auto. replace (S k + i) with (k + S i) by lia. auto.
Qed.

Lemma under_refl p : under p p.
Proof. exists []. rewrite app_nil_r. auto. Qed.
Lemma under_snoc p i q : under (p ++ [i]) q -> under p q.
Proof. intros (r & ->). exists ([i] ++ r). rewrite app_assoc. auto. Qed.


(** the facts of a new future: what it has is not used yet *)
Fixpoint frees (f : ufut) : list fact :=
  match f with
  | ULeaf | UList _ _ => []
  | UElem n g _ _ ch => FN n :: FG g :: frees ch
  | UComb _ cs => flat_map frees cs
  | UBlock c => frees c
  | UOwn _ _ c => frees c
  end.
Lemma unew_in cs : (fix all (l : list ufut) : Prop := match l with [] => True | f :: t => unew f /\ all t end) cs ->
  forall f, In f cs -> unew f.
Proof. induction cs as [|f cs IH]; intros A x Hx; [contradiction|]. destruct A as [A1 A2], Hx as [<-|Hx]; auto. Qed.
Lemma okf_in cs : (fix all (l : list ufut) : Prop := match l with [] => True | f :: t => okf f /\ all t end) cs ->
  forall f, In f cs -> okf f.
Proof. induction cs as [|f cs IH]; intros A x Hx; [contradiction|]. destruct A as [A1 A2], Hx as [<-|Hx]; auto. Qed.
Lemma okf_all cs : (forall f, In f cs -> okf f) ->
  (fix all (l : list ufut) : Prop := match l with [] => True | f :: t => okf f /\ all t end) cs.
Proof. induction cs as [|f cs IH]; intro Q; auto. split; [apply Q; simpl; auto|]. apply IH. intros; apply Q; simpl; auto. Qed.

Lemma facts_new f : forall g p, unew f -> facts g p f = frees f.
Proof.
  induction f as [|n g' a m ch IH|a cs IH|c IH|l r|l a f IH] using fut_ind'; intros g p N; auto.
  - destruct N as [-> N]. simpl. rewrite IH; auto.
  - destruct N as [_ N]. rewrite facts_comb. simpl. assert (Q := unew_in cs N). clear N.
    generalize 0 as k. induction cs as [|f cs IHc]; simpl; intro k; auto.
    inversion IH as [|? ? F1 F2]; subst. rewrite F1, IHc; auto; intros; apply Q; simpl; auto.
  - simpl. apply IH; auto.
  - simpl in *. subst r. auto.
  - destruct N.
Qed.
Lemma frees_only f x : In x (frees f) -> (exists n, x = FN n) \/ (exists g, x = FG g).
Proof.
  induction f as [|n g' a m ch IH|a cs IH|c IH|l r|l a f IH] using fut_ind'; simpl; intro Q; eauto; try contradiction.
  - destruct Q as [<-|[<-|Q]]; eauto.
  - apply in_flat_map in Q as (f & Hf & Q). rewrite Forall_forall in IH. eauto.
Qed.
Lemma unew_okf f : unew f -> okf f.
Proof.
  induction f as [|n g' a m ch IH|a cs IH|c IH|l r|l a f IH] using fut_ind'; simpl; intro N; auto.
  - destruct N as [-> N]. split; [discriminate|]. auto.
  - destruct N as [N1 N2]. split; auto. apply okf_all. intros f Hf. rewrite Forall_forall in IH.
    apply IH; auto. eapply unew_in; eauto.
  - destruct N.
Qed.

(** what a future shows is at its own place, or inside an element it has *)
Lemma facts_place f : okf f -> forall g p g0 x, In x (facts g p f) ->
  (exists q n, x = Ent g0 q n) \/ (exists l, x = Ren g0 l) ->
  (g0 = g /\ forall q n, x = Ent g0 q n -> under p q) \/ exists n, In (Con n g0) (facts g p f).
Proof.
  induction f as [|n g' a m ch IH|a cs IH|c IH|l r|l a f IH] using fut_ind'; intros OK g p g0 x Hx K.
  - contradiction.
  - destruct OK as (OK1 & OK2 & OK3). simpl in Hx |- *. apply in_app_iff in Hx as [Hx|Hx].
    + destruct m; simpl in Hx; destruct Hx as [Hx|[Hx|[]]]; subst x;
        destruct K as [(q & n0 & K)|(l & K)]; try discriminate.
      inversion K; subst. left. split; auto. intros q0 n1 E. inversion E; subst. apply under_refl.
    + destruct m; [congruence| |].
      * exfalso. rewrite facts_new in Hx by auto.
        destruct (frees_only _ _ Hx) as [(y & ->)|(y & ->)]; destruct K as [(q & n0 & K)|(l & K)]; discriminate.
      * destruct (IH OK3 g' [] g0 x Hx K) as [[E _]|(n0 & Q)]; right.
        -- subst g0. exists n. simpl; auto.
        -- exists n0. apply in_app_iff; auto.
  - rewrite facts_comb in *. destruct OK as [_ OK]. apply in_facts_list in Hx as (i & f & E & Hx). rewrite Forall_forall in IH.
    assert (IN := nth_error_In _ _ E). destruct (IH f IN (okf_in _ OK _ IN) _ _ g0 x Hx K) as [[Q1 Q2]|(n & Q)].
    + left. split; auto. intros q n EQ. eapply under_snoc. eapply Q2; eauto.
    + right. exists n. eapply facts_list_in; eauto.
  - simpl in *. eapply IH; eauto.
  - simpl in Hx. destruct r; [|contradiction]. destruct Hx as [<-|[]].
    destruct K as [(q & n0 & K)|(l' & K)]; inversion K; subst. left. split; auto. intros q n E. discriminate.
  - simpl in Hx |- *. destruct Hx as [<-|Hx]; [destruct K as [(q & n0 & K)|(l' & K)]; discriminate|].
    destruct (IH OK g p g0 x Hx K) as [Q|(n & Q)]; auto. right. exists n. auto.
Qed.

(** a place that is held is not shown in by a stored future *)
Lemma held_stored H ls g x : OWN H ls -> held H g -> In x (stored_facts ls) ->
  (exists q n, x = Ent g q n) \/ (exists l, x = Ren g l) -> False.
Proof.
  intros OW HG Hx K. apply in_flat_map in Hx as ([l o] & L & Hx). unfold l_facts in Hx. cbn [snd] in Hx.
  apply in_flat_map in Hx as (sb & SB & Hx). unfold sfacts in Hx.
  destruct (ow_sib _ _ OW _ _ _ L SB) as [(st & ST & E1 & E2) OK].
  assert (BB : 1 <= occ (sb_g sb) (flat_map l_b ls)).
  { apply occ_flat_in with (y := (l, o)); auto. apply in_map; auto. }
  assert (GG : 1 <= occ (sb_g sb) (flat_map l_g ls)).
  { apply occ_flat_in with (y := (l, o)); auto. rewrite <- E1. apply in_map; auto. }
  destruct (facts_place _ OK _ _ _ _ Hx K) as [[E _]|(n & Q)].
  - subst g. destruct HG as [(n & Q)|(l' & e & Q)].
    + pose proof (ow_g _ _ OW (sb_g sb)) as C. unfold all in C. rewrite flat_map_app, occ_app in C.
      pose proof (occ_flat_in f_g H (Con n (sb_g sb)) _ Q (or_introl eq_refl)). olia.
    + pose proof (ow_b _ _ OW (sb_g sb)) as C. unfold all in C. rewrite flat_map_app, occ_app in C.
      pose proof (occ_flat_in f_b H (Busy l' (sb_g sb) e) _ Q (or_introl eq_refl)). olia.
  - assert (ST2 : 1 <= occ g (flat_map f_g (stored_facts ls))).
    { apply occ_flat_in with (y := Con n g); [|simpl; auto]. apply in_flat_map. exists (l, o). split; auto.
      unfold l_facts. apply in_flat_map. exists sb. auto. }
    pose proof (ow_g _ _ OW g) as C. unfold all in C. rewrite flat_map_app, occ_app in C.
    destruct HG as [(n' & Q')|(l' & e & Q')].
    + pose proof (occ_flat_in f_g H (Con n' g) _ Q' (or_introl eq_refl)). olia.
    + destruct (ow_busy _ _ OW l' g e) as (o' & st' & L' & X' & EG & _); [apply in_app_iff; auto|].
      assert (1 <= occ g (flat_map l_g ls)); [|olia].
      apply occ_flat_in with (y := (l', o')); auto. rewrite <- EG. apply in_map; auto.
Qed.

Section Ops.
Variable base0 : node -> list node.
Variable U : list node.

Section Host.
Variables (d : dom) (gr : gid -> group) (H : list fact) (ls : list (lid * lobj))
  (arr : gid -> list (node + lid)) (cnt : gid -> list node) (blk : lid -> list node) (ord : lid -> list seg).
Hypothesis OW : OWN H ls.
Hypothesis SH : SHP base0 U d gr H ls arr cnt blk ord.
Local Notation A := (all H ls).
Local Notation phost := (phost base0 H ls arr cnt blk ord).
Local Notation lhost := (lhost base0 H ls arr cnt blk ord).

Lemma host_kind : (forall g h X Y, phost g h X Y ->
    (exists n, In (Con h n) A) \/ (exists l o, In (l, o) ls /\ h = dl_frag (lo_l o))) /\
  (forall l h X Y, lhost l h X Y ->
    (exists n, In (Con h n) A) \/ (exists l o, In (l, o) ls /\ h = dl_frag (lo_l o))).
Proof.
  apply host_mut; eauto.
  intros l o f L E. right. exists l, o. split; auto.
  pose proof (sh_cont _ _ _ _ _ _ _ _ _ _ SH _ _ L) as Q. rewrite E in Q. apply Q.
Qed.
Lemma host_U h : (exists n, In (Con h n) A) \/ (exists l o, In (l, o) ls /\ h = dl_frag (lo_l o)) -> In h U.
Proof.
  intro K. apply (sh_inU _ _ _ _ _ _ _ _ _ _ SH). rewrite !in_app_iff. destruct K as [(n & Q)|(l & o & L & ->)].
  - left. apply in_flat_map. exists (Con h n); simpl; auto.
  - right; right. apply in_flat_map. exists (l, o); simpl; auto.
Qed.
Lemma host_not_FN h m : (exists n, In (Con h n) A) \/ (exists l o, In (l, o) ls /\ h = dl_frag (lo_l o)) ->
  In (FN m) A -> m <> h.
Proof.
  intros K Q E. subst m. destruct K as [(n & C)|(l & o & L & E)].
  - pose proof (ow_c _ _ OW h) as CC.
    apply in_split in C as (u & v & EA). rewrite EA in *. rewrite flat_map_app in CC. simpl in CC.
    rewrite occ_app, occ_cons in CC. destruct (Nat.eq_dec h h); [|congruence].
    apply in_app_iff in Q as [Q|[Q|Q]]; [| discriminate|].
    + pose proof (occ_flat_in f_c u (FN h) h Q (or_introl eq_refl)). olia.
    + pose proof (occ_flat_in f_c v (FN h) h Q (or_introl eq_refl)). olia.
  - destruct (sh_FN _ _ _ _ _ _ _ _ _ _ SH _ Q) as (_ & F & _).
    pose proof (list_frag _ _ _ _ _ _ _ _ _ _ SH _ _ L). congruence.
Qed.
Lemma host_not_FL h l fr : (exists n, In (Con h n) A) \/ (exists l o, In (l, o) ls /\ h = dl_frag (lo_l o)) ->
  In (FL l fr) A -> fr <> h.
Proof.
  intros K Q E. subst fr.
  assert (IF : In h (flat_map f_fr A)) by (apply in_flat_map; exists (FL l h); simpl; auto).
  destruct K as [(n & C)|(l' & o & L & E)].
  - destruct (sh_Con _ _ _ _ _ _ _ _ _ _ SH _ _ C) as [_ F].
    rewrite (sh_frag _ _ _ _ _ _ _ _ _ _ SH h) in F; [discriminate|]. apply in_app_iff; auto.
  - pose proof (ow_fr _ _ OW h) as CC. apply occ_in in IF.
    assert (1 <= occ h (flat_map l_fr ls)) by (apply occ_flat_in with (y := (l', o)); simpl; auto). olia.
Qed.
Lemma place_not_FG g : place A ls g -> ~ In (FG g) A.
Proof.
  intros P Q. pose proof (ow_g _ _ OW g) as CC. destruct P as [(n & C)|(l & e & o & st & L & X & E & _)].
  - apply in_split in C as (u & v & EA). rewrite EA in *. rewrite flat_map_app in CC. simpl in CC.
    rewrite occ_app, occ_cons in CC. destruct (Nat.eq_dec g g); [|congruence].
    apply in_app_iff in Q as [Q|[Q|Q]]; [| discriminate|].
    + pose proof (occ_flat_in f_g u (FG g) g Q (or_introl eq_refl)). olia.
    + pose proof (occ_flat_in f_g v (FG g) g Q (or_introl eq_refl)). olia.
  - pose proof (occ_flat_in f_g A (FG g) g Q (or_introl eq_refl)).
    assert (1 <= occ g (flat_map l_g ls)); [|olia].
    apply occ_flat_in with (y := (l, o)); auto. rewrite <- E. apply in_map; auto.
Qed.

Lemma live_item_iff g : live_item g ls = true <-> exists l o k st, In (l, o) ls /\ In (k, st) (dl_items (lo_l o)) /\ st_g st = g.
Proof.
  unfold live_item. rewrite existsb_exists. split.
  - intros ([l o] & L & Q). apply existsb_exists in Q as ([k st] & I1 & I2). apply Nat.eqb_eq in I2.
    exists l, o, k, st. auto.
  - intros (l & o & k & st & L & I1 & I2). exists (l, o). split; auto. apply existsb_exists. exists (k, st).
    split; auto. apply Nat.eqb_eq. auto.
Qed.

Lemma busy_item l g e : In (Busy l g e) A -> exists o x o1 o2, In (l, o) ls /\ ord l = o1 ++ x :: o2 /\
  st_g (seg_st x) = g /\ st_e (seg_st x) = e.
Proof.
  intro B. destruct (ow_busy _ _ OW _ _ _ B) as (o & st & L & X & E1 & E2).
  destruct (item_seg _ _ _ _ _ _ _ _ _ _ SH _ _ _ L X) as (x & Hx & ES). apply in_split in Hx as (o1 & o2 & EO).
  exists o, x, o1, o2. subst st. auto.
Qed.

Lemma cbase_host b g : cbase H b g -> exists X Y R,
  phost g (containing_node b) X Y /\ base_of g (containing_node b) R b /\
  frag d (containing_node b) = false /\
  ((R = [] /\ Y = [] /\ exists n, b = CContainer g n) \/
   (exists e c, R = [e] /\ b = CSibling c g e /\ (hd_error Y = Some e \/ live_item g ls = false))).
Proof.
  intro C. induction C as [n g C|l g e b g' p B R C IH].
  - exists (base0 n), [], []. simpl. split; [constructor; apply in_app_iff; auto|]. split; [constructor|].
    split; [|left; eauto]. apply (sh_Con _ _ _ _ _ _ _ _ _ _ SH n g). apply in_app_iff; auto.
  - destruct IH as (X & Y & R' & PH & BO & FC & _). simpl. rewrite cont_ctx_at.
    assert (BA : In (Busy l g e) A) by (apply in_app_iff; auto).
    assert (RA : In (Ren g' l) A) by (apply in_app_iff; auto).
    destruct (busy_item _ _ _ BA) as (o & x & o1 & o2 & L & EO & EG & EE).
    assert (P := sh_Ren _ _ _ _ _ _ _ _ _ _ SH _ _ RA).
    destruct (sh_place _ _ _ _ _ _ _ _ _ _ SH g' P) as [(_ & _ & _ & AR) _].
    assert (IA := proj2 (AR l) RA). apply in_split in IA as (a1 & a2 & EA).
    assert (LH := lh_ren _ _ _ _ _ _ _ _ _ _ _ _ _ _ RA EA PH).
    destruct x as [k st|st]; simpl in EG, EE; subst g e.
    + do 3 eexists. split; [eapply ph_item; eauto|]. split; [constructor; apply cont_ctx_at|].
      split; auto. right. exists (st_e st), (ctx_at b p). split; [reflexivity|]. split; auto.
    + do 3 eexists. split; [eapply ph_dead; eauto|]. split; [constructor; apply cont_ctx_at|].
      split; auto. right. exists (st_e st), (ctx_at b p). split; [reflexivity|]. split; auto. right.
      destruct (live_item (st_g st) ls) eqn:LI; auto. exfalso.
      apply live_item_iff in LI as (l' & o' & k & st' & L' & I1 & I2).
      destruct (gid_uniq _ _ _ _ _ _ _ _ _ _ OW SH _ _ _ _ st' st L' L) as (-> & -> & ->); auto.
      { apply in_app_iff. left. apply in_map_iff. exists (k, st'). auto. }
      { apply (seg_item _ _ _ _ _ _ _ _ _ _ SH l o (SDead st) L). rewrite EO. apply in_app_iff; simpl; auto. }
      destruct (sh_list _ _ _ _ _ _ _ _ _ _ SH _ _ L) as (_ & P1 & _).
      assert (I3 : In (SItem k st) (ord l)) by (apply in_items; eapply Permutation_in; eauto).
      pose proof (ord_gid_uniq _ _ _ _ _ _ _ _ _ _ OW SH _ _ _ _ _ L EO (SItem k st)) as Q.
      apply Q; [|reflexivity]. rewrite EO in I3. apply in_app_iff in I3 as [I3|[I3|I3]]; [| discriminate|];
        apply in_app_iff; auto.
Qed.

(** where something rendered at path [p] goes *)
Lemma ins_point b g p w (Y R : list node) : u_ls w = ls -> rgrp (u_r w) = gr ->
  place A ls g -> (forall q n, In (Ent g q n) A -> q <> p) -> lost_ref b (rev p) w = false ->
  ((R = [] /\ Y = [] /\ exists n, b = CContainer g n) \/
   (exists e c, R = [e] /\ b = CSibling c g e /\ (hd_error Y = Some e \/ live_item g ls = false))) ->
  exists g1 g2 a1 a2, gr g = g1 ++ g2 /\ arr g = a1 ++ a2 /\ els a1 = map snd g1 /\ els a2 = map snd g2 /\
    (forall n, bt_insert (rev p) n (gr g) = (g1 ++ (rev p, n) :: g2, None) /\ sorted (g1 ++ (rev p, n) :: g2)) /\
    match range_from_first (rev p) (gr g) with Some r => Some r | None => hd_error R end
      = hd_error (flatn blk a2 ++ Y).
Proof.
  intros EL EG P NE LR K. destruct (sh_place _ _ _ _ _ _ _ _ _ _ SH g P) as [(E1 & S1 & E2 & _) _].
  assert (NI : ~ In p (keys (gr g))).
  { intro Q. apply in_map_iff in Q as ([k m] & Q1 & Q2). simpl in Q1.
    apply (NE p m); auto. apply E2. rewrite <- Q1, rev_involutive. auto. }
  assert (BI : forall n, exists g1 g2, gr g = g1 ++ g2 /\ bt_insert (rev p) n (gr g) = (g1 ++ (rev p, n) :: g2, None) /\
    range_from_first (rev p) (gr g) = hd_error (map snd g2) /\ sorted (g1 ++ (rev p, n) :: g2)).
  { intro n. apply bt_insert_split; auto. rewrite rev_involutive. auto. }
  destruct (BI 0) as (g1 & g2 & EQ & B1 & RF & S2).
  change (els (arr g) = map snd (gr g)) in E1. rewrite EQ, map_app in E1.
  destruct (els_cut _ _ _ E1) as (a1 & a2 & EA & Q1 & Q2 & Q3 & Q4).
  exists g1, g2, a1, a2. split; auto. split; auto. split; auto. split; auto. split.
  - intro n. destruct (BI n) as (g1' & g2' & EQ' & B1' & RF' & S2'). rewrite B1'.
    assert (g1' = g1 /\ g2' = g2) as [-> ->]; [|auto].
    { assert (LG : forall k (x y : list (pos * node)) x' y', 
        (forall e, In e x -> path_lt (rev (fst e)) k) -> (forall e, In e x' -> path_lt (rev (fst e)) k) ->
        (forall e, In e y -> path_lt k (rev (fst e))) -> (forall e, In e y' -> path_lt k (rev (fst e))) ->
        x ++ y = x' ++ y' -> x = x' /\ y = y').
      { clear. intros k x y. induction x as [|a x IH]; intros x' y' A1 A2 A3 A4 E; destruct x' as [|b x']; simpl in *; auto.
        - exfalso. subst y. apply (path_lt_irrefl k). eapply path_lt_trans; [apply (A3 b)|apply (A2 b)]; simpl; auto.
        - exfalso. subst y'. apply (path_lt_irrefl k). eapply path_lt_trans; [apply (A4 a)|apply (A1 a)]; simpl; auto.
        - inversion E; subst. destruct (IH x' y') as [-> ->]; auto. }
      apply (LG p); [| | | |transitivity (gr g); auto].
      - intros e He. pose proof (sorted_app_lt _ _ S2' e (rev p, n) He (or_introl eq_refl)) as Q.
        simpl in Q. rewrite rev_involutive in Q. auto.
      - intros e He. pose proof (sorted_app_lt _ _ S2 e (rev p, 0) He (or_introl eq_refl)) as Q.
        simpl in Q. rewrite rev_involutive in Q. auto.
      - intros e He. pose proof (sorted_mid_hi _ _ _ e S2' He) as Q. simpl in Q. rewrite rev_involutive in Q. auto.
      - intros e He. pose proof (sorted_mid_hi _ _ _ e S2 He) as Q. simpl in Q. rewrite rev_involutive in Q. auto. }
  - rewrite RF. destruct g2 as [|[k r] g2].
    + rewrite (Q3 eq_refl). simpl. destruct K as [(-> & -> & _)|(e & c & -> & -> & [HY|HD])]; auto.
      exfalso. simpl in LR. rewrite EG, RF, EL, HD in LR. simpl in LR. discriminate.
    + destruct (Q4 r (map snd g2) eq_refl) as (a3 & ->). simpl. auto.
Qed.
End Host.
End Ops.

Arguments sh_wf {_ _ _ _ _ _ _ _ _ _} _.
Arguments sh_nofrag {_ _ _ _ _ _ _ _ _ _} _.
Arguments sh_base {_ _ _ _ _ _ _ _ _ _} _.
Arguments sh_U {_ _ _ _ _ _ _ _ _ _} _.
Arguments sh_inU {_ _ _ _ _ _ _ _ _ _} _.
Arguments sh_frag {_ _ _ _ _ _ _ _ _ _} _.
Arguments sh_FN {_ _ _ _ _ _ _ _ _ _} _.
Arguments sh_FG {_ _ _ _ _ _ _ _ _ _} _.
Arguments sh_FL {_ _ _ _ _ _ _ _ _ _} _.
Arguments sh_Con {_ _ _ _ _ _ _ _ _ _} _.
Arguments sh_Ren {_ _ _ _ _ _ _ _ _ _} _.
Arguments sh_Ent {_ _ _ _ _ _ _ _ _ _} _.
Arguments sh_place {_ _ _ _ _ _ _ _ _ _} _.
Arguments sh_list {_ _ _ _ _ _ _ _ _ _} _.
Arguments sh_cont {_ _ _ _ _ _ _ _ _ _} _.
Arguments host_kind {_ _ _ _ _ _ _ _ _ _} _.
Arguments host_U {_ _ _ _ _ _ _ _ _ _} _.
Arguments host_not_FN {_ _ _ _ _ _ _ _ _ _} _ _.
Arguments host_not_FL {_ _ _ _ _ _ _ _ _ _} _ _.
Arguments place_not_FG {_ _} _.
Arguments host_kids {_ _ _ _ _ _ _ _ _ _} _.
Arguments phost_place {_ _ _ _ _ _ _ _ _ _} _.
Arguments phost_ex {_ _ _ _ _ _ _ _ _ _} _.
Arguments lhost_ex {_ _ _ _ _ _ _ _ _ _} _.
Arguments geo_place {_ _ _ _ _ _ _ _ _ _} _ _.
Arguments geo_list {_ _ _ _ _ _ _ _ _ _} _ _.
Arguments seg_item {_ _ _ _ _ _ _ _ _ _} _.
Arguments item_seg {_ _ _ _ _ _ _ _ _ _} _.
Arguments list_frag {_ _ _ _ _ _ _ _ _ _} _.
Arguments cbase_host {_ _ _ _ _ _ _ _ _ _} _ _.
Arguments ins_point {_ _ _ _ _ _ _ _ _ _} _.
Arguments busy_item {_ _ _ _ _ _ _ _ _ _} _ _.
Arguments gid_uniq {_ _ _ _ _ _ _ _ _ _} _ _.
Arguments frag_uniq {_ _ _ _ _ _ _ _ _ _} _ _.
Arguments con_uniq {_ _} _.
Arguments con_not_item {_ _} _.
Arguments ord_gid_uniq {_ _ _ _ _ _ _ _ _ _} _ _.
Arguments cnt_nodup {_ _ _ _ _ _ _ _ _ _} _.
Arguments blk_nodup {_ _ _ _ _ _ _ _ _ _} _.
Arguments eqs {_ _ _ _ _ _ _ _ _ _} _.
Arguments own_list_nodup {_ _} _.
Arguments ow_n {_ _} _.
Arguments ow_c {_ _} _.
Arguments ow_g {_ _} _.
Arguments ow_r {_ _} _.
Arguments ow_l {_ _} _.
Arguments ow_fr {_ _} _.
Arguments ow_o {_ _} _.
Arguments ow_b {_ _} _.
Arguments ow_item {_ _} _.
Arguments ow_sib {_ _} _.
Arguments ow_busy {_ _} _.
Arguments ow_ren {_ _} _.
Arguments ow_keys {_ _} _.
