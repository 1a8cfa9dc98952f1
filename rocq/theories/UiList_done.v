(** From the invariant to what the document shows; the start and the whole run. *)
From Coq Require Import List Arith NArith Bool Lia Permutation Sorting.Sorted.
From Verif Require Import Util Position Dom Context Spec_path Spec_list Render_history
  Position_proofs Dom_proofs Context_proofs Render_history_proofs Ui Ui_proofs DynList DynList_proofs DynList_run_proofs
  UiList Spec_uilist UiList_core UiList_inv UiList_shape UiList_ops UiList_add UiList_del UiList_ren UiList_call UiList_mem
  UiList_drop UiList_poll.
Import ListNotations.

(** ** what a future shows, with paths *)
Fixpoint ents (p : path) (f : ufut) : list (path * node) :=
  match f with
  | ULeaf | UList _ _ => []
  | UElem n _ _ Added _ => [(p, n)]
  | UElem _ _ _ _ _ => []
  | UComb _ cs =>
      (fix go (k : nat) (l : list ufut) : list (path * node) :=
         match l with
         | [] => []
         | f :: t => ents (p ++ [N.of_nat k]) f ++ go (S k) t
         end) 0 cs
  | UBlock c => ents p c
  | UOwn _ _ c => ents p c
  end.
Definition ents_list (p : path) : nat -> list ufut -> list (path * node) :=
  fix go (k : nat) (l : list ufut) : list (path * node) :=
    match l with
    | [] => []
    | f :: t => ents (p ++ [N.of_nat k]) f ++ go (S k) t
    end.
Lemma ents_comb p a cs : ents p (UComb a cs) = ents_list p 0 cs.
Proof. reflexivity. Qed.

Lemma ents_list_in p cs : forall k x, In x (ents_list p k cs) ->
  exists i f, k <= i /\ In f cs /\ In x (ents (p ++ [N.of_nat i]) f).
Proof.
  induction cs as [|f cs IH]; simpl; intros k x Q; [destruct Q|]. apply in_app_iff in Q as [Q|Q].
  - exists k, f. auto.
  - destruct (IH _ _ Q) as (i & f' & A & B & C). exists i, f'. split; [lia|]. auto.
Qed.
Lemma ents_out f : forall p, map snd (ents p f) = uout f.
Proof.
  induction f as [|n g a m ch IH|a cs IH|c IH|l r|l a f IH] using UiList_ops.fut_ind'; intro p; simpl; auto.
  - destruct m; auto.
  - change (map snd (ents_list p 0 cs) = flat_map uout cs). generalize 0. induction cs as [|f cs IHc]; intro k; auto.
    inversion IH; subst. cbn [ents_list flat_map]. rewrite map_app, H1, IHc; auto.
Qed.
Lemma ents_under f : forall p q n, In (q, n) (ents p f) -> under p q.
Proof.
  induction f as [|n g a m ch IH|a cs IH|c IH|l r|l a f IH] using UiList_ops.fut_ind'; intros p q x Q.
  - destruct Q.
  - simpl in Q. destruct m; [destruct Q|destruct Q|]. destruct Q as [Q|[]]. injection Q as <- _. apply under_refl.
  - rewrite ents_comb in *. apply ents_list_in in Q as (i & f & _ & F & Q). rewrite Forall_forall in IH.
    eapply under_snoc. eapply IH; eauto.
  - simpl in Q. eauto.
  - destruct Q.
  - simpl in Q. eauto.
Qed.
Lemma ents_sorted f : forall p, StronglySorted path_lt (map fst (ents p f)).
Proof.
  induction f as [|n g a m ch IH|a cs IH|c IH|l r|l a f IH] using UiList_ops.fut_ind'; intro p; simpl; try constructor; auto.
  - destruct m; simpl; repeat constructor.
  - change (StronglySorted path_lt (map fst (ents_list p 0 cs))). generalize 0.
    induction cs as [|c cs IHc]; intro k; simpl; [constructor|]. inversion IH; subst.
    rewrite map_app. apply ssorted_app; auto.
    intros x y Hx Hy. apply in_map_iff in Hx as ([q1 n1] & <- & Hx).
    apply in_map_iff in Hy as ([q2 n2] & <- & Hy). simpl.
    apply ents_list_in in Hy as (i & c' & Hi & _ & Hy).
    apply ents_under in Hx as [r1 ->]. apply ents_under in Hy as [r2 ->].
    rewrite <- !app_assoc. apply path_lt_common. simpl. apply lt_head. lia.
Qed.

(** facts shown at the future's own place, and futures inside its elements *)
Definition tops (g : gid) (p : path) (f : ufut) : list fact :=
  map (fun e => Ent g (fst e) (snd e)) (ents p f) ++ map (Ren g) (ulists f).
Fixpoint subs (f : ufut) : list (gid * ufut) :=
  match f with
  | ULeaf | UList _ _ => []
  | UElem _ g _ m ch => match m with ShouldAdd => [] | _ => [(g, ch)] end ++ subs ch
  | UComb _ cs => flat_map subs cs
  | UBlock c => subs c
  | UOwn _ _ c => subs c
  end.

Lemma tops_comb g p a cs x : In x (tops g p (UComb a cs)) <-> exists i f, nth_error cs i = Some f /\ In x (tops g (p ++ [N.of_nat i]) f).
Proof.
  unfold tops. rewrite ents_comb, in_app_iff. cbn [ulists].
  assert (K : forall k, In x (map (fun e => Ent g (fst e) (snd e)) (ents_list p k cs)) \/ In x (map (Ren g) (flat_map ulists cs)) <->
     exists i f, nth_error cs i = Some f /\ In x (map (fun e => Ent g (fst e) (snd e)) (ents (p ++ [N.of_nat (k + i)]) f) ++ map (Ren g) (ulists f))).
  { induction cs as [|c cs IH]; intro k.
    - simpl. split; [tauto|]. intros (i & f & E & _). destruct i; discriminate.
    - cbn [ents_list flat_map]. rewrite !map_app, !in_app_iff. split.
      + intros [[Q|Q]|[Q|Q]].
        * exists 0, c. split; auto. rewrite Nat.add_0_r. apply in_app_iff; auto.
        * destruct (proj1 (IH (S k)) (or_introl Q)) as (i & f & E & Z). exists (S i), f. split; auto.
          replace (k + S i) with (S k + i) by lia. auto.
        * exists 0, c. split; auto. apply in_app_iff; auto.
        * destruct (proj1 (IH (S k)) (or_intror Q)) as (i & f & E & Z). exists (S i), f. split; auto.
          replace (k + S i) with (S k + i) by lia. auto.
      + intros (i & f & E & Z). destruct i as [|i]; simpl in E.
        * injection E as <-. rewrite Nat.add_0_r in Z. apply in_app_iff in Z as [Z|Z]; auto.
        * destruct (proj2 (IH (S k))) as [Q|Q]; auto. exists i, f. split; auto. replace (S k + i) with (k + S i) by lia. auto. }
  apply (K 0).
Qed.

Lemma facts_shown f : okf f -> forall g p x g0, shows x g0 ->
  (In x (facts g p f) <-> In x (tops g p f) \/ exists g1 f1, In (g1, f1) (subs f) /\ In x (tops g1 [] f1)).
Proof.
  induction f as [|n g' a m ch IH|a cs IH|c IH|l r|l a f IH] using UiList_ops.fut_ind'; intros OK g p x g0 S.
  - simpl. split; [tauto|]. intros [[]|(? & ? & [] & _)].
  - destruct OK as (OK1 & OK2 & OKC). destruct m; [congruence| |].
    + cbn [facts app subs]. rewrite facts_new by auto. split.
      * intros [<-|[<-|Q]]; try destruct S. destruct (frees_only _ _ Q) as [(? & ->)|(? & ->)]; destruct S.
      * intros [[]|(g1 & f1 & Q & Z)]. exfalso. 
        assert (W : In x (facts g' [] ch)) by (apply (IH OKC g' [] x g0 S); right; eauto).
        rewrite facts_new in W by auto. destruct (frees_only _ _ W) as [(? & ->)|(? & ->)]; destruct S.
    + cbn [facts app subs In]. split.
      * intros [<-|[<-|Q]]; [left; left; auto|destruct S|]. apply (IH OKC g' [] x g0 S) in Q as [Q|(g1 & f1 & Q & Z)]; right.
        -- exists g', ch. split; auto.
        -- exists g1, f1. split; auto.
      * intros [Q|(g1 & f1 & [Q|Q] & Z)].
        -- unfold tops in Q. simpl in Q. destruct Q as [<-|[]]; auto.
        -- injection Q as <- <-. right. right. apply (IH OKC g' [] x g0 S). auto.
        -- right. right. apply (IH OKC g' [] x g0 S). right. eauto.
  - destruct OK as [_ OK]. assert (OK' := okf_in _ OK). rewrite Forall_forall in IH. rewrite facts_comb, tops_comb. cbn [subs]. split.
    + intro Q. apply in_facts_list in Q as (i & f & E & Q). simpl in Q. assert (F := nth_error_In _ _ E).
      apply (IH f F (OK' f F) g _ x g0 S) in Q as [Q|(g1 & f1 & Q & Z)]; [left; eauto|right].
      exists g1, f1. split; auto. apply in_flat_map. eauto.
    + intros [(i & f & E & Q)|(g1 & f1 & Q & Z)].
      * assert (F := nth_error_In _ _ E). apply (facts_list_in g p cs 0 i f x E). simpl. apply (IH f F (OK' f F) g _ x g0 S). auto.
      * apply in_flat_map in Q as (f & F & Q). destruct (In_nth_error _ _ F) as (i & E).
        apply (facts_list_in g p cs 0 i f x E). simpl. apply (IH f F (OK' f F) g _ x g0 S). right. eauto.
  - apply (IH OK g p x g0 S).
  - simpl. destruct r; simpl; split; try tauto.
    + intros [Q|(? & ? & [] & _)]; auto.
    + intros [[]|(? & ? & [] & _)].
  - cbn [facts subs In]. change (tops g p (UOwn l a f)) with (tops g p f). rewrite <- (IH OK g p x g0 S). split; auto.
    intros [<-|Q]; auto. destruct S.
Qed.

(** elements and their futures *)
Lemma subs_con f : forall g p x, occ x (map fst (subs f)) <= occ x (flat_map f_g (facts g p f)).
Proof.
  induction f as [|n g' a m ch IH|a cs IH|c IH|l r|l a f IH] using UiList_ops.fut_ind'; intros g p x.
  - simpl. auto.
  - cbn [subs facts]. rewrite map_app, flat_map_app, !occ_app. specialize (IH g' [] x).
    destruct m; cbn [map fst flat_map f_g app]; rewrite ?occ_cons, ?occ_nil; olia.
  - rewrite facts_comb. cbn [subs]. generalize 0. induction cs as [|f cs IHc]; intro k; simpl; auto.
    inversion IH; subst. rewrite map_app, flat_map_app, !occ_app. specialize (H1 g (p ++ [N.of_nat k]) x).
    specialize (IHc H2 (S k)). olia.
  - apply IH.
  - simpl. lia.
  - cbn [subs facts flat_map f_g app]. apply IH.
Qed.
Lemma subs_ok f : okf f -> forall g1 f1, In (g1, f1) (subs f) -> okf f1.
Proof.
  induction f as [|n g' a m ch IH|a cs IH|c IH|l r|l a f IH] using UiList_ops.fut_ind'; intros OK g1 f1 Q.
  - destruct Q.
  - destruct OK as (OK1 & OK2 & OKC). cbn [subs] in Q. apply in_app_iff in Q as [Q|Q]; [|eauto].
    destruct m; [congruence|destruct Q|]. destruct Q as [Q|[]]. injection Q as <- <-. auto.
  - destruct OK as [_ OK]. assert (OK' := okf_in _ OK). rewrite Forall_forall in IH. apply in_flat_map in Q as (f & F & Q). eauto.
  - eauto.
  - destruct Q.
  - eauto.
Qed.
Lemma subs_containers f n ch : In (n, ch) (ucontainers f) -> okf f -> exists g', In (g', ch) (subs f) /\ forall g p, In (Con n g') (facts g p f).
Proof.
  induction f as [|n' g' a m c IH|a cs IH|c IH|l r|l a f IH] using UiList_ops.fut_ind'; intros Q OK.
  - destruct Q.
  - destruct OK as (OK1 & OK2 & OKC). cbn [ucontainers subs facts] in *. apply in_app_iff in Q as [Q|Q].
    + destruct m; [congruence|destruct Q|]. destruct Q as [Q|[]]. injection Q as -> ->.
      exists g'. split; [left; auto|]. intros g p. simpl. auto.
    + destruct (IH Q OKC) as (g1 & A & B). exists g1. split; [apply in_app_iff; auto|]. intros g p. apply in_app_iff. auto.
  - destruct OK as [_ OK]. assert (OK' := okf_in _ OK). rewrite Forall_forall in IH. simpl in Q. apply in_flat_map in Q as (f & F & Q).
    destruct (IH f F Q (OK' f F)) as (g1 & A & B). exists g1. split; [apply in_flat_map; eauto|]. intros g p.
    rewrite facts_comb. destruct (In_nth_error _ _ F) as (i & E). apply (facts_list_in g p cs 0 i f _ E). auto.
  - apply IH; auto.
  - destruct Q.
  - destruct (IH Q OK) as (g1 & A & B). exists g1. split; auto. intros g p. right. auto.
Qed.
Lemma subs_place f : okf f -> forall g1 f1, In (g1, f1) (subs f) -> exists n, In (n, f1) (ucontainers f) /\ forall g p, In (Con n g1) (facts g p f).
Proof.
  induction f as [|n g' a m ch IH|a cs IH|c IH|l r|l a f IH] using UiList_ops.fut_ind'; intros OK g1 f1 Q.
  - destruct Q.
  - destruct OK as (OK1 & OK2 & OKC). cbn [subs] in Q. apply in_app_iff in Q as [Q|Q].
    + destruct m; [congruence|destruct Q|]. destruct Q as [Q|[]]. injection Q as <- <-. exists n. split; [left; auto|]. intros g p. simpl. auto.
    + destruct (IH OKC _ _ Q) as (n1 & B0 & B). exists n1. split; [cbn [ucontainers]; apply in_app_iff; auto|].
      intros g p. cbn [facts]. apply in_app_iff. auto.
  - destruct OK as [_ OK]. assert (OK' := okf_in _ OK). rewrite Forall_forall in IH. apply in_flat_map in Q as (f & F & Q).
    destruct (IH f F (OK' f F) _ _ Q) as (n1 & B0 & B). exists n1. split; [apply in_flat_map; eauto|]. intros g p.
    rewrite facts_comb. destruct (In_nth_error _ _ F) as (i & E). apply (facts_list_in g p cs 0 i f _ E). auto.
  - eauto.
  - destruct Q.
  - destruct (IH OK _ _ Q) as (n1 & B0 & B). exists n1. split; auto. intros g p. right. auto.
Qed.
Lemma ulists_occ f : forall g p x, occ x (ulists f) <= occ x (flat_map f_r (facts g p f)).
Proof.
  induction f as [|n g' a m ch IH|a cs IH|c IH|l r|l a f IH] using UiList_ops.fut_ind'; intros g p x.
  - simpl. auto.
  - cbn [ulists]. unfold occ. simpl. lia.
  - rewrite facts_comb. cbn [ulists]. generalize 0. induction cs as [|f cs IHc]; intro k; simpl; auto.
    inversion IH; subst. rewrite flat_map_app, !occ_app. specialize (H1 g (p ++ [N.of_nat k]) x). specialize (IHc H2 (S k)). olia.
  - apply IH.
  - simpl. destruct r; simpl; auto.
  - cbn [ulists facts flat_map f_r app]. apply IH.
Qed.
Lemma subs_ulists f : forall g1 f1, In (g1, f1) (subs f) -> forall g p x, occ x (ulists f1) <= occ x (flat_map f_r (facts g p f)).
Proof.
  induction f as [|n g' a m ch IH|a cs IH|c IH|l r|l a f IH] using UiList_ops.fut_ind'; intros g1 f1 Q g p x.
  - destruct Q.
  - cbn [subs facts] in *. rewrite flat_map_app, occ_app. apply in_app_iff in Q as [Q|Q].
    + destruct m; simpl in Q; [destruct Q as [Q|[]]|destruct Q|destruct Q as [Q|[]]]; injection Q as <- <-;
        pose proof (ulists_occ ch g' [] x); olia.
    + pose proof (IH _ _ Q g' [] x). olia.
  - rewrite facts_comb. cbn [subs] in Q. rewrite Forall_forall in IH. apply in_flat_map in Q as (f & F & Q).
    specialize (IH f F _ _ Q). apply in_split in F as (u & v & ->). rewrite facts_list_app. cbn [facts_list].
    rewrite !flat_map_app, !occ_app. match goal with |- context[facts g ?q f] => pose proof (IH g q x) end. olia.
  - eapply IH; eauto.
  - destruct Q.
  - cbn [facts flat_map f_r app]. eapply IH; eauto.
Qed.

Definition lids (a : list (node + lid)) : list lid := flat_map (fun x => match x with inl _ => [] | inr l => [l] end) a.
Lemma in_lids a l : In l (lids a) <-> In (inr l) a.
Proof.
  unfold lids. rewrite in_flat_map. split.
  - intros ([n|k] & Q & Z); [destruct Z|destruct Z as [<-|[]]]; auto.
  - intro Q. exists (inr l). split; auto. left; auto.
Qed.
Lemma flatn_in blk a l x : In (inr l) a -> In x (blk l) -> In x (flatn blk a).
Proof. intros Q Z. apply in_flat_map. exists (inr l). auto. Qed.
Lemma lids_nodup blk a : (forall l, In (inr l) a -> exists x, In x (blk l)) -> NoDup (flatn blk a) -> NoDup (lids a).
Proof.
  induction a as [|[n|l] a IH]; intros NE ND; [constructor| |].
  - simpl. apply IH; [intros; apply NE; right; auto|]. inversion ND; auto.
  - simpl. change (flatn blk (inr l :: a)) with (blk l ++ flatn blk a) in ND. destruct (NE l (or_introl eq_refl)) as (x & X).
    assert (ND2 : NoDup (flatn blk a)) by (clear - ND; induction (blk l); auto; inversion ND; auto).
    constructor; [|apply IH; auto; intros; apply NE; right; auto].
    intro Q. apply in_lids in Q. apply (flatn_in blk) with (x := x) in Q; auto.
    clear - ND X Q. induction (blk l) as [|b t IH]; [destruct X|]. inversion ND; subst. destruct X as [->|X]; auto.
    apply H1. apply in_app_iff; auto.
Qed.

Lemma arranged_of w blk : forall a ls, Permutation (lids a) ls ->
  (forall l, In (inr l) a -> block w l (blk l)) -> arranged w (els a) ls (flatn blk a).
Proof.
  induction a as [|[n|l] a IH]; intros ls P B.
  - apply Permutation_nil in P. subst. constructor.
  - simpl. constructor. apply IH; auto. intros; apply B; right; auto.
  - simpl in P. assert (I1 : In l ls) by (eapply Permutation_in; [exact P|left; auto]).
    apply in_split in I1 as (l1 & l2 & ->). change (els (inr l :: a)) with (els a).
    change (flatn blk (inr l :: a)) with (blk l ++ flatn blk a). constructor; [apply B; left; auto|].
    apply IH; [|intros; apply B; right; auto]. apply Permutation_cons_app_inv in P. auto.
Qed.

Section Extract.
Variable base0 : node -> list node.
Variable U : list node.
Variables (w : uworld) (root : node) (g : gid) (ch : ufut).
Local Notation ls := (u_ls w).
Local Notation H := (facts g [] ch ++ [Rt root; Con root g]).
Variables (arr : gid -> list (node + lid)) (cnt : gid -> list node) (blk : lid -> list node) (ord : lid -> list seg).
Hypothesis OK : okf ch.
Hypothesis OW : OWN H ls.
Hypothesis SH : SHP base0 U (rdom (u_r w)) (rgrp (u_r w)) H ls arr cnt blk ord.
Local Notation A := (all H ls).

Definition sib_users (s : sib) : list (gid * ufut) := (sb_g s, sb_f s) :: subs (sb_f s).
Definition users : list (gid * ufut) :=
  ((g, ch) :: subs ch) ++ flat_map (fun e => flat_map sib_users (lo_futs (snd e))) ls.

Lemma users_in u : In u users <-> In u ((g, ch) :: subs ch) \/ exists l o s, In (l, o) ls /\ In s (lo_futs o) /\ In u (sib_users s).
Proof.
  unfold users. rewrite in_app_iff. split; (intros [Q|Q]; [left; auto|right]).
  - apply in_flat_map in Q as ([l o] & L & Q). apply in_flat_map in Q as (s & S & Q). exists l, o, s. auto.
  - destruct Q as (l & o & s & L & S & Q). apply in_flat_map. exists (l, o). split; auto. apply in_flat_map. eauto.
Qed.

Lemma users_once x : occ x (map fst users) <= 1.
Proof.
  assert (Z := ow_g OW x). unfold users. rewrite map_app, occ_app.
  assert (K1 : occ x (map fst ((g, ch) :: subs ch)) <= occ x (flat_map f_g H)).
  { cbn [map fst]. rewrite occ_cons, flat_map_app, occ_app. cbn [flat_map f_g app]. rewrite occ_cons, occ_nil.
    pose proof (subs_con ch g [] x). destruct (Nat.eq_dec g x); olia. }
  assert (K2 : forall t, occ x (map fst (flat_map (fun e : lid * lobj => flat_map sib_users (lo_futs (snd e))) t)) <=
              occ x (flat_map l_b t) + occ x (flat_map f_g (stored_facts t))).
  { induction t as [|[l o] t IH]; simpl; auto. rewrite map_app, !flat_map_app, !occ_app.
    assert (K : forall fs, occ x (map fst (flat_map sib_users fs)) <= occ x (map sb_g fs) + occ x (flat_map f_g (flat_map sfacts fs))).
    { induction fs as [|s fs IHf]; [simpl; auto|]. cbn [flat_map map]. unfold sib_users at 1. cbn [app map fst]. rewrite map_app, flat_map_app, !occ_cons, !occ_app.
      pose proof (subs_con (sb_f s) (sb_g s) [] x). unfold sfacts at 1. destruct (Nat.eq_dec (sb_g s) x); olia. }
    specialize (K (lo_futs o)). change (l_b (l, o)) with (map sb_g (lo_futs o)). change (l_facts (l, o)) with (flat_map sfacts (lo_futs o)). olia. }
  specialize (K2 ls).
  assert (K3 : occ x (flat_map l_b ls) <= occ x (flat_map l_g ls)).
  { destruct (le_lt_dec 1 (occ x (flat_map l_b ls))) as [Q|Q]; [|lia].
    assert (Q' := Q). apply occ_in, in_flat_map in Q' as ([l o] & L & X). apply in_map_iff in X as (s & E & S). simpl in S.
    destruct (ow_sib OW _ _ _ L S) as [(st & X & E2 & _) _].
    assert (Y := occ_flat_in l_g ls (l, o) x L). unfold l_g at 1 in Y. cbn [snd] in Y.
    assert (X2 : In x (map st_g (stall (lo_l o)))) by (apply in_map_iff; exists st; split; congruence).
    specialize (Y X2). pose proof (ow_b OW x). olia. }
  unfold all in Z. rewrite flat_map_app, occ_app in Z. olia.
Qed.
Lemma users_fun g0 f0 f1 : In (g0, f0) users -> In (g0, f1) users -> f0 = f1.
Proof.
  intros I0 I1. assert (K := users_once g0). revert I0 I1 K. generalize users. intros us I0 I1 K.
  apply in_split in I0 as (a & b & ->). rewrite map_app in K. cbn [map fst] in K. rewrite occ_app, occ_cons in K.
  destruct (Nat.eq_dec g0 g0); [|congruence].
  assert (Q : forall t, In (g0, f1) t -> 1 <= occ g0 (map fst t)).
  { intros t T. apply occ_in. apply in_map_iff. exists (g0, f1). auto. }
  apply in_app_iff in I1 as [I1|[I1|I1]]; [apply Q in I1; olia|congruence|apply Q in I1; olia].
Qed.
Lemma users_ok g0 f0 : In (g0, f0) users -> okf f0.
Proof.
  intro Q. apply users_in in Q as [[Q|Q]|(l & o & s & L & S & [Q|Q])].
  - injection Q as <- <-. auto.
  - eapply (subs_ok ch); eauto.
  - injection Q as <- <-. apply (ow_sib OW _ _ _ L S).
  - eapply (subs_ok (sb_f s)); eauto. apply (ow_sib OW _ _ _ L S).
Qed.
Lemma users_place g0 f0 : In (g0, f0) users -> place A ls g0.
Proof.
  intro Q. apply users_in in Q as [[Q|Q]|(l & o & s & L & S & [Q|Q])].
  - injection Q as <- <-. left. exists root. unfold all. rewrite !in_app_iff. left. right. right. left. auto.
  - destruct (subs_place ch OK _ _ Q) as (n & _ & C). left. exists n. unfold all. rewrite !in_app_iff. left. left. auto.
  - injection Q as <- <-. right. destruct (ow_sib OW _ _ _ L S) as [(st & X & E1 & E2) _]. exists l, (st_e st), o, st. auto.
  - destruct (subs_place (sb_f s) (proj2 (ow_sib OW _ _ _ L S)) _ _ Q) as (n & _ & C). left. exists n. unfold all.
    apply in_app_iff. right. apply in_flat_map. exists (l, o). split; auto. apply in_flat_map. exists s. split; auto. apply C.
Qed.
Lemma tops_shows x g0 p f0 : In x (tops g0 p f0) -> shows x g0.
Proof.
  intro Q. apply in_app_iff in Q as [Q|Q]; apply in_map_iff in Q as (y & <- & _); reflexivity.
Qed.
Lemma users_all g0 x : In x A -> shows x g0 -> exists f1, In (g0, f1) users /\ In x (tops g0 [] f1).
Proof.
    intros X S.
    assert (K : exists g1 f1, In (g1, f1) users /\ In x (tops g1 [] f1)).
    { unfold all in X. apply in_app_iff in X as [X|X]; [apply in_app_iff in X as [X|[<-|[<-|[]]]]; try destruct S|].
      - apply (facts_shown ch OK g [] x g0 S) in X as [X|(g1 & f1 & S1 & X)].
        + exists g, ch. split; auto. apply users_in. left; left; auto.
        + exists g1, f1. split; auto. apply users_in. left; right; auto.
      - apply in_flat_map in X as ([l o] & L & X). apply in_flat_map in X as (s & SS & X). simpl in SS.
        apply (facts_shown (sb_f s) (proj2 (ow_sib OW _ _ _ L SS)) _ [] x g0 S) in X as [X|(g1 & f1 & S1 & X)].
        + exists (sb_g s), (sb_f s). split; auto. apply users_in. right. exists l, o, s. split; auto. split; auto. left; auto.
        + exists g1, f1. split; auto. apply users_in. right. exists l, o, s. split; auto. split; auto. right; auto. }
    destruct K as (g1 & f1 & I1 & X1). assert (E := tops_shows _ _ _ _ X1).
    assert (g1 = g0) by (destruct x; simpl in *; try tauto; congruence). subst g1. eauto.
Qed.
Lemma users_shown g0 f0 x : In (g0, f0) users -> (In x A /\ shows x g0 <-> In x (tops g0 [] f0)).
Proof.
  intro Q. split.
  - intros [X S]. destruct (users_all _ _ X S) as (f1 & I1 & X1).
    rewrite (users_fun g0 f0 f1); auto.
  - intro X. assert (S := tops_shows _ _ _ _ X). split; auto. unfold all.
    apply users_in in Q as [[Q|Q]|(l & o & s & L & SS & [Q|Q])].
    + injection Q as <- <-. apply in_app_iff. left. apply in_app_iff. left. apply (facts_shown ch OK g [] x g S). auto.
    + apply in_app_iff. left. apply in_app_iff. left. apply (facts_shown ch OK g [] x g0 S). right. eauto.
    + injection Q as <- <-. apply in_app_iff. right. apply in_flat_map. exists (l, o). split; auto. apply in_flat_map. exists s. split; auto.
      apply (facts_shown (sb_f s) (proj2 (ow_sib OW _ _ _ L SS)) _ [] x _ S). auto.
    + apply in_app_iff. right. apply in_flat_map. exists (l, o). split; auto. apply in_flat_map. exists s. split; auto.
      apply (facts_shown (sb_f s) (proj2 (ow_sib OW _ _ _ L SS)) _ [] x _ S). right. eauto.
Qed.
Lemma users_lists g0 f0 : In (g0, f0) users -> NoDup (ulists f0).
Proof.
  intro Q. apply occ_nodup. intro x. assert (Z := ow_r OW x). unfold all in Z. rewrite !flat_map_app, !occ_app in Z.
  assert (K : forall l o s, In (l, o) ls -> In s (lo_futs o) -> occ x (flat_map f_r (sfacts s)) <= occ x (flat_map f_r (stored_facts ls))).
  { intros l o s L SS. unfold stored_facts. apply in_split in L as (u & v & ->). rewrite !flat_map_app, !occ_app. cbn [flat_map].
    rewrite flat_map_app, occ_app. unfold l_facts at 2. cbn [snd]. apply in_split in SS as (a & b & ->).
    rewrite !flat_map_app, !occ_app. cbn [flat_map]. rewrite flat_map_app, occ_app. olia. }
  apply users_in in Q as [[Q|Q]|(l & o & s & L & S & [Q|Q])].
  - injection Q as <- <-. pose proof (ulists_occ ch g [] x). olia.
  - pose proof (subs_ulists ch _ _ Q g [] x). olia.
  - injection Q as <- <-. pose proof (ulists_occ (sb_f s) (sb_g s) [] x). specialize (K l o s L S). unfold sfacts in K. olia.
  - pose proof (subs_ulists (sb_f s) _ _ Q (sb_g s) [] x). specialize (K l o s L S). unfold sfacts in K. olia.
Qed.

Lemma blk_start l o : In (l, o) ls -> blk l = dl_start (lo_l o) :: mids cnt (ord l) ++ [dl_end (lo_l o)].
Proof. intro L. apply (sh_list SH _ _ L). Qed.

Lemma users_arr g0 f0 : In (g0, f0) users -> els (arr g0) = uout f0 /\ Permutation (lids (arr g0)) (ulists f0) /\ cnt g0 = flatn blk (arr g0).
Proof.
  intro Q. assert (P := users_place _ _ Q). destruct (sh_place SH _ P) as [(Q1 & Q2 & Q3 & Q4) Q5].
  split; [|split; auto].
  - unfold els. rewrite Q1. rewrite <- (ents_out f0 []).
    rewrite <- (sorted_unique (shown (rgrp (u_r w) g0)) (ents [] f0)).
    + unfold shown. rewrite map_map. reflexivity.
    + rewrite shown_fst. exact Q2.
    + apply ents_sorted.
    + intros q n.
      assert (T : In (q, n) (shown (rgrp (u_r w) g0)) <-> In (rev q, n) (rgrp (u_r w) g0)).
      { unfold shown. rewrite in_map_iff. split.
        - intros ([k v] & E & Z). simpl in E. injection E as <- <-. rewrite rev_involutive. auto.
        - intro Z. exists (rev q, n). simpl. rewrite rev_involutive. auto. }
      rewrite T, Q3. split.
      * intro Z. assert (W : In (Ent g0 q n) (tops g0 [] f0)) by (apply (users_shown _ _ _ Q); split; [auto|reflexivity]).
        apply in_app_iff in W as [W|W]; apply in_map_iff in W as (y & E & W); [|discriminate].
        destruct y as [y1 y2]. simpl in E. injection E as <- <-. auto.
      * intro Z. apply (users_shown _ _ _ Q). apply in_app_iff. left. apply in_map_iff. exists (q, n). auto.
  - apply NoDup_Permutation.
    + apply (lids_nodup blk).
      * intros l Z. apply Q4 in Z. destruct (ow_ren OW _ _ Z) as (o & L). exists (dl_start (lo_l o)). rewrite (blk_start _ _ L). left; auto.
      * rewrite <- Q5. eapply cnt_nodup; eauto.
    + apply (users_lists g0); auto.
    + intro l. rewrite in_lids, Q4. split.
      * intro Z. assert (W : In (Ren g0 l) (tops g0 [] f0)) by (apply (users_shown _ _ _ Q); split; [auto|reflexivity]).
        apply in_app_iff in W as [W|W]; apply in_map_iff in W as (y & E & W); [discriminate|]. injection E as <-. auto.
      * intro Z. apply (users_shown _ _ _ Q). apply in_app_iff. right. apply in_map_iff. exists l. auto.
Qed.

Lemma item_user l o st : In (l, o) ls -> In st (stall (lo_l o)) ->
  exists sb, get_sib (st_g st) (lo_futs o) = Some sb /\ In (st_g st, sb_f sb) users.
Proof.
  intros L X. destruct (ow_item OW _ _ _ L X) as [(sb & SB & E)|B].
  - exists sb. split.
    + assert (ND := futs_nodup _ _ _ _ OW L). rewrite <- E. revert SB ND. clear. induction (lo_futs o) as [|s t IH]; intros SB ND; [destruct SB|].
      simpl in ND. apply NoDup_cons_iff in ND as [ND1 ND2]. simpl. destruct SB as [->|SB]; [rewrite Nat.eqb_refl; auto|].
      destruct (Nat.eqb_spec (sb_g s) (sb_g sb)) as [E|E]; auto. exfalso. apply ND1. rewrite E. apply in_map; auto.
    + apply users_in. right. exists l, o, sb. split; auto. split; auto. left. congruence.
  - exfalso. apply in_app_iff in B as [B|[B|[B|[]]]]; try discriminate. destruct (no_busy ch OK _ _ _ _ _ B).
Qed.

Lemma cnt_ge g0 l : In (inr l) (arr g0) -> length (blk l) <= length (flatn blk (arr g0)).
Proof.
  intro Q. apply in_split in Q as (a & b & ->). rewrite flatn_app, app_length.
  change (flatn blk (inr l :: b)) with (blk l ++ flatn blk b). rewrite app_length. lia.
Qed.

Lemma block_ok : forall n l o, In (l, o) ls -> length (blk l) < n -> block w l (blk l).
Proof.
  induction n as [|n IH]; intros l o L LT; [lia|].
  assert (ARR : forall g0 f0, In (g0, f0) users -> length (cnt g0) < n -> arranged w (uout f0) (ulists f0) (cnt g0)).
  { intros g0 f0 Q LC. destruct (users_arr _ _ Q) as (E1 & E2 & E3). rewrite <- E1, E3. apply arranged_of; auto.
    intros l' Z. assert (P := users_place _ _ Q). destruct (sh_place SH _ P) as [(_ & _ & _ & Q4) _].
    assert (R := proj1 (Q4 l') Z). destruct (ow_ren OW _ _ R) as (o' & L'). apply (IH l' o'); auto.
    pose proof (cnt_ge _ _ Z) as CG. rewrite <- E3 in CG. lia. }
  destruct (sh_list SH _ _ L) as (EB & PI & PD & EK).
  assert (GL : get_l l ls = Some o) by (apply (get_some _ _ _ (ow_nodup _ _ OW) L)).
  assert (NDK := proj2 (ow_keys OW _ _ L)).
  assert (LM : length (mids cnt (ord l)) < n).
  { rewrite EB in LT. unfold whole in LT. simpl in LT. rewrite app_length in LT. simpl in LT. lia. }
  rewrite EB. unfold whole. apply (blk_intro w l o (dead_of (ord l))); auto.
  - intro st. split; intro Q; eapply Permutation_in; try exact Q; auto. symmetry; auto.
  - apply (Permutation_NoDup PD). 
    assert (Z : NoDup (map st_g (stall (lo_l o)))).
    { apply occ_nodup. intro x. pose proof (ow_g OW x) as Z. apply in_split in L as (u & v & E). rewrite E in Z at 2.
      rewrite flat_map_app, !occ_app in Z. cbn [flat_map] in Z. rewrite occ_app in Z. unfold l_g at 2 in Z. cbn [snd] in Z. olia. }
    unfold stall in Z. apply NoDup_map_inv in Z. clear - Z. induction (map snd (dl_items (lo_l o))) as [|x t IHt]; auto. inversion Z; auto.
  - rewrite <- EK.
    assert (SUBS : forall x, In x (ord l) -> match x with SItem k st => In (k, st) (dl_items (lo_l o)) | SDead st => In st (dl_dead (lo_l o)) end).
    { intros [k st|st] Q.
      - eapply Permutation_in; [symmetry; exact PI|]. apply in_items; auto.
      - eapply Permutation_in; [symmetry; exact PD|]. unfold dead_of. apply in_flat_map. exists (SDead st). split; auto. left; auto. }
    clear LT EB PI PD EK. revert LM SUBS. generalize (ord l). induction l0 as [|[k st|st] t IHt]; intros LM SUBS.
    + constructor.
    + assert (IT := SUBS _ (or_introl eq_refl)). cbn beta iota in IT.
      assert (ST : In st (stall (lo_l o))) by (apply in_app_iff; left; apply in_map_iff; exists (k, st); auto).
      destruct (item_user _ _ _ L ST) as (sb & GS & US).
      change (mids cnt (SItem k st :: t)) with ((st_s st :: cnt (st_g st) ++ [st_e st]) ++ mids cnt t).
      change (mids cnt (SItem k st :: t)) with ((st_s st :: cnt (st_g st) ++ [st_e st]) ++ mids cnt t) in LM.
      replace ((st_s st :: cnt (st_g st) ++ [st_e st]) ++ mids cnt t) with (st_s st :: cnt (st_g st) ++ st_e st :: mids cnt t)
        by (simpl; rewrite <- app_assoc; auto).
      simpl in LM. rewrite !app_length in LM. simpl in LM.
      apply (items_item w l o k st sb); auto.
      * apply hm_get_in; auto.
      * apply ARR; auto. lia.
      * apply IHt; [lia|]. intros; apply SUBS; right; auto.
    + assert (IT := SUBS _ (or_introl eq_refl)). cbn beta iota in IT.
      assert (ST : In st (stall (lo_l o))) by (apply in_app_iff; auto).
      destruct (item_user _ _ _ L ST) as (sb & GS & US).
      change (mids cnt (SDead st :: t)) with (cnt (st_g st) ++ mids cnt t). change (mids cnt (SDead st :: t)) with (cnt (st_g st) ++ mids cnt t) in LM.
      rewrite app_length in LM. 
      apply (items_dead w l o st sb (cnt (st_g st)) (keys_of t) [] (dead_of t)); auto.
      * apply ARR; auto. lia.
      * apply IHt; [lia|]. intros; apply SUBS; right; auto.
Qed.

Lemma user_doc g0 f0 : In (g0, f0) users -> arranged w (uout f0) (ulists f0) (cnt g0).
Proof.
  intro Q. destruct (users_arr _ _ Q) as (E1 & E2 & E3). rewrite <- E1, E3. apply arranged_of; auto.
  intros l' Z. assert (P := users_place _ _ Q). destruct (sh_place SH _ P) as [(_ & _ & _ & Q4) _].
  assert (R := proj1 (Q4 l') Z). destruct (ow_ren OW _ _ R) as (o' & L'). apply (block_ok (S (length (blk l'))) l' o'); auto.
Qed.

Lemma doc_of d0 a : (forall n, base0 n = kids d0 n) -> doc_ok d0 U (UElem root g a ShouldNotAdd ch) w.
Proof.
  intro EB. split; [|split].
  - intros n c Q.
    assert (K : exists g0, In (g0, c) users /\ In (Con n g0) A).
    { apply in_app_iff in Q as [Q|Q].
      - cbn [ucontainers app] in Q. destruct Q as [Q|Q].
        + injection Q as <- <-. exists g. split; [apply users_in; left; left; auto|].
          unfold all. rewrite !in_app_iff. left. right. right. left. auto.
        + destruct (subs_containers ch n c Q OK) as (g1 & S1 & C). exists g1. split; [apply users_in; left; right; auto|].
          unfold all. rewrite !in_app_iff. left. left. apply C.
      - apply in_flat_map in Q as (s & SS & Q). apply in_flat_map in SS as ([l o] & L & SS). simpl in SS.
        destruct (subs_containers (sb_f s) n c Q (proj2 (ow_sib OW _ _ _ L SS))) as (g1 & S1 & C). exists g1. split.
        + apply users_in. right. exists l, o, s. split; auto. split; auto. right; auto.
        + unfold all. apply in_app_iff. right. apply in_flat_map. exists (l, o). split; auto. apply in_flat_map. exists s. split; auto. apply C. }
    destruct K as (g0 & US & C). exists (cnt g0). split; [|apply user_doc; auto].
    rewrite <- EB. apply (sh_Con SH _ _ C).
  - intros l o fr GL EC. assert (L := get_in _ _ _ GL). pose proof (sh_cont SH _ _ L) as K. rewrite EC in K.
    destruct K as (_ & K & _). rewrite K. apply (block_ok (S (length (blk l))) l o); auto.
  - intros q N. rewrite <- EB. apply (sh_U SH); auto.
Qed.

(** which lists are rendered *)
Lemma users_kind g0 f0 : In (g0, f0) users ->
  (exists n, In (n, f0) (ucontainers (UElem root g 0 ShouldNotAdd ch) ++ flat_map (fun s => ucontainers (sb_f s)) (all_sibs w)) /\ In (Con n g0) A) \/
  (exists s, In s (all_sibs w) /\ f0 = sb_f s).
Proof.
  intro Q. apply users_in in Q as [[Q|Q]|(l & o & s & L & S & [Q|Q])].
  - injection Q as <- <-. left. exists root. split; [left; auto|]. unfold all. rewrite !in_app_iff. left. right. right. left. auto.
  - destruct (subs_place ch OK _ _ Q) as (n & N & C). left. exists n. split; [|unfold all; rewrite !in_app_iff; auto].
    apply in_app_iff. left. right. auto.
  - injection Q as <- <-. right. exists s. split; auto. apply in_flat_map. exists (l, o). auto.
  - destruct (subs_place (sb_f s) (proj2 (ow_sib OW _ _ _ L S)) _ _ Q) as (n & N & C). left. exists n. split.
    + apply in_app_iff. right. apply in_flat_map. exists s. split; auto. apply in_flat_map. exists (l, o). auto.
    + unfold all. apply in_app_iff. right. apply in_flat_map. exists (l, o). split; auto. apply in_flat_map. exists s. split; auto. apply C.
Qed.
Lemma con_user a n c : In (n, c) (ucontainers (UElem root g a ShouldNotAdd ch) ++ flat_map (fun s => ucontainers (sb_f s)) (all_sibs w)) ->
  exists g0, In (g0, c) users /\ In (Con n g0) A.
Proof.
  intro Q. apply in_app_iff in Q as [Q|Q].
  - cbn [ucontainers app] in Q. destruct Q as [Q|Q].
    + injection Q as <- <-. exists g. split; [apply users_in; left; left; auto|].
      unfold all. rewrite !in_app_iff. left. right. right. left. auto.
    + destruct (subs_containers ch n c Q OK) as (g1 & S1 & C). exists g1. split; [apply users_in; left; right; auto|].
      unfold all. rewrite !in_app_iff. left. left. apply C.
  - apply in_flat_map in Q as (s & SS & Q). apply in_flat_map in SS as ([l o] & L & SS). simpl in SS.
    destruct (subs_containers (sb_f s) n c Q (proj2 (ow_sib OW _ _ _ L SS))) as (g1 & S1 & C). exists g1. split.
    + apply users_in. right. exists l, o, s. split; auto. split; auto. right; auto.
    + unfold all. apply in_app_iff. right. apply in_flat_map. exists (l, o). split; auto. apply in_flat_map. exists s. split; auto. apply C.
Qed.
Lemma sib_user s : In s (all_sibs w) -> In (sb_g s, sb_f s) users.
Proof.
  intro Q. apply in_flat_map in Q as ([l o] & L & S). apply users_in. right. exists l, o, s. split; auto. split; auto. left; auto.
Qed.
Lemma user_ren g0 f0 l : In (g0, f0) users -> (In (Ren g0 l) A <-> In l (ulists f0)).
Proof.
  intro Q. split.
  - intro Z. assert (W : In (Ren g0 l) (tops g0 [] f0)) by (apply (users_shown _ _ _ Q); split; [auto|reflexivity]).
    apply in_app_iff in W as [W|W]; apply in_map_iff in W as (y & E & W); [discriminate|]. injection E as <-. auto.
  - intro Z. apply (users_shown _ _ _ Q). apply in_app_iff. right. apply in_map_iff. exists l. auto.
Qed.

Lemma rendered_iff a l o : get_l l ls = Some o ->
  match dl_cont (lo_l o) with
  | Fake _ => ~ rendered l (UElem root g a ShouldNotAdd ch) w
  | Real _ => rendered l (UElem root g a ShouldNotAdd ch) w
  end.
Proof.
  intro GL. pose proof (sh_cont SH _ _ (get_in _ _ _ GL)) as M. destruct (dl_cont (lo_l o)) as [c|f].
  - destruct M as (_ & g0 & R & _). destruct (users_all g0 (Ren g0 l) R eq_refl) as (f1 & I1 & _).
    assert (Z := proj1 (user_ren _ _ l I1) R). destruct (users_kind _ _ I1) as [(n & N & _)|(s & S & ->)].
    + left. exists n, f1. auto.
    + right. exists s. auto.
  - destruct M as (_ & _ & M). intros [(n & c & N & Z)|(s & S & Z)].
    + destruct (con_user _ _ _ N) as (g0 & I1 & _). apply (M g0). apply (user_ren _ _ l I1); auto.
    + apply (M (sb_g s)). apply (user_ren _ _ l (sib_user _ S)); auto.
Qed.
Lemma rendered_exists a l : rendered l (UElem root g a ShouldNotAdd ch) w -> exists o, get_l l ls = Some o.
Proof.
  assert (K : forall g0 f0, In (g0, f0) users -> In l (ulists f0) -> exists o, get_l l ls = Some o).
  { intros g0 f0 I1 Z. destruct (ow_ren OW g0 l) as (o & L); [apply (user_ren _ _ l I1); auto|]. exists o. apply (get_some _ _ _ (ow_nodup _ _ OW) L). }
  intros [(n & c & N & Z)|(s & S & Z)].
  - destruct (con_user _ _ _ N) as (g0 & I1 & _). eauto.
  - apply (K _ _ (sib_user _ S) Z).
Qed.
Lemma place_ok a l o : get_l l ls = Some o ->
  (~ rendered l (UElem root g a ShouldNotAdd ch) w \/ in_element l (UElem root g a ShouldNotAdd ch) w) ->
  in_place w (lo_l o) = true.
Proof.
  intros GL D. assert (L := get_in _ _ _ GL). pose proof (sh_cont SH _ _ L) as M. pose proof (rendered_iff a _ _ GL) as RI.
  assert (IP : forall q, In (dl_start (lo_l o)) (kids (rdom (u_r w)) q) -> q = cget (dl_cont (lo_l o)) -> in_place w (lo_l o) = true).
  { intros q Q ->. unfold in_place. apply (sh_wf SH) in Q. rewrite Q. apply Nat.eqb_refl. }
  assert (ST : In (dl_start (lo_l o)) (blk l)) by (rewrite (blk_start _ _ L); left; auto).
  destruct (dl_cont (lo_l o)) as [c|f].
  - destruct D as [D|(n & c' & N & Z)]; [contradiction|].
    destruct (con_user _ _ _ N) as (g0 & I1 & C). assert (R0 := proj2 (user_ren _ _ l I1) Z).
    destruct M as (_ & g1 & R1 & U1).
    assert (g1 = g0).
    { destruct (Nat.eq_dec g1 g0); auto. exfalso. pose proof (ow_r OW l) as O1.
      apply in_split in R0 as (p & q & E). rewrite E in R1, O1. rewrite flat_map_app, occ_app in O1. cbn [flat_map f_r app] in O1.
      rewrite occ_cons in O1. destruct (Nat.eq_dec l l); [|congruence].
      assert (R2 : In (Ren g1 l) p \/ In (Ren g1 l) q).
      { apply in_app_iff in R1 as [?|[?|?]]; auto. congruence. }
      destruct R2 as [R2|R2]; pose proof (occ_flat_in f_r _ _ l R2 (or_introl eq_refl)); olia. }
    subst g1. apply (IP n); [|simpl; auto]. destruct (sh_Con SH _ _ C) as [KE _]. rewrite KE.
    apply in_app_iff. right. assert (P := users_place _ _ I1). destruct (sh_place SH _ P) as [(_ & _ & _ & Q4) E]. rewrite E.
    apply (flatn_in blk _ l); auto. apply Q4; auto.
  - destruct M as (_ & KE & _). apply (IP f); auto. rewrite KE. auto.
Qed.
End Extract.

(** * The start *)

Lemma frees_n f : flat_map f_n (frees f) = unodes f.
Proof.
  induction f as [|n g' a m ch IH|a cs IH|c IH|l r|l a f IH] using UiList_ops.fut_ind'; simpl; auto.
  - congruence.
  - induction IH as [|f cs E _ IH]; simpl; auto. rewrite flat_map_app. congruence.
Qed.
Lemma frees_c f : flat_map f_c (frees f) = unodes f.
Proof.
  induction f as [|n g' a m ch IH|a cs IH|c IH|l r|l a f IH] using UiList_ops.fut_ind'; simpl; auto.
  - congruence.
  - induction IH as [|f cs E _ IH]; simpl; auto. rewrite flat_map_app. congruence.
Qed.
Lemma frees_g f : flat_map f_g (frees f) = ugids f.
Proof.
  induction f as [|n g' a m ch IH|a cs IH|c IH|l r|l a f IH] using UiList_ops.fut_ind'; simpl; auto.
  - congruence.
  - induction IH as [|f cs E _ IH]; simpl; auto. rewrite flat_map_app. congruence.
Qed.
Lemma rsv_map {A} (F : fact -> list A) (G : made -> list A) ms : (forall m, flat_map F (mf m) = G m) ->
  flat_map F (rsv ms) = flat_map G ms.
Proof. intro E. induction ms as [|m ms IH]; simpl; auto. rewrite flat_map_app, IH, E. auto. Qed.
Lemma frees_nil {A} (F : fact -> list A) f : (forall n, F (FN n) = []) -> (forall n, F (FG n) = []) -> flat_map F (frees f) = [].
Proof.
  intros E1 E2. assert (K : forall x, In x (frees f) -> F x = []).
  { intros x Q. destruct (frees_only _ _ Q) as [(n & ->)|(n & ->)]; auto. }
  revert K. generalize (frees f). induction l as [|x l IH]; intro K; simpl; auto.
  rewrite (K x (or_introl eq_refl)), IH; auto. intros; apply K; right; auto.
Qed.
Lemma rsv_n ms : flat_map f_n (rsv ms) = flat_map made_nodes ms.
Proof. apply rsv_map. intros [n|g|l fr|f]; simpl; auto. apply frees_n. Qed.
Lemma rsv_c ms : flat_map f_c (rsv ms) = flat_map made_nodes ms.
Proof. apply rsv_map. intros [n|g|l fr|f]; simpl; auto. apply frees_c. Qed.
Lemma rsv_g ms : flat_map f_g (rsv ms) = flat_map made_gids ms.
Proof. apply rsv_map. intros [n|g|l fr|f]; simpl; auto. apply frees_g. Qed.
Lemma rsv_l ms : flat_map f_l (rsv ms) = flat_map made_lids ms.
Proof. apply rsv_map. intros [n|g|l fr|f]; simpl; auto. apply frees_nil; auto. Qed.
Lemma rsv_o ms : flat_map f_o (rsv ms) = flat_map made_lids ms.
Proof. apply rsv_map. intros [n|g|l fr|f]; simpl; auto. apply frees_nil; auto. Qed.
Lemma rsv_fr ms : flat_map f_fr (rsv ms) = flat_map made_frags ms.
Proof. apply rsv_map. intros [n|g|l fr|f]; simpl; auto. apply frees_nil; auto. Qed.
Lemma inert_nil {A} (F : fact -> list A) X : inert X -> (forall n, F (FN n) = []) -> (forall n, F (FG n) = []) -> (forall l f, F (FL l f) = []) -> flat_map F X = [].
Proof.
  intros IX E1 E2 E3. induction X as [|x X IH]; simpl; auto. rewrite IH by (intros y Q; apply IX; right; auto).
  specialize (IX x (or_introl eq_refl)). destruct x; try destruct IX; rewrite ?E1, ?E2, ?E3; auto.
Qed.


Lemma rsv_FN ms n : In (FN n) (rsv ms) -> In n (flat_map made_nodes ms).
Proof. intro Q. rewrite <- rsv_n. apply in_flat_map. exists (FN n). simpl. auto. Qed.

Lemma start_inv d gr root g ms : dom_wf d -> fresh_run d gr root g ms ->
  INV (kids d) (mine root ms) (mkUW (mkR d gr) [] None) (rsv ms ++ [Rt root; Con root g]).
Proof.
  intros WF (F1 & F2 & F3 & F4 & F5 & F6 & F7 & F8 & F9 & F10).
  assert (IN := inert_rsv ms).
  assert (EA : all (rsv ms ++ [Rt root; Con root g]) [] = rsv ms ++ [Rt root; Con root g]) by (unfold all; simpl; apply app_nil_r).
  assert (IS : forall x, In x (rsv ms ++ [Rt root; Con root g]) -> In x (rsv ms) \/ x = Rt root \/ x = Con root g).
  { intros x Q. apply in_app_iff in Q as [Q|[Q|[Q|[]]]]; auto. }
  assert (NI : forall x, In x (rsv ms) -> match x with FN _ | FG _ | FL _ _ => True | _ => False end) by exact IN.
  assert (F1' := F1). assert (F2' := F2). rewrite occ_nodup in F1. rewrite occ_nodup in F2.
  split.
  - constructor; cbn [u_ls flat_map map]; rewrite ?EA.
    + intro x. rewrite flat_map_app, rsv_n. cbn [flat_map f_n app]. rewrite occ_app, occ_cons, !occ_nil. specialize (F1 x). rewrite occ_cons in F1. lia.
    + intro x. rewrite flat_map_app, rsv_c. cbn [flat_map f_c app]. rewrite occ_app, occ_cons, !occ_nil. specialize (F1 x). rewrite occ_cons in F1. lia.
    + intro x. rewrite flat_map_app, rsv_g. cbn [flat_map f_g app]. rewrite occ_app, occ_cons, !occ_nil. specialize (F2 x). rewrite occ_cons in F2. lia.
    + intro x. rewrite flat_map_app, inert_nil; auto.
    + intro x. rewrite flat_map_app, rsv_l. cbn [flat_map f_l app]. rewrite app_nil_r, occ_nil. pose proof (proj1 (occ_nodup _) F3 x). lia.
    + intro x. rewrite flat_map_app, rsv_fr. cbn [flat_map f_fr app]. rewrite app_nil_r, occ_nil. pose proof (proj1 (occ_nodup _) F4 x). olia.
    + intro x. rewrite flat_map_app, rsv_o. cbn [flat_map f_o app]. rewrite app_nil_r. pose proof (proj1 (occ_nodup _) F3 x). lia.
    + intro x. rewrite flat_map_app, inert_nil; auto.
    + intros l o st [].
    + intros l o st [].
    + intros l h e Q. apply IS in Q as [Q|[Q|Q]]; try discriminate. destruct (NI _ Q).
    + intros h l Q. apply IS in Q as [Q|[Q|Q]]; try discriminate. destruct (NI _ Q).
    + intros l o [].
  - exists (fun _ => []), (fun _ => []), (fun _ => []), (fun _ => []).
    assert (PL : forall h, place (rsv ms ++ [Rt root; Con root g]) [] h -> h = g).
    { intros h [(n & Q)|(l & e & o & st & [] & _)]. apply IS in Q as [Q|[Q|Q]]; try discriminate; [destruct (NI _ Q)|congruence]. }
    constructor; cbn [u_ls u_r rdom rgrp flat_map]; rewrite ?EA, ?app_nil_r.
    + exact WF.
    + exact F9.
    + intros n x Q Z. rewrite flat_map_app, rsv_n in Z. apply in_app_iff in Z as [Z|[<-|[]]].
      * destruct (F6 x Z) as [P _]. apply (proj2 WF) in Q. congruence.
      * apply in_app_iff. right. left. auto.
    + auto.
    + intros q Q. unfold mine. apply in_app_iff in Q as [Q|Q].
      * rewrite flat_map_app, rsv_c in Q. apply in_app_iff in Q as [Q|[<-|[]]]; [right; apply in_app_iff; auto|left; auto].
      * rewrite flat_map_app, rsv_fr in Q. apply in_app_iff in Q as [Q|[]]. right; apply in_app_iff; auto.
    + intros q Q. rewrite flat_map_app, rsv_fr in Q. apply in_app_iff in Q as [Q|[]]. apply F8; auto.
    + intros n Q. apply IS in Q as [Q|[Q|Q]]; try discriminate. destruct (F6 n (rsv_FN _ _ Q)). auto.
    + intros h Q. apply IS in Q as [Q|[Q|Q]]; try discriminate. apply F7. right. rewrite <- rsv_g. apply in_flat_map. exists (FG h). simpl; auto.
    + intros l fr Q. apply IS in Q as [Q|[Q|Q]]; try discriminate. apply F8. rewrite <- rsv_fr. apply in_flat_map. exists (FL l fr). simpl; auto.
    + intros n h Q. apply IS in Q as [Q|[Q|Q]]; try discriminate; [destruct (NI _ Q)|]. injection Q as -> ->. rewrite app_nil_r. auto.
    + intros h l Q. apply IS in Q as [Q|[Q|Q]]; try discriminate. destruct (NI _ Q).
    + intros h p n Q. apply IS in Q as [Q|[Q|Q]]; try discriminate. destruct (NI _ Q).
    + intros h P. apply PL in P. subst h. split; auto. repeat split.
      * rewrite (F7 g (or_introl eq_refl)). auto.
      * rewrite (F7 g (or_introl eq_refl)). constructor.
      * rewrite (F7 g (or_introl eq_refl)). intros [].
      * intro Q. apply IS in Q as [Q|[Q|Q]]; try discriminate. destruct (NI _ Q).
      * intros [].
      * intro Q. apply IS in Q as [Q|[Q|Q]]; try discriminate. destruct (NI _ Q).
    + intros l o [].
    + intros l o [].
Qed.

(** * Successive polls *)
Lemma root_env root g rest : env (rsv rest ++ [Rt root; Con root g]) (CContainer g root) g [] g.
Proof.
  apply env_inert; [apply inert_rsv|]. constructor.
  - constructor. simpl; auto.
  - constructor.
  - intros y h Q S. destruct Q as [<-|[<-|[]]]; destruct S.
  - intros q n [Q|[Q|[]]]; discriminate.
  - intros l h e [Q|[Q|[]]]; discriminate.
  - left. exists root. simpl; auto.
Qed.

Lemma root_loop base0 U fuel root g a ms : forall scheds ch w,
  INV base0 U w (facts g [] ch ++ rsv (flat_map umade scheds) ++ rsv ms ++ [Rt root; Con root g]) ->
  news (flat_map umade scheds) -> okf ch -> u_drop w = None ->
  upoll_root fuel g scheds (umount root g a ch) w <> Panic /\
  forall f' w', upoll_root fuel g scheds (umount root g a ch) w = Ok (f', w') ->
    exists ch', f' = umount root g a ch' /\ INV base0 U w' (facts g [] ch' ++ rsv ms ++ [Rt root; Con root g]) /\ okf ch' /\ u_drop w' = None.
Proof.
  induction scheds as [|s t IH]; intros ch w IV NW OK ED.
  - split; [discriminate|]. intros f' w' Q. injection Q as <- <-. exists ch. auto.
  - cbn [upoll_root flat_map] in *. apply news_app in NW as [NW1 NW2]. rewrite rsv_app in IV.
    assert (SKIP : upoll_root fuel g t (umount root g a ch) w <> Panic /\
      forall f' w', upoll_root fuel g t (umount root g a ch) w = Ok (f', w') ->
        exists ch', f' = umount root g a ch' /\ INV base0 U w' (facts g [] ch' ++ rsv ms ++ [Rt root; Con root g]) /\ okf ch' /\ u_drop w' = None).
    { apply IH; auto. apply (drop_inert base0 U w (rsv (umade s))); [|apply inert_rsv].
      eapply inv_perm; [|exact IV]. pperm. }
    destruct s; try exact SKIP. change (umade (KElem s)) with (umade s) in *.
    unfold umount. cbn [upoll uadd_self rbind].
    rewrite <- app_assoc in IV. rewrite (app_assoc (rsv (flat_map umade t))), <- rsv_app in IV.
    destruct (upoll_ok base0 U fuel s g ch g [] (CContainer g root) _ w IV NW1 OK (root_env root g _) ED) as [NP PO].
    change (ctx_at (CContainer g root) []) with (CContainer g root) in *.
    destruct (upoll fuel s g ch (Some (CContainer g root)) w) as [[ch' w1]| | |] eqn:E; try (split; discriminate); [|congruence].
    cbn [rbind]. destruct (PO _ _ eq_refl) as (IV' & OK' & ED'). rewrite rsv_app, <- app_assoc in IV'. apply (IH ch' w1); auto.
Qed.

Lemma run_inv d gr fuel root g a child scheds ms : dom_wf d -> fresh_run d gr root g (run_made child scheds ++ ms) ->
  upoll_root fuel g scheds (umount root g a child) (mkUW (mkR d gr) [] None) <> Panic /\
  forall f' w', upoll_root fuel g scheds (umount root g a child) (mkUW (mkR d gr) [] None) = Ok (f', w') ->
    exists ch', f' = umount root g a ch' /\ okf ch' /\ u_drop w' = None /\
      INV (kids d) (mine root (run_made child scheds ++ ms)) w' (facts g [] ch' ++ rsv ms ++ [Rt root; Con root g]).
Proof.
  intros WF FR. assert (IV := start_inv _ _ _ _ _ WF FR). destruct FR as (_ & _ & _ & _ & _ & _ & _ & _ & _ & F10).
  assert (NW : unew child) by (apply F10; left; auto).
  rewrite rsv_app in IV. unfold run_made in IV at 2. change (rsv (MFut child :: flat_map umade scheds)) with (frees child ++ rsv (flat_map umade scheds)) in IV.
  rewrite <- (facts_new child g []) in IV by auto. rewrite <- !app_assoc in IV.
  destruct (root_loop (kids d) _ fuel root g a ms scheds child _ IV) as [NP K]; auto.
  - intros f Q. apply F10. right. apply in_app_iff; auto.
  - apply unew_okf; auto.
  - split; auto. intros f' w' Q. destruct (K _ _ Q) as (ch' & E & IV' & OK' & ED'). exists ch'. auto.
Qed.

Lemma run_ok d gr fuel root g a child scheds : dom_wf d -> fresh_run d gr root g (run_made child scheds) ->
  upoll_root fuel g scheds (umount root g a child) (mkUW (mkR d gr) [] None) <> Panic /\
  forall f' w', upoll_root fuel g scheds (umount root g a child) (mkUW (mkR d gr) [] None) = Ok (f', w') ->
    doc_ok d (mine root (run_made child scheds)) f' w' /\
    (forall l o, get_l l (u_ls w') = Some o ->
       match dl_cont (lo_l o) with Fake _ => ~ rendered l f' w' | Real _ => rendered l f' w' end) /\
    (forall l, rendered l f' w' -> exists o, get_l l (u_ls w') = Some o) /\
    (forall l o, get_l l (u_ls w') = Some o -> ~ rendered l f' w' \/ in_element l f' w' -> in_place w' (lo_l o) = true).
Proof.
  intros WF FR. rewrite <- (app_nil_r (run_made child scheds)) in *.
  destruct (run_inv d gr fuel root g a child scheds [] WF FR) as [NP K]. rewrite app_nil_r. split; auto.
  intros f' w' Q. destruct (K _ _ Q) as (ch' & -> & OK' & _ & OW & arr & cnt & blk & ord & SH). rewrite app_nil_r in SH. simpl in OW, SH.
  split; [eapply doc_of; eauto|]. split; [intros l o; eapply rendered_iff; eauto|]. split; [intro l; eapply rendered_exists; eauto|].
  intros l o; eapply place_ok; eauto.
Qed.

(** a method call after a run *)
Lemma run_call d gr fuel root g a child scheds l op : dom_wf d -> fresh_run d gr root g (run_made child scheds ++ op_made op) ->
  forall f' w' o, upoll_root fuel g scheds (umount root g a child) (mkUW (mkR d gr) [] None) = Ok (f', w') ->
    get_l l (u_ls w') = Some o -> ~ rendered l f' w' \/ in_element l f' w' -> op_bad op (lo_keys o) = None ->
    exists w2, list_call l op w' = Ok w2 /\ doc_ok d (mine root (run_made child scheds ++ op_made op)) f' w2 /\
      exists o', get_l l (u_ls w2) = Some o' /\ lo_keys o' = op_keys op (lo_keys o).
Proof.
  intros WF FR f' w' o Q GL PL OB. destruct (run_inv d gr fuel root g a child scheds _ WF FR) as [_ K].
  destruct (K _ _ Q) as (ch' & -> & OK' & _ & IV).
  assert (IP : in_place w' (lo_l o) = true).
  { assert (IV' : INV (kids d) (mine root (run_made child scheds ++ op_made op)) w' (facts g [] ch' ++ [Rt root; Con root g])).
    { apply (drop_inert _ _ w' (rsv (op_made op))); [|apply inert_rsv]. eapply inv_perm; [|exact IV]. pperm. }
    destruct IV' as (OW & arr & cnt & blk & ord & SH). eapply place_ok; eauto. }
  assert (ON : op_new op).
  { destruct op; simpl; auto. destruct FR as (_ & _ & _ & _ & _ & _ & _ & _ & _ & F10). apply F10. apply in_app_iff. right. simpl. auto. }
  destruct (call_inv (kids d) (mine root (run_made child scheds ++ op_made op)) w' (facts g [] ch' ++ [Rt root; Con root g]) l op ON) as [NP OKK].
  { eapply inv_perm; [|exact IV]. destruct op; simpl; rewrite ?app_nil_r; try reflexivity. pperm. }
  destruct (list_call l op w') as [w2| |m|] eqn:EC.
  - exists w2. split; auto. destruct (OKK _ eq_refl) as [(OW & arr & cnt & blk & ord & SH) _].
    split; [eapply doc_of; eauto|].
    unfold list_call in EC. rewrite GL, IP, OB in EC. destruct (op_run op _) as [lw|]; [|discriminate]. simpl in EC. injection EC as <-.
    eexists. split; [simpl; rewrite get_set, Nat.eqb_refl, GL; reflexivity|reflexivity].
  - congruence.
  - unfold list_call in EC. rewrite GL, IP, OB in EC. destruct (op_run op _); discriminate.
  - unfold list_call in EC. rewrite GL, IP, OB in EC. destruct (op_run op _); discriminate.
Qed.
