From Coq Require Import List Arith NArith Bool Lia Permutation Sorting.Sorted.
From Verif Require Import Util Position Dom Context Spec_path Spec_render Render_history
  Position_proofs Dom_proofs Context_proofs Render_history_proofs Ui Spec_ui.
Import ListNotations.

(** ** induction principles for the nested types *)
Section FutInd.
  Variable P : fut -> Prop.
  Hypothesis HL : P FLeaf.
  Hypothesis HE : forall n g a m ch, P ch -> P (FElem n g a m ch).
  Hypothesis HC : forall a cs, Forall P cs -> P (FComb a cs).
  Hypothesis HB : forall c, P c -> P (FBlock c).
  Fixpoint fut_ind' (f : fut) : P f :=
    match f with
    | FLeaf => HL
    | FElem n g a m ch => HE n g a m ch (fut_ind' ch)
    | FComb a cs =>
        HC a cs ((fix go (l : list fut) : Forall P l :=
                    match l with
                    | [] => Forall_nil _
                    | f :: t => Forall_cons f (fut_ind' f) (go t)
                    end) cs)
    | FBlock c => HB c (fut_ind' c)
    end.
End FutInd.

Section SchedInd.
  Variable P : sched -> Prop.
  Definition PB (b : baction) : Prop :=
    match b with BPoll s => P s | BReplace _ => True end.
  Hypothesis HN : P SNone.
  Hypothesis HE : forall s, P s -> P (SElem s).
  Hypothesis HC : forall l, Forall (fun e => P (snd e)) l -> P (SComb l).
  Hypothesis HB : forall l, Forall PB l -> P (SBlock l).
  Fixpoint sched_ind' (s : sched) : P s :=
    match s with
    | SNone => HN
    | SElem s' => HE s' (sched_ind' s')
    | SComb l =>
        HC l ((fix go (l : list (nat * sched)) : Forall (fun e => P (snd e)) l :=
                 match l with
                 | [] => Forall_nil _
                 | e :: t => Forall_cons e (sched_ind' (snd e)) (go t)
                 end) l)
    | SBlock l =>
        HB l ((fix go (l : list baction) : Forall PB l :=
                 match l with
                 | [] => Forall_nil _
                 | BPoll s' :: t => @Forall_cons _ PB (BPoll s') t (sched_ind' s') (go t)
                 | BReplace f :: t => @Forall_cons _ PB (BReplace f) t I (go t)
                 end) l)
    end.
End SchedInd.

(** ** what a future should have in its group *)
Fixpoint entries (f : fut) (p : path) : list (path * node) :=
  match f with
  | FLeaf => []
  | FElem n _ _ Added _ => [(p, n)]
  | FElem _ _ _ _ _ => []
  | FComb _ cs =>
      (fix go (k : nat) (l : list fut) : list (path * node) :=
         match l with
         | [] => []
         | f :: t => entries f (p ++ [N.of_nat k]) ++ go (S k) t
         end) 0 cs
  | FBlock c => entries c p
  end.
Definition entries_list (p : path) : nat -> list fut -> list (path * node) :=
  fix go (k : nat) (l : list fut) : list (path * node) :=
    match l with
    | [] => []
    | f :: t => entries f (p ++ [N.of_nat k]) ++ go (S k) t
    end.
Lemma entries_comb a cs p : entries (FComb a cs) p = entries_list p 0 cs.
Proof. reflexivity. Qed.

Lemma entries_list_in p cs : forall k q n, In (q, n) (entries_list p k cs) <->
  exists i c, nth_error cs i = Some c /\ In (q, n) (entries c (p ++ [N.of_nat (k + i)])).
Proof.
  induction cs as [|c cs IH]; simpl; intros k q n.
  - split; [tauto|]. intros ([|i] & c & H & _); discriminate.
  - rewrite in_app_iff, IH. split.
    + intros [H|(i & c' & H1 & H2)].
      * exists 0, c. rewrite Nat.add_0_r. auto.
      * exists (S i), c'. rewrite Nat.add_succ_r. auto.
    + intros ([|i] & c' & H1 & H2).
      * left. simpl in H1. inversion H1; subst. rewrite Nat.add_0_r in H2. auto.
      * right. exists i, c'. rewrite Nat.add_succ_r in H2. auto.
Qed.

Lemma under_trans a b c : under a b -> under b c -> under a c.
Proof. intros [r ->] [r' ->]. exists (r ++ r'). rewrite app_assoc; auto. Qed.
Lemma under_app p r : under p (p ++ r).
Proof. exists r; auto. Qed.
Lemma under_refl p : under p p.
Proof. exists []. rewrite app_nil_r; auto. Qed.

Lemma entries_under f : forall p q n, In (q, n) (entries f p) -> under p q.
Proof.
  induction f as [|n0 g a m ch IH|a cs IH|c IH] using fut_ind'; intros p q n H.
  - inversion H.
  - simpl in H. destruct m; simpl in H; try tauto. destruct H as [H|[]]. inversion H; subst.
    apply under_refl.
  - rewrite entries_comb in H. apply entries_list_in in H as (i & c & H1 & H2).
    rewrite Forall_forall in IH. apply nth_error_In in H1. apply (IH _ H1) in H2.
    eapply under_trans; [|exact H2]. apply under_app.
  - simpl in H; eauto.
Qed.

Lemma entries_nodes f : forall p q n, In (q, n) (entries f p) -> In n (nodes f).
Proof.
  induction f as [|n0 g a m ch IH|a cs IH|c IH] using fut_ind'; intros p q n H.
  - inversion H.
  - simpl in *. destruct m; simpl in H; try tauto. destruct H as [H|[]]. inversion H; auto.
  - rewrite entries_comb in H. apply entries_list_in in H as (i & c & H1 & H2).
    rewrite Forall_forall in IH. apply nth_error_In in H1. apply (IH _ H1) in H2.
    simpl. apply in_flat_map. eauto.
  - simpl in *; eauto.
Qed.

Lemma under_snoc_inj (p q : path) (i j : N) : under (p ++ [i]) q -> under (p ++ [j]) q -> i = j.
Proof.
  intros [r ->] [r' H]. rewrite <- !app_assoc in H. apply app_inv_head in H.
  simpl in H. inversion H; auto.
Qed.

Fixpoint unadded (f : fut) : Prop :=
  match f with
  | FLeaf => True
  | FElem _ _ _ m ch => m <> Added /\ unadded ch
  | FComb _ cs => (fix all (l : list fut) : Prop :=
         match l with [] => True | f :: t => unadded f /\ all t end) cs
  | FBlock c => unadded c
  end.

Lemma unadded_all cs :
  (fix all (l : list fut) : Prop := match l with [] => True | f :: t => unadded f /\ all t end) cs
  <-> Forall unadded cs.
Proof.
  induction cs; simpl; split; intro H; auto.
  - constructor; tauto.
  - inversion H; subst. tauto.
Qed.

Lemma unadded_entries f : unadded f -> forall p, entries f p = [].
Proof.
  induction f as [|n0 g a m ch IH|a cs IH|c IH] using fut_ind'; intros U p; auto.
  - simpl in *. destruct U. destruct m; congruence.
  - rewrite entries_comb. simpl in U. apply unadded_all in U.
    generalize 0. induction cs as [|c cs IHc]; simpl; intros k; auto.
    inversion U; subst. inversion IH; subst. rewrite H3 by auto. simpl. apply IHc; auto.
  - simpl in *; auto.
Qed.

(** ** invariants *)
Section Inv.
Variable F0 : node -> list node.   (* children not rendered by the library *)

Definition sh (st : ustate) (g : gid) : list (path * node) := shown (rgrp (ur st) g).
Definition pic (st : ustate) (g : gid) (cont : node) (F R : list node) : Prop :=
  picture (ur st) g cont F R.

Fixpoint good (st : ustate) (f : fut) : Prop :=
  match f with
  | FLeaf => True
  | FElem n g a m ch =>
      frag (rdom (ur st)) n = false /\
      (m = ShouldAdd -> par (rdom (ur st)) n = None) /\
      pic st g n (F0 n) [] /\
      (forall q v, In (q, v) (sh st g) <-> In (q, v) (entries ch [])) /\
      good st ch
  | FComb a cs => (N.of_nat (length cs) <= u32_max)%N /\
      (fix all (l : list fut) : Prop := match l with [] => True | f :: t => good st f /\ all t end) cs
  | FBlock c => good st c
  end.

Lemma good_all st cs :
  (fix all (l : list fut) : Prop := match l with [] => True | f :: t => good st f /\ all t end) cs
  <-> Forall (good st) cs.
Proof.
  induction cs; simpl; split; intro H; auto.
  - constructor; tauto.
  - inversion H; subst. tauto.
Qed.

Record frame (N : list node) (Gs : list gid) (st st' : ustate) : Prop := {
  fr_wf : dom_wf (rdom (ur st'));
  fr_frag : frag (rdom (ur st')) = frag (rdom (ur st));
  fr_grp : forall h, ~ In h Gs -> rgrp (ur st') h = rgrp (ur st) h;
  fr_kids : forall q, ~ In q N -> kids (rdom (ur st')) q = kids (rdom (ur st)) q;
  fr_par : forall m, ~ In m N -> par (rdom (ur st')) m = par (rdom (ur st)) m
}.

Lemma frame_refl N Gs st : dom_wf (rdom (ur st)) -> frame N Gs st st.
Proof. intro W; constructor; auto. Qed.
Lemma frame_trans N Gs a b c : frame N Gs a b -> frame N Gs b c -> frame N Gs a c.
Proof.
  intros [W1 A1 B1 C1 D1] [W2 A2 B2 C2 D2]. constructor; auto.
  - congruence.
  - intros h H. rewrite B2, B1; auto.
  - intros h H. rewrite C2, C1; auto.
  - intros h H. rewrite D2, D1; auto.
Qed.
Lemma frame_mono N N' Gs Gs' a b : frame N Gs a b -> incl N N' -> incl Gs Gs' -> frame N' Gs' a b.
Proof.
  intros [W A B C D] H1 H2. constructor; auto.
Qed.

(** weak preservation, enough for [good] *)
Definition keeps (N : list node) (Gs : list gid) (st st' : ustate) : Prop :=
  dom_wf (rdom (ur st')) /\
  frag (rdom (ur st')) = frag (rdom (ur st)) /\
  (forall h, In h Gs -> rgrp (ur st') h = rgrp (ur st) h) /\
  (forall q, In q N -> kids (rdom (ur st')) q = kids (rdom (ur st)) q) /\
  (forall m, In m N -> par (rdom (ur st')) m = par (rdom (ur st)) m \/ par (rdom (ur st')) m = None).

Lemma keeps_mono N N' Gs Gs' st st' : keeps N Gs st st' -> incl N' N -> incl Gs' Gs -> keeps N' Gs' st st'.
Proof. intros (A & B & C & D & E) H1 H2. repeat split; auto; apply A. Qed.

Lemma frame_keeps N Gs st st' N' Gs' : frame N Gs st st' ->
  (forall x, In x N' -> In x N -> False) -> (forall x, In x Gs' -> In x Gs -> False) ->
  keeps N' Gs' st st'.
Proof.
  intros [W A B C D] H1 H2. repeat split; auto; try apply W.
  - intros h Hh. apply B. intro; eapply H2; eauto.
  - intros q Hq. apply C. intro; eapply H1; eauto.
  - intros m Hm. left. apply D. intro; eapply H1; eauto.
Qed.

Lemma good_keeps f : forall st st', keeps (nodes f) (gids f) st st' -> good st f -> good st' f.
Proof.
  induction f as [|n g a m ch IH|a cs IH|c IH] using fut_ind'; intros st st' K G; simpl in *; auto.
  - assert (K' : keeps (nodes ch) (gids ch) st st')
      by (eapply keeps_mono; [exact K| |]; intros x Hx; simpl; auto).
    destruct K as (W & A & B & C & D). destruct G as (G1 & G2 & (P1 & P2 & P3) & G4 & G5).
    split; [rewrite A; auto|]. split.
    { intro Hm. destruct (D n) as [H|H]; simpl; auto. rewrite H; auto. }
    split; [|split].
    + unfold pic, picture. rewrite B, C by (simpl; auto). auto.
    + unfold sh in *. rewrite B by (simpl; auto). auto.
    + eapply IH; eauto.
  - destruct G as [G1 G2]. split; auto. apply good_all. apply good_all in G2.
    rewrite Forall_forall in *. intros c Hc. eapply (IH c Hc); [|eauto].
    eapply keeps_mono; eauto; intros x Hx; apply in_flat_map; eauto.
  - eapply IH; eauto.
Qed.

Lemma pic_keeps st st' g cont F R : keeps [cont] [g] st st' -> pic st g cont F R -> pic st' g cont F R.
Proof.
  intros (W & A & B & C & D) (P1 & P2 & P3). unfold pic, picture.
  rewrite B, C by (simpl; auto). auto.
Qed.

Definition gsub (st : ustate) (g : gid) (p : path) (f : fut) : Prop :=
  forall q n, under p q -> (In (q, n) (sh st g) <-> In (q, n) (entries f p)).
Definition clean (st : ustate) (g : gid) (p : path) : Prop :=
  forall q n, under p q -> ~ In (q, n) (sh st g).
Definition gframe (st st' : ustate) (g : gid) (p : path) : Prop :=
  forall q n, ~ under p q -> (In (q, n) (sh st' g) <-> In (q, n) (sh st g)).

Lemma in_sh st g q n : In (q, n) (sh st g) <-> In (rev q, n) (rgrp (ur st) g).
Proof.
  unfold sh, shown. rewrite in_map_iff. split.
  - intros ([k v] & H1 & H2). inversion H1; subst. simpl. rewrite rev_involutive. auto.
  - intro H. exists (rev q, n). simpl. rewrite rev_involutive. auto.
Qed.

Lemma clean_keep st g p : clean st g p -> keep (rev p) (rgrp (ur st) g) = rgrp (ur st) g.
Proof.
  intro C. unfold keep. rewrite rev_involutive.
  assert (H : forall e, In e (rgrp (ur st) g) -> underb p (rev (fst e)) = false).
  { intros [k v] Hin. destruct (underb p (rev (fst (k, v)))) eqn:E; auto.
    apply underb_iff in E. exfalso. apply (C _ v E). apply in_sh. simpl. rewrite rev_involutive. auto. }
  revert H. induction (rgrp (ur st) g) as [|e l IH]; simpl; intros H; auto.
  rewrite H by auto. simpl. f_equal. apply IH. intros; apply H; auto.
Qed.

(** removal of everything under p in a context *)
Lemma detach_here_spec st g cont F R base p :
  base_of g cont R base -> pic st g cont F R -> indices_ok p ->
  exists st', detach_here (Some (ctx_at base p)) st = Some st' /\
    pic st' g cont F R /\ clean st' g p /\ gframe st st' g p /\
    udrop st' = udrop st /\ udet st' = S (udet st) /\
    frag (rdom (ur st')) = frag (rdom (ur st)) /\
    (forall h, h <> g -> rgrp (ur st') h = rgrp (ur st) h) /\
    rgrp (ur st') g = keep (rev p) (rgrp (ur st) g) /\
    (forall q, q <> cont -> kids (rdom (ur st')) q = kids (rdom (ur st)) q) /\
    (forall m, (forall q, under p q -> ~ In (q, m) (sh st g)) ->
        par (rdom (ur st')) m = par (rdom (ur st)) m) /\
    (forall q m, under p q -> In (q, m) (sh st g) -> par (rdom (ur st')) m = None).
Proof.
  intros B P I. unfold detach_here.
  rewrite remove_child_ctx_at, (remove_child_base g cont R) by auto.
  destruct (remove_here_spec (ur st) g cont F R (pos_default ++ rev p) P) as
    (s' & E & G & G' & PI & FR & K & P1 & P2).
  { apply indices_ok_pos; auto. }
  rewrite E. simpl in *. eexists; split; [reflexivity|]. simpl.
  rewrite rev_involutive in *.
  split; [exact PI|]. split; [|split; [|split; [|split; [|split; [|split; [|split; [|split; [|split]]]]]]]]; auto.
  - intros q n U. rewrite in_sh. simpl. rewrite G. unfold keep. rewrite filter_In. simpl.
    rewrite !rev_involutive. rewrite (proj2 (underb_iff p q) U). simpl. intros []; discriminate.
  - intros q n U. rewrite !in_sh. simpl. rewrite G. unfold keep. rewrite filter_In. simpl.
    rewrite !rev_involutive. destruct (underb p q) eqn:Eb; simpl.
    + apply underb_iff in Eb. contradiction.
    + tauto.
  - intros m H. apply P1. intros k Hk U. apply (H (rev k)); auto.
    apply in_sh. rewrite rev_involutive. auto.
  - intros q m U Hi. apply in_sh in Hi. apply (P2 (rev q)); auto. rewrite rev_involutive; auto.
Qed.

(** a detach on a clean position changes nothing *)
Lemma detach_here_clean st g cont F R base p :
  base_of g cont R base -> pic st g cont F R -> indices_ok p -> clean st g p ->
  exists st', detach_here (Some (ctx_at base p)) st = Some st' /\
    pic st' g cont F R /\ clean st' g p /\
    udrop st' = udrop st /\ udet st' = S (udet st) /\ frame [] [] st st'.
Proof.
  intros B P I C.
  destruct (detach_here_spec st g cont F R base p B P I)
    as (st' & E & P' & C' & GF & U & Ud & FR & G1 & G2 & K & Pa & _).
  exists st'. split; [auto|]. split; [auto|]. split; [auto|]. split; [auto|]. split; [auto|].
  constructor.
  - apply P'.
  - auto.
  - intros h _. destruct (Nat.eq_dec h g) as [->|]; auto. rewrite G2. apply clean_keep; auto.
  - intros q _. destruct (Nat.eq_dec q cont) as [->|]; auto.
    destruct P as (_ & _ & K1), P' as (_ & _ & K2). rewrite K1, K2, G2, clean_keep; auto.
  - intros m _. apply Pa. intros q Hu. apply C; auto.
Qed.

Lemma keeps_of_frame_nil st st' N Gs : frame [] [] st st' -> keeps N Gs st st'.
Proof. intro F. eapply frame_keeps; eauto; simpl; tauto. Qed.

(** changing only the blocker cell *)
Lemma frame_drop N Gs st st' d k : frame N Gs st st' -> frame N Gs st (mkU (ur st') d k).
Proof. intros [A B C D E]; constructor; auto. Qed.
Lemma good_drop f : forall st d k, good st f <-> good (mkU (ur st) d k) f.
Proof.
  intros. split; intro G.
  - induction f as [|n g a m ch IH|a cs IH|c IH] using fut_ind'; simpl in *; auto.
    + intuition.
    + destruct G as [G1 G2]. split; auto. apply good_all. apply good_all in G2.
      rewrite Forall_forall in *. auto.
  - induction f as [|n g a m ch IH|a cs IH|c IH] using fut_ind'; simpl in *; auto.
    + intuition.
    + destruct G as [G1 G2]. split; auto. apply good_all. apply good_all in G2.
      rewrite Forall_forall in *. auto.
Qed.

Lemma blocker_drop_ur a st : ur (blocker_drop a st) = ur st.
Proof. unfold blocker_drop. destruct (udrop st); auto. destruct (Nat.eqb a0 a); auto. Qed.

Lemma frame_blocker N Gs a st st' : frame N Gs st st' -> frame N Gs st (blocker_drop a st').
Proof. intros [A B C D E]; constructor; rewrite blocker_drop_ur; auto. Qed.

Lemma blocker_drop_none a st : udrop st = None -> udrop (blocker_drop a st) = None.
Proof. unfold blocker_drop. intro H; rewrite H; auto. Qed.
Lemma blocker_drop_own a st : udrop st = Some a -> udrop (blocker_drop a st) = None.
Proof. unfold blocker_drop. intro H; rewrite H, Nat.eqb_refl; auto. Qed.
Lemma blocker_drop_sub a st b : udrop st = Some b \/ udrop st = None ->
  udrop (blocker_drop a st) = Some b \/ udrop (blocker_drop a st) = None.
Proof.
  unfold blocker_drop. intros [H|H]; rewrite H; auto.
  destruct (Nat.eqb b a); auto.
Qed.

(** the root picture of a container's own group, emptied *)
Lemma empty_own_group st n g ch a m : good st (FElem n g a m ch) ->
  ~ In n (nodes ch) -> ~ In g (gids ch) ->
  exists r, remove_child_ctx (CContainer g n) pos_default (ur st) = Some r /\
    let st' := with_r st r in
    good st' ch /\ frame (nodes (FElem n g a m ch)) (gids (FElem n g a m ch)) st st' /\
    kids (rdom r) n = F0 n.
Proof.
  intros (G1 & G2 & G3 & G4 & G5) N1 N2.
  destruct (remove_here_spec (ur st) g n (F0 n) [] [] G3 I)
    as (s' & E & G & G' & PI & FR & K & P1 & P2).
  simpl in E. exists s'. split; auto. simpl.
  assert (KP : keep [] (rgrp (ur st) g) = []).
  { unfold keep. clear. simpl. induction (rgrp (ur st) g); simpl; auto.
    rewrite (proj2 (underb_iff [] _) (under_nil _)). simpl. auto. }
  assert (INN : forall k v, In (k, v) (rgrp (ur st) g) -> In v (nodes ch)).
  { intros k v H. eapply entries_nodes with (q := rev k). apply G4. apply in_sh.
    rewrite rev_involutive. eauto. }
  split; [|split].
  - eapply good_keeps; [|exact G5]. repeat split; simpl.
    + apply PI.
    + apply PI.
    + apply PI.
    + auto.
    + intros h Hh. apply G'. intro; subst; contradiction.
    + intros q Hq. apply K. intro; subst; contradiction.
    + intros v Hv.
      destruct (in_dec Nat.eq_dec v (map snd (rgrp (ur st) g))) as [Hi|Hi].
      * right. apply in_map_iff in Hi as ([k v'] & H1 & H2). simpl in H1; subst v'.
        apply (P2 k v H2). apply under_nil.
      * left. apply P1. intros k Hk _. apply Hi. apply in_map_iff. exists (k, v); auto.
  - constructor; simpl.
    + apply PI.
    + auto.
    + intros h Hh. apply G'. intro; subst; apply Hh; auto.
    + intros q Hq. apply K. intro; subst; apply Hq; auto.
    + intros v Hv. apply P1. intros k Hk _. apply Hv. right. eauto.
  - destruct PI as (_ & _ & K1). rewrite K1, G, KP. simpl. rewrite app_nil_r. auto.
Qed.

Definition drop_own (n : node) (g : gid) (a : addr) (m : addmode) (c : option ctx) (st : ustate)
  : option ustate :=
  match m with
  | Added =>
      let (blocked, st1) := block_until_drop a st in
      if blocked then Some st1 else detach_here c st1
  | _ =>
      match remove_child_ctx (CContainer g n) pos_default (ur st) with
      | None => None
      | Some r => Some (with_r st r)
      end
  end.
Lemma drop_elem_eq n g a m ch c st : drop_fut (FElem n g a m ch) c st =
  match drop_own n g a m c st with
  | None => None
  | Some st2 => match drop_fut ch c st2 with
                | None => None
                | Some st3 => Some (blocker_drop a st3)
                end
  end.
Proof. reflexivity. Qed.

Lemma drop_comb_eq a cs c st : drop_fut (FComb a cs) c st =
  (let (blocked, st1) := block_until_drop a st in
   match (if blocked then Some st1 else detach_here c st1) with
   | None => None
   | Some st2 => match drop_all c cs st2 with
                 | None => None
                 | Some st3 => Some (blocker_drop a st3)
                 end
   end).
Proof. reflexivity. Qed.

Lemma nodup_flat_in {A} (f : fut -> list A) cs c : NoDup (flat_map f cs) -> In c cs -> NoDup (f c).
Proof.
  induction cs as [|x cs IH]; simpl; intros H Hc; [tauto|].
  destruct Hc as [->|Hc].
  - eapply nodup_app_l; eauto.
  - apply IH; auto. eapply nodup_app_r; eauto.
Qed.

(** dropping inside a position that is already clean: nothing outside the
    dropped future changes, whatever the blocker says *)
Lemma drop_clean f : forall base g cont R F p st,
  base_of g cont R base -> pic st g cont F R -> good st f -> clean st g p -> indices_ok p ->
  NoDup (cont :: nodes f) -> NoDup (g :: gids f) ->
  exists st', drop_fut f (Some (ctx_at base p)) st = Some st' /\
    frame (nodes f) (gids f) st st' /\
    (udrop st' = udrop st \/ udrop st' = None).
Proof.
  induction f as [|n g1 a m ch IH|a cs IH|c IH] using fut_ind';
    intros base g cont R F p st B P G C I N1 N2.
  - exists st. split; auto. split; auto. apply frame_refl. apply P.
  - assert (Nn : ~ In n (nodes ch)) by (inversion N1; subst; inversion H2; auto).
    assert (Ng : ~ In g1 (gids ch)) by (inversion N2; subst; inversion H2; auto).
    assert (STEP : exists st2,
        drop_own n g1 a m (Some (ctx_at base p)) st = Some st2 /\ good st2 ch /\
        frame (nodes (FElem n g1 a m ch)) (gids (FElem n g1 a m ch)) st st2 /\
        (udrop st2 = udrop st \/ (udrop st = None /\ udrop st2 = Some a))).
    { assert (ADD : exists st2,
        (let (blocked, st1) := block_until_drop a st in
            if blocked then Some st1 else detach_here (Some (ctx_at base p)) st1) = Some st2 /\
        good st2 ch /\ frame [] [] st st2 /\
        (udrop st2 = udrop st \/ (udrop st = None /\ udrop st2 = Some a))).
      { unfold block_until_drop. destruct (udrop st) eqn:U.
        - exists st. split; auto. split; [apply G|]. split; auto. apply frame_refl; apply P.
        - destruct (detach_here_clean (mkU (ur st) (Some a) (udet st)) g cont F R base p B P I C)
            as (st2 & E & P2 & C2 & U2 & _ & FR2).
          exists st2. split; auto. split.
          + eapply good_keeps; [apply keeps_of_frame_nil; exact FR2|].
            apply (good_drop ch st (Some a) (udet st)). apply G.
          + split; [destruct FR2; constructor; auto|]. right; auto. }
      destruct m.
      - destruct (empty_own_group st n g1 ch a ShouldNotAdd G Nn Ng) as (r & E & G' & FR' & _).
        unfold drop_own. rewrite E. exists (with_r st r). auto.
      - destruct (empty_own_group st n g1 ch a ShouldAdd G Nn Ng) as (r & E & G' & FR' & _).
        unfold drop_own. rewrite E. exists (with_r st r). auto.
      - destruct ADD as (st2 & E & G2 & FR2 & U2). exists st2. split; [exact E|].
        split; [exact G2|]. split; [|exact U2].
        eapply frame_mono; [exact FR2| |]; intros x []. }
    destruct STEP as (st2 & E2 & G2 & FR2 & U2).
    rewrite drop_elem_eq, E2.
    assert (KP : keeps [cont] [g] st st2).
    { eapply frame_keeps; [exact FR2| |].
      - intros x [<-|[]] Hx. inversion N1; subst. contradiction.
      - intros x [<-|[]] Hx. inversion N2; subst. contradiction. }
    destruct (IH base g cont R F p st2 B) as (st3 & E3 & FR3 & U3); auto.
    + eapply pic_keeps; eauto.
    + intros q v U H. apply (C q v U). unfold sh in *.
      destruct KP as (_ & _ & KG & _). rewrite KG in H by (simpl; auto). auto.
    + inversion N1; subst. inversion H2; subst. constructor; auto. simpl in H1. tauto.
    + inversion N2; subst. inversion H2; subst. constructor; auto. simpl in H1. tauto.
    + rewrite E3. eexists; split; [reflexivity|]. split.
      * apply frame_blocker. eapply frame_trans; [exact FR2|].
        eapply frame_mono; eauto; intros x Hx; simpl; auto.
      * destruct U2 as [U2|[U2 U2']].
        -- destruct (udrop st) eqn:U.
           ++ destruct (blocker_drop_sub a st3 a0) as [H|H]; auto.
              destruct U3 as [H|H]; rewrite H; auto.
           ++ right. apply blocker_drop_none. destruct U3; congruence.
        -- right. destruct U3 as [H|H].
           ++ apply blocker_drop_own. congruence.
           ++ apply blocker_drop_none. auto.
  - rewrite drop_comb_eq.
    assert (STEP : exists st2,
        (let (blocked, st1) := block_until_drop a st in
            if blocked then Some st1 else detach_here (Some (ctx_at base p)) st1) = Some st2 /\
        good st2 (FComb a cs) /\ frame [] [] st st2 /\
        (udrop st2 = udrop st \/ (udrop st = None /\ udrop st2 = Some a))).
    { unfold block_until_drop. destruct (udrop st) eqn:U.
      - exists st. split; auto. split; [apply G|]. split; auto. apply frame_refl; apply P.
      - destruct (detach_here_clean (mkU (ur st) (Some a) (udet st)) g cont F R base p B P I C)
          as (st2 & E & P2 & C2 & U2 & _ & FR2).
        exists st2. split; auto. split.
        + eapply good_keeps; [apply keeps_of_frame_nil; exact FR2|].
          apply (good_drop (FComb a cs) st (Some a) (udet st)). apply G.
        + split; [destruct FR2; constructor; auto|]. right; auto. }
    destruct STEP as (st2 & E2 & G2 & FR2 & U2).
    destruct (block_until_drop a st) as [b st1]. rewrite E2.
    assert (P2 : pic st2 g cont F R) by (eapply pic_keeps; [apply keeps_of_frame_nil; exact FR2|auto]).
    assert (C2 : clean st2 g p).
    { intros q v U H. apply (C q v U). unfold sh in *. rewrite (fr_grp _ _ _ _ FR2) in H; auto. }
    assert (ALL : forall l st2, incl l cs -> Forall (good st2) l -> pic st2 g cont F R -> clean st2 g p ->
      NoDup (flat_map nodes l) -> NoDup (flat_map gids l) ->
      exists st3, drop_all (Some (ctx_at base p)) l st2 = Some st3 /\
        frame (flat_map nodes l) (flat_map gids l) st2 st3 /\
        (udrop st3 = udrop st2 \/ udrop st3 = None)).
    { clear st2 E2 G2 FR2 U2 P2 C2.
      induction l as [|f l IHl]; intros st2 Hl Gl P2 C2 Nl1 Nl2.
      - exists st2. split; auto. split; auto. apply frame_refl; apply P2.
      - inversion Gl; subst. rewrite Forall_forall in IH.
        assert (Hin : In f cs) by (apply Hl; simpl; auto).
        simpl in N1, N2. inversion N1; subst. inversion N2; subst.
        destruct (IH f Hin base g cont R F p st2) as (st3 & E3 & FR3 & U3); auto.
        + constructor.
          * intro H; apply H3. apply in_flat_map; eauto.
          * eapply nodup_flat_in; eauto.
        + constructor.
          * intro H; apply H5. apply in_flat_map; eauto.
          * eapply nodup_flat_in; eauto.
        + simpl. rewrite E3.
          destruct (IHl st3) as (st4 & E4 & FR4 & U4).
          * intros x Hx; apply Hl; simpl; auto.
          * rewrite Forall_forall in *. intros x Hx. eapply good_keeps; [|apply H2; auto].
            eapply frame_keeps; [exact FR3| |].
            -- intros y Hy1 Hy2. simpl in Nl1. eapply nodup_app_disj; [exact Nl1|exact Hy2|].
               apply in_flat_map; eauto.
            -- intros y Hy1 Hy2. simpl in Nl2. eapply nodup_app_disj; [exact Nl2|exact Hy2|].
               apply in_flat_map; eauto.
          * eapply pic_keeps; [|exact P2]. eapply frame_keeps; [exact FR3| |].
            -- intros y [<-|[]] Hy2. apply H3. apply in_flat_map; eauto.
            -- intros y [<-|[]] Hy2. apply H5. apply in_flat_map; eauto.
          * intros q v U H. apply (C2 q v U). unfold sh in *.
            rewrite (fr_grp _ _ _ _ FR3) in H; auto. intro Hg. apply H5. apply in_flat_map; eauto.
          * simpl in Nl1. eapply nodup_app_r; eauto.
          * simpl in Nl2. eapply nodup_app_r; eauto.
          * exists st4. split; auto. split.
            -- simpl. eapply frame_trans; [eapply frame_mono; [exact FR3| |]|eapply frame_mono; [exact FR4| |]];
                 intros x Hx; apply in_app_iff; auto.
            -- destruct U4 as [->|]; auto. }
    destruct G2 as [_ G2]. apply good_all in G2.
    simpl in N1, N2.
    destruct (ALL cs st2) as (st3 & E3 & FR3 & U3); auto.
    + apply incl_refl.
    + inversion N1; auto.
    + inversion N2; auto.
    + rewrite E3. eexists; split; [reflexivity|]. split.
      * apply frame_blocker. simpl. eapply frame_trans; [|exact FR3].
        eapply frame_mono; [exact FR2| |]; intros x [].
      * destruct U2 as [U2|[U2 U2']].
        -- destruct (udrop st) eqn:U.
           ++ destruct (blocker_drop_sub a st3 a0) as [H|H]; auto.
              destruct U3 as [H|H]; rewrite H; auto.
           ++ right. apply blocker_drop_none. destruct U3; congruence.
        -- right. destruct U3 as [H|H].
           ++ apply blocker_drop_own. congruence.
           ++ apply blocker_drop_none. auto.
  - simpl in *. apply IH with (g := g) (cont := cont) (R := R) (F := F); auto.
Qed.

Lemma drop_all_clean l : forall base g cont R F p st,
  base_of g cont R base -> pic st g cont F R -> Forall (good st) l -> clean st g p -> indices_ok p ->
  NoDup (cont :: flat_map nodes l) -> NoDup (g :: flat_map gids l) ->
  exists st', drop_all (Some (ctx_at base p)) l st = Some st' /\
    frame (flat_map nodes l) (flat_map gids l) st st' /\
    (udrop st' = udrop st \/ udrop st' = None).
Proof.
  induction l as [|f l IHl]; intros base g cont R F p st B P G C I N1 N2.
  - exists st. split; auto. split; auto. apply frame_refl; apply P.
  - inversion G; subst. simpl in N1, N2. inversion N1; subst. inversion N2; subst.
    rewrite in_app_iff in H3, H5.
    destruct (drop_clean f base g cont R F p st) as (st3 & E3 & FR3 & U3); auto.
    + constructor; [tauto|]. eapply nodup_app_l; eauto.
    + constructor; [tauto|]. eapply nodup_app_l; eauto.
    + simpl. rewrite E3.
      destruct (IHl base g cont R F p st3) as (st4 & E4 & FR4 & U4); auto.
      * eapply pic_keeps; [|exact P]. eapply frame_keeps; [exact FR3| |].
        -- intros y [<-|[]] Hy2. tauto.
        -- intros y [<-|[]] Hy2. tauto.
      * rewrite Forall_forall in *. intros x Hx. eapply good_keeps; [|apply H2; auto].
        eapply frame_keeps; [exact FR3| |].
        -- intros y Hy1 Hy2. eapply nodup_app_disj; [exact H4|exact Hy2|].
           apply in_flat_map; eauto.
        -- intros y Hy1 Hy2. eapply nodup_app_disj; [exact H6|exact Hy2|].
           apply in_flat_map; eauto.
      * intros q v U H. apply (C q v U). unfold sh in *.
        rewrite (fr_grp _ _ _ _ FR3) in H; auto.
      * constructor; [tauto|]. eapply nodup_app_r; eauto.
      * constructor; [tauto|]. eapply nodup_app_r; eauto.
      * exists st4. split; auto. split.
        -- simpl. eapply frame_trans; [eapply frame_mono; [exact FR3| |]|eapply frame_mono; [exact FR4| |]];
             intros x Hx; apply in_app_iff; auto.
        -- destruct U4 as [->|]; auto.
Qed.

(** block + detach at the top of a dropped part, nothing being dropped yet *)
Lemma block_detach_top f st g cont F R base p a :
  base_of g cont R base -> pic st g cont F R -> indices_ok p -> udrop st = None ->
  good st f -> gsub st g p f -> ~ In cont (nodes f) -> ~ In g (gids f) ->
  exists st2,
    (let (blocked, st1) := block_until_drop a st in
     if blocked then Some st1 else detach_here (Some (ctx_at base p)) st1) = Some st2 /\
    pic st2 g cont F R /\ clean st2 g p /\ gframe st st2 g p /\ udrop st2 = Some a /\
    udet st2 = S (udet st) /\
    good st2 f /\ frame (cont :: nodes f) (g :: gids f) st st2.
Proof.
  intros B P I U G GS N1 N2.
  unfold block_until_drop. rewrite U.
  destruct (detach_here_spec (mkU (ur st) (Some a) (udet st)) g cont F R base p B P I)
    as (st2 & E & P2 & C2 & GF & U2 & Ud & FR & G1 & _ & K & Pa & Pb).
  exists st2. split; auto. split; auto. split; auto. split; auto. split; auto. split; auto.
  assert (INN : forall q v, under p q -> In (q, v) (sh st g) -> In v (nodes f)).
  { intros q v Hu Hi. apply GS in Hi; auto. eapply entries_nodes; eauto. }
  split.
  - eapply good_keeps; [|exact G]. split; [apply P2|]. split; [exact FR|].
    split; [intros h Hh; apply G1; intro; subst; contradiction|].
    split; [intros q Hq; apply K; intro; subst; contradiction|].
    intros v Hv.
    destruct (existsb (fun e => andb (Nat.eqb (snd e) v) (underb p (fst e))) (sh st g)) eqn:Ex.
    + right. apply existsb_exists in Ex as ([q v'] & H1 & H2).
      apply andb_true_iff in H2 as [H2 H3]. apply Nat.eqb_eq in H2. simpl in H2; subst v'.
      apply underb_iff in H3. eapply Pb; eauto.
    + left. apply Pa. intros q Hu Hi.
      assert (existsb (fun e => andb (Nat.eqb (snd e) v) (underb p (fst e))) (sh st g) = true).
      { apply existsb_exists. exists (q, v). simpl. rewrite Nat.eqb_refl. split; auto.
        simpl. apply underb_iff; auto. }
      congruence.
  - constructor.
    + apply P2.
    + exact FR.
    + intros h Hh. apply G1. intro; subst; apply Hh; simpl; auto.
    + intros q Hq. apply K. intro; subst; apply Hq; simpl; auto.
    + intros v Hv. apply Pa. intros q Hu Hi. apply Hv. right. eapply INN; eauto.
Qed.

Lemma gsub_nil_clean st g p f : gsub st g p f -> entries f p = [] -> clean st g p.
Proof. intros GS E q n U H. apply GS in H; auto. rewrite E in H. inversion H. Qed.

Lemma clean_frame st st' g p N Gs : frame N Gs st st' -> ~ In g Gs -> clean st g p -> clean st' g p.
Proof.
  intros FR H C q n U Hi. apply (C q n U). unfold sh in *. rewrite (fr_grp _ _ _ _ FR) in Hi; auto.
Qed.
Lemma gframe_frame st st' g p N Gs : frame N Gs st st' -> ~ In g Gs -> gframe st st' g p.
Proof.
  intros FR H q n U. unfold sh in *. rewrite (fr_grp _ _ _ _ FR) by auto. tauto.
Qed.
Lemma pic_frame st st' g cont F R N Gs : frame N Gs st st' -> ~ In g Gs -> ~ In cont N ->
  pic st g cont F R -> pic st' g cont F R.
Proof.
  intros FR H1 H2. apply pic_keeps. eapply frame_keeps; [exact FR| |].
  - intros x [<-|[]]; auto.
  - intros x [<-|[]]; auto.
Qed.
Lemma gframe_trans a b c g p : gframe a b g p -> gframe b c g p -> gframe a c g p.
Proof. intros H1 H2 q n U. rewrite (H2 q n U). apply H1; auto. Qed.

(** dropping a part of the tree, in its own position *)
Lemma drop_ok f : forall base g cont R F p st,
  base_of g cont R base -> pic st g cont F R -> good st f -> gsub st g p f ->
  udrop st = None -> indices_ok p ->
  NoDup (cont :: nodes f) -> NoDup (g :: gids f) ->
  exists st', drop_fut f (Some (ctx_at base p)) st = Some st' /\
    pic st' g cont F R /\ clean st' g p /\ gframe st st' g p /\ udrop st' = None /\
    frame (cont :: nodes f) (g :: gids f) st st'.
Proof.
  induction f as [|n g1 a m ch IH|a cs IH|c IH] using fut_ind';
    intros base g cont R F p st B P G GS U I N1 N2.
  - exists st. split; auto. split; auto. split; [eapply gsub_nil_clean; eauto|].
    split; [intros q n _; tauto|]. split; auto. apply frame_refl; apply P.
  - assert (NM : entries (FElem n g1 a m ch) p = [] -> exists st',
       drop_fut (FElem n g1 a m ch) (Some (ctx_at base p)) st = Some st' /\
       pic st' g cont F R /\ clean st' g p /\ gframe st st' g p /\ udrop st' = None /\
       frame (cont :: nodes (FElem n g1 a m ch)) (g :: gids (FElem n g1 a m ch)) st st').
    { intro EN. assert (C : clean st g p) by (eapply gsub_nil_clean; eauto).
      destruct (drop_clean _ base g cont R F p st B P G C I N1 N2) as (st' & E & FR & U').
      exists st'. split; auto.
      inversion N1; subst. inversion N2; subst.
      split; [eapply pic_frame; eauto|]. split; [eapply clean_frame; eauto|].
      split; [eapply gframe_frame; eauto|]. split; [destruct U'; congruence|].
      eapply frame_mono; [exact FR| |]; intros x Hx; simpl; auto. }
    destruct m; try (apply NM; reflexivity). clear NM.
    inversion N1; subst. inversion N2; subst.
    destruct (block_detach_top (FElem n g1 a Added ch) st g cont F R base p a B P I U G GS H1 H3)
      as (st2 & E2 & P2 & C2 & GF2 & U2 & _ & G2 & FR2).
    rewrite drop_elem_eq. unfold drop_own. rewrite E2.
    simpl in H1, H3. inversion H2; subst. inversion H4; subst.
    destruct (drop_clean ch base g cont R F p st2 B P2) as (st3 & E3 & FR3 & U3); auto.
    + apply G2.
    + constructor; auto.
    + constructor; auto.
    + rewrite E3. eexists; split; [reflexivity|].
      assert (FR4 : frame (nodes ch) (gids ch) st2 (blocker_drop a st3)) by (apply frame_blocker; auto).
      split; [eapply pic_frame; eauto|]. split; [eapply clean_frame; eauto|].
      split; [eapply gframe_trans; [exact GF2|eapply gframe_frame; eauto]|].
      split.
      * destruct U3 as [U3|U3]; [apply blocker_drop_own; congruence|apply blocker_drop_none; auto].
      * eapply frame_trans; [exact FR2|]. eapply frame_mono; [exact FR4| |]; intros x Hx; simpl; auto.
  - inversion N1; subst. inversion N2; subst.
    destruct (block_detach_top (FComb a cs) st g cont F R base p a B P I U G GS H1 H3)
      as (st2 & E2 & P2 & C2 & GF2 & U2 & _ & G2 & FR2).
    rewrite drop_comb_eq. destruct (block_until_drop a st) as [b st1]. rewrite E2.
    destruct G2 as [_ G2]. apply good_all in G2.
    destruct (drop_all_clean cs base g cont R F p st2 B P2) as (st3 & E3 & FR3 & U3); auto.
    rewrite E3. eexists; split; [reflexivity|].
    assert (FR4 : frame (nodes (FComb a cs)) (gids (FComb a cs)) st2 (blocker_drop a st3))
      by (apply frame_blocker; auto).
    split; [eapply pic_frame; eauto|]. split; [eapply clean_frame; eauto|].
    split; [eapply gframe_trans; [exact GF2|eapply gframe_frame; eauto]|].
    split.
    + destruct U3 as [U3|U3]; [apply blocker_drop_own; congruence|apply blocker_drop_none; auto].
    + eapply frame_trans; [exact FR2|]. eapply frame_mono; [exact FR4| |]; intros x Hx; simpl; auto.
  - simpl in *. apply IH with (g := g) (cont := cont) (R := R) (F := F); auto.
Qed.

(** ** polling *)
Definition snodes (s : sched) : list node := flat_map nodes (created s).
Definition sgids (s : sched) : list gid := flat_map gids (created s).
Definition fresh (st : ustate) (f : fut) : Prop := good st f /\ unadded f.
Definition sfresh (st : ustate) (s : sched) : Prop := Forall (fresh st) (created s).

Definition lcreated : list (nat * sched) -> list fut :=
  fix go (l : list (nat * sched)) : list fut :=
    match l with [] => [] | (_, s') :: t => created s' ++ go t end.
Definition bcreated : list baction -> list fut :=
  fix go (l : list baction) : list fut :=
    match l with
    | [] => []
    | BPoll s' :: t => created s' ++ go t
    | BReplace f :: t => f :: go t
    end.

Lemma fresh_frame N Gs st st' l : frame N Gs st st' ->
  (forall x, In x (flat_map nodes l) -> In x N -> False) ->
  (forall x, In x (flat_map gids l) -> In x Gs -> False) ->
  Forall (fresh st) l -> Forall (fresh st') l.
Proof.
  intros FR H1 H2 H. rewrite Forall_forall in *. intros f Hf. destruct (H f Hf) as [A B].
  split; auto. eapply good_keeps; [|exact A]. eapply frame_keeps; [exact FR| |].
  - intros x Hx. apply H1. apply in_flat_map; eauto.
  - intros x Hx. apply H2. apply in_flat_map; eauto.
Qed.

Definition poll_post (st : ustate) (g : gid) (cont : node) (F R : list node) (p : path)
  (Ns : list node) (Gs : list gid) (f' : fut) (st' : ustate) : Prop :=
  pic st' g cont F R /\ good st' f' /\ gsub st' g p f' /\ gframe st st' g p /\
  udrop st' = None /\
  frame (cont :: Ns) (g :: Gs) st st' /\
  incl (nodes f') Ns /\ incl (gids f') Gs /\ NoDup (nodes f') /\ NoDup (gids f').

Definition poll_ok_at (s : sched) : Prop := forall f base g cont R F p st,
  base_of g cont R base -> pic st g cont F R -> good st f -> gsub st g p f ->
  udrop st = None -> sfresh st s -> indices_ok p ->
  NoDup (cont :: nodes f ++ snodes s) -> NoDup (g :: gids f ++ sgids s) ->
  exists f' st', poll s f (Some (ctx_at base p)) st = Some (f', st') /\
    poll_post st g cont F R p (nodes f ++ snodes s) (gids f ++ sgids s) f' st'.

Lemma incl_app_l' {A} (a b : list A) : incl a (a ++ b).
Proof. intros x H; apply in_app_iff; auto. Qed.

Lemma poll_noop st f g cont F R p Ns Gs :
  pic st g cont F R -> good st f -> gsub st g p f -> udrop st = None ->
  NoDup (cont :: nodes f ++ Ns) -> NoDup (g :: gids f ++ Gs) ->
  poll_post st g cont F R p (nodes f ++ Ns) (gids f ++ Gs) f st.
Proof.
  intros P G GS U N1 N2. inversion N1; subst. inversion N2; subst.
  split; auto. split; auto. split; auto. split; [intros q n _; tauto|]. split; auto.
  split; [apply frame_refl; apply P|]. split; [apply incl_app_l'|]. split; [apply incl_app_l'|].
  split; eapply nodup_app_l; eauto.
Qed.

Lemma indices_ok_snoc p i : indices_ok p -> (i < u32_max)%N -> indices_ok (p ++ [i]).
Proof. intros H1 H2. apply Forall_app. split; auto. Qed.

(** the first-poll step of a container *)
Lemma add_self_ok st n g1 a m ch base g cont R F p :
  base_of g cont R base -> pic st g cont F R -> good st (FElem n g1 a m ch) ->
  gsub st g p (FElem n g1 a m ch) ->
  ~ In cont (nodes (FElem n g1 a m ch)) -> ~ In g (gids (FElem n g1 a m ch)) ->
  ~ In n (nodes ch) ->
  exists m' st1, add_self n m (Some (ctx_at base p)) st = Some (m', st1) /\
    m' <> ShouldAdd /\ (m = ShouldNotAdd -> m' = ShouldNotAdd) /\
    pic st1 g cont F R /\ good st1 (FElem n g1 a m' ch) /\ gsub st1 g p (FElem n g1 a m' ch) /\
    gframe st st1 g p /\ udrop st1 = udrop st /\ frame [cont; n] [g] st st1.
Proof.
  intros B P G GS N1 N2 N3.
  destruct m.
  1,3: eexists; exists st; split; [reflexivity|]; split; [congruence|]; split; [auto|];
    split; [auto|]; split; [auto|]; split; [auto|]; split; [intros q v _; tauto|];
    split; [auto|]; apply frame_refl; apply P.
  destruct G as (G1 & G2 & G3 & G4 & G5). simpl in N1, N2.
  unfold add_self. rewrite add_child_ctx_at, (add_child_base g cont R) by auto. simpl.
  destruct (add_here_spec (ur st) g cont F R (rev p) n P) as
    (s' & ga & gb & E & H1 & H2 & H3 & PI & FR & P1 & P2 & K2); auto.
  { rewrite rev_involutive, <- shown_fst. rewrite in_map_iff. intros ([q v] & Hq & Hi).
    simpl in Hq. subst q. apply (GS p v (under_refl p)) in Hi. simpl in Hi. tauto. }
  unfold pos_default. simpl. rewrite E. exists Added, (with_r st s'). split; auto.
  split; [congruence|]. split; [congruence|]. split; [exact PI|].
  assert (FRM : frame [cont; n] [g] st (with_r st s')).
  { constructor; simpl.
    - apply PI.
    - auto.
    - intros h Hh. apply H3. intro; subst; apply Hh; auto.
    - intros q Hq. apply K2. intro; subst; apply Hq; auto.
    - intros v Hv. apply P2. intro; subst; apply Hv; auto. }
  assert (SH : forall q v, In (q, v) (sh (with_r st s') g) <-> (q, v) = (p, n) \/ In (q, v) (sh st g)).
  { intros q v. rewrite !in_sh. simpl. rewrite H1, H2, !in_app_iff. simpl.
    assert (X : (rev p, n) = (rev q, v) <-> (q, v) = (p, n)).
    { split; intro X; inversion X; subst; auto.
      rewrite <- (rev_involutive q), <- H0, rev_involutive; auto. }
    rewrite X. tauto. }
  split; [|split; [|split; [|split]]].
  - cbn [good]. split; [simpl; rewrite FR; auto|]. split; [congruence|].
    split; [|split].
    + destruct G3 as (A1 & A2 & A3). unfold pic, picture. simpl.
      rewrite H3 by (intro; subst; apply N2; auto).
      rewrite K2 by (intro; subst; apply N1; auto).
      split; [apply PI|]. auto.
    + unfold sh. simpl. rewrite H3; [apply G4|]. intro; subst; apply N2; auto.
    + eapply good_keeps; [|exact G5]. eapply frame_keeps; [exact FRM| |].
      * intros x Hx [<-|[<-|[]]]; auto.
      * intros x Hx [<-|[]]; auto.
  - intros q v Hu. rewrite SH. simpl. split.
    + intros [H|H]; auto. apply (GS q v Hu) in H. inversion H.
    + intros [H|[]]; auto.
  - intros q v Hu. rewrite SH. split; [|auto]. intros [H|H]; auto. inversion H; subst.
    exfalso. apply Hu. apply under_refl.
  - auto.
  - auto.
Qed.

Lemma nodup_replace {A} (a a' b : list A) :
  NoDup (a ++ b) -> incl a' a -> NoDup a' -> NoDup (a' ++ b).
Proof.
  intros N I N'. apply nodup_app_intro; auto.
  - eapply nodup_app_r; eauto.
  - intros x H1 H2. eapply nodup_app_disj; [exact N| |exact H2]. auto.
Qed.

Lemma set_nth_split {A} (l1 l2 : list A) x y : set_nth (length l1) y (l1 ++ x :: l2) = l1 ++ y :: l2.
Proof. induction l1; simpl; f_equal; auto. Qed.

Lemma nth_error_other {A} (l1 l2 : list A) x y j : j <> length l1 ->
  nth_error (l1 ++ x :: l2) j = nth_error (l1 ++ y :: l2) j.
Proof.
  intro H. destruct (Nat.lt_ge_cases j (length l1)).
  - rewrite !nth_error_app1; auto.
  - rewrite !nth_error_app2 by auto. destruct (j - length l1) eqn:E; auto. lia.
Qed.

Lemma comb_perm {A B} (f : A -> list B) l1 c l2 S T :
  Permutation (flat_map f (l1 ++ c :: l2) ++ S ++ T) ((f c ++ S) ++ (flat_map f l1 ++ flat_map f l2) ++ T).
Proof.
  rewrite flat_map_app. simpl. rewrite <- !app_assoc.
  rewrite Permutation_app_swap_app. apply Permutation_app_head.
  rewrite (app_assoc (flat_map f l1)), (app_assoc (flat_map f l1)). apply Permutation_app_swap_app.
Qed.

Definition comb_loop (c : option ctx) :=
  fix go (l : list (nat * sched)) (cs : list fut) (st : ustate) : option (list fut * ustate) :=
    match l with
    | [] => Some (cs, st)
    | (i, s') :: t =>
        match nth_error cs i, c with
        | Some ch, Some cx =>
            match poll s' ch (Some (CChild cx (N.of_nat i))) st with
            | None => None
            | Some (ch', st') => go t (set_nth i ch' cs) st'
            end
        | Some _, None => None
        | None, _ => go t cs st
        end
    end.
Definition block_loop (c : option ctx) :=
  fix go (l : list baction) (cur : fut) (st : ustate) : option (fut * ustate) :=
    match l with
    | [] => Some (cur, st)
    | BPoll s' :: t =>
        match poll s' cur c st with
        | None => None
        | Some (cur', st') => go t cur' st'
        end
    | BReplace f' :: t =>
        match drop_fut cur c st with
        | None => None
        | Some st' => go t f' st'
        end
    end.
Lemma poll_comb_eq l a cs c st : poll (SComb l) (FComb a cs) c st =
  match comb_loop c l cs st with None => None | Some (cs', st') => Some (FComb a cs', st') end.
Proof. reflexivity. Qed.
Lemma poll_block_eq l cur c st : poll (SBlock l) (FBlock cur) c st =
  match block_loop c l cur st with None => None | Some (cur', st') => Some (FBlock cur', st') end.
Proof. reflexivity. Qed.

Lemma gsub_child st g p a cs i ch : nth_error cs i = Some ch -> gsub st g p (FComb a cs) ->
  gsub st g (p ++ [N.of_nat i]) ch.
Proof.
  intros H GS q n Hu. rewrite (GS q n) by (eapply under_trans; [apply under_app|exact Hu]).
  rewrite entries_comb, entries_list_in. split.
  - intros (j & c & H1 & H2). simpl in H2.
    assert (N.of_nat i = N.of_nat j)
      by (eapply under_snoc_inj; [exact Hu|eapply entries_under; exact H2]).
    apply Nnat.Nat2N.inj in H0. subst j. congruence.
  - intro H1. exists i, ch. auto.
Qed.

Lemma gsub_set st st' g p a l1 l2 ch ch' :
  gsub st g p (FComb a (l1 ++ ch :: l2)) ->
  gframe st st' g (p ++ [N.of_nat (length l1)]) ->
  gsub st' g (p ++ [N.of_nat (length l1)]) ch' ->
  gsub st' g p (FComb a (l1 ++ ch' :: l2)).
Proof.
  intros GS GF GS' q n Hu. rewrite entries_comb, entries_list_in. simpl.
  destruct (underb (p ++ [N.of_nat (length l1)]) q) eqn:E.
  - apply underb_iff in E. rewrite (GS' q n E). split.
    + intro H. exists (length l1), ch'. rewrite nth_error_app2, Nat.sub_diag; auto.
    + intros (j & c & H1 & H2).
      assert (N.of_nat (length l1) = N.of_nat j)
        by (eapply under_snoc_inj; [exact E|eapply entries_under; exact H2]).
      apply Nnat.Nat2N.inj in H. subst j. rewrite nth_error_app2, Nat.sub_diag in H1; auto.
      simpl in H1. congruence.
  - assert (NU : ~ under (p ++ [N.of_nat (length l1)]) q)
      by (intro X; apply underb_iff in X; congruence).
    rewrite (GF q n NU), (GS q n Hu), entries_comb, entries_list_in. simpl.
    split; intros (j & c & H1 & H2); exists j, c; (split; auto);
      (erewrite nth_error_other; [exact H1|]; intro; subst j; apply NU;
       eapply entries_under; exact H2).
Qed.

Lemma comb_loop_ok l : Forall (fun e => poll_ok_at (snd e)) l ->
  forall a cs base g cont R F p st,
  base_of g cont R base -> pic st g cont F R -> good st (FComb a cs) -> gsub st g p (FComb a cs) ->
  udrop st = None -> Forall (fresh st) (lcreated l) -> indices_ok p ->
  NoDup (cont :: nodes (FComb a cs) ++ flat_map nodes (lcreated l)) ->
  NoDup (g :: gids (FComb a cs) ++ flat_map gids (lcreated l)) ->
  exists cs' st', comb_loop (Some (ctx_at base p)) l cs st = Some (cs', st') /\
    poll_post st g cont F R p (nodes (FComb a cs) ++ flat_map nodes (lcreated l))
      (gids (FComb a cs) ++ flat_map gids (lcreated l)) (FComb a cs') st'.
Proof.
  induction 1 as [|[i s] l OK _ IH]; intros a cs base g cont R F p st B P G GS U S I N1 N2.
  - exists cs, st. split; auto. apply poll_noop; auto.
  - simpl in OK. cbn [comb_loop lcreated]. destruct (nth_error cs i) as [ch|] eqn:E.
    2:{ cbn [lcreated] in S, N1, N2. apply Forall_app in S as [S1 S2].
        rewrite !(flat_map_app _ (created s)) in *.
        destruct (IH a cs base g cont R F p st) as (cs' & st' & E' & PP); auto.
        { inversion N1; subst. constructor.
          - intro X. apply H1. rewrite !in_app_iff in *. tauto.
          - apply nodup_app_intro; [eapply nodup_app_l; eauto|eapply nodup_app_r, nodup_app_r; eauto|].
            intros x X1 X2. eapply nodup_app_disj; [exact H2|exact X1|]. apply in_app_iff; auto. }
        { inversion N2; subst. constructor.
          - intro X. apply H1. rewrite !in_app_iff in *. tauto.
          - apply nodup_app_intro; [eapply nodup_app_l; eauto|eapply nodup_app_r, nodup_app_r; eauto|].
            intros x X1 X2. eapply nodup_app_disj; [exact H2|exact X1|]. apply in_app_iff; auto. }
        exists cs', st'. split; auto.
        destruct PP as (A1 & A2 & A3 & A4 & A5 & A6 & A7 & A8 & A9 & A10).
        split; auto. split; auto. split; auto. split; auto. split; auto.
        assert (IN1 : incl (nodes (FComb a cs) ++ flat_map nodes (lcreated l))
           (nodes (FComb a cs) ++ flat_map nodes (created s) ++ flat_map nodes (lcreated l)))
          by (intros x Hx; rewrite !in_app_iff in *; tauto).
        assert (IG1 : incl (gids (FComb a cs) ++ flat_map gids (lcreated l))
           (gids (FComb a cs) ++ flat_map gids (created s) ++ flat_map gids (lcreated l)))
          by (intros x Hx; rewrite !in_app_iff in *; tauto).
        split; [eapply frame_mono; [exact A6| |]|split; [|split; [|split]]]; auto.
        - intros x [->|Hx]; [left; auto|right; apply IN1; auto].
        - intros x [->|Hx]; [left; auto|right; apply IG1; auto].
        - intros x Hx. apply IN1; auto.
        - intros x Hx. apply IG1; auto. }
    assert (E0 := E). apply nth_error_split in E as (l1 & l2 & -> & LEN). subst i.
    destruct G as [GL GA]. apply good_all in GA.
    cbn [lcreated] in S, N1, N2. apply Forall_app in S as [S1 S2].
    rewrite !(flat_map_app _ (created s)) in *. cbn [nodes gids] in *.
    inversion N1 as [|? ? C1 D1]; subst. inversion N2 as [|? ? C2 D2]; subst.
    pose proof (comb_perm nodes l1 ch l2 (snodes s) (flat_map nodes (lcreated l))) as PN.
    pose proof (comb_perm gids l1 ch l2 (sgids s) (flat_map gids (lcreated l))) as PG.
    unfold snodes, sgids in PN, PG.
    assert (D1' := Permutation_NoDup PN D1). assert (D2' := Permutation_NoDup PG D2).
    assert (MN : forall x, In x (flat_map nodes (l1 ++ ch :: l2) ++ flat_map nodes (created s) ++ flat_map nodes (lcreated l)) <->
      In x ((nodes ch ++ flat_map nodes (created s)) ++ (flat_map nodes l1 ++ flat_map nodes l2) ++ flat_map nodes (lcreated l)))
      by (intro x; split; apply Permutation_in; [exact PN|symmetry; exact PN]).
    assert (MG : forall x, In x (flat_map gids (l1 ++ ch :: l2) ++ flat_map gids (created s) ++ flat_map gids (lcreated l)) <->
      In x ((gids ch ++ flat_map gids (created s)) ++ (flat_map gids l1 ++ flat_map gids l2) ++ flat_map gids (lcreated l)))
      by (intro x; split; apply Permutation_in; [exact PG|symmetry; exact PG]).
    rewrite MN in C1. rewrite MG in C2.
    assert (IP : indices_ok (p ++ [N.of_nat (length l1)])).
    { apply indices_ok_snoc; auto. rewrite app_length in GL. simpl in GL. lia. }
    assert (Gch : good st ch) by (eapply Forall_forall; [exact GA|apply in_app_iff; simpl; auto]).
    destruct (OK ch base g cont R F (p ++ [N.of_nat (length l1)]) st) as (ch' & st1 & E1 & PP1); auto.
    { eapply gsub_child; eauto. }
    { constructor; [|eapply nodup_app_l; eauto]. intro X. apply C1. apply in_app_iff; auto. }
    { constructor; [|eapply nodup_app_l; eauto]. intro X. apply C2. apply in_app_iff; auto. }
    rewrite <- ctx_at_snoc, E1, set_nth_split.
    destruct PP1 as (A1 & A2 & A3 & A4 & A5 & A6 & A7 & A8 & A9 & A10).
    unfold snodes, sgids in *.
    assert (PN' := Permutation_app_swap_app (flat_map nodes l1) (nodes ch') (flat_map nodes l2 ++ flat_map nodes (lcreated l))).
    assert (PG' := Permutation_app_swap_app (flat_map gids l1) (gids ch') (flat_map gids l2 ++ flat_map gids (lcreated l))).
    assert (IN' : incl (flat_map nodes (l1 ++ ch' :: l2)) (flat_map nodes (l1 ++ ch :: l2) ++ flat_map nodes (created s))).
    { intros x Hx. rewrite flat_map_app in *. simpl in *. rewrite !in_app_iff in *.
      destruct Hx as [|[Hx|]]; try tauto. apply A7 in Hx. rewrite in_app_iff in Hx. tauto. }
    assert (IG' : incl (flat_map gids (l1 ++ ch' :: l2)) (flat_map gids (l1 ++ ch :: l2) ++ flat_map gids (created s))).
    { intros x Hx. rewrite flat_map_app in *. simpl in *. rewrite !in_app_iff in *.
      destruct Hx as [|[Hx|]]; try tauto. apply A8 in Hx. rewrite in_app_iff in Hx. tauto. }
    destruct (IH a (l1 ++ ch' :: l2) base g cont R F p st1) as (cs' & st2 & E2 & PP2); auto.
    + split.
      * rewrite app_length in *. simpl in *. auto.
      * apply good_all. apply Forall_forall. intros x Hx. apply in_app_iff in Hx.
        assert (X : x = ch' \/ (In x l1 \/ In x l2)) by (simpl in Hx; intuition auto).
        destruct X as [->|X]; auto. eapply good_keeps.
        2:{ eapply Forall_forall; [exact GA|]. apply in_app_iff. simpl. tauto. }
        eapply frame_keeps; [exact A6| |].
        -- intros y Y1 Y2.
           assert (Y3 : In y (flat_map nodes l1 ++ flat_map nodes l2)).
           { apply in_app_iff. destruct X; [left|right]; apply in_flat_map; eauto. }
           destruct Y2 as [<-|Y2].
           ++ apply C1. rewrite !in_app_iff in *. tauto.
           ++ eapply nodup_app_disj; [exact D1'|exact Y2|]. apply in_app_iff; auto.
        -- intros y Y1 Y2.
           assert (Y3 : In y (flat_map gids l1 ++ flat_map gids l2)).
           { apply in_app_iff. destruct X; [left|right]; apply in_flat_map; eauto. }
           destruct Y2 as [<-|Y2].
           ++ apply C2. rewrite !in_app_iff in *. tauto.
           ++ eapply nodup_app_disj; [exact D2'|exact Y2|]. apply in_app_iff; auto.
    + eapply gsub_set; eauto.
    + eapply fresh_frame; [exact A6| | |exact S2].
      * intros y Y1 [<-|Y2].
        -- apply C1. rewrite !in_app_iff in *. tauto.
        -- eapply nodup_app_disj; [exact D1'|exact Y2|]. apply in_app_iff; auto.
      * intros y Y1 [<-|Y2].
        -- apply C2. rewrite !in_app_iff in *. tauto.
        -- eapply nodup_app_disj; [exact D2'|exact Y2|]. apply in_app_iff; auto.
    + cbn [nodes]. constructor.
      * intro X. apply C1. apply MN. rewrite in_app_iff in X. rewrite app_assoc, in_app_iff.
        destruct X as [X|X]; auto.
      * rewrite flat_map_app. simpl. rewrite <- !app_assoc.
        eapply Permutation_NoDup; [symmetry; exact PN'|].
        eapply nodup_replace; [|exact A7|exact A9]. rewrite app_assoc in D1'. rewrite <- !app_assoc in *. auto.
    + cbn [gids]. constructor.
      * intro X. apply C2. apply MG. rewrite in_app_iff in X. rewrite app_assoc, in_app_iff.
        destruct X as [X|X]; auto.
      * rewrite flat_map_app. simpl. rewrite <- !app_assoc.
        eapply Permutation_NoDup; [symmetry; exact PG'|].
        eapply nodup_replace; [|exact A8|exact A10]. rewrite app_assoc in D2'. rewrite <- !app_assoc in *. auto.
    + exists cs', st2. split; auto. cbn [nodes gids] in *.
      destruct PP2 as (Q1 & Q2 & Q3 & Q4 & Q5 & Q6 & Q7 & Q8 & Q9 & Q10).
      assert (IN2 : incl (flat_map nodes (l1 ++ ch' :: l2) ++ flat_map nodes (lcreated l))
                (flat_map nodes (l1 ++ ch :: l2) ++ flat_map nodes (created s) ++ flat_map nodes (lcreated l))).
      { rewrite app_assoc. intros x Hx. apply in_app_iff in Hx. apply in_app_iff. destruct Hx as [Hx|Hx]; auto. }
      assert (IG2 : incl (flat_map gids (l1 ++ ch' :: l2) ++ flat_map gids (lcreated l))
                (flat_map gids (l1 ++ ch :: l2) ++ flat_map gids (created s) ++ flat_map gids (lcreated l))).
      { rewrite app_assoc. intros x Hx. apply in_app_iff in Hx. apply in_app_iff. destruct Hx as [Hx|Hx]; auto. }
      split; auto. split; auto. split; auto. split.
      { eapply gframe_trans; [|exact Q4]. intros q n Hq. apply A4. intro X. apply Hq.
        eapply under_trans; [apply under_app|exact X]. }
      split; auto. split.
      { eapply frame_trans; eapply frame_mono; [exact A6| | |exact Q6| |].
        - intros x [->|Hx]; [left; auto|]. right. apply MN. apply in_app_iff; auto.
        - intros x [->|Hx]; [left; auto|]. right. apply MG. apply in_app_iff; auto.
        - intros x [->|Hx]; [left; auto|]. right. apply IN2; auto.
        - intros x [->|Hx]; [left; auto|]. right. apply IG2; auto. }
      split; [intros x Hx; apply IN2; auto|]. split; [intros x Hx; apply IG2; auto|]. auto.
Qed.

Lemma block_loop_ok l : Forall (PB poll_ok_at) l ->
  forall cur base g cont R F p st,
  base_of g cont R base -> pic st g cont F R -> good st cur -> gsub st g p cur ->
  udrop st = None -> Forall (fresh st) (bcreated l) -> indices_ok p ->
  NoDup (cont :: nodes cur ++ flat_map nodes (bcreated l)) ->
  NoDup (g :: gids cur ++ flat_map gids (bcreated l)) ->
  exists cur' st', block_loop (Some (ctx_at base p)) l cur st = Some (cur', st') /\
    poll_post st g cont F R p (nodes cur ++ flat_map nodes (bcreated l))
      (gids cur ++ flat_map gids (bcreated l)) cur' st'.
Proof.
  induction 1 as [|b l OK _ IH]; intros cur base g cont R F p st B P G GS U S I N1 N2.
  - exists cur, st. split; auto. apply poll_noop; auto.
  - destruct b as [s|f']; cbn [block_loop bcreated] in *.
    + apply Forall_app in S as [S1 S2].
      rewrite !(flat_map_app _ (created s)) in *.
      inversion N1 as [|? ? C1 D1]; subst. inversion N2 as [|? ? C2 D2]; subst.
      rewrite app_assoc in C1, D1, C2, D2.
      destruct (OK cur base g cont R F p st) as (c1 & st1 & E1 & PP1); auto.
      { constructor; [|eapply nodup_app_l; eauto]. intro X. apply C1. apply in_app_iff; auto. }
      { constructor; [|eapply nodup_app_l; eauto]. intro X. apply C2. apply in_app_iff; auto. }
      rewrite E1. destruct PP1 as (A1 & A2 & A3 & A4 & A5 & A6 & A7 & A8 & A9 & A10).
      unfold snodes, sgids in *.
      destruct (IH c1 base g cont R F p st1) as (c2 & st2 & E2 & PP2); auto.
      { eapply fresh_frame; [exact A6| | |exact S2].
        - intros y Y1 [<-|Y2]; [apply C1; apply in_app_iff; auto|].
          eapply nodup_app_disj; [exact D1|exact Y2|auto].
        - intros y Y1 [<-|Y2]; [apply C2; apply in_app_iff; auto|].
          eapply nodup_app_disj; [exact D2|exact Y2|auto]. }
      { constructor.
        - intro X. apply C1. apply in_app_iff in X. apply in_app_iff. destruct X; auto.
        - eapply nodup_replace; eauto. }
      { constructor.
        - intro X. apply C2. apply in_app_iff in X. apply in_app_iff. destruct X; auto.
        - eapply nodup_replace; eauto. }
      exists c2, st2. split; auto.
      destruct PP2 as (Q1 & Q2 & Q3 & Q4 & Q5 & Q6 & Q7 & Q8 & Q9 & Q10).
      rewrite !app_assoc.
      assert (IN2 : incl (nodes c1 ++ flat_map nodes (bcreated l))
                ((nodes cur ++ flat_map nodes (created s)) ++ flat_map nodes (bcreated l))).
      { intros x Hx. apply in_app_iff in Hx. apply in_app_iff. destruct Hx as [Hx|Hx]; auto. }
      assert (IG2 : incl (gids c1 ++ flat_map gids (bcreated l))
                ((gids cur ++ flat_map gids (created s)) ++ flat_map gids (bcreated l))).
      { intros x Hx. apply in_app_iff in Hx. apply in_app_iff. destruct Hx as [Hx|Hx]; auto. }
      split; auto. split; auto. split; auto. split; [eapply gframe_trans; eauto|].
      split; auto. split.
      { eapply frame_trans; eapply frame_mono; [exact A6| | |exact Q6| |].
        - intros x [->|Hx]; [left; auto|]. right. apply in_app_iff; auto.
        - intros x [->|Hx]; [left; auto|]. right. apply in_app_iff; auto.
        - intros x [->|Hx]; [left; auto|]. right. apply IN2; auto.
        - intros x [->|Hx]; [left; auto|]. right. apply IG2; auto. }
      split; [intros x Hx; apply IN2; auto|]. split; [intros x Hx; apply IG2; auto|]. auto.
    + clear OK. inversion S as [|? ? S1 S2]; subst. destruct S1 as [S1 S1'].
      cbn [flat_map] in *.
      inversion N1 as [|? ? C1 D1]; subst. inversion N2 as [|? ? C2 D2]; subst.
      destruct (drop_ok cur base g cont R F p st) as (st1 & E1 & P1 & CL & GF & U1 & FR); auto.
      { constructor; [|eapply nodup_app_l; eauto]. intro X. apply C1. apply in_app_iff; auto. }
      { constructor; [|eapply nodup_app_l; eauto]. intro X. apply C2. apply in_app_iff; auto. }
      rewrite E1.
      assert (DJ1 : forall x, In x (nodes f' ++ flat_map nodes (bcreated l)) -> In x (cont :: nodes cur) -> False).
      { intros x Y1 [<-|Y2]; [apply C1; apply in_app_iff; auto|].
        eapply nodup_app_disj; [exact D1|exact Y2|auto]. }
      assert (DJ2 : forall x, In x (gids f' ++ flat_map gids (bcreated l)) -> In x (g :: gids cur) -> False).
      { intros x Y1 [<-|Y2]; [apply C2; apply in_app_iff; auto|].
        eapply nodup_app_disj; [exact D2|exact Y2|auto]. }
      destruct (IH f' base g cont R F p st1) as (c2 & st2 & E2 & PP2); auto.
      { eapply good_keeps; [|exact S1]. eapply frame_keeps; [exact FR| |].
        - intros x X1 X2. eapply DJ1; [|exact X2]. apply in_app_iff; auto.
        - intros x X1 X2. eapply DJ2; [|exact X2]. apply in_app_iff; auto. }
      { intros q n Hu. rewrite unadded_entries by auto. split; [|intros []].
        intro X. exact (CL q n Hu X). }
      { eapply fresh_frame; [exact FR| | |exact S2].
        - intros y Y1 Y2. eapply DJ1; [|exact Y2]. apply in_app_iff; auto.
        - intros y Y1 Y2. eapply DJ2; [|exact Y2]. apply in_app_iff; auto. }
      { constructor; [|eapply nodup_app_r; eauto]. intro X. apply C1. apply in_app_iff; auto. }
      { constructor; [|eapply nodup_app_r; eauto]. intro X. apply C2. apply in_app_iff; auto. }
      exists c2, st2. split; auto.
      destruct PP2 as (Q1 & Q2 & Q3 & Q4 & Q5 & Q6 & Q7 & Q8 & Q9 & Q10).
      split; auto. split; auto. split; auto. split; [eapply gframe_trans; eauto|].
      split; auto. split.
      { eapply frame_trans; eapply frame_mono; [exact FR| | |exact Q6| |];
          intros x [->|Hx]; solve [left; auto|right; apply in_app_iff; auto]. }
      split; [intros x Hx; apply in_app_iff; auto|]. split; [intros x Hx; apply in_app_iff; auto|]. auto.
Qed.

Lemma poll_ok s : poll_ok_at s.
Proof.
  induction s as [|s IH|l IH|l IH] using sched_ind';
    intros f base g cont R F p st B P G GS U S I N1 N2.
  - exists f, st. split; auto. apply poll_noop; auto.
  - destruct f as [|n g1 a m ch|a cs|c];
      try (eexists _, st; split; [reflexivity|]; apply poll_noop; auto; fail).
    inversion N1 as [|? ? C1 D1]; subst. inversion N2 as [|? ? C2 D2]; subst.
    cbn [nodes gids app] in D1, D2.
    inversion D1 as [|? ? C3 D3]; subst. inversion D2 as [|? ? C4 D4]; subst.
    destruct (add_self_ok st n g1 a m ch base g cont R F p B P G GS) as
      (m' & st1 & E1 & M1 & M2 & P1 & G1 & GS1 & GF1 & U1 & FR1).
    { intro X. apply C1. apply (in_app_iff (n :: nodes ch)); left; exact X. }
    { intro X. apply C2. apply (in_app_iff (g1 :: gids ch)); left; exact X. }
    { intro X. apply C3. apply in_app_iff; auto. }
    cbn [poll]. rewrite E1.
    destruct G1 as (Ga & Gb & Gc & Gd & Ge).
    destruct (IH ch (CContainer g1 n) g1 n [] (F0 n) [] st1) as (ch' & st2 & E2 & PP); auto.
    { constructor. }
    { intros q v _. apply Gd. }
    { congruence. }
    { eapply fresh_frame; [exact FR1| | |exact S].
      - intros x Hx [<-|[<-|[]]].
        + apply C1. apply (in_app_iff (n :: nodes ch)). right. exact Hx.
        + apply C3. apply in_app_iff. right. exact Hx.
      - intros x Hx [<-|[]]. apply C2. apply (in_app_iff (g1 :: gids ch)). right. exact Hx. }
    { constructor. }
    change (ctx_at (CContainer g1 n) []) with (CContainer g1 n) in E2. rewrite E2.
    eexists _, st2. split; [reflexivity|].
    destruct PP as (Q1 & Q2 & Q3 & Q4 & Q5 & Q6 & Q7 & Q8 & Q9 & Q10).
    change (snodes (SElem s)) with (snodes s) in *. change (sgids (SElem s)) with (sgids s) in *.
    assert (NC : ~ In cont (n :: nodes ch ++ snodes s)) by exact C1.
    assert (NG : ~ In g (g1 :: gids ch ++ sgids s)) by exact C2.
    split; [eapply pic_frame; eauto|]. split.
    { cbn [good]. rewrite (fr_frag _ _ _ _ Q6). split; auto. split; [congruence|]. split; auto.
      split; auto. intros q v. apply Q3. exists q; auto. }
    split.
    { intros q v Hu. unfold sh. rewrite (fr_grp _ _ _ _ Q6) by auto.
      rewrite (GS1 q v Hu). simpl. tauto. }
    split; [eapply gframe_trans; [exact GF1|eapply gframe_frame; eauto]|].
    split; auto. split.
    { eapply frame_trans; eapply frame_mono; [exact FR1| | |exact Q6| |].
      - intros x [->|[->|[]]]; [left; auto|right; left; auto].
      - intros x [->|[]]; left; auto.
      - intros x Hx; right; exact Hx.
      - intros x Hx; right; exact Hx. }
    cbn [nodes gids app]. split; [intros x [->|Hx]; [left; auto|right; auto]|].
    split; [intros x [->|Hx]; [left; auto|right; auto]|].
    split; constructor; auto.
  - destruct f as [|n g1 a m ch|a cs|c];
      try (eexists _, st; split; [reflexivity|]; apply poll_noop; auto; fail).
    rewrite poll_comb_eq.
    destruct (comb_loop_ok l IH a cs base g cont R F p st) as (cs' & st' & E & PP); auto.
    rewrite E. eexists _, st'. split; [reflexivity|]. exact PP.
  - destruct f as [|n g1 a m ch|a cs|c];
      try (eexists _, st; split; [reflexivity|]; apply poll_noop; auto; fail).
    rewrite poll_block_eq.
    destruct (block_loop_ok l IH c base g cont R F p st) as (cs' & st' & E & PP); auto.
    rewrite E. eexists _, st'. split; [reflexivity|]. exact PP.
Qed.

(** ** from the invariant to what is on screen *)
Lemma entries_out f : forall p, map snd (entries f p) = out f.
Proof.
  induction f as [|n g a m ch IH|a cs IH|c IH] using fut_ind'; intro p; auto.
  - simpl. destruct m; auto.
  - rewrite entries_comb. simpl. generalize 0.
    induction cs as [|c cs IHc]; intro k; auto. inversion IH; subst.
    simpl. rewrite map_app, H1. f_equal. auto.
  - simpl; auto.
Qed.

Lemma path_lt_common (p a b : path) : path_lt a b -> path_lt (p ++ a) (p ++ b).
Proof. induction p; simpl; auto. intro; apply lt_tail; auto. Qed.

Lemma ssorted_app {A} (R : A -> A -> Prop) l1 l2 :
  StronglySorted R l1 -> StronglySorted R l2 ->
  (forall x y, In x l1 -> In y l2 -> R x y) -> StronglySorted R (l1 ++ l2).
Proof.
  induction 1; simpl; intros H2 H3; auto. constructor.
  - apply IHStronglySorted; auto.
  - apply Forall_app. split; auto. apply Forall_forall. auto.
Qed.

Lemma entries_sorted f : forall p, StronglySorted path_lt (map fst (entries f p)).
Proof.
  induction f as [|n g a m ch IH|a cs IH|c IH] using fut_ind'; intro p; simpl; try constructor.
  - destruct m; simpl; repeat constructor.
  - change (StronglySorted path_lt (map fst (entries_list p 0 cs))). generalize 0.
    induction cs as [|c cs IHc]; intro k; simpl; [constructor|]. inversion IH; subst.
    rewrite map_app. apply ssorted_app; auto.
    intros x y Hx Hy. apply in_map_iff in Hx as ([q1 n1] & <- & Hx).
    apply in_map_iff in Hy as ([q2 n2] & <- & Hy). simpl.
    apply entries_list_in in Hy as (i & c' & Hi & Hy).
    apply entries_under in Hx as [r1 ->]. apply entries_under in Hy as [r2 ->].
    rewrite <- !app_assoc. apply path_lt_common. simpl. apply lt_head. lia.
  - auto.
Qed.

Lemma sorted_unique (l1 : list (path * node)) : forall l2,
  StronglySorted path_lt (map fst l1) -> StronglySorted path_lt (map fst l2) ->
  (forall q n, In (q, n) l1 <-> In (q, n) l2) -> l1 = l2.
Proof.
  assert (HD : forall (e1 : path * node) (l1 : list (path * node)) (e2 : path * node) (l2 : list (path * node)),
     StronglySorted path_lt (map fst (e1 :: l1)) -> StronglySorted path_lt (map fst (e2 :: l2)) ->
     (forall q n, In (q, n) (e1 :: l1) <-> In (q, n) (e2 :: l2)) -> fst e1 = fst e2 /\ e1 = e2).
  { intros [p1 n1] l1' [p2 n2] l2 S1 S2 H. simpl in *.
    inversion S1 as [|? ? SS1 F1]; subst. inversion S2 as [|? ? SS2 F2]; subst.
    rewrite Forall_forall in F1, F2.
    destruct (proj1 (H p1 n1) (or_introl eq_refl)) as [X|X].
    - inversion X; auto.
    - destruct (proj2 (H p2 n2) (or_introl eq_refl)) as [Y|Y].
      + inversion Y; auto.
      + exfalso. apply (path_lt_irrefl p1). eapply path_lt_trans.
        * apply F1. apply in_map_iff. exists (p2, n2); auto.
        * apply F2. apply in_map_iff. exists (p1, n1); auto. }
  induction l1 as [|e1 l1 IH]; intros [|e2 l2] S1 S2 H; auto.
  - exfalso. destruct e2 as [q n]. apply (H q n). left; auto.
  - exfalso. destruct e1 as [q n]. apply (H q n). left; auto.
  - destruct (HD e1 l1 e2 l2 S1 S2 H) as [_ ->]. f_equal.
    inversion S1 as [|? ? SS1 F1]; subst. inversion S2 as [|? ? SS2 F2]; subst.
    apply IH; auto. rewrite Forall_forall in F1, F2.
    intros q n. split; intro X.
    + destruct (proj1 (H q n) (or_intror X)) as [Y|Y]; auto. subst e2.
      exfalso. apply (path_lt_irrefl q). apply F1. apply in_map_iff. exists (q, n); auto.
    + destruct (proj2 (H q n) (or_intror X)) as [Y|Y]; auto. subst e2.
      exfalso. apply (path_lt_irrefl q). apply F2. apply in_map_iff. exists (q, n); auto.
Qed.

Lemma elem_kids st n g a m ch : good st (FElem n g a m ch) ->
  kids (rdom (ur st)) n = F0 n ++ out ch.
Proof.
  intros (_ & _ & (W & S & K) & G & _). rewrite K, app_nil_r. f_equal.
  rewrite <- (entries_out ch []), <- (sorted_unique (sh st g) (entries ch [])); auto.
  - unfold sh, shown. rewrite map_map. reflexivity.
  - unfold sh. rewrite shown_fst. exact S.
  - apply entries_sorted.
Qed.

Lemma good_containers st f : good st f -> forall n ch, In (n, ch) (containers f) ->
  kids (rdom (ur st)) n = F0 n ++ out ch.
Proof.
  induction f as [|n g a m ch IH|a cs IH|c IH] using fut_ind'; intros G n' ch' H.
  - inversion H.
  - simpl in H. apply in_app_iff in H as [H|H].
    + destruct m; simpl in H; try tauto; destruct H as [H|[]]; inversion H; subst;
        eapply elem_kids; eauto.
    + apply IH; auto. apply G.
  - simpl in H. apply in_flat_map in H as (c & Hc & H). destruct G as [_ G].
    apply good_all in G. rewrite Forall_forall in *. eapply IH; eauto.
  - simpl in *; auto.
Qed.

(** futures built before mounting, and those created later *)
Lemma unpolled_all cs :
  (fix all (l : list fut) : Prop := match l with [] => True | f :: t => unpolled f /\ all t end) cs
  <-> Forall unpolled cs.
Proof.
  induction cs; simpl; split; intro H; auto.
  - constructor; tauto.
  - inversion H; subst. tauto.
Qed.
Lemma unpolled_unadded f : unpolled f -> unadded f.
Proof.
  induction f as [|n g a m ch IH|a cs IH|c IH] using fut_ind'; simpl; auto.
  - intros [-> H]. split; auto. congruence.
  - intros [_ H]. apply unpolled_all in H. apply unadded_all.
    rewrite Forall_forall in *. auto.
Qed.
Lemma unpolled_good f st : unpolled f -> dom_wf (rdom (ur st)) ->
  (forall n, In n (nodes f) -> frag (rdom (ur st)) n = false /\ par (rdom (ur st)) n = None /\
     kids (rdom (ur st)) n = F0 n) ->
  (forall g, In g (gids f) -> rgrp (ur st) g = []) -> good st f.
Proof.
  induction f as [|n g a m ch IH|a cs IH|c IH] using fut_ind'; simpl; intros U W HN HG; auto.
  - destruct U as [-> U]. destruct (HN n (or_introl eq_refl)) as (A & B & C).
    split; auto. split; auto. split; [|split].
    + unfold pic, picture. rewrite HG by auto. simpl. rewrite app_nil_r.
      split; auto. split; auto. constructor.
    + intros q v. unfold sh. rewrite HG by auto. rewrite unadded_entries by (apply unpolled_unadded; auto).
      simpl. tauto.
    + apply IH; auto.
  - destruct U as [U1 U2]. split; [exact U1|]. apply good_all. apply unpolled_all in U2.
    rewrite Forall_forall in *. intros c Hc. apply IH; auto.
    + intros x Hx. apply HN. apply in_flat_map; eauto.
    + intros x Hx. apply HG. apply in_flat_map; eauto.
Qed.

Lemma poll_root_ok l : forall root g a ch st,
  good st (mount root g a ch) -> udrop st = None ->
  Forall (fresh st) (flat_map created l) ->
  NoDup (root :: nodes ch ++ flat_map nodes (flat_map created l)) ->
  NoDup (g :: gids ch ++ flat_map gids (flat_map created l)) ->
  exists ch' st', poll_root l (mount root g a ch) st = Some (mount root g a ch', st') /\
    good st' (mount root g a ch') /\ udrop st' = None /\
    NoDup (root :: nodes ch') /\ NoDup (g :: gids ch') /\
    incl (nodes ch') (nodes ch ++ flat_map nodes (flat_map created l)) /\
    incl (gids ch') (gids ch ++ flat_map gids (flat_map created l)) /\
    frame (root :: nodes ch ++ flat_map nodes (flat_map created l))
          (g :: gids ch ++ flat_map gids (flat_map created l)) st st'.
Proof.
  induction l as [|s l IH]; intros root g a ch st G U S N1 N2.
  - simpl in *. rewrite app_nil_r in *. exists ch, st.
    split; auto. split; auto. split; auto. split; auto. split; auto.
    rewrite !app_nil_r. split; [apply incl_refl|]. split; [apply incl_refl|].
    apply frame_refl. apply G.
  - simpl in S, N1, N2. apply Forall_app in S as [S1 S2]. rewrite !flat_map_app in *.
    inversion N1 as [|? ? C1 D1]; subst. inversion N2 as [|? ? C2 D2]; subst.
    assert (ST : exists ch1 st1, poll s (mount root g a ch) None st = Some (mount root g a ch1, st1) /\
       good st1 (mount root g a ch1) /\ udrop st1 = None /\
       frame (root :: nodes ch ++ flat_map nodes (created s)) (g :: gids ch ++ flat_map gids (created s)) st st1 /\
       incl (nodes ch1) (nodes ch ++ flat_map nodes (created s)) /\
       incl (gids ch1) (gids ch ++ flat_map gids (created s)) /\
       NoDup (nodes ch1) /\ NoDup (gids ch1)).
    { assert (NOP : exists ch1 st1, Some (mount root g a ch, st) = Some (mount root g a ch1, st1) /\
       good st1 (mount root g a ch1) /\ udrop st1 = None /\
       frame (root :: nodes ch ++ flat_map nodes (created s)) (g :: gids ch ++ flat_map gids (created s)) st st1 /\
       incl (nodes ch1) (nodes ch ++ flat_map nodes (created s)) /\
       incl (gids ch1) (gids ch ++ flat_map gids (created s)) /\
       NoDup (nodes ch1) /\ NoDup (gids ch1)).
      { exists ch, st. split; auto. split; auto. split; auto. split; [apply frame_refl; apply G|].
        split; [apply incl_app_l'|]. split; [apply incl_app_l'|].
        split; eapply nodup_app_l; eauto. }
      destruct s as [|s'|sl|sl]; try exact NOP.
      cbn [mount poll add_self].
      destruct G as (Ga & Gb & Gc & Gd & Ge).
      rewrite app_assoc in C1, D1, C2, D2.
      destruct (poll_ok s' ch (CContainer g root) g root [] (F0 root) [] st) as (ch' & st1 & E & PP); auto.
      { constructor. }
      { intros q v _. apply Gd. }
      { constructor. }
      { constructor; [|eapply nodup_app_l; eauto]. intro X. apply C1. apply in_app_iff; auto. }
      { constructor; [|eapply nodup_app_l; eauto]. intro X. apply C2. apply in_app_iff; auto. }
      change (ctx_at (CContainer g root) []) with (CContainer g root) in E. rewrite E.
      destruct PP as (A1 & A2 & A3 & A4 & A5 & A6 & A7 & A8 & A9 & A10).
      exists ch', st1. split; auto. split.
      { unfold mount. cbn [good]. rewrite (fr_frag _ _ _ _ A6). split; auto. split; [congruence|]. split; auto.
        split; auto. intros q v. apply A3. exists q; auto. }
      split; auto. }
    destruct ST as (ch1 & st1 & E1 & G1 & U1 & FR1 & I1 & I2 & X1 & X2).
    simpl. rewrite E1. rewrite app_assoc in C1, D1, C2, D2.
    destruct (IH root g a ch1 st1) as (ch2 & st2 & E2 & G2 & U2 & Y1 & Y2 & J1 & J2 & FR2); auto.
    { eapply fresh_frame; [exact FR1| | |exact S2].
      - intros y Y1 [<-|Y2]; [apply C1; apply in_app_iff; auto|].
        eapply nodup_app_disj; [exact D1|exact Y2|auto].
      - intros y Y1 [<-|Y2]; [apply C2; apply in_app_iff; auto|].
        eapply nodup_app_disj; [exact D2|exact Y2|auto]. }
    { constructor.
      - intro X. apply C1. apply in_app_iff in X. apply in_app_iff. destruct X; auto.
      - eapply nodup_replace; eauto. }
    { constructor.
      - intro X. apply C2. apply in_app_iff in X. apply in_app_iff. destruct X; auto.
      - eapply nodup_replace; eauto. }
    exists ch2, st2. split; auto. split; auto. split; auto. split; auto. split; auto.
    rewrite !(flat_map_app _ (created s)), !app_assoc.
    assert (IN2 : incl (nodes ch1 ++ flat_map nodes (flat_map created l))
              ((nodes ch ++ flat_map nodes (created s)) ++ flat_map nodes (flat_map created l))).
    { intros x Hx. apply in_app_iff in Hx. apply in_app_iff. destruct Hx as [Hx|Hx]; auto. }
    assert (IG2 : incl (gids ch1 ++ flat_map gids (flat_map created l))
              ((gids ch ++ flat_map gids (created s)) ++ flat_map gids (flat_map created l))).
    { intros x Hx. apply in_app_iff in Hx. apply in_app_iff. destruct Hx as [Hx|Hx]; auto. }
    split; [intros x Hx; apply IN2; auto|]. split; [intros x Hx; apply IG2; auto|].
    eapply frame_trans; eapply frame_mono; [exact FR1| | |exact FR2| |].
    + intros x [->|Hx]; [left; auto|]. right. apply in_app_iff; auto.
    + intros x [->|Hx]; [left; auto|]. right. apply in_app_iff; auto.
    + intros x [->|Hx]; [left; auto|]. right. apply IN2; auto.
    + intros x [->|Hx]; [left; auto|]. right. apply IG2; auto.
Qed.

Lemma drop_quiet f : forall st, touches f = false -> good st f -> dom_wf (rdom (ur st)) ->
  udrop st = None -> NoDup (nodes f) -> NoDup (gids f) ->
  exists st', drop_fut f None st = Some st' /\ frame (nodes f) (gids f) st st' /\ udrop st' = None.
Proof.
  induction f as [|n g a m ch IH|a cs IH|c IH] using fut_ind'; intros st T G W U N1 N2.
  - exists st. split; auto. split; auto. apply frame_refl; auto.
  - inversion N1; subst. inversion N2; subst.
    destruct (empty_own_group st n g ch a m G H1 H3) as (r & E & G' & FR & K).
    rewrite drop_elem_eq. unfold drop_own.
    assert (T' : touches ch = false) by (destruct m; [auto|auto|discriminate]).
    destruct (IH (with_r st r) T') as (st' & E' & FR' & U'); auto.
    { apply FR. }
    assert (X : exists st2, match drop_fut ch None (with_r st r) with
                | None => None | Some st3 => Some (blocker_drop a st3) end = Some st2 /\
         frame (nodes (FElem n g a m ch)) (gids (FElem n g a m ch)) st st2 /\ udrop st2 = None).
    { rewrite E'. eexists; split; [reflexivity|]. split.
      - eapply frame_trans; [exact FR|]. eapply frame_mono.
        + apply frame_blocker. exact FR'.
        + intros x Hx; right; exact Hx.
        + intros x Hx; right; exact Hx.
      - apply blocker_drop_none; auto. }
    destruct m; [| |discriminate]; rewrite E; exact X.
  - discriminate.
  - simpl in *. auto.
Qed.
End Inv.

Lemma drop_touch f : forall st, touches f = true -> udrop st = None -> drop_fut f None st = None.
Proof.
  induction f as [|n g a m ch IH|a cs IH|c IH] using fut_ind'; intros st T U.
  - discriminate.
  - rewrite drop_elem_eq. unfold drop_own.
    destruct m; simpl in T.
    1,2: destruct (remove_child_ctx (CContainer g n) pos_default (ur st)) as [r|]; auto;
         rewrite (IH (with_r st r)); auto.
    unfold block_until_drop. rewrite U. reflexivity.
  - rewrite drop_comb_eq. unfold block_until_drop. rewrite U. reflexivity.
  - simpl in *; auto.
Qed.

(** while some other part is being dropped, nothing detaches *)
Lemma drop_blocked f : forall c st b st', udrop st = Some b -> ~ In b (addrs f) ->
  drop_fut f c st = Some st' -> udrop st' = Some b /\ udet st' = udet st.
Proof.
  induction f as [|n g a m ch IH|a cs IH|c IH] using fut_ind'; intros cx st b st' U NI E.
  - inversion E; subst; auto.
  - simpl in NI. rewrite drop_elem_eq in E.
    assert (NB : forall s, udrop s = Some b -> blocker_drop a s = s).
    { intros s H. unfold blocker_drop. rewrite H. destruct (Nat.eqb_spec b a); auto. subst. tauto. }
    destruct (drop_own n g a m cx st) as [st2|] eqn:E1; [|discriminate].
    assert (X : udrop st2 = Some b /\ udet st2 = udet st).
    { unfold drop_own in E1. destruct m.
      1,2: destruct (remove_child_ctx (CContainer g n) pos_default (ur st)); inversion E1; subst; auto.
      unfold block_until_drop in E1. rewrite U in E1. inversion E1; subst; auto. }
    destruct X as [X1 X2].
    destruct (drop_fut ch cx st2) as [st3|] eqn:E2; [|discriminate].
    apply IH with (b := b) in E2; auto. destruct E2 as [Y1 Y2].
    inversion E; subst. rewrite NB by auto. split; congruence.
  - simpl in NI. rewrite drop_comb_eq in E. unfold block_until_drop in E. rewrite U in E.
    assert (X : forall st st', udrop st = Some b -> drop_all cx cs st = Some st' ->
       udrop st' = Some b /\ udet st' = udet st).
    { clear E U. assert (NI' : ~ In b (flat_map addrs cs)) by tauto. clear NI.
      induction cs as [|f cs IHc]; intros s s' U E; simpl in E.
      - inversion E; subst; auto.
      - inversion IH; subst. simpl in NI'. rewrite in_app_iff in NI'.
        destruct (drop_fut f cx s) as [s1|] eqn:E1; [|discriminate].
        apply H1 with (b := b) in E1; [|auto|tauto]. destruct E1 as [Y1 Y2].
        apply IHc in E; auto. destruct E. split; congruence. }
    destruct (drop_all cx cs st) as [st3|] eqn:E2; [|discriminate].
    apply X in E2; auto. destruct E2. inversion E; subst.
    unfold blocker_drop. rewrite H. destruct (Nat.eqb_spec b a); [subst; tauto|auto].
  - simpl in *. eapply IH; eauto.
Qed.

Lemma drop_all_blocked cs : forall c st b st', udrop st = Some b -> ~ In b (flat_map addrs cs) ->
  drop_all c cs st = Some st' -> udrop st' = Some b /\ udet st' = udet st.
Proof.
  induction cs as [|f cs IHc]; intros c s b s' U NI E; simpl in E.
  - inversion E; subst; auto.
  - simpl in NI. rewrite in_app_iff in NI.
    destruct (drop_fut f c s) as [s1|] eqn:E1; [|discriminate].
    apply drop_blocked with (b := b) in E1; [|auto|tauto]. destruct E1 as [Y1 Y2].
    eapply IHc in E; eauto. destruct E. split; congruence.
Qed.

Lemma app_run_all (d0 : dom) (gr : gid -> group) root g a child l :
  dom_wf d0 -> fresh_app d0 gr root g (child :: flat_map created l) ->
  exists ch' st', poll_root l (mount root g a child) (mkU (mkR d0 gr) None 0) =
      Some (mount root g a ch', st') /\
    good (kids d0) st' (mount root g a ch') /\ udrop st' = None /\
    NoDup (root :: nodes ch') /\ NoDup (g :: gids ch') /\
    (forall q, ~ In q (root :: flat_map nodes (child :: flat_map created l)) ->
       kids (rdom (ur st')) q = kids d0 q) /\
    incl (nodes ch') (flat_map nodes (child :: flat_map created l)).
Proof.
  intros W (N1 & N2 & FR & HN & HG & UP). inversion UP as [|? ? U1 U2]; subst. simpl in *.
  destruct (poll_root_ok (kids d0) l root g a child (mkU (mkR d0 gr) None 0))
    as (ch' & st' & E & G & U & A1 & A2 & IN & _ & FRM); auto.
  - cbn [good mount]. simpl. split; auto. split; [discriminate|]. split; [|split].
    + unfold pic, picture. simpl. rewrite HG by auto. simpl. rewrite app_nil_r.
      split; auto. split; auto. constructor.
    + intros q v. unfold sh. simpl. rewrite HG by auto.
      rewrite unadded_entries by (apply unpolled_unadded; auto). simpl; tauto.
    + apply unpolled_good; auto.
      * intros n Hn. simpl. destruct (HN n) as [X Y]; [apply in_app_iff; auto|auto].
      * intros h Hh. simpl. apply HG. right. apply in_app_iff; auto.
  - apply Forall_forall. intros f Hf. rewrite Forall_forall in U2. split.
    + apply unpolled_good; auto.
      * intros n Hn. simpl. destruct (HN n) as [X Y].
        { apply in_app_iff. right. apply in_flat_map; eauto. }
        auto.
      * intros h Hh. simpl. apply HG. right. apply in_app_iff. right. apply in_flat_map; eauto.
    + apply unpolled_unadded; auto.
  - exists ch', st'. split; auto. split; auto. split; auto. split; auto. split; auto.
    split; [|exact IN]. intros q Hq. apply (fr_kids _ _ _ _ FRM). exact Hq.
Qed.

Lemma app_run (d0 : dom) (gr : gid -> group) root g a child l :
  dom_wf d0 -> fresh_app d0 gr root g (child :: flat_map created l) ->
  exists ch' st', poll_root l (mount root g a child) (mkU (mkR d0 gr) None 0) =
      Some (mount root g a ch', st') /\
    good (kids d0) st' (mount root g a ch') /\ udrop st' = None /\
    NoDup (root :: nodes ch') /\ NoDup (g :: gids ch') /\
    (forall q, ~ In q (root :: flat_map nodes (child :: flat_map created l)) ->
       kids (rdom (ur st')) q = kids d0 q).
Proof.
  intros W F. destruct (app_run_all d0 gr root g a child l W F) as (ch' & st' & E & G & U & A1 & A2 & K & _). exists ch', st'. auto 10.
Qed.

(** an element dropped from its place keeps its own content *)
Lemma dropped_keeps (F0 : node -> list node) root g a n g1 a1 c st :
  good F0 st (mount root g a (FBlock (FElem n g1 a1 Added c))) -> udrop st = None ->
  NoDup (root :: n :: nodes c) -> NoDup (g :: g1 :: gids c) ->
  exists st', poll (SElem (SBlock [BReplace FLeaf])) (mount root g a (FBlock (FElem n g1 a1 Added c))) None st
      = Some (mount root g a (FBlock FLeaf), st') /\
    ~ In n (kids (rdom (ur st')) root) /\
    kids (rdom (ur st')) n = kids (rdom (ur st)) n.
Proof.
  intros G U N1 N2. destruct G as (Ga & Gb & Gc & Gd & Ge).
  cbn [poll mount add_self]. rewrite drop_elem_eq. unfold drop_own.
  inversion N1 as [|? ? C1 D1]; subst. inversion N2 as [|? ? C2 D2]; subst.
  destruct (block_detach_top F0 (FElem n g1 a1 Added c) st g root (F0 root) [] (CContainer g root) [] a1)
    as (st2 & E2 & P2 & C3 & GF2 & U2 & _ & G2 & FR2); auto.
  { constructor. }
  { constructor. }
  { intros q v _. apply Gd. }
  change (ctx_at (CContainer g root) []) with (CContainer g root) in E2. rewrite E2.
  inversion D1 as [|? ? C4 D3]; subst. inversion D2 as [|? ? C5 D4]; subst.
  destruct (drop_clean F0 c (CContainer g root) g root [] (F0 root) [] st2)
    as (st3 & E3 & FR3 & U3); auto.
  { constructor. }
  { apply G2. }
  { constructor. }
  { constructor; auto. intro X; apply C1; right; auto. }
  { constructor; auto. intro X; apply C2; right; auto. }
  change (ctx_at (CContainer g root) []) with (CContainer g root) in E3. rewrite E3.
  eexists; split; [reflexivity|].
  assert (FR4 : frame (nodes c) (gids c) st2 (blocker_drop a1 st3)) by (apply frame_blocker; auto).
  assert (K3 : kids (rdom (ur (blocker_drop a1 st3))) root = kids (rdom (ur st2)) root).
  { apply (fr_kids _ _ _ _ FR4). intro X. apply C1. right; auto. }
  rewrite K3. split.
  - destruct P2 as (W2 & S2 & K2).
    intro X. rewrite K2, app_nil_r in X. apply in_app_iff in X as [X|X].
    + (* own nodes are not foreign to the root *)
      assert (Y : In n (kids (rdom (ur st)) root)) by (destruct Gc as (_ & _ & ->); apply in_app_iff; auto).
      destruct Gc as (W & _ & K). assert (NK := proj1 W root). rewrite K, app_nil_r in NK.
      eapply nodup_app_disj; [exact NK|exact X|].
      assert (In ([], n) (sh st g)) by (apply Gd; simpl; auto).
      apply in_sh in H. simpl in H. apply in_map_iff. exists ([], n); auto.
    + apply in_map_iff in X as ([k v] & Y & X). simpl in Y; subst v.
      apply (C3 (rev k) n); [exists (rev k); auto|]. apply in_sh. rewrite rev_involutive; auto.
  - rewrite (fr_kids _ _ _ _ FR4) by auto.
    assert (KA := elem_kids F0 st n g1 a1 Added c Ge).
    assert (KB := elem_kids F0 st2 n g1 a1 Added c G2). congruence.
Qed.
