(** Facts about the abstract keyed lists of Spec_list. *)
From Coq Require Import List Arith Bool Permutation Lia.
From Verif Require Import Util Spec_list DynList DynList_proofs Calls Calls_proofs.
Import ListNotations.

Lemma l_remove_in k x l : In x (l_remove k l) <-> In x l /\ x <> k.
Proof. unfold l_remove. rewrite filter_In, negb_true_iff, Nat.eqb_neq. tauto. Qed.
Lemma l_remove_notin k l : ~ In k l -> l_remove k l = l.
Proof.
  unfold l_remove. induction l as [|x t IH]; simpl; intro H; auto.
  destruct (Nat.eqb_spec x k); simpl; [tauto|]. f_equal. apply IH. tauto.
Qed.
Lemma l_remove_app k a b : l_remove k (a ++ b) = l_remove k a ++ l_remove k b.
Proof. apply filter_app. Qed.
Lemma l_remove_cons_same k l : l_remove k (k :: l) = l_remove k l.
Proof. unfold l_remove. simpl. rewrite Nat.eqb_refl. auto. Qed.
Lemma l_remove_cons_other k x l : x <> k -> l_remove k (x :: l) = x :: l_remove k l.
Proof. intro H. unfold l_remove. simpl. rewrite (proj2 (Nat.eqb_neq x k)); auto. Qed.

Lemma l_before_in k b l x : In b l -> (In x (l_before k b l) <-> x = k \/ In x l).
Proof.
  induction l as [|y t IH]; simpl; [tauto|]. intro H.
  destruct (Nat.eqb_spec y b) as [->|N]; simpl; [intuition auto|].
  destruct H as [->|H]; [tauto|]. rewrite IH by auto. intuition auto.
Qed.
Lemma l_before_at k b l1 l2 : ~ In b l1 -> l_before k b (l1 ++ b :: l2) = l1 ++ k :: b :: l2.
Proof.
  induction l1 as [|y t IH]; simpl; intro H.
  - rewrite Nat.eqb_refl. auto.
  - destruct (Nat.eqb_spec y b); [tauto|]. f_equal. apply IH. tauto.
Qed.
Lemma l_before_none k b l : ~ In b l -> l_before k b l = l.
Proof.
  induction l as [|y t IH]; simpl; intro H; auto.
  destruct (Nat.eqb_spec y b); [tauto|]. f_equal. apply IH. tauto.
Qed.

Lemma l_insert_in k b l x : (forall b', b = Some b' -> In b' l) ->
  (In x (l_insert k b l) <-> x = k \/ In x l).
Proof.
  intros H. unfold l_insert. destruct b as [b|].
  - destruct (Nat.eqb_spec b k) as [->|N].
    + split; auto. intros [->|]; auto.
    + rewrite l_before_in by (apply l_remove_in; auto). rewrite l_remove_in.
      destruct (Nat.eq_dec x k); tauto.
  - rewrite in_app_iff, l_remove_in. simpl. destruct (Nat.eq_dec x k); intuition auto.
Qed.
Lemma l_before_nodup k b l : NoDup l -> ~ In k l -> NoDup (l_before k b l).
Proof.
  induction l as [|y t IH]; simpl; intros ND NI; auto. inversion ND; subst.
  destruct (Nat.eqb_spec y b) as [->|N].
  - constructor; simpl; tauto.
  - constructor; [|apply IH; tauto].
    destruct (in_dec Nat.eq_dec b t) as [Hb|Hb].
    + rewrite l_before_in by auto. intros [->|X]; tauto.
    + rewrite l_before_none by auto. auto.
Qed.
Lemma l_remove_nodup k l : NoDup l -> NoDup (l_remove k l).
Proof. apply NoDup_filter. Qed.
Lemma l_insert_nodup k b l : NoDup l -> NoDup (l_insert k b l).
Proof.
  intro ND. unfold l_insert. destruct b as [b|].
  - destruct (Nat.eqb b k); auto. apply l_before_nodup; [apply l_remove_nodup; auto|].
    rewrite l_remove_in. tauto.
  - apply nodup_app_intro; [apply l_remove_nodup; auto|repeat constructor; simpl; tauto|].
    intros x X [->|[]]. apply l_remove_in in X. tauto.
Qed.
Lemma l_swap_nodup a b l : NoDup l -> NoDup (l_swap a b l).
Proof.
  intro ND. unfold l_swap. apply FinFun.Injective_map_NoDup; auto.
  intros x y. destruct (Nat.eqb_spec x a), (Nat.eqb_spec x b), (Nat.eqb_spec y a), (Nat.eqb_spec y b); congruence.
Qed.

Lemma dstep_nodup ks c ks' : NoDup ks -> dstep ks c = Some ks' -> NoDup ks'.
Proof.
  intros ND H. destruct c; cbn [dstep] in H;
    repeat match type of H with (if ?b then _ else _) = _ => destruct b; try discriminate end;
    inversion H; subst.
  - apply l_insert_nodup; auto.
  - apply l_remove_nodup; auto.
  - apply l_insert_nodup; auto.
  - apply l_swap_nodup; auto.
  - apply NoDup_filter; auto.
Qed.
Lemma druns_nodup cs : forall ks ks', NoDup ks -> druns ks cs = Some ks' -> NoDup ks'.
Proof.
  induction cs as [|c t IH]; simpl; intros ks ks' ND H; [inversion H; subst; auto|].
  destruct (dstep ks c) eqn:E; [|discriminate]. eapply IH; [|eauto]. eapply dstep_nodup; eauto.
Qed.
Lemma druns_app a : forall ks b ks1, druns ks a = Some ks1 -> druns ks (a ++ b) = druns ks1 b.
Proof.
  induction a as [|c t IH]; simpl; intros ks b ks1 H; [inversion H; auto|].
  destruct (dstep ks c); [|discriminate]. auto.
Qed.
Lemma druns_removes l : forall ks,
  druns ks (map (fun k => DRemove k None) l) = Some (filter (fun x => negb (memb x l)) ks).
Proof.
  induction l as [|k t IH]; intro ks.
  - simpl. f_equal. symmetry. induction ks as [|x ks IH]; simpl; [reflexivity|f_equal; exact IH].
  - simpl. rewrite IH. f_equal.
    unfold l_remove. clear. induction ks as [|x ks IH]; simpl; auto.
    unfold memb in *; simpl.
    destruct (Nat.eqb_spec x k); simpl; [auto|].
    destruct (existsb (Nat.eqb x) t); simpl; [auto|]. f_equal; auto.
Qed.

Lemma memb_perm a b x : Permutation a b -> memb x a = memb x b.
Proof.
  intro P. destruct (memb x b) eqn:E.
  - apply memb_iff. apply memb_iff in E. eapply Permutation_in; [apply Permutation_sym|]; eauto.
  - apply memb_false. apply memb_false in E. intro H. apply E. eapply Permutation_in; eauto.
Qed.
