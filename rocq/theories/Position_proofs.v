From Coq Require Import List NArith Bool Lia Arith.
From Verif Require Import Position Spec_path.
Import ListNotations.
Local Open Scope N_scope.

(** lexicographic comparison with prefix first *)
Fixpoint lexcmp (a b : list N) : comparison :=
  match a, b with
  | [], [] => Eq
  | [], _ :: _ => Lt
  | _ :: _, [] => Gt
  | x :: a', y :: b' =>
      match N.compare x y with Eq => lexcmp a' b' | c => c end
  end.

Lemma zip_cmp_lex : forall a b,
  (match zip_cmp a b with Eq => Nat.compare (length a) (length b) | c => c end) = lexcmp a b.
Proof.
  induction a as [|x a IH]; destruct b as [|y b]; simpl; auto.
  destruct (N.compare x y); auto.
Qed.

Lemma pos_cmp_lex : forall a b, pos_cmp a b = lexcmp (rev a) (rev b).
Proof.
  intros a b. unfold pos_cmp, compare_slice_reversed.
  rewrite <- zip_cmp_lex, !rev_length. reflexivity.
Qed.

Lemma lexcmp_eq : forall a b, lexcmp a b = Eq <-> a = b.
Proof.
  induction a as [|x a IH]; destruct b as [|y b]; simpl; split; intro H; try congruence; auto.
  - destruct (N.compare_spec x y); try congruence. apply IH in H. congruence.
  - inversion H; subst. rewrite N.compare_refl. apply IH; auto.
Qed.

Lemma lexcmp_lt : forall a b, lexcmp a b = Lt <-> path_lt a b.
Proof.
  induction a as [|x a IH]; destruct b as [|y b]; simpl; split; intro H; try congruence;
    try (inversion H; fail).
  - constructor.
  - destruct (N.compare_spec x y); try congruence.
    + subst. apply lt_tail. apply IH; auto.
    + apply lt_head; auto.
  - inversion H; subst.
    + apply N.compare_lt_iff in H1. rewrite H1. auto.
    + rewrite N.compare_refl. apply IH; auto.
Qed.

Lemma lexcmp_antisym : forall a b, lexcmp b a = CompOpp (lexcmp a b).
Proof.
  induction a as [|x a IH]; destruct b as [|y b]; simpl; auto.
  rewrite (N.compare_antisym x y). destruct (N.compare x y); simpl; auto.
Qed.

Lemma lexcmp_gt : forall a b, lexcmp a b = Gt <-> path_lt b a.
Proof.
  intros. rewrite <- lexcmp_lt, (lexcmp_antisym a b).
  destruct (lexcmp a b); simpl; split; congruence.
Qed.

Lemma path_lt_trans : forall a b c, path_lt a b -> path_lt b c -> path_lt a c.
Proof.
  intros a b c H; revert c; induction H; intros c Hc; inversion Hc; subst;
    try (constructor; fail); try (apply lt_head; lia).
  apply lt_tail. auto.
Qed.

Lemma path_lt_irrefl : forall a, ~ path_lt a a.
Proof.
  induction a; intro H; inversion H; subst; try lia; auto.
Qed.

Lemma path_lt_total : forall a b, path_lt a b \/ a = b \/ path_lt b a.
Proof.
  intros. destruct (lexcmp a b) eqn:E.
  - apply lexcmp_eq in E; auto.
  - apply lexcmp_lt in E; auto.
  - apply lexcmp_gt in E; auto.
Qed.

Lemma pos_cmp_eq : forall a b, pos_cmp a b = Eq <-> a = b.
Proof.
  intros. rewrite pos_cmp_lex, lexcmp_eq. split; intro H; [|congruence].
  rewrite <- (rev_involutive a), H, rev_involutive; auto.
Qed.
Lemma pos_cmp_lt : forall a b, pos_cmp a b = Lt <-> path_lt (rev a) (rev b).
Proof. intros. rewrite pos_cmp_lex. apply lexcmp_lt. Qed.
Lemma pos_cmp_gt : forall a b, pos_cmp a b = Gt <-> path_lt (rev b) (rev a).
Proof. intros. rewrite pos_cmp_lex. apply lexcmp_gt. Qed.

Lemma pos_ltb_iff : forall a b, pos_ltb a b = true <-> path_lt (rev a) (rev b).
Proof. intros. unfold pos_ltb. rewrite <- pos_cmp_lt. destruct (pos_cmp a b); split; congruence. Qed.
Lemma pos_eqb_iff : forall a b, pos_eqb a b = true <-> a = b.
Proof. intros. unfold pos_eqb. rewrite <- pos_cmp_eq. destruct (pos_cmp a b); split; congruence. Qed.
Lemma pos_leb_iff : forall a b, pos_leb a b = true <-> (path_lt (rev a) (rev b) \/ a = b).
Proof.
  intros. unfold pos_leb. rewrite <- pos_cmp_lt, <- pos_cmp_eq.
  destruct (pos_cmp a b); split; intro H; auto; try congruence; destruct H; congruence.
Qed.
Lemma pos_leb_false : forall a b, pos_leb a b = false <-> path_lt (rev b) (rev a).
Proof. intros. unfold pos_leb. rewrite <- pos_cmp_gt. destruct (pos_cmp a b); split; congruence. Qed.

Lemma path_le_app : forall p r, path_lt p (p ++ r) \/ p = p ++ r.
Proof.
  induction p as [|x p IH]; simpl; intros.
  - destruct r; [right; auto|left; constructor].
  - destruct (IH r); [left; apply lt_tail; auto|right; congruence].
Qed.

(** the half-open range [p, p with its last index incremented) is the subtree of p *)
Lemma range_under : forall p x q,
  ((path_lt (p ++ [x]) q \/ p ++ [x] = q) /\ path_lt q (p ++ [x + 1])) <-> under (p ++ [x]) q.
Proof.
  induction p as [|a p IH]; simpl; intros x q.
  - split.
    + intros [[H|H] H2].
      * inversion H; subst.
        -- inversion H2; subst; try lia. inversion H1.
        -- exists b; auto.
      * subst. exists []; auto.
    + intros [r ->]. simpl. split.
      * destruct r; [right; auto|left; apply lt_tail; constructor].
      * apply lt_head; lia.
  - split.
    + intros [[H|H] H2].
      * inversion H; subst.
        -- inversion H2; subst; lia.
        -- inversion H2; subst; try lia.
           destruct (proj1 (IH x b)) as [r Hr]; [split; auto|].
           exists r. subst; auto.
      * subst. exists []. rewrite app_nil_r; auto.
    + intros [r ->]. simpl.
      destruct (proj2 (IH x ((p ++ [x]) ++ r))) as [H1 H2]; [exists r; auto|].
      split.
      * destruct H1 as [H1|H1]; [left; apply lt_tail; auto|right; congruence].
      * apply lt_tail; auto.
Qed.

Lemma next_sibling_some : forall p q, next_sibling p = Some q ->
  exists x t, p = x :: t /\ q = x + 1 :: t /\ x < u32_max.
Proof.
  intros [|x t] q H; simpl in H; [congruence|].
  destruct (N.ltb_spec x u32_max); inversion H; subst. exists x, t; auto.
Qed.

Lemma next_sibling_range : forall p next q, next_sibling p = Some next ->
  (pos_leb p q && pos_ltb q next = true <-> under (rev p) (rev q)).
Proof.
  intros p next q H. apply next_sibling_some in H as (x & t & -> & -> & Hx).
  rewrite andb_true_iff, pos_leb_iff, pos_ltb_iff. simpl.
  rewrite <- range_under.
  split; intros [[A|A] B]; (split; [|exact B]); auto.
  - subst q; simpl; auto.
  - right. apply (f_equal (@rev N)) in A. rewrite rev_involutive, rev_app_distr in A.
    simpl in A. rewrite rev_involutive in A. auto.
Qed.

Lemma under_nil : forall q, under [] q.
Proof. intro q; exists q; auto. Qed.

Lemma under_dec_b : forall p q, {under p q} + {~ under p q}.
Proof.
  induction p as [|x p IH]; intros [|y q].
  - left; exists []; auto.
  - left; apply under_nil.
  - right; intros [r H]; discriminate.
  - destruct (N.eq_dec x y) as [->|Hn].
    + destruct (IH q) as [H|H].
      * left. destruct H as [r ->]. exists r; auto.
      * right. intros [r Hr]. simpl in Hr. inversion Hr; subst. apply H; exists r; auto.
    + right. intros [r Hr]. simpl in Hr. inversion Hr; congruence.
Defined.
