From Coq Require Import List Arith Bool Lia Permutation.
From Verif Require Import Dom.
Import ListNotations.

Lemma upd_same {A} (f : node -> A) k v : upd f k v k = v.
Proof. unfold upd. rewrite Nat.eqb_refl; auto. Qed.
Lemma upd_other {A} (f : node -> A) k v x : x <> k -> upd f k v x = f x.
Proof. unfold upd. intro H. destruct (Nat.eqb_spec x k); congruence. Qed.

Lemma remove_node_notin n l : ~ In n l -> remove_node n l = l.
Proof.
  induction l as [|x l IH]; simpl; intro H; auto.
  destruct (Nat.eqb_spec x n); simpl.
  - exfalso; auto.
  - rewrite IH; auto.
Qed.
Lemma remove_node_app n l1 l2 : remove_node n (l1 ++ l2) = remove_node n l1 ++ remove_node n l2.
Proof. unfold remove_node. apply filter_app. Qed.
Lemma remove_node_cons_same n l : remove_node n (n :: l) = remove_node n l.
Proof. simpl. rewrite Nat.eqb_refl; auto. Qed.
Lemma remove_node_cons_other n x l : x <> n -> remove_node n (x :: l) = x :: remove_node n l.
Proof. intro H; unfold remove_node; simpl. destruct (Nat.eqb_spec x n); [contradiction|reflexivity]. Qed.
Lemma remove_node_mid n l1 l2 : ~ In n l1 -> ~ In n l2 -> remove_node n (l1 ++ n :: l2) = l1 ++ l2.
Proof.
  intros. rewrite remove_node_app, remove_node_cons_same, !remove_node_notin; auto.
Qed.
Lemma in_remove_node n x l : In x (remove_node n l) <-> In x l /\ x <> n.
Proof.
  unfold remove_node. rewrite filter_In.
  destruct (Nat.eqb_spec x n); simpl; intuition congruence.
Qed.
Lemma nodup_remove_node n l : NoDup l -> NoDup (remove_node n l).
Proof. apply NoDup_filter. Qed.

Lemma ins_list_none ns l : ins_list ns None l = l ++ ns.
Proof. induction l; simpl; congruence. Qed.
Lemma ins_list_some ns r l1 l2 : ~ In r l1 -> ins_list ns (Some r) (l1 ++ r :: l2) = l1 ++ ns ++ r :: l2.
Proof.
  induction l1 as [|x l1 IH]; simpl; intro H.
  - rewrite Nat.eqb_refl; auto.
  - destruct (Nat.eqb_spec x r); [exfalso; auto|]. rewrite IH; auto.
Qed.
Lemma ins_list_perm ns r l : Permutation (ins_list ns r l) (ns ++ l).
Proof.
  induction l as [|x l IH]; simpl.
  - rewrite app_nil_r; auto.
  - assert (Permutation (x :: ins_list ns r l) (ns ++ x :: l))
      by (rewrite IH; apply Permutation_middle).
    destruct r as [y|]; auto.
    destruct (Nat.eqb x y); auto.
Qed.
Lemma in_ins_list ns r l x : In x (ins_list ns r l) <-> In x ns \/ In x l.
Proof.
  rewrite <- in_app_iff. split; apply Permutation_in;
    [|symmetry]; apply ins_list_perm.
Qed.
Lemma nodup_ins1 n r l : NoDup l -> ~ In n l -> NoDup (ins_list [n] r l).
Proof.
  intros. eapply Permutation_NoDup; [symmetry; apply ins_list_perm|].
  simpl. constructor; auto.
Qed.

Lemma next_in_mid n l1 l2 : ~ In n l1 -> next_in n (l1 ++ n :: l2) = hd_error l2.
Proof.
  induction l1 as [|x l1 IH]; simpl; intro H.
  - rewrite Nat.eqb_refl; auto.
  - destruct (Nat.eqb_spec x n); [exfalso; auto|]; auto.
Qed.

Lemma is_child_iff d p n : dom_wf d -> (is_child d p n = true <-> In n (kids d p)).
Proof.
  intros [_ W]. unfold is_child. rewrite W. destruct (par d n) as [q|].
  - destruct (Nat.eqb_spec q p); split; congruence.
  - split; congruence.
Qed.

Lemma detach_spec d n : dom_wf d ->
  dom_wf (detach d n) /\ frag (detach d n) = frag d /\
  par (detach d n) n = None /\ (forall m, m <> n -> par (detach d n) m = par d m) /\
  (forall q, kids (detach d n) q = remove_node n (kids d q)).
Proof.
  intros [W1 W2]. unfold detach. destruct (par d n) as [p|] eqn:E; simpl.
  - assert (K : forall q, upd (kids d) p (remove_node n (kids d p)) q = remove_node n (kids d q)).
    { intro q. destruct (Nat.eq_dec q p) as [->|Hq].
      - apply upd_same.
      - rewrite upd_other by auto. symmetry. apply remove_node_notin.
        rewrite W2. congruence. }
    repeat split.
    + intro q; simpl. rewrite K. apply nodup_remove_node; auto.
    + simpl. rewrite K, in_remove_node. intros [H1 H2]. rewrite upd_other; auto. apply W2; auto.
    + simpl. rewrite K, in_remove_node. unfold upd. destruct (Nat.eqb_spec n0 n); [congruence|].
      intro; split; auto. apply W2; auto.
    + apply upd_same.
    + intros; apply upd_other; auto.
    + apply K.
  - repeat split; auto.
    + apply W2.
    + apply W2.
    + intro q. symmetry. apply remove_node_notin. rewrite W2. congruence.
Qed.

Lemma remove_child_spec d p n : dom_wf d -> In n (kids d p) ->
  exists d', remove_child d p n = Some d' /\
  dom_wf d' /\ frag d' = frag d /\
  par d' n = None /\ (forall m, m <> n -> par d' m = par d m) /\
  (forall q, kids d' q = remove_node n (kids d q)).
Proof.
  intros W H. unfold remove_child. rewrite (proj2 (is_child_iff d p n W) H).
  eexists; split; [reflexivity|]. apply detach_spec; auto.
Qed.

Definition eff_ref (d : dom) (p n : node) (ref : option node) : option node :=
  match ref with
  | Some r => if Nat.eqb r n then next_in n (kids d p) else Some r
  | None => None
  end.

Definition ref_ok (d : dom) (p : node) (ref : option node) : Prop :=
  match ref with None => True | Some r => In r (kids d p) end.

Lemma insert_before_spec d p n ref : dom_wf d -> frag d n = false -> ref_ok d p ref ->
  exists d', insert_before d p n ref = Some d' /\
  dom_wf d' /\ frag d' = frag d /\
  par d' n = Some p /\ (forall m, m <> n -> par d' m = par d m) /\
  kids d' p = ins_list [n] (eff_ref d p n ref) (remove_node n (kids d p)) /\
  (forall q, q <> p -> kids d' q = remove_node n (kids d q)).
Proof.
  intros W F R. unfold insert_before.
  assert (V : match ref with None => true | Some r => is_child d p r end = true).
  { destruct ref; auto. apply is_child_iff; auto. }
  rewrite V, F. fold (eff_ref d p n ref).
  destruct (detach_spec d n W) as ((W1 & W2) & Fr & P1 & P2 & K).
  eexists; split; [reflexivity|].
  repeat split; simpl; auto.
  - intro q. unfold upd. destruct (Nat.eqb_spec q p); auto.
    apply nodup_ins1; auto. rewrite K, in_remove_node. tauto.
  - unfold upd at 1. destruct (Nat.eqb_spec p0 p).
    + subst. rewrite in_ins_list. intros [[H|[]]|H].
      * subst; apply upd_same.
      * rewrite upd_other; [apply W2; auto|]. rewrite K, in_remove_node in H. tauto.
    + intro H. rewrite upd_other; [apply W2; auto|]. rewrite K, in_remove_node in H. tauto.
  - intro H. destruct (Nat.eq_dec n0 n) as [->|Hn].
    + rewrite upd_same in H. inversion H; subst. rewrite upd_same.
      apply in_ins_list. simpl; auto.
    + rewrite upd_other in H by auto. apply W2 in H.
      unfold upd. destruct (Nat.eqb_spec p0 p); auto. subst. apply in_ins_list; auto.
  - apply upd_same.
  - intros. rewrite upd_other; auto.
  - rewrite upd_same, K. reflexivity.
  - intros. rewrite upd_other; auto.
Qed.

(** insertion of a node that is not attached anywhere *)
Lemma insert_fresh_none d p n : dom_wf d -> frag d n = false -> par d n = None ->
  exists d', insert_before d p n None = Some d' /\
  dom_wf d' /\ frag d' = frag d /\
  par d' n = Some p /\ (forall m, m <> n -> par d' m = par d m) /\
  kids d' p = kids d p ++ [n] /\
  (forall q, q <> p -> kids d' q = kids d q).
Proof.
  intros W F P. destruct (insert_before_spec d p n None W F I)
    as (d' & E & W' & F' & P1 & P2 & K1 & K2).
  assert (N : forall q, ~ In n (kids d q)) by (intros q H; apply W in H; congruence).
  exists d'; repeat (split; auto).
  - rewrite K1. simpl. rewrite ins_list_none, remove_node_notin; auto.
  - intros; rewrite K2, remove_node_notin; auto.
Qed.

Lemma insert_fresh_some d p n r l1 l2 : dom_wf d -> frag d n = false -> par d n = None ->
  kids d p = l1 ++ r :: l2 ->
  exists d', insert_before d p n (Some r) = Some d' /\
  dom_wf d' /\ frag d' = frag d /\
  par d' n = Some p /\ (forall m, m <> n -> par d' m = par d m) /\
  kids d' p = l1 ++ n :: r :: l2 /\
  (forall q, q <> p -> kids d' q = kids d q).
Proof.
  intros W F P K.
  assert (R : ref_ok d p (Some r)) by (simpl; rewrite K, in_app_iff; simpl; auto).
  destruct (insert_before_spec d p n (Some r) W F R)
    as (d' & E & W' & F' & P1 & P2 & K1 & K2).
  assert (N : forall q, ~ In n (kids d q)) by (intros q H; apply W in H; congruence).
  assert (ND : NoDup (kids d p)) by apply W.
  exists d'; repeat (split; auto).
  - rewrite K1. simpl. destruct (Nat.eqb_spec r n).
    + subst. exfalso. apply (N p). rewrite K, in_app_iff; simpl; auto.
    + rewrite remove_node_notin by auto. rewrite K in *. apply ins_list_some.
      apply NoDup_remove_2 in ND. rewrite in_app_iff in ND. tauto.
  - intros; rewrite K2, remove_node_notin; auto.
Qed.

(** fragment insertion *)
Lemma set_parents_in f ns p n : In n ns -> set_parents f ns p n = Some p.
Proof.
  unfold set_parents. revert f. induction ns as [|x ns IH]; simpl; [tauto|].
  intros f [->|H]; auto.
  destruct (in_dec Nat.eq_dec n ns) as [Hi|Hi]; auto.
  clear IH. assert (G : upd f n (Some p) n = Some p) by apply upd_same.
  revert G. generalize (upd f n (Some p)) as g. revert Hi.
  induction ns as [|y ns IH]; simpl; intros Hi g G; auto.
  apply IH; auto. rewrite upd_other; auto.
Qed.
Lemma set_parents_notin f ns p n : ~ In n ns -> set_parents f ns p n = f n.
Proof.
  unfold set_parents. revert f. induction ns as [|x ns IH]; simpl; intros f H; auto.
  rewrite IH by auto. apply upd_other; auto.
Qed.

Lemma insert_fragment_spec d p n r l1 l2 : dom_wf d -> frag d n = true -> n <> p ->
  kids d p = l1 ++ r :: l2 -> r <> n ->
  exists d', insert_before d p n (Some r) = Some d' /\
  dom_wf d' /\ frag d' = frag d /\
  kids d' p = l1 ++ kids d n ++ r :: l2 /\
  kids d' n = [] /\
  (forall m, In m (kids d n) -> par d' m = Some p) /\
  (forall m, ~ In m (kids d n) -> par d' m = par d m) /\
  (forall q, q <> p -> q <> n -> kids d' q = kids d q).
Proof.
  intros W F NP K RN. unfold insert_before.
  assert (V : is_child d p r = true).
  { apply is_child_iff; auto. rewrite K, in_app_iff; simpl; auto. }
  rewrite V, F. destruct (Nat.eqb_spec r n); [congruence|].
  destruct W as [W1 W2].
  assert (ND := W1 p). rewrite K in ND.
  assert (Kp : ins_list (kids d n) (Some r) (upd (kids d) n [] p) = l1 ++ kids d n ++ r :: l2).
  { rewrite upd_other by auto. rewrite K. apply ins_list_some.
    apply NoDup_remove_2 in ND. rewrite in_app_iff in ND. tauto. }
  eexists; split; [reflexivity|]. rewrite Kp.
  repeat split; simpl.
  - intro q. unfold upd. destruct (Nat.eqb_spec q p).
    + eapply Permutation_NoDup with (l := kids d n ++ kids d p).
      * rewrite K. rewrite !app_assoc. apply Permutation_app_tail. apply Permutation_app_comm.
      * assert (D : forall x, In x (kids d n) -> ~ In x (kids d p)).
        { intros x H1 H2. apply W2 in H1. apply W2 in H2. congruence. }
        clear - W1 D. pose proof (W1 n) as A. pose proof (W1 p) as B.
        induction (kids d n) as [|x l IH]; simpl; auto.
        inversion A; subst. constructor.
        -- rewrite in_app_iff. intros [H|H]; auto. apply (D x); simpl; auto.
        -- apply IH; auto. intros; apply D; simpl; auto.
    + destruct (Nat.eqb_spec q n); auto. constructor.
  - unfold upd. destruct (Nat.eqb_spec p0 p).
    + subst. rewrite !in_app_iff. intro H.
      destruct (in_dec Nat.eq_dec n1 (kids d n)) as [Hi|Hi].
      * apply set_parents_in; auto.
      * rewrite set_parents_notin by auto. apply W2. rewrite K, in_app_iff. tauto.
    + destruct (Nat.eqb_spec p0 n); simpl; [tauto|]. intro H. rewrite set_parents_notin.
      * apply W2; auto.
      * intro H2. apply W2 in H; apply W2 in H2. congruence.
  - intro H. destruct (in_dec Nat.eq_dec n1 (kids d n)) as [Hi|Hi].
    + rewrite set_parents_in in H by auto. inversion H; subst. rewrite upd_same, !in_app_iff; auto.
    + rewrite set_parents_notin in H by auto. apply W2 in H.
      unfold upd. destruct (Nat.eqb_spec p0 p).
      * subst. rewrite K, in_app_iff in H. rewrite !in_app_iff. tauto.
      * destruct (Nat.eqb_spec p0 n); auto. subst; contradiction.
  - apply upd_same.
  - rewrite upd_other by auto. apply upd_same.
  - apply set_parents_in.
  - intros. apply set_parents_notin; auto.
  - intros. rewrite !upd_other; auto.
Qed.

Lemma dom_empty_wf : dom_wf dom_empty.
Proof. split; simpl; intros; [constructor|]. split; [tauto|congruence]. Qed.
