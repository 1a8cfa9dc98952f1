From Coq Require Import List Arith Bool Permutation Lia.
From Verif Require Import Util Spec_list DynList DynList_proofs DynList_run_proofs Calls Calls_proofs List_lemmas Diffed.
Import ListNotations.

(** ** the set of keys, for any vectors *)
Lemma diff_loop_set new : forall set iter ks cs rest,
  diff_loop set iter new = (cs, rest) -> NoDup ks ->
  (forall x, In x set -> In x ks) -> (forall x, In x iter -> In x ks) ->
  exists ks', druns ks cs = Some ks' /\ (forall x, In x ks' <-> In x ks \/ In x new) /\
    (forall x, In x rest <-> In x set /\ ~ In x new).
Proof.
  induction new as [|k t IH]; simpl; intros set iter ks cs rest H ND HS HI.
  - inversion H; subst. exists ks. simpl. repeat split; intuition.
  - destruct (memb k set) eqn:M.
    + assert (Hk := proj1 (memb_iff _ _) M).
      assert (LS : forall x, In x (l_remove k set) -> In x ks) by (intros x X; apply l_remove_in in X; apply HS; tauto).
      assert (FIN : forall rest', (forall x, In x rest' <-> In x (l_remove k set) /\ ~ In x t) ->
                (forall x, In x rest' <-> In x set /\ ~ (k = x \/ In x t))).
      { intros rest' X x. rewrite X, l_remove_in. intuition congruence. }
      destruct iter as [|p iter'].
      * destruct (diff_loop (l_remove k set) [] t) as [cs' rest'] eqn:E. inversion H; subst.
        assert (IN : forall x, In x (l_insert k None ks) <-> In x ks).
        { intro x. rewrite l_insert_in by discriminate. intuition. subst; auto. }
        destruct (IH _ _ (l_insert k None ks) _ _ E) as (ks' & R & A & B).
        { apply l_insert_nodup; auto. }
        { intros x X. apply IN; auto. } { intros x []. }
        exists ks'. cbn [druns dstep]. rewrite (proj2 (memb_iff k ks)) by auto. cbn [ref_known andb].
        split; [exact R|]. split; [|apply FIN; auto].
        intro x. rewrite A, IN. intuition. subst; auto.
      * destruct (Nat.eqb_spec p k) as [->|NP].
        -- destruct (IH _ _ ks _ _ H) as (ks' & R & A & B); auto.
           { intros x X. apply HI. simpl; auto. }
           exists ks'. split; auto. split; [|apply FIN; auto]. intro x. rewrite A. intuition. subst; auto.
        -- destruct (diff_loop (l_remove k set) (p :: iter') t) as [cs' rest'] eqn:E. inversion H; subst.
           assert (Hp : In p ks) by (apply HI; simpl; auto).
           assert (IN : forall x, In x (l_insert k (Some p) ks) <-> In x ks).
           { intro x. rewrite l_insert_in; [intuition; subst; auto|].
             intros b' X; inversion X; subst; auto. }
           destruct (IH _ _ (l_insert k (Some p) ks) _ _ E) as (ks' & R & A & B).
           { apply l_insert_nodup; auto. }
           { intros x X. apply IN; auto. } { intros x X. apply IN; auto. }
           exists ks'. cbn [druns dstep]. rewrite (proj2 (memb_iff k ks)) by auto. cbn [ref_known andb].
           rewrite (proj2 (memb_iff p ks)) by auto. rewrite (proj2 (Nat.eqb_neq p k)) by auto. cbn [andb negb].
           split; [exact R|]. split; [|apply FIN; auto].
           intro x. rewrite A, IN. intuition. subst; auto.
    + destruct (diff_loop set iter t) as [cs' rest'] eqn:E. inversion H; subst.
      assert (RK : forall b', hd_error iter = Some b' -> In b' ks).
      { intros b' X. destruct iter; inversion X; subst. apply HI; simpl; auto. }
      assert (IN : forall x, In x (l_insert k (hd_error iter) ks) <-> x = k \/ In x ks).
      { intro x. apply l_insert_in; auto. }
      destruct (IH _ _ (l_insert k (hd_error iter) ks) _ _ E) as (ks' & R & A & B).
      { apply l_insert_nodup; auto. }
      { intros x X. apply IN; auto. } { intros x X. apply IN; auto. }
      exists ks'. cbn [druns dstep]. rewrite (proj2 (ref_known_iff _ _)) by auto. cbn [expected andb].
      split; [exact R|]. split.
      * intro x. rewrite A, IN. intuition.
      * intro x. rewrite B. apply memb_false in M. intuition. subst; auto.
Qed.

Lemma diff_calls_set drain prev new ks : (forall s, Permutation (drain s) s) -> NoDup ks ->
  (forall x, In x ks <-> In x prev) ->
  exists ks', druns ks (diff_calls drain prev new) = Some ks' /\ NoDup ks' /\ (forall x, In x ks' <-> In x new).
Proof.
  intros D ND S. unfold diff_calls.
  destruct (diff_loop (nodup Nat.eq_dec prev) prev new) as [cs rest] eqn:E.
  destruct (diff_loop_set _ _ _ ks _ _ E ND) as (ks1 & R & A & B).
  { intros x X. apply nodup_In in X. apply S; auto. }
  { intros x X. apply S; auto. }
  rewrite (druns_app _ _ _ _ R).
  rewrite druns_removes.
  eexists; split; [reflexivity|]. split.
  - apply NoDup_filter. eapply druns_nodup; eauto.
  - intro x. rewrite filter_In, negb_true_iff, (memb_perm _ _ x (D rest)), memb_false, A, B, nodup_In, S.
    destruct (in_dec Nat.eq_dec x new), (in_dec Nat.eq_dec x prev); tauto.
Qed.

(** ** the order *)
Definition notin (D : list nat) : list nat -> list nat := filter (fun x => negb (memb x D)).

Lemma notin_in D l x : In x (notin D l) <-> In x l /\ ~ In x D.
Proof. unfold notin. rewrite filter_In, negb_true_iff, memb_false. tauto. Qed.
Lemma notin_cons_out D x l : ~ In x D -> notin D (x :: l) = x :: notin D l.
Proof. intro H. unfold notin. simpl. apply memb_false in H. rewrite H. auto. Qed.
Lemma notin_cons_in D x l : In x D -> notin D (x :: l) = notin D l.
Proof. intro H. unfold notin. simpl. apply memb_iff in H. rewrite H. auto. Qed.
Lemma notin_snoc D k l : notin (D ++ [k]) l = l_remove k (notin D l).
Proof.
  induction l as [|x t IH]; auto.
  destruct (in_dec Nat.eq_dec x D) as [H|H].
  - rewrite (notin_cons_in D) by auto. rewrite notin_cons_in by (apply in_app_iff; auto). auto.
  - rewrite (notin_cons_out D) by auto. destruct (Nat.eq_dec x k) as [->|N].
    + rewrite notin_cons_in by (apply in_app_iff; simpl; auto). rewrite l_remove_cons_same. auto.
    + rewrite notin_cons_out, l_remove_cons_other by (rewrite ?in_app_iff; simpl; intuition). f_equal. auto.
Qed.
Lemma notin_nil l : notin [] l = l.
Proof. induction l as [|x t IH]; auto. rewrite notin_cons_out by auto. f_equal; auto. Qed.
Lemma notin_nodup D l : NoDup l -> NoDup (notin D l).
Proof. apply NoDup_filter. Qed.
Lemma notin_none D l : (forall x, In x l -> ~ In x D) -> notin D l = l.
Proof.
  induction l as [|x t IH]; intro H; auto. rewrite notin_cons_out by (apply H; simpl; auto).
  f_equal. apply IH. intros; apply H; simpl; auto.
Qed.
Lemma notin_all D l : (forall x, In x l -> In x D) -> notin D l = [].
Proof.
  induction l as [|x t IH]; intro H; auto. rewrite notin_cons_in by (apply H; simpl; auto).
  apply IH. intros; apply H; simpl; auto.
Qed.
Lemma notin_app D a b : notin D (a ++ b) = notin D a ++ notin D b.
Proof. apply filter_app. Qed.

Lemma subseq_nil_any l : subseq [] l.
Proof. induction l; constructor; auto. Qed.
Lemma subseq_refl l : subseq l l.
Proof. induction l; constructor; auto. Qed.
Lemma subseq_in a l x : subseq a l -> In x a -> In x l.
Proof. induction 1; simpl; intuition. Qed.
Lemma subseq_tail x a l : subseq (x :: a) l -> subseq a l.
Proof.
  revert a. induction l as [|y t IH]; intros a H; inversion H; subst; [constructor; auto|].
  constructor. auto.
Qed.
Lemma subseq_cons_same x a l : subseq (x :: a) (x :: l) <-> subseq a l.
Proof.
  split; intro H; [|constructor; auto]. inversion H; subst; auto. eapply subseq_tail; eauto.
Qed.
Lemma subseq_cons_other x y a l : x <> y -> (subseq (x :: a) (y :: l) <-> subseq (x :: a) l).
Proof. intro N. split; intro H; [inversion H; subst; congruence|constructor; auto]. Qed.
Lemma subseq_app_l a b l : subseq (a ++ b) l -> subseq a l.
Proof.
  revert a. induction l as [|y t IH]; intros a H.
  - destruct a; [constructor|inversion H].
  - destruct a as [|x a]; [apply subseq_nil_any|]. simpl in H. inversion H; subst.
    + constructor. auto.
    + constructor. apply IH; auto.
Qed.
Lemma subseq_one x l : subseq [x] l <-> In x l.
Proof.
  split; [intro H; eapply subseq_in; eauto; simpl; auto|].
  induction l as [|y t IH]; simpl; [tauto|]. intros [->|H]; [constructor; apply subseq_nil_any|constructor; auto].
Qed.
Lemma subseq_filter f l : subseq (filter f l) l.
Proof. induction l as [|x t IH]; simpl; [constructor|]. destruct (f x); constructor; auto. Qed.

Definition good (I T D : list nat) : Prop :=
  forall C p r, I = C ++ p :: r -> subseq C T -> ~ subseq (C ++ [p]) T ->
    ~ In p (D ++ T) \/ exists C0 T0 x, C = C0 ++ [x] /\ T = T0 ++ [x].

Lemma good_nil T D : good [] T D.
Proof. intros C p r E. destruct C; discriminate. Qed.

Lemma snoc_cons {A} (a : A) l l0 x : a :: l = l0 ++ [x] -> l <> [] -> exists l1, l = l1 ++ [x] /\ l0 = a :: l1.
Proof.
  destruct l0 as [|y l0]; simpl; intros E N; inversion E; subst; [congruence|]. eauto.
Qed.

Lemma good_step_eq p I T D : NoDup (D ++ p :: T) -> NoDup (p :: I) ->
  (forall q I', I = q :: I' -> ~ In q D) ->
  (good (p :: I) (p :: T) D <-> good I T (D ++ [p])).
Proof.
  intros ND NI HD. split; intros G C p2 r E S NS.
  - destruct (G (p :: C) p2 r) as [H|(C0 & T0 & x & E1 & E2)].
    + subst; auto.
    + constructor; auto.
    + simpl. rewrite subseq_cons_same. auto.
    + left. rewrite <- app_assoc. auto.
    + destruct C as [|c C].
      * left. rewrite in_app_iff. simpl in E. specialize (HD _ _ E).
        rewrite in_app_iff. simpl.
        assert (p <> p2) by (inversion NI; subst; simpl in *; intuition).
        assert (~ In p2 T); [|tauto].
        intro X. apply NS. simpl. apply subseq_one; auto.
      * apply snoc_cons in E1 as (C1 & E1 & _); [|discriminate].
        apply snoc_cons in E2 as (T1 & E2 & _); [right; exists C1, T1, x; auto|].
        intros ->. inversion S.
  - destruct C as [|c C]; simpl in E; inversion E; subst.
    + exfalso. apply NS. simpl. constructor. apply subseq_nil_any.
    + rewrite subseq_cons_same in S. simpl in NS. rewrite subseq_cons_same in NS.
      destruct (G C p2 r eq_refl S NS) as [H|(C0 & T0 & x & -> & ->)].
      * left. rewrite <- app_assoc in H. auto.
      * right. exists (c :: C0), (c :: T0), x. auto.
Qed.

Lemma good_step_neq p k I T D : p <> k -> ~ In p D ->
  (good (p :: I) (k :: T) D <-> good (p :: I) T (D ++ [k])).
Proof.
  intros N HD. split; intros G C p2 r E S NS.
  - destruct C as [|c C]; simpl in E; inversion E; subst.
    + left. rewrite <- app_assoc, in_app_iff. simpl. intros [X|[X|X]]; [tauto|congruence|].
      apply NS. simpl. apply subseq_one; auto.
    + destruct (G (c :: C) p2 r) as [H|(C0 & T0 & x & E1 & E2)]; auto.
      * constructor; auto.
      * simpl. rewrite subseq_cons_other by auto. auto.
      * left. rewrite <- app_assoc. auto.
      * apply snoc_cons in E2 as (T1 & E2 & _); [right; exists C0, T1, x; auto|].
        intros ->. inversion S.
  - destruct C as [|c C]; simpl in E; inversion E; subst.
    + left. rewrite in_app_iff. intros [X|[X|X]]; [tauto|congruence|].
      apply NS. simpl. apply subseq_one. simpl; auto.
    + rewrite subseq_cons_other in S by auto. simpl in NS. rewrite subseq_cons_other in NS by auto.
      destruct (G (c :: C) p2 r eq_refl S NS) as [H|(C0 & T0 & x & -> & ->)].
      * left. rewrite <- app_assoc in H. auto.
      * right. exists (C0), (k :: T0), x. auto.
Qed.

Lemma l_insert_before k p X R : NoDup (X ++ p :: R) -> k <> p ->
  l_insert k (Some p) (X ++ p :: R) = l_remove k X ++ k :: p :: l_remove k R.
Proof.
  intros ND N. unfold l_insert. rewrite (proj2 (Nat.eqb_neq p k)) by auto.
  rewrite l_remove_app, l_remove_cons_other by auto. apply l_before_at.
  rewrite l_remove_in. intros [H _]. eapply (nodup_app_disj X (p :: R) p); simpl; eauto.
Qed.

(** the loop with a reference key that was already put in place *)
Lemma diff_stale T : forall set X p I R,
  NoDup (X ++ p :: R) -> NoDup T -> (forall k, In k T -> ~ In k X /\ k <> p) ->
  (forall k, In k set -> In k (X ++ p :: R)) ->
  druns (X ++ p :: R) (fst (diff_loop set (p :: I) T)) = Some (X ++ T ++ p :: notin T R).
Proof.
  induction T as [|k t IH]; intros set X p I R ND NT HT HS.
  - simpl. rewrite notin_nil. auto.
  - assert (HX : ~ In k X) by (apply HT; simpl; auto).
    assert (HP : k <> p) by (apply HT; simpl; auto).
    inversion NT; subst.
    assert (INS : l_insert k (Some p) (X ++ p :: R) = (X ++ [k]) ++ p :: l_remove k R).
    { rewrite l_insert_before by auto. rewrite (l_remove_notin k X) by auto. rewrite <- app_assoc. auto. }
    assert (ND' : NoDup ((X ++ [k]) ++ p :: l_remove k R)) by (rewrite <- INS; apply l_insert_nodup; auto).
    assert (NEXT : forall set', (forall x, In x set' -> In x set) ->
      druns ((X ++ [k]) ++ p :: l_remove k R) (fst (diff_loop set' (p :: I) t)) =
      Some (X ++ (k :: t) ++ p :: notin (k :: t) R)).
    { intros set' HS'. rewrite IH; auto.
      - f_equal. rewrite <- app_assoc. simpl. do 4 f_equal. clear.
        induction R as [|x R IH]; auto.
        destruct (Nat.eq_dec x k) as [->|N].
        + rewrite l_remove_cons_same, notin_cons_in by (simpl; auto). auto.
        + rewrite l_remove_cons_other by auto. destruct (in_dec Nat.eq_dec x t).
          * rewrite !notin_cons_in by (simpl; auto). auto.
          * rewrite !notin_cons_out by (simpl; intuition). f_equal; auto.
      - intros y Hy. rewrite in_app_iff. destruct (HT y) as [A B]; [simpl; auto|].
        split; auto. intros [Z|[Z|[]]]; [tauto|subst; tauto].
      - intros y Hy. apply HS' in Hy. apply HS in Hy.
        rewrite in_app_iff in Hy. simpl in Hy. rewrite !in_app_iff. simpl. rewrite l_remove_in.
        destruct (Nat.eq_dec y k); [subst; auto|]. tauto. }
    assert (RP : memb p (X ++ p :: R) = true) by (apply memb_iff, in_app_iff; simpl; auto).
    cbn [diff_loop]. destruct (memb k set) eqn:M.
    + rewrite (proj2 (Nat.eqb_neq p k)) by auto.
      specialize (NEXT (l_remove k set)). destruct (diff_loop (l_remove k set) (p :: I) t) as [cs rest].
      cbn [fst druns dstep ref_known] in *.
      rewrite (proj2 (memb_iff k _)) by (apply HS, memb_iff; auto). rewrite RP.
      rewrite (proj2 (Nat.eqb_neq p k)) by auto. cbn [andb negb]. rewrite INS. apply NEXT.
      intros x Hx. apply l_remove_in in Hx. tauto.
    + specialize (NEXT set). destruct (diff_loop set (p :: I) t) as [cs rest].
      cbn [fst druns dstep ref_known hd_error expected andb] in *. rewrite RP. cbn [andb]. rewrite INS. apply NEXT. auto.
Qed.

Lemma diff_loop_rest T : forall set I, NoDup T -> snd (diff_loop set I T) = notin T set.
Proof.
  induction T as [|k t IH]; intros set I NT; cbn [diff_loop].
  - simpl. rewrite notin_nil. auto.
  - inversion NT; subst.
    assert (E : notin t (l_remove k set) = notin (k :: t) set).
    { clear. induction set as [|x R IH]; auto.
      destruct (Nat.eq_dec x k) as [->|N].
      + rewrite l_remove_cons_same, notin_cons_in by (simpl; auto). auto.
      + rewrite l_remove_cons_other by auto. destruct (in_dec Nat.eq_dec x t).
        * rewrite !notin_cons_in by (simpl; auto). auto.
        * rewrite !notin_cons_out by (simpl; intuition). f_equal; auto. }
    destruct (memb k set) eqn:M.
    + rewrite <- E. destruct I as [|p I]; [|destruct (Nat.eqb p k)].
      * specialize (IH (l_remove k set) [] H2). destruct (diff_loop _ _ _); auto.
      * auto.
      * specialize (IH (l_remove k set) (p :: I) H2). destruct (diff_loop _ _ _); auto.
    + apply memb_false in M. rewrite (l_remove_notin _ _ M) in E. rewrite <- E.
      specialize (IH set I H2). destruct (diff_loop _ _ _); auto.
Qed.

Lemma diff_phase T : forall D I,
  NoDup (D ++ T) -> NoDup I -> (forall p I', I = p :: I' -> ~ In p D) ->
  exists ks', druns (D ++ notin D I) (fst (diff_loop (notin D I) I T)) = Some ks' /\
    ((good I T D /\ ks' = D ++ T ++ notin (D ++ T) I) \/
     (~ good I T D /\ exists X p k Y R, D ++ T = X ++ p :: Y /\ ks' = X ++ k :: R /\ In k Y /\ ~ In k X)).
Proof.
  induction T as [|k t IH]; intros D I ND NI HD.
  - simpl. eexists; split; [reflexivity|]. left. rewrite app_nil_r. split; auto.
    intros C p r E S NS. inversion S; subst. left. rewrite app_nil_r. eapply HD. reflexivity.
  - assert (ND' : NoDup ((D ++ [k]) ++ t)) by (rewrite <- app_assoc; auto).
    assert (KD : ~ In k D) by (intro X; eapply (nodup_app_disj D (k :: t)); simpl; eauto).
    assert (EDT : D ++ k :: t = (D ++ [k]) ++ t) by (rewrite <- app_assoc; auto).
    destruct I as [|p I].
    + (* nothing left of the previous keys *)
      change (notin D []) with (@nil nat). rewrite app_nil_r. cbn [diff_loop memb existsb hd_error].
      destruct (IH (D ++ [k]) []) as (ks' & R & H); [auto|constructor|discriminate|].
      change (notin (D ++ [k]) []) with (@nil nat) in *. rewrite app_nil_r in R.
      destruct (diff_loop [] [] t) as [cs rest]. cbn [fst] in *.
      exists ks'. split.
      * cbn [druns dstep ref_known expected andb l_insert]. rewrite l_remove_notin by auto. exact R.
      * left. split; [apply good_nil|]. destruct H as [[_ ->]|[H _]].
        -- rewrite <- app_assoc. auto.
        -- exfalso. apply H, good_nil.
    + assert (HP : ~ In p D) by (eapply HD; eauto). inversion NI; subst.
      rewrite (notin_cons_out D p I HP).
      assert (SET : l_remove k (p :: notin D I) = notin (D ++ [k]) (p :: I)).
      { rewrite notin_snoc, notin_cons_out by auto. auto. }
      destruct (Nat.eq_dec p k) as [->|NPK].
      * (* consumed *)
        cbn [diff_loop]. replace (memb k (k :: notin D I)) with true by (symmetry; apply memb_iff; simpl; auto).
        rewrite Nat.eqb_refl, SET.
        rewrite (notin_cons_in (D ++ [k]) k) by (apply in_app_iff; simpl; auto).
        assert (KE : D ++ k :: notin D I = (D ++ [k]) ++ notin (D ++ [k]) I).
        { rewrite notin_snoc, l_remove_notin by (rewrite notin_in; tauto). rewrite <- app_assoc. auto. }
        rewrite KE.
        assert (CASES : (forall q I', I = q :: I' -> ~ In q D) \/ exists q I', I = q :: I' /\ In q D).
        { destruct I as [|q I']; [left; discriminate|].
          destruct (in_dec Nat.eq_dec q D); [right; eauto|left]. intros ? ? E; inversion E; subst; auto. }
        destruct CASES as [HQ|(q & I' & -> & HQ)].
        -- destruct (IH (D ++ [k]) I ND' H2) as (ks' & R & H).
           { intros q I' E X. apply in_app_iff in X as [X|[X|[]]]; [eapply HQ; eauto|].
             subst. apply H1. simpl; auto. }
           exists ks'. split; [exact R|].
           rewrite (good_step_eq k I t D) by auto.
           rewrite (notin_cons_in (D ++ k :: t) k) by (apply in_app_iff; simpl; auto).
           destruct H as [[G ->]|[G H]].
           ++ left. split; auto. rewrite <- !app_assoc. auto.
           ++ right. split; auto. rewrite EDT. exact H.
        -- (* stale reference *)
           destruct t as [|k2 t].
           ++ cbn [diff_loop fst druns]. eexists; split; [reflexivity|]. left. split.
              ** intros C p r E S NS. destruct C as [|c C]; simpl in E; inversion E; subst.
                 --- exfalso. apply NS. simpl. constructor. constructor.
                 --- destruct C as [|c2 C]; [right; exists [], [], c; auto|].
                     exfalso; inversion S as [|? ? ? S1|? ? ? S1]; subst; inversion S1.
              ** rewrite (notin_cons_in (D ++ [k]) k) by (apply in_app_iff; simpl; auto).
                 rewrite <- app_assoc. auto.
           ++ assert (QS : exists X Y, D = X ++ q :: Y) by (apply in_split; auto). destruct QS as (X & Y & ->).
              assert (NQ : notin ((X ++ q :: Y) ++ [k]) (q :: I') = notin ((X ++ q :: Y) ++ [k]) I').
              { apply notin_cons_in. rewrite !in_app_iff. simpl. auto. }
              rewrite NQ.
              set (F := notin ((X ++ q :: Y) ++ [k]) I').
              replace (((X ++ q :: Y) ++ [k]) ++ F) with (X ++ q :: (Y ++ [k] ++ F)) by (apps; auto).
              assert (FD : forall x, In x F -> ~ In x (X ++ q :: Y) /\ x <> k).
              { intros x Hx. apply notin_in in Hx as [_ Hx]. rewrite in_app_iff in Hx. simpl in Hx. intuition. }
              rewrite diff_stale.
              ** eexists; split; [reflexivity|]. right. split.
                 --- intro G. destruct (G [k] q I') as [H|(C0 & T0 & x & E1 & E2)].
                     +++ auto.
                     +++ constructor. apply subseq_nil_any.
                     +++ simpl. rewrite subseq_cons_same. intro S. apply subseq_one in S.
                         eapply (nodup_app_disj (X ++ q :: Y) (k :: k2 :: t) q ND); [apply in_app_iff; simpl; auto|simpl in *; auto].
                     +++ apply H. rewrite !in_app_iff. simpl; auto.
                     +++ destruct C0 as [|c C0]; inversion E1; subst; [|destruct C0; discriminate].
                         destruct T0 as [|y T0]; inversion E2; subst.
                         apply nodup_app_r in ND. inversion ND; subst. apply H4. rewrite H3. apply in_app_iff; simpl; auto.
                 --- exists X, q, k2, (Y ++ k :: k2 :: t), (t ++ q :: notin (k2 :: t) (Y ++ [k] ++ F)).
                     split; [rewrite <- app_assoc; auto|]. split; [auto|]. split.
                     +++ apply in_app_iff. simpl; auto.
                     +++ intro H. eapply (nodup_app_disj (X ++ q :: Y) (k :: k2 :: t) k2 ND); [apply in_app_iff; simpl; auto|simpl; auto].
              ** assert (N1 := nodup_app_l _ _ ND').
                 replace (X ++ q :: Y ++ [k] ++ F) with (((X ++ q :: Y) ++ [k]) ++ F) by (apps; auto).
                 apply nodup_app_intro; auto.
                 { apply notin_nodup. inversion H2; auto. }
                 intros x X1 X2. apply FD in X2. apply in_app_iff in X1 as [X1|[X1|[]]]; [tauto|]. subst. tauto.
              ** apply nodup_app_r in ND'. auto.
              ** intros y Hy. split; intro Z.
                 --- eapply (nodup_app_disj ((X ++ q :: Y) ++ [k]) (k2 :: t) y ND'); auto. rewrite !in_app_iff. auto.
                 --- subst y. eapply (nodup_app_disj ((X ++ q :: Y) ++ [k]) (k2 :: t) q ND'); auto. rewrite !in_app_iff. simpl; auto.
              ** intros y Hy. rewrite !in_app_iff. simpl. rewrite !in_app_iff. simpl. auto.
      * (* put before the next previous key *)
        assert (HP' : forall q I', p :: I = q :: I' -> ~ In q (D ++ [k])).
        { intros q I' E X. inversion E; subst. apply in_app_iff in X as [X|[X|[]]]; [tauto|congruence]. }
        destruct (IH (D ++ [k]) (p :: I) ND' NI HP') as (ks' & R & H).
        assert (NDK : NoDup (D ++ p :: notin D I)).
        { apply nodup_app_intro; [eapply nodup_app_l; eauto| |].
          - constructor; [rewrite notin_in; tauto|apply notin_nodup; auto].
          - intros x X1 [->|X2]; [tauto|]. apply notin_in in X2. tauto. }
        assert (INS : l_insert k (Some p) (D ++ p :: notin D I) = (D ++ [k]) ++ notin (D ++ [k]) (p :: I)).
        { rewrite l_insert_before by auto. rewrite (l_remove_notin k D) by auto.
          rewrite notin_cons_out by (eapply HP'; eauto). rewrite notin_snoc, <- app_assoc. auto. }
        assert (RP : memb p (D ++ p :: notin D I) = true) by (apply memb_iff, in_app_iff; simpl; auto).
        exists ks'. split.
        -- cbn [diff_loop]. destruct (memb k (p :: notin D I)) eqn:M.
           ++ rewrite (proj2 (Nat.eqb_neq p k)) by auto. rewrite SET.
              destruct (diff_loop (notin (D ++ [k]) (p :: I)) (p :: I) t) as [cs rest]. cbn [fst] in *.
              cbn [druns dstep ref_known].
              rewrite (proj2 (memb_iff k (D ++ p :: notin D I))) by (apply in_app_iff; right; apply memb_iff; auto).
              rewrite RP, (proj2 (Nat.eqb_neq p k)) by auto. cbn [andb negb]. rewrite INS. exact R.
           ++ apply memb_false in M.
              assert (SET' : notin (D ++ [k]) (p :: I) = p :: notin D I) by (rewrite <- SET; apply l_remove_notin; auto).
              rewrite SET' in R at 2.
              destruct (diff_loop (p :: notin D I) (p :: I) t) as [cs rest]. cbn [fst] in *.
              cbn [druns dstep ref_known hd_error expected andb]. rewrite RP. cbn [andb]. rewrite INS. exact R.
        -- rewrite (good_step_neq p k I t D NPK HP). destruct H as [[G ->]|[G H]].
           ++ left. split; auto. rewrite <- !app_assoc. auto.
           ++ right. split; auto. rewrite EDT. exact H.
Qed.

Lemma diff_order drain prev new : (forall s, Permutation (drain s) s) -> NoDup prev -> NoDup new ->
  exists ks, druns prev (diff_calls drain prev new) = Some ks /\ (ks = new <-> good prev new []).
Proof.
  intros DR NP NN. unfold diff_calls.
  destruct (diff_phase new [] prev) as (ks & R & H); auto.
  rewrite notin_nil in R. simpl in R.
  rewrite (nodup_fixed_point Nat.eq_dec) by auto.
  assert (REST := diff_loop_rest new prev prev NN).
  destruct (diff_loop prev prev new) as [cs rest]. simpl in R, REST. subst rest.
  rewrite (druns_app _ _ _ _ R), druns_removes. eexists; split; [reflexivity|].
  assert (F : forall l, filter (fun x => negb (memb x (drain (notin new prev)))) l = notin (notin new prev) l).
  { intro l. apply filter_ext. intro x. rewrite (memb_perm _ _ x (DR _)). auto. }
  rewrite F. destruct H as [[G ->]|[G (X & p & k & Y & R' & E & -> & HK & HX)]].
  - simpl. split; auto. intros _. rewrite notin_app, (notin_none _ new).
    + rewrite (notin_all (notin new prev) (notin new prev)) by auto. apply app_nil_r.
    + intros x X1 X2. apply notin_in in X2. tauto.
  - split; [|tauto]. intro EQ. exfalso. simpl in E. subst new.
    rewrite notin_app, (notin_none _ X) in EQ.
    2:{ intros x X1 X2. apply notin_in in X2 as [_ X2]. apply X2. apply in_app_iff; auto. }
    rewrite notin_cons_out in EQ.
    2:{ intro X2. apply notin_in in X2 as [_ X2]. apply X2. apply in_app_iff; simpl; auto. }
    apply app_inv_head in EQ. inversion EQ; subst.
    apply nodup_app_r in NN. inversion NN; subst. tauto.
Qed.

Lemma good_common prev new :
  filter (fun x => memb x new) prev = filter (fun x => memb x prev) new -> good prev new [].
Proof.
  intros E C p r -> S NS. left. simpl. intro H. apply NS.
  assert (A : forall x, In x C -> memb x new = true).
  { intros x Hx. apply memb_iff. eapply subseq_in; eauto. }
  rewrite filter_app in E. simpl in E. rewrite (proj2 (memb_iff p new) H) in E.
  assert (FC : filter (fun x => memb x new) C = C).
  { clear -A. induction C as [|c C IH]; simpl; auto. rewrite A by (simpl; auto). f_equal. apply IH.
    intros; apply A; simpl; auto. }
  rewrite FC in E.
  apply (subseq_app_l (C ++ [p]) (filter (fun x => memb x new) r)). rewrite <- app_assoc. simpl. rewrite E.
  apply subseq_filter.
Qed.

(** ** which futures are kept *)
Lemma diff_loop_rest_in new : forall set iter x, In x (snd (diff_loop set iter new)) -> In x set /\ ~ In x new.
Proof.
  induction new as [|k t IH]; simpl; intros set iter x H; [auto|].
  destruct (memb k set) eqn:M.
  - assert (X : exists it, In x (snd (diff_loop (l_remove k set) it t))).
    { destruct iter as [|p iter']; [|destruct (Nat.eqb p k)].
      - exists []. destruct (diff_loop _ _ t); exact H.
      - exists iter'. exact H.
      - exists (p :: iter'). destruct (diff_loop _ _ t); exact H. }
    destruct X as [it X]. apply IH in X as [X1 X2]. apply l_remove_in in X1 as [X1 X3].
    split; auto. intros [E|E]; auto.
  - destruct (diff_loop set iter t) as [cs rest] eqn:E. simpl in H.
    specialize (IH set iter x). rewrite E in IH. destruct (IH H) as [A B]. split; auto.
    intros [->|X]; auto. apply memb_false in M. auto.
Qed.
Lemma diff_loop_insert new : forall set iter k b e,
  In (DInsert k b e) (fst (diff_loop set iter new)) ->
  count_occ Nat.eq_dec new k >= (if memb k set then 2 else 1).
Proof.
  induction new as [|x t IH]; intros set iter k b e H; [destruct H|]. cbn [diff_loop] in H.
  cbn [count_occ]. destruct (memb x set) eqn:M.
  - assert (X : exists it, In (DInsert k b e) (fst (diff_loop (l_remove x set) it t))).
    { destruct iter as [|p iter']; [|destruct (Nat.eqb p x)].
      - exists []. destruct (diff_loop _ _ t). destruct H as [H|H]; [discriminate|exact H].
      - exists iter'. exact H.
      - exists (p :: iter'). destruct (diff_loop _ _ t). destruct H as [H|H]; [discriminate|exact H]. }
    destruct X as [it X]. apply IH in X. destruct (Nat.eq_dec x k) as [->|N].
    + rewrite M. rewrite (proj2 (memb_false k (l_remove k set))) in X; [lia|]. rewrite l_remove_in. tauto.
    + assert (E : memb k (l_remove x set) = memb k set).
      { destruct (memb k set) eqn:M2.
        - apply memb_iff. apply l_remove_in. split; auto. apply memb_iff; auto.
        - apply memb_false. rewrite l_remove_in. apply memb_false in M2. tauto. }
      rewrite E in X. auto.
  - destruct (diff_loop set iter t) as [cs rest] eqn:E. simpl in H. destruct H as [H|H].
    + inversion H; subst. rewrite M. destruct (Nat.eq_dec k k); [lia|congruence].
    + specialize (IH set iter k b e). rewrite E in IH. specialize (IH H).
      destruct (Nat.eq_dec x k); destruct (memb k set); lia.
Qed.

Lemma diff_loop_kind new : forall set iter c, In c (fst (diff_loop set iter new)) ->
  match c with DInsert _ _ _ | DMove _ _ => True | _ => False end.
Proof.
  induction new as [|x t IH]; simpl; intros set iter c H; [tauto|].
  destruct (memb x set).
  - destruct iter as [|p it]; [|destruct (Nat.eqb p x)].
    + specialize (IH (l_remove x set) []). destruct (diff_loop _ _ t). simpl in *. destruct H as [<-|H]; [exact I|apply (IH _ H)].
    + exact (IH _ _ _ H).
    + specialize (IH (l_remove x set) (p :: it)). destruct (diff_loop _ _ t). simpl in *. destruct H as [<-|H]; [exact I|apply (IH _ H)].
  - specialize (IH set iter). destruct (diff_loop _ _ t). simpl in *. destruct H as [<-|H]; [exact I|apply (IH _ H)].
Qed.
Lemma diff_calls_spare drain prev new k : (forall s, Permutation (drain s) s) ->
  In k prev -> count_occ Nat.eq_dec new k = 1 ->
  forall c, In c (diff_calls drain prev new) -> spares k c.
Proof.
  intros D P C c H. unfold diff_calls in H.
  assert (I1 := fun b e => diff_loop_insert new (nodup Nat.eq_dec prev) prev k b e).
  assert (I2 := diff_loop_rest_in new (nodup Nat.eq_dec prev) prev k).
  assert (I3 := fun c => diff_loop_kind new (nodup Nat.eq_dec prev) prev c).
  destruct (diff_loop (nodup Nat.eq_dec prev) prev new) as [cs rest]. simpl in *.
  apply in_app_iff in H as [H|H].
  - specialize (I3 _ H). destruct c; simpl; try tauto. intros ->. apply I1 in H.
    rewrite (proj2 (memb_iff k (nodup Nat.eq_dec prev))) in H; [lia|]. apply nodup_In; auto.
  - apply in_map_iff in H as (x & <- & H). simpl. intros ->.
    apply (Permutation_in _ (D rest)) in H. apply I2 in H as [_ H]. apply H.
    apply (count_occ_In Nat.eq_dec). lia.
Qed.
