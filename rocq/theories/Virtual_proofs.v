From Coq Require Import List Arith Bool Permutation Lia.
From Verif Require Import Util Spec_list DynList DynList_proofs DynList_run_proofs Calls Calls_proofs
  List_lemmas Virtual.
Import ListNotations.

Lemma range_in a b x : In x (range a b) <-> a <= x < b.
Proof. unfold range. rewrite in_seq. lia. Qed.
Lemma range_nodup a b : NoDup (range a b).
Proof. apply seq_NoDup. Qed.
Lemma range_empty a b : b <= a -> range a b = [].
Proof. intro H. unfold range. replace (b - a) with 0 by lia. auto. Qed.
Lemma range_app a b c : a <= b -> b <= c -> range a c = range a b ++ range b c.
Proof. intros H1 H2. unfold range. replace (c - a) with ((b - a) + (c - b)) by lia. rewrite seq_app. f_equal. f_equal; lia. Qed.
Lemma range_cons a b : a < b -> range a b = a :: range (S a) b.
Proof. intro H. unfold range. replace (b - a) with (S (b - S a)) by lia. auto. Qed.

Lemma filter_none {A} (f : A -> bool) l : (forall x, In x l -> f x = false) -> filter f l = [].
Proof. induction l as [|x l IH]; simpl; intro H; auto. rewrite H by auto. apply IH; auto. Qed.
Lemma filter_all {A} (f : A -> bool) l : (forall x, In x l -> f x = true) -> filter f l = l.
Proof. induction l as [|x l IH]; simpl; intro H; auto. rewrite H by auto. f_equal. apply IH; auto. Qed.

(** appending a range one by one *)
Lemma append_fresh a b : forall ks, (forall x, In x ks -> ~ a <= x < b) ->
  druns ks (map (fun k => DInsert k None None) (range a b)) = Some (ks ++ range a b).
Proof.
  remember (b - a) as n eqn:E. revert a E. induction n as [|n IH]; intros a E ks H.
  - rewrite range_empty by lia. simpl. rewrite app_nil_r. auto.
  - rewrite range_cons by lia. cbn [map druns dstep ref_known expected andb l_insert].
    rewrite l_remove_notin by (intro X; apply (H _ X); lia).
    rewrite IH.
    + rewrite <- app_assoc. auto.
    + lia.
    + intros x X. apply in_app_iff in X as [X|[<-|[]]]; [apply H in X; lia|lia].
Qed.
(** inserting a range before a present key *)
Lemma insert_before_present a b p : forall X R, (forall x, In x (X ++ p :: R) -> ~ a <= x < b) ->
  ~ In p X ->
  druns (X ++ p :: R) (map (fun k => DInsert k (Some p) None) (range a b)) = Some (X ++ range a b ++ p :: R).
Proof.
  remember (b - a) as n eqn:E. revert a E. induction n as [|n IH]; intros a E X R H NP.
  - rewrite range_empty by lia. simpl. auto.
  - rewrite range_cons by lia. cbn [map druns dstep ref_known expected andb].
    rewrite (proj2 (memb_iff p _)) by (apply in_app_iff; simpl; auto). cbn [andb].
    assert (NA : p <> a) by (intros ->; apply (H a); [apply in_app_iff; simpl; auto|lia]).
    unfold l_insert. rewrite (proj2 (Nat.eqb_neq p a)) by auto.
    rewrite l_remove_notin by (intro Y; apply (H _ Y); lia). rewrite l_before_at by auto.
    replace (X ++ a :: p :: R) with ((X ++ [a]) ++ p :: R) by (rewrite <- app_assoc; auto).
    rewrite IH; auto.
    + rewrite <- app_assoc. auto.
    + lia.
    + intros x Y. apply in_app_iff in Y as [Y|Y].
      * apply in_app_iff in Y as [Y|[<-|[]]]; [|lia].
        assert (Z := H x ltac:(apply in_app_iff; auto)). lia.
      * assert (Z := H x ltac:(apply in_app_iff; auto)). lia.
    + intro Y. apply in_app_iff in Y as [Y|[<-|[]]]; auto.
Qed.
(** re-inserting a suffix of a range at the end keeps the order *)
Lemma reinsert_suffix a c b : a <= c -> c <= b ->
  druns (range a b) (map (fun k => DInsert k None None) (range c b)) = Some (range a b).
Proof.
  intros L1 L2.
  assert (X : forall n c P, b - c = n -> c <= b -> forall Q, (forall x, In x P -> x < c) -> (forall x, In x Q -> x < c) ->
     druns (P ++ range c b ++ Q) (map (fun k => DInsert k None None) (range c b)) = Some (P ++ Q ++ range c b)).
  { clear. induction n as [|n IH]; intros c P E L Q HP HQ.
    - rewrite range_empty by lia. simpl. rewrite app_nil_r. auto.
    - rewrite range_cons by lia. cbn [map druns dstep ref_known expected andb l_insert].
      rewrite l_remove_app, (l_remove_notin c P) by (intro X; apply HP in X; lia).
      cbn [app]. rewrite l_remove_cons_same, l_remove_app.
      rewrite (l_remove_notin c (range (S c) b)) by (rewrite range_in; lia).
      rewrite (l_remove_notin c Q) by (intro X; apply HQ in X; lia).
      rewrite <- !app_assoc. rewrite (IH (S c) P) ; try lia.
      + rewrite <- app_assoc. auto.
      + intros x X. apply HP in X. lia.
      + intros x X. apply in_app_iff in X as [X|[<-|[]]]; [apply HQ in X; lia|lia]. }
  rewrite (range_app a c b) by auto. specialize (X (b - c) c (range a c) eq_refl L2 []).
  rewrite app_nil_r in X. simpl in X. rewrite X; [auto| |intros x []]. intros x Y. apply range_in in Y. lia.
Qed.

(** one update, exactly *)
Lemma vl_calls_exact s e ns ne :
  (~ (e <= s /\ ns < s /\ s < ne) -> druns (range s e) (vl_calls s e ns ne) = Some (range ns ne)) /\
  (e <= s /\ ns < s /\ s < ne -> druns (range s e) (vl_calls s e ns ne) = None).
Proof.
  unfold vl_calls. rewrite (druns_app _ _ _ _ (druns_removes _ _)).
  set (f := fun x => negb (memb x (range s (Nat.min e ns) ++ range (Nat.max s ne) e))).
  assert (F : forall x, f x = true <-> ~ (s <= x < Nat.min e ns \/ Nat.max s ne <= x < e)).
  { intro x. unfold f. rewrite negb_true_iff, memb_false, in_app_iff, !range_in. tauto. }
  assert (F' : forall x, f x = false <-> s <= x < Nat.min e ns \/ Nat.max s ne <= x < e).
  { intro x. unfold f. rewrite negb_false_iff, memb_iff, in_app_iff, !range_in. tauto. }
  destruct (le_lt_dec e s) as [OE|OE].
  - (* the old range is empty *)
    rewrite (range_empty s e) by auto. simpl filter.
    destruct (Nat.leb_spec ns s) as [L1|L1]; simpl andb; cbn iota.
    + destruct (Nat.ltb_spec s ne) as [L2|L2]; cbn iota.
      * rewrite Nat.min_r by lia. split; intro H.
        -- assert (ns = s) by lia. subst ns. rewrite (range_empty s s) by lia. simpl app.
           rewrite Nat.max_l by lia. rewrite append_fresh by (simpl; tauto). auto.
        -- rewrite (range_cons ns s) by lia. cbn [map app druns dstep ref_known memb existsb andb]. auto.
      * split; [|lia]. intros _. rewrite Nat.min_l by lia.
        rewrite (druns_app _ _ _ (range ns ne)) by (rewrite append_fresh by (simpl; tauto); auto).
        destruct (le_lt_dec ne (Nat.max ns e)).
        -- rewrite (range_empty (Nat.max ns e) ne) by auto. auto.
        -- apply reinsert_suffix; lia.
    + split; [|lia]. intros _. rewrite (range_empty ns (Nat.min ne s)) by lia. simpl app.
      rewrite append_fresh by (simpl; tauto). rewrite Nat.max_l by lia. auto.
  - (* some items are rendered *)
    split; [|lia]. intros _.
    destruct (Nat.leb_spec ns s) as [L1|L1]; simpl andb; cbn iota.
    + destruct (Nat.ltb_spec s ne) as [L2|L2]; cbn iota.
      * assert (FK : filter f (range s e) = range s (Nat.min e ne)).
        { rewrite (range_app s (Nat.min e ne) e) by lia. rewrite filter_app.
          rewrite filter_all, filter_none, app_nil_r; auto.
          - intros x X. apply range_in in X. apply F'. lia.
          - intros x X. apply range_in in X. apply F. lia. }
        rewrite FK, (Nat.min_r ne s) by lia. rewrite (range_cons s (Nat.min e ne)) by lia.
        rewrite (druns_app _ _ _ (range ns s ++ s :: range (S s) (Nat.min e ne))).
        2:{ apply (insert_before_present ns s s []); auto.
            intros x [<-|X]; [lia|]. apply range_in in X. lia. }
        rewrite <- range_cons by lia. rewrite <- range_app by lia.
        rewrite append_fresh by (intros x X; apply range_in in X; lia).
        destruct (le_lt_dec ne e).
        -- rewrite Nat.min_r, (range_empty (Nat.max ns e)) by lia. rewrite app_nil_r. auto.
        -- rewrite Nat.min_l, Nat.max_r by lia. rewrite <- range_app by lia. auto.
      * assert (FK : filter f (range s e) = []).
        { apply filter_none. intros x X. apply range_in in X. apply F'. lia. }
        rewrite FK, (Nat.min_l ne s) by lia.
        rewrite (druns_app _ _ _ (range ns ne)) by (rewrite append_fresh by (simpl; tauto); auto).
        rewrite (range_empty (Nat.max ns e) ne) by lia. auto.
    + rewrite (range_empty ns (Nat.min ne s)) by lia. simpl app.
      destruct (le_lt_dec ne ns) as [L2|L2].
      * (* the new window is empty *)
        assert (FK : filter f (range s e) = []).
        { apply filter_none. intros x X. apply range_in in X. apply F'. lia. }
        rewrite FK, (range_empty (Nat.max ns e) ne), (range_empty ns ne) by lia. auto.
      * assert (FK : filter f (range s e) = range ns (Nat.min e ne)).
        { destruct (le_lt_dec e ns).
          - rewrite (range_empty ns (Nat.min e ne)) by lia.
            apply filter_none. intros x X. apply range_in in X. apply F'. lia.
          - rewrite (range_app s ns e), (range_app ns (Nat.min e ne) e) by lia. rewrite !filter_app.
            rewrite filter_none, filter_all, filter_none, app_nil_r; auto.
            + intros x X. apply range_in in X. apply F'. lia.
            + intros x X. apply range_in in X. apply F. lia.
            + intros x X. apply range_in in X. apply F'. lia. }
        rewrite FK. rewrite append_fresh by (intros x X; apply range_in in X; lia).
        destruct (le_lt_dec ne e).
        -- rewrite Nat.min_r, (range_empty (Nat.max ns e)) by lia. rewrite app_nil_r. auto.
        -- destruct (le_lt_dec e ns).
           ++ rewrite (range_empty ns (Nat.min e ne)), Nat.max_l by lia. auto.
           ++ rewrite Nat.min_l, Nat.max_r by lia. rewrite <- range_app by lia. auto.
Qed.
