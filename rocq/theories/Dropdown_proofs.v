From Coq Require Import List Arith Bool Permutation Lia.
From Verif Require Import Util Spec_list DynList DynList_proofs DynList_run_proofs Calls Calls_proofs
  List_lemmas Diffed Diffed_proofs Dropdown.
Import ListNotations.

(** ** lists of elements and lists of keys *)
Section Corr.
Variable R : nat -> nat -> Prop.
Lemma f2_remove e k : (forall x y, R x y -> (x = e <-> y = k)) -> forall l l',
  Forall2 R l l' -> Forall2 R (l_remove e l) (l_remove k l').
Proof.
  intros C l l' F. induction F as [|x y l l' H F IH]; [constructor|]. unfold l_remove in *. simpl.
  specialize (C _ _ H). destruct (Nat.eqb_spec x e), (Nat.eqb_spec y k); simpl; try tauto. constructor; auto.
Qed.
Lemma f2_before e k r p : R e k -> (forall x y, R x y -> (x = r <-> y = p)) -> forall l l',
  Forall2 R l l' -> Forall2 R (l_before e r l) (l_before k p l').
Proof.
  intros EK C l l' F. induction F as [|x y l l' H F IH]; [constructor|]. simpl.
  assert (C' := C _ _ H). destruct (Nat.eqb_spec x r), (Nat.eqb_spec y p); try tauto; repeat constructor; auto.
Qed.
Lemma f2_in_l l l' x : Forall2 R l l' -> In x l -> exists y, In y l' /\ R x y.
Proof.
  induction 1 as [|a b l l' H F IH]; simpl; [tauto|]. intros [->|X]; eauto.
  destruct (IH X) as (y & A & B); eauto.
Qed.
Lemma f2_in_r l l' y : Forall2 R l l' -> In y l' -> exists x, In x l /\ R x y.
Proof.
  induction 1 as [|a b l l' H F IH]; simpl; [tauto|]. intros [->|X]; eauto.
  destruct (IH X) as (x & A & B); eauto.
Qed.
Lemma f2_nth l l' i x : Forall2 R l l' -> nth_error l i = Some x -> exists y, nth_error l' i = Some y /\ R x y.
Proof.
  intro F. revert i. induction F as [|a b l l' H F IH]; intros [|i] E; simpl in *; try discriminate.
  - inversion E; subst. eauto.
  - auto.
Qed.
End Corr.
Lemma f2_impl (R S : nat -> nat -> Prop) l l' : (forall x y, In y l' -> R x y -> S x y) -> Forall2 R l l' -> Forall2 S l l'.
Proof.
  intros H F. induction F as [|a b l l' X F IH]; constructor; simpl in *; auto.
Qed.

Definition R (m : list (key * elem)) (e : elem) (k : key) : Prop := em_get k m = Some e.
Definition inj (m : list (key * elem)) : Prop :=
  forall k1 k2 e, em_get k1 m = Some e -> em_get k2 m = Some e -> k1 = k2.

Lemma inj_corr m e k : inj m -> em_get k m = Some e -> forall x y, R m x y -> (x = e <-> y = k).
Proof. unfold R. intros I E x y H. split; [intros ->; eapply I; eauto|intros ->; congruence]. Qed.

Lemma em_get_remove k k' m : em_get k (em_remove k' m) = if Nat.eqb k k' then None else em_get k m.
Proof.
  induction m as [|[a v] t IH]; simpl.
  - destruct (Nat.eqb k k'); auto.
  - destruct (Nat.eqb_spec a k') as [->|N]; simpl.
    + rewrite IH. destruct (Nat.eqb_spec k k') as [->|N]; auto.
      rewrite (proj2 (Nat.eqb_neq k' k)) by auto. auto.
    + rewrite IH. destruct (Nat.eqb_spec a k) as [->|N2].
      * rewrite (proj2 (Nat.eqb_neq k k')) by auto. auto.
      * auto.
Qed.

(** ** the <select> *)
Lemma reset_kids s : sl_kids (sel_reset s) = sl_kids s.
Proof. unfold sel_reset. destruct (existsb _ _); auto. destruct (sl_kids s) eqn:E; simpl; auto. Qed.
Lemma reset_text s : sl_text (sel_reset s) = sl_text s.
Proof. unfold sel_reset. destruct (existsb _ _); auto. destruct (sl_kids s) eqn:E; simpl; auto. Qed.

Lemma sel_insert_kids s e ref : (forall r, ref = Some r -> In r (sl_kids s) /\ r <> e) ->
  exists s', sel_insert s e ref = Some s' /\ sl_text s' = sl_text s /\
    sl_kids s' = match ref with None => l_remove e (sl_kids s) ++ [e] | Some r => l_before e r (l_remove e (sl_kids s)) end.
Proof.
  intro H. unfold sel_insert.
  replace (match ref with None => true | Some r => memb r (sl_kids s) end) with true.
  2:{ destruct ref as [r|]; auto. symmetry. apply memb_iff. apply H; auto. }
  eexists; split; [reflexivity|].
  assert (K1 : sl_kids (if memb e (sl_kids s) then sel_reset (mkSel (l_remove e (sl_kids s)) (sl_on s) (sl_text s)) else s)
            = l_remove e (sl_kids s)).
  { destruct (memb e (sl_kids s)) eqn:M; [apply reset_kids|]. symmetry. apply l_remove_notin, memb_false; auto. }
  assert (T1 : sl_text (if memb e (sl_kids s) then sel_reset (mkSel (l_remove e (sl_kids s)) (sl_on s) (sl_text s)) else s)
            = sl_text s).
  { destruct (memb e (sl_kids s)) eqn:M; auto. rewrite reset_text. auto. }
  set (s1 := if memb e (sl_kids s) then _ else s) in *. clearbody s1.
  rewrite reset_kids, reset_text. split.
  - destruct (sl_on _ e); simpl; auto.
  - destruct ref as [r|].
    + destruct (H r eq_refl) as [_ N]. rewrite (proj2 (Nat.eqb_neq r e)) by auto.
      destruct (sl_on _ e); simpl; rewrite K1; auto.
    + destruct (sl_on _ e); simpl; rewrite K1; auto.
Qed.

(** ** the loop *)
Record Rep (s : select) (m : list (key * elem)) (next : elem) (ks : list key) : Prop := {
  rp_kids : Forall2 (R m) (sl_kids s) ks;
  rp_inj : inj m;
  rp_lt : forall k e, em_get k m = Some e -> e < next;
  rp_dom : forall k e, em_get k m = Some e -> In k ks;
  rp_nodup : NoDup ks
}.
Lemma rep_get s m next ks k : Rep s m next ks -> In k ks -> exists e, em_get k m = Some e /\ In e (sl_kids s).
Proof. intros H X. destruct (f2_in_r _ _ _ _ (rp_kids _ _ _ _ H) X) as (e & A & B). eauto. Qed.
Lemma rep_in s m next ks k e : Rep s m next ks -> em_get k m = Some e -> In e (sl_kids s).
Proof.
  intros H E. destruct (rep_get s m next ks k H) as (e' & A & B).
  - eapply rp_dom; eauto.
  - congruence.
Qed.

Definition kept (s s' : select) (m m' : list (key * elem)) (k : key) : Prop :=
  em_get k m' = em_get k m /\ (forall e, em_get k m = Some e -> sl_text s' e = sl_text s e).

(** an option that has an element is moved *)
Lemma put_move s m next ks k t b : Rep s m next ks -> In k ks -> (forall p, b = Some p -> In p ks /\ p <> k) ->
  exists s', dd_put s m k t b true = Some s' /\ Rep s' m next (l_insert k b ks) /\
    (exists e, em_get k m = Some e /\ sl_text s' e = t) /\
    (forall k', k' <> k -> kept s s' m m k').
Proof.
  intros H K B. destruct (rep_get _ _ _ _ _ H K) as (e & E & EK). unfold dd_put. rewrite E.
  assert (X : exists s1, (match b with None => sel_insert s e None
              | Some p => match em_get p m with None => None | Some r => sel_insert s e (Some r) end end) = Some s1 /\
              sl_text s1 = sl_text s /\ Forall2 (R m) (sl_kids s1) (l_insert k b ks)).
  { destruct b as [p|].
    - destruct (B p eq_refl) as [PK NP]. destruct (rep_get _ _ _ _ _ H PK) as (r & ER & RK). rewrite ER.
      assert (NE : r <> e) by (intros ->; apply NP; eapply (rp_inj _ _ _ _ H); eauto).
      destruct (sel_insert_kids s e (Some r)) as (s1 & A & T & KK).
      { intros r' X; inversion X; subst; auto. }
      exists s1. split; auto. split; auto. rewrite KK. unfold l_insert.
      rewrite (proj2 (Nat.eqb_neq p k)) by auto.
      apply f2_before; auto; [apply inj_corr; auto; apply H|].
      apply f2_remove; [apply inj_corr; auto; apply H|apply H].
    - destruct (sel_insert_kids s e None) as (s1 & A & T & KK); [discriminate|].
      exists s1. split; auto. split; auto. rewrite KK. simpl. apply Forall2_app; [|repeat constructor; auto].
      apply f2_remove; [apply inj_corr; auto; apply H|apply H]. }
  destruct X as (s1 & -> & T & F). eexists; split; [reflexivity|]. split; [|split].
  - constructor; simpl; auto; try apply H.
    + intros k' e' E'. apply l_insert_in; [intros b' ->; apply B; auto|]. right. eapply rp_dom; eauto.
    + apply l_insert_nodup. apply H.
  - exists e. split; auto. simpl. unfold upd1. rewrite Nat.eqb_refl. auto.
  - intros k' N. split; auto. intros e' E'. simpl. unfold upd1. rewrite T.
    destruct (Nat.eqb_spec e' e) as [->|]; auto. exfalso. apply N. eapply (rp_inj _ _ _ _ H); eauto.
Qed.
(** an option that stays *)
Lemma put_stay s m next ks k t b : Rep s m next ks -> In k ks ->
  exists s', dd_put s m k t b false = Some s' /\ Rep s' m next ks /\
    (exists e, em_get k m = Some e /\ sl_text s' e = t) /\
    (forall k', k' <> k -> kept s s' m m k').
Proof.
  intros H K. destruct (rep_get _ _ _ _ _ H K) as (e & E & EK). unfold dd_put. rewrite E.
  eexists; split; [reflexivity|]. split; [|split].
  - constructor; simpl; apply H.
  - exists e. split; auto. simpl. unfold upd1. rewrite Nat.eqb_refl. auto.
  - intros k' N. split; auto. intros e' E'. simpl. unfold upd1.
    destruct (Nat.eqb_spec e' e) as [->|]; auto. exfalso. apply N. eapply (rp_inj _ _ _ _ H); eauto.
Qed.
(** a new option *)
Lemma put_new s m next ks k t b : Rep s m next ks -> ~ In k ks -> (forall p, b = Some p -> In p ks) ->
  let m' := (k, next) :: em_remove k m in
  let s0 := mkSel (sl_kids s) (upd1 (sl_on s) next false) (upd1 (sl_text s) next 0) in
  exists s', dd_put s0 m' k t b true = Some s' /\ Rep s' m' (S next) (l_insert k b ks) /\
    (exists e, em_get k m' = Some e /\ sl_text s' e = t) /\
    (forall k', k' <> k -> kept s s' m m' k').
Proof.
  intros H K B m' s0.
  assert (G : forall k', em_get k' m' = if Nat.eqb k' k then Some next else em_get k' m).
  { intro k'. unfold m'. simpl. rewrite em_get_remove. rewrite (Nat.eqb_sym k k'). destruct (Nat.eqb k' k); auto. }
  assert (GK : em_get k m' = Some next) by (rewrite G, Nat.eqb_refl; auto).
  assert (I' : inj m').
  { intros k1 k2 e A1 A2. rewrite G in A1, A2.
    destruct (Nat.eqb_spec k1 k) as [->|], (Nat.eqb_spec k2 k) as [->|]; auto.
    - inversion A1; subst. apply (rp_lt _ _ _ _ H) in A2. lia.
    - inversion A2; subst. apply (rp_lt _ _ _ _ H) in A1. lia.
    - eapply (rp_inj _ _ _ _ H); eauto. }
  assert (F0 : Forall2 (R m') (sl_kids s) ks).
  { eapply f2_impl; [|apply (rp_kids _ _ _ _ H)]. intros x y Y. unfold R. rewrite G.
    destruct (Nat.eqb_spec y k) as [->|]; tauto. }
  assert (NN : ~ In next (sl_kids s)).
  { intro X. destruct (f2_in_l _ _ _ _ (rp_kids _ _ _ _ H) X) as (y & _ & Y). apply (rp_lt _ _ _ _ H) in Y. lia. }
  unfold dd_put. rewrite GK.
  assert (LR : l_remove k ks = ks) by (apply l_remove_notin; auto).
  assert (X : exists s1, (match b with None => sel_insert s0 next None
              | Some p => match em_get p m' with None => None | Some r => sel_insert s0 next (Some r) end end) = Some s1 /\
              sl_text s1 = sl_text s0 /\ Forall2 (R m') (sl_kids s1) (l_insert k b ks)).
  { destruct b as [p|].
    - assert (PK := B p eq_refl). destruct (rep_get _ _ _ _ _ H PK) as (r & ER & RK).
      assert (NP : p <> k) by (intros ->; auto).
      assert (ER' : em_get p m' = Some r) by (rewrite G, (proj2 (Nat.eqb_neq p k)) by auto; auto).
      rewrite ER'.
      assert (NE : r <> next) by (intros ->; auto).
      destruct (sel_insert_kids s0 next (Some r)) as (s1 & A & T & KK).
      { intros r' X; inversion X; subst; auto. }
      exists s1. split; auto. split; auto. rewrite KK. simpl sl_kids. unfold l_insert.
      rewrite (proj2 (Nat.eqb_neq p k)) by auto. rewrite LR, (l_remove_notin next) by auto.
      apply f2_before; auto. apply inj_corr; auto.
    - destruct (sel_insert_kids s0 next None) as (s1 & A & T & KK); [discriminate|].
      exists s1. split; auto. split; auto. rewrite KK. simpl. rewrite LR, l_remove_notin by auto.
      apply Forall2_app; [|repeat constructor; auto]. auto. }
  destruct X as (s1 & -> & T & F). eexists; split; [reflexivity|]. split; [|split].
  - constructor; simpl sl_kids; auto.
    + intros k' e' E'. rewrite G in E'. destruct (Nat.eqb k' k); [inversion E'; lia|].
      apply (rp_lt _ _ _ _ H) in E'. lia.
    + intros k' e' E'. apply l_insert_in; [intros b' ->; auto|]. rewrite G in E'.
      destruct (Nat.eqb_spec k' k); auto. right. eapply rp_dom; eauto.
    + apply l_insert_nodup. apply H.
  - exists next. split; auto. simpl. unfold upd1. rewrite Nat.eqb_refl. auto.
  - intros k' N. split; [rewrite G, (proj2 (Nat.eqb_neq k' k)) by auto; auto|].
    intros e' E'. simpl. unfold upd1. rewrite T. simpl. unfold upd1.
    apply (rp_lt _ _ _ _ H) in E'. rewrite !(proj2 (Nat.eqb_neq e' next)) by lia. auto.
Qed.

Lemma kept_trans s1 s2 s3 m1 m2 m3 k : kept s1 s2 m1 m2 k -> kept s2 s3 m2 m3 k -> kept s1 s3 m1 m3 k.
Proof.
  intros [A B] [C D]. split; [congruence|]. intros e E. rewrite D by congruence. apply B; auto.
Qed.

Lemma dd_loop_ok new : forall s m next set iter ks ks',
  Rep s m next ks -> NoDup (map fst new) ->
  (forall x, In x set -> In x ks) -> (forall x, In x iter -> In x ks) ->
  (forall x, In x ks -> In x (map fst new) -> In x set) ->
  druns ks (fst (diff_loop set iter (map fst new))) = Some ks' ->
  exists s' m' next', dd_loop s m next set iter new = Some (s', m', next', snd (diff_loop set iter (map fst new))) /\
    Rep s' m' next' ks' /\
    (forall k t, In (k, t) new -> exists e, em_get k m' = Some e /\ sl_text s' e = t) /\
    (forall k, ~ In k (map fst new) -> kept s s' m m' k).
Proof.
  induction new as [|[k t] rest IH]; intros s m next set iter ks ks' H ND HS HI HN D.
  - simpl in *. inversion D; subst. exists s, m, next. split; auto. split; auto. split; [tauto|].
    intros k _. split; auto.
  - cbn [map fst] in *. apply NoDup_cons_iff in ND as [NK ND]. simpl in D |- *.
    assert (FIN : forall s1 m1 (Y : exists e, em_get k m1 = Some e /\ sl_text s1 e = t)
        (Z : forall k', k' <> k -> kept s s1 m m1 k') s' m',
        (forall k t, In (k, t) rest -> exists e, em_get k m' = Some e /\ sl_text s' e = t) ->
        (forall k, ~ In k (map fst rest) -> kept s1 s' m1 m' k) ->
        (forall k0 t0, (k, t) = (k0, t0) \/ In (k0, t0) rest -> exists e, em_get k0 m' = Some e /\ sl_text s' e = t0) /\
        (forall k0, ~ (k = k0 \/ In k0 (map fst rest)) -> kept s s' m m' k0)).
    { intros s1 m1 (e & E1 & E2) Z s' m' A B. split.
      - intros k0 t0 [X|X]; auto. inversion X; subst. destruct (B k0 NK) as [B1 B2].
        exists e. rewrite B1. split; [auto|rewrite B2; auto].
      - intros k0 N. eapply kept_trans; [apply Z; intros ->; auto|apply B; auto]. }
    destruct (memb k set) eqn:M.
    + assert (KS : In k ks) by (apply HS, memb_iff; auto).
      assert (HS' : forall x, In x (l_remove k set) -> In x ks) by (intros x X; apply l_remove_in in X; apply HS; tauto).
      destruct iter as [|p iter'].
      * destruct (put_move s m next ks k t None H KS) as (s1 & E1 & R1 & Y & Z); [discriminate|].
        rewrite E1. destruct (diff_loop (l_remove k set) [] (map fst rest)) as [cs r] eqn:DL. simpl fst in *. simpl snd in *.
        cbn [druns dstep ref_known] in D. rewrite (proj2 (memb_iff k ks) KS) in D. cbn [andb] in D.
        destruct (IH s1 m next (l_remove k set) [] (l_insert k None ks) ks' R1 ND) as (s' & m' & n' & A & B & C1 & C2).
        { intros x X. apply l_insert_in; [discriminate|]. auto. } { intros x []. }
        { intros x X1 X2. apply l_insert_in in X1; [|discriminate].
          apply l_remove_in. split; [|intros ->; auto]. apply HN; simpl; auto. destruct X1 as [->|X1]; auto. }
        { rewrite DL. auto. }
        rewrite DL in A. simpl snd in A. exists s', m', n'. split; auto. split; auto. eapply FIN; eauto.
      * destruct (Nat.eqb_spec p k) as [->|NP].
        -- destruct (put_stay s m next ks k t (hd_error iter') H KS) as (s1 & E1 & R1 & Y & Z). rewrite E1.
           destruct (IH s1 m next (l_remove k set) iter' ks ks' R1 ND) as (s' & m' & n' & A & B & C1 & C2); auto.
           { intros x X. apply HI; simpl; auto. }
           { intros x X1 X2. apply l_remove_in. split; [|intros ->; auto]. apply HN; simpl; auto. }
           exists s', m', n'. split; auto. split; auto. eapply FIN; eauto.
        -- assert (PK : In p ks) by (apply HI; simpl; auto).
           destruct (put_move s m next ks k t (Some p) H KS) as (s1 & E1 & R1 & Y & Z).
           { intros p' X; inversion X; subst; auto. }
           rewrite E1. destruct (diff_loop (l_remove k set) (p :: iter') (map fst rest)) as [cs r] eqn:DL. simpl fst in *. simpl snd in *.
           cbn [druns dstep ref_known] in D. rewrite (proj2 (memb_iff k ks) KS), (proj2 (memb_iff p ks) PK) in D.
           rewrite (proj2 (Nat.eqb_neq p k)) in D by auto. cbn [andb negb] in D.
           assert (INS : forall x, In x (l_insert k (Some p) ks) <-> x = k \/ In x ks).
           { intro x. apply l_insert_in. intros b X; inversion X; subst; auto. }
           destruct (IH s1 m next (l_remove k set) (p :: iter') (l_insert k (Some p) ks) ks' R1 ND) as (s' & m' & n' & A & B & C1 & C2).
           { intros x X. apply INS. auto. } { intros x X. apply INS. auto. }
           { intros x X1 X2. apply INS in X1.
             apply l_remove_in. split; [|intros ->; auto]. apply HN; simpl; auto. destruct X1 as [->|X1]; auto. }
           { rewrite DL. auto. }
           rewrite DL in A. simpl snd in A. exists s', m', n'. split; auto. split; auto. eapply FIN; eauto.
    + assert (KS : ~ In k ks).
      { intro X. apply memb_false in M. apply M. apply HN; simpl; auto. }
      assert (HB : forall p, hd_error iter = Some p -> In p ks).
      { intros p X. destruct iter; inversion X; subst. apply HI; simpl; auto. }
      destruct (put_new s m next ks k t (hd_error iter) H KS HB) as (s1 & E1 & R1 & Y & Z).
      rewrite E1. destruct (diff_loop set iter (map fst rest)) as [cs r] eqn:DL. simpl fst in *. simpl snd in *.
      cbn [druns dstep expected] in D. rewrite (proj2 (ref_known_iff _ _)) in D by auto. cbn [andb] in D.
      assert (INS : forall x, In x (l_insert k (hd_error iter) ks) <-> x = k \/ In x ks).
      { intro x. apply l_insert_in. auto. }
      destruct (IH s1 ((k, next) :: em_remove k m) (S next) set iter (l_insert k (hd_error iter) ks) ks' R1 ND) as (s' & m' & n' & A & B & C1 & C2).
      { intros x X. apply INS. auto. } { intros x X. apply INS. auto. }
      { intros x X1 X2. apply INS in X1 as [->|X1]; [tauto|]. apply HN; simpl; auto. }
      { rewrite DL. auto. }
      rewrite DL in A. simpl snd in A. exists s', m', n'. split; auto. split; auto. eapply FIN; eauto.
Qed.

(** elements of kept keys are unchanged *)
Lemma dd_loop_same k e : forall new s m nx set iter s' m' n' r, NoDup (map fst new) -> In k set \/ ~ In k (map fst new) ->
  dd_loop s m nx set iter new = Some (s', m', n', r) -> em_get k m = Some e -> em_get k m' = Some e.
Proof.
  induction new as [|[a t] l IH]; intros s m nx set iter s' m' n' r ND IN E G; simpl in E.
  - inversion E; subst; auto.
  - simpl in ND. apply NoDup_cons_iff in ND as [NA ND].
    destruct (memb a set) eqn:M.
    + assert (IN' : In k (l_remove a set) \/ ~ In k (map fst l)).
      { destruct (Nat.eq_dec k a) as [->|N]; auto. simpl in IN. rewrite l_remove_in. tauto. }
      destruct iter as [|p it]; [|destruct (Nat.eqb p a)];
        (destruct (dd_put _ _ _ _ _ _); [|discriminate]; eapply IH; eauto).
    + assert (N : k <> a).
      { intros ->. apply memb_false in M. simpl in IN. tauto. }
      destruct (dd_put _ _ _ _ _ _); [|discriminate].
      eapply (IH _ _ _ set iter); eauto.
      * simpl in IN. tauto.
      * simpl. rewrite (proj2 (Nat.eqb_neq a k)) by auto. rewrite em_get_remove.
        rewrite (proj2 (Nat.eqb_neq k a)) by auto. auto.
Qed.

(** ** removing the rest *)
Lemma dd_drain_ok l : forall s m next ks, Rep s m next ks -> NoDup l -> (forall x, In x l -> In x ks) ->
  exists s' m', dd_drain s m l = Some (s', m') /\ Rep s' m' next (filter (fun x => negb (memb x l)) ks) /\
    sl_text s' = sl_text s /\ (forall k, ~ In k l -> em_get k m' = em_get k m) /\
    (forall k, In k l -> em_get k m' = None).
Proof.
  induction l as [|k t IH]; intros s m next ks H ND HL.
  - exists s, m. simpl. split; auto. split; [|split; [auto|split; [auto|intros k []]]].
    replace (filter (fun _ => true) ks) with ks by (clear; induction ks; simpl; f_equal; auto). auto.
  - apply NoDup_cons_iff in ND as [NK ND]. simpl.
    destruct (rep_get s m next ks k H) as (e & E & EK); [apply HL; simpl; auto|]. rewrite E.
    unfold sel_remove. rewrite (proj2 (memb_iff e _)) by auto.
    set (s1 := sel_reset _).
    assert (R1 : Rep s1 (em_remove k m) next (l_remove k ks)).
    { constructor.
      - unfold s1. rewrite reset_kids. simpl. eapply f2_impl; [|apply (f2_remove (R m) e k); [apply inj_corr; auto; apply H|apply H]].
        intros x y Y. unfold R. rewrite em_get_remove. apply l_remove_in in Y as [_ Y].
        rewrite (proj2 (Nat.eqb_neq y k)) by auto. auto.
      - intros k1 k2 x A B. rewrite em_get_remove in A, B. destruct (Nat.eqb k1 k); [discriminate|].
        destruct (Nat.eqb k2 k); [discriminate|]. eapply (rp_inj _ _ _ _ H); eauto.
      - intros k1 x A. rewrite em_get_remove in A. destruct (Nat.eqb k1 k); [discriminate|]. eapply (rp_lt _ _ _ _ H); eauto.
      - intros k1 x A. rewrite em_get_remove in A. destruct (Nat.eqb_spec k1 k); [discriminate|]. apply l_remove_in. split; auto.
        eapply rp_dom; eauto.
      - apply l_remove_nodup. apply H. }
    destruct (IH s1 (em_remove k m) next (l_remove k ks) R1 ND) as (s' & m' & A & B & C & D1 & D2).
    { intros x X. apply l_remove_in. split; [apply HL; simpl; auto|intros ->; auto]. }
    exists s', m'. split; auto. split; [|split; [|split]].
    + replace (filter (fun x => negb (Nat.eqb x k || memb x t)) ks) with (filter (fun x => negb (memb x t)) (l_remove k ks)); auto.
      clear. unfold l_remove. induction ks as [|y ks IH]; simpl; auto.
      destruct (Nat.eqb y k); simpl; [exact IH|]. destruct (memb y t); simpl; rewrite IH; auto.
    + rewrite C. unfold s1. rewrite reset_text. auto.
    + intros k0 N. rewrite D1 by tauto. rewrite em_get_remove. destruct (Nat.eqb_spec k0 k); [subst; tauto|auto].
    + intros k0 [<-|X]; auto. rewrite D1, em_get_remove, Nat.eqb_refl; auto.
Qed.

(** ** the whole state *)
(** at most one option selected, and [value] agrees with it *)
Definition one_on (s : select) : Prop :=
  forall x y, In x (sl_kids s) -> In y (sl_kids s) -> sl_on s x = true -> sl_on s y = true -> x = y.

Lemma only_one s e : one_on (sel_only s e).
Proof. intros x y _ _ X Y. simpl in *. apply Nat.eqb_eq in X, Y. congruence. Qed.
Lemma empty_one s : one_on (sel_set_empty s).
Proof.
  unfold sel_set_empty. destruct (find _ _); [apply only_one|]. intros x y _ _ X. discriminate.
Qed.
Lemma empty_kids s : sl_kids (sel_set_empty s) = sl_kids s /\ sl_text (sel_set_empty s) = sl_text s.
Proof. unfold sel_set_empty. destruct (find _ _); auto. Qed.

Lemma index_on_spec f l : forall i, match index_on f l i with
  | Some j => exists n e, j = i + n /\ nth_error l n = Some e /\ f e = true
  | None => forall e, In e l -> f e = false
  end.
Proof.
  induction l as [|x t IH]; intro i; simpl; [tauto|]. destruct (f x) eqn:E.
  - exists 0, x. split; [lia|]. auto.
  - specialize (IH (S i)). destruct (index_on f t (S i)).
    + destruct IH as (m & e & A & B & C). exists (S m), e. split; [lia|]. auto.
    + intros e [<-|X]; auto.
Qed.

Record DInv (d : dropdown) : Prop := {
  di_rep : Rep (dd_sel d) (dd_map d) (dd_next d) (dd_prev d);
  di_one : one_on (dd_sel d)
}.

Lemma value_on d e : DInv d -> In e (sl_kids (dd_sel d)) -> sl_on (dd_sel d) e = true ->
  exists k, em_get k (dd_map d) = Some e /\ dd_value d = Some k.
Proof.
  intros [H O] I E. unfold dd_value, sel_index.
  assert (X := index_on_spec (sl_on (dd_sel d)) (sl_kids (dd_sel d)) 0).
  destruct (index_on _ _ _) as [j|].
  - destruct X as (n & e' & -> & N & F). simpl.
    assert (e' = e) by (apply O; auto; eapply nth_error_In; eauto). subst e'.
    destruct (f2_nth _ _ _ _ _ (rp_kids _ _ _ _ H) N) as (k & NK & RK). rewrite NK. exists k. auto.
  - rewrite X in E by auto. discriminate.
Qed.
Lemma value_off d : (forall e, In e (sl_kids (dd_sel d)) -> sl_on (dd_sel d) e = false) -> dd_value d = dd_selected d.
Proof.
  intro H. unfold dd_value, sel_index. assert (X := index_on_spec (sl_on (dd_sel d)) (sl_kids (dd_sel d)) 0).
  destruct (index_on _ _ _) as [j|]; auto. destruct X as (n & e' & _ & N & F). apply nth_error_In in N.
  rewrite H in F by auto. discriminate.
Qed.

Lemma dd_update_ok d new drain : DInv d -> NoDup (map fst new) -> (forall s, Permutation (drain s) s) ->
  good (dd_prev d) (map fst new) [] ->
  exists d', dd_update d new drain = Some d' /\ DInv d' /\ dd_prev d' = map fst new /\
    (forall k t, In (k, t) new -> exists e, em_get k (dd_map d') = Some e /\ sl_text (dd_sel d') e = t) /\
    (forall k e, In k (dd_prev d) -> In k (map fst new) -> em_get k (dd_map d) = Some e -> em_get k (dd_map d') = Some e) /\
    dd_selected d' = dd_value d /\
    (forall k, dd_value d = Some k -> In k (map fst new) ->
       exists e, em_get k (dd_map d') = Some e /\ (forall x, sl_on (dd_sel d') x = Nat.eqb x e)) /\
    ((forall k, dd_value d = Some k -> ~ In k (map fst new)) ->
       forall x, In x (sl_kids (dd_sel d')) -> sl_on (dd_sel d') x = true -> sl_text (dd_sel d') x = 0).
Proof.
  intros [H O] ND DR G. assert (NP := rp_nodup _ _ _ _ H).
  destruct (diff_order drain (dd_prev d) (map fst new) DR NP ND) as (ks & RN & GE).
  assert (ks = map fst new) by (apply GE; auto). subst ks. clear GE.
  unfold diff_calls in RN. rewrite (nodup_fixed_point Nat.eq_dec) in RN by auto.
  unfold dd_update. rewrite (nodup_fixed_point Nat.eq_dec) by auto.
  assert (DI := diff_loop_rest (map fst new) (dd_prev d) (dd_prev d) ND).
  destruct (diff_loop (dd_prev d) (dd_prev d) (map fst new)) as [cs rest] eqn:DL. simpl in DI. subst rest.
  set (rest := notin (map fst new) (dd_prev d)) in *.
  destruct (diff_loop_set _ _ _ (dd_prev d) _ _ DL NP) as (ks1 & R1 & A1 & A2); auto.
  destruct (dd_loop_ok new (dd_sel d) (dd_map d) (dd_next d) (dd_prev d) (dd_prev d) (dd_prev d) ks1 H ND) as (s1 & m1 & n1 & E1 & P1 & T1 & K1); auto.
  { rewrite DL. auto. }
  rewrite DL in E1. simpl snd in E1. rewrite E1.
  assert (NR : NoDup (drain rest)).
  { eapply Permutation_NoDup; [symmetry; apply DR|]. apply notin_nodup; auto. }
  assert (INR : forall x, In x (drain rest) <-> In x (dd_prev d) /\ ~ In x (map fst new)).
  { intro x. rewrite <- notin_in. fold rest. split; apply Permutation_in; [|symmetry]; apply DR. }
  destruct (dd_drain_ok (drain rest) s1 m1 n1 ks1 P1 NR) as (s2 & m2 & E2 & P2 & T2 & G1 & G2).
  { intros x X. apply INR in X. apply A1. tauto. }
  rewrite E2.
  assert (KS : filter (fun x => negb (memb x (drain rest))) ks1 = map fst new).
  { rewrite (druns_app _ _ _ _ R1), druns_removes in RN. inversion RN. auto. }
  rewrite KS in P2.
  assert (GN : forall k, In k (map fst new) -> em_get k m2 = em_get k m1).
  { intros k X. apply G1. rewrite INR. tauto. }
  eexists. split; [reflexivity|]. simpl.
  set (fin := match dd_value d with Some k => _ | None => _ end).
  assert (FK : sl_kids fin = sl_kids s2 /\ sl_text fin = sl_text s2 /\ one_on fin).
  { unfold fin. destruct (dd_value d) as [k|]; [destruct (em_get k m2)|].
    - simpl. split; auto. split; auto. apply only_one.
    - destruct (empty_kids s2). split; auto. split; auto. apply empty_one.
    - destruct (empty_kids s2). split; auto. split; auto. apply empty_one. }
  destruct FK as (FK & FT & FO).
  split; [|split; [|split; [|split; [|split; [|split]]]]]; auto.
  - split; simpl; auto. destruct P2. constructor; auto. rewrite FK. auto.
  - intros k t X. destruct (T1 k t X) as (e & X1 & X2). exists e.
    rewrite GN by (apply in_map_iff; exists (k, t); auto). rewrite FT, T2. auto.
  - intros k e X1 X2 X3. rewrite GN by auto.
    eapply dd_loop_same; [exact ND| |exact E1|exact X3]; auto.
  - intros k E X. unfold fin. rewrite E. destruct (T1 k) with (t := match find (fun e => Nat.eqb (fst e) k) new with Some e => snd e | None => 0 end) as (e & X1 & _).
    { apply in_map_iff in X as ((k' & t') & <- & X). simpl.
      destruct (find (fun e => Nat.eqb (fst e) k') new) as [[k2 t2]|] eqn:F.
      - apply find_some in F as [F1 F2]. simpl in *. apply Nat.eqb_eq in F2. subst. auto.
      - eapply find_none in F; eauto. simpl in F. rewrite Nat.eqb_refl in F. discriminate. }
    exists e. rewrite GN by auto. rewrite X1. split; auto.
  - intros N x X1 X2.
    assert (EQ : fin = sel_set_empty s2).
    { unfold fin. destruct (dd_value d) as [k|] eqn:V; auto.
      destruct (em_get k m2) as [e|] eqn:EG; auto. exfalso.
      apply (N k eq_refl). apply (rp_dom _ _ _ _ P2 _ _ EG). }
    rewrite EQ in *. unfold sel_set_empty in *.
    destruct (find _ _) as [z|] eqn:F; simpl in X2; [|discriminate].
    apply Nat.eqb_eq in X2. subst z. apply find_some in F as [_ F]. apply Nat.eqb_eq in F. auto.
Qed.

Lemma dd_set_value_ok d o : DInv d -> DInv (dd_set_value d o) /\ dd_prev (dd_set_value d o) = dd_prev d /\
  dd_map (dd_set_value d o) = dd_map d /\ sl_text (dd_sel (dd_set_value d o)) = sl_text (dd_sel d) /\
  sl_kids (dd_sel (dd_set_value d o)) = sl_kids (dd_sel d).
Proof.
  intros [H O]. destruct (empty_kids (dd_sel d)) as [K T].
  assert (X : DInv (set_sel d (sel_set_empty (dd_sel d)))).
  { split; simpl; [|apply empty_one]. destruct H. constructor; auto. rewrite K. auto. }
  unfold dd_set_value. destruct o as [k|]; [destruct (em_get k (dd_map d)) as [e|]|]; simpl; auto.
  split; auto. split; simpl; [|apply only_one]. destruct H. constructor; auto.
Qed.
Lemma dd_user_ok d i : DInv d -> DInv (dd_user d i) /\ dd_prev (dd_user d i) = dd_prev d /\
  dd_map (dd_user d i) = dd_map d /\ sl_text (dd_sel (dd_user d i)) = sl_text (dd_sel d) /\
  sl_kids (dd_sel (dd_user d i)) = sl_kids (dd_sel d).
Proof.
  intros [H O]. unfold dd_user. destruct (nth_error _ _) as [e|]; simpl; auto.
  - split; auto. split; simpl; [|apply only_one]. destruct H. constructor; auto.
  - split; auto. split; auto.
Qed.
Lemma dinv_new : DInv dd_new.
Proof. split; [constructor; simpl; try constructor; unfold inj; simpl; try discriminate|intros x y []]. Qed.
