(** Proofs for C42, C49 and C50. *)
From Coq Require Import List Arith Bool NArith Lia.
From Verif Require Import XbowData Spec_xbowdata Spec_xbow.
Import ListNotations.

Lemma nth_put_same {A} (l : list A) : forall i x y, nth_error l i = Some x -> nth_error (put_nth i y l) i = Some y.
Proof. induction l as [|a l IH]; intros [|i] x y E; cbn in *; try discriminate; eauto. Qed.
Lemma nth_put_other {A} (l : list A) : forall i j y, i <> j -> nth_error (put_nth i y l) j = nth_error l j.
Proof. induction l as [|a l IH]; intros [|i] [|j] y N; cbn; auto; try congruence. Qed.
Lemma put_nth_id {A} (l : list A) : forall i x, nth_error l i = Some x -> put_nth i x l = l.
Proof. induction l as [|a l IH]; intros [|i] x E; cbn in *; try discriminate; [congruence|]. f_equal. auto. Qed.
Lemma put_put {A} (l : list A) : forall i x y, put_nth i y (put_nth i x l) = put_nth i y l.
Proof. induction l as [|a l IH]; intros [|i] x y; cbn; auto. f_equal. auto. Qed.

Section Laws.
Variable K : Type.
Variable keqb : K -> K -> bool.
Hypothesis keqb_ok : forall a b, keqb a b = true <-> a = b.
Notation val := (val K).
Notation seg := (seg K).
Notation seg_borrow := (seg_borrow K keqb).
Notation seg_borrow_mut := (seg_borrow_mut K keqb).
Notation path_borrow := (path_borrow K keqb).
Notation path_borrow_mut := (path_borrow_mut K keqb).

Lemma keqb_refl k : keqb k k = true.
Proof. apply keqb_ok. reflexivity. Qed.
Lemma map_put_same k (y : val) m x : map_get K keqb k m = Some x -> map_get K keqb k (map_put K keqb k y m) = Some y.
Proof. induction m as [|(k', v) m IH]; cbn; [discriminate|]. destruct (keqb k' k) eqn:E; cbn; rewrite E; auto. Qed.
Lemma map_put_other k k' (y : val) m : k <> k' -> map_get K keqb k' (map_put K keqb k y m) = map_get K keqb k' m.
Proof.
  intro N. induction m as [|(k0, v) m IH]; cbn; [reflexivity|]. destruct (keqb k0 k) eqn:E; cbn.
  - apply keqb_ok in E. subst k0. destruct (keqb k k') eqn:E'; [apply keqb_ok in E'; contradiction|reflexivity].
  - destruct (keqb k0 k'); auto.
Qed.
Lemma map_put_id k (x : val) m : map_get K keqb k m = Some x -> map_put K keqb k x m = m.
Proof. induction m as [|(k', v) m IH]; cbn; [discriminate|]. destruct (keqb k' k); [congruence|]. intro E. f_equal. auto. Qed.

Ltac cases H := repeat match type of H with
  | context [match ?x with _ => _ end] => let E := fresh "E" in destruct x eqn:E; try discriminate H
  end.
Lemma seg_read u s v x k : seg_borrow_mut u s v = Some (x, k) -> seg_borrow s v = Some x.
Proof. intro E. destruct s, v; cbn in *; try discriminate; cases E; injection E as <- <-; try rewrite E0; try rewrite E1; auto. Qed.
Lemma seg_written u s v x k y : seg_borrow_mut u s v = Some (x, k) -> seg_borrow s (k y) = Some y.
Proof.
  intro E. destruct s, v; cbn in *; try discriminate; cases E; injection E as <- <-; cbn; try (eapply nth_put_same; eauto; fail); auto.
  - rewrite E0. eapply nth_put_same; eauto.
  - eapply map_put_same; eauto.
Qed.
Lemma seg_elsewhere u s s' v x k y : seg_borrow_mut u s v = Some (x, k) -> s <> s' -> seg_borrow s' (k y) = seg_borrow s' v.
Proof.
  intros E N. destruct s, v; cbn in E; try discriminate; cases E; injection E as <- <-; destruct s'; cbn; try reflexivity; try congruence.
  - apply nth_put_other. congruence.
  - destruct (Nat.eqb_spec variant1 variant0); [|reflexivity]. apply nth_put_other. apply Nat.eqb_eq in E0. congruence.
  - apply nth_put_other. congruence.
  - apply map_put_other. congruence.
Qed.
Lemma seg_same u s v x k : seg_borrow_mut u s v = Some (x, k) -> k x = v.
Proof.
  intro E. destruct s, v; cbn in *; try discriminate; cases E; injection E as <- <-; cbn; f_equal; auto using put_nth_id, map_put_id.
Qed.
Lemma seg_mut_shared u s v x : seg_borrow s v = Some x -> (forall i, s = SRc K -> v = VRc K i x -> u i = true) -> exists k, seg_borrow_mut u s v = Some (x, k).
Proof.
  intros E U. destruct s, v; cbn in *; try discriminate; try (rewrite E; eauto; fail).
  - destruct (variant =? variant0); [|discriminate]. rewrite E. eauto.
  - injection E as <-. eauto.
  - injection E as <-. rewrite U by auto. eauto.
Qed.

(** * Paths *)
Lemma borrow_none p : fold_left (fun o s => match o with Some v => seg_borrow s v | None => None end) p None = None.
Proof. induction p as [|s p IH]; auto. Qed.
Lemma borrow_cons s p d : path_borrow (s :: p) d = match seg_borrow s d with Some v => path_borrow p v | None => None end.
Proof. unfold path_borrow. cbn. destruct (seg_borrow s d); [reflexivity|apply borrow_none]. Qed.
Lemma borrow_app p r d : path_borrow (p ++ r) d = match path_borrow p d with Some v => path_borrow r v | None => None end.
Proof. revert d. induction p as [|s p IH]; intro d; [reflexivity|]. cbn [app]. rewrite !borrow_cons. destruct (seg_borrow s d); auto. Qed.

Definition mstep u := (fun (o : option (val * (val -> val))) s => match o with
                        | Some (v, k) => match seg_borrow_mut u s v with
                                         | Some (x, k') => Some (x, fun y => k (k' y))
                                         | None => None
                                         end
                        | None => None
                        end).
Lemma mut_none u p : fold_left (mstep u) p None = None.
Proof. induction p as [|s p IH]; auto. Qed.
Lemma mut_from u p : forall v k0, fold_left (mstep u) p (Some (v, k0)) =
  match fold_left (mstep u) p (Some (v, fun y => y)) with Some (x, k) => Some (x, fun y => k0 (k y)) | None => None end.
Proof.
  induction p as [|s p IH]; intros v k0; [reflexivity|]. cbn [fold_left mstep]. destruct (seg_borrow_mut u s v) as [(x, k')|].
  - rewrite IH, (IH x (fun y => k' y)). destruct (fold_left (mstep u) p (Some (x, fun y => y))) as [(x', k)|]; reflexivity.
  - rewrite mut_none. reflexivity.
Qed.
Lemma mut_cons u s p d : path_borrow_mut u (s :: p) d =
  match seg_borrow_mut u s d with
  | Some (v, k) => match path_borrow_mut u p v with Some (x, k') => Some (x, fun y => k (k' y)) | None => None end
  | None => None
  end.
Proof.
  unfold path_borrow_mut. fold (mstep u). cbn [fold_left mstep]. destruct (seg_borrow_mut u s d) as [(v, k)|]; [apply mut_from|apply mut_none].
Qed.

Lemma mut_read u p : forall d x k, path_borrow_mut u p d = Some (x, k) ->
  path_borrow p d = Some x /\ k x = d /\ (forall y r, path_borrow (p ++ r) (k y) = path_borrow r y).
Proof.
  induction p as [|s p IH]; intros d x k E.
  - cbn in E. injection E as <- <-. auto.
  - rewrite mut_cons in E. destruct (seg_borrow_mut u s d) as [(v, k1)|] eqn:E1; [|discriminate]. destruct (path_borrow_mut u p v) as [(x2, k2)|] eqn:E2; [|discriminate].
    injection E as <- <-. destruct (IH _ _ _ E2) as (I1 & I2 & I3). split; [|split].
    + rewrite borrow_cons, (seg_read _ _ _ _ _ E1). exact I1.
    + rewrite I2. eapply seg_same; eauto.
    + intros y r. cbn [app]. rewrite borrow_cons, (seg_written _ _ _ _ _ _ E1). apply I3.
Qed.
Lemma mut_elsewhere u p : forall q d x k y, path_borrow_mut u p d = Some (x, k) ->
  ~ contains seg p q -> ~ contains seg q p -> path_borrow q (k y) = path_borrow q d.
Proof.
  induction p as [|s p IH]; intros q d x k y E N1 N2; [exfalso; apply N1; exists q; reflexivity|].
  destruct q as [|s' q]; [exfalso; apply N2; exists (s :: p); reflexivity|].
  rewrite mut_cons in E. destruct (seg_borrow_mut u s d) as [(v, k1)|] eqn:E1; [|discriminate]. destruct (path_borrow_mut u p v) as [(x2, k2)|] eqn:E2; [|discriminate].
  injection E as <- <-. rewrite !borrow_cons.
  assert (D : s = s' \/ s <> s').
  { destruct s, s'; try (right; congruence);
      try match goal with |- ?f ?a = ?f ?b \/ _ => destruct (Nat.eq_dec a b); [left|right]; congruence end; try (left; reflexivity).
    - destruct (Nat.eq_dec variant variant0), (Nat.eq_dec member member0); [left|right|right|right]; congruence.
    - destruct (keqb k k0) eqn:EK; [left; f_equal; apply keqb_ok, EK|right]. intros [= ->]. rewrite keqb_refl in EK. discriminate. }
  destruct D as [<-|D].
  - rewrite (seg_written _ _ _ _ _ _ E1), (seg_read _ _ _ _ _ E1). apply (IH q v x2 k2 y E2).
    + intros (r & ->). apply N1. exists r. reflexivity.
    + intros (r & ->). apply N2. exists r. reflexivity.
  - rewrite (seg_elsewhere _ _ s' _ _ _ _ E1) by exact D. reflexivity.
Qed.
Lemma mut_app u p : forall r d x k, path_borrow_mut u (p ++ r) d = Some (x, k) ->
  exists v kp kr, path_borrow_mut u p d = Some (v, kp) /\ path_borrow_mut u r v = Some (x, kr) /\ forall y, k y = kp (kr y).
Proof.
  induction p as [|s p IH]; intros r d x k E.
  - exists d, (fun y => y), k. auto.
  - cbn [app] in E. rewrite mut_cons in E. destruct (seg_borrow_mut u s d) as [(v, k1)|] eqn:E1; [|discriminate]. destruct (path_borrow_mut u (p ++ r) v) as [(x2, k2)|] eqn:E2; [|discriminate].
    injection E as <- <-. destruct (IH _ _ _ _ E2) as (v' & kp & kr & Q1 & Q2 & Q3). exists v', (fun y => k1 (kp y)), kr.
    split; [rewrite mut_cons, E1, Q1; reflexivity|]. split; [exact Q2|]. intro y. rewrite Q3. reflexivity.
Qed.
Lemma mut_ok u p : forall d x, path_borrow p d = Some x ->
  (forall c r i v, p = c ++ SRc K :: r -> path_borrow c d = Some (VRc K i v) -> u i = true) -> exists k, path_borrow_mut u p d = Some (x, k).
Proof.
  induction p as [|s p IH]; intros d x E U.
  - injection E as <-. eexists. reflexivity.
  - rewrite borrow_cons in E. destruct (seg_borrow s d) as [v|] eqn:E1; [|discriminate].
    destruct (seg_mut_shared u s d v E1) as (k1 & M1). { intros i -> ->. apply (U [] p i v); reflexivity. }
    destruct (IH v x E) as (k2 & M2). { intros c r i v' -> Q. apply (U (s :: c) r i v'); [reflexivity|]. rewrite borrow_cons, E1. exact Q. }
    rewrite mut_cons, M1, M2. eauto.
Qed.
Lemma mut_shared u p c r i v d : p = c ++ SRc K :: r -> path_borrow c d = Some (VRc K i v) -> u i = false -> path_borrow_mut u p d = None.
Proof.
  intros -> E U. destruct (path_borrow_mut u (c ++ SRc K :: r) d) as [(x, k)|] eqn:M; [|reflexivity]. exfalso.
  destruct (mut_app _ _ _ _ _ _ M) as (v' & kp & kr & Q1 & Q2 & _). destruct (mut_read _ _ _ _ _ Q1) as (Q3 & _). rewrite E in Q3. injection Q3 as <-.
  rewrite mut_cons in Q2. cbn in Q2. rewrite U in Q2. discriminate.
Qed.

(** * Types *)
Variable def : nat -> tydef.
Notation has_ty := (has_ty K def).
Notation has_tys := (has_tys K def).
Lemma tys_nth vs fs : has_tys vs fs -> forall m b t, nth_error fs m = Some (b, t) -> exists v, nth_error vs m = Some v /\ has_ty v t.
Proof. induction 1 as [|v vs b' t' fs]; intros [|m] b t E; cbn in *; try discriminate; [injection E as -> ->; eauto|eauto]. Qed.
Lemma tys_put vs fs : has_tys vs fs -> forall m b t y, nth_error fs m = Some (b, t) -> has_ty y t -> has_tys (put_nth m y vs) fs.
Proof. induction 1 as [|v vs b' t' fs]; intros [|m] b t y E Y; cbn in *; try discriminate; [injection E as -> ->; constructor; auto|constructor; eauto]. Qed.
Lemma seg_typed s t t' v x : seg_ty K def t s = Some t' -> has_ty v t -> seg_borrow s v = Some x -> has_ty x t'.
Proof.
  intros S V E. unfold seg_ty in S. inversion V; subst; rewrite H in S; destruct s; cbn in S; try discriminate; cbn in E.
  - destruct (nth_error fs member) as [([|], t0)|] eqn:F; try discriminate. injection S as ->. destruct (tys_nth _ _ H0 _ _ _ F) as (v' & Q & T). congruence.
  - destruct (Nat.eqb_spec variant n); [subst|discriminate]. rewrite H0 in S. destruct (nth_error fs member) as [([|], t0)|] eqn:F; try discriminate. injection S as ->.
    destruct (tys_nth _ _ H1 _ _ _ F) as (v' & Q & T). congruence.
  - injection S as <-. apply H0. eapply nth_error_In; eauto.
  - injection S as <-. revert E H0. clear. induction m as [|(k', v) m IH]; cbn; [discriminate|]. destruct (keqb k' k); intros E H; [injection E as <-; eapply H; eauto|apply IH; eauto].
  - injection S as <-. injection E as <-. exact H0.
  - injection S as <-. injection E as <-. exact H0.
Qed.
Lemma in_put {A} (l : list A) : forall i y x, In x (put_nth i y l) -> x = y \/ In x l.
Proof. induction l as [|a l IH]; intros [|i] y x; cbn; try tauto; [intros [<-|?]; auto|]. intros [<-|Q]; auto. apply IH in Q. tauto. Qed.
Lemma seg_put_typed u s t t' v x k y : seg_ty K def t s = Some t' -> has_ty v t -> seg_borrow_mut u s v = Some (x, k) -> has_ty y t' -> has_ty (k y) t.
Proof.
  intros S V E Y. unfold seg_ty in S. inversion V; subst; rewrite H in S; destruct s; cbn in S; try discriminate; cbn in E; cases E; injection E as <- <-.
  - destruct (nth_error fs member) as [([|], t0)|] eqn:F; try discriminate. injection S as ->. eapply ty_struct; [exact H|]. eapply tys_put; eauto.
  - apply Nat.eqb_eq in E0. subst. rewrite H0 in S. destruct (nth_error fs member) as [([|], t0)|] eqn:F; try discriminate. injection S as ->. eapply ty_enum; [exact H|exact H0|]. eapply tys_put; eauto.
  - injection S as ->. eapply ty_vec; [exact H|]. intros v9 Q. apply in_put in Q as [->|Q]; auto.
  - injection S as ->. eapply ty_map; [exact H|]. intros k8 v8 Q. revert Q H0. clear -Y. induction m as [|(k', v') m IH]; cbn; [tauto|]. destruct (keqb k' _); intros Q HH.
    + destruct Q as [[= <- <-]|Q]; eauto.
    + destruct Q as [[= <- <-]|Q]; eauto.
  - injection S as ->. eapply ty_box; eauto.
  - injection S as ->. eapply ty_rc; eauto.
Qed.
Lemma path_typed p : forall t t' v x, path_ty K def t p = Some t' -> has_ty v t -> path_borrow p v = Some x -> has_ty x t'.
Proof.
  induction p as [|s p IH]; intros t t' v x P V E; cbn [path_ty] in P.
  - injection P as <-. injection E as <-. exact V.
  - destruct (seg_ty K def t s) as [t1|] eqn:S; [|discriminate]. rewrite borrow_cons in E. destruct (seg_borrow s v) as [v1|] eqn:E1; [|discriminate].
    eapply IH; eauto. eapply seg_typed; eauto.
Qed.
Lemma path_put_typed u p : forall t t' v x k y, path_ty K def t p = Some t' -> has_ty v t -> path_borrow_mut u p v = Some (x, k) -> has_ty y t' -> has_ty (k y) t.
Proof.
  induction p as [|s p IH]; intros t t' v x k y P V E Y; cbn [path_ty] in P.
  - injection P as <-. cbn in E. injection E as <- <-. exact Y.
  - destruct (seg_ty K def t s) as [t1|] eqn:S; [|discriminate]. rewrite mut_cons in E. destruct (seg_borrow_mut u s v) as [(v1, k1)|] eqn:E1; [|discriminate].
    destruct (path_borrow_mut u p v1) as [(x2, k2)|] eqn:E2; [|discriminate]. injection E as <- <-.
    eapply seg_put_typed; eauto. eapply IH; eauto. eapply seg_typed; eauto. eapply seg_read; eauto.
Qed.
Lemma path_guaranteed u p : forall t t' v, path_ty K def t p = Some t' -> forallb (seg_guaranteed K) p = true -> has_ty v t ->
  exists x k, path_borrow p v = Some x /\ path_borrow_mut u p v = Some (x, k).
Proof.
  induction p as [|s p IH]; intros t t' v P G V; cbn [path_ty] in P.
  - exists v, (fun y => y). auto.
  - destruct (seg_ty K def t s) as [t1|] eqn:S; [|discriminate]. cbn in G. apply andb_true_iff in G as (G1 & G2).
    assert (Q : exists v1 k1, seg_borrow_mut u s v = Some (v1, k1)).
    { unfold seg_ty in S. inversion V; subst; rewrite H in S; destruct s; try discriminate; cbn.
      - destruct (nth_error fs member) as [([|], t0)|] eqn:F; try discriminate. destruct (tys_nth _ _ H0 _ _ _ F) as (v' & Q & T). rewrite Q. eauto.
      - eauto. }
    destruct Q as (v1 & k1 & Q). assert (E : seg_borrow s v = Some v1) by (eapply seg_read; eauto).
    destruct (IH t1 t' v1 P G2) as (x & k & Q1 & Q2); [eapply seg_typed; eauto|].
    exists x. eexists. split; [rewrite borrow_cons, E; exact Q1|]. rewrite mut_cons, Q, Q2. reflexivity.
Qed.

(** * What paths write *)
Variable word : nat.
Variable key_bytes : K -> list N.
Lemma le_length w n : length (le_bytes w n) = w.
Proof. revert n. induction w as [|w IH]; intro n; cbn; auto. Qed.
Lemma le_inj w : forall n m, (n < 256 ^ N.of_nat w)%N -> (m < 256 ^ N.of_nat w)%N -> le_bytes w n = le_bytes w m -> n = m.
Proof.
  induction w as [|w IH]; intros n m Hn Hm E.
  - cbn in Hn, Hm. lia.
  - cbn in E. injection E as E1 E2. rewrite Nat2N.inj_succ, N.pow_succ_r' in Hn, Hm.
    apply IH in E2; [|apply N.div_lt_upper_bound; lia|apply N.div_lt_upper_bound; lia].
    rewrite (N.div_mod n 256), (N.div_mod m 256) by lia. rewrite E1, E2. reflexivity.
Qed.
Notation fits := (fits word).
Lemma usize_app i j a b : fits i -> fits j -> usize_bytes word i ++ a = usize_bytes word j ++ b -> i = j /\ a = b.
Proof.
  intros Fi Fj E. unfold usize_bytes in E.
  assert (L : le_bytes word (N.of_nat i) = le_bytes word (N.of_nat j) /\ a = b).
  { assert (LL : length (le_bytes word (N.of_nat i)) = length (le_bytes word (N.of_nat j))) by (rewrite !le_length; reflexivity).
    revert LL E. generalize (le_bytes word (N.of_nat i)) (le_bytes word (N.of_nat j)). induction l as [|x l IH]; intros [|y l'] LL E; cbn in *; try discriminate; auto.
    injection E as -> E. destruct (IH l') as (-> & ->); auto. }
  destruct L as (L & ->). split; [|reflexivity]. apply le_inj in L; auto. lia.
Qed.
Lemma position_some {A} eqb (x : A) l : (forall a, eqb a a = true) -> In x l -> exists i, position eqb x l = Some i /\ i < length l.
Proof.
  intros R. induction l as [|y l IH]; intros I; [destruct I|]. cbn. destruct (eqb y x) eqn:E; [exists 0; split; [reflexivity|lia]|].
  destruct I as [->|I]; [rewrite R in E; discriminate|]. destruct (IH I) as (i & -> & L). exists (S i). split; [reflexivity|lia].
Qed.
Lemma position_inj {A} eqb (x y : A) l i : (forall a b, eqb a b = true -> a = b) -> position eqb x l = Some i -> position eqb y l = Some i -> x = y.
Proof.
  intros R. revert i. induction l as [|z l IH]; intros i; cbn; [discriminate|].
  destruct (eqb z x) eqn:E1, (eqb z y) eqn:E2; intros H1 H2.
  - apply R in E1, E2. congruence.
  - injection H1 as <-. destruct (position eqb y l); discriminate.
  - injection H2 as <-. destruct (position eqb x l); discriminate.
  - destruct (position eqb x l) as [a|]; [|discriminate]. destruct (position eqb y l) as [b|]; [|discriminate]. cbn in *. apply (IH a); congruence.
Qed.
Lemma tracked_in fs : forall k m t, nth_error fs m = Some (true, t) -> In (k + m) (tracked_from k fs).
Proof.
  induction fs as [|(b, t0) fs IH]; intros k [|m] t E; cbn in *; try discriminate.
  - injection E as -> ->. rewrite Nat.add_0_r. cbn. auto.
  - apply in_app_iff. right. rewrite Nat.add_succ_r. apply (IH (S k) m t E).
Qed.
Lemma enum_in vs : forall k n fs m t, nth_error vs n = Some fs -> nth_error fs m = Some (true, t) -> In (k + n, m) (enum_mappers_from k vs).
Proof.
  induction vs as [|f vs IH]; intros k [|n] fs m t E F; cbn in *; try discriminate.
  - injection E as ->. apply in_app_iff. left. rewrite Nat.add_0_r. apply in_map. apply (tracked_in fs 0 m t F).
  - apply in_app_iff. right. rewrite Nat.add_succ_r. apply (IH (S k) n fs m t E F).
Qed.
Lemma pair_eqb_refl a : pair_eqb a a = true.
Proof. unfold pair_eqb. rewrite !Nat.eqb_refl. reflexivity. Qed.
Lemma pair_eqb_eq a b : pair_eqb a b = true -> a = b.
Proof. unfold pair_eqb. intro E. apply andb_true_iff in E as (E1 & E2). apply Nat.eqb_eq in E1, E2. destruct a, b; cbn in *; congruence. Qed.

Notation defs_fit := (defs_fit def word).
Notation path_fits := (path_fits K word).
Notation keys_ok := (keys_ok K key_bytes).

Lemma fits_lt i n : i < n -> fits n -> fits i.
Proof. unfold fits. lia. Qed.
Lemma seg_bytes_inj t s s' t1 t2 a b : defs_fit -> keys_ok -> path_fits [s] -> path_fits [s'] -> seg_ty K def t s = Some t1 -> seg_ty K def t s' = Some t2 ->
  seg_bytes K def word key_bytes t s ++ a = seg_bytes K def word key_bytes t s' ++ b -> s = s' /\ a = b.
Proof.
  intros DF (KO & _) F1 F2 S1 S2 E. pose proof (DF t) as D. unfold seg_ty, seg_bytes in *. destruct (def t) eqn:ET; destruct s; try discriminate; destruct s'; try discriminate.
  - destruct (nth_error fields member) as [([|], t3)|] eqn:N1; try discriminate. destruct (nth_error fields member0) as [([|], t4)|] eqn:N2; try discriminate.
    apply (tracked_in fields 0) in N1, N2. cbn in N1, N2. fold (struct_mappers fields) in N1, N2.
    destruct (position_some Nat.eqb _ _ Nat.eqb_refl N1) as (i & P1 & L1). destruct (position_some Nat.eqb _ _ Nat.eqb_refl N2) as (j & P2 & L2). rewrite P1, P2 in E.
    apply usize_app in E as (-> & ->); [|eapply fits_lt; eauto|eapply fits_lt; eauto]. split; [|reflexivity]. f_equal. eapply position_inj; [|exact P1|exact P2]. intros x y Q; apply Nat.eqb_eq, Q.
  - destruct (nth_error variants variant) as [fs1|] eqn:V1; try discriminate. destruct (nth_error fs1 member) as [([|], t3)|] eqn:N1; try discriminate.
    destruct (nth_error variants variant0) as [fs2|] eqn:V2; try discriminate. destruct (nth_error fs2 member0) as [([|], t4)|] eqn:N2; try discriminate.
    pose proof (enum_in variants 0 _ _ _ _ V1 N1) as I1. pose proof (enum_in variants 0 _ _ _ _ V2 N2) as I2. cbn in I1, I2. fold (enum_mappers variants) in I1, I2.
    destruct (position_some pair_eqb _ _ pair_eqb_refl I1) as (i & P1 & L1). destruct (position_some pair_eqb _ _ pair_eqb_refl I2) as (j & P2 & L2). rewrite P1, P2 in E.
    apply usize_app in E as (-> & ->); [|eapply fits_lt; eauto|eapply fits_lt; eauto]. split; [|reflexivity].
    assert (Q : (variant, member) = (variant0, member0)) by (eapply position_inj; [apply pair_eqb_eq|exact P1|exact P2]). congruence.
  - apply usize_app in E as (-> & ->); [auto|apply F1; cbn; auto|apply F2; cbn; auto].
  - pose proof (KO _ _ _ _ E) as ->. apply app_inv_head in E. auto.
  - injection E as ->. auto.
  - injection E as ->. auto.
Qed.
Lemma seg_bytes_nonempty t s t1 : 1 <= word -> keys_ok -> seg_ty K def t s = Some t1 -> seg_bytes K def word key_bytes t s <> [].
Proof.
  intros W (_ & KN) S. assert (U : forall i, usize_bytes word i <> []). { intros i Q. apply (f_equal (@length N)) in Q. unfold usize_bytes in Q. rewrite le_length in Q. cbn in Q. lia. }
  unfold seg_ty, seg_bytes in *. destruct (def t) eqn:ET; destruct s; try discriminate; auto.
  - destruct (nth_error fields member) as [([|], t3)|] eqn:N1; try discriminate. apply (tracked_in fields 0) in N1. cbn in N1. fold (struct_mappers fields) in N1.
    destruct (position_some Nat.eqb _ _ Nat.eqb_refl N1) as (i & -> & L1). auto.
  - destruct (nth_error variants variant) as [fs1|] eqn:V1; try discriminate. destruct (nth_error fs1 member) as [([|], t3)|] eqn:N1; try discriminate.
    pose proof (enum_in variants 0 _ _ _ _ V1 N1) as I1. cbn in I1. fold (enum_mappers variants) in I1. destruct (position_some pair_eqb _ _ pair_eqb_refl I1) as (i & -> & L1). auto.
Qed.
Lemma path_bytes_inj p : forall q t t1 t2, 1 <= word -> defs_fit -> keys_ok -> path_fits p -> path_fits q ->
  path_ty K def t p = Some t1 -> path_ty K def t q = Some t2 ->
  path_bytes K def word key_bytes t p = path_bytes K def word key_bytes t q -> p = q.
Proof.
  induction p as [|s p IH]; intros [|s' q] t t1 t2 W DF KO F1 F2 P1 P2 E; cbn [path_ty path_bytes] in *; [reflexivity| | |].
  - destruct (seg_ty K def t s') as [t'|] eqn:S; [|discriminate]. exfalso. apply (seg_bytes_nonempty t s' t' W KO S). symmetry in E. apply app_eq_nil in E. tauto.
  - destruct (seg_ty K def t s) as [t'|] eqn:S; [|discriminate]. exfalso. apply (seg_bytes_nonempty t s t' W KO S). apply app_eq_nil in E. tauto.
  - destruct (seg_ty K def t s) as [t3|] eqn:S1; [|discriminate]. destruct (seg_ty K def t s') as [t4|] eqn:S2; [|discriminate].
    apply (seg_bytes_inj t s s' t3 t4) in E; auto.
    + destruct E as (-> & E). rewrite S1 in S2. injection S2 as ->. f_equal. apply (IH q t4 t1 t2); auto.
      * intros i I. apply F1. cbn. auto.
      * intros i I. apply F2. cbn. auto.
    + intros i [->|[]]. apply F1. cbn. auto.
    + intros i [->|[]]. apply F2. cbn. auto.
Qed.
End Laws.
