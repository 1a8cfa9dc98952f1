(** Proofs for C08: the arena refines disjoint lists. *)
From Coq Require Import List Arith Bool Permutation Lia.
From Verif Require Import Util Arena Spec_arena.
Import ListNotations.

(** [chain nx pv x l y]: following [nx] from [x] through [l] to [y], and [pv] back *)
Fixpoint chain (nx pv : nat -> nat) (x : nat) (l : list nat) (y : nat) : Prop :=
  match l with
  | [] => nx x = y /\ pv y = x
  | z :: t => nx x = z /\ pv z = x /\ chain nx pv z t y
  end.

Lemma chain_ext nx pv nx' pv' l : forall x y,
  (forall z, In z (x :: l) -> nx' z = nx z) -> (forall z, In z (y :: l) -> pv' z = pv z) ->
  chain nx pv x l y -> chain nx' pv' x l y.
Proof.
  induction l as [|z t IH]; simpl; intros x y A B H.
  - rewrite A, B; auto.
  - destruct H as (H1 & H2 & H3). rewrite A, B by auto. split; auto. split; auto. apply IH; [| |exact H3].
    + intros w W. apply A. simpl in W |- *. tauto.
    + intros w W. apply B. simpl in W |- *. tauto.
Qed.
Lemma chain_app nx pv l1 : forall x z l2 y,
  chain nx pv x (l1 ++ z :: l2) y <-> chain nx pv x l1 z /\ chain nx pv z l2 y.
Proof.
  induction l1 as [|w t IH]; simpl; intros x z l2 y; [tauto|]. rewrite IH. tauto.
Qed.
Lemma chain_prev nx pv l : forall x y, chain nx pv x l y -> pv y = last l x.
Proof.
  induction l as [|z t IH]; intros x y H; [apply H|]. destruct H as (_ & _ & H).
  apply IH in H. rewrite H. destruct t; auto.
  assert (E : forall (a b : nat) l0, l0 <> [] -> last l0 a = last l0 b).
  { intros a b l0. induction l0 as [|q [|r l0] IH0]; intro NE; [congruence|auto|]. simpl in *. apply IH0. discriminate. }
  change (last (z :: n :: t) x) with (last (n :: t) x). apply E. discriminate.
Qed.
Lemma chain_next nx pv l x y : chain nx pv x l y -> nx x = hd y l.
Proof. destruct l; intro H; apply H. Qed.
Lemma last_in l : forall x : nat, In (last l x) (x :: l).
Proof.
  induction l as [|z t IH]; intro x; [simpl; auto|].
  destruct t as [|w t]; [simpl; auto|]. change (last (z :: w :: t) x) with (last (w :: t) x).
  destruct (IH x) as [E|E].
  - right. right. destruct (IH z) as [E1|E1].
    + revert E. clear. revert w. induction t as [|q t IH]; intros w E; simpl in *; auto.
    + assert (X : forall (a b : nat) l0, l0 <> [] -> last l0 a = last l0 b).
      { intros a b l0. induction l0 as [|q [|r l0] IH0]; intro NE; [congruence|auto|]. simpl in *. apply IH0. discriminate. }
      rewrite (X x z) by discriminate. exact E1.
  - right. right. exact E.
Qed.
Lemma hd_in l : forall x : nat, In (hd x l) (x :: l).
Proof. destruct l; simpl; auto. Qed.

Lemma fupd_same {A} (f : nat -> A) i x : fupd f i x i = x.
Proof. unfold fupd. rewrite Nat.eqb_refl. auto. Qed.
Lemma fupd_other {A} (f : nat -> A) i x j : j <> i -> fupd f i x j = f j.
Proof. intro N. unfold fupd. rewrite (proj2 (Nat.eqb_neq j i)); auto. Qed.

(** redirecting the end of a chain *)
Lemma chain_retarget nx pv l : forall x y y' , NoDup (x :: l) -> ~ In y' l ->
  chain nx pv x l y -> chain (fupd nx (last l x) y') (fupd pv y' (last l x)) x l y'.
Proof.
  induction l as [|z t IH]; intros x y y' ND NY H.
  - simpl. rewrite !fupd_same. auto.
  - destruct H as (H1 & H2 & H3). inversion ND; subst. cbn [chain].
    assert (LZ : last (nx x :: t) x = last t (nx x)).
    { revert H3. clear. intros _. destruct t as [|a t]; auto. change (last (nx x :: a :: t) x) with (last (a :: t) x).
      assert (X : forall (a b : nat) l0, l0 <> [] -> last l0 a = last l0 b).
      { intros a0 b l0. induction l0 as [|q [|r l0] IH0]; intro NE; [congruence|auto|]. simpl in *. apply IH0. discriminate. }
      apply X. discriminate. }
    rewrite LZ. assert (LI := last_in t (nx x)).
    rewrite fupd_other by (intro E; rewrite <- E in LI; auto).
    rewrite fupd_other by (intro E; apply NY; rewrite E; simpl; auto).
    split; auto. split; auto. eapply IH; eauto. intro X; apply NY; simpl; auto.
Qed.
(** redirecting the beginning *)
Lemma chain_restart nx pv l : forall x x' y, NoDup (y :: l) -> ~ In x' l ->
  chain nx pv x l y -> chain (fupd nx x' (hd y l)) (fupd pv (hd y l) x') x' l y.
Proof.
  intros x x' y ND NX H. destruct l as [|z t]; cbn [chain hd].
  - rewrite !fupd_same. auto.
  - rewrite !fupd_same. split; auto. split; auto. destruct H as (_ & _ & H).
    eapply chain_ext; [| |exact H].
    + intros w I. apply fupd_other. intros ->. auto.
    + intros w I. apply fupd_other. intros ->. inversion ND; subst. inversion H3; subst.
      destruct I as [->|I]; auto. apply H2; simpl; auto.
Qed.

(** * list bookkeeping *)
Lemma handles_app S1 S2 : handles (S1 ++ S2) = handles S1 ++ handles S2.
Proof. unfold handles. rewrite map_app, concat_app. auto. Qed.
Lemma handles_cons p S : handles (p :: S) = fst p :: map fst (snd p) ++ handles S.
Proof. reflexivity. Qed.
Lemma slots_app S1 S2 : slots (S1 ++ S2) = slots S1 ++ slots S2.
Proof. unfold slots. rewrite map_app, concat_app. auto. Qed.
Lemma slots_cons p S : slots (p :: S) = map fst (snd p) ++ slots S.
Proof. reflexivity. Qed.
Lemma slots_handles S i : In i (slots S) -> In i (handles S).
Proof.
  induction S as [|p S IH]; auto. rewrite slots_cons, handles_cons. simpl. rewrite !in_app_iff. tauto.
Qed.
Lemma live_handles h S : live_list h S -> In h (handles S).
Proof.
  unfold live_list. induction S as [|p S IH]; auto. rewrite handles_cons. simpl. rewrite in_app_iff. tauto.
Qed.
Lemma in_handles p S x : In p S -> In x (fst p :: map fst (snd p)) -> In x (handles S).
Proof.
  intros I X. unfold handles. apply in_concat. exists (fst p :: map fst (snd p)). split; auto.
  apply in_map_iff. exists p. auto.
Qed.
Lemma live_split h S : live_list h S -> exists S1 l S2, S = S1 ++ (h, l) :: S2.
Proof.
  intro H. apply in_map_iff in H. destruct H as ([h' l] & E & I). simpl in E. subst.
  apply in_split in I. destruct I as (S1 & S2 & ->). eauto.
Qed.
Lemma slot_split i S : live_slot i S -> exists S1 h l1 w l2 S2, S = S1 ++ (h, l1 ++ (i, w) :: l2) :: S2.
Proof.
  intro H. apply in_concat in H. destruct H as (l & I & X). apply in_map_iff in I. destruct I as ([h l'] & E & I).
  simpl in E. subst l. apply in_map_iff in X. destruct X as ([i' w] & E & X). simpl in E. subst i'.
  apply in_split in X. destruct X as (l1 & l2 & ->). apply in_split in I. destruct I as (S1 & S2 & ->).
  exists S1, h, l1, w, l2, S2. auto.
Qed.

(** the refinement invariant *)
Record AInv (a : arena) (free : list nat) (S : lists) : Prop := {
  ai_two : 2 <= a_len a;
  ai_all : Permutation (0 :: free ++ handles S) (seq 0 (a_len a));
  ai_free : chain (a_next a) (a_prev a) 0 free 0;
  ai_lists : forall p, In p S -> chain (a_next a) (a_prev a) (fst p) (map fst (snd p)) (fst p);
  ai_wk : forall p i w, In p S -> In (i, w) (snd p) -> same_task (a_wk a i) w;
  ai_dummy : forall i, ~ In i (slots S) -> w_task (a_wk a i) = None
}.

Lemma ai_nodup a free S : AInv a free S -> NoDup (0 :: free ++ handles S).
Proof. intro H. eapply Permutation_NoDup; [apply Permutation_sym, (ai_all _ _ _ H)|apply seq_NoDup]. Qed.
Lemma ai_in a free S i : AInv a free S -> (In i (0 :: free ++ handles S) <-> i < a_len a).
Proof.
  intro H. split; intro X.
  - eapply Permutation_in in X; [|apply (ai_all _ _ _ H)]. apply in_seq in X. lia.
  - eapply Permutation_in; [apply Permutation_sym, (ai_all _ _ _ H)|]. apply in_seq. lia.
Qed.

(** NoDup facts on a split state, as inequalities *)
Lemma nd_app_disj {A} (l1 l2 : list A) x : NoDup (l1 ++ l2) -> In x l1 -> In x l2 -> False.
Proof.
  induction l1 as [|a t IH]; simpl; intros ND I1 I2; auto. inversion ND; subst. destruct I1 as [->|I1].
  - apply H1. apply in_app_iff. auto.
  - apply IH; auto.
Qed.
Lemma nd_app_l {A} (l1 l2 : list A) : NoDup (l1 ++ l2) -> NoDup l1.
Proof. induction l1 as [|a t IH]; simpl; intro ND; constructor; inversion ND; subst; auto. intro X. apply H1. apply in_app_iff; auto. Qed.
Lemma nd_app_r {A} (l1 l2 : list A) : NoDup (l1 ++ l2) -> NoDup l2.
Proof. induction l1 as [|a t IH]; simpl; intro ND; auto. inversion ND; auto. Qed.

(** another list is disjoint from the split one *)
Lemma other_list S1 h l S2 p x : NoDup (handles (S1 ++ (h, l) :: S2)) -> In p (S1 ++ S2) ->
  In x (fst p :: map fst (snd p)) -> In x (h :: map fst l) -> False.
Proof.
  intros ND I X Y. rewrite handles_app, handles_cons in ND. simpl in ND. apply in_app_iff in I. destruct I as [I|I].
  - assert (Z := in_handles _ _ _ I X). eapply nd_app_disj; [exact ND|exact Z|].
    change (In x ((h :: map fst l) ++ handles S2)). apply in_app_iff. auto.
  - apply nd_app_r in ND. change (NoDup ((h :: map fst l) ++ handles S2)) in ND.
    eapply nd_app_disj; [exact ND|exact Y|]. eapply in_handles; eauto.
Qed.

Ltac bound a i H := let E := fresh in assert (E : (i <? a) = true) by (apply Nat.ltb_lt; H); rewrite ?E; clear E.

Lemma ar_new_inv : AInv ar_new [1] [].
Proof.
  constructor; simpl; auto. intros p [].
  intros p i w [].
Qed.

(** * taking a node *)
Lemma take_free a i free S : AInv a (i :: free) S -> ar_take a = Some (a, i, true).
Proof.
  intro H. unfold ar_take, get_next. bound (a_len a) 0 ltac:(apply Nat.lt_le_trans with 2; [lia|apply (ai_two _ _ _ H)]).
  destruct (ai_free _ _ _ H) as (E & _). rewrite E.
  destruct (Nat.eqb_spec i 0) as [->|]; auto.
  exfalso. assert (ND := ai_nodup _ _ _ H). inversion ND; subst. apply H2. simpl. auto.
Qed.

Definition grown (a : arena) : arena :=
  mkA (a_len a * 2) (fun i => if a_len a <=? i then dummy_waker else a_wk a i)
    (fupd (fupd (fun i => if a_len a <=? i then i - 1 else a_prev a i) (a_len a + 1) 0) 0 (a_len a * 2 - 1))
    (fupd (fupd (fun i => if a_len a <=? i then i + 1 else a_next a i) (a_len a * 2 - 1) 0) 0 (a_len a + 1)).

Lemma take_grow a S : AInv a [] S -> ar_take a = Some (grown a, a_len a, false).
Proof.
  intro H. assert (T := ai_two _ _ _ H). unfold ar_take, get_next. bound (a_len a) 0 lia.
  destruct (ai_free _ _ _ H) as (E & _). rewrite E. simpl Nat.eqb. cbv iota.
  unfold ar_grow, set_prev, set_next. cbn [a_len a_wk a_prev a_next].
  bound (a_len a * 2) (a_len a + 1) lia. cbn [a_len a_wk a_prev a_next].
  bound (a_len a * 2) (a_len a * 2 - 1) lia. cbn [a_len a_wk a_prev a_next].
  bound (a_len a * 2) 0 lia. cbn [a_len a_wk a_prev a_next].
  bound (a_len a * 2) 0 lia. auto.
Qed.

(** the free list after growing: n+1, ..., 2n-1 *)
Lemma chain_seq nx pv : forall n s e, nx (s + n) = e -> pv e = s + n ->
  (forall i, s <= i < s + n -> nx i = i + 1) -> (forall i, s < i <= s + n -> pv i = i - 1) ->
  chain nx pv s (seq (S s) n) e.
Proof.
  induction n as [|n IH]; intros s e E1 E2 A B; simpl.
  - rewrite Nat.add_0_r in *. auto.
  - rewrite A by lia. split; [lia|]. rewrite (B (S s)) by lia. split; [lia|].
    apply IH; try (replace (S s + n) with (s + S n) by lia; auto).
    + intros. apply A; lia.
    + intros. apply B; lia.
Qed.
Lemma grown_free a : 2 <= a_len a ->
  chain (a_next (grown a)) (a_prev (grown a)) 0 (seq (S (a_len a)) (a_len a - 1)) 0.
Proof.
  intro T. assert (X : exists m, a_len a = S (S m)) by (exists (a_len a - 2); lia). destruct X as (m & E).
  replace (a_len a - 1) with (S m) by lia. cbn [seq chain].
  unfold grown. cbn [a_next a_prev]. split; [|split].
  - rewrite fupd_same. lia.
  - rewrite fupd_other by lia. replace (S (a_len a)) with (a_len a + 1) by lia. apply fupd_same.
  - apply chain_seq.
    + rewrite fupd_other by lia. replace (S (a_len a) + m) with (a_len a * 2 - 1) by lia. apply fupd_same.
    + rewrite fupd_same. lia.
    + intros i L. rewrite !fupd_other by lia. rewrite (proj2 (Nat.leb_le _ _)) by lia. auto.
    + intros i L. rewrite !fupd_other by lia. rewrite (proj2 (Nat.leb_le _ _)) by lia. auto.
Qed.
Lemma grown_old a i : i < a_len a -> i <> 0 -> a_next (grown a) i = a_next a i /\ a_prev (grown a) i = a_prev a i.
Proof.
  intros L N. unfold grown. cbn [a_next a_prev]. rewrite !fupd_other by lia.
  rewrite (proj2 (Nat.leb_gt _ _)) by lia. auto.
Qed.

Lemma perm_grow n l : 2 <= n -> Permutation l (seq 0 n) ->
  Permutation (n :: seq (S n) (n - 1) ++ l) (seq 0 (n * 2)).
Proof.
  intros T P. replace (n * 2) with (n + n) by lia. rewrite seq_app. cbn [Nat.add].
  assert (E : seq n n = n :: seq (S n) (n - 1)).
  { assert (X : exists m, n = S m) by (exists (n - 1); lia). destruct X as (m & ->). simpl. rewrite Nat.sub_0_r. auto. }
  rewrite E, P. change (n :: seq (S n) (n - 1) ++ seq 0 n) with ((n :: seq (S n) (n - 1)) ++ seq 0 n).
  apply Permutation_app_comm.
Qed.

(** After taking, before linking: a node [i] outside all lists.  [free] is what the
    free list will be once [ar_fix] has run. *)
Record Taken (a : arena) (i : nat) (fx : bool) (free : list nat) (S : lists) : Prop := {
  tk_two : 2 <= a_len a;
  tk_all : Permutation (i :: 0 :: free ++ handles S) (seq 0 (a_len a));
  tk_free : if fx then chain (a_next a) (a_prev a) 0 (i :: free) 0
            else chain (a_next a) (a_prev a) 0 free 0;
  tk_lists : forall p, In p S -> chain (a_next a) (a_prev a) (fst p) (map fst (snd p)) (fst p);
  tk_wk : forall p j w, In p S -> In (j, w) (snd p) -> same_task (a_wk a j) w;
  tk_dummy : forall j, ~ In j (slots S) -> w_task (a_wk a j) = None
}.

Lemma take_ok a free S : AInv a free S -> exists a0 i fx free', ar_take a = Some (a0, i, fx) /\ Taken a0 i fx free' S.
Proof.
  intro H. assert (T := ai_two _ _ _ H). destruct free as [|i free].
  - exists (grown a), (a_len a), false, (seq (Datatypes.S (a_len a)) (a_len a - 1)). split; [eapply take_grow; eauto|].
    assert (LT : forall j, In j (handles S) -> j < a_len a /\ j <> 0).
    { intros j J. split; [apply (ai_in _ _ _ j H); simpl; auto|]. intros ->.
      assert (ND := ai_nodup _ _ _ H). inversion ND; subst. apply H2. auto. }
    constructor.
    + simpl. lia.
    + simpl a_len. assert (P := ai_all _ _ _ H). simpl in P.
      apply (perm_grow _ _ T) in P. rewrite <- P. apply perm_skip. apply Permutation_middle.
    + apply grown_free; auto.
    + intros p I. eapply chain_ext; [| |apply (ai_lists _ _ _ H p I)].
      * intros z Z. destruct (LT z); [eapply in_handles; eauto|]. apply grown_old; auto.
      * intros z Z. destruct (LT z); [eapply in_handles; eauto|]. apply grown_old; auto.
    + intros p j w I J. simpl. rewrite (proj2 (Nat.leb_gt _ _)); [eapply (ai_wk _ _ _ H); eauto|].
      apply LT. eapply in_handles; eauto. right. apply in_map_iff. exists (j, w). auto.
    + intros j J. simpl. destruct (a_len a <=? j); auto. apply (ai_dummy _ _ _ H); auto.
  - exists a, i, true, free. split; [eapply take_free; eauto|]. constructor; try apply H; auto.
    rewrite <- (ai_all _ _ _ H). simpl. apply perm_swap.
Qed.

(** the free list is fixed by [ar_fix], given the links [i] had *)
Lemma tk_nodup a i fx free S : Taken a i fx free S -> NoDup (i :: 0 :: free ++ handles S).
Proof. intro H. eapply Permutation_NoDup; [apply Permutation_sym, (tk_all _ _ _ _ _ H)|apply seq_NoDup]. Qed.
Lemma tk_in a i fx free S j : Taken a i fx free S -> (In j (i :: 0 :: free ++ handles S) <-> j < a_len a).
Proof.
  intro H. split; intro X.
  - eapply Permutation_in in X; [|apply (tk_all _ _ _ _ _ H)]. apply in_seq in X. lia.
  - eapply Permutation_in; [apply Permutation_sym, (tk_all _ _ _ _ _ H)|]. apply in_seq. lia.
Qed.

(** [ar_fix] with the links [i] had before it was relinked *)
Lemma fix_ok a a4 i (fx : bool) free S :
  Taken a i fx free S -> a_len a4 = a_len a ->
  (forall j, In j (0 :: free) -> a_next a4 j = a_next a j /\ a_prev a4 j = a_prev a j) ->
  exists a5, ar_fix a4 fx (a_prev a i) (a_next a i) = Some a5 /\
    a_len a5 = a_len a /\ a_wk a5 = a_wk a4 /\ chain (a_next a5) (a_prev a5) 0 free 0 /\
    (forall j, ~ In j (0 :: free) -> a_next a5 j = a_next a4 j /\ a_prev a5 j = a_prev a4 j).
Proof.
  intros T L A. assert (ND := tk_nodup _ _ _ _ _ T). assert (F := tk_free _ _ _ _ _ T). destruct fx.
  - assert (ND0 : NoDup (0 :: free)).
    { inversion ND; subst. inversion H2; subst. constructor; [intro; apply H3; apply in_app_iff; auto|].
      eapply nd_app_l; eauto. }
    assert (NI : ~ In i (0 :: free)).
    { inversion ND; subst. intro X. apply H1. destruct X as [->|X]; [left; auto|right; apply in_app_iff; auto]. }
    assert (PI : a_prev a i = 0) by apply F. assert (NX : a_next a i = hd 0 free) by (eapply chain_next; apply F).
    rewrite PI, NX. unfold ar_fix, set_next, set_prev. rewrite L.
    bound (a_len a) 0 ltac:(apply Nat.lt_le_trans with 2; [lia|apply T]). cbn [a_len a_wk a_prev a_next].
    assert (HI := hd_in free 0).
    bound (a_len a) (hd 0 free) ltac:(apply (tk_in _ _ _ _ _ _ T); destruct HI as [HI|HI]; [right; left; exact HI|right; right; apply in_app_iff; auto]).
    eexists; split; [reflexivity|]. cbn [a_len a_wk a_prev a_next]. split; auto. split; auto. split.
    + eapply chain_ext; [| |eapply (chain_restart (a_next a) (a_prev a) free i 0 0 ND0);
        [inversion ND0; auto|apply F]].
      * intros z Z. unfold fupd. destruct (Nat.eqb z 0); auto. apply A; auto.
      * intros z Z. unfold fupd. destruct (Nat.eqb z (hd 0 free)); auto. apply A; auto.
    + intros j J. split; apply fupd_other; intros ->; apply J; simpl; auto.
  - exists a4. simpl. split; auto. split; auto. split; auto. split; auto.
    eapply chain_ext; [| |exact F]; intros z Z; apply A; auto.
Qed.

Lemma add_sublist_ok a free S : AInv a free S ->
  exists a' h free', ar_add_sublist a = Some (a', h) /\ ~ In h (handles S) /\ h <> 0 /\ AInv a' free' (S ++ [(h, [])]).
Proof.
  intro H. destruct (take_ok a free S H) as (a0 & i & fx & free' & E & T).
  unfold ar_add_sublist. rewrite E. assert (ND := tk_nodup _ _ _ _ _ T).
  assert (LI : i < a_len a0) by (apply (tk_in _ _ _ _ _ _ T); simpl; auto).
  unfold get_prev, get_next, set_prev, set_next. bound (a_len a0) i ltac:(exact LI). cbn [a_len].
  bound (a_len a0) i ltac:(exact LI). cbn [a_len a_wk a_prev a_next].
  bound (a_len a0) i ltac:(exact LI).
  set (a4 := mkA _ _ _ _).
  assert (NI : ~ In i (0 :: free' ++ handles S)) by (inversion ND; auto).
  destruct (fix_ok a0 a4 i fx free' S T eq_refl) as (a5 & E5 & L5 & W5 & F5 & O5).
  { intros j J. unfold a4. cbn [a_prev a_next]. rewrite !fupd_other; auto; intros ->; apply NI;
    destruct J as [->|J]; simpl; auto; right; apply in_app_iff; auto. }
  rewrite E5. exists a5, i, free'. split; auto.
  assert (N1 : ~ In i (handles S)) by (intro X; apply NI; right; apply in_app_iff; auto).
  assert (N0 : i <> 0) by (intros ->; apply NI; simpl; auto).
  split; auto. split; auto.
  assert (OUT : forall j, In j (handles S) -> ~ In j (0 :: free')).
  { intros j J X. inversion ND; subst. inversion H3; subst. destruct X as [<-|X].
    - apply H4. apply in_app_iff. auto.
    - eapply nd_app_disj; eauto. }
  constructor.
  - rewrite L5. apply T.
  - rewrite handles_app, handles_cons. simpl. rewrite L5, <- (tk_all _ _ _ _ _ T).
    rewrite app_assoc. rewrite <- Permutation_cons_append. rewrite perm_swap. auto.
  - exact F5.
  - intros p I. apply in_app_iff in I. destruct I as [I|[<-|[]]].
    + eapply chain_ext; [| |apply (tk_lists _ _ _ _ _ T p I)].
      * intros z Z. assert (ZH := in_handles _ _ _ I Z). rewrite (proj1 (O5 z (OUT z ZH))). unfold a4. cbn [a_next].
        apply fupd_other. intros ->. auto.
      * intros z Z. assert (ZH := in_handles _ _ _ I Z). rewrite (proj2 (O5 z (OUT z ZH))). unfold a4. cbn [a_prev].
        apply fupd_other. intros ->. auto.
    + simpl. assert (NF : ~ In i (0 :: free')) by (intro X; apply NI; destruct X; simpl; auto; right; apply in_app_iff; auto).
      destruct (O5 i NF) as [-> ->]. unfold a4. cbn [a_next a_prev]. rewrite !fupd_same. auto.
  - intros p j w I J. rewrite W5. unfold a4. cbn [a_wk]. apply in_app_iff in I. destruct I as [I|[<-|[]]]; [|destruct J].
    eapply (tk_wk _ _ _ _ _ T); eauto.
  - intros j J. rewrite W5. unfold a4. cbn [a_wk]. apply (tk_dummy _ _ _ _ _ T). intro X. apply J.
    rewrite slots_app. apply in_app_iff. auto.
Qed.

Lemma lists_add_split S1 h l S2 i w : NoDup (handles (S1 ++ (h, l) :: S2)) ->
  lists_add h i w (S1 ++ (h, l) :: S2) = S1 ++ (h, l ++ [(i, w)]) :: S2.
Proof.
  intro ND. unfold lists_add. rewrite map_app. simpl. rewrite Nat.eqb_refl.
  assert (X : forall S0, (forall p, In p S0 -> In p (S1 ++ S2)) ->
    map (fun p => if fst p =? h then (fst p, snd p ++ [(i, w)]) else p) S0 = S0).
  { intros S0 I. rewrite <- (map_id S0) at 2. apply map_ext_in. intros p P.
    destruct (Nat.eqb_spec (fst p) h) as [E|]; auto. exfalso.
    eapply (other_list S1 h l S2 p (fst p) ND (I p P)); simpl; auto. }
  rewrite !X; auto; intros p P; apply in_app_iff; auto.
Qed.

Lemma add_ok a free S h : AInv a free S -> live_list h S ->
  exists a' i free', ar_add a h = Some (a', i) /\ ~ In i (handles S) /\ i <> 0 /\ AInv a' free' (lists_add h i dummy_waker S).
Proof.
  intros H LV. destruct (take_ok a free S H) as (a0 & i & fx & free' & E & T).
  destruct (live_split h S LV) as (S1 & l & S2 & ES).
  assert (ND := tk_nodup _ _ _ _ _ T).
  assert (NDH : NoDup (handles S)) by (inversion ND; subst; inversion H3; subst; eapply nd_app_r; eauto).
  unfold ar_add. rewrite E.
  assert (LI : i < a_len a0) by (apply (tk_in _ _ _ _ _ _ T); simpl; auto).
  assert (IHH : In h (handles S)) by (apply live_handles; auto).
  assert (LH : h < a_len a0) by (apply (tk_in _ _ _ _ _ _ T); right; right; apply in_app_iff; auto).
  assert (C : chain (a_next a0) (a_prev a0) h (map fst l) h).
  { apply (tk_lists _ _ _ _ _ T (h, l)). subst S. apply in_app_iff. simpl. auto. }
  assert (PH : a_prev a0 h = last (map fst l) h) by (eapply chain_prev; eauto).
  set (up := last (map fst l) h) in *.
  assert (UI : In up (h :: map fst l)) by apply last_in.
  assert (UH : In up (handles S)).
  { eapply (in_handles (h, l)); [|exact UI]. subst S. apply in_app_iff. simpl. auto. }
  assert (LU : up < a_len a0) by (apply (tk_in _ _ _ _ _ _ T); right; right; apply in_app_iff; auto).
  assert (NI : ~ In i (0 :: free' ++ handles S)) by (inversion ND; auto).
  assert (N1 : ~ In i (handles S)) by (intro X; apply NI; right; apply in_app_iff; auto).
  assert (N0 : i <> 0) by (intros ->; apply NI; simpl; auto).
  assert (NUI : i <> up) by (intro X; subst; auto).
  assert (NHI : i <> h) by (intro X; subst; auto).
  unfold get_prev, get_next, set_prev, set_next.
  bound (a_len a0) h ltac:(exact LH). cbn [a_len a_wk a_prev a_next]. rewrite PH.
  bound (a_len a0) up ltac:(exact LU). cbn [a_len a_wk a_prev a_next].
  bound (a_len a0) i ltac:(exact LI). cbn [a_len a_wk a_prev a_next].
  bound (a_len a0) i ltac:(exact LI). cbn [a_len a_wk a_prev a_next].
  bound (a_len a0) i ltac:(exact LI). cbn [a_len a_wk a_prev a_next].
  rewrite (fupd_other (a_prev a0)), (fupd_other (a_next a0)) by auto.
  set (a4 := mkA _ _ _ _).
  assert (OUT : forall j, In j (handles S) -> ~ In j (0 :: free')).
  { intros j J X. inversion ND; subst. inversion H3; subst. destruct X as [<-|X].
    - apply H4. apply in_app_iff. auto.
    - eapply nd_app_disj; eauto. }
  destruct (fix_ok a0 a4 i fx free' S T eq_refl) as (a5 & E5 & L5 & W5 & F5 & O5).
  { intros j J. assert (JI : j <> i).
    { intros ->. apply NI. destruct J as [->|J]; simpl; auto. right. apply in_app_iff; auto. }
    assert (JU : j <> up) by (intro X; apply (OUT j); [rewrite X; exact UH || exact IHH|exact J]).
    assert (JH : j <> h) by (intro X; apply (OUT j); [rewrite X; exact UH || exact IHH|exact J]).
    unfold a4. cbn [a_prev a_next]. rewrite !fupd_other by auto. split; auto. }
  rewrite E5. exists a5, i, free'. split; auto. split; auto. split; auto.
  assert (NF : ~ In i (0 :: free')) by (intro X; apply NI; destruct X; simpl; auto; right; apply in_app_iff; auto).
  subst S. rewrite lists_add_split by auto.
  assert (SL : forall j, In j (slots (S1 ++ (h, l ++ [(i, dummy_waker)]) :: S2)) <-> j = i \/ In j (slots (S1 ++ (h, l) :: S2))).
  { intro j. rewrite !slots_app, !slots_cons. simpl. rewrite map_app. simpl. rewrite !in_app_iff. simpl. intuition. }
  constructor.
  - rewrite L5. apply T.
  - rewrite L5, <- (tk_all _ _ _ _ _ T). rewrite !handles_app, !handles_cons. simpl. rewrite map_app. simpl.
    assert (X : forall A B C D : list nat, Permutation (A ++ B ++ h :: (C ++ [i]) ++ D) (i :: A ++ B ++ h :: C ++ D)).
    { clear. intros A B C D.
      replace (A ++ B ++ h :: (C ++ [i]) ++ D) with ((A ++ B ++ h :: C) ++ i :: D) by (repeat (rewrite <- app_assoc; simpl); auto).
      rewrite <- Permutation_middle. repeat (rewrite <- app_assoc; simpl). auto. }
    exact (X (0 :: free') (handles S1) (map fst l) (handles S2)).
  - exact F5.
  - intros p I. assert (I' : p = (h, l ++ [(i, dummy_waker)]) \/ In p (S1 ++ S2)).
    { apply in_app_iff in I. rewrite in_app_iff. simpl in I. intuition. }
    destruct I' as [->|I'].
    + simpl. rewrite map_app. simpl. apply chain_app.
      assert (NDL : NoDup (h :: map fst l)).
      { rewrite handles_app in NDH. apply nd_app_r in NDH. change (NoDup ((h :: map fst l) ++ handles S2)) in NDH. eapply nd_app_l; eauto. }
      assert (IN : forall z, In z (h :: map fst l) -> In z (handles (S1 ++ (h, l) :: S2))).
      { intros z Z. eapply (in_handles (h, l)); auto. apply in_app_iff. simpl. auto. }
      split.
      * eapply chain_ext; [| |eapply (chain_retarget (a_next a0) (a_prev a0) (map fst l) h h i NDL); [|exact C]].
        -- intros z Z. rewrite (proj1 (O5 z (OUT z (IN z Z)))). unfold a4. cbn [a_next].
           rewrite (fupd_other _ i); [reflexivity|]. intros ->. auto.
        -- intros z Z. destruct Z as [<-|Z].
           ++ rewrite (proj2 (O5 i NF)). unfold a4. cbn [a_prev]. rewrite !fupd_same. auto.
           ++ assert (ZH : In z (h :: map fst l)) by (right; auto). rewrite (proj2 (O5 z (OUT z (IN z ZH)))). unfold a4. cbn [a_prev].
              assert (z <> i) by (intros ->; auto). rewrite !(fupd_other _ i) by auto.
              apply fupd_other. intros ->. inversion NDL; auto.
        -- intro X. apply N1, IN. right. auto.
      * assert (HH : In h (h :: map fst l)) by (left; auto).
        simpl. rewrite (proj1 (O5 i NF)), (proj2 (O5 h (OUT h (IN h HH)))). unfold a4. cbn [a_prev a_next].
        rewrite fupd_same. rewrite fupd_other by auto. rewrite fupd_same. auto.
    + assert (IS : In p (S1 ++ (h, l) :: S2)) by (apply in_app_iff in I'; apply in_app_iff; simpl; intuition).
      assert (NOT : forall z, In z (fst p :: map fst (snd p)) -> z <> i /\ z <> up /\ z <> h).
      { intros z Z. repeat split; intros ->.
        - apply N1. eapply in_handles; eauto.
        - eapply other_list; eauto.
        - eapply other_list; eauto. simpl. auto. }
      eapply chain_ext; [| |apply (tk_lists _ _ _ _ _ T p IS)].
      * intros z Z. assert (ZH := in_handles _ _ _ IS Z). rewrite (proj1 (O5 z (OUT z ZH))). unfold a4. cbn [a_next].
        destruct (NOT z Z) as (A1 & A2 & A3). rewrite !fupd_other; auto.
      * intros z Z. assert (ZH := in_handles _ _ _ IS Z). rewrite (proj2 (O5 z (OUT z ZH))). unfold a4. cbn [a_prev].
        destruct (NOT z Z) as (A1 & A2 & A3). rewrite !fupd_other; auto.
  - intros p j w I J. rewrite W5. unfold a4. cbn [a_wk]. apply in_app_iff in I. destruct I as [I|[<-|I]].
    + eapply (tk_wk _ _ _ _ _ T); [|eauto]. apply in_app_iff; auto.
    + simpl in J. apply in_app_iff in J. destruct J as [J|[J|[]]].
      * eapply (tk_wk _ _ _ _ _ T (h, l)); [|eauto]. apply in_app_iff; simpl; auto.
      * inversion J; subst. unfold same_task. simpl. apply (tk_dummy _ _ _ _ _ T). intro X. apply N1. apply slots_handles; auto.
    + eapply (tk_wk _ _ _ _ _ T); [|eauto]. apply in_app_iff; simpl; auto.
  - intros j J. rewrite W5. unfold a4. cbn [a_wk]. apply (tk_dummy _ _ _ _ _ T). intro X. apply J. apply SL. auto.
Qed.


(** * removing *)
Lemma chain_unlink nx pv h l1 i l2 : NoDup (h :: l1 ++ i :: l2) -> chain nx pv h (l1 ++ i :: l2) h ->
  pv i = last l1 h /\ nx i = hd h l2 /\
  chain (fupd nx (last l1 h) (hd h l2)) (fupd pv (hd h l2) (last l1 h)) h (l1 ++ l2) h.
Proof.
  intros ND C. apply chain_app in C. destruct C as [C1 C2].
  split; [eapply chain_prev; eauto|]. split; [eapply chain_next; eauto|].
  assert (ND1 : NoDup (h :: l1)).
  { change (NoDup ((h :: l1) ++ i :: l2)) in ND. eapply nd_app_l; eauto. }
  destruct l2 as [|z t]; simpl hd.
  - rewrite app_nil_r. eapply chain_retarget; eauto. inversion ND1; auto.
  - apply chain_app. split.
    + eapply chain_retarget; eauto. intro X. change (NoDup ((h :: l1) ++ i :: z :: t)) in ND.
      eapply nd_app_disj; [exact ND| |]; [right; exact X|simpl; auto].
    + destruct C2 as (_ & _ & C2). change (NoDup ((h :: l1) ++ i :: z :: t)) in ND.
      assert (NDT : NoDup (z :: t)) by (apply nd_app_r in ND; inversion ND; auto).
      eapply chain_ext; [| |exact C2].
      * intros x X. apply fupd_other. intros ->.
        eapply nd_app_disj; [exact ND|apply (last_in l1 h)|]. simpl in X |- *. tauto.
      * intros x X. apply fupd_other. intros ->. destruct X as [X|X].
        -- subst z. change (NoDup ((h :: l1) ++ i :: h :: t)) in ND.
           eapply (nd_app_disj (h :: l1) (i :: h :: t) h ND); simpl; auto.
        -- inversion NDT; auto.
Qed.

Lemma lists_remove_split S1 h l1 i w l2 S2 : NoDup (handles (S1 ++ (h, l1 ++ (i, w) :: l2) :: S2)) ->
  lists_remove i (S1 ++ (h, l1 ++ (i, w) :: l2) :: S2) = S1 ++ (h, l1 ++ l2) :: S2.
Proof.
  intro ND. unfold lists_remove. rewrite map_app. simpl.
  assert (FK : forall l : list (nat * waker), ~ In i (map fst l) -> filter (fun q => negb (fst q =? i)) l = l).
  { induction l as [|q l IH]; simpl; intro N; auto. destruct (Nat.eqb_spec (fst q) i) as [E|]; simpl.
    - exfalso. auto. - f_equal. auto. }
  assert (X : forall S0, (forall p, In p S0 -> In p (S1 ++ S2)) ->
    map (fun p => (fst p, filter (fun q => negb (fst q =? i)) (snd p))) S0 = S0).
  { intros S0 I. rewrite <- (map_id S0) at 2. apply map_ext_in. intros [h' l'] P. simpl. f_equal. apply FK. intro Q.
    eapply (other_list S1 h (l1 ++ (i, w) :: l2) S2 (h', l') i ND (I _ P)); simpl; auto.
    right. rewrite map_app. apply in_app_iff. simpl. auto. }
  rewrite !X by (intros p P; apply in_app_iff; auto). f_equal. f_equal. f_equal.
  rewrite filter_app. simpl. rewrite Nat.eqb_refl. simpl.
  rewrite handles_app, handles_cons in ND. apply nd_app_r in ND. simpl in ND.
  inversion ND; subst. apply nd_app_l in H2. rewrite map_app in H2. simpl in H2.
  rewrite !FK; auto.
  - apply NoDup_remove_2 in H2. intro; apply H2; apply in_app_iff; auto.
  - apply NoDup_remove_2 in H2. intro; apply H2; apply in_app_iff; auto.
Qed.

Lemma remove_ok a free S i : AInv a free S -> live_slot i S ->
  exists a', ar_remove a i = Some a' /\ AInv a' (i :: free) (lists_remove i S).
Proof.
  intros H LV. destruct (slot_split i S LV) as (S1 & h & l1 & w & l2 & S2 & ES).
  assert (ND := ai_nodup _ _ _ H). assert (T := ai_two _ _ _ H).
  assert (NDH : NoDup (handles S)) by (inversion ND; subst; eapply nd_app_r; eauto).
  assert (IP : In (h, l1 ++ (i, w) :: l2) S) by (subst S; apply in_app_iff; simpl; auto).
  assert (C := ai_lists _ _ _ H _ IP). simpl in C. rewrite map_app in C. simpl in C.
  assert (NDL : NoDup (h :: map fst l1 ++ i :: map fst l2)).
  { subst S. rewrite handles_app, handles_cons in NDH. apply nd_app_r in NDH. simpl in NDH. rewrite map_app in NDH. simpl in NDH.
    change (NoDup ((h :: map fst l1 ++ i :: map fst l2) ++ handles S2)) in NDH. eapply nd_app_l; eauto. }
  assert (INH : forall z, In z (h :: map fst l1 ++ i :: map fst l2) -> In z (handles S)).
  { intros z Z. eapply in_handles; [exact IP|]. simpl. rewrite map_app. simpl. exact Z. }
  destruct (chain_unlink _ _ _ _ _ _ NDL C) as (PI & NI & CU).
  set (up := last (map fst l1) h) in *. set (un := hd h (map fst l2)) in *.
  assert (UPI : In up (h :: map fst l1)) by apply last_in.
  assert (UNI : In un (h :: map fst l2)) by apply hd_in.
  assert (UPH : In up (handles S)). { apply INH. destruct UPI as [X|X]; [left; auto|right; apply in_app_iff; auto]. }
  assert (UNH : In un (handles S)). { apply INH. destruct UNI as [X|X]; [left; auto|right; apply in_app_iff; simpl; auto]. }
  assert (IH : In i (handles S)). { apply INH. right. apply in_app_iff. simpl. auto. }
  assert (LT : forall j, In j (handles S) -> j < a_len a).
  { intros j J. apply (ai_in _ _ _ j H). right. apply in_app_iff. auto. }
  assert (OUT : forall j, In j (handles S) -> ~ In j (0 :: free)).
  { intros j J X. inversion ND; subst. destruct X as [<-|X].
    - apply H2. apply in_app_iff. auto. - eapply nd_app_disj; eauto. }
  assert (ofnI := hd_in free 0). set (ofn := hd 0 free) in *.
  assert (NF : a_next a 0 = ofn) by (eapply chain_next; apply (ai_free _ _ _ H)).
  assert (LO : ofn < a_len a).
  { apply (ai_in _ _ _ ofn H). destruct ofnI as [X|X]; [left; auto|right; apply in_app_iff; auto]. }
  assert (NIU : i <> up). { intro X. apply NoDup_remove_2 with (l := h :: map fst l1) (l' := map fst l2) in NDL.
    apply NDL. apply in_app_iff. left. rewrite X. exact UPI. }
  assert (NIN : i <> un). { intro X. apply NoDup_remove_2 with (l := h :: map fst l1) (l' := map fst l2) in NDL.
    apply NDL. rewrite X. destruct UNI as [Y|Y]; [left; auto|apply in_app_iff; auto]. }
  assert (DO : forall j, In j (handles S) -> j <> ofn /\ j <> 0).
  { intros j J. split; intro X; apply (OUT j J); [rewrite X; exact ofnI|left; auto]. }
  unfold ar_remove, get_prev, get_next, set_prev, set_next, set_wk.
  bound (a_len a) 0 lia. cbn [a_len a_wk a_prev a_next]. rewrite NF.
  bound (a_len a) ofn ltac:(exact LO). cbn [a_len a_wk a_prev a_next].
  bound (a_len a) i ltac:(apply LT; exact IH). cbn [a_len a_wk a_prev a_next].
  bound (a_len a) i ltac:(apply LT; exact IH). cbn [a_len a_wk a_prev a_next].
  bound (a_len a) i ltac:(apply LT; exact IH). cbn [a_len a_wk a_prev a_next].
  rewrite (fupd_other (a_prev a)), (fupd_other (a_next a)) by (apply DO; auto). rewrite PI, NI.
  bound (a_len a) up ltac:(apply LT; exact UPH). cbn [a_len a_wk a_prev a_next].
  bound (a_len a) un ltac:(apply LT; exact UNH). cbn [a_len a_wk a_prev a_next].
  eexists. split; [reflexivity|]. subst S. rewrite lists_remove_split by auto.
  assert (SL : forall j, In j (slots (S1 ++ (h, l1 ++ (i, w) :: l2) :: S2)) -> j = i \/ In j (slots (S1 ++ (h, l1 ++ l2) :: S2))).
  { intro j. rewrite !slots_app, !slots_cons. simpl. rewrite !map_app. simpl. rewrite !in_app_iff. simpl. intuition. }
  constructor; cbn [a_len a_wk a_prev a_next].
  - exact T.
  - rewrite <- (ai_all _ _ _ H). simpl. apply perm_skip. rewrite !handles_app, !handles_cons. simpl. rewrite !map_app. simpl.
    assert (X : forall A B C1 C2 D : list nat, Permutation (i :: A ++ B ++ h :: (C1 ++ C2) ++ D) (A ++ B ++ h :: (C1 ++ i :: C2) ++ D)).
    { clear. intros A B C1 C2 D.
      replace (A ++ B ++ h :: (C1 ++ i :: C2) ++ D) with ((A ++ B ++ h :: C1) ++ i :: C2 ++ D) by (repeat (rewrite <- app_assoc; simpl); auto).
      rewrite <- (Permutation_middle (A ++ B ++ h :: C1) (C2 ++ D) i). repeat (rewrite <- app_assoc; simpl). auto. }
    apply X.
  - assert (U0 : 0 <> up) by (intro X; destruct (DO up UPH); auto).
    assert (I0 : i <> 0) by (apply DO; auto).
    cbn [chain]. rewrite (fupd_other _ up), (fupd_other _ i), fupd_same by auto. split; auto.
    rewrite (fupd_other _ un), fupd_same by auto. split; auto.
    assert (ND0 : NoDup (0 :: free)).
    { change (NoDup ((0 :: free) ++ handles (S1 ++ (h, l1 ++ (i, w) :: l2) :: S2))) in ND. eapply nd_app_l; eauto. }
    assert (CR := chain_restart _ _ free 0 i 0 ND0 ltac:(intro X; apply (OUT i IH); right; exact X) (ai_free _ _ _ H)).
    eapply chain_ext; [| |exact CR]; fold ofn.
    + intros z Z. destruct Z as [<-|Z].
      * rewrite (fupd_other _ up) by auto. rewrite !fupd_same. auto.
      * assert (Z0 : In z (0 :: free)) by (right; auto).
        rewrite (fupd_other _ up) by (intro XX; apply (OUT z); [rewrite XX; assumption|assumption]).
        assert (z <> i) by (intro XX; apply (OUT z); [rewrite XX; assumption|assumption]).
        rewrite !(fupd_other _ i) by auto. apply fupd_other. intros ->. inversion ND0; auto.
    + intros z Z. rewrite (fupd_other _ un) by (intro XX; apply (OUT z); [rewrite XX; assumption|assumption]).
      rewrite (fupd_other _ i) by (intro XX; apply (OUT z); [rewrite XX; assumption|assumption]). auto.
  - intros p I. assert (I' : p = (h, l1 ++ l2) \/ In p (S1 ++ S2)).
    { apply in_app_iff in I. rewrite in_app_iff. simpl in I. intuition. }
    destruct I' as [->|I'].
    + simpl. rewrite map_app.
      assert (ZZ : forall z, In z (h :: map fst l1 ++ map fst l2) -> z <> i /\ z <> ofn /\ z <> 0).
      { intros z Z. split.
        - intros ->. apply NoDup_remove_2 with (l := h :: map fst l1) (l' := map fst l2) in NDL. auto.
        - apply DO, INH. destruct Z as [Z|Z]; [left; auto|right]. apply in_app_iff in Z. apply in_app_iff. simpl. tauto. }
      eapply chain_ext; [| |exact CU].
      * intros z Z. destruct (ZZ z Z) as (A1 & A2 & A3). unfold fupd at 1 4. destruct (z =? up); auto. rewrite !fupd_other; auto.
      * intros z Z. destruct (ZZ z Z) as (A1 & A2 & A3). unfold fupd at 1 4. destruct (z =? un); auto. rewrite !fupd_other; auto.
    + assert (IS : In p (S1 ++ (h, l1 ++ (i, w) :: l2) :: S2)) by (apply in_app_iff in I'; apply in_app_iff; simpl; intuition).
      assert (NOT : forall z, In z (fst p :: map fst (snd p)) -> z <> i /\ z <> up /\ z <> un /\ z <> ofn /\ z <> 0).
      { intros z Z. assert (ZH := in_handles _ _ _ IS Z).
        assert (Y : forall x, In x (h :: map fst l1 ++ i :: map fst l2) -> z <> x).
        { intros x X ->. eapply (other_list S1 h (l1 ++ (i, w) :: l2) S2 p x NDH); auto. simpl. rewrite map_app. exact X. }
        split; [apply Y; right; apply in_app_iff; simpl; auto|]. split; [apply Y; destruct UPI; [left; auto|right; apply in_app_iff; auto]|].
        split; [apply Y; destruct UNI; [left; auto|right; apply in_app_iff; simpl; auto]|]. apply DO; auto. }
      eapply chain_ext; [| |apply (ai_lists _ _ _ H p IS)]; intros z Z; destruct (NOT z Z) as (A1 & A2 & A3 & A4 & A5); rewrite !fupd_other; auto.
  - intros p j w' I J. assert (I' : (exists l', p = (h, l1 ++ l2) /\ In (j, w') l' /\ l' = l1 ++ l2) \/ In p (S1 ++ S2)).
    { apply in_app_iff in I. rewrite in_app_iff. simpl in I. destruct I as [I|[<-|I]]; auto. left. exists (l1 ++ l2). auto. }
    assert (NJ : j <> i).
    { intros ->. destruct I' as [(l' & -> & J' & ->)|I'].
      - apply NoDup_remove_2 with (l := h :: map fst l1) (l' := map fst l2) in NDL. apply NDL. right.
        rewrite <- map_app. apply in_map_iff. exists (i, w'). auto.
      - eapply (other_list S1 h (l1 ++ (i, w) :: l2) S2 p i NDH); auto; right.
        + apply in_map_iff. exists (i, w'). auto.
        + rewrite map_app. apply in_app_iff. simpl. auto. }
    rewrite fupd_other by auto. destruct I' as [(l' & -> & J' & ->)|I'].
    + eapply (ai_wk _ _ _ H (h, l1 ++ (i, w) :: l2)); auto. simpl. apply in_app_iff in J'. apply in_app_iff. simpl. tauto.
    + eapply (ai_wk _ _ _ H p); auto. apply in_app_iff in I'. apply in_app_iff. simpl. tauto.
  - intros j J. unfold fupd. destruct (Nat.eqb_spec j i); auto. apply (ai_dummy _ _ _ H). intro X. apply SL in X. tauto.
Qed.

Lemma lists_set_split S1 h l1 i w l2 S2 w' : NoDup (handles (S1 ++ (h, l1 ++ (i, w) :: l2) :: S2)) ->
  lists_set i w' (S1 ++ (h, l1 ++ (i, w) :: l2) :: S2) = S1 ++ (h, l1 ++ (i, w') :: l2) :: S2.
Proof.
  intro ND. unfold lists_set. rewrite map_app. simpl.
  assert (FK : forall l : list (nat * waker), ~ In i (map fst l) -> map (fun q => if fst q =? i then (i, w') else q) l = l).
  { induction l as [|q l IH]; simpl; intro N; auto. destruct (Nat.eqb_spec (fst q) i) as [E|]; simpl.
    - exfalso. auto. - f_equal. auto. }
  assert (X : forall S0, (forall p, In p S0 -> In p (S1 ++ S2)) ->
    map (fun p => (fst p, map (fun q => if fst q =? i then (i, w') else q) (snd p))) S0 = S0).
  { intros S0 I. rewrite <- (map_id S0) at 2. apply map_ext_in. intros [h' l'] P. simpl. f_equal. apply FK. intro Q.
    eapply (other_list S1 h (l1 ++ (i, w) :: l2) S2 (h', l') i ND (I _ P)); simpl; auto.
    right. rewrite map_app. apply in_app_iff. simpl. auto. }
  rewrite !X by (intros p P; apply in_app_iff; auto). f_equal. f_equal. f_equal.
  rewrite map_app. simpl. rewrite Nat.eqb_refl.
  rewrite handles_app, handles_cons in ND. apply nd_app_r in ND. simpl in ND.
  inversion ND; subst. apply nd_app_l in H2. rewrite map_app in H2. simpl in H2.
  rewrite !FK; auto.
  - apply NoDup_remove_2 in H2. intro; apply H2; apply in_app_iff; auto.
  - apply NoDup_remove_2 in H2. intro; apply H2; apply in_app_iff; auto.
Qed.

Lemma update_ok ww a free S i w' : will_wake_ok ww -> AInv a free S -> live_slot i S ->
  exists a', ar_update ww a i w' = Some a' /\ AInv a' free (lists_set i w' S).
Proof.
  intros WW H LV. destruct (slot_split i S LV) as (S1 & h & l1 & w & l2 & S2 & ES).
  assert (ND := ai_nodup _ _ _ H).
  assert (NDH : NoDup (handles S)) by (inversion ND; subst; eapply nd_app_r; eauto).
  assert (LI : i < a_len a). { apply (ai_in _ _ _ i H). right. apply in_app_iff. right. apply slots_handles. exact LV. }
  assert (X : exists a', ar_update ww a i w' = Some a' /\ a_len a' = a_len a /\ a_next a' = a_next a /\ a_prev a' = a_prev a /\
    same_task (a_wk a' i) w' /\ forall j, j <> i -> a_wk a' j = a_wk a j).
  { unfold ar_update, get_wk, set_wk. bound (a_len a) i ltac:(exact LI). destruct (ww (a_wk a i) w') eqn:E.
    - assert (ST : same_task (a_wk a i) w') by (apply WW; exact E). exists a. auto 10.
    - eexists. split; [reflexivity|]. cbn [a_len a_wk a_prev a_next]. split; auto. split; auto. split; auto. split.
      + red. rewrite fupd_same. auto.
      + intros. apply fupd_other; auto. }
  destruct X as (a' & E & A1 & A2 & A3 & A4 & A5). exists a'. split; auto. subst S. rewrite lists_set_split by auto.
  assert (HE : handles (S1 ++ (h, l1 ++ (i, w') :: l2) :: S2) = handles (S1 ++ (h, l1 ++ (i, w) :: l2) :: S2)).
  { rewrite !handles_app, !handles_cons. simpl. rewrite !map_app. auto. }
  assert (SE : slots (S1 ++ (h, l1 ++ (i, w') :: l2) :: S2) = slots (S1 ++ (h, l1 ++ (i, w) :: l2) :: S2)).
  { rewrite !slots_app, !slots_cons. simpl. rewrite !map_app. auto. }
  assert (NDL : NoDup (h :: map fst l1 ++ i :: map fst l2)).
  { rewrite handles_app, handles_cons in NDH. apply nd_app_r in NDH. simpl in NDH. rewrite map_app in NDH. simpl in NDH.
    change (NoDup ((h :: map fst l1 ++ i :: map fst l2) ++ handles S2)) in NDH. eapply nd_app_l; eauto. }
  constructor.
  - rewrite A1. apply H.
  - rewrite A1, HE. apply H.
  - rewrite A2, A3. apply H.
  - rewrite A2, A3. intros p I. apply in_app_iff in I. destruct I as [I|[<-|I]].
    + apply (ai_lists _ _ _ H). apply in_app_iff. auto.
    + assert (C := ai_lists _ _ _ H (h, l1 ++ (i, w) :: l2)). simpl in C |- *. rewrite map_app in C |- *. simpl in C |- *.
      apply C. apply in_app_iff. simpl. auto.
    + apply (ai_lists _ _ _ H). apply in_app_iff. simpl. auto.
  - intros p j wj I J. assert (I' : p = (h, l1 ++ (i, w') :: l2) \/ In p (S1 ++ S2)).
    { apply in_app_iff in I. rewrite in_app_iff. simpl in I. intuition. }
    destruct I' as [->|I'].
    + simpl in J. apply in_app_iff in J. simpl in J. apply NoDup_remove_2 with (l := h :: map fst l1) (l' := map fst l2) in NDL.
      destruct J as [J|[J|J]].
      * assert (j <> i). { intros ->. apply NDL. right. apply in_app_iff. left. apply in_map_iff. exists (i, wj); auto. }
        rewrite A5 by auto. eapply (ai_wk _ _ _ H (h, l1 ++ (i, w) :: l2)); [apply in_app_iff; simpl; auto|].
        simpl. apply in_app_iff. auto.
      * inversion J; subst. auto.
      * assert (j <> i). { intros ->. apply NDL. right. apply in_app_iff. right. apply in_map_iff. exists (i, wj); auto. }
        rewrite A5 by auto. eapply (ai_wk _ _ _ H (h, l1 ++ (i, w) :: l2)); [apply in_app_iff; simpl; auto|].
        simpl. apply in_app_iff. simpl. auto.
    + assert (j <> i). { intros ->. eapply (other_list S1 h (l1 ++ (i, w) :: l2) S2 p i NDH); auto; right.
        + apply in_map_iff. exists (i, wj). auto.
        + rewrite map_app. apply in_app_iff. simpl. auto. }
      rewrite A5 by auto. eapply (ai_wk _ _ _ H p); auto. apply in_app_iff in I'. apply in_app_iff. simpl. tauto.
  - intros j J. rewrite SE in J. destruct (Nat.eq_dec j i) as [->|N].
    + exfalso. apply J. exact LV.
    + rewrite A5 by auto. apply (ai_dummy _ _ _ H). auto.
Qed.

Lemma lists_del_split S1 h l S2 : NoDup (handles (S1 ++ (h, l) :: S2)) ->
  lists_del h (S1 ++ (h, l) :: S2) = S1 ++ S2.
Proof.
  intro ND. unfold lists_del. rewrite filter_app. simpl. rewrite Nat.eqb_refl. simpl.
  assert (X : forall S0, (forall p, In p S0 -> In p (S1 ++ S2)) -> filter (fun p : nat * list (nat * waker) => negb (fst p =? h)) S0 = S0).
  { induction S0 as [|p S0 IH]; intro I; simpl; auto. destruct (Nat.eqb_spec (fst p) h) as [E|]; simpl.
    - exfalso. eapply (other_list S1 h l S2 p (fst p) ND); simpl; auto. apply I. simpl. auto.
    - f_equal. apply IH. intros. apply I. simpl. auto. }
  rewrite !X by (intros p P; apply in_app_iff; auto). auto.
Qed.

Lemma remove_sublist_ok a free S1 h l S2 : AInv a free (S1 ++ (h, l) :: S2) ->
  (l <> [] -> ar_remove_sublist a h = Some (a, false)) /\
  (l = [] -> exists a', ar_remove_sublist a h = Some (a', true) /\ AInv a' (h :: free) (S1 ++ S2)).
Proof.
  intro H. assert (ND := ai_nodup _ _ _ H). assert (T := ai_two _ _ _ H).
  assert (IP : In (h, l) (S1 ++ (h, l) :: S2)) by (apply in_app_iff; simpl; auto).
  assert (C := ai_lists _ _ _ H _ IP). simpl in C.
  assert (NDH : NoDup (handles (S1 ++ (h, l) :: S2))) by (inversion ND; subst; eapply nd_app_r; eauto).
  assert (HH : In h (handles (S1 ++ (h, l) :: S2))) by (eapply (in_handles _ _ h IP); simpl; auto).
  assert (LH : h < a_len a) by (apply (ai_in _ _ _ h H); right; apply in_app_iff; auto).
  unfold ar_remove_sublist, get_next, set_prev, set_next. bound (a_len a) h ltac:(exact LH). split; intro NE.
  - destruct l as [|[i w] t]; [congruence|]. destruct C as (C & _). simpl in C. rewrite C.
    destruct (Nat.eqb_spec i h) as [->|]; auto. exfalso.
    rewrite handles_app, handles_cons in NDH. apply nd_app_r in NDH. simpl in NDH. inversion NDH; subst. apply H2. simpl. auto.
  - subst l. destruct C as (C & _). rewrite C, Nat.eqb_refl.
    assert (ofnI := hd_in free 0). set (ofn := hd 0 free) in *.
    assert (NF : a_next a 0 = ofn) by (eapply chain_next; apply (ai_free _ _ _ H)).
    assert (LO : ofn < a_len a).
    { apply (ai_in _ _ _ ofn H). destruct ofnI as [X|X]; [left; auto|right; apply in_app_iff; auto]. }
    assert (OUT : forall j, In j (handles (S1 ++ (h, []) :: S2)) -> ~ In j (0 :: free)).
    { intros j J X. inversion ND; subst. destruct X as [<-|X].
      - apply H2. apply in_app_iff. auto. - eapply nd_app_disj; eauto. }
    assert (HO : h <> ofn) by (intro X; apply (OUT h HH); rewrite X; auto).
    assert (H0 : h <> 0) by (intro X; apply (OUT h HH); left; auto).
    cbn [a_len a_wk a_prev a_next]. bound (a_len a) 0 lia. cbn [a_len a_wk a_prev a_next]. rewrite NF.
    bound (a_len a) ofn ltac:(exact LO). cbn [a_len a_wk a_prev a_next].
    bound (a_len a) h ltac:(exact LH). eexists. split; [reflexivity|].
    assert (HS : forall j, In j (handles (S1 ++ S2)) -> In j (handles (S1 ++ (h, []) :: S2)) /\ j <> h).
    { intros j J. rewrite handles_app, handles_cons in *. simpl in *. split; [apply in_app_iff in J; apply in_app_iff; simpl; tauto|].
      intros ->. apply NoDup_remove_2 in NDH. auto. }
    constructor; cbn [a_len a_wk a_prev a_next].
    + exact T.
    + rewrite <- (ai_all _ _ _ H). simpl. apply perm_skip. rewrite !handles_app, handles_cons. simpl.
      rewrite !app_assoc. apply Permutation_middle.
    + assert (ND0 : NoDup (0 :: free)).
      { change (NoDup ((0 :: free) ++ handles (S1 ++ (h, []) :: S2))) in ND. eapply nd_app_l; eauto. }
      cbn [chain]. rewrite (fupd_other _ h), fupd_same by auto. split; auto.
      rewrite (fupd_other _ ofn), fupd_same by auto. split; auto.
      assert (CR := chain_restart _ _ free 0 h 0 ND0 ltac:(intro X; apply (OUT h HH); right; exact X) (ai_free _ _ _ H)).
      eapply chain_ext; [| |exact CR]; fold ofn.
      * intros z Z. unfold fupd at 1 3. destruct (z =? h) eqn:E; auto. apply fupd_other.
        destruct Z as [<-|Z]; [rewrite Nat.eqb_refl in E; discriminate|]. intros ->. inversion ND0; auto.
      * intros z Z. unfold fupd at 1 3. destruct (z =? ofn) eqn:E; auto. apply fupd_other. intros ->. apply (OUT h HH). exact Z.
    + intros p I. assert (IS : In p (S1 ++ (h, []) :: S2)) by (apply in_app_iff in I; apply in_app_iff; simpl; tauto).
      eapply chain_ext; [| |apply (ai_lists _ _ _ H p IS)]; intros z Z;
        destruct (HS z (in_handles _ _ _ I Z)) as (A1 & A2);
        assert (Z0 : z <> 0) by (intro XX; apply (OUT z A1); left; auto);
        assert (ZO : z <> ofn) by (intro XX; apply (OUT z A1); rewrite XX; auto);
        rewrite !fupd_other; auto.
    + intros p j w I J. assert (IS : In p (S1 ++ (h, []) :: S2)) by (apply in_app_iff in I; apply in_app_iff; simpl; tauto).
      eapply (ai_wk _ _ _ H p); auto.
    + intros j J. apply (ai_dummy _ _ _ H). rewrite slots_app, slots_cons in *. simpl. auto.
Qed.

(** * iterating *)
Lemma iter_from_ok a h : forall (l : list (nat * waker)) x fuel, chain (a_next a) (a_prev a) x (map fst l) h ->
  length l < fuel -> ~ In h (map fst l) -> (forall i, In i (map fst l) -> i < a_len a) ->
  ar_iter_from fuel a h (a_next a x) = Some (map (fun q => a_wk a (fst q)) l).
Proof.
  induction l as [|[i w] t IH]; intros x fuel C L NI LT; destruct fuel as [|fuel]; simpl in L; try lia.
  - destruct C as (C & _). simpl. rewrite C, Nat.eqb_refl. auto.
  - simpl in C. destruct C as (C & _ & C'). rewrite C. simpl. simpl in NI, LT.
    destruct (Nat.eqb_spec i h) as [->|]; [exfalso; auto|]. unfold get_wk, get_next.
    bound (a_len a) i ltac:(apply LT; auto). rewrite (IH i fuel); auto. lia.
Qed.
Lemma iter_ok a free S h l : AInv a free S -> In (h, l) S ->
  exists ws, ar_iter a h = Some ws /\ Forall2 same_task ws (map snd l).
Proof.
  intros H I. assert (ND := ai_nodup _ _ _ H).
  assert (LT : forall j, In j (h :: map fst l) -> j < a_len a).
  { intros j J. apply (ai_in _ _ _ j H). right. apply in_app_iff. right. eapply in_handles; eauto. }
  assert (NDL : NoDup (h :: map fst l)).
  { apply in_split in I. destruct I as (S1 & S2 & ->). inversion ND; subst. apply nd_app_r in H3.
    rewrite handles_app, handles_cons in H3. apply nd_app_r in H3. simpl in H3.
    change (NoDup ((h :: map fst l) ++ handles S2)) in H3. eapply nd_app_l; eauto. }
  unfold ar_iter, get_next. bound (a_len a) h ltac:(apply LT; simpl; auto).
  rewrite (iter_from_ok a h l h).
  - eexists. split; [reflexivity|].
    assert (X : forall l0, (forall q, In q l0 -> In q l) -> Forall2 same_task (map (fun q => a_wk a (fst q)) l0) (map snd l0)).
    { induction l0 as [|[i w] t IH]; intro Q; simpl; constructor.
      - eapply (ai_wk _ _ _ H (h, l)); auto. apply Q. simpl. auto.
      - apply IH. intros. apply Q. simpl. auto. }
    apply X. auto.
  - apply (ai_lists _ _ _ H (h, l) I).
  - assert (X : length (map fst l) <= length (seq 0 (a_len a))).
    { apply NoDup_incl_length; [inversion NDL; auto|]. intros j J. apply in_seq. specialize (LT j). simpl in LT. intuition lia. }
    rewrite map_length, seq_length in X. lia.
  - inversion NDL; auto.
  - intros. apply LT. simpl. auto.
Qed.

Lemma history_inv ww a S : will_wake_ok ww -> history ww a S -> exists free, AInv a free S.
Proof.
  intros WW H. induction H.
  - exists [1]. apply ar_new_inv.
  - destruct IHhistory as (free & I). destruct (add_sublist_ok a free S I) as (a1 & h1 & f1 & E & _ & _ & I1).
    rewrite E in H0. inversion H0; subst. eauto.
  - destruct IHhistory as (free & I). destruct (add_ok a free S h I H0) as (a1 & h1 & f1 & E & _ & _ & I1).
    rewrite E in H1. inversion H1; subst. eauto.
  - destruct IHhistory as (free & I). destruct (update_ok ww a free S i w WW I H0) as (a1 & E & I1).
    rewrite E in H1. inversion H1; subst. eauto.
  - destruct IHhistory as (free & I). destruct (remove_ok a free S i I H0) as (a1 & E & I1).
    rewrite E in H1. inversion H1; subst. eauto.
  - destruct IHhistory as (free & I). destruct (live_split h S H0) as (S1 & l & S2 & ->).
    destruct (remove_sublist_ok a free S1 h l S2 I) as [A B]. destruct l as [|q l].
    + destruct (B eq_refl) as (a1 & E & _). rewrite E in H1. discriminate.
    + rewrite (A ltac:(discriminate)) in H1. inversion H1; subst. eauto.
  - destruct IHhistory as (free & I). destruct (live_split h S H0) as (S1 & l & S2 & ->).
    assert (ND := ai_nodup _ _ _ I). rewrite lists_del_split by (inversion ND; subst; eapply nd_app_r; eauto).
    destruct (remove_sublist_ok a free S1 h l S2 I) as [A B]. destruct l as [|q l].
    + destruct (B eq_refl) as (a1 & E & I1). rewrite E in H1. inversion H1; subst. eauto.
    + rewrite (A ltac:(discriminate)) in H1. discriminate.
Qed.
