From Coq Require Import List Arith Bool Permutation Lia.
From Verif Require Import Util Spec_list DynList DynList_proofs DynList_run_proofs Calls Calls_proofs
  List_lemmas Modeled Spec_modeled.
Import ListNotations.

(** ** vectors *)
Lemma nth_ext {A} (a b : list A) : (forall i, nth_error a i = nth_error b i) -> a = b.
Proof.
  revert b. induction a as [|x a IH]; intros [|y b] H; auto.
  - specialize (H 0). discriminate.
  - specialize (H 0). discriminate.
  - assert (E := H 0). simpl in E. inversion E; subst. f_equal. apply IH. intro i. apply (H (S i)).
Qed.
Lemma nth_split_at {A} (v : list A) i x : nth_error v i = Some x ->
  v = firstn i v ++ x :: skipn (S i) v /\ length (firstn i v) = i.
Proof.
  revert i. induction v as [|y v IH]; intros [|i] H; simpl in *; try discriminate.
  - inversion H; subst; auto.
  - destruct (IH _ H) as [E L]. split; [f_equal; exact E|auto].
Qed.
Lemma v_set_nth v : forall i k j, i < length v ->
  nth_error (v_set i k v) j = if Nat.eqb j i then Some k else nth_error v j.
Proof.
  induction v as [|x v IH]; intros i k j H; simpl in H; [lia|].
  destruct i as [|i]; destruct j as [|j]; simpl; auto. apply IH. lia.
Qed.
Lemma v_set_length v : forall i k, length (v_set i k v) = length v.
Proof. induction v as [|x v IH]; intros [|i] k; simpl; auto. Qed.

Lemma nodup_nth (v : list nat) i j x : NoDup v -> nth_error v i = Some x -> nth_error v j = Some x -> i = j.
Proof.
  intros ND H1 H2. apply (proj1 (NoDup_nth_error v) ND).
  - apply nth_error_Some. congruence.
  - congruence.
Qed.

Lemma v_insert_spec i k v : i <= length v -> NoDup (v_insert i k v) ->
  memb k v = false /\ l_insert k (nth_error v i) v = v_insert i k v /\
  ref_known (nth_error v i) v = true.
Proof.
  intros L ND.
  assert (NK : ~ In k v).
  { intro H. unfold v_insert in ND. rewrite <- (firstn_skipn i v) in H.
    apply NoDup_remove_2 in ND. auto. }
  split; [apply memb_false; auto|]. split.
  - unfold v_insert. destruct (nth_error v i) as [b|] eqn:E.
    + destruct (nth_split_at _ _ _ E) as [S0 _].
      assert (B : b <> k) by (intros ->; apply NK, (nth_error_In _ _ E)).
      unfold l_insert. rewrite (proj2 (Nat.eqb_neq b k) B), l_remove_notin by auto.
      assert (SK : skipn i v = b :: skipn (S i) v).
      { rewrite <- (firstn_skipn i v) in S0 at 1. apply app_inv_head in S0. auto. }
      rewrite SK. rewrite S0 at 1. rewrite l_before_at; auto.
      unfold v_insert in ND. rewrite SK in ND.
      intro X. apply NoDup_remove_1 in ND. apply NoDup_remove_2 in ND. apply ND. apply in_app_iff; auto.
    + apply nth_error_None in E. assert (i = length v) by lia. subst i.
      rewrite firstn_all, skipn_all. unfold l_insert. rewrite l_remove_notin; auto.
  - destruct (nth_error v i) as [b|] eqn:E; auto. apply memb_iff. eapply nth_error_In; eauto.
Qed.

Lemma v_remove_spec i k v : NoDup v -> nth_error v i = Some k -> l_remove k v = v_remove i v /\ memb k v = true.
Proof.
  intros ND E. split; [|apply memb_iff; eapply nth_error_In; eauto].
  destruct (nth_split_at _ _ _ E) as [S0 _]. unfold v_remove.
  assert (ND' := ND). rewrite S0 in ND'. apply NoDup_remove_2 in ND'.
  rewrite S0 at 1. rewrite l_remove_app, l_remove_cons_same.
  rewrite !l_remove_notin; auto; intro X; apply ND'; apply in_app_iff; auto.
Qed.

Lemma v_swap_spec a b x y v : NoDup v -> nth_error v a = Some x -> nth_error v b = Some y ->
  l_swap x y v = v_set b x (v_set a y v).
Proof.
  intros ND A B. assert (LA : a < length v) by (apply nth_error_Some; congruence).
  assert (LB : b < length v) by (apply nth_error_Some; congruence).
  apply nth_ext. intro i. rewrite v_set_nth by (rewrite v_set_length; auto). rewrite v_set_nth by auto.
  unfold l_swap. rewrite nth_error_map.
  destruct (Nat.eqb_spec i b) as [->|NB].
  - rewrite B. simpl. destruct (Nat.eqb_spec y x) as [->|N]; auto. rewrite Nat.eqb_refl. auto.
  - destruct (Nat.eqb_spec i a) as [->|NA].
    + rewrite A. simpl. rewrite Nat.eqb_refl. auto.
    + destruct (nth_error v i) as [z|] eqn:E; auto. simpl.
      destruct (Nat.eqb_spec z x) as [->|]; [exfalso; apply NA; eapply nodup_nth; eauto|].
      destruct (Nat.eqb_spec z y) as [->|]; [exfalso; apply NB; eapply nodup_nth; eauto|]. auto.
Qed.
Lemma v_swap_adjacent a b x y v : NoDup v -> nth_error v a = Some x -> nth_error v b = Some y ->
  b <> S a -> adjacentb x y v = false.
Proof.
  intros ND A B N. destruct (adjacentb x y v) eqn:E; auto. exfalso.
  apply adjacentb_iff in E as (l1 & l2 & ->).
  assert (a = length l1).
  { eapply nodup_nth; eauto. rewrite nth_error_app2, Nat.sub_diag; auto. }
  assert (b = S (length l1)).
  { eapply nodup_nth; eauto. rewrite nth_error_app2 by lia. replace (S (length l1) - length l1) with 1 by lia. auto. }
  lia.
Qed.

(** the result of [move_item] *)
Definition moved (from to : nat) (v : list key) : list key :=
  let low := Nat.min from to in
  let high := Nat.max from to in
  let slice := firstn (S high - low) (skipn low v) in
  let slice' := match Nat.compare from to with
                | Lt => rotate_left1 slice
                | Gt => rotate_right1 slice
                | Eq => slice
                end in
  firstn low v ++ slice' ++ skipn (S high) v.

Lemma skipn_app_len {A} (a b : list A) n : n = length a -> skipn n (a ++ b) = b.
Proof. intros ->. rewrite skipn_app, skipn_all, Nat.sub_diag. auto. Qed.
Lemma firstn_app_len {A} (a b : list A) n : n = length a -> firstn n (a ++ b) = a.
Proof. intros ->. rewrite firstn_app, firstn_all, Nat.sub_diag. simpl. apply app_nil_r. Qed.

Lemma split3 {A} (v : list A) i j : i < j -> j < length v -> exists P x B y C,
  v = P ++ x :: B ++ y :: C /\ length P = i /\ S (length P + length B) = j.
Proof.
  intros L H. destruct (nth_error v j) as [y|] eqn:Ey; [|apply nth_error_None in Ey; lia].
  destruct (nth_split_at _ _ _ Ey) as [S1 L1].
  destruct (nth_error (firstn j v) i) as [x|] eqn:Ex.
  2:{ apply nth_error_None in Ex. lia. }
  destruct (nth_split_at _ _ _ Ex) as [S2 L2].
  exists (firstn i (firstn j v)), x, (skipn (S i) (firstn j v)), y, (skipn (S j) v).
  split; [|split; auto].
  - rewrite S1 at 1. rewrite S2 at 1. rewrite <- app_assoc. auto.
  - assert (X := f_equal (@length A) S2). rewrite app_length in X. cbn [length] in X. lia.
Qed.

Lemma moved_split from to v : from < length v -> to < length v ->
  exists P x B C, (v = P ++ x :: B ++ C /\ moved from to v = P ++ B ++ x :: C /\ from = length P /\ to = length P + length B) \/
                  (v = P ++ B ++ x :: C /\ moved from to v = P ++ x :: B ++ C /\ to = length P /\ from = length P + length B).
Proof.
  intros LF LT. unfold moved. destruct (Nat.compare_spec from to) as [->|L|L].
  - destruct (nth_error v to) as [x|] eqn:E; [|apply nth_error_None in E; lia].
    destruct (nth_split_at _ _ _ E) as [S1 L1].
    exists (firstn to v), x, [], (skipn (S to) v). left. rewrite Nat.min_id, Nat.max_id.
    split; [exact S1|]. split; [|simpl; lia].
    replace (S to - to) with 1 by lia.
    assert (SK : skipn to v = x :: skipn (S to) v).
    { rewrite S1 at 1. apply skipn_app_len. auto. }
    rewrite SK. simpl. auto.
  - destruct (split3 v from to L LT) as (P & x & B & y & C & -> & LP & LB).
    rewrite Nat.min_l, Nat.max_r by lia.
    exists P, x, (B ++ [y]), C. left. rewrite <- app_assoc. split; [auto|].
    rewrite (skipn_app_len P _ from), (firstn_app_len P _ from) by lia. split; [|rewrite app_length; simpl; lia].
    f_equal. replace (P ++ x :: B ++ y :: C) with ((P ++ x :: B ++ [y]) ++ C).
    2:{ rewrite <- !app_assoc. simpl. rewrite <- app_assoc. auto. }
    rewrite skipn_app_len by (rewrite app_length; cbn [length]; rewrite app_length; cbn [length]; lia).
    replace (x :: B ++ y :: C) with ((x :: B ++ [y]) ++ C) by (simpl; rewrite <- app_assoc; auto).
    rewrite firstn_app_len by (cbn [length app]; rewrite app_length; cbn [length]; lia).
    simpl. rewrite <- !app_assoc. auto.
  - destruct (split3 v to from L LF) as (P & y & B & x & C & -> & LP & LB).
    rewrite Nat.min_r, Nat.max_l by lia.
    exists P, x, (y :: B), C. right. split; [auto|].
    rewrite (skipn_app_len P _ to), (firstn_app_len P _ to) by lia. split; [|simpl; lia].
    f_equal. replace (P ++ y :: B ++ x :: C) with ((P ++ y :: B ++ [x]) ++ C).
    2:{ rewrite <- !app_assoc. simpl. rewrite <- app_assoc. auto. }
    rewrite skipn_app_len by (rewrite app_length; cbn [length]; rewrite app_length; cbn [length]; lia).
    replace (y :: B ++ x :: C) with ((y :: B ++ [x]) ++ C) by (simpl; rewrite <- app_assoc; auto).
    rewrite firstn_app_len by (cbn [length app]; rewrite app_length; cbn [length]; lia).
    unfold rotate_right1. simpl. rewrite rev_app_distr. simpl. rewrite rev_app_distr. simpl.
    rewrite rev_app_distr. simpl. rewrite rev_involutive. auto.
Qed.

Lemma nth_mid {A} (P : list A) x C n : n = length P -> nth_error (P ++ x :: C) n = Some x.
Proof. intros ->. rewrite nth_error_app2, Nat.sub_diag; auto. Qed.
Lemma nth_mid_next {A} (P : list A) x C n : n = length P -> nth_error (P ++ x :: C) (S n) = hd_error C.
Proof.
  intros ->. rewrite nth_error_app2 by lia. replace (S (length P) - length P) with 1 by lia.
  destruct C; auto.
Qed.

Lemma v_move_spec from to v : NoDup v -> from < length v -> to < length v ->
  exists k, nth_error (moved from to v) to = Some k /\ nth_error v from = Some k /\
    l_insert k (nth_error (moved from to v) (S to)) v = moved from to v /\
    memb k v = true /\ Permutation (moved from to v) v /\
    (forall b, nth_error (moved from to v) (S to) = Some b -> In b v /\ b <> k).
Proof.
  intros ND LF LT. destruct (moved_split from to v LF LT) as (P & x & B & C & [(E & M & F & T)|(E & M & T & F)]).
  - rewrite M. exists x.
    assert (AX : P ++ B ++ x :: C = (P ++ B) ++ x :: C) by apply app_assoc.
    assert (AV : v = P ++ x :: B ++ C) by auto.
    rewrite AX, nth_mid, nth_mid_next by (rewrite app_length; lia).
    split; auto. split; [rewrite E; apply nth_mid; auto|].
    assert (NX : ~ In x (P ++ B ++ C)).
    { rewrite E in ND. apply NoDup_remove_2 in ND. auto. }
    assert (REM : l_remove x v = P ++ B ++ C).
    { rewrite E, l_remove_app, l_remove_cons_same, <- l_remove_app. apply l_remove_notin; auto. }
    split.
    { destruct C as [|b C]; simpl.
      - rewrite REM. rewrite app_nil_r. auto.
      - assert (b <> x) by (intros ->; apply NX; apply in_app_iff; right; apply in_app_iff; simpl; auto).
        rewrite (proj2 (Nat.eqb_neq b x)) by auto. rewrite REM, app_assoc, l_before_at; auto.
        rewrite E in ND. apply NoDup_remove_1 in ND. rewrite app_assoc in ND. apply NoDup_remove_2 in ND.
        intro X. apply ND. apply in_app_iff; auto. }
    split; [apply memb_iff; rewrite E; apply in_app_iff; simpl; auto|].
    split; [rewrite E, <- app_assoc; apply Permutation_app_head; symmetry; apply Permutation_middle|].
    intros b Hb. destruct C as [|b' C]; simpl in Hb; inversion Hb; subst b'. split.
    + rewrite E. apply in_app_iff; right; right; apply in_app_iff; simpl; auto.
    + intros ->. apply NX. apply in_app_iff; right. apply in_app_iff; simpl; auto.
  - rewrite M. exists x. rewrite nth_mid, nth_mid_next by auto.
    split; auto. split; [rewrite E, app_assoc; apply nth_mid; rewrite app_length; auto|].
    assert (NX : ~ In x (P ++ B ++ C)).
    { rewrite E, app_assoc in ND. apply NoDup_remove_2 in ND. rewrite <- app_assoc in ND. auto. }
    assert (REM : l_remove x v = P ++ B ++ C).
    { rewrite E, app_assoc, l_remove_app, l_remove_cons_same, <- l_remove_app, <- app_assoc. apply l_remove_notin; auto. }
    assert (IV : In x v) by (rewrite E; apply in_app_iff; right; apply in_app_iff; simpl; auto).
    split.
    { destruct (B ++ C) as [|b D] eqn:EB; simpl.
      - rewrite REM. rewrite app_nil_r. auto.
      - assert (b <> x) by (intros ->; apply NX; apply in_app_iff; simpl; auto).
        rewrite (proj2 (Nat.eqb_neq b x)) by auto. rewrite REM, l_before_at; auto.
        assert (N2 : NoDup (P ++ b :: D)).
        { rewrite <- REM. apply l_remove_nodup; auto. }
        apply NoDup_remove_2 in N2. intro X. apply N2. apply in_app_iff; auto. }
    split; [apply memb_iff; auto|].
    split; [rewrite E; apply Permutation_app_head; apply Permutation_middle|].
    intros b Hb. assert (Hi : In b (B ++ C)) by (destruct (B ++ C); simpl in Hb; inversion Hb; subst; simpl; auto).
    split.
    + rewrite E. apply in_app_iff. right. apply in_app_iff in Hi as [Hi|Hi]; apply in_app_iff; simpl; auto.
    + intros ->. apply NX. apply in_app_iff; auto.
Qed.

(** ** one operation of the model *)
Definition trimmed (log log' : list change) : Prop := log' = log \/ log' = tl log.

Lemma add_change_trim m c : trimmed (lm_log m ++ [c]) (lm_log (add_change m c)).
Proof. unfold add_change, trimmed. simpl. destruct (Nat.ltb _ _); auto. Qed.

(** what an operation does to the model: nothing; or it logs one change whose
    meaning takes the old vector to the new one; or it clears the log *)
Lemma mexec_kind m o m' : mexec m o = Some m' -> NoDup (lm_vec m) -> NoDup (lm_vec m') ->
  lm_id m' = lm_id m /\
  (m' = m \/
   (exists c, trimmed (lm_log m ++ [c]) (lm_log m') /\ lm_ver m' = S (lm_ver m) /\
      apply_change (lm_vec m) c = lm_vec m' /\
      (match o with OSwap a b => b <> S a | _ => True end ->
       dstep (lm_vec m) (change_call c) = Some (lm_vec m'))) \/
   (lm_log m' = [] /\ lm_ver m' = S (lm_ver m))).
Proof.
  intros E ND ND'. destruct o; simpl in E.
  - unfold lm_insert in E. destruct (Nat.leb_spec i (length (lm_vec m))); [|discriminate].
    inversion E; subst. simpl in ND'. split; auto. right. left.
    destruct (v_insert_spec i k (lm_vec m) H ND') as (A & B & C).
    eexists. split; [apply add_change_trim|]. split; auto. simpl. split; auto.
    intros _. rewrite A, C, B. auto.
  - unfold lm_remove in E. destruct (nth_error (lm_vec m) i) as [k|] eqn:N; [|discriminate].
    inversion E; subst. split; auto. right. left.
    destruct (v_remove_spec i k _ ND N) as [A B].
    exists (ChRemove k). split; [apply (add_change_trim (set_vec m (v_remove i (lm_vec m))))|]. split; auto.
    simpl. split; auto. intros _. rewrite B. simpl. rewrite A. auto.
  - unfold lm_pop in *. destruct (rev (lm_vec m)) as [|k t] eqn:R.
    + inversion E; subst. auto.
    + inversion E; subst. split; auto. right. left. exists (ChRemove k).
      split; [apply (add_change_trim (set_vec m (rev t)))|]. split; auto.
      assert (V : lm_vec m = rev t ++ [k]) by (rewrite <- (rev_involutive (lm_vec m)), R; auto).
      assert (NK : ~ In k (rev t)).
      { rewrite V in ND. apply NoDup_remove_2 in ND. rewrite app_nil_r in ND. auto. }
      assert (LR : l_remove k (lm_vec m) = rev t).
      { rewrite V, l_remove_app, l_remove_cons_same, l_remove_notin; auto. apply app_nil_r. }
      simpl. split; auto. intros _.
      rewrite (proj2 (memb_iff k (lm_vec m))); [simpl; rewrite LR; auto|]. rewrite V. apply in_app_iff; simpl; auto.
  - inversion E; subst. split; auto. right. left. exists (ChInsert k None).
    split; [apply add_change_trim|]. split; auto. simpl in *.
    assert (NK : ~ In k (lm_vec m)).
    { apply NoDup_remove_2 in ND'. rewrite app_nil_r in ND'. auto. }
    rewrite (proj2 (memb_false k (lm_vec m))) by auto. simpl. rewrite l_remove_notin by auto. auto.
  - unfold lm_swap in E. destruct (nth_error (lm_vec m) a) as [x|] eqn:A; [|discriminate].
    destruct (nth_error (lm_vec m) b) as [y|] eqn:B; [|discriminate]. inversion E; subst.
    split; auto. right. left. exists (ChSwap x y). split; [apply add_change_trim|]. split; auto.
    simpl. rewrite (v_swap_spec a b x y) by auto. split; auto. intro N.
    rewrite (v_swap_adjacent a b x y) by auto.
    rewrite (proj2 (memb_iff x _)) by (eapply nth_error_In; eauto).
    rewrite (proj2 (memb_iff y _)) by (eapply nth_error_In; eauto). auto.
  - unfold lm_move in E. fold (moved from to (lm_vec m)) in E.
    destruct (Nat.ltb_spec (Nat.max from to) (length (lm_vec m))); [|discriminate].
    destruct (v_move_spec from to (lm_vec m) ND) as (k & A & A' & B & C & P & D); try lia.
    rewrite A in E. injection E as <-. split; auto. right. left.
    exists (ChMove k (nth_error (moved from to (lm_vec m)) (S to))). split; [apply (add_change_trim (set_vec m (moved from to (lm_vec m))))|]. split; auto.
    cbn [apply_change change_call dstep lm_vec set_vec add_change]. rewrite B. split; auto. intros _. rewrite C. cbn [andb].
    destruct (nth_error (moved from to (lm_vec m)) (S to)) as [b|] eqn:F; auto.
    destruct (D b) as [D1 D2]; auto. simpl.
    rewrite (proj2 (memb_iff b _)) by auto. rewrite (proj2 (Nat.eqb_neq b k)) by auto. auto.
  - inversion E; subst. split; auto.
Qed.

(** ** the log *)
Definition replay (v : list key) (log : list change) : list key := fold_left apply_change log v.

(** [log_ok f m vs]: [vs] are the vectors of the versions, newest first; replaying
    (with [f]) the last [n] changes on the vector [n] versions ago gives the current one *)
Definition log_ok (f : list key -> list change -> option (list key)) (m : lmodel) (vs : list (list key)) : Prop :=
  length vs = lm_ver m /\ length (lm_log m) < lm_ver m /\
  (exists t, vs = lm_vec m :: t) /\
  forall n v, n <= length (lm_log m) -> nth_error vs n = Some v ->
    f v (skipn (length (lm_log m) - n) (lm_log m)) = Some (lm_vec m).

Definition f_calls (v : list key) (l : list change) : option (list key) := druns v (map change_call l).
Definition f_replay (v : list key) (l : list change) : option (list key) := Some (replay v l).

Lemma skipn_trim {A} (l l' : list A) n : l' = l \/ l' = tl l -> n <= length l' ->
  skipn (length l' - n) l' = skipn (length l - n) l.
Proof.
  intros [->| ->] H; auto. destruct l as [|x l]; auto. simpl in H. simpl tl.
  replace (length (x :: l) - n) with (S (length l - n)) by (cbn [length]; lia). auto.
Qed.

Lemma log_ok_new f v id : (forall w, f w [] = Some w) -> log_ok f (lm_from v id) [v].
Proof.
  intro F. split; [auto|]. split; [simpl; auto|]. split; [exists []; auto|]. simpl.
  intros n w L E. assert (n = 0) by lia. subst. inversion E; subst. auto.
Qed.

Lemma log_ok_step f m vs m' c : (forall w, f w [] = Some w) ->
  (forall w l1 l2 u, f w l1 = Some u -> f w (l1 ++ l2) = f u l2) ->
  log_ok f m vs -> trimmed (lm_log m ++ [c]) (lm_log m') -> lm_ver m' = S (lm_ver m) ->
  f (lm_vec m) [c] = Some (lm_vec m') -> log_ok f m' (lm_vec m' :: vs).
Proof.
  intros F0 FA (L & LL & (t & HV) & H) T V C.
  assert (LT : length (lm_log m') <= S (length (lm_log m))).
  { destruct T as [E|E]; rewrite E; [|destruct (lm_log m); simpl; [lia|]]; rewrite ?app_length; simpl; lia. }
  split; [simpl; lia|]. split; [lia|]. split; [eexists; reflexivity|].
  intros n v N E. destruct n as [|n].
  - simpl in E. inversion E; subst. rewrite Nat.sub_0_r, skipn_all. auto.
  - simpl in E. rewrite (skipn_trim (lm_log m ++ [c])) by auto.
    assert (N' : n <= length (lm_log m)) by lia.
    rewrite app_length. simpl. replace (length (lm_log m) + 1 - S n) with (length (lm_log m) - n) by lia.
    rewrite skipn_app. replace (length (lm_log m) - n - length (lm_log m)) with 0 by lia. simpl.
    rewrite (FA _ _ _ _ (H n v N' E)). auto.
Qed.
Lemma log_ok_clear f m vs m' : (forall w, f w [] = Some w) ->
  log_ok f m vs -> lm_log m' = [] -> lm_ver m' = S (lm_ver m) -> log_ok f m' (lm_vec m' :: vs).
Proof.
  intros F0 (L & LL & _ & _) T V. split; [simpl; lia|]. rewrite T. simpl. split; [lia|]. split; [eexists; reflexivity|].
  intros n v N E. assert (n = 0) by lia. subst. inversion E; subst. auto.
Qed.

Lemma f_replay_app w l1 l2 u : f_replay w l1 = Some u -> f_replay w (l1 ++ l2) = f_replay u l2.
Proof. unfold f_replay, replay. intro E. inversion E; subst. rewrite fold_left_app. auto. Qed.
Lemma f_calls_app w l1 l2 u : f_calls w l1 = Some u -> f_calls w (l1 ++ l2) = f_calls u l2.
Proof. unfold f_calls. intro E. rewrite map_app. apply druns_app; auto. Qed.

(** ** rebuilding *)
Lemma druns_inserts l : forall ks, NoDup l -> (forall x, In x l -> ~ In x ks) ->
  druns ks (map (fun k => DInsert k None None) l) = Some (ks ++ l).
Proof.
  induction l as [|x l IH]; intros ks ND H; simpl.
  - rewrite app_nil_r; auto.
  - inversion ND; subst. rewrite l_remove_notin by (apply H; simpl; auto).
    rewrite IH; auto.
    + rewrite <- app_assoc. auto.
    + intros y Hy. rewrite in_app_iff. simpl. intros [X|[X|[]]]; [apply (H y); simpl; auto|subst; auto].
Qed.

(** the fold: [R] are the retained keys still to be moved (in their old order,
    mixed), [T] the part already in place *)
Lemma move_retained_ok rv : forall R N T retained,
  NoDup (R ++ N ++ T) ->
  (forall x, In x R <-> In x retained /\ In x rv) ->
  N = filter (fun k => negb (memb k retained)) (rev rv) ->
  (forall x, In x T -> ~ In x rv) -> NoDup rv ->
  druns (R ++ N ++ T) (move_retained retained (hd_error T) rv) = Some (rev rv ++ T).
Proof.
  induction rv as [|k t IH]; intros R N T retained ND HR HN HT NDR.
  - simpl. simpl in HN. subst N. destruct R as [|x R]; auto. exfalso. destruct (proj1 (HR x)); simpl; auto.
  - apply NoDup_cons_iff in NDR as [NK NDT]. simpl move_retained.
    assert (KT : ~ In k T) by (intro X; apply (HT k X); simpl; auto).
    simpl in HN. rewrite filter_app in HN. simpl in HN.
    replace (rev (k :: t) ++ T) with (rev t ++ k :: T) by (simpl; rewrite <- app_assoc; auto).
    destruct (memb k retained) eqn:M; simpl in HN.
    + rewrite app_nil_r in HN.
      assert (KR : In k R) by (apply HR; split; [apply memb_iff; auto|simpl; auto]).
      assert (KN : ~ In k N).
      { intro X. subst N. apply filter_In in X as [_ X]. rewrite M in X. discriminate. }
      assert (STEP : dstep (R ++ N ++ T) (DMove k (hd_error T)) = Some (l_remove k R ++ N ++ k :: T)).
      { unfold dstep. rewrite (proj2 (memb_iff k (R ++ N ++ T))) by (apply in_app_iff; auto).
        assert (REM : l_remove k (R ++ N ++ T) = l_remove k R ++ N ++ T).
        { rewrite !l_remove_app, (l_remove_notin k N), (l_remove_notin k T); auto. }
        destruct T as [|b T]; simpl hd_error; unfold ref_known.
        - simpl. rewrite REM, !app_nil_r, <- app_assoc. auto.
        - rewrite (proj2 (memb_iff b (R ++ N ++ b :: T))).
          2:{ apply in_app_iff; right; apply in_app_iff; simpl; auto. }
          assert (b <> k) by (intros ->; apply KT; simpl; auto).
          rewrite (proj2 (Nat.eqb_neq b k)) by auto. simpl.
          rewrite (proj2 (Nat.eqb_neq b k)) by auto. rewrite REM, app_assoc, l_before_at.
          + rewrite <- app_assoc. auto.
          + rewrite app_assoc in ND. apply NoDup_remove_2 in ND. intro X. apply ND. apply in_app_iff. left.
            apply in_app_iff in X as [X|X]; apply in_app_iff; auto. apply l_remove_in in X; tauto. }
      cbn [app druns]. rewrite STEP.
      apply (IH (l_remove k R) N (k :: T) retained); auto.
      * assert (Z := dstep_nodup _ _ _ ND STEP). exact Z.
      * intro x. rewrite l_remove_in, HR. simpl. split.
        -- intros [[A [B|B]] C]; [congruence|auto].
        -- intros [A B]. split; [auto|]. intros ->. auto.
      * intros x [<-|X]; auto. intro Y. apply (HT x X). simpl; auto.
    + simpl. assert (KR : ~ In k R).
      { intro X. apply HR in X as [X _]. apply memb_false in M. auto. }
      set (N' := filter (fun k0 => negb (memb k0 retained)) (rev t)) in *.
      rewrite HN, <- app_assoc. simpl. rewrite HN, <- app_assoc in ND. simpl in ND.
      apply (IH R N' (k :: T) retained); auto.
      * intro x. rewrite HR. simpl. split; [|tauto]. intros [A [B|B]]; auto. subst. exfalso. apply KR. apply HR. simpl; auto.
      * intros x [<-|X]; auto. intro Y. apply (HT x X). simpl; auto.
Qed.

Lemma rebuild_ok present vec : NoDup present -> NoDup vec -> druns present (rebuild_calls present vec) = Some vec.
Proof.
  intros NP NV. unfold rebuild_calls. cbn [druns dstep].
  set (R := filter (fun k => memb k vec) present).
  assert (NR : NoDup R) by (apply NoDup_filter; auto).
  rewrite (druns_app _ _ _ (R ++ filter (fun k => negb (memb k R)) vec)).
  - assert (X := move_retained_ok (rev vec) R (filter (fun k => negb (memb k R)) vec) [] R).
    rewrite rev_involutive, !app_nil_r in X. apply X; clear X.
    + apply nodup_app_intro; auto; [apply NoDup_filter; auto|].
      intros x X1 X2. apply filter_In in X2 as [_ X2]. apply negb_true_iff, memb_false in X2. auto.
    + intro x. split; [|tauto]. intro X. split; auto. apply -> in_rev. apply filter_In in X as [_ X]. apply memb_iff; auto.
    + auto.
    + intros x [].
    + apply NoDup_rev; auto.
  - apply druns_inserts.
    + apply NoDup_filter; auto.
    + intros x X. apply filter_In in X as [_ X]. apply negb_true_iff, memb_false in X. auto.
Qed.

(** ** the world *)
Record MInv (w : mworld) : Prop := {
  mi_ids : NoDup (map lm_id (mw_models w));
  mi_lt : forall m, In m (mw_models w) -> lm_id m < mw_next w;
  mi_nodup : forall m, In m (mw_models w) -> NoDup (lm_vec m);
  mi_keys : NoDup (ml_keys (mw_list w));
  mi_uid : forall u, ml_uid (mw_list w) = Some u -> u < mw_next w;
  mi_log : forall m, In m (mw_models w) -> exists vs, log_ok f_calls m vs /\
     (ml_uid (mw_list w) = Some (lm_id m) ->
        ml_ver (mw_list w) <= lm_ver m /\
        nth_error vs (lm_ver m - ml_ver (mw_list w)) = Some (ml_keys (mw_list w)))
}.

Lemma f_calls_nil w : f_calls w [] = Some w.
Proof. auto. Qed.

Lemma ml_update_ok s m vs : log_ok f_calls m vs -> NoDup (ml_keys s) -> NoDup (lm_vec m) ->
  (ml_uid s = Some (lm_id m) -> ml_ver s <= lm_ver m /\ nth_error vs (lm_ver m - ml_ver s) = Some (ml_keys s)) ->
  ml_update s m = Some (mkML (lm_vec m) (lm_ver m) (Some (lm_id m))).
Proof.
  intros (L & LL & (t & HV) & H) NK NV U. unfold ml_update, ml_calls.
  destruct (same_model (ml_uid s) (lm_id m)) eqn:SM; cbn [andb].
  - assert (UE : ml_uid s = Some (lm_id m)).
    { unfold same_model in SM. destruct (ml_uid s); [|discriminate]. apply Nat.eqb_eq in SM. congruence. }
    destruct (U UE) as [LE NE].
    destruct (Nat.leb_spec (lm_ver m - length (lm_log m)) (ml_ver s)).
    + assert (X := H (lm_ver m - ml_ver s) _ ltac:(lia) NE). unfold f_calls in X.
      replace (length (lm_log m) - (lm_ver m - ml_ver s)) with (ml_ver s - (lm_ver m - length (lm_log m))) in X by lia.
      rewrite X. auto.
    + rewrite rebuild_ok; auto.
  - rewrite rebuild_ok; auto.
Qed.

Lemma m_set_in i m l x : In x (m_set i m l) -> x = m \/ In x l.
Proof.
  unfold m_set. rewrite in_app_iff. simpl. intros [H|[H|H]]; auto; right.
  - rewrite <- (firstn_skipn i l). apply in_app_iff; auto.
  - rewrite <- (firstn_skipn (S i) l). apply in_app_iff; auto.
Qed.
Lemma m_set_ids i m m0 l : nth_error l i = Some m0 -> lm_id m = lm_id m0 -> map lm_id (m_set i m l) = map lm_id l.
Proof.
  intros E I. destruct (nth_split_at _ _ _ E) as [S0 _]. unfold m_set. rewrite S0 at 3.
  rewrite !map_app. simpl. rewrite I. auto.
Qed.

Lemma wexec_ok w o : MInv w -> wlegal w o -> exists w', wexec w o = Some w' /\ MInv w' /\
  match o with
  | WUpdate i => exists m, nth_error (mw_models w') i = Some m /\ ml_keys (mw_list w') = lm_vec m
  | _ => mw_list w' = mw_list w
  end.
Proof.
  intros I L. destruct I as [ID LT ND NK UI LG]. destruct o; simpl in L.
  - (* new *) simpl. eexists; split; [reflexivity|]. split; auto. constructor; simpl.
    + rewrite map_app. simpl. apply nodup_app_intro; auto.
      * repeat constructor; simpl; tauto.
      * intros x X [<-|[]]. apply in_map_iff in X as (m & E & X). apply LT in X. lia.
    + intros m X. apply in_app_iff in X as [X|[<-|[]]]; [apply LT in X; lia|simpl; lia].
    + intros m X. apply in_app_iff in X as [X|[<-|[]]]; auto.
    + auto.
    + intros u X. apply UI in X. lia.
    + intros m X. apply in_app_iff in X as [X|[<-|[]]]; auto. exists [v]. split; [apply log_ok_new, f_calls_nil|].
      simpl. intro E. apply UI in E. lia.
  - (* clone *) simpl. destruct (nth_error (mw_models w) i) as [m0|] eqn:N.
    2:{ apply nth_error_None in N. lia. }
    assert (N0 := nth_error_In _ _ N).
    eexists; split; [reflexivity|]. split; auto. constructor; simpl.
    + rewrite map_app. simpl. apply nodup_app_intro; auto.
      * repeat constructor; simpl; tauto.
      * intros x X [<-|[]]. apply in_map_iff in X as (m & E & X). apply LT in X. lia.
    + intros m X. apply in_app_iff in X as [X|[<-|[]]]; [apply LT in X; lia|simpl; lia].
    + intros m X. apply in_app_iff in X as [X|[<-|[]]]; auto. apply (ND m0); auto.
    + auto.
    + intros u X. apply UI in X. lia.
    + intros m X. apply in_app_iff in X as [X|[<-|[]]]; auto. exists [lm_vec m0].
      split; [apply (log_ok_new f_calls (lm_vec m0)), f_calls_nil|].
      simpl. intro E. apply UI in E. lia.
  - (* drop *) cbn [wexec]. eexists; split; [reflexivity|]. split; auto.
    assert (SUB : forall m, In m (firstn i (mw_models w) ++ skipn (S i) (mw_models w)) -> In m (mw_models w)).
    { intros m X. apply in_app_iff in X as [X|X].
      - rewrite <- (firstn_skipn i (mw_models w)). apply in_app_iff; auto.
      - rewrite <- (firstn_skipn (S i) (mw_models w)). apply in_app_iff; auto. }
    constructor; cbn [mw_models mw_list mw_next]; auto.
    destruct (nth_error (mw_models w) i) as [m0|] eqn:N.
    + destruct (nth_split_at _ _ _ N) as [S1 _]. rewrite S1 in ID. rewrite map_app in ID. simpl in ID.
      apply NoDup_remove_1 in ID. rewrite map_app. auto.
    + apply nth_error_None in N. rewrite firstn_all2, skipn_all2 by lia. rewrite app_nil_r. auto.
  - (* op *) destruct L as (m & N & IR & NV & AD). simpl. rewrite N.
    assert (N0 := nth_error_In _ _ N).
    destruct (mexec m o) as [m'|] eqn:E.
    2:{ exfalso. clear -IR E. destruct o; simpl in E, IR; try discriminate.
        - unfold lm_insert in E. apply Nat.leb_le in IR. rewrite IR in E. discriminate.
        - unfold lm_remove in E. apply nth_error_Some in IR. destruct (nth_error (lm_vec m) i); congruence.
        - unfold lm_swap in E. destruct IR as [A B]. apply nth_error_Some in A. apply nth_error_Some in B.
          destruct (nth_error (lm_vec m) a); [|congruence]. destruct (nth_error (lm_vec m) b); congruence.
        - unfold lm_move in E. fold (moved from to (lm_vec m)) in E. destruct IR as [A B].
          destruct (Nat.ltb_spec (Nat.max from to) (length (lm_vec m))); [|lia].
          destruct (nth_error (moved from to (lm_vec m)) to) eqn:F; [discriminate|].
          apply nth_error_None in F.
          destruct (moved_split from to (lm_vec m) A B) as (P & x & C & D & [(E1 & M & _)|(E1 & M & _)]);
            rewrite M, E1 in *; rewrite ?app_length in *; simpl in *; rewrite ?app_length in *; simpl in *; lia. }
    eexists; split; [reflexivity|]. split; auto.
    destruct (mexec_kind m o m' E (ND _ N0) (NV _ eq_refl)) as (IDE & KD).
    constructor; simpl.
    + rewrite (m_set_ids _ _ m); auto.
    + intros x X. apply m_set_in in X as [->|X]; auto. rewrite IDE. auto.
    + intros x X. apply m_set_in in X as [->|X]; auto.
    + auto. + auto.
    + intros x X. apply m_set_in in X as [->|X]; auto.
      destruct (LG m N0) as (vs & LO & U). destruct KD as [->|[(c & T & V & A & D)|(T & V)]].
      * exists vs. auto.
      * exists (lm_vec m' :: vs). split.
        -- eapply log_ok_step; eauto using f_calls_nil, f_calls_app.
           unfold f_calls. simpl. rewrite D by auto. auto.
        -- rewrite IDE. intro X. destruct (U X) as [U1 U2]. split; [lia|].
           rewrite V, Nat.sub_succ_l by auto. auto.
      * exists (lm_vec m' :: vs). split.
        -- eapply log_ok_clear; eauto using f_calls_nil.
        -- rewrite IDE. intro X. destruct (U X) as [U1 U2]. split; [lia|].
           rewrite V, Nat.sub_succ_l by auto. auto.
  - (* update *) simpl. destruct (nth_error (mw_models w) i) as [m|] eqn:N.
    2:{ apply nth_error_None in N. lia. }
    assert (N0 := nth_error_In _ _ N). destruct (LG m N0) as (vs & LO & U).
    rewrite (ml_update_ok _ _ _ LO NK (ND _ N0) U). eexists; split; [reflexivity|]. split.
    2:{ exists m. simpl. auto. }
    constructor; simpl; auto.
    + intros u X. inversion X; subst. auto.
    + intros x X. destruct (LG x X) as (vs' & LO' & U'). exists vs'. split; auto.
      intro Y. inversion Y. assert (x = m).
      { clear -ID X N0 H0. induction (mw_models w) as [|a l IH]; simpl in *; [tauto|].
        inversion ID; subst. destruct X as [->|X], N0 as [->|N0]; auto.
        - exfalso. apply H2. rewrite <- H0. apply in_map; auto.
        - exfalso. apply H2. rewrite H0. apply in_map; auto. }
      subst x. split; auto. rewrite Nat.sub_diag. destruct LO' as (_ & _ & (t & ->) & _). auto.
Qed.

Lemma minv_init : MInv mw_init.
Proof. constructor; simpl; try tauto; try constructor. discriminate. Qed.

Lemma wrun_ok ops : forall w, MInv w -> wlegal_run w ops -> exists w', wrun w ops = Some w' /\ MInv w'.
Proof.
  induction ops as [|o t IH]; simpl; intros w I L.
  - eauto.
  - destruct L as [L L']. destruct (wexec_ok w o I L) as (w1 & E & I1 & _). rewrite E. apply IH; auto.
Qed.

(** ** the length of the log *)
Lemma add_change_length m c B : 2 * length (lm_log m) <= B -> length (lm_vec m) <= B ->
  2 * length (lm_log (add_change m c)) <= B.
Proof.
  intros L V. unfold add_change. cbn [lm_log].
  destruct (Nat.ltb_spec (Nat.div (length (lm_vec m)) 2) (length (lm_log m ++ [c]))) as [H|H].
  - destruct (lm_log m); cbn [app tl length] in *; [lia|]. rewrite app_length in *. cbn [length] in *. lia.
  - pose proof (Nat.div_mod (length (lm_vec m)) 2 ltac:(discriminate)). lia.
Qed.
Lemma mexec_length m o m' B : mexec m o = Some m' -> 2 * length (lm_log m) <= B ->
  length (lm_vec m) <= B -> length (lm_vec m') <= B -> 2 * length (lm_log m') <= B.
Proof.
  intros E L V V'. destruct o; simpl in E.
  - unfold lm_insert in E. destruct (Nat.leb _ _); [|discriminate]. injection E as <-. cbn [set_vec lm_log]. apply add_change_length; auto.
  - unfold lm_remove in E. destruct (nth_error _ _); [|discriminate]. injection E as <-. apply add_change_length; auto.
  - unfold lm_pop in E. destruct (rev (lm_vec m)); injection E as <-; auto. apply add_change_length; auto.
  - injection E as <-. cbn [set_vec lm_log]. apply (add_change_length m); auto.
  - unfold lm_swap in E. destruct (nth_error _ a); [|discriminate]. destruct (nth_error _ b); [|discriminate].
    injection E as <-. cbn [set_vec lm_log]. apply add_change_length; auto.
  - unfold lm_move in E. fold (moved from to (lm_vec m)) in E. destruct (Nat.ltb _ _); [|discriminate].
    destruct (nth_error _ _); [|discriminate]. injection E as <-. apply add_change_length; auto.
  - injection E as <-. cbn. lia.
Qed.

(** how much of the log an operation keeps: [n] changes stay as long as the vector has
    at least [2 * n] items *)
Lemma add_change_keeps m c n j : 2 * n <= length (lm_vec m) -> j < n -> j <= length (lm_log m) ->
  S j <= length (lm_log (add_change m c)).
Proof.
  intros V J L. unfold add_change. cbn [lm_log].
  destruct (Nat.ltb_spec (Nat.div (length (lm_vec m)) 2) (length (lm_log m ++ [c]))) as [H|H].
  - rewrite app_length in H. cbn [length] in H.
    assert (n <= Nat.div (length (lm_vec m)) 2) by (apply Nat.div_le_lower_bound; lia).
    destruct (lm_log m); cbn [app tl length] in *; [lia|]. rewrite app_length. cbn [length]. lia.
  - rewrite app_length. cbn [length]. lia.
Qed.
Lemma mexec_keeps m o m' n j : mexec m o = Some m' -> ~ is_modify o -> 2 * n <= length (lm_vec m) -> 2 * n <= length (lm_vec m') ->
  j < n -> j <= length (lm_log m) ->
  lm_id m' = lm_id m /\ (lm_ver m' = lm_ver m /\ lm_log m' = lm_log m \/ lm_ver m' = S (lm_ver m) /\ S j <= length (lm_log m')).
Proof.
  intros E NM V V' J L. destruct o; simpl in E, NM.
  - unfold lm_insert in E. destruct (Nat.leb _ _); [|discriminate]. injection E as <-. split; [reflexivity|]. right. split; [reflexivity|].
    cbn [set_vec lm_log]. eapply add_change_keeps; eauto.
  - unfold lm_remove in E. destruct (nth_error _ _); [|discriminate]. injection E as <-. split; [reflexivity|]. right. split; [reflexivity|].
    eapply add_change_keeps; eauto.
  - unfold lm_pop in E. destruct (rev (lm_vec m)); injection E as <-; split; auto. right. split; [reflexivity|]. eapply add_change_keeps; eauto.
  - injection E as <-. split; [reflexivity|]. right. split; [reflexivity|]. cbn [set_vec lm_log]. eapply (add_change_keeps m); eauto.
  - unfold lm_swap in E. destruct (nth_error _ a); [|discriminate]. destruct (nth_error _ b); [|discriminate].
    injection E as <-. split; [reflexivity|]. right. split; [reflexivity|]. cbn [set_vec lm_log]. eapply add_change_keeps; eauto.
  - unfold lm_move in E. fold (moved from to (lm_vec m)) in E. destruct (Nat.ltb _ _); [|discriminate].
    destruct (nth_error _ _); [|discriminate]. injection E as <-. split; [reflexivity|]. right. split; [reflexivity|]. eapply add_change_keeps; eauto.
  - tauto.
Qed.
Lemma mruns_keeps m ops m' vs : mruns m ops m' vs -> forall n j, Forall (fun o => ~ is_modify o) ops ->
  Forall (fun v => 2 * n <= length v) vs -> j + length ops <= n -> j <= length (lm_log m) ->
  lm_id m' = lm_id m /\ exists d, lm_ver m' = lm_ver m + d /\ d <= length ops /\ j + d <= length (lm_log m').
Proof.
  intro R. induction R as [m|m o m1 ops m2 vs E R IH]; intros n j NM FV J L.
  - split; [reflexivity|]. exists 0. split; [lia|]. split; [lia|]. lia.
  - inversion NM as [|? ? NM1 NM2]; subst. inversion FV as [|? ? FV1 FV2]; subst. cbn [length] in J.
    assert (V1 : 2 * n <= length (lm_vec m1)) by (inversion R; subst; inversion FV2; subst; auto).
    destruct (mexec_keeps m o m1 n j E NM1 FV1 V1 ltac:(lia) L) as (ID & [(W & G)|(W & G)]).
    + destruct (IH n j NM2 FV2 ltac:(lia) ltac:(rewrite G; exact L)) as (ID' & d & A & B & C).
      split; [congruence|]. exists d. split; [lia|]. split; [cbn; lia|]. auto.
    + destruct (IH n (S j) NM2 FV2 ltac:(lia) G) as (ID' & d & A & B & C).
      split; [congruence|]. exists (S d). split; [lia|]. split; [cbn; lia|]. lia.
Qed.

(** ** items that stay *)
Definition recent (d : nat) (log : list change) : list change := skipn (length log - d) log.
Lemma recent_step d log log' c x : trimmed (log ++ [c]) log' -> In x (recent (S d) log') -> In x (recent d log) \/ x = c.
Proof.
  intros T. unfold recent. assert (LN : length (log ++ [c]) = S (length log)) by (rewrite app_length; cbn; lia).
  assert (G : In x (skipn (length log - d) (log ++ [c])) -> In x (skipn (length log - d) log) \/ x = c).
  { rewrite skipn_app. replace (length log - d - length log) with 0 by lia. cbn [skipn]. rewrite in_app_iff. simpl. intuition. }
  destruct T as [->| ->].
  - rewrite LN. exact G.
  - assert (LT : length (tl (log ++ [c])) = length log) by (destruct (log ++ [c]); cbn in *; lia). rewrite LT.
    intro H. apply G. destruct (le_lt_dec (S d) (length log)).
    + replace (length log - d) with (S (length log - S d)) by lia. destruct (log ++ [c]); cbn in *; [destruct (length log - S d)|]; auto.
    + replace (length log - d) with 0 by lia. replace (length log - S d) with 0 in H by lia. cbn [skipn] in *.
      destruct (log ++ [c]); cbn in *; auto.
Qed.
Lemma change_spares v c v' k : dstep v (change_call c) = Some v' -> In k v -> In k v' -> spares k (change_call c).
Proof.
  intros E I I'. destruct c; simpl in *; auto.
  - intros ->. rewrite (proj2 (memb_iff k v) I), andb_false_r in E. discriminate.
  - intros ->. rewrite (proj2 (memb_iff k v) I) in E. simpl in E. injection E as <-. apply l_remove_in in I'. tauto.
Qed.
Lemma recent_0 log : recent 0 log = [].
Proof. unfold recent. rewrite Nat.sub_0_r. apply skipn_all. Qed.

Definition KInv (id : nat) (k : key) (w : mworld) : Prop :=
  forall m, In m (mw_models w) -> lm_id m = id -> ml_uid (mw_list w) = Some id ->
  forall c, In c (recent (lm_ver m - ml_ver (mw_list w)) (lm_log m)) -> spares k (change_call c).

Lemma same_id (l : list lmodel) x y : NoDup (map lm_id l) -> In x l -> In y l -> lm_id x = lm_id y -> x = y.
Proof.
  induction l as [|a l IH]; simpl; [tauto|]. intros ND X Y E. inversion ND as [|? ? NI ND']; subst.
  destruct X as [->|X], Y as [->|Y]; auto.
  - exfalso. apply NI. rewrite E. apply in_map; auto.
  - exfalso. apply NI. rewrite <- E. apply in_map; auto.
Qed.

Lemma kinv_step id k w o w' : MInv w -> wlegal w o -> wexec w o = Some w' -> ~ is_update o -> KInv id k w ->
  (forall m, In m (mw_models w) -> lm_id m = id -> In k (lm_vec m)) ->
  (forall m, In m (mw_models w') -> lm_id m = id -> In k (lm_vec m)) -> KInv id k w'.
Proof.
  intros I L E NU K B B'. destruct o; simpl in E, L, NU.
  - injection E as <-. intros m X ID U c. cbn [mw_models mw_list] in *. apply in_app_iff in X as [X|[<-|[]]]; [apply (K m X ID U)|].
    simpl in ID. subst id. apply (mi_uid _ I) in U. lia.
  - destruct (nth_error (mw_models w) i) as [m0|]; [|discriminate]. injection E as <-. intros m X ID U c. cbn [mw_models mw_list] in *.
    apply in_app_iff in X as [X|[<-|[]]]; [apply (K m X ID U)|]. simpl in ID. subst id. apply (mi_uid _ I) in U. lia.
  - injection E as <-. intros m X ID U c. cbn [mw_models mw_list] in *. apply (K m); auto.
    apply in_app_iff in X as [X|X].
    + rewrite <- (firstn_skipn i (mw_models w)). apply in_app_iff; auto.
    + rewrite <- (firstn_skipn (S i) (mw_models w)). apply in_app_iff; auto.
  - destruct L as (m0 & N & IR & NV & AD). rewrite N in E. destruct (mexec m0 o) as [m1|] eqn:X1; [|discriminate]. injection E as <-.
    assert (N0 := nth_error_In _ _ N).
    intros m X ID U c. cbn [mw_models mw_list] in *. pose proof X as X0. apply m_set_in in X as [->|X]; [|apply (K m X ID U)].
    destruct (mexec_kind m0 o m1 X1 (mi_nodup _ I _ N0) (NV _ eq_refl)) as (IDE & KD).
    assert (ID0 : lm_id m0 = id) by congruence.
    destruct (mi_log _ I m0 N0) as (vs & LO & UU). rewrite ID0 in UU. destruct (UU U) as [U1 U2].
    destruct KD as [->|[(c0 & T & V & A & D)|(T & V)]].
    + apply (K m0); auto.
    + rewrite V, Nat.sub_succ_l by auto. intro H. apply (recent_step _ (lm_log m0) (lm_log m1) c0 c T) in H. destruct H as [H| ->].
      * apply (K m0); auto.
      * apply (change_spares (lm_vec m0) c0 (lm_vec m1)); auto.
    + rewrite T. unfold recent. simpl. tauto.
  - tauto.
Qed.

Lemma rebuild_spares present vec k : In k present -> In k vec -> forall c, In c (rebuild_calls present vec) -> spares k c.
Proof.
  intros P V c. unfold rebuild_calls. cbn [In]. intros [<-|H]; [apply (proj2 (memb_iff k vec) V)|].
  apply in_app_iff in H as [H|H].
  - apply in_map_iff in H as (x & <- & H). simpl. intros ->. apply filter_In in H as [_ H]. apply negb_true_iff, memb_false in H.
    apply H. apply filter_In. split; auto. apply memb_iff; auto.
  - revert H. generalize (filter (fun k => memb k vec) present) (rev vec) (@None key). intros R rv. induction rv as [|x t IH]; intros last H; [destruct H|].
    cbn [move_retained] in H. apply in_app_iff in H as [H|H]; [|eapply IH; eauto]. destruct (memb x R); [|destruct H].
    destruct H as [<-|[]]. exact I.
Qed.

Lemma keeps_items id k ops : forall w w', MInv w -> KInv id k w -> wlegal_run w ops -> wrun w ops = Some w' ->
  Forall (fun o => ~ is_update o) ops ->
  (forall a b v m, ops = a ++ b -> wrun w a = Some v -> In m (mw_models v) -> lm_id m = id -> In k (lm_vec m)) ->
  KInv id k w' /\ MInv w' /\ mw_list w' = mw_list w.
Proof.
  induction ops as [|o t IH]; intros w w' I K L R NU S.
  - injection R as <-. auto.
  - destruct L as [L L']. cbn [wrun] in R. destruct (wexec w o) as [w1|] eqn:E; [|discriminate].
    inversion NU as [|? ? NU1 NU2]; subst.
    destruct (wexec_ok w o I L) as (w1' & E' & I1 & X). rewrite E in E'. injection E' as <-.
    destruct (IH w1 w') as (A & B & C); auto.
    + apply (kinv_step id k w o w1); auto.
      * intros m XM. apply (S [] (o :: t) w m); auto.
      * intros m XM. apply (S [o] t w1 m); auto. cbn [wrun]. rewrite E. reflexivity.
    + intros a b v m -> R1. apply (S (o :: a) b v m); auto. cbn [wrun]. rewrite E. exact R1.
    + split; [exact A|]. split; [exact B|]. rewrite C. destruct o; auto. destruct NU1. exact Logic.I.
Qed.

Lemma add_change_ver m c : length (lm_log m) < lm_ver m -> length (lm_log (add_change m c)) < lm_ver (add_change m c).
Proof.
  intro L. unfold add_change. cbn [lm_log lm_ver].
  destruct (Nat.ltb _ _); [destruct (lm_log m)|]; cbn [app tl length] in *; rewrite ?app_length; cbn [length]; lia.
Qed.
Lemma mexec_ver m o m' : mexec m o = Some m' -> length (lm_log m) < lm_ver m -> length (lm_log m') < lm_ver m'.
Proof.
  intros E L. destruct o; simpl in E.
  - unfold lm_insert in E. destruct (Nat.leb _ _); [|discriminate]. injection E as <-. apply (add_change_ver m _ L).
  - unfold lm_remove in E. destruct (nth_error _ _); [|discriminate]. injection E as <-. apply (add_change_ver (set_vec m _) _ L).
  - unfold lm_pop in E. destruct (rev (lm_vec m)); injection E as <-; auto. apply (add_change_ver (set_vec m _) _ L).
  - injection E as <-. apply (add_change_ver m _ L).
  - unfold lm_swap in E. destruct (nth_error _ a); [|discriminate]. destruct (nth_error _ b); [|discriminate].
    injection E as <-. apply (add_change_ver m _ L).
  - unfold lm_move in E. fold (moved from to (lm_vec m)) in E. destruct (Nat.ltb _ _); [|discriminate].
    destruct (nth_error _ _); [|discriminate]. injection E as <-. apply (add_change_ver (set_vec m _) _ L).
  - injection E as <-. cbn. lia.
Qed.
Lemma mhist_ver id v0 m vs : mhist id v0 m vs -> length (lm_log m) < lm_ver m.
Proof. intro H. induction H; [cbn; lia|auto|eapply mexec_ver; eauto]. Qed.
Lemma mruns_ver m ops m' vs : mruns m ops m' vs -> length (lm_log m) < lm_ver m -> length (lm_log m') < lm_ver m'.
Proof. intro R. induction R; auto. intro L. apply IHR. eapply mexec_ver; eauto. Qed.
