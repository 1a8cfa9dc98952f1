(** Properties C35, C36: ListModel and ModeledList. *)
From Coq Require Import List Arith NArith Bool Permutation Lia.
From Verif Require Import Util Dom Context Spec_render Render_history
  Spec_list DynList Spec_dynlist DynList_proofs DynList_run_proofs Props_dynlist
  Calls Calls_proofs List_lemmas Props_lists Modeled Spec_modeled Modeled_proofs.
Import ListNotations.

Lemma nth_firstn_lt {A} (l : list A) i j : j < i -> nth_error (firstn i l) j = nth_error l j.
Proof.
  revert i j. induction l as [|x l IH]; intros [|i] [|j] H; simpl; auto; try lia. apply IH. lia.
Qed.
Lemma nth_skipn {A} (l : list A) i j : nth_error (skipn i l) j = nth_error l (i + j).
Proof.
  revert i. induction l as [|x l IH]; intros [|i]; simpl; auto. destruct j; auto.
Qed.

(** C35, effect: every operation panics exactly when the Vec operation of the same
    name does (move_item: when an index is out of bounds), and otherwise has its
    effect on the vector; [remove] and [pop] return the removed item. *)
Theorem C35_model_is_vec :
  forall m o,
  (mexec m o <> None <-> in_range o (lm_vec m)) /\
  (forall m', mexec m o = Some m' -> vec_spec o (lm_vec m) (lm_vec m')).
Proof.
  intros m o. split.
  - destruct o; simpl; try (split; [auto|discriminate]); try (split; [auto|intros; discriminate]).
    + unfold lm_insert. destruct (Nat.leb_spec i (length (lm_vec m))); split; auto; try discriminate; try lia. congruence.
    + unfold lm_remove. rewrite <- nth_error_Some. destruct (nth_error (lm_vec m) i); split; congruence.
    + unfold lm_swap. rewrite <- !nth_error_Some.
      destruct (nth_error (lm_vec m) a), (nth_error (lm_vec m) b); split; try tauto; try (intros; split; congruence); intros; try congruence; destruct H; congruence.
    + unfold lm_move. fold (moved from to (lm_vec m)).
      destruct (Nat.ltb_spec (Nat.max from to) (length (lm_vec m))) as [L|L].
      * split; [lia|]. intros _. assert (A : from < length (lm_vec m)) by lia. assert (B : to < length (lm_vec m)) by lia.
        destruct (nth_error (moved from to (lm_vec m)) to) eqn:F; [discriminate|]. apply nth_error_None in F.
        destruct (moved_split from to (lm_vec m) A B) as (P & x & C & D & [(E1 & M & _)|(E1 & M & _)]);
          rewrite M, E1 in *; rewrite ?app_length in *; simpl in *; rewrite ?app_length in *; simpl in *; lia.
      * split; [congruence|lia].
  - intros m' E. destruct o; cbn [mexec vec_spec] in E |- *.
    + unfold lm_insert in E. destruct (Nat.leb_spec i (length (lm_vec m))); [|discriminate]. inversion E; subst; clear E. cbn [lm_vec add_change set_vec].
      unfold v_insert. assert (LF : length (firstn i (lm_vec m)) = i) by (apply firstn_length_le; auto).
      split; [rewrite app_length; simpl; rewrite LF, skipn_length; lia|].
      split; [rewrite nth_error_app2, LF, Nat.sub_diag by lia; auto|]. split.
      * intros j L. rewrite nth_error_app1 by lia. apply nth_firstn_lt; auto.
      * intros j L. rewrite nth_error_app2, LF by lia. replace (S j - i) with (S (j - i)) by lia. cbn [nth_error].
        rewrite nth_skipn. f_equal. lia.
    + unfold lm_remove in E. destruct (nth_error (lm_vec m) i) as [k|] eqn:N; [|discriminate]. inversion E; subst; clear E. cbn [lm_vec add_change set_vec].
      assert (L : i < length (lm_vec m)) by (apply nth_error_Some; congruence).
      unfold v_remove. assert (LF : length (firstn i (lm_vec m)) = i) by (apply firstn_length_le; lia).
      split; [rewrite app_length, LF, skipn_length; lia|]. split.
      * intros j LJ. rewrite nth_error_app1 by lia. apply nth_firstn_lt; auto.
      * intros j LJ. rewrite nth_error_app2, LF by lia. rewrite nth_skipn.
        replace (S i + (j - i)) with (S j) by lia. auto.
    + unfold lm_pop in E. destruct (rev (lm_vec m)) as [|k t] eqn:R.
      * inversion E; subst. rewrite <- (rev_involutive (lm_vec m')), R. auto.
      * inversion E; subst; clear E. cbn [lm_vec add_change set_vec]. rewrite <- (rev_involutive (lm_vec m)), R. simpl.
        rewrite app_length. simpl. rewrite Nat.add_sub. rewrite firstn_app, firstn_all, Nat.sub_diag. simpl. rewrite app_nil_r. auto.
    + inversion E; subst. auto.
    + unfold lm_swap in E. destruct (nth_error (lm_vec m) a) as [x|] eqn:A; [|discriminate].
      destruct (nth_error (lm_vec m) b) as [y|] eqn:B; [|discriminate]. inversion E; subst; clear E. cbn [lm_vec add_change set_vec].
      assert (LA : a < length (lm_vec m)) by (apply nth_error_Some; congruence).
      assert (LB : b < length (lm_vec m)) by (apply nth_error_Some; congruence).
      split; [rewrite !v_set_length; auto|].
      rewrite !v_set_nth by (rewrite ?v_set_length; auto). rewrite !Nat.eqb_refl. split; [|split].
      * destruct (Nat.eqb_spec a b); subst; congruence.
      * auto.
      * intros j NA NB. rewrite !v_set_nth by (rewrite ?v_set_length; auto).
        rewrite (proj2 (Nat.eqb_neq j b)), (proj2 (Nat.eqb_neq j a)) by auto. auto.
    + unfold lm_move in E. fold (moved from to (lm_vec m)) in E.
      destruct (Nat.ltb_spec (Nat.max from to) (length (lm_vec m))) as [L|L]; [|discriminate].
      assert (A : from < length (lm_vec m)) by lia. assert (B : to < length (lm_vec m)) by lia.
      destruct (nth_error (moved from to (lm_vec m)) to) eqn:F; [|discriminate]. injection E as <-.
      cbn [lm_vec add_change set_vec]. clear F L n.
      destruct (moved_split from to (lm_vec m) A B) as (P & x & C & D & [(E1 & M & E2 & E3)|(E1 & M & E2 & E3)]);
        rewrite M, E1; clear M E1 A B; subst from to.
      * split; [rewrite ?app_length; simpl; rewrite ?app_length; simpl; lia|].
        split. { rewrite (nth_mid P) by auto. rewrite app_assoc. apply nth_mid. rewrite app_length. auto. }
        split. { intros _ j [L1 L2]. rewrite !(nth_error_app2 P) by lia.
                 replace (S j - length P) with (S (j - length P)) by lia. cbn [nth_error].
                 rewrite !nth_error_app1 by lia. auto. }
        split. { intros L j [L1 L2]. lia. }
        intros j [[L1 L2]|[L1 L2]].
        -- rewrite !(nth_error_app1 P) by lia. auto.
        -- rewrite !(nth_error_app2 P) by lia. rewrite (nth_error_app2 C) by lia.
           replace (j - length P) with (S (j - length P - 1)) at 2 by lia. cbn [nth_error].
           rewrite nth_error_app2 by lia.
           replace (j - length P - length C) with (S (j - length P - 1 - length C)) by lia. auto.
      * split; [rewrite ?app_length; simpl; rewrite ?app_length; simpl; lia|].
        split. { rewrite (nth_mid P) by auto. rewrite app_assoc. symmetry. apply nth_mid. rewrite app_length. auto. }
        split. { intros L j [L1 L2]. lia. }
        split. { intros _ j [L1 L2]. rewrite !(nth_error_app2 P) by lia.
                 replace (S j - length P) with (S (j - length P)) by lia. cbn [nth_error].
                 rewrite !nth_error_app1 by lia. auto. }
        intros j [[L1 L2]|[L1 L2]].
        -- rewrite !(nth_error_app1 P) by lia. auto.
        -- rewrite !(nth_error_app2 P) by lia. rewrite (nth_error_app2 C _ (n := j - length P)) by lia.
           replace (j - length P) with (S (j - length P - 1)) at 1 by lia. cbn [nth_error].
           rewrite nth_error_app2 by lia.
           replace (j - length P - length C) with (S (j - length P - 1 - length C)) by lia. auto.
    + inversion E; subst. auto.
Qed.
Print Assumptions C35_model_is_vec.

Theorem C35_returned_items :
  forall m,
  (forall i k m', lm_remove m i = Some (k, m') -> nth_error (lm_vec m) i = Some k) /\
  fst (lm_pop m) = nth_error (lm_vec m) (length (lm_vec m) - 1).
Proof.
  intro m. split.
  - intros i k m'. unfold lm_remove. destruct (nth_error (lm_vec m) i); intro E; inversion E; auto.
  - unfold lm_pop. destruct (rev (lm_vec m)) as [|k t] eqn:R.
    + rewrite <- (rev_involutive (lm_vec m)), R. auto.
    + rewrite <- (rev_involutive (lm_vec m)), R. simpl. rewrite app_length. simpl. rewrite Nat.add_sub.
      rewrite nth_error_app2, Nat.sub_diag by lia. auto.
Qed.
Print Assumptions C35_returned_items.

(** C35, log: through any history of operations keeping the items unique, the
    retained log holds the most recent changes: for every version it reaches back
    to, replaying the later changes (by their documented meaning) on the vector of
    that version gives the current vector.  [vs] are the vectors of all versions,
    newest first. *)
Theorem C35_log_faithful :
  forall id v0 m vs, mhist id v0 m vs -> Forall (@NoDup key) vs ->
  length (lm_log m) < length vs /\
  forall n v, n <= length (lm_log m) -> nth_error vs n = Some v ->
    fold_left apply_change (skipn (length (lm_log m) - n) (lm_log m)) v = lm_vec m.
Proof.
  intros id v0 m vs H F.
  assert (X : log_ok f_replay m vs /\ lm_id m = id).
  { induction H as [|m vs o H IH E|m vs o m' H IH E N].
    - split; [apply log_ok_new|]; auto.
    - auto.
    - inversion F; subst. destruct IH as [IH ID]; auto.
      assert (ND : NoDup (lm_vec m)).
      { destruct IH as (_ & _ & (t & ->) & _). inversion H3; auto. }
      destruct (mexec_kind m o m' E ND H2) as (I1 & [K|[(c & T & V & A & _)|(T & V)]]).
      + congruence.
      + split; [|congruence]. eapply log_ok_step; eauto using f_replay_app; try reflexivity.
        all: try (unfold f_replay, replay; simpl; congruence).
      + split; [|congruence]. eapply log_ok_clear; eauto. }
  destruct X as [(L & LL & _ & R) _]. split; [lia|]. intros n v N E. specialize (R n v N E).
  unfold f_replay, replay in R. inversion R; auto.
Qed.
Print Assumptions C35_log_faithful.

(** C35, memory: the log never holds more changes than half of the largest size that the
    vector has had. *)
Theorem C35_log_bounded :
  forall id v0 m vs B, mhist id v0 m vs -> Forall (fun v => length v <= B) vs ->
  2 * length (lm_log m) <= B.
Proof.
  intros id v0 m vs B H. 
  assert (X : forall m vs, mhist id v0 m vs -> exists t, vs = lm_vec m :: t).
  { clear. intros m vs H. induction H; eauto. }
  induction H as [|m vs o H IH E|m vs o m' H IH E N]; intro F; auto.
  - cbn. lia.
  - inversion F as [|? ? F1 F2]; subst. destruct (X m vs H) as (t & ->). inversion F2; subst.
    eapply mexec_length; eauto.
Qed.
Print Assumptions C35_log_bounded.

(** C35, identity: in any legal history with several models, all have different
    identities (a clone is a new model), and changing one leaves the others alone. *)
Theorem C35_identities :
  forall ops w, wlegal_run mw_init ops -> wrun mw_init ops = Some w ->
  NoDup (map lm_id (mw_models w)) /\
  (forall i o w' j, wexec w (WOp i o) = Some w' -> j <> i ->
     nth_error (mw_models w') j = nth_error (mw_models w) j).
Proof.
  intros ops w L E. destruct (wrun_ok ops mw_init minv_init L) as (w1 & E1 & I). rewrite E in E1. inversion E1; subst w1.
  split; [apply I|]. intros i o w' j X N. simpl in X.
  destruct (nth_error (mw_models w) i) as [m|] eqn:NE; [|discriminate].
  destruct (mexec m o) as [m'|]; [|discriminate]. inversion X; subst; clear X. cbn [mw_models].
  destruct (nth_split_at _ _ _ NE) as [S0 LF]. unfold m_set.
  destruct (Nat.lt_ge_cases j i).
  - rewrite nth_error_app1 by lia. apply nth_firstn_lt; auto.
  - rewrite nth_error_app2, LF by lia. replace (j - i) with (S (j - i - 1)) by lia. cbn [nth_error].
    rewrite nth_skipn. f_equal. lia.
Qed.
Print Assumptions C35_identities.

Definition ex_mops : list wop :=
  [WNew [1; 2; 3; 4]; WUpdate 0; WOp 0 (OInsert 1 7); WOp 0 (OMove 4 0); WUpdate 0;
   WClone 0; WOp 1 (OSwap 0 3); WUpdate 1; WOp 0 (ORemove 2); WOp 0 OPop; WOp 0 (OPush 9);
   WOp 0 (OModify [5; 9; 1]); WOp 0 (OPush 6); WUpdate 0].
Lemma wlegal_prefix ops : forall w,
  (forall n o w1, nth_error ops n = Some o -> wrun w (firstn n ops) = Some w1 -> wlegal w1 o) ->
  wlegal_run w ops.
Proof.
  induction ops as [|o t IH]; intros w H; [exact I|]. split.
  - apply (H 0 o w); auto.
  - intros w' E. apply IH. intros n o1 w1 N R. apply (H (S n) o1 w1); auto. simpl. rewrite E, R. auto.
Qed.
Lemma ex_mlegal : wlegal_run mw_init ex_mops.
Proof.
  apply wlegal_prefix. intros n o w1 N R.
  assert (ND : forall l : list key, (if list_eq_dec Nat.eq_dec (nodup Nat.eq_dec l) l then true else false) = true -> NoDup l).
  { intros l H. destruct (list_eq_dec Nat.eq_dec (nodup Nat.eq_dec l) l) as [<-|]; [apply NoDup_nodup|discriminate]. }
  do 14 (destruct n as [|n];
    [injection N as <-; vm_compute in R; injection R as <-; simpl;
     first [ lia | exact I | apply ND; reflexivity
           | eexists; split; [reflexivity|]; split; [simpl; lia|];
             split; [intros m' E; vm_compute in E; injection E as <-; apply ND; reflexivity|]; simpl; try exact I; try lia ]|]).
  destruct n; discriminate N.
Qed.

Example C35_nonvacuous :
  wlegal_run mw_init ex_mops /\
  (exists w, wrun mw_init ex_mops = Some w /\ map lm_vec (mw_models w) = [[5; 9; 1; 6]; [2; 1; 7; 4; 3]]) /\
  exists m vs, mhist 0 [1; 2; 3; 4] m vs /\ Forall (@NoDup key) vs /\ length (lm_log m) = 2 /\ length vs = 4.
Proof.
  split; [apply ex_mlegal|]. split; [eexists; split; vm_compute; reflexivity|].
  assert (H0 := mhist_new 0 [1; 2; 3; 4]).
  assert (H1 := mhist_step _ _ _ _ (OPush 9) _ H0 eq_refl ltac:(discriminate)).
  assert (H2 := mhist_step _ _ _ _ (OSwap 0 1) _ H1 eq_refl ltac:(discriminate)).
  assert (H3 := mhist_step _ _ _ _ (OMove 0 2) _ H2 eq_refl ltac:(discriminate)).
  eexists; eexists. split; [exact H3|].
  split; [|split; reflexivity]. repeat constructor; simpl; intuition discriminate.
Qed.

(** C36.  Any number of models, created, cloned, dropped and changed in any way
    that keeps their items unique, shown by one ModeledList updated with any of
    them at any time: no update panics, and right after update(model) the list
    holds exactly the model's items in the model's order.  Missing: swap(i, i+1) on
    a model (excluded by [wlegal], see C36_adjacent_swap_refuted). *)
Theorem C36_update_partial :
  forall ops i, wlegal_run mw_init (ops ++ [WUpdate i]) ->
  exists w m, wrun mw_init (ops ++ [WUpdate i]) = Some w /\
    nth_error (mw_models w) i = Some m /\ ml_keys (mw_list w) = lm_vec m.
Proof.
  intros ops i L.
  assert (X : forall ops w, MInv w -> wlegal_run w (ops ++ [WUpdate i]) ->
     exists w' m, wrun w (ops ++ [WUpdate i]) = Some w' /\
        nth_error (mw_models w') i = Some m /\ ml_keys (mw_list w') = lm_vec m).
  { clear. induction ops as [|o t IH]; intros w I L.
    - cbn [app wlegal_run] in L. destruct L as [L _].
      destruct (wexec_ok w (WUpdate i) I L) as (w1 & E & I1 & m & N & K).
      exists w1, m. cbn [app wrun]. rewrite E. auto.
    - cbn [app wlegal_run] in L. destruct L as [L L'].
      destruct (wexec_ok w o I L) as (w1 & E & I1 & _). cbn [app wrun]. rewrite E. apply IH; auto. }
  apply X; auto. apply minv_init.
Qed.
Print Assumptions C36_update_partial.

(** C36 on the document: the calls of such an update, issued to the DynamicList
    that shows the list's current keys. *)
Theorem C36_document_partial :
  forall mops mw i m r fr s e ops w lops sts,
  wlegal_run mw_init mops -> wrun mw_init mops = Some mw -> nth_error (mw_models mw) i = Some m ->
  reached r fr s e ops w -> keys_after ops = ml_keys (mw_list mw) ->
  issued (ml_calls (mw_list mw) m) lops sts -> new_nodes w sts ->
  exists w', lrun w lops = Some (w', arets (keys_after ops) lops) /\
    reached r fr s e (ops ++ lops) w' /\ keys_after (ops ++ lops) = lm_vec m.
Proof.
  intros mops mw i m r fr s e ops w lops sts L E N R K IS NN.
  destruct (wrun_ok mops mw_init minv_init L) as (w1 & E1 & I). rewrite E in E1. inversion E1; subst w1.
  assert (N0 := nth_error_In _ _ N). destruct (mi_log _ I m N0) as (vs & LO & U).
  assert (UP := ml_update_ok _ _ _ LO (mi_keys _ I) (mi_nodup _ I _ N0) U).
  unfold ml_update in UP. destruct (druns (ml_keys (mw_list mw)) (ml_calls (mw_list mw) m)) as [ks|] eqn:D; [|discriminate].
  inversion UP; subst ks. rewrite <- K in D.
  destruct (calls_on_document _ _ _ _ _ _ _ _ _ _ R IS NN D) as (w' & A & B & C & _). exists w'. auto.
Qed.
Print Assumptions C36_document_partial.

(** C36, items that stay.  After an update (with any model), let anything happen except
    updates; then update with model [m].  An item that the list showed and that was in the
    vector of [m] all the time since keeps its future: none of the calls of the update
    removes or replaces it.  By [calls_on_document] the item's nodes and future are those
    from before. *)
Theorem C36_keeps_items :
  forall ops1 i ops2 w1 w2 m k,
  wlegal_run mw_init ((ops1 ++ [WUpdate i]) ++ ops2) ->
  wrun mw_init (ops1 ++ [WUpdate i]) = Some w1 -> wrun w1 ops2 = Some w2 ->
  Forall (fun o => ~ is_update o) ops2 ->
  In m (mw_models w2) -> In k (ml_keys (mw_list w1)) ->
  (forall a b w m', ops2 = a ++ b -> wrun w1 a = Some w -> In m' (mw_models w) ->
     lm_id m' = lm_id m -> In k (lm_vec m')) ->
  forall c, In c (ml_calls (mw_list w2) m) -> spares k c.
Proof.
  intros ops1 i ops2 w1 w2 m k L R1 R2 NU IM IK S c.
  assert (LA : forall a b w, wlegal_run w (a ++ b) -> wlegal_run w a /\ forall w', wrun w a = Some w' -> wlegal_run w' b).
  { clear. induction a as [|o a IH]; cbn [app wlegal_run wrun]; intros b w H.
    - split; [exact I|]. intros w' [= <-]. exact H.
    - destruct H as [H1 H2]. split; [split; [exact H1|intros w' E; apply (IH b), H2, E]|].
      intros w'. destruct (wexec w o) as [w1|]; [|discriminate]. apply (IH b), H2. reflexivity. }
  destruct (LA _ _ _ L) as [L1 L2]. specialize (L2 _ R1).
  destruct (wrun_ok _ _ minv_init L1) as (w1' & E1 & I1). rewrite R1 in E1. injection E1 as <-.
  assert (K0 : KInv (lm_id m) k w1).
  { destruct (LA _ _ _ L1) as [L3 L4]. destruct (wrun_ok _ _ minv_init L3) as (w0 & E0 & I0).
    assert (RA : forall a b w, wrun w (a ++ b) = match wrun w a with None => None | Some w' => wrun w' b end).
    { clear. induction a as [|o a IH]; intros b w; cbn [app wrun]; auto. destruct (wexec w o); auto. }
    rewrite RA, E0 in R1. cbn [wrun wexec] in R1. destruct (nth_error (mw_models w0) i) as [m0|] eqn:N; [|discriminate].
    destruct (ml_update (mw_list w0) m0) as [s|] eqn:U; [|discriminate]. injection R1 as <-.
    unfold ml_update in U. destruct (druns _ _); [|discriminate]. injection U as <-.
    intros m1 X ID U c'. cbn [mw_models mw_list ml_uid ml_ver] in *. injection U as U.
    assert (m1 = m0) by (apply (same_id (mw_models w0)); auto; [apply I0|eapply nth_error_In; eauto|congruence]). subst m1.
    rewrite Nat.sub_diag, recent_0. intros []. }
  destruct (keeps_items (lm_id m) k ops2 w1 w2 I1 K0 L2 R2 NU S) as (K & I2 & EL).
  assert (KV : In k (lm_vec m)) by (apply (S ops2 [] w2 m); auto; symmetry; apply app_nil_r).
  unfold ml_calls. destruct (same_model (ml_uid (mw_list w2)) (lm_id m)) eqn:SM; cbn [andb].
  - assert (UE : ml_uid (mw_list w2) = Some (lm_id m)).
    { unfold same_model in SM. destruct (ml_uid (mw_list w2)); [|discriminate]. apply Nat.eqb_eq in SM. congruence. }
    destruct (mi_log _ I2 m IM) as (vs & LO & UU). destruct (UU UE) as [U1 _]. destruct LO as (_ & LL & _).
    destruct (Nat.leb_spec (lm_ver m - length (lm_log m)) (ml_ver (mw_list w2))).
    + intro H1. apply in_map_iff in H1 as (x & <- & H1). apply (K m IM eq_refl UE). unfold recent.
      replace (length (lm_log m) - (lm_ver m - ml_ver (mw_list w2))) with (ml_ver (mw_list w2) - (lm_ver m - length (lm_log m))) by lia. exact H1.
    + apply rebuild_spares; auto. rewrite EL. exact IK.
  - apply rebuild_spares; auto. rewrite EL. exact IK.
Qed.
Print Assumptions C36_keeps_items.

(** ... so on the document its nodes, and with them its future, are those from before. *)
Theorem C36_keeps_futures :
  forall ops1 i ops2 w1 w2 m k st r fr s e ops w lops sts,
  wlegal_run mw_init ((ops1 ++ [WUpdate i]) ++ ops2) ->
  wrun mw_init (ops1 ++ [WUpdate i]) = Some w1 -> wrun w1 ops2 = Some w2 ->
  Forall (fun o => ~ is_update o) ops2 ->
  In m (mw_models w2) -> In k (ml_keys (mw_list w1)) ->
  (forall a b w m', ops2 = a ++ b -> wrun w1 a = Some w -> In m' (mw_models w) ->
     lm_id m' = lm_id m -> In k (lm_vec m')) ->
  reached r fr s e ops w -> keys_after ops = ml_keys (mw_list w2) ->
  issued (ml_calls (mw_list w2) m) lops sts -> new_nodes w sts ->
  In (k, st) (dl_items (lw_l w)) ->
  exists w', lrun w lops = Some (w', arets (keys_after ops) lops) /\ In (k, st) (dl_items (lw_l w')).
Proof.
  intros ops1 i ops2 w1 w2 m k st r fr s e ops w lops sts L R1 R2 NU IM IK S R K IS NN IN.
  pose proof (C36_keeps_items _ _ _ _ _ _ _ L R1 R2 NU IM IK S) as SP.
  assert (RA : wrun mw_init ((ops1 ++ [WUpdate i]) ++ ops2) = Some w2).
  { rewrite <- R2. clear -R1. revert R1. generalize mw_init, (ops1 ++ [WUpdate i]). intros w0 l. revert w0.
    induction l as [|o l IH]; intros w0 E; cbn [app wrun] in *; [congruence|]. destruct (wexec w0 o); [auto|discriminate]. }
  destruct (wrun_ok _ _ minv_init L) as (w2' & E2 & I). rewrite RA in E2. injection E2 as <-.
  destruct (mi_log _ I m IM) as (vs & LO & U).
  assert (UP := ml_update_ok _ _ _ LO (mi_keys _ I) (mi_nodup _ I _ IM) U).
  unfold ml_update in UP. destruct (druns (ml_keys (mw_list w2)) (ml_calls (mw_list w2) m)) as [ks|] eqn:D; [|discriminate].
  rewrite <- K in D.
  destruct (calls_on_document _ _ _ _ _ _ _ _ _ _ R IS NN D) as (w' & A & _ & _ & B). exists w'. auto.
Qed.
Print Assumptions C36_keeps_futures.

(** C36, incremental: if a model was changed by [n] operations (other than modify_vec) since
    the list was last updated with it, and always had at least [2 * n] items, the update
    makes at most [n] calls on the DynamicList, however many items there are. *)
Theorem C36_incremental :
  forall id v0 m vs0 ops m' vs s,
  mhist id v0 m vs0 -> mruns m ops m' vs -> Forall (fun o => ~ is_modify o) ops ->
  Forall (fun v => 2 * length ops <= length v) vs ->
  ml_uid s = Some (lm_id m) -> ml_ver s = lm_ver m ->
  length (ml_calls s m') <= length ops.
Proof.
  intros id v0 m vs0 ops m' vs s HM R NM FV U V.
  pose proof (mruns_ver _ _ _ _ R (mhist_ver _ _ _ _ HM)) as LV.
  destruct (mruns_keeps _ _ _ _ R (length ops) 0 NM FV ltac:(lia) ltac:(lia)) as (ID & d & A & B & C).
  unfold ml_calls. rewrite U, ID. cbn [same_model]. rewrite Nat.eqb_refl. cbn [andb].
  rewrite (proj2 (Nat.leb_le _ _)) by lia. rewrite map_length, skipn_length. lia.
Qed.
Print Assumptions C36_incremental.

(** witnesses: two changes of a list of six items are two calls, and the items that were
    there throughout stay *)
Example C36_incremental_nonvacuous :
  exists m m' vs s,
    mhist 0 [1; 2; 3; 4; 5; 6] m [[1; 2; 3; 4; 5; 6]] /\
    ml_update ml_new m = Some s /\ mruns m [OSwap 0 2; OPush 7] m' vs /\
    Forall (fun v => 2 * length [OSwap 0 2; OPush 7] <= length v) vs /\
    ml_uid s = Some (lm_id m) /\ ml_ver s = lm_ver m /\ length (ml_calls s m') = 2.
Proof.
  exists (lm_from [1; 2; 3; 4; 5; 6] 0).
  eexists; eexists; eexists. split; [constructor|]. split; [vm_compute; reflexivity|].
  split; [eapply mruns_cons; [vm_compute; reflexivity|]; eapply mruns_cons; [vm_compute; reflexivity|]; apply mruns_nil|].
  split; [repeat constructor; simpl; lia|]. repeat split.
Qed.
Example C36_keeps_items_nonvacuous :
  exists w1 w2 m, wlegal_run mw_init (([WNew [1; 2; 3; 4]] ++ [WUpdate 0]) ++ [WOp 0 (OInsert 1 7); WOp 0 (OMove 4 0)]) /\
    wrun mw_init ([WNew [1; 2; 3; 4]] ++ [WUpdate 0]) = Some w1 /\
    wrun w1 [WOp 0 (OInsert 1 7); WOp 0 (OMove 4 0)] = Some w2 /\ nth_error (mw_models w2) 0 = Some m /\
    lm_vec m = [4; 1; 7; 2; 3] /\
    ml_calls (mw_list w2) m = [DInsert 7 (Some 2) (Some false); DMove 4 (Some 1)].
Proof.
  eexists; eexists; eexists. split.
  - destruct ex_mlegal as (A & B). split; [exact A|]. intros w' E. specialize (B w' E). destruct B as (B & C). split; [exact B|].
    intros w'' E'. specialize (C w'' E'). destruct C as (C & D). split; [exact C|]. intros w3 E3. specialize (D w3 E3). destruct D as (D & _).
    split; [exact D|]. intros; exact Logic.I.
  - repeat split; vm_compute; reflexivity.
Qed.

Example C36_nonvacuous :
  wlegal_run mw_init (firstn 13 ex_mops ++ [WUpdate 0]) /\
  (exists w, wrun mw_init ex_mops = Some w /\ ml_keys (mw_list w) = [5; 9; 1; 6]).
Proof. split; [apply ex_mlegal|]. eexists; split; vm_compute; reflexivity. Qed.

(** C36 refuted: show the model [1; 3; 2], swap its first two items, update.  The
    update replays swap(1, 3), which tears the second item apart in the document:
    it does not show the items in any order. *)
Theorem C36_adjacent_swap_refuted :
  exists mw m w w',
    wrun mw_init [WNew [1; 3; 2]; WUpdate 0; WOp 0 (OSwap 0 1)] = Some mw /\
    nth_error (mw_models mw) 0 = Some m /\ lm_vec m = [3; 1; 2] /\
    reached ex_r 100 101 102 (firstn 8 ex_ops) w /\
    keys_after (firstn 8 ex_ops) = ml_keys (mw_list mw) /\
    issued (ml_calls (mw_list mw) m) [LSwap 1 3] [] /\
    lrun w [LSwap 1 3] = Some (w', [None]) /\
    kids (rdom (lw_r w')) 0 = [5; 101; 11; 13; 12; 33; 32; 31; 21; 23; 24; 22; 102; 6] /\
    (forall ks, ~ shows w' (contents_after [] (fun _ => []) (firstn 8 ex_ops))
                  [11; 13; 12; 33; 32; 31; 21; 23; 24; 22] ks).
Proof.
  eexists; eexists. exists (ex_state 8), ex_torn.
  split; [vm_compute; reflexivity|]. split; [reflexivity|]. split; [reflexivity|].
  split; [apply ex_reached; repeat constructor|]. split; [vm_compute; reflexivity|].
  split; [vm_compute; repeat constructor|].
  destruct ex_torn_witness as (A & _ & B & C). cbn [lrun lexec]. rewrite A. auto.
Qed.
Print Assumptions C36_adjacent_swap_refuted.
