(** Properties C33-C37: DiffedList, ListModel, ModeledList, VirtualizedList. *)
From Coq Require Import List Arith NArith Bool Permutation Sorting.Sorted Lia.
From Verif Require Import Util Position Dom Context Spec_path Spec_render Render_history
  Spec_list DynList Spec_dynlist DynList_proofs DynList_run_proofs Props_dynlist
  Calls Calls_proofs List_lemmas Diffed Diffed_proofs.
Import ListNotations.

Lemma calls_keep k st cs : forall lops sts w w' bs, issued cs lops sts -> lrun w lops = Some (w', bs) ->
  (forall c, In c cs -> spares k c) -> In (k, st) (dl_items (lw_l w)) -> In (k, st) (dl_items (lw_l w')).
Proof.
  induction cs as [|c cs IH]; intros lops sts w w' bs IS E SP H.
  - inversion IS; subst. simpl in E. inversion E; subst; auto.
  - apply issued_cons in IS as (o & ops' & sts' & -> & -> & IS & C & I1).
    simpl in E. destruct (lexec w o) as [[w1 b1]|] eqn:E1; [|discriminate].
    destruct (lrun w1 ops') as [[w2 bs2]|] eqn:E2; [|discriminate]. inversion E; subst.
    eapply IH; eauto. { intros c' Hc. apply SP. simpl; auto. }
    eapply call_keeps; eauto. specialize (SP c (or_introl eq_refl)).
    inversion I1; subst; auto.
Qed.

(** The meaning of calls ([dstep]) is that of the DynamicList on the document:
    whatever a component issues to a list reached by any legal history, if the
    meaning is defined the calls do not panic, every call returns whether its key
    was present, the resulting history is again legal (so C28 describes the
    document) and its keys are as computed; items neither replaced nor removed
    keep their task and markers. *)
Theorem calls_on_document :
  forall r fr s e ops w cs lops sts ks,
  reached r fr s e ops w -> issued cs lops sts -> new_nodes w sts ->
  druns (keys_after ops) cs = Some ks ->
  exists w', lrun w lops = Some (w', arets (keys_after ops) lops) /\
    reached r fr s e (ops ++ lops) w' /\ keys_after (ops ++ lops) = ks /\
    (forall k st, In (k, st) (dl_items (lw_l w)) -> (forall c, In c cs -> spares k c) ->
       In (k, st) (dl_items (lw_l w'))).
Proof.
  intros r fr s e ops w cs lops sts ks R IS NN D.
  destruct (reached_inv _ _ _ _ _ _ R) as (segs & P & Q & I & K & AI & S & EE).
  rewrite <- K in D.
  destruct (calls_run cs w segs P Q _ lops sts ks I AI IS NN D) as (L & w' & segs' & E & I' & K' & AI' & ST).
  rewrite K in *.
  assert (KS : keys_after (ops ++ lops) = ks).
  { destruct R as (F & w0 & E0 & L0 & bs & R0).
    assert (R' : reached r fr s e (ops ++ lops) w').
    { split; auto. exists w0. split; auto. split.
      - eapply legal_lrun_app; eauto.
      - eexists. eapply lrun_app; eauto. }
    destruct (reached_inv _ _ _ _ _ _ R') as (segs2 & P2 & Q2 & I2 & K2 & _).
    unfold keys_after. rewrite fold_left_app. fold (keys_after ops). clear -D IS K'.
    revert D. generalize (keys_after ops). rewrite <- K'. clear K'. revert lops sts IS.
    induction cs as [|c cs IH]; intros lops sts IS ks0 D.
    - inversion IS; subst. simpl in *. inversion D; auto.
    - simpl in D. destruct (dstep ks0 c) as [ks1|] eqn:D1; [|discriminate].
      assert (A : forall o, issued [c] [o] (brought o) -> astep ks0 o = ks1).
      { intros o IO. inversion IO; subst; simpl in D1 |- *.
        - destruct (_ && _) in D1; inversion D1; auto.
        - destruct (expected _ _) in D1; inversion D1; auto.
        - destruct (_ && _) in D1; inversion D1; auto.
        - destruct (_ && _) in D1; inversion D1; auto.
        - inversion D1; auto. }
      apply issued_cons in IS as (o & ops' & sts' & -> & -> & IS & C & I1).
      simpl. rewrite (A o I1). eapply IH; eauto. }
  exists w'. split; auto. split; [|split; auto].
  - destruct R as (F & w0 & E0 & L0 & bs & R0). split; auto. exists w0. split; auto. split.
    + eapply legal_lrun_app; eauto.
    + eexists. eapply lrun_app; eauto.
  - intros k st H SP. eapply calls_keep; eauto.
Qed.
Print Assumptions calls_on_document.

(** C33.  After any sequence of updates with any key vectors (repetitions
    allowed), whatever order the hash set yields its keys in: nothing panicked and
    the list contains exactly the keys of the last vector. *)
Theorem C33_diffed_set :
  forall us : list (list key * (list key -> list key)),
  (forall new drain, In (new, drain) us -> forall set, Permutation (drain set) set) ->
  exists s, diff_run diff_new us = Some s /\ NoDup (df_keys s) /\
    forall k, diff_contains s k = true <-> In k (last (map fst us) []).
Proof.
  intros us H.
  assert (X : forall us s, (forall new drain, In (new, drain) us -> forall set, Permutation (drain set) set) ->
    NoDup (df_keys s) -> (forall k, In k (df_keys s) <-> In k (df_prev s)) ->
    exists s', diff_run s us = Some s' /\ NoDup (df_keys s') /\
      (forall k, In k (df_keys s') <-> In k (df_prev s')) /\ df_prev s' = last (map fst us) (df_prev s)).
  { clear. induction us as [|[new drain] t IH]; intros s H ND S.
    - exists s. simpl. auto.
    - simpl. unfold diff_update.
      destruct (diff_calls_set drain (df_prev s) new (df_keys s)) as (ks & R & N & A); auto.
      { eapply H; left; reflexivity. }
      rewrite R. destruct (IH (mkDiffed new ks)) as (s' & R' & N' & S' & L); auto.
      { intros; eapply H; right; eauto. }
      exists s'. repeat (split; auto). rewrite L. simpl.
      destruct t as [|a t']; auto. clear. cbn [map].
      generalize (map fst t'), (fst a). clear. induction l as [|x l IH]; intro y; simpl; auto.
      simpl in IH. apply IH. }
  destruct (X us diff_new) as (s & R & N & S & L); auto.
  { constructor. } { intro; tauto. }
  exists s. split; auto. split; auto. intro k. unfold diff_contains. rewrite memb_iff, S, L. simpl. tauto.
Qed.
Print Assumptions C33_diffed_set.

(** C33, on the document, with the futures: an update whose previous vector holds
    the list's keys succeeds on the document, and every key present before and
    named once keeps its item (task, group and markers). *)
Theorem C33_diffed_keeps_futures :
  forall r fr s e ops w prev new drain lops sts,
  reached r fr s e ops w ->
  (forall k, In k (keys_after ops) <-> In k prev) ->
  (forall set, Permutation (drain set) set) ->
  issued (diff_calls drain prev new) lops sts -> new_nodes w sts ->
  exists w', lrun w lops = Some (w', arets (keys_after ops) lops) /\
    reached r fr s e (ops ++ lops) w' /\
    (forall k, In k (keys_after (ops ++ lops)) <-> In k new) /\
    (forall k st, In (k, st) (dl_items (lw_l w)) -> count_occ Nat.eq_dec new k = 1 ->
       In (k, st) (dl_items (lw_l w'))).
Proof.
  intros r fr s e ops w prev new drain lops sts R S D IS NN.
  destruct (reached_inv _ _ _ _ _ _ R) as (segs & P & Q & I & K & AI & _).
  destruct (linv_shows _ _ _ _ _ I AI) as (_ & ND & PM). rewrite K in ND.
  destruct (diff_calls_set drain prev new (keys_after ops)) as (ks & RN & N & A); auto.
  destruct (calls_on_document _ _ _ _ _ _ _ _ _ _ R IS NN RN) as (w' & E & R' & K' & SP).
  exists w'. split; auto. split; auto. split; [rewrite K'; auto|].
  intros k st H C. apply SP; auto. intros c Hc. eapply diff_calls_spare; eauto.
  apply S. destruct (in_dec Nat.eq_dec k (keys_after ops)) as [Hi|Hi]; auto.
  rewrite <- K in Hi. apply (linv_none _ _ _ _ k I) in Hi.
  exfalso. clear -H Hi. induction (dl_items (lw_l w)) as [|[k' v] t IH]; simpl in *; [tauto|].
  destruct (Nat.eqb_spec k' k) as [->|N]; [discriminate|].
  destruct H as [H|H]; [inversion H; subst; congruence|auto].
Qed.
Print Assumptions C33_diffed_keeps_futures.

Definition ex_rev (l : list key) := rev l.
Example C33_nonvacuous :
  (forall new drain, In (new, drain) [([1; 2; 3], ex_rev); ([3; 3; 4], fun l => l); ([2; 4; 5; 1], ex_rev)] ->
     forall set, Permutation (drain set) set) /\
  exists s, diff_run diff_new [([1; 2; 3], ex_rev); ([3; 3; 4], fun l => l); ([2; 4; 5; 1], ex_rev)] = Some s /\
    Permutation (df_keys s) [2; 4; 5; 1].
Proof.
  split.
  - intros new drain [H|[H|[H|[]]]] set; inversion H; subst; auto; symmetry; apply Permutation_rev.
  - eexists. split; [vm_compute; reflexivity|]. simpl. auto.
Qed.

(** a list with items 2 3 1 on the document is updated to 3 1 7, bringing new nodes *)
Definition ex_calls := diff_calls ex_rev [2; 3; 1] [3; 1; 7].
Definition ex_st7 := mkStored 70 71 72.
Definition ex_lops : list lop := [LMove 3 (Some 2); LMove 1 (Some 2); LInsert 7 (Some 2) ex_st7; LRemove 2].
Lemma ex_reached9 : reached ex_r 100 101 102 (firstn 9 ex_ops) (ex_state 9).
Proof. apply ex_reached; repeat constructor. Qed.
Lemma ex_new9 : new_nodes (ex_state 9) [ex_st7].
Proof.
  split; [vm_compute; repeat constructor; simpl; intuition discriminate|].
  split; [vm_compute; repeat constructor; simpl; intuition discriminate|].
  intros st [<-|[]]. vm_compute. repeat split; auto. intuition discriminate.
Qed.
Example C33_keeps_futures_nonvacuous :
  reached ex_r 100 101 102 (firstn 9 ex_ops) (ex_state 9) /\
  keys_after (firstn 9 ex_ops) = [2; 3; 1] /\
  issued ex_calls ex_lops [ex_st7] /\ new_nodes (ex_state 9) [ex_st7].
Proof.
  split; [apply ex_reached9|]. split; [reflexivity|]. split; [|apply ex_new9].
  unfold ex_calls. vm_compute. repeat constructor.
Qed.

(** the strongest condition under which an update gives the right order: scanning
    the previous keys, the first one that does not continue a subsequence of the
    new keys is not in the new vector, or the scan reached the new vector's last
    key *)
Definition scan_ok (prev new : list key) : Prop :=
  forall C p rest, prev = C ++ p :: rest -> subseq C new -> ~ subseq (C ++ [p]) new ->
    ~ In p new \/ exists C0 new0 x, C = C0 ++ [x] /\ new = new0 ++ [x].

(** C34, exact: for vectors without repetition, the items appear in the order of
    the new vector if and only if the scan condition holds (the unconditional claim
    is false, see below). *)
Theorem C34_order_exact_partial :
  forall prev new drain, (forall set, Permutation (drain set) set) -> NoDup prev -> NoDup new ->
  exists s, diff_update (mkDiffed prev prev) new drain = Some s /\
    (df_keys s = new <-> scan_ok prev new).
Proof.
  intros prev new drain D NP NN.
  destruct (diff_order drain prev new D NP NN) as (ks & R & G).
  unfold diff_update. simpl. rewrite R. exists (mkDiffed new ks). split; auto.
Qed.
Print Assumptions C34_order_exact_partial.

(** C34 for histories: if each update keeps the relative order of the keys it has
    in common with the previous one (insertions, removals, a first fill: yes;
    reordering: no), every update shows the items in the order of its vector. *)
Fixpoint order_kept (prev : list key) (us : list (list key * (list key -> list key))) : Prop :=
  match us with
  | [] => True
  | (new, drain) :: t => NoDup new /\ (forall set, Permutation (drain set) set) /\
      same_common_order prev new /\ order_kept new t
  end.
Theorem C34_diffed_order_partial :
  forall us, order_kept [] us ->
  exists s, diff_run diff_new us = Some s /\ df_keys s = last (map fst us) [].
Proof.
  intros us H.
  assert (X : forall us prev, NoDup prev -> order_kept prev us ->
    exists s, diff_run (mkDiffed prev prev) us = Some s /\ df_keys s = last (map fst us) prev).
  { clear. induction us as [|[new drain] t IH]; intros prev NP H.
    - exists (mkDiffed prev prev). auto.
    - destruct H as (NN & D & SC & H).
      destruct (diff_order drain prev new D NP NN) as (ks & R & G).
      assert (ks = new) by (apply G, good_common; auto). subst ks.
      simpl. unfold diff_update. simpl. rewrite R. destruct (IH new NN H) as (s & R' & K).
      exists s. split; auto. rewrite K. destruct t as [|a t']; auto. clear. cbn [map].
      generalize (map fst t'), (fst a). clear. induction l as [|x l IH]; intro y; simpl; auto.
      simpl in IH. apply IH. }
  apply (X us []); auto. constructor.
Qed.
Print Assumptions C34_diffed_order_partial.

(** the same on the document *)
Theorem C34_document_partial :
  forall r fr s e ops w new drain lops sts,
  reached r fr s e ops w -> NoDup new -> (forall set, Permutation (drain set) set) ->
  scan_ok (keys_after ops) new ->
  issued (diff_calls drain (keys_after ops) new) lops sts -> new_nodes w sts ->
  exists w', lrun w lops = Some (w', arets (keys_after ops) lops) /\
    reached r fr s e (ops ++ lops) w' /\ keys_after (ops ++ lops) = new.
Proof.
  intros r fr s e ops w new drain lops sts R NN D SC IS NW.
  destruct (reached_inv _ _ _ _ _ _ R) as (segs & P & Q & I & K & AI & _).
  destruct (linv_shows _ _ _ _ _ I AI) as (_ & ND & _). rewrite K in ND.
  destruct (diff_order drain _ new D ND NN) as (ks & RN & G).
  assert (ks = new) by (apply G; exact SC). subst ks.
  destruct (calls_on_document _ _ _ _ _ _ _ _ _ _ R IS NW RN) as (w' & E & R' & K' & _).
  exists w'. auto.
Qed.
Print Assumptions C34_document_partial.

Example C34_nonvacuous :
  order_kept [] [([1; 2; 3], ex_rev); ([4; 1; 5; 3], fun l => l); ([1; 6], ex_rev)] /\
  scan_ok [2; 3; 1] [4; 3; 5] /\ ~ same_common_order [1; 2] [2; 1].
Proof.
  split; [|split].
  - repeat split; try (repeat constructor; simpl; intuition discriminate);
      intro set; auto; symmetry; apply Permutation_rev.
  - intros C p rest E S N. destruct C as [|c C]; simpl in E; inversion E; subst.
    + left. simpl. intuition discriminate.
    + exfalso. assert (X : In 2 [4; 3; 5]) by (eapply subseq_in; eauto; simpl; auto).
      simpl in X. intuition discriminate.
  - discriminate.
Qed.

(** C34 refuted: an update that swaps the first two of three items shows them in
    reverse order. *)
Theorem C34_reorder_refuted :
  exists prev new, NoDup prev /\ NoDup new /\
    forall drain, (forall set, Permutation (drain set) set) ->
    exists s, diff_run diff_new [(prev, drain); (new, drain)] = Some s /\ df_keys s <> new.
Proof.
  exists [1; 2; 3], [2; 1; 3]. split; [repeat constructor; simpl; intuition discriminate|].
  split; [repeat constructor; simpl; intuition discriminate|]. intros drain D.
  assert (E : drain [] = []) by (apply Permutation_nil; symmetry; apply D).
  exists (mkDiffed [2; 1; 3] [3; 2; 1]). split; [|discriminate].
  unfold diff_run, diff_update, diff_calls. simpl. rewrite E. simpl. rewrite E. reflexivity.
Qed.
Print Assumptions C34_reorder_refuted.
