(** Property C38: Dropdown. *)
From Coq Require Import List Arith Bool Permutation Lia.
From Verif Require Import Util Spec_list DynList DynList_proofs DynList_run_proofs Calls Calls_proofs
  List_lemmas Diffed Diffed_proofs Dropdown Dropdown_proofs.
Import ListNotations.

(** histories whose updates have no repeated option and keep the relative order
    of the options in common with the previous update; [prev] is the previous vector *)
Fixpoint dd_legal (prev : list key) (ops : list ddop) : Prop :=
  match ops with
  | [] => True
  | DUpdate new drain :: t => NoDup (map fst new) /\ (forall set, Permutation (drain set) set) /\
      same_common_order prev (map fst new) /\ dd_legal (map fst new) t
  | _ :: t => dd_legal prev t
  end.
(** the options of the last update *)
Fixpoint dd_last (cur : list (key * text)) (ops : list ddop) : list (key * text) :=
  match ops with
  | [] => cur
  | DUpdate new _ :: t => dd_last new t
  | _ :: t => dd_last cur t
  end.

(** what the <select> shows: for each option element in order, the option it was
    made for and its text *)
Definition shows_options (d : dropdown) (opts : list (key * text)) : Prop :=
  Forall2 (fun e o => em_get (fst o) (dd_map d) = Some e /\ sl_text (dd_sel d) e = snd o)
          (sl_kids (dd_sel d)) opts.

Lemma shows_of d opts : DInv d -> dd_prev d = map fst opts ->
  (forall k t, In (k, t) opts -> exists e, em_get k (dd_map d) = Some e /\ sl_text (dd_sel d) e = t) ->
  shows_options d opts.
Proof.
  intros [H _] P T. assert (F := rp_kids _ _ _ _ H). rewrite P in F. unfold shows_options.
  clear H P. revert T F. generalize (sl_kids (dd_sel d)). induction opts as [|[k t] l IH]; intros kids T F; inversion F; subst; constructor.
  - simpl. match goal with X : R _ _ _ |- _ => unfold R in X | _ => idtac end. destruct (T k t) as (e & A & B); simpl; auto. split; congruence.
  - apply IH; auto. intros; apply T; simpl; auto.
Qed.

(** C38.  In such histories, with selections by the user and by set_value in
    between, nothing panics; the options shown are those of the last update, in its
    order and with its texts; at most one is selected, and when one is, [value]
    returns it.  Missing: updates that reorder options, and [value] when none is
    selected, see the refutations. *)
Theorem C38_options_partial :
  forall ops, dd_legal [] ops ->
  exists d, dd_run dd_new ops = Some d /\ shows_options d (dd_last [] ops) /\
    (forall e1 e2, In e1 (sl_kids (dd_sel d)) -> In e2 (sl_kids (dd_sel d)) ->
       sl_on (dd_sel d) e1 = true -> sl_on (dd_sel d) e2 = true -> e1 = e2) /\
    (forall e, In e (sl_kids (dd_sel d)) -> sl_on (dd_sel d) e = true ->
       exists k, em_get k (dd_map d) = Some e /\ dd_value d = Some k) /\
    (forall k, (exists e, em_get k (dd_map d) = Some e) <-> In k (map fst (dd_last [] ops))).
Proof.
  intro ops.
  assert (X : forall ops d cur, DInv d -> dd_prev d = map fst cur ->
    (forall k t, In (k, t) cur -> exists e, em_get k (dd_map d) = Some e /\ sl_text (dd_sel d) e = t) ->
    dd_legal (map fst cur) ops ->
    exists d', dd_run d ops = Some d' /\ DInv d' /\ dd_prev d' = map fst (dd_last cur ops) /\
     (forall k t, In (k, t) (dd_last cur ops) -> exists e, em_get k (dd_map d') = Some e /\ sl_text (dd_sel d') e = t)).
  { clear. induction ops as [|o t IH]; intros d cur H P T L.
    - exists d. auto.
    - destruct o as [new drain|o|i]; simpl in L |- *.
      + destruct L as (ND & DR & SC & L).
        destruct (dd_update_ok d new drain H ND DR) as (d' & E & H' & P' & T' & _).
        { rewrite P. apply good_common. exact SC. }
        rewrite E. apply IH; auto.
      + destruct (dd_set_value_ok d o H) as (H' & P' & M' & T' & _). apply IH; auto; [congruence|].
        rewrite M', T'. auto.
      + destruct (dd_user_ok d i H) as (H' & P' & M' & T' & _). apply IH; auto; [congruence|].
        rewrite M', T'. auto. }
  intro L. destruct (X ops dd_new [] dinv_new eq_refl) as (d & E & H & P & T); auto. { intros k t []. }
  exists d. split; auto. split; [apply shows_of; auto|]. split; [apply H|]. split.
  - intros e I E1. apply value_on; auto.
  - intro k. split.
    + intros (e & E1). rewrite <- P. eapply rp_dom; [apply H|]. eauto.
    + intro I. rewrite <- P in I. destruct (rep_get _ _ _ _ _ (di_rep _ H) I) as (e & A & _). eauto.
Qed.
Print Assumptions C38_options_partial.

(** C38, selection across an update: the option that was the value before stays
    selected (same element) if it is still offered; otherwise nothing is selected
    except possibly an option with an empty text. *)
Theorem C38_selection_kept_partial :
  forall ops d new drain, dd_legal [] ops -> dd_run dd_new ops = Some d ->
  NoDup (map fst new) -> (forall set, Permutation (drain set) set) ->
  same_common_order (map fst (dd_last [] ops)) (map fst new) ->
  exists d', dd_update d new drain = Some d' /\
    (forall k, dd_value d = Some k -> In k (map fst new) ->
       dd_value d' = Some k /\ exists e, em_get k (dd_map d') = Some e /\
         In e (sl_kids (dd_sel d')) /\ (forall x, sl_on (dd_sel d') x = Nat.eqb x e)) /\
    ((forall k, dd_value d = Some k -> ~ In k (map fst new)) ->
       forall x, In x (sl_kids (dd_sel d')) -> sl_on (dd_sel d') x = true -> sl_text (dd_sel d') x = 0).
Proof.
  intros ops d new drain L E ND DR SC.
  assert (X : forall ops d cur, DInv d -> dd_prev d = map fst cur -> dd_legal (map fst cur) ops ->
    exists d', dd_run d ops = Some d' /\ DInv d' /\ dd_prev d' = map fst (dd_last cur ops)).
  { clear. induction ops as [|o t IH]; intros d cur H P L.
    - exists d. auto.
    - destruct o as [new drain|o|i]; simpl in L |- *.
      + destruct L as (ND & DR & SC & L).
        destruct (dd_update_ok d new drain H ND DR) as (d' & E & H' & P' & T' & _).
        { rewrite P. apply good_common. exact SC. }
        rewrite E. apply IH; auto.
      + destruct (dd_set_value_ok d o H) as (H' & P' & M' & T' & _). apply IH; auto. congruence.
      + destruct (dd_user_ok d i H) as (H' & P' & M' & T' & _). apply IH; auto. congruence. }
  destruct (X ops dd_new [] dinv_new eq_refl L) as (d0 & E0 & H & P). rewrite E in E0. inversion E0; subst d0.
  destruct (dd_update_ok d new drain H ND DR) as (d' & E' & H' & P' & T' & _ & SL & SK & SN).
  { rewrite P. apply good_common. exact SC. }
  exists d'. split; auto. split; auto. intros k V I. destruct (SK k V I) as (e & A & B).
  assert (IE : In e (sl_kids (dd_sel d'))) by (eapply rep_in; [apply H'|eauto]).
  split; [|exists e; auto].
  destruct (value_on d' e H' IE) as (k' & A' & B'); [rewrite B; apply Nat.eqb_refl|].
  rewrite B'. f_equal. eapply (rp_inj _ _ _ _ (di_rep _ H')); eauto.
Qed.
Print Assumptions C38_selection_kept_partial.

Definition ex_id (l : list key) := l.
Example C38_nonvacuous :
  dd_legal [] [DUpdate [(1, 11); (2, 12); (3, 13)] ex_id; DUser 1; DUpdate [(4, 14); (2, 22)] ex_id; DSet (Some 4); DUser 1] /\
  exists d, dd_run dd_new [DUpdate [(1, 11); (2, 12); (3, 13)] ex_id; DUser 1; DUpdate [(4, 14); (2, 22)] ex_id] = Some d /\
    dd_value d = Some 2 /\ sl_kids (dd_sel d) = [3; 1].
Proof.
  split; [|eexists; split; [vm_compute; reflexivity|split; vm_compute; reflexivity]].
  simpl. repeat split; auto; try reflexivity; repeat constructor; simpl; intuition discriminate.
Qed.

(** C38 refuted, 1: after an update that reorders options, the user picks the
    first option shown (3) and [value] says 2. *)
Theorem C38_reorder_refuted :
  exists d, dd_run dd_new [DUpdate [(1, 11); (2, 12); (3, 13)] ex_id; DUpdate [(2, 12); (1, 11); (3, 13)] ex_id; DUser 0] = Some d /\
    shows_options d [(3, 13); (2, 12); (1, 11)] /\
    (exists e, hd_error (sl_kids (dd_sel d)) = Some e /\ sl_on (dd_sel d) e = true /\ em_get 3 (dd_map d) = Some e) /\
    dd_value d = Some 2.
Proof.
  eexists. split; [vm_compute; reflexivity|]. split.
  - unfold shows_options. simpl. repeat constructor.
  - split; [eexists; split; [reflexivity|split; reflexivity]|reflexivity].
Qed.
Print Assumptions C38_reorder_refuted.

(** C38 refuted, 2: the user's choice is removed by an update; nothing is
    selected, but [value] still returns the option that is no longer offered. *)
Theorem C38_removed_choice_refuted :
  exists d, dd_run dd_new [DUpdate [(1, 11); (2, 12)] ex_id; DUser 1; DUpdate [(1, 11)] ex_id] = Some d /\
    shows_options d [(1, 11)] /\ (forall e, sl_on (dd_sel d) e = false) /\ dd_value d = Some 2.
Proof.
  eexists. split; [vm_compute; reflexivity|]. split; [unfold shows_options; simpl; repeat constructor|].
  split; auto.
Qed.
Print Assumptions C38_removed_choice_refuted.

(** C38 refuted, 3: set_value(None) deselects, but [value] returns the previous
    choice. *)
Theorem C38_deselect_refuted :
  exists d, dd_run dd_new [DUpdate [(1, 11); (2, 12)] ex_id; DSet (Some 2); DSet None] = Some d /\
    (forall e, sl_on (dd_sel d) e = false) /\ dd_value d = Some 2.
Proof. eexists. split; [vm_compute; reflexivity|]. auto. Qed.
Print Assumptions C38_deselect_refuted.

(** a repeated option makes update_options panic (DOM exception) in some cases,
    and leaves an extra option element behind in others *)
Theorem C38_duplicates_refuted :
  dd_run dd_new [DUpdate [(1, 11); (2, 12)] ex_id; DUpdate [(2, 12); (1, 11); (2, 12)] ex_id] = None /\
  exists d, dd_run dd_new [DUpdate [(1, 11); (1, 11)] ex_id; DUpdate [] ex_id] = Some d /\ length (sl_kids (dd_sel d)) = 1.
Proof. split; [vm_compute; reflexivity|]. eexists. split; vm_compute; reflexivity. Qed.
Print Assumptions C38_duplicates_refuted.
