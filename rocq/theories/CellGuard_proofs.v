(** Proofs for C63. *)
From Coq Require Import List Arith Bool Permutation Lia.
From Verif Require Import Util Arena Spec_arena Arena_proofs Cell Spec_cell Cell_proofs CellGuard Spec_guard.
Import ListNotations.

Section Proofs.
Variable T : Type.
Variable ww : waker -> waker -> bool.
Hypothesis WW : will_wake_ok ww.
Notation trace := (list (gop T * gout T)).

(** what happens to the cell of Cell.v *)
Definition proj1 (e : gop T * gout T) : list (cev T) :=
  match e with
  | (GBorrowMut _, _) | (GTryBorrowMut _, GUnit _) => [CBegin _]
  | (GWrite _ x, _) => [CWrite _ x]
  | (GDropMut _, _) => [CEnd _]
  | (GUntil _, _) => [CNew _]
  | (GPoll _ id w, _) => [CPoll _ id w]
  | (GDropStream _ id, _) => [CDrop _ id]
  | _ => []
  end.
Fixpoint proj (tr : trace) : list (cev T) := match tr with [] => [] | e :: t => proj1 e ++ proj t end.

Ltac cases e o := destruct e; try destruct o; cbn in *.
Lemma proj_value x tr : value_after T x (proj tr) = value T x tr.
Proof. induction tr as [|[e o] tr IH]; auto. cases e o; auto. Qed.
Lemma proj_guarded tr : guarded T (proj tr) = true <-> mut_alive T tr.
Proof. induction tr as [|[e o] tr IH]; [cbn; intuition discriminate|]. cases e o; auto; intuition discriminate. Qed.
Lemma proj_created tr : created T (proj tr) = streams_made T tr.
Proof. induction tr as [|[e o] tr IH]; auto. cases e o; auto. Qed.
Lemma proj_dropped id tr : dropped T id (proj tr) = true <-> stream_dropped T id tr.
Proof.
  induction tr as [|[e o] tr IH]; [cbn; intuition discriminate|].
  cases e o; auto; rewrite orb_true_iff, Nat.eqb_eq, IH; tauto.
Qed.
Lemma proj_live id tr : live T id (proj tr) <-> stream_alive T id tr.
Proof.
  unfold live, stream_alive. rewrite proj_created, <- proj_dropped. destruct (dropped T id (proj tr)); intuition congruence.
Qed.
Lemma proj_waker id tr : last_waker T id (proj tr) = waker_of T id tr.
Proof. induction tr as [|[e o] tr IH]; auto. cases e o; auto; rewrite IH; auto. Qed.
Lemma proj_polled id tr : since_poll T id (proj tr) <> None <-> was_polled T id tr.
Proof.
  induction tr as [|[e o] tr IH]; [cbn; tauto|].
  cases e o; rewrite <- ?IH; try (destruct (since_poll T id (proj tr)); cbn; intuition congruence).
  all: destruct (Nat.eqb_spec id0 id); [intuition congruence|]; destruct (since_poll T id (proj tr)); cbn; intuition congruence.
Qed.
Lemma proj_unseen id tr : changed_since_poll T id (proj tr) <-> unseen T id tr.
Proof.
  induction tr as [|[e o] tr IH].
  - cbn. split; [intros (l & E & _); discriminate|tauto].
  - destruct e; try destruct o; cbn [unseen proj proj1 app] in *; auto;
      try (rewrite changed_other; [assumption|discriminate|discriminate]);
      try (rewrite changed_end; apply proj_polled).
    all: unfold changed_since_poll in *; cbn [since_poll]; destruct (Nat.eqb_spec id0 id) as [->|NE];
      [split; [intros (l9 & E & I); injection E as <-; destruct I|intros [NE _]; congruence]|];
      rewrite <- IH; split;
      [intros (l9 & E & I); split; auto; destruct (since_poll T id (proj tr)) as [l0|]; [|discriminate]; cbn in E; injection E as <-;
         exists l0; split; auto; destruct I as [I|I]; [discriminate|auto]
      |intros [_ (l9 & E & I)]; rewrite E; cbn; eexists; split; [reflexivity|right; auto]].
Qed.

Record GInv (x : T) (tr : trace) (g : gworld T) : Prop := {
  gi_cell : CInv T x (proj tr) (g_w _ g);
  gi_refs : forall r, In r (g_refs _ g) <-> ref_alive T r tr;
  gi_next : g_next _ g = refs_made T tr;
  gi_small : forall r, ref_dropped T r tr -> r < refs_made T tr;
  gi_excl : mut_alive T tr -> g_refs _ g = []
}.
Lemma can_read_spec x tr g : GInv x tr g -> (can_read T g = false <-> mut_alive T tr).
Proof.
  intro I. unfold can_read. rewrite (ci_guard _ _ _ _ (gi_cell _ _ _ I)), <- proj_guarded, negb_false_iff. reflexivity.
Qed.
Lemma can_write_spec x tr g : GInv x tr g -> (can_write T g = false <-> guard_alive T tr).
Proof.
  intro I. unfold can_write, guard_alive. rewrite andb_false_iff, (can_read_spec _ _ _ I).
  assert (E : match g_refs T g with [] => true | _ => false end = false <-> exists r, ref_alive T r tr); [|rewrite E; reflexivity].
  destruct (g_refs T g) as [|r l] eqn:R.
  - split; [discriminate|]. intros (r & A). apply (gi_refs _ _ _ I) in A. rewrite R in A. destruct A.
  - split; auto. intros _. exists r. apply (gi_refs _ _ _ I). rewrite R. left; auto.
Qed.
Lemma has_ref_spec x tr g r : GInv x tr g -> ref_alive T r tr -> has_ref T r g = true.
Proof. intros I A. unfold has_ref. apply existsb_exists. exists r. split; [apply (gi_refs _ _ _ I), A|apply Nat.eqb_refl]. Qed.

Lemma g_init x : exists g, g_new T x = Some g /\ GInv x [] g.
Proof.
  destruct (ci_init T x) as (w & E & I). unfold g_new. rewrite E. eexists. split; [reflexivity|]. constructor; cbn; auto; try tauto.
  intro r. unfold ref_alive. cbn. intuition lia.
Qed.

(** steps that do not touch shared guards *)
Lemma keep_refs x tr g w e o : GInv x tr g -> CInv T x (proj ((e, o) :: tr)) w ->
  makes_ref T (e, o) = false -> (forall r, e <> GDropRef _ r) ->
  (mut_alive T ((e, o) :: tr) -> g_refs _ g = []) -> GInv x ((e, o) :: tr) (mkG _ w (g_refs _ g) (g_next _ g)).
Proof.
  intros I C M D X. assert (RD : forall r, ref_dropped T r ((e, o) :: tr) <-> ref_dropped T r tr).
  { intro r. destruct e; try reflexivity. destruct (D r0). reflexivity. }
  assert (RM : refs_made T ((e, o) :: tr) = refs_made T tr) by (cbn [refs_made]; rewrite M; auto).
  constructor; cbn [g_w g_refs g_next]; auto.
  - intro r. unfold ref_alive. rewrite RD, RM. apply (gi_refs _ _ _ I).
  - rewrite RM. apply (gi_next _ _ _ I).
  - intros r A. rewrite RM. apply (gi_small _ _ _ I). apply RD, A.
Qed.
Lemma keep_all x tr g e o : GInv x tr g -> proj1 (e, o) = [] -> makes_ref T (e, o) = false -> (forall r, e <> GDropRef _ r) ->
  GInv x ((e, o) :: tr) g.
Proof.
  intros I P M D. assert (E : g = mkG _ (g_w _ g) (g_refs _ g) (g_next _ g)) by (destruct g; auto). rewrite E.
  apply keep_refs; auto.
  - cbn [proj]. rewrite P. apply (gi_cell _ _ _ I).
  - intro A. apply (gi_excl _ _ _ I). destruct e; try destruct o; cbn in *; auto; discriminate.
Qed.
Lemma add_ref x tr g e o : GInv x tr g -> makes_ref T (e, o) = true -> ~ mut_alive T tr -> GInv x ((e, o) :: tr) (new_ref T g).
Proof.
  intros I M NM. assert (RD : forall r, ref_dropped T r ((e, o) :: tr) <-> ref_dropped T r tr).
  { intro r. destruct e; try reflexivity; discriminate. }
  assert (RM : refs_made T ((e, o) :: tr) = S (refs_made T tr)) by (cbn [refs_made]; rewrite M; auto).
  unfold new_ref. constructor; cbn [g_w g_refs g_next].
  - cbn [proj]. assert (proj1 (e, o) = []) as -> by (destruct e; try destruct o; auto; discriminate). apply (gi_cell _ _ _ I).
  - intro r. unfold ref_alive. rewrite RD, RM. cbn [In]. rewrite (gi_refs _ _ _ I r), (gi_next _ _ _ I). unfold ref_alive.
    split.
    + intros [<-|[A B]]; split; auto. intro Q. apply (gi_small _ _ _ I) in Q. lia.
    + intros [A B]. destruct (Nat.eq_dec (refs_made T tr) r); [auto|]. right. split; auto. lia.
  - rewrite RM, (gi_next _ _ _ I). auto.
  - intros r A. rewrite RM. apply RD, (gi_small _ _ _ I) in A. lia.
  - intro A. exfalso. apply NM. destruct e; try destruct o; cbn in *; auto; discriminate.
Qed.

Lemma on_cell_ok x tr g ce : GInv x tr g -> allowed T ce (proj tr) ->
  exists w o, on_cell T ww g ce = Some (mkG _ w (g_refs _ g) (g_next _ g), o) /\ CInv T x (ce :: proj tr) w /\
    match ce, o with
    | CPoll _ id wk, OReady => changed_since_poll T id (proj tr)
    | CPoll _ id wk, OPending => ~ changed_since_poll T id (proj tr)
    | CPoll _ _ _, _ => False
    | CEnd _, OWoken ws => Forall2 same_task ws (map (fun id => wk_of T id (proj tr)) (live_ids T (proj tr)))
    | CEnd _, _ => False
    | _, o => o = OUnit
    end.
Proof.
  intros I A. destruct (cexec_ok T ww WW x (proj tr) _ ce (gi_cell _ _ _ I) A) as (w & o & E & C & O).
  unfold on_cell. rewrite E. exists w, o. auto.
Qed.

Lemma not_guard x tr g : GInv x tr g -> can_write T g = true -> guarded T (proj tr) = false /\ ~ guard_alive T tr.
Proof.
  intros I W. assert (N : ~ guard_alive T tr) by (rewrite <- (can_write_spec _ _ _ I); congruence). split; auto.
  destruct (guarded T (proj tr)) eqn:G; auto. apply proj_guarded in G. destruct N. left; auto.
Qed.
Lemma woken_tasks tr ws :
  Forall2 same_task ws (map (fun id => wk_of T id (proj tr)) (live_ids T (proj tr))) ->
  (forall id wk, stream_alive T id tr -> waker_of T id tr = Some wk -> exists w, In w ws /\ w_task w = w_task wk) /\
  (forall w, In w ws -> w_task w <> None ->
    exists id wk, stream_alive T id tr /\ waker_of T id tr = Some wk /\ w_task w = w_task wk).
Proof.
  intro F. split.
  - intros id wk A W. apply proj_live, live_in in A. rewrite <- proj_waker in W.
    revert F. generalize ws. revert A. generalize (live_ids T (proj tr)). induction l as [|i l IH]; intros A vs F; [destruct A|].
    inversion F as [|v ? vs' ? S F']; subst. destruct A as [->|A].
    + exists v. split; [left; auto|]. unfold same_task, wk_of in S. rewrite W in S. exact S.
    + destruct (IH A _ F') as (w & I & E). exists w. split; [right; auto|auto].
  - intros w I N. assert (L : forall id, In id (live_ids T (proj tr)) -> stream_alive T id tr).
    { intros id A. apply proj_live, live_in, A. }
    revert F L. generalize (live_ids T (proj tr)). intro ids. revert I. revert ids. induction ws as [|v ws IH]; intros ids I F L; [destruct I|].
    destruct ids as [|i ids]; inversion F as [|? ? ? ? S F']; subst. destruct I as [->|I].
    + exists i. unfold same_task, wk_of in S. rewrite proj_waker in S. destruct (waker_of T i tr) as [wk|] eqn:W.
      * exists wk. split; [apply L; left; auto|auto].
      * rewrite S in N. destruct N. reflexivity.
    + destruct (IH ids I F') as (id & wk & A); [intros; apply L; right; auto|]. exists id, wk. exact A.
Qed.

Lemma step_ok x tr g e : GInv x tr g -> usable T e tr ->
  match gexec T ww g e with
  | None => in_the_way T e tr /\ panicky T e
  | Some (g', o) => GInv x ((e, o) :: tr) g' /\ right_answer T x tr e o /\ ~ (in_the_way T e tr /\ panicky T e)
  end.
Proof.
  intros I U.
  assert (CR := can_read_spec x tr g I). assert (CW := can_write_spec x tr g I).
  assert (V : g_data T g = value T x tr) by (unfold g_data; rewrite (ci_data _ _ _ _ (gi_cell _ _ _ I)); apply proj_value).
  assert (NR : can_read T g = true -> ~ mut_alive T tr) by (intros E Q; apply CR in Q; congruence).
  assert (NW : can_write T g = true -> ~ guard_alive T tr) by (intros E Q; apply CW in Q; congruence).
  assert (EXC : forall op ce o0, (forall o, proj1 (op, o) = [ce]) -> (forall o, makes_ref T (op, o) = false) -> (forall r, op <> GDropRef _ r) ->
    can_write T g = true -> allowed T ce (proj tr) ->
    forall w, CInv T x (ce :: proj tr) w -> GInv x ((op, o0) :: tr) (mkG _ w (g_refs _ g) (g_next _ g))).
  { intros op ce o0 P M D W A w C. apply keep_refs; auto; [cbn [proj]; rewrite P; exact C|]. intros _.
    unfold can_write in W. apply andb_true_iff in W as [_ W]. destruct (g_refs T g); [auto|discriminate]. }
  destruct e; cbn [gexec usable in_the_way panicky right_answer] in *.
  - (* GBorrow *) destruct (can_read T g) eqn:R; [|split; auto; apply CR; auto].
    split; [apply add_ref; auto; apply NR; auto|]. split; auto. intros [Q _]. apply NR in Q; auto.
  - (* GTryBorrow *) destruct (can_read T g) eqn:R.
    + split; [apply add_ref; auto; apply NR; auto|]. split; [|tauto]. split; auto. intro Q. apply NR in Q; [destruct Q|auto].
    + split; [apply keep_all; auto; discriminate|]. split; [|tauto]. split; auto. intro Q. destruct Q. apply CR. auto.
  - (* GCloneRef *) rewrite (has_ref_spec _ _ _ _ I U). split; [|tauto]. apply add_ref; auto.
    intro Q. apply (gi_excl _ _ _ I) in Q. apply (gi_refs _ _ _ I) in U. rewrite Q in U. destruct U.
  - (* GRead *) rewrite (has_ref_spec _ _ _ _ I U). split; [apply keep_all; auto; discriminate|]. split; [congruence|tauto].
  - (* GDropRef *) rewrite (has_ref_spec _ _ _ _ I U). split; [|tauto]. constructor; cbn [g_w g_refs g_next].
    + apply (gi_cell _ _ _ I).
    + intro s. unfold ref_alive. cbn [refs_made makes_ref ref_dropped plus].
      split.
      * intro A. apply in_remove in A as [A B]. apply (gi_refs _ _ _ I) in A as [A1 A2]. split; auto. intros [Q|Q]; auto.
      * intros [A B]. apply in_in_remove; [intro; subst; apply B; auto|]. apply (gi_refs _ _ _ I). split; auto.
    + apply (gi_next _ _ _ I).
    + intros s A. cbn [refs_made makes_ref plus ref_dropped] in *. destruct A as [<-|A]; [apply U|apply (gi_small _ _ _ I), A].
    + intro Q. cbn in Q. rewrite (gi_excl _ _ _ I Q). reflexivity.
  - (* GBorrowMut *) unfold excl. destruct (can_write T g) eqn:W; [|cbn; split; auto; apply CW; auto].
    destruct (not_guard _ _ _ I W) as [G N]. destruct (on_cell_ok x tr g (CBegin _) I G) as (w & o & E & C & ->). rewrite E. cbn [give out].
    split; [eapply EXC; eauto; try discriminate; auto|]. split; auto. tauto.
  - (* GTryBorrowMut *) destruct (can_write T g) eqn:W.
    + destruct (not_guard _ _ _ I W) as [G N]. destruct (on_cell_ok x tr g (CBegin _) I G) as (w & o & E & C & ->). rewrite E. cbn [give out].
      split; [|split; [tauto|tauto]]. apply keep_refs; auto; try discriminate. intros _.
      unfold can_write in W. apply andb_true_iff in W as [_ W]. destruct (g_refs T g); [auto|discriminate].
    + split; [apply keep_all; auto; discriminate|]. split; [|tauto]. split; auto. intro Q. destruct Q. apply CW; auto.
  - (* GWrite *) assert (G := proj2 (proj_guarded tr) U). destruct (on_cell_ok x tr g (CWrite _ x0) I G) as (w & o & E & C & ->). rewrite E.
    cbn [give out]. split; [|tauto]. apply keep_refs; auto; try discriminate. intros _. apply (gi_excl _ _ _ I), U.
  - (* GReadMut *) rewrite (proj2 CR U). split; [apply keep_all; auto; discriminate|]. split; [congruence|tauto].
  - (* GDropMut *) assert (G := proj2 (proj_guarded tr) U). destruct (on_cell_ok x tr g (CEnd _) I G) as (w & o & E & C & O). rewrite E.
    destruct o as [| | |ws]; try contradiction. cbn [give out]. split; [|split; [|tauto]].
    + apply keep_refs; auto; try discriminate. intros _. apply (gi_excl _ _ _ I), U.
    + exists ws. split; auto. apply woken_tasks, O.
  - (* GUntil *) unfold excl. destruct (can_write T g) eqn:W; [|cbn; split; auto; apply CW; auto].
    destruct (not_guard _ _ _ I W) as [G N]. destruct (on_cell_ok x tr g (CNew _) I G) as (w & o & E & C & ->). rewrite E. cbn [give out].
    split; [eapply EXC; eauto; try discriminate; auto|]. split; auto. tauto.
  - (* GPoll *) unfold excl. destruct (can_write T g) eqn:W; [|cbn; split; auto; apply CW; auto].
    destruct (not_guard _ _ _ I W) as [G N]. apply proj_live in U.
    destruct (on_cell_ok x tr g (CPoll _ id w) I (conj G U)) as (w' & o & E & C & O). rewrite E.
    destruct o as [| | |ws]; try contradiction; rewrite (proj_unseen id tr) in O; cbn [give out]; (split; [eapply EXC; eauto; try discriminate; split; auto|]); split; try tauto.
  - (* GDropStream *) unfold excl. destruct (can_write T g) eqn:W; [|cbn; split; auto; apply CW; auto].
    destruct (not_guard _ _ _ I W) as [G N]. apply proj_live in U.
    destruct (on_cell_ok x tr g (CDrop _ id) I (conj G U)) as (w' & o & E & C & ->). rewrite E.
    cbn [give out]. split; [eapply EXC; eauto; try discriminate; split; auto|]. split; auto. tauto.
  - (* GCloneCell *) destruct (can_read T g) eqn:R; [|split; auto; apply CR; auto].
    split; [apply keep_all; auto; discriminate|]. split; [congruence|]. intros [Q _]. apply NR in Q; auto.
  - (* GDebug *) split; [apply keep_all; auto; discriminate|]. split; [|tauto]. split; intro Q.
    + rewrite (proj2 CR Q). auto.
    + destruct (can_read T g) eqn:R; [congruence|]. destruct Q. apply CR; auto.
Qed.

Lemma ghist_inv x tr g : ghist T ww x tr g -> GInv x tr g.
Proof.
  induction 1 as [g E|tr g e g' o H IH U E].
  - destruct (g_init x) as (g0 & E0 & I0). congruence.
  - assert (S := step_ok x tr g e IH U). rewrite E in S. apply S.
Qed.

(** while a shared guard is alive there are no writes *)
Lemma value_stable x tr : forall g tr0 g0 r, ghist T ww x tr g -> ref_alive T r tr ->
  forall later, tr = later ++ tr0 -> ghist T ww x tr0 g0 -> ref_alive T r tr0 -> value T x tr = value T x tr0.
Proof.
  induction tr as [|[e o] tr IH]; intros g tr0 g0 r H A later E H0 A0.
  - destruct later; [|discriminate]. cbn in E. subst. auto.
  - destruct later as [|a later]; cbn in E; [subst; auto|]. injection E as <- E.
    inversion H as [|tr' g1 e' g' o' H1 U E1]; subst tr' e' o' g'.
    assert (I := ghist_inv _ _ _ H1).
    assert (A1 : ref_alive T r tr).
    { subst tr. destruct A as [_ A2]. destruct A0 as [A01 _]. split.
      - clear - A01. induction later as [|b l IHl]; cbn; auto. destruct (makes_ref T b); lia.
      - intro Q. apply A2. destruct e; cbn; auto. }
    rewrite <- (IH _ _ _ _ H1 A1 _ E H0 A0). destruct e; auto.
    exfalso. cbn in U. apply (gi_excl _ _ _ I) in U. apply (gi_refs _ _ _ I) in A1. rewrite U in A1. destruct A1.
Qed.
End Proofs.
