(** Proofs for C79: a view of several cells. *)
From Coq Require Import List Arith Bool Lia Cantor.
From Verif Require Import Util Arena Spec_arena Cell Spec_cell Cell_proofs Combinator Tree Page Spec_view Spec_watch.
Import ListNotations.

Section Cells.
Variable T : Type.
Variable ww : waker -> waker -> bool.
Hypothesis WW : will_wake_ok ww.
Notation trace := (list (cev T)). Notation data s := (c_data T (cw_cell T (fst s))).

Lemma crun_snoc es : forall w e, crun T ww w (es ++ [e]) = match crun T ww w es with Some w1 => match cexec T ww w1 e with Some (w2, _) => Some w2 | None => None end | None => None end.
Proof.
  induction es as [|e0 es IH]; intros w e; simpl.
  - destruct (cexec T ww w e) as [[w2 o]|]; auto.
  - destruct (cexec T ww w e0) as [[w2 o]|]; auto.
Qed.
Lemma chist_inv v s : chist ww v s -> CInv T v (snd s) (fst s).
Proof.
  intros (w0 & E & A & R). destruct (crun_ok T ww WW v (snd s) A) as (w0' & w & E' & R' & I). rewrite E in E'. injection E' as <-.
  rewrite R in R'. injection R' as <-. exact I.
Qed.
Lemma chist_step v w tr e w' o : chist ww v (w, tr) -> allowed T e tr -> cexec T ww w e = Some (w', o) -> chist ww v (w', e :: tr).
Proof.
  intros (w0 & E & A & R) AL X. exists w0. split; auto. split; [split; auto|]. cbn [snd fst rev]. rewrite crun_snoc. cbn in R. rewrite R, X. reflexivity.
Qed.
Lemma chist_uses (ok : cev T -> Prop) v s l s' : cuses ww ok s l s' -> chist ww v s -> chist ww v s'.
Proof. induction 1 as [|w tr l e w1 o s' O A X D U IH]; auto. intro H. apply IH. eapply chist_step; eauto. Qed.
Lemma data_same w e w' o : (forall y, e <> CWrite T y) -> cexec T ww w e = Some (w', o) -> c_data T (cw_cell T w') = c_data T (cw_cell T w).
Proof.
  intros N. destruct e as [|y| | |id wk|id]; cbn.
  - unfold cell_borrow_mut. destruct (c_guard T _); [discriminate|]. intros [= <- <-]. reflexivity.
  - destruct (N y). reflexivity.
  - unfold cell_end. destruct (c_guard T _); [|discriminate]. destruct (ar_iter _ _); [|discriminate]. intros [= <- <-]. reflexivity.
  - unfold cell_until_change. destruct (c_guard T _); [discriminate|]. destruct (ar_add _ _) as [[a i]|]; [|discriminate]. intros [= <- <-]. reflexivity.
  - destruct (s_get _ _) as [s|]; [|discriminate]. unfold stream_poll. destruct (c_guard T _); [discriminate|].
    destruct (if s_last s =? 0 then _ else _) as [lv r]. destruct (ar_update _ _ _ _); [|discriminate]. intros [= <- <-]. reflexivity.
  - destruct (s_get _ _) as [s|]; [|discriminate]. unfold stream_drop. destruct (c_guard T _); [discriminate|].
    destruct (ar_remove _ _); [|discriminate]. intros [= <- <-]. reflexivity.
Qed.
Lemma last_since id (tr : trace) : last_waker T id tr <> None -> since_poll T id tr <> None.
Proof.
  induction tr as [|e tr IH]; cbn; auto. destruct e; cbn; auto; try (intro H; destruct (since_poll T id tr); [discriminate|exfalso; apply IH; auto]; fail).
  destruct (Nat.eqb id0 id); [discriminate|]. intro H. destruct (since_poll T id tr); [discriminate|]. exfalso. apply IH; auto.
Qed.

(** thing: future [f] of cell [s]; [v]: the value shown; [k]: the task of the block that polls it *)
Definition okc (f : nat) (v : T) (s : cst T) : Prop := f < created T (snd s) /\ (dropped T f (snd s) = true \/ guarded T (snd s) = true \/ v = data s).
Definition regc (k : nat) (f : nat) (v : T) (s : cst T) : Prop := f < created T (snd s) /\ (dropped T f (snd s) = true \/
  (exists wk, last_waker T f (snd s) = Some wk /\ w_task wk = Some k) /\ (guarded T (snd s) = true \/ v = data s \/ changed_since_poll T f (snd s))).
Lemma created_le e (tr : trace) : created T tr <= created T (e :: tr). Proof. destruct e; cbn; lia. Qed.
Lemma dropped_mono f e (tr : trace) : dropped T f tr = true -> dropped T f (e :: tr) = true.
Proof. destruct e; cbn; auto. intros ->. apply orb_true_r. Qed.

(** one call of other code *)
Lemma step_other v0 w tr e w' o l u q f v : chist ww v0 (w, tr) -> (forall wk, e <> CPoll T f wk) -> allowed T e tr -> cexec T ww w e = Some (w', o) -> does_wakes o l ->
  regc (block_task u q) f v (w, tr) -> regc (block_task u q) f v (w', e :: tr) /\ (okc f v (w, tr) -> okc f v (w', e :: tr) \/ In (GWake u q) l).
Proof.
  intros H N A X D (C & R). unfold regc, okc in *. cbn [fst snd] in *. pose proof (created_le e tr) as CL.
  destruct R as [R|((wk & LW & TK) & R)]; [apply (dropped_mono f e) in R; split; [split; [lia|auto]|intros _; left; split; [lia|auto]]|].
  destruct (dropped T f (e :: tr)) eqn:DR; [split; [split; [lia|auto]|intros _; left; split; [lia|auto]]|].
  assert (LW' : last_waker T f (e :: tr) = Some wk) by (rewrite (proj2 (since_other T f tr e N)); exact LW).
  assert (DT : dropped T f tr = false) by (destruct (dropped T f tr) eqn:Q; auto; apply (dropped_mono f e) in Q; congruence).
  rewrite LW'. destruct e as [|y| | |id wk'|id].
  - split; [split; [exact C|right; split; [eauto|left; reflexivity]]|intros _; left; split; [exact C|right; left; reflexivity]].
  - split; [split; [exact C|right; split; [eauto|left; exact A]]|intros _; left; split; [exact C|right; left; exact A]].
  - assert (CH : changed_since_poll T f (CEnd T :: tr)) by (apply changed_end, last_since; congruence).
    split; [split; auto; right; split; eauto|]. intros _. right.
    destruct (cexec_ok T ww WW v0 tr w (CEnd T) (chist_inv v0 (w, tr) H) A) as (w2 & o2 & X2 & _ & F). rewrite X in X2. injection X2 as <- <-.
    destruct o as [| | |ws]; try contradiction.
    assert (IN : In f (live_ids T tr)) by (apply live_in; split; auto).
    apply (in_map (fun id => wk_of T id tr)) in IN. unfold wk_of at 1 in IN. rewrite LW in IN.
    clear - F IN D TK. induction F as [|a b ws l2 S F IH]; [contradiction|]. destruct IN as [->|IN].
    + eapply D; [left; reflexivity|]. unfold same_task in S. congruence.
    + apply IH; auto. intros wk' u' q' IN' E'. apply (D wk' u' q'); auto. right. exact IN'.
  - rewrite (fun N => data_same _ _ _ _ N X) by (intros; discriminate). rewrite (changed_other T f tr (CNew T)) by (auto; discriminate). cbn [guarded].
    split; [split; [lia|right; split; eauto]|]. intros (_ & [Q|Q]); [congruence|]. left. split; [lia|auto].
  - rewrite (fun N => data_same _ _ _ _ N X) by (intros; discriminate). rewrite (changed_other T f tr _ N) by discriminate. cbn [guarded].
    split; [split; [exact C|right; split; eauto]|]. intros (_ & [Q|Q]); [congruence|]. left. split; [exact C|auto].
  - rewrite (fun N => data_same _ _ _ _ N X) by (intros; discriminate). rewrite (changed_other T f tr _ N) by discriminate. cbn [guarded].
    split; [split; [exact C|right; split; eauto]|]. intros (_ & [Q|Q]); [congruence|]. left. split; [exact C|auto].
Qed.
Lemma uses_other v0 s l s' u q f v : cuses ww (fun e => forall wk, e <> CPoll T f wk) s l s' -> chist ww v0 s ->
  regc (block_task u q) f v s -> regc (block_task u q) f v s' /\ (okc f v s -> okc f v s' \/ In (GWake u q) l).
Proof.
  induction 1 as [s l|w tr l e w1 o s' O A X D U IH]; intros H R; auto.
  destruct (step_other v0 w tr e w1 o l u q f v H O A X D R) as (R1 & K1). destruct (IH (chist_step v0 _ _ _ _ _ H A X) R1) as (R2 & K2).
  split; auto. intro K. destruct (K1 K); auto.
Qed.
(** the poll of the future *)
Lemma poll_other v0 w tr f wk w' o u q v : chist ww v0 (w, tr) -> allowed T (CPoll T f wk) tr -> cexec T ww w (CPoll T f wk) = Some (w', o) ->
  w_task wk = Some (block_task u q) -> okc f v (w, tr) \/ regc (block_task u q) f v (w, tr) -> o <> OReady ->
  regc (block_task u q) f v (w', CPoll T f wk :: tr) /\ okc f v (w', CPoll T f wk :: tr).
Proof.
  intros H A X TK OR NR. pose proof A as (G & CR & DR).
  destruct (cexec_ok T ww WW v0 tr w _ (chist_inv v0 (w, tr) H) A) as (w2 & o2 & X2 & _ & F). rewrite X in X2. injection X2 as <- <-.
  assert (NC : ~ changed_since_poll T f tr) by (destruct o; try contradiction; auto).
  assert (V : v = c_data T (cw_cell T w)).
  { unfold okc, regc in OR. cbn [fst snd] in OR. destruct OR as [(_ & [Q|[Q|Q]])|(_ & [Q|(_ & [Q|[Q|Q]])])]; try congruence; try contradiction. }
  unfold regc, okc. cbn [fst snd]. rewrite (fun N => data_same _ _ _ _ N X) by (intros; discriminate). cbn. rewrite Nat.eqb_refl.
  split; (split; [exact CR|right]); auto. split; eauto.
Qed.
End Cells.

Lemma cells_watches {T V X} ww (v0 : nat -> T) (cw : X -> nat -> cst T) seen fut mine t p (code : nat -> X -> place -> option V -> X * list gact * next V) on_drop evs :
  will_wake_ok ww -> cells_view ww v0 cw seen fut mine t p code on_drop evs ->
  watches (fun x => forall i, chist ww (v0 i) (cw x i)) (fun i x => okc T (fut x i) (seen x i) (cw x i))
    (fun i q x => regc T (block_task t q) (fut x i) (seen x i) (cw x i)) mine t p code on_drop evs.
Proof.
  intros WW (A & B & C & D & E).
  assert (O : forall x l x', (forall i, chist ww (v0 i) (cw x i)) ->
    (forall i, cuses ww (fun e => forall wk, e <> CPoll T (fut x i) wk) (cw x i) l (cw x' i) /\ seen x' i = seen x i /\ fut x' i = fut x i) ->
    (forall i, chist ww (v0 i) (cw x' i)) /\ forall i q, regc T (block_task t q) (fut x i) (seen x i) (cw x i) ->
      regc T (block_task t q) (fut x' i) (seen x' i) (cw x' i) /\
      (okc T (fut x i) (seen x i) (cw x i) -> okc T (fut x' i) (seen x' i) (cw x' i) \/ In (GWake t q) l)).
  { intros x l x' H U. split.
    - intro i. destruct (U i) as (U1 & _). eapply chist_uses; eauto.
    - intros i q R. destruct (U i) as (U1 & -> & ->). eapply uses_other; eauto. }
  split; [|split; [|split; [|split]]].
  - intros x got x' l nx J X0. destruct (A x got x' l nx J X0) as [->|(U & K)]; auto. right. split; [intro i; eapply chist_uses; eauto|].
    intros k b m NX i L. destruct (K k b m NX i L) as ((CR & DR) & S). split; auto.
  - intros n i x got x' l nx M J X0. destruct (B n i x got x' l nx M J X0) as [->|(wk & o & TK & AL & CX & TR & CO & SF & NX)]; auto. right.
    pose proof (J i) as Ji. destruct (cw x i) as [w tr] eqn:EW. cbn [fst snd] in *.
    assert (EW' : cw x' i = (fst (cw x' i), CPoll T (fut x i) wk :: tr)) by (rewrite <- TR; apply surjective_pairing).
    split; [|split; [|split]].
    + intro j. destruct (Nat.eq_dec j i) as [->|Q]; [|rewrite CO by auto; auto]. rewrite EW'. eapply chist_step; eauto.
    + intros k b m ->. destruct o; try discriminate. destruct NX; discriminate.
    + intros j Q. destruct (SF j) as (-> & ->). rewrite CO by auto. auto.
    + intros OR ->. destruct (SF i) as (-> & ->).
      destruct (poll_other T ww WW (v0 i) w tr (fut x i) wk (fst (cw x' i)) o t (Kid n i) (seen x i)) as (R1 & O1); auto.
      { intros ->. destruct NX; discriminate. }
      rewrite EW'. auto.
  - intros u x q got x' l nx N J X0. destruct (C u x q got x' l nx N J X0) as [->|U]; auto.
  - intros u x x' l J X0. apply O; auto. eapply D; eauto.
  - intros f x x' l IN J X0. apply O; auto. eapply E; eauto.
Qed.
