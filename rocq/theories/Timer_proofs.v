(** Proofs for C90. *)
From Coq Require Import List Bool Arith Lia.
From Verif Require Import Timer Spec_timer.
Import ListNotations.

Section Proofs.
Variable V : Type.
Variables (zero fifteen : V) (inc : V -> V) (lt : V -> V -> bool) (div : V -> V -> V).
Notation timer := (timer V).
Notation step := (step V zero inc lt div).
Notation happens := (happens V zero inc lt).
Notation runs := (runs V zero inc lt div).
(** the clock that what has come leads to *)
Definition abs (s : timer) : clock V :=
  match ev V s with Some e => happens (elapsed V s, total V s) (Comes V e) | None => (elapsed V s, if p_slider V s then slider V s else total V s) end.
Record Inv (s : timer) (c : clock V) : Prop := {
  v_abs : abs s = c;
  v_ev : ev V s <> None -> p_slider V s = false;
  v_slider : slider V s = match ev V s with Some (Slide _ v) => v | _ => if p_slider V s then slider V s else total V s end;
  v_meter : p_meter V s = false -> p_slider V s = false -> meter V s = div (elapsed V s) (total V s);
  v_text : p_text V s = false -> text V s = Some (elapsed V s) }.
Lemma inv_start : Inv (start V zero fifteen) (zero, fifteen).
Proof. constructor; cbn; auto; try discriminate; intro H; exfalso; apply H; reflexivity. Qed.
Lemma step_inv s c b : Inv s c -> Inv (step s b) c.
Proof.
  intros [A E S M X]. unfold abs in A. destruct b; cbn [Timer.step].
  - destruct (p_meter V s) eqn:P; [|constructor; auto]. constructor; unfold abs; cbn; auto.
  - destruct (p_text V s) eqn:P; [|constructor; auto]. constructor; unfold abs; cbn; auto.
  - destruct (p_slider V s) eqn:P; [|constructor; unfold abs; rewrite ?P; auto]. destruct (ev V s) as [e|] eqn:EV; [specialize (E ltac:(discriminate)); discriminate|]. constructor; unfold abs; cbn; auto; try discriminate; try congruence.
  - destruct (ev V s) as [[|v|]|] eqn:EV; [| | |constructor; unfold abs; rewrite ?EV; auto].
    + specialize (E ltac:(discriminate)). rewrite E in *. cbn in A. destruct (lt (elapsed V s) (total V s)); constructor; unfold abs; cbn; rewrite ?E; auto; discriminate.
    + specialize (E ltac:(discriminate)). constructor; unfold abs; cbn in *; auto; try discriminate; congruence.
    + specialize (E ltac:(discriminate)). rewrite E in *. constructor; unfold abs; cbn in *; rewrite ?E; auto; discriminate.
Qed.
Lemma quiet_facts (s : timer) : quiet V s = true -> p_meter V s = false /\ p_text V s = false /\ p_slider V s = false /\ ev V s = None.
Proof. unfold quiet. destruct (p_meter V s), (p_text V s), (p_slider V s), (ev V s); try discriminate; auto. Qed.
Lemma comes_inv s c e : quiet V s = true -> Inv s c -> Inv (comes V s e) (happens c (Comes V e)).
Proof.
  intros Q [A E S M X]. destruct (quiet_facts s Q) as (Q1 & Q2 & Q3 & Q4). unfold abs in A. rewrite Q4, Q3 in *. constructor; unfold abs; cbn; rewrite ?Q3; auto.
  - subst c. reflexivity.
  - destruct e; auto.
Qed.
Lemma runs_inv : forall l s c s', Inv s c -> runs s l = Some s' -> Inv s' (fold_left happens l c).
Proof.
  induction l as [|[e|b] l IH]; intros s c s' I R; cbn [Timer.runs fold_left] in *.
  - injection R as <-. exact I.
  - destruct (quiet V s) eqn:Q; [|discriminate]. eapply IH; [|exact R]. apply comes_inv; auto.
  - eapply IH; [|exact R]. cbn. apply step_inv. exact I.
Qed.
Definition b2n (b : bool) : nat := if b then 1 else 0.
Definition weight (s : timer) : nat := b2n (p_meter V s) + b2n (p_text V s) + 3 * b2n (p_slider V s) + match ev V s with Some _ => 4 | None => 0 end.
Lemma step_weight s b : step s b = s \/ weight (step s b) < weight s.
Proof.
  destruct b; cbn [Timer.step].
  - destruct (p_meter V s) eqn:P; [right; unfold weight; cbn; rewrite P; cbn; lia|auto].
  - destruct (p_text V s) eqn:P; [right; unfold weight; cbn; rewrite P; cbn; lia|auto].
  - destruct (p_slider V s) eqn:P; [right; unfold weight; cbn; rewrite P; destruct (p_meter V s); cbn; lia|auto].
  - destruct (ev V s) as [[|v|]|] eqn:P; auto; right; unfold weight; rewrite P; [destruct (lt _ _)| |]; cbn; destruct (p_meter V s), (p_text V s), (p_slider V s); cbn; lia.
Qed.
Lemma busy_weight : forall bs s, busy V zero inc lt div s bs -> length bs <= weight s.
Proof. induction bs as [|b bs IH]; intros s B; [cbn; lia|]. destruct B as [N B]. cbn. destruct (step_weight s b) as [E|E]; [contradiction|]. specialize (IH _ B). lia. Qed.
Lemma not_quiet (s : timer) : quiet V s = false -> exists b, step s b <> s.
Proof.
  intro Q. unfold quiet in Q. destruct (p_meter V s) eqn:P1; [exists BMeter; cbn; rewrite P1; intro E; apply (f_equal (p_meter V)) in E; cbn in E; congruence|].
  destruct (p_text V s) eqn:P2; [exists BText; cbn; rewrite P2; intro E; apply (f_equal (p_text V)) in E; cbn in E; congruence|].
  destruct (p_slider V s) eqn:P3; [exists BSlider; cbn; rewrite P3; intro E; apply (f_equal (p_slider V)) in E; cbn in E; congruence|].
  destruct (ev V s) as [e|] eqn:P4; [|discriminate]. exists BEvent. cbn. rewrite P4. intro E. apply (f_equal (ev V)) in E. rewrite P4 in E. destruct e; [destruct (lt _ _)| |]; discriminate.
Qed.
End Proofs.
