(** Proofs for C69 and C70: views of a part of the shared state. *)
From Coq Require Import List Arith Bool Lia.
From Verif Require Import Arena Combinator Tree Page Spec_view.
Import ListNotations.

Section Part.
Variables (S O : Type) (step : S -> O -> S -> Prop) (tells : S -> S -> list gact -> Prop) (polls : O -> option waker) (pending : S -> O -> S -> Prop).
Variable reached : S -> Prop.
Variables (t : nat) (p : place).
Variables (J fresh : S -> Prop).
Notation mine o := (forall wk, polls o = Some wk -> w_task wk = Some (block_task t p)).
Hypothesis JR : forall s, J s -> reached s.
Hypothesis JS : forall s o s', J s -> mine o -> step s o s' -> J s'.
Hypothesis FS : forall s o s' l, J s -> fresh s -> polls o = None -> step s o s' -> tells s s' l -> fresh s' \/ In (GWake t p) l.
Hypothesis FP : forall s o s' l wk, J s -> polls o = Some wk -> w_task wk = Some (block_task t p) -> step s o s' -> tells s s' l -> pending s o s' ->
  fresh s' \/ In (GWake t p) l.
Notation uses := (part_uses S O step tells).

Lemma uses_J (ok : O -> Prop) s l s' : (forall o, ok o -> mine o) -> uses ok s l s' -> J s -> J s'.
Proof. intros K U. induction U as [|s l o s1 s' OK E T U IH]; auto. intro H. apply IH. eapply JS; eauto. Qed.
Lemma uses_fresh s l s' : uses (fun o => polls o = None) s l s' -> J s -> fresh s -> fresh s' \/ In (GWake t p) l.
Proof.
  intro U. induction U as [|s l o s1 s' OK E T U IH]; auto. intros H F.
  assert (J1 : J s1) by (eapply JS; eauto; congruence). destruct (FS s o s1 l H F OK E T); auto.
Qed.
Lemma part_view_of {V X} (st : X -> S) on (code : nat -> X -> place -> option V -> X * list gact * next V) on_drop evs :
  part_view S O step tells polls pending reached st on t p code on_drop evs ->
  view_of (fun x => J (st x)) (fun x => on x = true -> fresh (st x)) t p code on_drop evs.
Proof.
  intros (A & B & C & D).
  assert (M : forall s l s', uses (fun o => polls o = None) s l s' -> J s -> J s') by (intros s l s' U; eapply uses_J; eauto; intros o N; congruence).
  assert (O' : forall x l x', uses (fun o => polls o = None) (st x) l (st x') /\ (on x' = true -> on x = true) -> J (st x) ->
    J (st x') /\ ((on x = true -> fresh (st x)) -> (on x' = true -> fresh (st x')) \/ In (GWake t p) l)).
  { intros x l x' (U & ON) Jx. split; [eapply M; eauto|]. intro G. destruct (on x') eqn:E; [|left; discriminate].
    destruct (uses_fresh _ _ _ U Jx (G (ON eq_refl))); auto. }
  split; [|split; [|split]].
  - intros x got x' l nx Jx E. destruct (A x got x' l nx (JR _ Jx) E) as [->|(U & P)]; auto.
    right. split; [eapply uses_J; eauto; cbn; eauto|]. intros NX. destruct (on x') eqn:ON; [|left; discriminate].
    destruct (P NX eq_refl) as (s & o & wk & s' & U1 & PO & WT & ST & TE & PE & U2).
    assert (Js : J s) by (eapply uses_J; eauto; cbn; eauto).
    assert (Js' : J s') by (eapply JS; eauto; congruence).
    destruct (FP s o s' l wk Js PO WT ST TE PE) as [F|F]; auto. destruct (uses_fresh _ _ _ U2 Js' F); auto.
  - intros u x q got x' l nx N Jx E. destruct (B u x q got x' l nx N (JR _ Jx) E) as [->|U]; auto.
  - intros u x x' l Jx E. apply O'; eauto.
  - intros f x x' l IN Jx E. apply O'; eauto.
Qed.
End Part.
