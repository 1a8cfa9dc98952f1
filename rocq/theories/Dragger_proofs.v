(** Proofs for C89. *)
From Coq Require Import List Arith Bool Lia.
From Verif Require Import Dragger Spec_dragger.
Import ListNotations.

Definition only (f : nat -> bool) (o : option nat) : Prop := forall j, f j = match o with Some i => Nat.eqb j i | None => false end.
Definition R (d : dragger) (p : phase) (dragged size : nat) (side : bool) : Prop :=
  aft d = side /\
  match p with
  | Free => (forall f z, inn d <> DragStarted f z) /\ only (waits d) None /\ seen d = None
  | Dragging i => inn d = DragStarted i size /\ only (waits d) (Some i) /\ seen d = Some i /\ dragged = i
  | Done i => (forall f z, inn d <> DragStarted f z) /\ only (waits d) (Some i) /\ seen d = None /\ dragged = i
  end.
(** the room beside item [i] *)
Definition P (d : dragger) (size i : nat) (over : bool) (now : nat * nat) : Prop :=
  pad d i = now /\ now = match spacer d i with NoSpacer => (0, 0) | After => (0, size) | Before => (size, 0) end /\ (over = false -> spacer d i = NoSpacer).
Lemma only_start f i : only f None -> only (upd f i true) (Some i).
Proof. intros H j. unfold upd. destruct (Nat.eqb j i); auto. Qed.
Lemma only_end f i : only f (Some i) -> only (upd f i false) None.
Proof. intros H j. unfold upd. specialize (H j). cbn in *. destruct (Nat.eqb j i); auto. Qed.
Lemma idle_poll d : (forall f z, inn d <> DragStarted f z) -> seen d = None -> seen (poll d) = None /\ out (poll d) = out d.
Proof. intros H S. unfold poll. rewrite S. cbn. destruct (inn d); auto. destruct (H _ _ eq_refl). Qed.
Lemma poll_rest d : inn (poll d) = inn d /\ aft (poll d) = aft d /\ spacer (poll d) = spacer d /\ pad (poll d) = pad d /\ waits (poll d) = waits d.
Proof. unfold poll. destruct (seen d); [destruct (inn d)|]; cbn; auto. Qed.
Lemma drag_poll d i z : inn d = DragStarted i z -> seen d = Some i \/ seen d = None -> seen (poll d) = Some i /\ out (poll d) = out d.
Proof. intros H [S|S]; unfold poll; rewrite S, H; cbn; rewrite ?Nat.eqb_refl; auto. Qed.

(** where the browser is after an event *)
Definition next (p : phase) (e : event) : phase :=
  match p, e with Free, DStart i _ => Dragging i | Dragging i, DDrop _ => Done i | _, DEnd _ => Free | _, _ => p end.
Definition ndrag (dragged : nat) (e : event) : nat := match e with DStart i _ => i | _ => dragged end.
Definition nsize (size : nat) (e : event) : nat := match e with DStart _ z => z | _ => size end.
Definition nside (dragged : nat) (side : bool) (e : event) : bool := match e with DOver i gt => if Nat.eqb i dragged then side else gt | _ => side end.
Definition nmove (dragged : nat) (side : bool) (e : event) : list (nat * nat * bool) := match e with DDrop j => [(dragged, j, side)] | _ => [] end.
Definition nroom (i dragged size : nat) (now : nat * nat) (e : event) : nat * nat :=
  match e with
  | DOver j gt => if Nat.eqb j i && negb (Nat.eqb j dragged) then (if gt then (0, size) else (size, 0)) else now
  | DLeave j own => if Nat.eqb j i && own then (0, 0) else now
  | DDrop j => if Nat.eqb j i then (0, 0) else now
  | _ => now
  end.
Definition nover (i : nat) (over : bool) (e : event) : bool :=
  match e with
  | DOver j _ => if Nat.eqb j i then true else over
  | DLeave j own => if Nat.eqb j i && own then false else over
  | DDrop j => if Nat.eqb j i then false else over
  | DEnd _ => false
  | DStart _ _ => over
  end.
Lemma step_R d p dragged size side e t : R d p dragged size side -> browser p (e :: t) ->
  exists d', exec d e = Some d' /\ R d' (next p e) (ndrag dragged e) (nsize size e) (nside dragged side e) /\ out d' = out d ++ nmove dragged side e /\ browser (next p e) t.
Proof.
  intros (A & H) B. destruct p as [|i|i]; destruct e as [j z|j|j gt|j own|j]; cbn [browser] in B; try contradiction; cbn [exec next ndrag nsize nside nmove]; rewrite ?app_nil_r.
  - destruct H as (N & W & S). rewrite (W j). eexists. split; [reflexivity|].
    match goal with |- context [poll ?x] => set (d1 := x); destruct (poll_rest d1) as (Q1 & Q2 & _ & _ & Q5); destruct (drag_poll d1 j z eq_refl (or_intror S)) as [Q6 Q7] end.
    split; [|split; [exact Q7|exact B]]. split; [rewrite Q2; exact A|]. rewrite Q1, Q5, Q6. split; [reflexivity|]. split; [apply only_start; exact W|auto].
  - destruct H as (N & W & S & ->). destruct B as [<- B]. rewrite (W i), Nat.eqb_refl, N. eexists. split; [reflexivity|].
    match goal with |- context [poll ?x] => set (d1 := x); destruct (poll_rest d1) as (Q1 & Q2 & _ & _ & Q5) end.
    assert (SO : seen (poll d1) = None /\ out (poll d1) = out d) by (unfold poll, d1; cbn; rewrite S; auto). destruct SO as [Q6 Q7].
    split; [|split; [exact Q7|exact B]]. split; [rewrite Q2; exact A|]. rewrite Q1, Q5, Q6. split; [discriminate|]. split; [apply only_end; exact W|reflexivity].
  - destruct H as (N & W & S & ->). rewrite N, (Nat.eqb_sym i j). destruct (Nat.eqb j i); (eexists; split; [reflexivity|]);
      match goal with |- context [poll ?x] => destruct (poll_rest x) as (Q1 & Q2 & _ & _ & Q5); destruct (drag_poll x i size ltac:(cbn; auto) (or_introl S)) as [Q6 Q7] end;
      (split; [|split; [exact Q7|exact B]]); (split; [rewrite Q2; cbn; auto|]); rewrite Q1, Q5, Q6; cbn; auto.
  - destruct H as (N & W & S & ->). destruct own; (eexists; split; [reflexivity|]);
      match goal with |- context [poll ?x] => destruct (poll_rest x) as (Q1 & Q2 & _ & _ & Q5); destruct (drag_poll x i size ltac:(cbn; auto) (or_introl S)) as [Q6 Q7] end;
      (split; [|split; [exact Q7|exact B]]); (split; [rewrite Q2; cbn; auto|]); rewrite Q1, Q5, Q6; cbn; auto.
  - destruct H as (N & W & S & ->). rewrite N. eexists. split; [reflexivity|].
    match goal with |- context [poll ?x] => set (d1 := x); destruct (poll_rest d1) as (Q1 & Q2 & _ & _ & Q5) end.
    assert (SO : seen (poll d1) = None /\ out (poll d1) = out d ++ [(i, j, side)]) by (unfold poll, d1; cbn; rewrite S, A; auto). destruct SO as [Q6 Q7].
    split; [|split; [exact Q7|exact B]]. split; [rewrite Q2; exact A|]. rewrite Q1, Q5, Q6. split; [discriminate|]. split; [exact W|auto].
  - destruct H as (N & W & S & ->). destruct B as [<- B]. rewrite (W i), Nat.eqb_refl. eexists. split; [reflexivity|].
    match goal with |- context [poll ?x] => set (d1 := x); destruct (poll_rest d1) as (Q1 & Q2 & _ & _ & Q5) end.
    assert (N1 : forall f z, inn d1 <> DragStarted f z) by (intros f z; unfold d1; cbn; destruct (inn d) as [|f' z'|] eqn:E; try discriminate; destruct (N f' z' eq_refl)).
    destruct (idle_poll d1 N1 S) as [Q6 Q7].
    split; [|split; [exact Q7|exact B]]. split; [rewrite Q2; exact A|]. rewrite Q1, Q5, Q6. split; [exact N1|]. split; [apply only_end; exact W|reflexivity].
Qed.
Lemma moves_eq dragged side e t : moves dragged side (e :: t) = nmove dragged side e ++ moves (ndrag dragged e) (nside dragged side e) t.
Proof. destruct e; reflexivity. Qed.
Lemma execs_moves : forall l d p dragged size side, R d p dragged size side -> browser p l ->
  exists d', execs d l = Some d' /\ out d' = out d ++ moves dragged side l.
Proof.
  induction l as [|e l IH]; intros d p dragged size side HR B; [exists d; split; [reflexivity|symmetry; apply app_nil_r]|].
  destruct (step_R d p dragged size side e l HR B) as (d1 & X & R1 & O & B1). destruct (IH d1 _ _ _ _ R1 B1) as (d' & X' & O'). exists d'. cbn [execs]. rewrite X. split; [exact X'|].
  rewrite O', O, moves_eq, app_assoc. reflexivity.
Qed.

(** ** the room beside an item *)
Lemma step_P d p dragged size side e t d' i over now : R d p dragged size side -> browser p (e :: t) -> exec d e = Some d' -> P d size i over now -> tidy i over (e :: t) ->
  (p = Free -> over = false) -> P d' (nsize size e) i (nover i over e) (nroom i dragged size now e) /\ tidy i (nover i over e) t /\ (next p e = Free -> nover i over e = false).
Proof.
  intros (A & H) B X (P1 & P2 & P3) TD F. destruct p as [|k|k]; destruct e as [j z|j|j gt|j own|j]; cbn [browser] in B; try contradiction; cbn [exec next nsize nover nroom tidy] in *.
  - destruct (waits d j); [discriminate|]. injection X as <-. match goal with |- context [poll ?x] => destruct (poll_rest x) as (_ & _ & Q3 & Q4 & _) end.
    unfold P. rewrite Q3, Q4. cbn. specialize (F eq_refl). rewrite (P3 F) in *. split; [auto|]. split; [exact TD|discriminate].
  - destruct (waits d j); [|discriminate]. injection X as <-. match goal with |- context [poll ?x] => destruct (poll_rest x) as (_ & _ & Q3 & Q4 & _) end.
    unfold P. rewrite Q3, Q4. cbn. destruct TD as [TD TD']. split; [auto|]. split; [exact TD'|auto].
  - destruct H as (N & W & S & ->). rewrite N in X. rewrite (Nat.eqb_sym k j) in X. destruct (Nat.eqb j k) eqn:JK; injection X as <-; match goal with |- context [poll ?x] => destruct (poll_rest x) as (_ & _ & Q3 & Q4 & _) end; unfold P; rewrite Q3, Q4; cbn [spacer pad negb]; (split; [|split; [exact TD|discriminate]]).
    + rewrite andb_false_r. repeat split; auto. destruct (Nat.eqb j i); [discriminate|auto].
    + rewrite andb_true_r. unfold upd. rewrite (Nat.eqb_sym i j). destruct (Nat.eqb_spec j i) as [->|]; [|auto]. destruct gt; destruct (spacer d i) eqn:E; repeat split; auto; try discriminate; congruence.
  - destruct H as (N & W & S & ->). destruct own; injection X as <-; match goal with |- context [poll ?x] => destruct (poll_rest x) as (_ & _ & Q3 & Q4 & _) end; unfold P; rewrite Q3, Q4; cbn [spacer pad]; rewrite ?andb_true_r, ?andb_false_r in *; (split; [|split; [exact TD|discriminate]]).
    + unfold upd. rewrite (Nat.eqb_sym i j). destruct (Nat.eqb j i); auto.
    + auto.
  - injection X as <-. match goal with |- context [poll ?x] => destruct (poll_rest x) as (_ & _ & Q3 & Q4 & _) end. unfold P. rewrite Q3, Q4. cbn [spacer pad]. split; [|split; [exact TD|discriminate]].
    unfold upd. rewrite (Nat.eqb_sym i j). destruct (Nat.eqb j i); auto.
  - destruct (waits d j); [|discriminate]. injection X as <-. match goal with |- context [poll ?x] => destruct (poll_rest x) as (_ & _ & Q3 & Q4 & _) end.
    unfold P. rewrite Q3, Q4. cbn. destruct TD as [TD TD']. split; [auto|]. split; [exact TD'|auto].
Qed.
Lemma room_eq i dragged size now e t : room i dragged size now (e :: t) = room i (ndrag dragged e) (nsize size e) (nroom i dragged size now e) t.
Proof. destruct e; reflexivity. Qed.
Lemma execs_room i : forall l d p dragged size side over now d', R d p dragged size side -> browser p l -> P d size i over now -> tidy i over l -> (p = Free -> over = false) ->
  execs d l = Some d' -> pad d' i = room i dragged size now l.
Proof.
  induction l as [|e l IH]; intros d p dragged size side over now d' HR B HP TD F X; [injection X as <-; exact (proj1 HP)|].
  destruct (step_R d p dragged size side e l HR B) as (d1 & X1 & R1 & _ & B1). cbn [execs] in X. rewrite X1 in X.
  destruct (step_P d p dragged size side e l d1 i over now HR B X1 HP TD F) as (HP1 & TD1 & F1). rewrite room_eq. eapply IH; eauto.
Qed.
