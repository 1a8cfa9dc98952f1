(** C87: the spreadsheet example.

    After any changes by the user and in whatever order the cells are computed again: once no cell is waiting to be computed, every cell shows
    the value of its formula in the values of the other cells; if no cell depends on itself the sheet comes to this point after
    boundedly many computations, and its values depend only on what stands in the cells.  Not so with cycles or ranges that do not fit. *)
From Coq Require Import List Arith Bool Lia.
From Verif Require Import Sheet Spec_sheet Sheet_proofs.
Import ListNotations.

Section Props.
Variable V : Type.
Variables (zero nan : V) (add : V -> V -> V).
Variables (ncols nrows : nat).
Notation runs := (runs V zero nan add ncols nrows).
Notation start := (start V nan ncols nrows).
Notation quiet := (quiet V ncols nrows).

Lemma contents_fit l : (forall c f, In (Edit V c f) l -> fits V ncols nrows f) -> forall c, fits V ncols nrows (contents V l c).
Proof.
  intros H c. unfold contents. assert (G : forall f0, fits V ncols nrows f0 -> fits V ncols nrows (fold_left (fun f a => match a with Edit _ d g => if Nat.eqb d c then g else f | Wake _ _ => f end) l f0)); [|apply G; exact I].
  induction l as [|a l IH]; intros f0 F; [exact F|]. cbn [fold_left]. apply IH; [intros d g IN; apply (H d); right; exact IN|]. destruct a as [d g|d]; [|exact F]. destruct (Nat.eqb d c); [apply (H d); left; reflexivity|exact F].
Qed.

(** no panic, and every cell shows the value of what stands in it *)
Theorem C87_values_partial : forall l, (forall c f, In (Edit V c f) l -> fits V ncols nrows f) ->
  runs start l <> Panic V /\
  forall s, runs start l = Fine V s -> quiet s = true -> forall c, c < ncols * nrows ->
    text V s c = Some (value V s c) /\
    (~ reads V nrows (contents V l c) c -> value V s c = meaning V zero nan add nrows (contents V l c) (value V s)).
Proof.
  intros l H. split.
  - apply runs_fits; [intro c; exact I|exact H].
  - intros s R Q c L. pose proof (inv_runs _ _ _ _ _ _ l s R) as IV. apply (v_ok _ _ _ _ _ _ _ _ IV); [exact L|]. apply (proj1 (quiet_iff V ncols nrows s) Q). exact L.
Qed.

(** two histories that leave the same in the cells leave the same values *)
Theorem C87_history_free_partial : forall l1 l2 s1 s2,
  (forall c f, In (Edit V c f) (l1 ++ l2) -> fits V ncols nrows f) -> acyclic V nrows (contents V l1) -> (forall c, contents V l1 c = contents V l2 c) ->
  runs start l1 = Fine V s1 -> quiet s1 = true -> runs start l2 = Fine V s2 -> quiet s2 = true ->
  forall c, c < ncols * nrows -> text V s1 c = text V s2 c.
Proof.
  intros l1 l2 s1 s2 H AC EQ R1 Q1 R2 Q2 c L.
  assert (H1 : forall c f, In (Edit V c f) l1 -> fits V ncols nrows f) by (intros d f IN; apply (H d); apply in_or_app; auto).
  assert (H2 : forall c f, In (Edit V c f) l2 -> fits V ncols nrows f) by (intros d f IN; apply (H d); apply in_or_app; auto).
  destruct (C87_values_partial l1 H1) as [_ A]. destruct (C87_values_partial l2 H2) as [_ B]. specialize (A s1 R1 Q1). specialize (B s2 R2 Q2).
  destruct (A c L) as [A1 _]. destruct (B c L) as [B1 _]. rewrite A1, B1. f_equal. revert c L A1 B1. intros c L _ _. revert c L.
  apply (unique V zero nan add ncols nrows (contents V l1)); [exact AC|apply contents_fit; exact H1| |].
  - intros c L NR. apply A; auto.
  - intros c L NR. rewrite EQ in *. apply B; auto.
Qed.

(** the cells can only be computed boundedly often, and until the sheet is at rest one of them can be *)
Theorem C87_comes_to_rest_partial : forall l s,
  (forall c f, In (Edit V c f) l -> fits V ncols nrows f) -> acyclic V nrows (contents V l) -> runs start l = Fine V s ->
  (exists n, forall ws s', runs s (map (Wake V) ws) = Fine V s' -> length ws <= n) /\
  (quiet s = false -> exists c s', runs s [Wake V c] = Fine V s').
Proof.
  intros l s H (rank & RK) R. pose proof (inv_runs _ _ _ _ _ _ l s R) as [VF VO VK]. split.
  - destruct (rank_bound rank (ncells ncols nrows)) as (M & RB). exists (weight V ncols nrows rank M s). intros ws s' RN.
    eapply wakes_bound; [exact RB| | |exact RN]; [intros c d; rewrite VF; apply RK|intros c LE; rewrite VF; apply VO; exact LE].
  - intro Q. destruct (existsb (woken V s) (seq 0 (ncells ncols nrows))) eqn:E.
    + apply existsb_exists in E. destruct E as (c & _ & W). destruct (turn_fits V zero nan add ncols nrows s c) as (s' & T & _); [rewrite VF; apply contents_fit; exact H|]. exists c, s'. cbn. rewrite W, T. reflexivity.
    + exfalso. assert (Q' : quiet s = true); [|congruence]. apply quiet_iff. intros c L. destruct (woken V s c) eqn:W; auto. exfalso.
      assert (existsb (woken V s) (seq 0 (ncells ncols nrows)) = true) by (apply existsb_exists; exists c; split; [apply in_seq; lia|exact W]). congruence.
Qed.
End Props.
Print Assumptions C87_values_partial.
Print Assumptions C87_history_free_partial.
Print Assumptions C87_comes_to_rest_partial.

(** ** Refuted: with a cycle the sheet never comes to rest *)
Notation nruns := (runs nat 0 0 Nat.add 1 2).
Notation nstart := (start nat 0 1 2).
Definition loop : list (act nat) := [Wake nat 0; Wake nat 1; Edit nat 0 (Sum nat 0 1 0 1); Edit nat 1 (Sum nat 0 0 0 0)].
Definition stuck (s : sheet nat) : Prop :=
  form nat s 0 = Sum nat 0 1 0 1 /\ form nat s 1 = Sum nat 0 0 0 0 /\ (woken nat s 0 = true \/ woken nat s 1 = true) /\ (forall c, 2 <= c -> woken nat s c = false /\ form nat s c = Unknown nat).
Lemma stuck_step s c s' : stuck s -> step nat 0 0 Nat.add 1 2 s (Wake nat c) = Fine nat s' -> stuck s'.
Proof.
  intros (F0 & F1 & W & O) ST. cbn [step] in ST. destruct (woken nat s c) eqn:WC; [|discriminate].
  assert (C : c = 0 \/ c = 1) by (destruct c as [|[|c]]; auto; destruct (O (S (S c)) ltac:(lia)); congruence).
  destruct C as [-> | ->]; unfold turn in ST; rewrite ?F0, ?F1 in ST; cbn in ST; injection ST as <-; repeat split; cbn; auto; try (rewrite F0 || rewrite F1; cbn; rewrite ?orb_true_r; auto).
  all: try (intros; destruct c as [|[|c]]; [lia|lia|]; destruct (O (S (S c)) ltac:(lia)) as [A B]; cbn; rewrite ?A, ?B; auto).
Qed.
Theorem C87_cycle_refuted : exists s, nruns nstart loop = Fine nat s /\
  (forall ws s', nruns s (map (Wake nat) ws) = Fine nat s' -> quiet nat 1 2 s' = false) /\
  (forall n, exists ws s', length ws = n /\ nruns s (map (Wake nat) ws) = Fine nat s').
Proof.
  assert (ST : exists s, nruns nstart loop = Fine nat s /\ stuck s).
  { eexists. split; [reflexivity|]. repeat split; cbn; auto; destruct c as [|[|c]]; try lia; reflexivity. }
  destruct ST as (s & R & ST). exists s. split; [exact R|]. split.
  - intros ws. revert s ST R. intros s ST _. revert s ST. induction ws as [|c ws IH]; intros s ST s' RN.
    + cbn in RN. injection RN as <-. destruct ST as (_ & _ & [W|W] & _); unfold quiet; cbn; rewrite W; cbn; auto using andb_false_r. 
    + cbn [map runs] in RN. destruct (step nat 0 0 Nat.add 1 2 s (Wake nat c)) as [s1| |] eqn:S; try discriminate. eapply IH; [|exact RN]. eapply stuck_step; eauto.
  - intro n. clear R. revert s ST. induction n as [|n IH]; intros s ST; [exists [], s; split; reflexivity|].
    assert (X : exists c s1, step nat 0 0 Nat.add 1 2 s (Wake nat c) = Fine nat s1).
    { destruct ST as (F0 & F1 & [W|W] & _); [exists 0|exists 1]; cbn [step]; rewrite W; unfold turn; rewrite ?F0, ?F1; cbn; eexists; reflexivity. }
    destruct X as (c & s1 & S). destruct (IH s1 (stuck_step _ _ _ ST S)) as (ws & s' & LN & RN). exists (c :: ws), s'. split; [cbn; congruence|]. cbn [map runs]. rewrite S. exact RN.
Qed.
Print Assumptions C87_cycle_refuted.

(** ** Refuted: a range that goes from right to left, or out of the table, panics *)
Theorem C87_range_refuted :
  nruns nstart [Wake nat 0; Wake nat 1; Edit nat 0 (Sum nat 0 1 0 0)] = Panic nat /\
  nruns nstart [Wake nat 0; Wake nat 1; Edit nat 0 (Sum nat 0 1 0 2)] = Panic nat.
Proof. split; reflexivity. Qed.
Print Assumptions C87_range_refuted.

(** ** Refuted: a cell that sums up itself comes to rest with a value that is not that of its formula *)
Theorem C87_self_refuted : exists l s, nruns nstart l = Fine nat s /\ quiet nat 1 2 s = true /\
  (forall c f, In (Edit nat c f) l -> fits nat 1 2 f) /\ value nat s 0 <> meaning nat 0 0 Nat.add 2 (contents nat l 0) (value nat s).
Proof.
  exists [Wake nat 0; Wake nat 1; Edit nat 1 (Lit nat 5); Edit nat 0 (Sum nat 0 0 0 1)]. eexists. split; [reflexivity|]. split; [reflexivity|]. split.
  - intros c f IN. cbn in IN. repeat (destruct IN as [E|IN]; [try discriminate E; injection E as <- <-; cbn; auto; lia|]). contradiction.
  - vm_compute. discriminate.
Qed.
Print Assumptions C87_self_refuted.

(** ** Cases: a table of two columns and three rows; a literal, a sum of the first column and a sum of that *)
Definition shows (l : list (act nat)) : option (list (option nat)) :=
  match runs nat 0 7 Nat.add 2 3 (start nat 7 2 3) l with Fine _ s => if quiet nat 2 3 s then Some (map (text nat s) (seq 0 6)) else None | _ => None end.
Definition tour1 := map (Wake nat) [5; 0; 3; 1; 4; 2] ++ [Edit nat 4 (Lit nat 100); Edit nat 3 (Sum nat 0 0 0 2); Edit nat 5 (Sum nat 1 0 1 1); Edit nat 1 (Lit nat 1); Wake nat 3; Wake nat 5].
Definition tour2 := map (Wake nat) [0; 1; 2; 3; 4; 5] ++ [Edit nat 1 (Lit nat 2); Edit nat 5 (Sum nat 1 0 1 1); Edit nat 3 (Sum nat 0 0 0 2); Wake nat 5; Edit nat 1 (Lit nat 1); Wake nat 3; Wake nat 5; Edit nat 4 (Lit nat 100); Wake nat 5].
Example exs_tour1 : shows tour1 = Some [Some 7; Some 1; Some 7; Some 15; Some 100; Some 115].
Proof. vm_compute. reflexivity. Qed.
Example exs_tour2 : shows tour2 = shows tour1.
Proof. vm_compute. reflexivity. Qed.
Example exs_fits : forall c f, In (Edit nat c f) (tour1 ++ tour2) -> fits nat 2 3 f.
Proof. intros c f IN. cbn in IN. repeat (destruct IN as [E|IN]; [try discriminate E; injection E as <- <-; cbn; auto; lia|]). contradiction. Qed.
Example exs_acyclic : acyclic nat 3 (contents nat tour1).
Proof.
  exists (fun c => match c with 3 => 1 | 5 => 2 | _ => 0 end). intros c d R. destruct c as [|[|[|[|[|[|c]]]]]]; cbn in R; try contradiction; destruct R as (col & row & C & W & ->).
  - assert (col = 0) by lia. assert (row = 0 \/ row = 1 \/ row = 2) as [->|[->| ->]] by lia; subst; cbn; lia.
  - assert (col = 1) by lia. assert (row = 0 \/ row = 1) as [->| ->] by lia; subst; cbn; lia.
Qed.
Example exs_same : forall c, contents nat tour1 c = contents nat tour2 c.
Proof. intro c. destruct c as [|[|[|[|[|[|c]]]]]]; reflexivity. Qed.
