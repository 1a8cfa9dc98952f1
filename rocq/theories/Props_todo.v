(** C86: the TodoMVC example.

    For every history of what the user does and every order in which the blocks go on: when no block is pending, the
    items, their check marks, which of them are shown, the number left, the toggle-all box and the hidden parts are
    those of a plain todo list with the same history; and the blocks always come to rest. *)
From Coq Require Import List Arith ZArith Bool Lia.
From Verif Require Import Todo Spec_todo Todo_proofs.
Import ListNotations.

Theorem C86_todo_list : forall l s, runs start l = Some s -> quiet s = true ->
  let t := todos l in
  map (fun i => (i_id i, checked i)) (items s) = list_of t /\
  (forall i, In i (items s) -> box i = checked i /\ compl i = checked i /\ hidden i = negb (wanted (shown_mode t) (checked i))) /\
  span s = Z.of_nat (length (filter (fun p => negb (snd p)) (list_of t))) /\
  (main_hidden s = true <-> list_of t = []) /\
  (clear_hidden s = true <-> forall p, In p (list_of t) -> snd p = false) /\
  (list_of t <> [] -> (toggle s = true <-> forall p, In p (list_of t) -> snd p = true)).
Proof.
  intros l s R Q. pose proof (runs_inv l start _ s inv_start R) as I. fold (todos l) in I. destruct (quiet_facts s Q) as (Q1 & Q2 & Q3 & Q4 & Q5 & Q6).
  assert (CH : forall i, In i (items s) -> checked i = compl i /\ box i = compl i).
  { intros i IN. pose proof (proj1 (Forall_forall _ _) (v_good _ _ I) i IN) as G. rewrite (g_chk _ _ _ G), (g_box _ _ _ G), Q5. destruct (Q6 i IN) as [-> _]. cbn. destruct (compl i); auto. }
  pose proof (v_good _ _ I) as G. rewrite Forall_forall in G. destruct I. unfold abs, abs_mode in *. rewrite Q5 in *. cbn zeta. rewrite <- v_abs, <- v_mode.
  assert (AC : active s = Z.of_nat (length (filter (fun p => negb (snd p)) (map key (items s))))).
  { rewrite v_active, lefts_checked by (intros i IN; apply CH; exact IN). rewrite filter_map, map_length. reflexivity. }
  split; [reflexivity|]. split.
  { intros i IN. destruct (CH i IN) as [C1 C2]. split; [congruence|]. split; [congruence|]. rewrite (g_hid _ _ _ (G i IN)) by (apply Q6; exact IN). destruct (filt s), (checked i); reflexivity. }
  split; [rewrite v_span by exact Q1; exact AC|]. split.
  { rewrite v_main by exact Q3. rewrite v_total, Z.eqb_eq. destruct (items s); cbn; split; intro H; try reflexivity; try discriminate; lia. }
  assert (LE : forall l : list (nat * bool), length (filter (fun p => negb (snd p)) l) <= length l /\ (length (filter (fun p => negb (snd p)) l) = length l <-> forall p, In p l -> snd p = false) /\
      (length (filter (fun p => negb (snd p)) l) = 0 <-> forall p, In p l -> snd p = true)).
  { induction l0 as [|p l0 (A & B & C)]; [cbn; repeat split; auto; intros; contradiction|]. cbn. destruct (snd p) eqn:E; cbn [negb length].
    - split; [lia|]. split; [split; [lia|intro H; specialize (H p (or_introl eq_refl)); congruence]|]. rewrite C. split; [intros H q [<-|J]; auto|intros H q J; auto].
    - split; [lia|]. split; [|split; [lia|intro H; specialize (H p (or_introl eq_refl)); congruence]]. split; [intro H; assert (H' : length (filter (fun p => negb (snd p)) l0) = length l0) by lia; intros q [<-|J]; [exact E|exact (proj1 B H' q J)]|intro H; f_equal; apply B; intros q J; apply H; right; exact J]. }
  destruct (LE (map key (items s))) as (A & B & C). split.
  { rewrite v_clear by exact Q4. rewrite negb_true_iff, Z.ltb_ge, v_total, AC, <- B, map_length. rewrite map_length in A. lia. }
  intro NE. assert (NI : items s <> []) by (intro Z; apply NE; rewrite Z; reflexivity). destruct (v_tog Q2 NI) as [T|[T|T]]; [discriminate| |].
  - apply existsb_exists in T. destruct T as (i & IN & P). destruct (Q6 i IN). congruence.
  - rewrite T, AC, Z.eqb_eq, <- C. lia.
Qed.
Print Assumptions C86_todo_list.

(** After any history the blocks can only do finitely many things, in whatever order they go on; and as long as they are not at rest, one of them has something to do. *)
Theorem C86_comes_to_rest : forall l s, runs start l = Some s ->
  (exists n, forall bs, busy s bs -> length bs <= n) /\ (quiet s = false -> exists b, step s b <> s).
Proof.
  intros l s R. pose proof (runs_inv l start _ s inv_start R) as I. split.
  - exists (weight s). intros bs B. apply busy_weight. exact B.
  - apply not_quiet. exact (v_ids _ _ I).
Qed.
Print Assumptions C86_comes_to_rest.

(** Cases.  Three items are added, the second is checked, the filter is set to Active, all are toggled, all are toggled back, the first is
    checked, the completed ones are cleared and the last one deleted; the blocks go on in one order or another between the events. *)
Definition up : list act := map Block [LEvent; LChk 0; LChk 1; LChk 2; LHid 0; LHid 1; LHid 2; LSpan; LTog; LMain; LClear].
Definition down : list act := map Block [LEvent; LTog; LChk 2; LTog; LSpan; LChk 1; LChk 0; LClear; LMain; LSpan; LTog; LHid 2; LHid 1; LHid 0].
Definition day1 : list act := up ++ User EAdd :: up ++ User EAdd :: down ++ User EAdd :: up ++ User (EBox 1) :: down ++ User (EFilter Active) :: up.
Definition day2 : list act := day1 ++ User EToggle :: down.
Definition day3 : list act := day2 ++ User EToggle :: up ++ User (EBox 0) :: down ++ User EClear :: up ++ User (EDelete 2) :: down.
Definition look (l : list act) := option_map (fun s => (map (fun i => (i_id i, checked i, hidden i)) (items s), span s, toggle s, (main_hidden s, clear_hidden s), quiet s)) (runs start l).
Example ext_day1 : look day1 = Some ([(0, false, false); (1, true, true); (2, false, false)], 2%Z, false, (false, false), true).
Proof. vm_compute. reflexivity. Qed.
Example ext_day2 : look day2 = Some ([(0, true, true); (1, true, true); (2, true, true)], 0%Z, true, (false, false), true).
Proof. vm_compute. reflexivity. Qed.
Example ext_day3 : look day3 = Some ([(1, false, false)], 1%Z, false, (false, true), true) /\ list_of (todos day3) = [(1, false)].
Proof. vm_compute. split; reflexivity. Qed.
(** in the middle: all are toggled, and only one block has gone on *)
Example ext_middle : look (day1 ++ [User EToggle; Block LEvent; Block (LChk 2); Block LTog]) =
  Some ([(0, true, false); (1, true, true); (2, true, false)], 2%Z, false, (false, false), false).
Proof. vm_compute. reflexivity. Qed.
