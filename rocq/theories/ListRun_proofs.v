(** Proofs for C74. *)
From Coq Require Import List Arith Bool Lia.
From Verif Require Import Util Arena Spec_arena Executor Queue Spec_queue Queue_proofs ListRun Spec_listrun.
Import ListNotations.

(** ** What the calls do to the queue *)
Section Acts.
Variable X : Type.
Notation qu := (qu X).
Notation q_tr := (q_tr X). Notation q_n := (q_n X). Notation q_x := (q_x X). Notation q_asleep := (q_asleep X).
Definition tev (a : option tact) (n : nat) : list qev :=
  match a with Some (TWake t) => [QWake t] | Some TSpawn => [QSpawn n] | Some (TCancel t) => [QCancel t] | _ => [] end.
(** inserting, removing and waking *)
Definition quiet (e : qev) : bool := match e with QSpawn _ | QWake _ | QCancel _ => true | _ => false end.
Definition tgrow (a : option tact) : nat := match a with Some TSpawn => 1 | _ => 0 end.
Lemma do_tact_facts a q : q_tr (fst (do_tact X a q)) = tev (Some a) (q_n q) ++ q_tr q /\
  q_n (fst (do_tact X a q)) = tgrow (Some a) + q_n q /\ q_x (fst (do_tact X a q)) = q_x q /\
  (q_asleep (fst (do_tact X a q)) = true -> q_asleep q = true) /\
  (q_asleep q = true -> q_asleep (fst (do_tact X a q)) = false -> In AWake (snd (do_tact X a q))).
Proof.
  destruct a as [t| |t|]; cbn [do_tact].
  - destruct (_ && _); [destruct (t_run _)|]; cbn; (do 4 try split); auto; try congruence; try discriminate; intros ->; left; auto.
  - cbn. (do 4 try split); auto; try discriminate; intros ->; left; auto.
  - destruct (_ && _); [destruct (_ || _)|]; cbn; (do 4 try split); auto; try congruence; try discriminate; intros ->; left; auto.
  - cbn. (do 4 try split); auto; congruence.
Qed.
Lemma do_tacts_facts l : forall q, q_x (fst (do_tacts X l q)) = q_x q /\
  (exists new, q_tr (fst (do_tacts X l q)) = new ++ q_tr q /\ filter quiet new = new) /\
  (q_asleep (fst (do_tacts X l q)) = true -> q_asleep q = true) /\
  (q_asleep q = true -> q_asleep (fst (do_tacts X l q)) = false -> In AWake (snd (do_tacts X l q))).
Proof.
  induction l as [|[a|] l IH]; intros q; cbn [do_tacts].
  - cbn. repeat split; auto; [exists []; auto|congruence].
  - destruct (do_tact_facts a q) as (A1 & A2 & A3 & A4 & A5). destruct (do_tact X a q) as [q1 a1]. cbn [fst snd] in *.
    destruct (IH q1) as (B1 & (new & B2 & B2') & B3 & B4). destruct (do_tacts X l q1) as [q2 a2]. cbn [fst snd] in *.
    split; [congruence|]. split; [|split; [auto|]].
    + exists (new ++ tev (Some a) (q_n q)). rewrite B2, A1, app_assoc. split; auto. rewrite filter_app, B2'. f_equal. destruct a; reflexivity.
    + intros Q R. apply in_app_iff. destruct (q_asleep q1) eqn:S1; auto.
  - destruct (IH q) as (B1 & B2 & B3 & B4). destruct (do_tacts X l q) as [q2 a2]. cbn [fst snd] in *. repeat split; auto. intros. right. auto.
Qed.
Lemma do_tacts_app l1 : forall l2 q, fst (do_tacts X (l1 ++ l2) q) = fst (do_tacts X l2 (fst (do_tacts X l1 q))).
Proof.
  induction l1 as [|[a|] l1 IH]; intros l2 q; cbn [app do_tacts fst]; auto.
  - destruct (do_tact X a q) as [q1 a1]. specialize (IH l2 q1). destruct (do_tacts X (l1 ++ l2) q1), (do_tacts X l1 q1); cbn [fst] in *; auto.
  - specialize (IH l2 q). destruct (do_tacts X (l1 ++ l2) q), (do_tacts X l1 q); cbn [fst] in *; auto.
Qed.
End Acts.

(** ** Keys *)
Lemma lookup_del k m j : lookup k (del j m) = if j =? k then None else lookup k m.
Proof.
  unfold lookup, del. induction m as [|[k' t] m IH]; cbn [filter find fst]; [destruct (j =? k); auto|].
  destruct (Nat.eqb_spec k' j) as [->|N]; cbn [negb].
  - rewrite IH. destruct (Nat.eqb_spec j k); auto.
  - cbn [find fst]. destruct (Nat.eqb_spec k' k) as [->|N2]; [|exact IH]. destruct (Nat.eqb_spec j k); [congruence|reflexivity].
Qed.
Lemma held_lt cs : forall k t, held cs k = Some t -> In (QSpawn t) (said cs) /\ t < inserts cs.
Proof.
  induction cs as [|a cs IH]; intros k t H; [discriminate|]. destruct a as [[k'|k'|t']|t'|t']; cbn [held said inserts filter length] in *.
  - destruct (k' =? k); [injection H as <-|]; [split; [apply in_app_iff; right; left; auto|unfold inserts; lia]|].
    destruct (IH _ _ H). split; [apply in_app_iff; right; right; auto|unfold inserts in *; lia].
  - destruct (k' =? k); [discriminate|]. destruct (IH _ _ H). split; [apply in_app_iff; auto|auto].
  - destruct (IH _ _ H). split; [right; auto|auto].
  - destruct (IH _ _ H). split; [right; auto|auto].
  - destruct (IH _ _ H). split; [right; auto|auto].
Qed.
Lemma spawned_held cs : forall t, In (QSpawn t) (said cs) -> (exists k, held cs k = Some t) \/ In (QCancel t) (said cs).
Proof.
  induction cs as [|a cs IH]; intros t H; [destruct H|].
  assert (REST : forall e, held (a :: cs) = held cs -> said (a :: cs) = e :: said cs -> e <> QSpawn t -> (exists k, held (a :: cs) k = Some t) \/ In (QCancel t) (said (a :: cs))).
  { intros e H1 H2 H3. rewrite H2 in H |- *. rewrite H1. destruct H as [H|H]; [congruence|]. destruct (IH _ H); auto. right. right. auto. }
  destruct a as [[k'|k'|t']|t'|t']; try (eapply REST; [reflexivity|reflexivity|discriminate]); cbn [held said] in *.
  - apply in_app_iff in H as [H|[H|H]].
    + unfold gone_by in H. destruct (held cs k'); [destruct H as [H|[]]; discriminate|destruct H].
    + injection H as <-. left. exists k'. rewrite Nat.eqb_refl. reflexivity.
    + destruct (IH _ H) as [(k & E)|C]; [|right; apply in_app_iff; right; right; auto].
      destruct (Nat.eqb_spec k' k) as [->|N]; [right|left; exists k; destruct (Nat.eqb_spec k' k); [congruence|auto]].
      apply in_app_iff. left. unfold gone_by. rewrite E. left. auto.
  - apply in_app_iff in H as [H|H]; [unfold gone_by in H; destruct (held cs k'); [destruct H as [H|[]]; discriminate|destruct H]|].
    destruct (IH _ H) as [(k & E)|C]; [|right; apply in_app_iff; auto].
    destruct (Nat.eqb_spec k' k) as [->|N]; [right|left; exists k; destruct (Nat.eqb_spec k' k); [congruence|auto]].
    apply in_app_iff. left. unfold gone_by. rewrite E. left. auto.
Qed.

Section Proofs.
Variable ww : waker -> waker -> bool.
Hypothesis WW : will_wake_ok ww.
Variable Y : Type.
Variable code : nat -> Y -> Y * list lact * outcome.
Variable fin : nat -> Y -> Y * list lact.
(** programs that keep a record, if [K] *)
Variable K : Prop.
Variable rec : Y -> list lrec.
Hypothesis RC : K -> forall t y, rec (fst (fst (code t y))) = map Did (rev (snd (fst (code t y)))) ++ Polled t :: rec y.
Hypothesis RF : K -> forall t y, rec (fst (fin t y)) = map Did (rev (snd (fin t y))) ++ Dropped t :: rec y.
Notation its := (its Y). Notation st := (ListRun.st Y).
Notation i_y := (i_y Y). Notation i_map := (i_map Y). Notation i_n := (i_n Y).
Notation qu := (qu its).
Notation q_tr := (q_tr its). Notation q_n := (q_n its). Notation q_x := (q_x its). Notation q_asleep := (q_asleep its). Notation q_run := (q_run its).
Notation step := (item_step Y code). Notation ifin := (item_fin Y fin).
Notation calls := (calls Y).

(** the calls so far are [cs] (newest first) *)
Definition Wx (cs : list lrec) (x : its) : Prop := i_n x = inserts cs /\ forall k, lookup k (i_map x) = held cs k.
Definition Wq (cs : list lrec) (q : qu) : Prop := filter shown (q_tr q) = said cs /\ q_n q = inserts cs.
Definition W (cs : list lrec) (q : qu) : Prop := Wx cs (q_x q) /\ Wq cs q /\ (K -> rec (i_y (q_x q)) = cs).

Lemma Wq_tact cs q a : Wq cs q -> Wq cs q -> filter shown (q_tr (fst (do_tact its a q))) = tev (Some a) (inserts cs) ++ said cs /\
  q_n (fst (do_tact its a q)) = tgrow (Some a) + inserts cs.
Proof.
  intros (A & B) _. destruct (do_tact_facts its a q) as (T & N & _). rewrite T, N, filter_app, A, B. split; auto. f_equal. destruct a; reflexivity.
Qed.
Lemma call_ok a x cs x1 t1 : Wx cs x -> call Y a x = (x1, t1) ->
  Wx (Did a :: cs) x1 /\ i_y x1 = i_y x /\ forall q, Wq cs q -> Wq (Did a :: cs) (fst (do_tacts its t1 q)).
Proof.
  intros (N & M) E. destruct a as [k|k|t]; cbn [call] in E.
  - injection E as <- <-. split; [split; cbn [ListRun.i_n ListRun.i_map]|split; [reflexivity|]].
    + unfold inserts in *. cbn. lia.
    + intros j. unfold lookup. cbn [find fst snd held]. destruct (k =? j) eqn:Q; [rewrite N; reflexivity|].
      fold (lookup j (del k (i_map x))). rewrite lookup_del, Q. apply M.
    + intros q Hq. rewrite M. cbn [do_tacts].
      destruct (Wq_tact cs q TSpawn Hq Hq) as (A & B). destruct (do_tact its TSpawn q) as [q1 a1]. cbn [fst tev tgrow app] in A, B.
      destruct (held cs k) as [o|] eqn:H; cbn [do_tacts].
      * destruct (do_tact_facts its (TCancel o) q1) as (T & N1 & _). destruct (do_tact its (TCancel o) q1) as [q2 a2]. cbn [fst tev tgrow app] in *. split.
        -- rewrite T. cbn [filter shown said]. rewrite A. unfold gone_by. rewrite H. reflexivity.
        -- rewrite N1, B. reflexivity.
      * cbn [fst]. split; [rewrite A; cbn [said]; unfold gone_by; rewrite H; reflexivity|rewrite B; reflexivity].
  - rewrite M in E. destruct (held cs k) as [o|] eqn:H; injection E as <- <-.
    + split; [split; cbn [ListRun.i_n ListRun.i_map held]|split; [reflexivity|]].
      * rewrite N. reflexivity.
      * intros j. rewrite lookup_del. destruct (k =? j); auto.
      * intros q Hq. cbn [do_tacts]. destruct (Wq_tact cs q (TCancel o) Hq Hq) as (A & B). destruct (do_tact its (TCancel o) q) as [q1 a1]. cbn [fst tev tgrow app] in *.
        split; [rewrite A; cbn [said]; unfold gone_by; rewrite H; reflexivity|rewrite B; reflexivity].
    + split; [split; cbn [held]|split; [reflexivity|]].
      * rewrite N. reflexivity.
      * intros j. destruct (Nat.eqb_spec k j) as [->|]; [rewrite M; auto|auto].
      * intros q (A & B). cbn [do_tacts fst]. split; [rewrite A; cbn [said]; unfold gone_by; rewrite H; reflexivity|rewrite B; reflexivity].
  - injection E as <- <-. split; [split; cbn [held]; auto|split; [reflexivity|]].
    intros q Hq. cbn [do_tacts]. destruct (Wq_tact cs q (TWake t) Hq Hq) as (A & B). destruct (do_tact its (TWake t) q) as [q1 a1]. cbn [fst tev tgrow app] in *.
    split; [rewrite A; reflexivity|rewrite B; reflexivity].
Qed.
Lemma calls_ok l : forall x cs x' tl, Wx cs x -> calls l x = (x', tl) ->
  Wx (map Did (rev l) ++ cs) x' /\ i_y x' = i_y x /\ forall q, Wq cs q -> Wq (map Did (rev l) ++ cs) (fst (do_tacts its tl q)).
Proof.
  induction l as [|a l IH]; intros x cs x' tl H E; cbn [ListRun.calls rev map app] in *; [injection E as <- <-; cbn; auto|].
  destruct (call Y a x) as [x1 t1] eqn:E1. destruct (calls l x1) as [x2 t2] eqn:E2. injection E as <- <-.
  destruct (call_ok a x cs x1 t1 H E1) as (A1 & B1 & C1). destruct (IH x1 (Did a :: cs) x2 t2 A1 E2) as (A2 & B2 & C2).
  rewrite map_app, <- app_assoc. cbn [map app]. split; auto. split; [congruence|]. intros q Hq. rewrite do_tacts_app. apply C2. auto.
Qed.
Lemma Wq_ext cs q q' : filter shown (q_tr q') = filter shown (q_tr q) -> q_n q' = q_n q -> Wq cs q -> Wq cs q'.
Proof. intros A B (C & D). split; congruence. Qed.
(** the code of an item ([pre]: it is polled or dropped), or other code runs *)
Definition pre_ok (pre : list lrec) : Prop := pre = [] \/ exists t, pre = [Polled t] \/ pre = [Dropped t].
Lemma act_ok cs q y l x' tl q0 pre : W cs q -> calls l (mkI Y y (i_map (q_x q)) (i_n (q_x q))) = (x', tl) ->
  (K -> rec y = map Did (rev l) ++ pre ++ rec (i_y (q_x q))) -> pre_ok pre -> filter shown (q_tr q0) = said pre ++ filter shown (q_tr q) -> q_n q0 = q_n q -> q_x q0 = x' ->
  W (map Did (rev l) ++ pre ++ cs) (fst (do_tacts its tl q0)).
Proof.
  intros ((WX1 & WX2) & (WQ1 & WQ2) & R) E RY P T N QX.
  assert (HP : inserts (pre ++ cs) = inserts cs /\ held (pre ++ cs) = held cs /\ said (pre ++ cs) = said pre ++ said cs) by (destruct P as [->|(t & [ -> | -> ])]; auto).
  destruct HP as (P1 & P2 & P3).
  assert (WX : Wx (pre ++ cs) (mkI Y y (i_map (q_x q)) (i_n (q_x q)))) by (split; cbn [ListRun.i_n ListRun.i_map]; [rewrite P1|intro; rewrite P2]; auto).
  destruct (calls_ok l _ (pre ++ cs) x' tl WX E) as (A & B & C).
  assert (QY : q_x (fst (do_tacts its tl q0)) = x') by (rewrite (proj1 (do_tacts_facts its tl q0)); exact QX).
  split; [rewrite QY; exact A|]. split; [apply C; split; [rewrite T, P3, WQ1; auto|rewrite P1; congruence]|]. intro k. rewrite QY, B. cbn [ListRun.i_y]. rewrite (RY k), (R k). reflexivity.
Qed.
Lemma drop_ok cs q t q' al : W cs q -> drop_fut its ifin t q = (q', al) ->
  exists cs', W cs' q' /\ exists new, q_tr q' = new ++ QDrop t :: q_tr q /\ filter quiet new = new.
Proof.
  intros H E. unfold drop_fut, item_fin in E. pose proof (fun k => RF k t (i_y (q_x q))) as R. destruct (fin t (i_y (q_x q))) as [y l]. cbn [fst snd] in R.
  destruct (calls l _) as [x' tl] eqn:C. pose proof (act_ok cs q y l x' tl (q_emit its (QDrop t) (q_sets its t (mkT false false true true) (q_setx its x' q))) [Dropped t] H C R (or_intror (ex_intro _ t (or_intror eq_refl))) eq_refl eq_refl eq_refl) as A.
  destruct (do_tacts_facts its tl (q_emit its (QDrop t) (q_sets its t (mkT false false true true) (q_setx its x' q)))) as (_ & N & _).
  rewrite E in A, N. cbn [fst] in A, N. exists (map Did (rev l) ++ [Dropped t] ++ cs). split; auto.
Qed.
Lemma run_one_ok cs q t q' al p : W cs q -> run_one its step ifin t q = (q', al, p) ->
  exists cs', W cs' q' /\ exists new, q_tr q' = new ++ q_tr q /\ 1 <= turns new.
Proof.
  intros H E. unfold run_one in E. destruct (t_closed _).
  - destruct (drop_fut its ifin t q) as [q1 a1] eqn:D. injection E as <- <- <-. destruct (drop_ok _ _ _ _ _ H D) as (cs' & W' & new & T & _).
    exists cs'. split; auto. exists (new ++ [QDrop t]). rewrite T, <- app_assoc. split; auto. unfold turns. rewrite filter_app, app_length. cbn. lia.
  - unfold item_step in E. pose proof (fun k => RC k t (i_y (q_x q))) as R. destruct (code t (i_y (q_x q))) as [[y l] o]. cbn [fst snd] in R.
    destruct (calls l _) as [x' tl] eqn:C. set (q0 := q_emit its (QPoll t) _) in E.
    pose proof (act_ok cs q y l x' tl q0 [Polled t] H C R (or_intror (ex_intro _ t (or_introl eq_refl))) eq_refl eq_refl eq_refl) as A. destruct (do_tacts_facts its tl q0) as (_ & (new & N & _) & _).
    destruct (do_tacts its tl q0) as [q1 a1]. cbn [fst] in A, N. change (q_tr q0) with (QPoll t :: q_tr q) in N.
    assert (W1 : W (map Did (rev l) ++ [Polled t] ++ cs) (q_emit its (QEnd t) q1)) by exact A.
    assert (DR : forall q2 a2, drop_fut its ifin t (q_emit its (QEnd t) q1) = (q2, a2) -> exists cs', W cs' q2 /\ exists new, q_tr q2 = new ++ q_tr q /\ 1 <= turns new).
    { intros q2 a2 D. destruct (drop_ok _ _ _ _ _ W1 D) as (cs' & W' & new2 & T & _). exists cs'. split; auto.
      exists (new2 ++ QDrop t :: QEnd t :: new ++ [QPoll t]). rewrite T. cbn [Queue.q_tr q_emit]. rewrite N. split.
      - rewrite <- !app_assoc. cbn [app]. rewrite <- app_assoc. reflexivity.
      - unfold turns. rewrite filter_app, app_length. cbn. lia. }
    assert (ONE : forall l1, 1 <= turns (l1 ++ [QPoll t])) by (intro l1; unfold turns; rewrite filter_app, app_length; cbn; lia).
    destruct o.
    + destruct (t_closed _).
      * destruct (drop_fut its ifin t _) as [q2 a2] eqn:D. injection E as <- <- <-. eapply DR; eauto.
      * assert (QQ : q_tr q' = QEnd t :: q_tr q1 /\ q_n q' = q_n q1 /\ q_x q' = q_x q1) by (destruct (t_sched _); cbn [push] in E; injection E as <- <- <-; cbn; auto).
        destruct QQ as (Q1 & Q2 & Q3). exists (map Did (rev l) ++ [Polled t] ++ cs). split.
        -- destruct A as (A1 & A2 & A3). split; [rewrite Q3; exact A1|]. split; [eapply Wq_ext; [| |exact A2]; [rewrite Q1; reflexivity|exact Q2]|rewrite Q3; exact A3].
        -- exists (QEnd t :: new ++ [QPoll t]). rewrite Q1, N. cbn. rewrite <- app_assoc. split; auto. apply (ONE (QEnd t :: new)).
    + destruct (drop_fut its ifin t _) as [q2 a2] eqn:D. injection E as <- <- <-. eapply DR; eauto.
    + injection E as <- <- <-. exists (map Did (rev l) ++ [Polled t] ++ cs). split; auto. exists (new ++ [QPoll t]). rewrite N, <- app_assoc. auto.
Qed.
Lemma batch_ok n : forall cs q q' al p, W cs q -> batch its step ifin n q = (q', al, p) ->
  exists cs', W cs' q' /\ exists new, q_tr q' = new ++ q_tr q /\ (p = false -> q_asleep q' = true \/ In AWake al /\ n <= turns new).
Proof.
  induction n as [|n IH]; intros cs q q' al p H E; cbn [batch] in E.
  - injection E as <- <- <-. exists cs. split; auto. exists []. split; auto. intros _. right. split; [left; auto|lia].
  - destruct (q_run q) as [|t r] eqn:QR.
    + injection E as <- <- <-. exists cs. split; [exact H|]. exists []. split; auto.
    + set (q0 := mkQ its (q_x q) r _ _ false _) in E. assert (H0 : W cs q0) by exact H.
      destruct (run_one its step ifin t q0) as [[q1 a1] p1] eqn:R1. destruct (run_one_ok cs q0 t q1 a1 p1 H0 R1) as (cs1 & W1 & n1 & T1 & O1).
      change (q_tr q0) with (q_tr q) in T1.
      destruct p1; [injection E as <- <- <-; exists cs1; split; auto; exists n1; split; auto; discriminate|].
      destruct (batch its step ifin n q1) as [[q2 a2] p2] eqn:R2. injection E as <- <- <-.
      destruct (IH cs1 q1 q2 a2 p2 W1 R2) as (cs2 & W2 & n2 & T2 & O2). exists cs2. split; auto. exists (n2 ++ n1). rewrite T2, T1, app_assoc. split; auto.
      intro P. destruct (O2 P) as [A|(A & B)]; auto. right. split; [apply in_app_iff; auto|]. unfold turns in *. rewrite filter_app, app_length. lia.
Qed.

(** ** The render futures *)
Notation l_q := (l_q Y). Notation l_cur := (l_cur Y). Notation l_tr := (l_tr Y). Notation l_wk := (l_wk Y). Notation l_dead := (l_dead Y).
Notation exec := (ListRun.exec ww Y code fin).
Notation QI := (QI its).
Fixpoint open_of (tr : list lev) : option nat :=
  match tr with [] => None | LWoken _ :: r => open_of r | LPoll j _ :: _ => Some j | LStop _ :: _ => None end.
Definition same (w w' : waker) : Prop := w_task w = w_task w'.
(** the runner waits with the waker of the last poll, or this waker was woken since *)
Definition ready (s : st) : Prop :=
  match l_cur s with
  | None => q_asleep (l_q s) = false /\ l_wk s = None
  | Some j => exists later w before, l_tr s = later ++ LPoll j w :: before /\ existsb marks later = false /\
      if q_asleep (l_q s) then exists w', l_wk s = Some w' /\ same w' w else l_wk s = None /\ exists w', In (LWoken w') later /\ same w' w
  end.
Record LI (s : st) : Prop := {
  li_q : QI None (l_q s);
  li_w : exists cs, W cs (l_q s);
  li_open : open_of (l_tr s) = l_cur s;
  li_ready : ready s;
  li_dead : forall j, l_cur s = Some j -> ~ In j (l_dead s) }.
Lemma woken_marks o al : existsb marks (woken o al) = false.
Proof. unfold woken. induction al as [|a al IH]; auto. cbn [flat_map]. rewrite existsb_app, IH. destruct a, o; reflexivity. Qed.
Lemma woken_in w al : In AWake al -> In (LWoken w) (woken (Some w) al).
Proof. intro H. unfold woken. apply in_flat_map. exists AWake. split; auto. left. auto. Qed.
Lemma open_app new tr : existsb marks new = false -> open_of (new ++ tr) = open_of tr.
Proof. induction new as [|e new IH]; auto. cbn. destruct e; cbn; try discriminate. auto. Qed.
Lemma init_LI y : (K -> rec y = []) -> LI (init Y y).
Proof.
  intro R. constructor; try reflexivity; try discriminate; [exact (start_qi its _)|exists []; repeat split; auto|split; reflexivity].
Qed.
Lemma run_items_ok j w s s' : LI s -> l_cur s = None \/ l_cur s = Some j -> ~ In j (l_dead s) -> run_items ww Y code fin j w s = Some s' ->
  LI s' /\ l_cur s' = Some j /\ exists new lnew, q_tr (l_q s') = new ++ q_tr (l_q s) /\ l_tr s' = lnew ++ LPoll j w :: l_tr s /\ existsb marks lnew = false /\
    (q_asleep (l_q s') = true \/ In (LWoken w) lnew /\ 200 <= turns new).
Proof.
  intros [IQ (cs & IW) IO IR ID] C ND. unfold run_items. destruct (batch its step ifin 200 (l_q s)) as [[q al] p] eqn:B. destruct p; [discriminate|]. intros [= <-].
  destruct (batch_qi its step ifin 200 (l_q s) q al false IQ B) as (K1 & _). destruct (K1 eq_refl) as (K2 & K3).
  destruct (batch_ok 200 cs (l_q s) q al false IW B) as (cs' & W' & new & T & O). specialize (O eq_refl).
  assert (MK : forall wk0, l_wk s = Some wk0 -> exists w0, True) by eauto.
  split; [|split; [reflexivity|]].
  - constructor; cbn [ListRun.l_q ListRun.l_cur ListRun.l_tr ListRun.l_dead]; eauto.
    + rewrite open_app by apply woken_marks. reflexivity.
    + unfold ready. cbn [ListRun.l_q ListRun.l_cur ListRun.l_tr ListRun.l_wk]. exists (woken (Some w) al), w, (l_tr s). split; auto. split; [apply woken_marks|].
      destruct (q_asleep q) eqn:A.
      * eexists. split; [reflexivity|]. unfold keep, same. destruct (l_wk s) as [o|]; auto. destruct (ww o w) eqn:Q; auto. apply WW in Q. exact Q.
      * split; auto. exists w. split; [apply woken_in; destruct K3; [congruence|auto]|reflexivity].
    + intros i [= <-]. exact ND.
  - exists new, (woken (Some w) al). cbn [ListRun.l_q ListRun.l_tr]. split; auto. split; auto. split; [apply woken_marks|].
    destruct O as [O|(O1 & O2)]; auto. right. split; auto. apply woken_in. exact O1.
Qed.
Definition told_ok (o : lop Y) : Prop := match o with OCode _ f => K -> forall y, rec (fst (f y)) = map Did (rev (snd (f y))) ++ rec y | _ => True end.
Lemma not_dead j (l : list nat) : existsb (Nat.eqb j) l = false -> ~ In j l.
Proof. intros E H. assert (existsb (Nat.eqb j) l = true); [|congruence]. apply existsb_exists. exists j. rewrite Nat.eqb_refl. auto. Qed.
Lemma exec_ok s o s' : LI s -> told_ok o -> exec s o = Some s' -> LI s'.
Proof.
  intros I TO E. destruct o as [f|j w|j]; cbn [ListRun.exec] in E.
  - destruct I as [IQ (cs & IW) IO IR ID]. cbn [told_ok] in TO. pose proof (fun k => TO k (i_y (q_x (l_q s)))) as R. destruct (f (i_y (q_x (l_q s)))) as [y l]. cbn [fst snd] in R.
    destruct (calls l _) as [x' tl] eqn:C.
    pose proof (act_ok cs (l_q s) y l x' tl (q_setx its x' (l_q s)) [] IW C R (or_introl eq_refl) eq_refl eq_refl eq_refl) as A.
    pose proof (do_tacts_qi its step ifin None tl _ (qi_setx its None x' _ IQ)) as KQ.
    destruct (do_tacts_facts its tl (q_setx its x' (l_q s))) as (_ & _ & F1 & F2).
    destruct (do_tacts its tl (q_setx its x' (l_q s))) as [q al]. cbn [fst snd] in *. injection E as <-.
    change (q_asleep (q_setx its x' (l_q s))) with (q_asleep (l_q s)) in F1, F2.
    constructor; cbn [ListRun.l_q ListRun.l_cur ListRun.l_tr ListRun.l_dead]; eauto.
    + rewrite open_app by apply woken_marks. exact IO.
    + unfold ready in *. cbn [ListRun.l_q ListRun.l_cur ListRun.l_tr ListRun.l_wk]. destruct (l_cur s) as [j|].
      * destruct IR as (later & w & before & T & M & IR). exists (woken (l_wk s) al ++ later), w, before. rewrite T, app_assoc. split; auto.
        split; [rewrite existsb_app, woken_marks, M; reflexivity|]. destruct (q_asleep q) eqn:Aq.
        -- rewrite (F1 eq_refl) in IR. exact IR.
        -- split; auto. destruct (q_asleep (l_q s)) eqn:As.
           ++ destruct IR as (w' & E' & S'). exists w'. split; auto. apply in_app_iff. left. rewrite E'. apply woken_in. auto.
           ++ destruct IR as (_ & w' & I' & S'). exists w'. split; auto. apply in_app_iff. auto.
      * destruct IR as (IR & _). destruct (q_asleep q) eqn:Aq; auto. rewrite (F1 eq_refl) in IR. discriminate.
  - destruct (existsb _ _) eqn:D; [congruence|]. apply not_dead in D. destruct (l_cur s) as [i|] eqn:C.
    + destruct (Nat.eqb_spec i j) as [->|]; [|discriminate]. eapply run_items_ok; eauto.
    + eapply run_items_ok; eauto.
  - destruct (existsb _ _) eqn:D; [congruence|]. destruct I as [IQ IW IO IR ID]. destruct (l_cur s) as [i|] eqn:C.
    + destruct (Nat.eqb_spec i j) as [->|N].
      * injection E as <-. constructor; cbn; auto; try discriminate. destruct IQ. constructor; auto. discriminate.
      * injection E as <-. constructor; cbn; auto.
        -- unfold ready in IR. rewrite C in IR. exact IR.
        -- intros m Q [->|H]; [congruence|]. exact (ID m Q H).
    + injection E as <-. constructor; cbn; auto; try congruence. unfold ready in IR. rewrite C in IR. exact IR.
Qed.
Lemma run_ok y ops s : (K -> rec y = []) -> (forall o, In o ops -> told_ok o) -> run ww Y code fin y ops = Some s -> LI s.
Proof.
  intros R0 T E. unfold run in E. assert (I : LI (init Y y)) by (apply init_LI; auto). revert I E. generalize (init Y y). clear R0.
  induction ops as [|o ops IH]; intros s0 I E; cbn [execs] in E; [injection E as <-; auto|].
  destruct (exec s0 o) as [s1|] eqn:E1; [|discriminate]. apply (IH (fun o H => T o (or_intror H)) s1); auto. eapply exec_ok; eauto. apply T. left. auto.
Qed.
(** nothing is polled or dropped except when the render future is polled *)
Lemma exec_quiet s o s' : exec s o = Some s' -> (forall j w, o <> OPoll Y j w) -> exists new, q_tr (l_q s') = new ++ q_tr (l_q s) /\ turns new = 0.
Proof.
  intros E N. destruct o as [f|j w|j]; [|destruct (N j w eq_refl)|]; cbn [ListRun.exec] in E.
  - destruct (f _) as [y l]. destruct (calls l _) as [x' tl]. destruct (do_tacts_facts its tl (q_setx its x' (l_q s))) as (_ & (new & T & A) & _).
    destruct (do_tacts its tl _) as [q al]. cbn [fst] in T. injection E as <-. exists new. split; auto.
    unfold turns. rewrite <- A. clear. induction new as [|e new IH]; auto. destruct e; cbn; auto.
  - assert (Q : q_tr (l_q s') = q_tr (l_q s)) by (destruct (existsb _ _); [|destruct (l_cur s) as [i|]; [destruct (i =? j)|]]; injection E as <-; reflexivity).
    exists []. auto.
Qed.

(** ** The list is dropped *)
Lemma shown_in tr e : shown e = true -> In e tr <-> In e (filter shown tr).
Proof. intro A. rewrite filter_In. tauto. Qed.
Lemma alive_spawned t tr : alive t tr = true -> In (QSpawn t) tr.
Proof.
  induction tr as [|e tr IH]; cbn; [discriminate|]. destruct e as [u|u|u|u|u|u]; auto.
  - destruct (Nat.eqb_spec u t) as [->|]; auto.
  - destruct (u =? t); cbn; auto; discriminate.
Qed.
(** a cancelled item that exists was cancelled while it existed *)
Lemma cancelled_in cs : forall tr t, legal tr -> filter shown tr = said cs -> alive t tr = true -> In (QCancel t) tr -> cancelled t tr = true.
Proof.
  assert (ORD : forall cs l1 l2 t, said cs = l1 ++ QCancel t :: l2 -> In (QSpawn t) l2).
  { clear. induction cs as [|a cs IH]; intros l1 l2 t E; cbn [said] in E; [destruct l1; discriminate|].
    assert (G : forall k r, gone_by k cs ++ r = l1 ++ QCancel t :: l2 -> (forall m1 m2, r = m1 ++ QCancel t :: m2 -> In (QSpawn t) m2) ->
      (forall t, In (QSpawn t) (said cs) -> In (QSpawn t) r) -> In (QSpawn t) l2).
    { intros k r Q H H2. unfold gone_by in Q. destruct (held cs k) as [o|] eqn:HE; cbn [app] in Q; [|eapply H; eauto].
      destruct l1 as [|e l1]; cbn in Q; injection Q as Q1 Q2; [subst o r; apply H2; eapply held_lt; eauto|eapply H; eauto]. }
    destruct a as [[k|k|t']|t'|t'].
    - eapply G; [exact E| |intros; right; auto]. intros [|e m1] m2 Q; cbn in Q; injection Q as Q1 Q2; [discriminate|]. eapply IH; eauto.
    - eapply G; [exact E| |auto]. intros m1 m2 Q. eapply IH; eauto.
    - destruct l1 as [|e l1]; cbn in E; injection E as E1 E2; [discriminate|]. eapply IH; eauto.
    - destruct l1 as [|e l1]; cbn in E; injection E as E1 E2; [discriminate|]. eapply IH; eauto.
    - destruct l1 as [|e l1]; cbn in E; injection E as E1 E2; [discriminate|]. eapply IH; eauto. }
  intros tr t LG F A IN.
  assert (STAY : forall l1 l2, tr = l1 ++ l2 -> In (QSpawn t) l2 -> alive t l2 = true).
  { intros l1. revert LG A. clear F IN. revert tr. induction l1 as [|e l1 IH]; intros tr LG A l2 E IS; [cbn in E; subst; auto|].
    subst tr. cbn [app legal] in LG. destruct LG as (OK & LG). apply (IH (l1 ++ l2)); auto.
    cbn [app alive] in A. destruct e as [u|u|u|u|u|u]; auto.
    - destruct (Nat.eqb_spec u t) as [->|]; auto. cbn in OK. destruct OK. apply in_app_iff. auto.
    - apply andb_true_iff in A. apply A. }
  destruct (in_split _ _ IN) as (l1 & l2 & E). assert (IS : In (QSpawn t) l2).
  { rewrite E, filter_app in F. cbn [filter shown] in F. symmetry in F. apply ORD in F. apply filter_In in F. apply F. }
  pose proof (STAY (l1 ++ [QCancel t]) l2) as S2. rewrite <- app_assoc in S2. specialize (S2 E IS).
  rewrite E. clear - S2. induction l1 as [|e l1 IH]; cbn [app cancelled].
  - rewrite Nat.eqb_refl, S2. reflexivity.
  - destruct e; auto. rewrite IH, orb_true_r. reflexivity.
Qed.
Lemma drain_qi n : forall q q', QI None q -> (forall t, alive t (q_tr q) = true -> t_closed (q_st its q t) = true) ->
  drain Y fin n q = Some q' -> forall t, alive t (q_tr q') = false.
Proof.
  induction n as [|n IH]; intros q q' I CL E t.
  - cbn [drain] in E. destruct (q_run q) as [|u r] eqn:QR; [|discriminate]. injection E as <-.
    destruct (alive t (q_tr q)) eqn:A; auto. pose proof (CL t A) as C. rewrite (qi_alive _ _ _ I) in A. apply andb_true_iff in A as (A1 & A2).
    assert (O : owed t (q_tr q) = true) by (rewrite (qi_owed _ _ _ I), A1, A2, C, orb_true_r; reflexivity).
    apply (owed_queued its _ _ I) in O. rewrite QR in O. destruct O.
  - cbn [drain] in E. destruct (q_run q) as [|u r] eqn:QR.
    + injection E as <-. destruct (alive t (q_tr q)) eqn:A; auto. pose proof (CL t A) as C. rewrite (qi_alive _ _ _ I) in A. apply andb_true_iff in A as (A1 & A2).
      assert (O : owed t (q_tr q) = true) by (rewrite (qi_owed _ _ _ I), A1, A2, C, orb_true_r; reflexivity).
      apply (owed_queued its _ _ I) in O. rewrite QR in O. destruct O.
    + destruct (forallb _ _) eqn:FB; [|discriminate]. revert E. unfold drop_fut, item_fin. cbn [Queue.q_x].
      destruct (fin u (i_y (q_x q))) as [y l] eqn:FE. cbn [snd] in FB.
      destruct (calls l _) as [x' tl] eqn:C. pose proof (do_tacts_qi its step ifin None tl _ (pop_drop its step ifin q u r x' I QR)) as K2.
      unfold q_setx, q_sets, q_emit. cbn [Queue.q_run Queue.q_n Queue.q_st Queue.q_asleep Queue.q_tr Queue.q_x]. unfold gone_st in K2.
      set (q0 := mkQ its x' r _ _ _ _) in *. intro E. apply (IH _ _ K2); auto. clear E IH. intros v AV.
      (* only wakes *)
      assert (TL : forall a, In a tl -> exists v, a = Some (TWake v)).
      { clear - FB C. revert x' tl C. generalize (mkI Y y (i_map (q_x q)) (i_n (q_x q))). induction l as [|a l IH]; intros x x' tl C; cbn [ListRun.calls] in C.
        - injection C as <- <-. intros a [].
        - cbn in FB. apply andb_true_iff in FB as (F1 & F2). destruct a as [| |v]; try discriminate. cbn [call] in C.
          destruct (calls l x) as [x2 t2] eqn:C2. injection C as <- <-. intros a [<-|H]; [eauto|]. eapply IH; eauto. }
      assert (ST : forall tl (q1 : qu), (forall a, In a tl -> exists v, a = Some (TWake v)) -> forall v, alive v (q_tr (fst (do_tacts its tl q1))) = alive v (q_tr q1) /\
        (t_closed (q_st its q1 v) = true -> t_closed (q_st its (fst (do_tacts its tl q1)) v) = true)).
      { clear. induction tl as [|a tl IH]; intros q1 H v; cbn [do_tacts]; [auto|]. destruct (H a (or_introl eq_refl)) as (u & ->).
        assert (B : alive v (q_tr (fst (do_tact its (TWake u) q1))) = alive v (q_tr q1) /\ (t_closed (q_st its q1 v) = true -> t_closed (q_st its (fst (do_tact its (TWake u) q1)) v) = true)).
        { cbn [do_tact]. destruct (_ && _) eqn:G; [|cbn; auto]. apply andb_true_iff in G as (G & _). apply andb_true_iff in G as (_ & G). apply negb_true_iff in G.
          destruct (t_run _); cbn; (split; [reflexivity|]); (destruct (Nat.eqb_spec v u) as [->|]; [congruence|auto]). }
        destruct (do_tact its (TWake u) q1) as [q2 a2]. cbn [fst] in B. specialize (IH q2 (fun a I => H a (or_intror I)) v).
        destruct (do_tacts its tl q2) as [q3 a3]. cbn [fst] in *. destruct IH as (I1 & I2). destruct B as (B1 & B2). split; [congruence|auto]. }
      destruct (ST tl q0 TL v) as (S1 & S2). apply S2. rewrite S1 in AV. unfold q0 in AV |- *. cbn [Queue.q_tr Queue.q_st alive] in AV |- *.
      apply andb_true_iff in AV as (AV1 & AV2). rewrite Nat.eqb_sym in AV1. apply negb_true_iff in AV1. rewrite AV1. apply CL. exact AV2.
Qed.
Lemma drop_list_ok ks s s' : LI s -> drop_list Y fin ks s = Some s' -> forall t, alive t (q_tr (l_q s')) = false.
Proof.
  intros I E. unfold drop_list in E. destruct (l_cur s); [discriminate|]. destruct (calls (map LRemove ks) _) as [x tl] eqn:C.
  destruct (i_map x) as [|] eqn:M; [|discriminate]. destruct I as [IQ (cs & WX & WQ & _) IO IR ID].
  destruct (calls_ok (map LRemove ks) _ cs x tl WX C) as ((A1 & A2) & _ & A3).
  assert (WQ' : Wq cs (q_setx its x (l_q s))) by exact WQ. specialize (A3 _ WQ').
  pose proof (do_tacts_qi its step ifin None tl _ (qi_setx its None x _ IQ)) as KQ.
  destruct (do_tacts its tl (q_setx its x (l_q s))) as [q al]. cbn [fst] in *.
  destruct (drain Y fin _ q) as [q'|] eqn:D; [|discriminate]. injection E as <-. cbn [ListRun.l_q].
  eapply (drain_qi _ q q' KQ); [|exact D]. intros t A. destruct A3 as (F & N).
  pose proof (qi_alive _ _ _ KQ t) as QA. rewrite A in QA. symmetry in QA. apply andb_true_iff in QA as (Q1 & Q2). apply Nat.ltb_lt in Q1. apply negb_true_iff in Q2.
  rewrite <- (qi_canc _ _ _ KQ t Q1 Q2).
  apply (cancelled_in (map Did (rev (map LRemove ks)) ++ cs)); auto; [apply (qi_legal _ _ _ KQ)|].
  pose proof (alive_spawned _ _ A) as SP. apply shown_in in SP; [|reflexivity]. rewrite F in SP.
  apply shown_in; [reflexivity|]. rewrite F. destruct (spawned_held _ _ SP) as [(k & H)|]; auto. rewrite <- A2, M in H. discriminate.
Qed.
(** the drop goes through *)
Lemma wakes_quiet tl : forall q : qu, QI None q -> (forall a, In a tl -> exists v, a = Some (TWake v)) ->
  (forall t, alive t (q_tr q) = true -> t_closed (q_st its q t) = true) ->
  q_run (fst (do_tacts its tl q)) = q_run q /\ (forall t, alive t (q_tr (fst (do_tacts its tl q))) = true -> t_closed (q_st its (fst (do_tacts its tl q)) t) = true).
Proof.
  induction tl as [|a tl IH]; intros q I H CL; cbn [do_tacts fst]; auto. destruct (H a (or_introl eq_refl)) as (u & ->).
  assert (B : do_tact its (TWake u) q = (q_emit its (QWake u) q, [])).
  { cbn [do_tact]. destruct (_ && _) eqn:G; auto. exfalso. apply andb_true_iff in G as (G & _). apply andb_true_iff in G as (G & G3).
    rewrite <- (qi_alive _ _ _ I) in G. rewrite (CL u G) in G3. discriminate. }
  pose proof (do_tacts_qi its step ifin None [Some (TWake u)] q I) as K1. cbn [do_tacts] in K1. rewrite B in *. cbn [fst] in K1.
  destruct (IH _ K1 (fun a h => H a (or_intror h))) as (R1 & R2); [exact CL|]. destruct (do_tacts its tl (q_emit its (QWake u) q)) as [q2 a2]. cbn [fst] in *. auto.
Qed.
Lemma drain_total n : forall q, QI None q -> (forall t, alive t (q_tr q) = true -> t_closed (q_st its q t) = true) ->
  (forall t y a, In a (snd (fin t y)) -> exists u, a = LWake u) -> length (q_run q) <= n -> drain Y fin n q <> None.
Proof.
  induction n as [|n IH]; intros q I CL FW LE; cbn [drain]; destruct (q_run q) as [|u r] eqn:QR; try discriminate; [cbn in LE; lia|].
  assert (FB : forallb (fun a => match a with LWake _ => true | _ => false end) (snd (fin u (i_y (q_x q)))) = true).
  { apply forallb_forall. intros a Ha. destruct (FW _ _ _ Ha) as (v & ->). reflexivity. }
  rewrite FB. unfold drop_fut, item_fin. cbn [Queue.q_x].
  destruct (fin u (i_y (q_x q))) as [y l] eqn:FE. cbn [snd] in FB.
  destruct (calls l _) as [x' tl] eqn:C. pose proof (pop_drop its step ifin q u r x' I QR) as KP.
  unfold q_setx, q_sets, q_emit. cbn [Queue.q_run Queue.q_n Queue.q_st Queue.q_asleep Queue.q_tr Queue.q_x]. unfold gone_st in KP.
  set (q0 := mkQ its x' r _ _ _ _) in *.
  assert (TL : forall a, In a tl -> exists v, a = Some (TWake v)).
  { clear - FB C. revert x' tl C. generalize (mkI Y y (i_map (q_x q)) (i_n (q_x q))). induction l as [|a l IH]; intros x x' tl C; cbn [ListRun.calls] in C.
    - injection C as <- <-. intros a [].
    - cbn in FB. apply andb_true_iff in FB as (F1 & F2). destruct a as [| |v]; try discriminate. cbn [call] in C.
      destruct (calls l x) as [x2 t2] eqn:C2. injection C as <- <-. intros a [<-|H]; [eauto|]. eapply IH; eauto. }
  destruct (wakes_quiet tl q0 KP TL) as (R1 & R2).
  { intros v AV. unfold q0 in AV |- *. cbn [Queue.q_tr Queue.q_st alive] in AV |- *.
    apply andb_true_iff in AV as (AV1 & AV2). rewrite Nat.eqb_sym in AV1. apply negb_true_iff in AV1. rewrite AV1. apply CL. exact AV2. }
  assert (L : length (q_run (fst (do_tacts its tl q0))) <= n) by (rewrite R1; unfold q0; cbn in *; lia).
  apply IH; [exact (do_tacts_qi its step ifin None tl q0 KP)|exact R2|exact FW|exact L].
Qed.
Lemma drop_list_total ks s : LI s -> l_cur s = None -> (forall k, lookup k (i_map (q_x (l_q s))) <> None -> In k ks) ->
  (forall t y a, In a (snd (fin t y)) -> exists u, a = LWake u) -> drop_list Y fin ks s <> None.
Proof.
  intros I CN KS FW. unfold drop_list. rewrite CN. destruct (calls (map LRemove ks) _) as [x tl] eqn:C.
  destruct I as [IQ (cs & WX & WQ & _) IO IR ID].
  destruct (calls_ok (map LRemove ks) _ cs x tl WX C) as ((A1 & A2) & _ & A3).
  assert (HN : forall k, held (map Did (rev (map LRemove ks)) ++ cs) k = None).
  { destruct WX as (_ & WX). intro k. destruct (held cs k) as [o|] eqn:HK.
    - assert (IK : In k ks) by (apply KS; rewrite WX, HK; discriminate). apply in_rev in IK. rewrite <- map_rev, map_map. clear - IK. induction (rev ks) as [|k' l IH]; [destruct IK|].
      cbn [map app held]. destruct (Nat.eqb_spec k' k); auto. destruct IK; [congruence|auto].
    - rewrite <- map_rev, map_map. clear - HK. induction (rev ks) as [|k' l IH]; auto. cbn [map app held]. destruct (k' =? k); auto. }
  assert (M : i_map x = []).
  { destruct (i_map x) as [|[k t] m] eqn:M; auto. specialize (A2 k). rewrite HN in A2. unfold lookup in A2. cbn in A2. rewrite Nat.eqb_refl in A2. discriminate. }
  rewrite M. assert (WQ' : Wq cs (q_setx its x (l_q s))) by exact WQ. specialize (A3 _ WQ').
  pose proof (do_tacts_qi its step ifin None tl _ (qi_setx its None x _ IQ)) as KQ.
  destruct (do_tacts its tl (q_setx its x (l_q s))) as [q al]. cbn [fst] in *.
  destruct (drain Y fin _ q) as [q'|] eqn:D; [discriminate|]. exfalso. revert D. apply drain_total; auto.
  intros t A. destruct A3 as (F & N).
  pose proof (qi_alive _ _ _ KQ t) as QA. rewrite A in QA. symmetry in QA. apply andb_true_iff in QA as (Q1 & Q2). apply Nat.ltb_lt in Q1. apply negb_true_iff in Q2.
  rewrite <- (qi_canc _ _ _ KQ t Q1 Q2).
  apply (cancelled_in (map Did (rev (map LRemove ks)) ++ cs)); auto; [apply (qi_legal _ _ _ KQ)|].
  pose proof (alive_spawned _ _ A) as SP. apply shown_in in SP; [|reflexivity]. rewrite F in SP.
  apply shown_in; [reflexivity|]. rewrite F. destruct (spawned_held _ _ SP) as [(k & H)|]; auto. rewrite HN in H. discriminate.
Qed.
End Proofs.
(** ** Which render future renders the list *)
Lemma run_items_keeps ww Y code fin j w s s' : run_items ww Y code fin j w s = Some s' -> l_cur Y s' = Some j /\ l_dead Y s' = l_dead Y s.
Proof. unfold run_items. destruct (batch _ _ _ _ _) as [[q al] p]. destruct p; [discriminate|]. intros [= <-]. auto. Qed.
Lemma dead_spec j l : existsb (Nat.eqb j) l = true <-> In j l.
Proof.
  rewrite existsb_exists. split.
  - intros (x & H & E). apply Nat.eqb_eq in E. congruence.
  - intro H. exists j. split; auto. apply Nat.eqb_refl.
Qed.
Lemma dead_spec' j l : existsb (Nat.eqb j) l = false <-> ~ In j l.
Proof. rewrite <- dead_spec. destruct (existsb _ _); split; congruence. Qed.
Definition rend {Y} (ops : list (lop Y)) (s : st Y) : Prop :=
  (forall j, l_cur Y s = Some j <-> (exists w, In (OPoll Y j w) ops) /\ ~ In (ODropRender Y j) ops) /\
  (forall j, In j (l_dead Y s) <-> In (ODropRender Y j) ops).
Lemma rend_step ww Y code fin ops s o s' : rend ops s -> exec ww Y code fin s o = Some s' -> rend (ops ++ [o]) s'.
Proof.
  intros (C & D) E.
  assert (IN : forall x, In x (ops ++ [o]) <-> In x ops \/ x = o) by (intro x; rewrite in_app_iff; cbn; intuition congruence).
  destruct o as [f|j w|j]; cbn [exec] in E.
  - destruct (f _) as [y l]. destruct (calls _ l _) as [x' tl]. destruct (do_tacts _ tl _) as [q al]. injection E as <-. cbn.
    split; intro k; cbn [l_cur l_dead].
    + rewrite C. split.
      * intros ((w & H) & N). split; [exists w; apply IN; auto|]. rewrite IN. intros [H'|H']; [auto|discriminate].
      * intros ((w & H) & N). rewrite IN in *. split; [exists w; destruct H as [H|H]; [auto|discriminate]|tauto].
    + rewrite D, IN. split; [auto|intros [H|H]; [auto|discriminate]].
  - destruct (existsb _ _) eqn:X.
    + apply dead_spec in X. injection E as <-. pose proof (proj1 (D j) X) as X'. split; intro k.
      * rewrite C, IN. split.
        -- intros ((w' & H) & N). split; [exists w'; apply IN; auto|]. intros [H'|H']; [auto|discriminate].
        -- intros ((w' & H) & N). apply IN in H. split; [|tauto]. destruct H as [H|H]; [eauto|]. injection H as -> ->. tauto.
      * rewrite D, IN. split; [auto|intros [H|H]; [auto|discriminate]].
    + apply dead_spec' in X. assert (X' : ~ In (ODropRender Y j) ops) by (rewrite <- D; auto).
      assert (R : run_items ww Y code fin j w s = Some s' /\ (forall i, l_cur Y s = Some i -> i = j)).
      { destruct (l_cur Y s) as [i|]; [|split; auto; discriminate]. destruct (Nat.eqb_spec i j) as [Q|]; [|discriminate]. split; auto. intros ? [= <-]; auto. }
      destruct R as (R & U). apply run_items_keeps in R. destruct R as (R1 & R2). split; intro k; rewrite ?R1, ?R2.
      * rewrite IN. split.
        -- intros [= <-]. split; [exists w; apply IN; auto|]. intros [H'|H']; [auto|discriminate].
        -- intros ((w' & H) & N). apply IN in H. destruct H as [H|H]; [|congruence]. rewrite (U k); auto. apply C. split; eauto.
      * rewrite D, IN. split; [auto|intros [H|H]; [auto|discriminate]].
  - assert (POLL : forall k w, In (OPoll Y k w) (ops ++ [ODropRender Y j]) <-> In (OPoll Y k w) ops)
      by (intros; rewrite IN; split; [intros [H|H]; [auto|discriminate]|auto]).
    assert (R : (l_cur Y s' = if match l_cur Y s with Some i => i =? j | None => false end then None else l_cur Y s) /\ (forall k, In k (l_dead Y s') <-> k = j \/ In k (l_dead Y s))).
    { destruct (existsb _ _) eqn:X.
      - apply dead_spec in X. injection E as <-. split.
        + destruct (l_cur Y s) as [i|] eqn:Q; auto. destruct (Nat.eqb_spec i j) as [->|]; auto.
          destruct (proj1 (C j) eq_refl) as (_ & N). destruct N. apply D. auto.
        + intro k. split; [auto|intros [->|]; auto].
      - destruct (l_cur Y s) as [i|] eqn:Q; [destruct (i =? j)|]; injection E as <-; cbn; (split; [auto|intro k; split; intros [H|H]; auto]). }
    destruct R as (R1 & R2). split; intro k.
    + rewrite R1. rewrite IN. destruct (l_cur Y s) as [i|] eqn:Q.
      * destruct (Nat.eqb_spec i j) as [->|N].
        -- split; [discriminate|]. intros ((w & H) & N). apply POLL in H. assert (Some j = Some k) by (apply C; split; eauto). exfalso. apply N. right. congruence.
        -- rewrite C. split.
           ++ intros ((w & H) & M). split; [exists w; apply POLL; auto|]. intros [H'|H']; auto. injection H' as ->.
              assert (Some i = Some j) by (apply C; split; eauto). congruence.
           ++ intros ((w & H) & M). apply POLL in H. split; [eauto|tauto].
      * split; [discriminate|]. intros ((w & H) & N). apply POLL in H. apply C. split; eauto.
    + rewrite R2, D, IN. split; (intros [H|H]; [first [right; congruence|left; exact H]|first [left; congruence|right; exact H|left; exact H]]).
Qed.
Lemma rend_run ww Y code fin y ops s : run ww Y code fin y ops = Some s -> rend ops s.
Proof.
  unfold run. assert (I : rend [] (init Y y)).
  { split; intro j; cbn; [|tauto]. split; [discriminate|intros ((w & H) & _); destruct H]. }
  revert I. change (rend ([] ++ ops) s) with (rend ops s) in *. rewrite <- (app_nil_l ops) at 2. generalize (init Y y), (@nil (lop Y)).
  induction ops as [|o ops IH]; intros s0 pre I E; cbn [execs] in E; [injection E as <-; rewrite app_nil_r; auto|].
  destruct (exec ww Y code fin s0 o) as [s1|] eqn:E1; [|discriminate]. change (o :: ops) with ([o] ++ ops). rewrite app_assoc.
  apply (IH s1); auto. eapply rend_step; eauto.
Qed.
Lemma exec_total ww Y code fin s o : (forall t y, snd (code t y) <> Panics) ->
  (exec ww Y code fin s o = None <-> exists j w i, o = OPoll Y j w /\ ~ In j (l_dead Y s) /\ l_cur Y s = Some i /\ i <> j).
Proof.
  intro N.
  assert (RI : forall j w, run_items ww Y code fin j w s <> None).
  { intros j w. unfold run_items. pose proof (batch_calm _ (item_step Y code) (item_fin Y fin)) as B.
    assert (N' : forall t x, snd (item_step Y code t x) <> Panics).
    { intros t x. unfold item_step. specialize (N t (i_y Y x)). destruct (code t (i_y Y x)) as [[y l] o']. destruct (calls Y l _). exact N. }
    specialize (B N' 200 (l_q Y s)). destruct (batch _ _ _ _ _) as [[q al] p]. cbn in B. rewrite B. discriminate. }
  split.
  - intro E. destruct o as [f|j w|j]; cbn [exec] in E.
    + destruct (f _) as [y l]. destruct (calls _ l _) as [x' tl]. destruct (do_tacts _ tl _) as [q al]. discriminate.
    + destruct (existsb _ _) eqn:X; [discriminate|]. apply dead_spec' in X. destruct (l_cur Y s) as [i|].
      * destruct (Nat.eqb_spec i j) as [Q|Q]; [destruct (RI _ _ E)|]. exists j, w, i. auto.
      * destruct (RI _ _ E).
    + destruct (existsb _ _); [discriminate|]. destruct (l_cur Y s) as [i|]; [destruct (i =? j)|]; discriminate.
  - intros (j & w & i & -> & D & C & Q). cbn [exec]. apply dead_spec' in D. rewrite D, C. apply Nat.eqb_neq in Q. rewrite Q. auto.
Qed.
