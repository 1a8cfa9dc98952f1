From Coq Require Import List Arith Bool QArith Qround Qminmax Lia Lqa ZArith.
From Verif Require Import Spec_list DynList Calls Virtual Virtual_proofs Props_virtual VGeom Spec_vgeom.
Import ListNotations.
Local Open Scope Q_scope.

Lemma nQ_le a b : (a <= b)%nat -> nQ a <= nQ b.
Proof. intro H. unfold nQ. rewrite <- Zle_Qle. lia. Qed.
Lemma nQ_lt a b : (a < b)%nat -> nQ a < nQ b.
Proof. intro H. unfold nQ. rewrite <- Zlt_Qlt. lia. Qed.
Lemma nQ_lt_inv a b : nQ a < nQ b -> (a < b)%nat.
Proof. unfold nQ. rewrite <- Zlt_Qlt. lia. Qed.
Lemma nQ_add a b : nQ (a + b) == nQ a + nQ b.
Proof. unfold nQ. rewrite Nat2Z.inj_add, inject_Z_plus. reflexivity. Qed.
Lemma nQ_sub a b : (b <= a)%nat -> nQ (a - b) == nQ a - nQ b.
Proof. intro H. unfold nQ. rewrite Nat2Z.inj_sub by auto. unfold Z.sub. rewrite inject_Z_plus, inject_Z_opp. reflexivity. Qed.
Lemma nQ_0 : nQ 0 == 0. Proof. reflexivity. Qed.
Lemma nQ_nonneg n : 0 <= nQ n.
Proof. apply (nQ_le 0 n). lia. Qed.

Lemma as_usize_le x : as_usize x = 0%nat \/ nQ (as_usize x) <= x.
Proof.
  unfold as_usize. destruct (Z.to_nat (Qfloor (Qmax 0 x))) as [|n] eqn:E; auto. right. rewrite <- E. unfold nQ.
  rewrite Z2Nat.id by lia. destruct (Qlt_le_dec 0 x) as [L|L].
  - rewrite Q.max_r in * by lra. apply Qfloor_le.
  - rewrite Q.max_l in * by lra. cbn in E. lia.
Qed.
Lemma ceil_ge x : x <= nQ (ceil_usize x).
Proof.
  unfold ceil_usize, nQ. pose proof (Qle_ceiling x) as C. destruct (Z_le_gt_dec 0 (Qceiling x)) as [L|L].
  - rewrite Z2Nat.id by auto. auto.
  - assert (inject_Z (Qceiling x) <= 0) by (change 0 with (inject_Z 0); rewrite <- Zle_Qle; lia).
    pose proof (nQ_nonneg (Z.to_nat (Qceiling x))). unfold nQ in H0. lra.
Qed.
Lemma Qltb_iff a b : Qltb a b = true <-> a < b.
Proof.
  unfold Qltb. rewrite negb_true_iff. split; intro H.
  - apply Qnot_le_lt. intro L. apply Qle_bool_iff in L. congruence.
  - destruct (Qle_bool b a) eqn:E; auto. apply Qle_bool_iff in E. lra.
Qed.
Lemma div_mul x a : 0 < a -> a * (x / a) == x.
Proof. intro H. field. lra. Qed.
Lemma mul_pos_mono a x y : 0 < a -> x <= y -> a * x <= a * y.
Proof. intros. nra. Qed.

(** ** One computation *)
Inductive computed (s e num : nat) (f0 f1 b0 r0 r1 : Q) : option (nat * nat * Q * Q) -> Prop :=
| Kept : (f1 < r0 \/ s = 0%nat) -> (r1 < b0 \/ e = num) ->
    computed s e num f0 f1 b0 r0 r1 None
| New avg ns ne :
    0 < avg -> ((s < e)%nat -> avg * nQ (e - s) == b0 - f1) ->
    (ne <= num)%nat ->
    (ns = 0%nat \/ f0 + avg * nQ ns <= r0 - (r1 - r0)) ->
    (ne = num \/ r1 <= f0 + avg * nQ ne) ->
    ((ns < ne)%nat \/ (ns = 0 /\ ne = 0)%nat \/ ne = num) ->
    computed s e num f0 f1 b0 r0 r1 (Some (ns, ne, avg * nQ ns, avg * nQ (num - ne))).

Lemma compute_ok s e num f0 f1 b0 r0 r1 : r0 < r1 -> ((s < e)%nat -> f1 < b0) ->
  computed s e num f0 f1 b0 r0 r1 (compute s e num f0 f1 b0 r0 r1).
Proof.
  intros R W. unfold compute. destruct (_ && _) eqn:C.
  - apply andb_prop in C as [A B]. apply orb_prop in A. apply orb_prop in B. rewrite !Qltb_iff, !Nat.eqb_eq in *. constructor.
    + destruct A as [A|A]; auto. left. lra.
    + destruct B as [B|B]; auto. left. lra.
  - clear C. set (avg := if Nat.ltb 0 (e - s) then (b0 - f1) / nQ (e - s) else (r1 - r0) / 4).
    assert (P : 0 < avg /\ ((s < e)%nat -> avg * nQ (e - s) == b0 - f1)).
    { unfold avg. destruct (Nat.ltb_spec 0 (e - s)) as [L|L].
      - assert (N : 0 < nQ (e - s)) by (apply (nQ_lt 0 _); auto). split.
        + apply Qlt_shift_div_l; auto. specialize (W ltac:(lia)). lra.
        + intros _. field. lra.
      - split; [|lia]. apply Qlt_shift_div_l; lra. }
    destruct P as [P PW]. clearbody avg.
    set (x := (r0 - (r1 - r0) * 2 - f0) / avg). set (y := (r1 + (r1 - r0) * 2 - f0) / avg).
    assert (Ex : avg * x == r0 - (r1 - r0) * 2 - f0) by (apply div_mul; auto).
    assert (Ey : avg * y == r1 + (r1 - r0) * 2 - f0) by (apply div_mul; auto).
    clearbody x y. pose proof (as_usize_le x) as Ax. pose proof (ceil_ge y) as Ay.
    assert (XY : x < y) by (assert (0 < avg * (y - x)) by lra; nra).
    constructor; auto.
    + apply Nat.le_min_r.
    + destruct Ax as [Ax|Ax]; auto. right. assert (avg * nQ (as_usize x) <= avg * x) by nra. lra.
    + destruct (Nat.min_spec (ceil_usize y) num) as [[_ ->]|[_ ->]]; auto. right.
      assert (avg * y <= avg * nQ (ceil_usize y)) by nra. lra.
    + destruct (Nat.min_spec (ceil_usize y) num) as [[_ ->]|[_ ->]]; auto.
      destruct (as_usize x) eqn:E; [destruct (ceil_usize y); lia|]. left. rewrite <- E in *.
      destruct Ax as [Ax|Ax]; [rewrite Ax in E; discriminate|]. apply nQ_lt_inv. lra.
Qed.

Section P.
Variable h : Q.
Hypothesis H : 0 < h.

Lemma shown_gap p : window_shown (p_list p) -> (vl_start (p_list p) < vl_end (p_list p))%nat ->
  front_end p < back_start h p /\ back_start h p - front_end p == nQ (vl_end (p_list p) - vl_start (p_list p)) * h.
Proof.
  intros W L. unfold back_start. rewrite W, seq_length.
  assert (0 < nQ (vl_end (p_list p) - vl_start (p_list p))) by (apply (nQ_lt 0); lia). split; nra.
Qed.

(** what an update does *)
Inductive updated (p : page) : option page -> Prop :=
| UKept : (front_end p < p_r0 p \/ vl_start (p_list p) = 0%nat) ->
    (p_r1 p < back_start h p \/ vl_end (p_list p) = vl_num (p_list p)) -> updated p (Some p)
| UPanic avg ns ne : (vl_end (p_list p) <= vl_start (p_list p))%nat -> (ns < vl_start (p_list p) < ne)%nat ->
    (ne <= vl_num (p_list p))%nat -> 0 < avg -> updated p None
| UNew avg ns ne p' :
    0 < avg -> ((vl_start (p_list p) < vl_end (p_list p))%nat -> avg == h) ->
    (ne <= vl_num (p_list p))%nat ->
    (ns = 0%nat \/ p_f0 p + avg * nQ ns <= p_r0 p - (p_r1 p - p_r0 p)) ->
    (ne = vl_num (p_list p) \/ p_r1 p <= p_f0 p + avg * nQ ne) ->
    ((ns < ne)%nat \/ (ns = 0 /\ ne = 0)%nat \/ ne = vl_num (p_list p)) ->
    p' = mkP (mkVL ns ne (vl_num (p_list p)) (seq ns (ne - ns))) (avg * nQ ns) (avg * nQ (vl_num (p_list p) - ne)) (p_f0 p) (p_r0 p) (p_r1 p) ->
    updated p (Some p').

Lemma update_ok p : p_r0 p < p_r1 p -> window_shown (p_list p) -> updated p (update h p).
Proof.
  intros R W. unfold update.
  destruct (compute_ok (vl_start (p_list p)) (vl_end (p_list p)) (vl_num (p_list p)) (p_f0 p) (front_end p) (back_start h p) (p_r0 p) (p_r1 p) R) as [A B|avg ns ne A0 A1 A2 A3 A4 A5].
  - intro L. apply (shown_gap p W L).
  - constructor; auto.
  - assert (X : (vl_start (p_list p) < vl_end (p_list p))%nat -> avg == h).
    { intro L. destruct (shown_gap p W L) as [_ G]. rewrite <- (A1 L) in G.
      assert (0 < nQ (vl_end (p_list p) - vl_start (p_list p))) by (apply (nQ_lt 0); lia).
      assert ((avg - h) * nQ (vl_end (p_list p) - vl_start (p_list p)) == 0) by lra.
      apply Qmult_integral in H1 as [|]; lra. }
    destruct (C37_update_exact_partial (p_list p) ns ne W) as [P N]. destruct (le_lt_dec (vl_end (p_list p)) (vl_start (p_list p))) as [L|L].
    + destruct (le_lt_dec (vl_start (p_list p)) ns) as [L1|L1]; [|destruct (le_lt_dec ne (vl_start (p_list p))) as [L2|L2]].
      3: rewrite P by (repeat split; auto); apply (UPanic p avg ns ne); auto.
      all: destruct N as (v' & E & W' & S1 & S2); [lia|]; rewrite E; apply (UNew p avg ns ne); auto.
      all: unfold vl_update in E; destruct (druns _ _) in E; [|discriminate E]; injection E as <-; unfold window_shown in W'; cbn in *; now rewrite W'.
    + destruct N as (v' & E & W' & S1 & S2); [lia|]. rewrite E. apply (UNew p avg ns ne); auto.
      unfold vl_update in E; destruct (druns _ _) in E; [|discriminate E]; injection E as <-; unfold window_shown in W'; cbn in *; now rewrite W'.
Qed.

(** ** Histories in which the number of items does not fall *)
Record J (p : page) : Prop := {
  j_size : p_r0 p < p_r1 p;
  j_shown : window_shown (p_list p);
  j_front : vl_start (p_list p) = 0%nat -> p_hf p == 0;
  j_end : (vl_end (p_list p) <= vl_num (p_list p))%nat;
  j_back : vl_end (p_list p) = vl_num (p_list p) -> p_hb p == 0 }.

Lemma J_set_num p n : J p -> (vl_num (p_list p) <= n)%nat -> J (set_num p n).
Proof.
  intros [A B C D E] L. constructor; cbn; auto.
  - lia.
  - intro Q. apply E. lia.
Qed.
Lemma J_update p p' : J p -> update h p = Some p' -> J p'.
Proof.
  intros [A B C D E] U. pose proof (update_ok p A B) as X. rewrite U in X. inversion X as [| |avg ns ne p0 A0 A1 A2 A3 A4 A5 EQ]; subst.
  - constructor; auto.
  - constructor; cbn; auto.
    + reflexivity.
    + intros ->. rewrite nQ_0. lra.
    + intros ->. rewrite Nat.sub_diag, nQ_0. lra.
Qed.
Lemma update_num p p' : update h p = Some p' -> vl_num (p_list p') = vl_num (p_list p).
Proof.
  unfold update. destruct (compute _ _ _ _ _ _ _ _) as [[[[ns ne] a] b]|]; [|now intros [= <-]].
  destruct (vl_update _ _) as [v|] eqn:E; [|discriminate]. intros [= <-]. cbn.
  unfold vl_update in E. destruct (druns _ _) in E; [|discriminate E]. now injection E as <-.
Qed.
Lemma J_run ops : forall p p', J p -> sizes_ok ops -> rising (vl_num (p_list p)) ops -> grun h p ops = Some p' -> J p'.
Proof.
  induction ops as [|o ops IH]; intros p p' I S R G; cbn in G; [now injection G as <-|].
  destruct (gexec h p o) as [p1|] eqn:E; [|discriminate]. assert (S' : sizes_ok ops) by (intros a b c X; apply (S a b c); now right).
  destruct o as [f0 r0 r1| |n]; cbn in E, R.
  - injection E as <-. apply (IH _ _) in G; auto. destruct I. constructor; cbn; auto. apply (S f0 r0 r1). now left.
  - apply (IH p1); auto. + eapply J_update; eauto. + now rewrite (update_num _ _ E).
  - destruct R as [L R]. apply (IH p1); auto. + apply (J_update (set_num p n)); auto. apply J_set_num; auto. + now rewrite (update_num _ _ E).
Qed.
Lemma J_page0 f0 r0 r1 : r0 < r1 -> J (page0 f0 r0 r1).
Proof. intro R. constructor; cbn; auto; reflexivity. Qed.

Lemma no_hole p p' : J p -> (vl_start (p_list p) < vl_end (p_list p))%nat -> update h p = Some p' -> ~ hole h p'.
Proof.
  intros [A B C D E] L U. pose proof (update_ok p A B) as X. rewrite U in X. inversion X as [F K| |avg ns ne p0 A0 A1 A2 A3 A4 A5 EQ]; subst.
  - intros (y & Y & [Z|Z]).
    + destruct F as [F|F]; [lra|]. unfold front_end in Z. rewrite (C F) in Z. lra.
    + destruct K as [K|K]; [lra|]. unfold back_end in Z. rewrite (E K) in Z. lra.
  - intros (y & Y & Z). unfold back_end, back_start, front_end in Z. cbn in *. rewrite seq_length in Z. specialize (A1 L). destruct Z as [Z|Z].
    + destruct A3 as [->|A3]; [rewrite nQ_0 in Z; lra|lra].
    + destruct A4 as [->|A4]; [rewrite Nat.sub_diag, nQ_0 in Z; lra|]. destruct A5 as [A5|[[-> ->]|A5]].
      * rewrite nQ_sub in Z by lia. rewrite A1 in *. lra.
      * rewrite nQ_0 in *. cbn [Nat.sub] in Z. rewrite nQ_0 in Z. lra.
      * subst ne. rewrite (Nat.sub_diag (vl_num _)), nQ_0 in Z. lra.
Qed.

(** ** Histories in which it does not rise, after it is first set *)
Definition stuck (last : option nat) (p : page) : Prop :=
  p_r0 p < p_r1 p /\ window_shown (p_list p) /\
  match last with
  | None => vl_start (p_list p) = 0%nat /\ vl_end (p_list p) = 0%nat /\ vl_num (p_list p) = 0%nat
  | Some n => vl_num (p_list p) = n /\
      ((vl_start (p_list p) < vl_end (p_list p))%nat \/ vl_start (p_list p) = 0%nat \/ (n <= vl_start (p_list p))%nat)
  end.
Lemma stuck_update n p : stuck (Some n) p -> exists p', update h p = Some p' /\ stuck (Some n) p'.
Proof.
  intros (A & B & <- & C). pose proof (update_ok p A B) as X. inversion X as [F K E|avg ns ne F K L A0 E|avg ns ne p0 A0 A1 A2 A3 A4 A5 EQ E]; subst.
  - exists p. unfold stuck. auto.
  - exfalso. lia.
  - eexists. split; [reflexivity|]. split; [exact A|]. split; [reflexivity|]. split; [reflexivity|]. cbn.
    destruct A5 as [A5|[[-> ->]|Q]]; auto. destruct (le_lt_dec (vl_num (p_list p)) ns); auto. left. lia.
Qed.
Lemma stuck_run ops : forall last p, stuck last p -> sizes_ok ops -> falling last ops -> exists p', grun h p ops = Some p'.
Proof.
  induction ops as [|o ops IH]; intros last p I S R; cbn; [eauto|]. assert (S' : sizes_ok ops) by (intros a b c X; apply (S a b c); now right).
  destruct o as [f0 r0 r1| |n]; cbn in R |- *.
  - apply (IH last); auto. destruct I as (A & B & C). split; [apply (S f0 r0 r1); now left|]. auto.
  - destruct last as [n|].
    + destruct (stuck_update n p I) as (p' & -> & I'). eauto.
    + destruct I as (A & B & C1 & C2 & C3). assert (E : update h p = Some p).
      { unfold update, compute. rewrite C1, C2, C3. cbn. now rewrite !orb_true_r. }
      rewrite E. apply (IH None); auto. split; auto.
  - destruct R as [L R]. destruct (stuck_update n (set_num p n)) as (p' & -> & I'); [|eauto].
    destruct I as (A & B & C). split; [exact A|]. split; [exact B|]. split; [reflexivity|]. cbn.
    destruct last as [k|]; [|tauto]. destruct C as [Q [C|[C|C]]]; auto. right. right. rewrite <- Q in L. lia.
Qed.

(** ** Any history *)
Lemma shown_run ops : forall p p', p_r0 p < p_r1 p -> window_shown (p_list p) -> sizes_ok ops -> grun h p ops = Some p' ->
  p_r0 p' < p_r1 p' /\ window_shown (p_list p').
Proof.
  assert (UU : forall p p', p_r0 p < p_r1 p -> window_shown (p_list p) -> update h p = Some p' -> p_r0 p' < p_r1 p' /\ window_shown (p_list p')).
  { intros p p' A B U. pose proof (update_ok p A B) as X. rewrite U in X. inversion X as [| |avg ns ne p0 A0 A1 A2 A3 A4 A5 EQ]; subst; auto.
    split; [exact A|reflexivity]. }
  induction ops as [|o ops IH]; intros p p' A B S G; cbn in G; [injection G as <-; auto|].
  assert (S' : sizes_ok ops) by (intros a b c X; apply (S a b c); now right).
  destruct (gexec h p o) as [p1|] eqn:E; [|discriminate]. destruct o as [f0 r0 r1| |n]; cbn in E.
  - injection E as <-. apply (IH _ _) in G; auto. apply (S f0 r0 r1). now left.
  - destruct (UU _ _ A B E). eapply IH; eauto.
  - destruct (UU (set_num p n) _ A B E). eapply IH; eauto.
Qed.
Lemma settles p p' : p_r0 p < p_r1 p -> window_shown (p_list p) -> (vl_start (p_list p) < vl_end (p_list p))%nat -> update h p = Some p' ->
  p' = p \/
  (forall j i, nth_error (vl_keys (p_list p')) j = Some i -> place h p' j == p_f0 p' + nQ i * h) /\
  ((vl_start (p_list p') <= vl_end (p_list p'))%nat -> extent h p' == nQ (vl_num (p_list p')) * h).
Proof.
  intros A B L U. pose proof (update_ok p A B) as X. rewrite U in X. inversion X as [F K| |avg ns ne p0 A0 A1 A2 A3 A4 A5 EQ]; subst; auto.
  right. specialize (A1 L). unfold extent, place, back_end, back_start, front_end. cbn. split.
  - intros j i N. assert (Lj : (j < ne - ns)%nat) by (rewrite <- (seq_length (ne - ns) ns); apply nth_error_Some; congruence).
    apply nth_error_nth with (d := 0%nat) in N. rewrite seq_nth in N by auto. subst i. rewrite nQ_add, A1. lra.
  - intro LL. rewrite seq_length, !nQ_sub by lia. rewrite A1. lra.
Qed.
End P.
