(** Proofs for C87. *)
From Coq Require Import List Arith Bool Lia.
From Verif Require Import Sheet Spec_sheet.
Import ListNotations.

Section Proofs.
Variable V : Type.
Variables (zero nan : V) (add : V -> V -> V).
Variables (ncols nrows : nat).
Notation formula := (formula V).
Notation sheet := (sheet V).
Notation deps := (deps V nrows).
Notation compute := (compute V zero nan add ncols nrows).
Notation turn := (turn V zero nan add ncols nrows).
Notation step := (step V zero nan add ncols nrows).
Notation runs := (runs V zero nan add ncols nrows).
Notation start := (start V nan ncols nrows).
Notation quiet := (quiet V ncols nrows).
Notation ncells := (ncells ncols nrows).
Notation meaning := (meaning V zero nan add nrows).
Notation reads := (reads V nrows).
Notation fits := (fits V ncols nrows).

Lemma deps_reads f d : In d (deps f) <-> reads f d.
Proof.
  destruct f as [v|fc fr tc tr|]; cbn [Sheet.deps Spec_sheet.reads]; try tauto. rewrite in_flat_map. split.
  - intros (col & C & R). apply in_map_iff in R. destruct R as (row & <- & R). apply in_seq in C, R. exists col, row. unfold index. lia.
  - intros (col & row & C & R & ->). exists col. split; [apply in_seq; lia|]. apply in_map_iff. exists row. split; [reflexivity|]. apply in_seq. lia.
Qed.
Lemma fold_map {A B} (g : A -> B) (h : V -> B -> V) l z : fold_left h (map g l) z = fold_left (fun o d => h o (g d)) l z.
Proof. revert z. induction l as [|x l IH]; intro z; [reflexivity|]. cbn. apply IH. Qed.
Lemma deps_rect fc fr tc tr : deps (Sum V fc fr tc tr) = map (fun p => fst p * nrows + snd p) (rectangle fc fr tc tr).
Proof.
  cbn [Sheet.deps]. unfold rectangle. replace (tc + 1 - fc) with (S tc - fc) by lia. replace (tr + 1 - fr) with (S tr - fr) by lia.
  generalize (seq fr (S tr - fr)) as rs. generalize (seq fc (S tc - fc)) as cs. induction cs as [|x cs IH]; intro rs; [reflexivity|].
  cbn. rewrite map_app, map_map, IH. reflexivity.
Qed.
Lemma compute_some f value v : compute f value = Some v -> v = meaning f value.
Proof.
  destruct f as [w|fc fr tc tr|]; cbn [Sheet.compute Spec_sheet.meaning]; intro H; try congruence.
  destruct (forallb _ _); [|discriminate]. apply (f_equal (fun o => match o with Some x => x | None => v end)) in H. cbv beta iota in H. rewrite <- H, deps_rect, !fold_map. reflexivity.
Qed.
Lemma fits_computes f value : fits f -> exists v, compute f value = Some v.
Proof.
  intro F. destruct f as [w|fc fr tc tr|]; cbn [Sheet.compute]; eauto.
  destruct (forallb (fun d => d <? ncells) (deps (Sum V fc fr tc tr))) eqn:E; eauto. exfalso.
  assert (X : forallb (fun d => d <? ncells) (deps (Sum V fc fr tc tr)) = true); [|congruence].
  apply forallb_forall. intros d IN. apply deps_reads in IN. destruct IN as (col & row & C & R & ->). cbn in F. apply Nat.ltb_lt. unfold Sheet.ncells.
  assert (col < ncols) by lia. assert (row < nrows) by lia. nia.
Qed.
Lemma fits_subscribes f : fits f -> subscribes V f = true.
Proof. destruct f; cbn; auto. intro F. apply andb_true_iff. split; apply Nat.leb_le; lia. Qed.
Lemma meaning_ext f a b : (forall d, reads f d -> a d = b d) -> meaning f a = meaning f b.
Proof.
  intro H. destruct f as [w|fc fr tc tr|]; auto. unfold Spec_sheet.meaning. f_equal. apply map_ext_in. intros p IN. apply H. apply deps_reads. rewrite deps_rect.
  apply (in_map (fun p => fst p * nrows + snd p)) in IN. exact IN.
Qed.
Lemma upd_same {A} (f : nat -> A) c x : upd f c x c = x. Proof. unfold upd. rewrite Nat.eqb_refl. reflexivity. Qed.
Lemma upd_other {A} (f : nat -> A) c x d : d <> c -> upd f c x d = f d.
Proof. intro H. unfold upd. apply Nat.eqb_neq in H. rewrite H. reflexivity. Qed.

(** ** the invariant *)
Record Inv (s : sheet) (cont : nat -> formula) : Prop := {
  v_form : forall c, form V s c = cont c;
  v_out : forall c, ncells <= c -> cont c = Unknown V /\ woken V s c = false;
  v_ok : forall c, c < ncells -> woken V s c = false -> text V s c = Some (value V s c) /\ (~ reads (cont c) c -> value V s c = meaning (cont c) (value V s)) }.
(** the same for all cells but one, which has just got a new formula *)
Record Inv' (s : sheet) (cont : nat -> formula) (x : nat) : Prop := {
  w_form : forall c, form V s c = cont c;
  w_out : forall c, ncells <= c -> cont c = Unknown V /\ woken V s c = false;
  w_ok : forall c, c < ncells -> c <> x -> woken V s c = false -> text V s c = Some (value V s c) /\ (~ reads (cont c) c -> value V s c = meaning (cont c) (value V s)) }.
Lemma turn_inv s cont c s' : c < ncells -> Inv' s cont c -> turn s c = Some s' -> Inv s' cont.
Proof.
  intros LT [WF WO WK] T. unfold Sheet.turn in T. destruct (compute (form V s c) (value V s)) as [v|] eqn:CO; [|discriminate]. destruct (subscribes _ _); [|discriminate]. injection T as <-.
  apply compute_some in CO. rewrite WF in CO. constructor; cbn; auto.
  - intros d LE. destruct (WO d LE) as [C W]. split; [exact C|]. destruct (Nat.eqb_spec d c); [reflexivity|]. rewrite W, WF, C. reflexivity.
  - intros d L. destruct (Nat.eqb_spec d c) as [->|N]; intro W.
    + rewrite !upd_same. split; [reflexivity|]. intro NR. rewrite CO. apply meaning_ext. intros e R. rewrite upd_other; [reflexivity|]. intros ->. contradiction.
    + apply orb_false_iff in W. destruct W as [W1 W2]. destruct (WK d L N W1) as [K1 K2]. rewrite !upd_other by exact N. split; [exact K1|]. intro NR. rewrite (K2 NR). apply meaning_ext. intros e R. rewrite upd_other; [reflexivity|].
      intros ->. apply deps_reads in R. rewrite WF in W2. assert (existsb (Nat.eqb c) (deps (cont d)) = true) by (apply existsb_exists; exists c; split; [exact R|apply Nat.eqb_refl]). congruence.
Qed.
Definition put (cont : nat -> formula) (a : act V) : nat -> formula := fun c => match a with Edit _ d g => if Nat.eqb d c then g else cont c | Wake _ _ => cont c end.
Lemma step_inv s cont a s' : Inv s cont -> step s a = Fine V s' -> Inv s' (put cont a).
Proof.
  intros [VF VO VK] S. destruct a as [c f|c]; cbn [Sheet.step put] in *.
  - destruct (quiet s && (c <? ncells)) eqn:Q; [|discriminate]. apply andb_true_iff in Q. destruct Q as [_ L]. apply Nat.ltb_lt in L.
    destruct (turn _ c) as [s1|] eqn:T; [|discriminate]. injection S as <-. eapply turn_inv; [exact L| |exact T]. constructor; cbn.
    + intro d. unfold upd. rewrite (Nat.eqb_sym d c). destruct (Nat.eqb c d); auto.
    + intros d LE. destruct (Nat.eqb_spec c d); [lia|auto].
    + intros d LD N W. destruct (Nat.eqb_spec c d); [congruence|]. apply VK; auto.
  - destruct (woken V s c) eqn:W; [|discriminate]. destruct (turn s c) as [s1|] eqn:T; [|discriminate]. injection S as <-.
    assert (L : c < ncells). { destruct (le_lt_dec ncells c) as [LE|]; auto. destruct (VO c LE). congruence. }
    eapply turn_inv; [exact L| |exact T]. constructor; auto.
Qed.
Lemma inv_start : Inv start (fun _ => Unknown V).
Proof.
  constructor; cbn [Sheet.start form woken text value]; auto.
  - intros c LE. split; auto. apply Nat.ltb_ge. exact LE.
  - intros c L W. apply Nat.ltb_ge in W. lia.
Qed.
Lemma runs_inv : forall l s cont s', Inv s cont -> runs s l = Fine V s' -> Inv s' (fun c => fold_left (fun f a => put (fun _ => f) a c) l (cont c)).
Proof.
  induction l as [|a l IH]; intros s cont s' I R; cbn [Sheet.runs fold_left] in *.
  - injection R as <-. exact I.
  - destruct (step s a) as [s1| |] eqn:S; try discriminate. pose proof (step_inv s cont a s1 I S) as I1. specialize (IH s1 _ s' I1 R). destruct IH as [A B C]. constructor; auto.
Qed.
Lemma contents_eq l : forall c f, fold_left (fun f a => put (fun _ => f) a c) l f = fold_left (fun f a => match a with Edit _ d g => if Nat.eqb d c then g else f | Wake _ _ => f end) l f.
Proof. induction l as [|a l IH]; intros c f; [reflexivity|]. cbn [fold_left]. rewrite IH. reflexivity. Qed.
Lemma inv_runs l s : runs start l = Fine V s -> Inv s (contents V l).
Proof.
  intro R. destruct (runs_inv l start _ s inv_start R) as [A B C]. assert (E : forall c, fold_left (fun f a => put (fun _ => f) a c) l (Unknown V) = contents V l c) by (intro; apply contents_eq).
  constructor; intros; rewrite <- ?E; auto.
Qed.
Lemma quiet_iff s : quiet s = true <-> forall c, c < ncells -> woken V s c = false.
Proof.
  unfold Sheet.quiet. rewrite forallb_forall. split; intros H c L.
  - specialize (H c ltac:(apply in_seq; lia)). destruct (woken V s c); [discriminate|reflexivity].
  - apply in_seq in L. rewrite H by lia. reflexivity.
Qed.

(** ** no panic *)
Lemma turn_fits s c : fits (form V s c) -> exists s', turn s c = Some s' /\ form V s' = form V s.
Proof. intro F. unfold Sheet.turn. destruct (fits_computes _ (value V s) F) as (v & ->). rewrite (fits_subscribes _ F). eexists. split; reflexivity. Qed.
Lemma runs_fits : forall l s, (forall c, fits (form V s c)) -> (forall c f, In (Edit V c f) l -> fits f) -> runs s l <> Panic V.
Proof.
  induction l as [|a l IH]; intros s F H; cbn [Sheet.runs]; [discriminate|]. destruct a as [c f|c]; cbn [Sheet.step].
  - destruct (quiet s && (c <? ncells)); [|discriminate].
    assert (F1 : forall d, fits (upd (form V s) c f d)) by (intro d; unfold upd; destruct (Nat.eqb d c); [apply (H c); left; reflexivity|apply F]).
    destruct (turn_fits (mkSh V (upd (form V s) c f) (value V s) (text V s) (woken V s)) c (F1 c)) as (s1 & -> & E). cbn [ofopt]. apply IH; [rewrite E; exact F1|intros d g IN; apply (H d); right; exact IN].
  - destruct (woken V s c); [|discriminate]. destruct (turn_fits s c (F c)) as (s1 & -> & E). cbn [ofopt]. apply IH; [rewrite E; exact F|intros d g IN; apply (H d); right; exact IN].
Qed.

(** ** the values depend on the formulas only *)
Lemma unique (cont : nat -> formula) (a b : nat -> V) : acyclic V nrows cont -> (forall c, fits (cont c)) ->
  (forall c, c < ncells -> ~ reads (cont c) c -> a c = meaning (cont c) a) -> (forall c, c < ncells -> ~ reads (cont c) c -> b c = meaning (cont c) b) -> forall c, c < ncells -> a c = b c.
Proof.
  intros (rank & RK) F HA HB. assert (G : forall n c, rank c < n -> c < ncells -> a c = b c); [|intros c L; apply (G (S (rank c))); auto].
  induction n as [|n IH]; intros c RC L; [lia|]. assert (NR : ~ reads (cont c) c) by (intro R; specialize (RK c c R); lia).
  rewrite (HA c L NR), (HB c L NR). apply meaning_ext. intros d R. apply IH; [specialize (RK c d R); lia|].
  specialize (F c). destruct (cont c) as [|fc fr tc tr|]; try contradiction. destruct R as (col & row & C & R & ->). cbn in F. unfold Sheet.ncells. assert (col < ncols) by lia. assert (row < nrows) by lia. nia.
Qed.

(** ** the cells come to rest *)
Fixpoint sum (g : nat -> nat) (l : list nat) : nat := match l with [] => 0 | x :: t => g x + sum g t end.
Lemma sum_le g h l : (forall x, In x l -> g x <= h x) -> sum g l <= sum h l.
Proof. induction l as [|x l IH]; cbn; intro H; [lia|]. pose proof (H x (or_introl eq_refl)). specialize (IH (fun y Y => H y (or_intror Y))). lia. Qed.
Lemma sum_add g h l : sum (fun x => g x + h x) l = sum g l + sum h l.
Proof. induction l as [|x l IH]; cbn; lia. Qed.
Lemma sum_bound g l k m : (forall x, In x l -> k * g x <= m) -> k * sum g l <= length l * m.
Proof. induction l as [|x l IH]; cbn; intro H; [lia|]. pose proof (H x (or_introl eq_refl)). specialize (IH (fun y Y => H y (or_intror Y))). lia. Qed.
Lemma sum_in g h l x d : NoDup l -> In x l -> g x + d <= h x -> (forall y, In y l -> y <> x -> g y <= h y) -> sum g l + d <= sum h l.
Proof.
  intros ND IN E H. induction l as [|y l IH]; [contradiction|]. inversion ND; subst. cbn. destruct IN as [->|IN].
  - assert (sum g l <= sum h l) by (apply sum_le; intros z Z; apply H; [right; exact Z|intros ->; contradiction]). lia.
  - specialize (IH H3 IN (fun z Z => H z (or_intror Z))). assert (g y <= h y) by (apply H; [left; reflexivity|intros ->; contradiction]). lia.
Qed.
Lemma rank_bound (rank : nat -> nat) n : exists R, forall c, c < n -> rank c < R.
Proof. induction n as [|n (R & H)]; [exists 0; lia|]. exists (S (R + rank n)). intros c L. destruct (Nat.eq_dec c n) as [->|]; [lia|]. specialize (H c ltac:(lia)). lia. Qed.
Section Rest.
Variables (rank : nat -> nat) (R : nat).
Hypothesis RB : forall c, c < ncells -> rank c < R.
Definition W (c : nat) : nat := S ncells ^ (R - rank c).
Definition weight (s : sheet) : nat := sum (fun c => if woken V s c then W c else 0) (seq 0 ncells).
Lemma turn_weight s c s' : (forall c d, reads (form V s c) d -> rank d < rank c) -> c < ncells -> woken V s c = true -> turn s c = Some s' -> weight s' < weight s.
Proof.
  intros RK L WK T. unfold Sheet.turn in T. destruct (compute _ _) as [v|]; [|discriminate]. destruct (subscribes _ _); [|discriminate]. injection T as <-.
  unfold weight. cbn [woken].
  set (new := fun d => if Nat.eqb d c then 0 else if existsb (Nat.eqb c) (deps (form V s d)) then W d else 0).
  set (old := fun d => if Nat.eqb d c then 0 else if woken V s d then W d else 0).
  assert (A : sum (fun c0 => if (if Nat.eqb c0 c then false else woken V s c0 || existsb (Nat.eqb c) (deps (form V s c0))) then W c0 else 0) (seq 0 ncells) <= sum old (seq 0 ncells) + sum new (seq 0 ncells)).
  { rewrite <- sum_add. apply sum_le. intros d _. unfold old, new. destruct (Nat.eqb d c); [lia|]. destruct (woken V s d), (existsb _ _); cbn [orb]; lia. }
  assert (B : sum old (seq 0 ncells) + W c <= sum (fun c => if woken V s c then W c else 0) (seq 0 ncells)).
  { apply (sum_in _ _ _ c); [apply seq_NoDup|apply in_seq; lia| |]; unfold old.
    - rewrite Nat.eqb_refl, WK. lia.
    - intros y _ N. apply Nat.eqb_neq in N. rewrite N. lia. }
  assert (C : S ncells * sum new (seq 0 ncells) <= length (seq 0 ncells) * W c).
  { apply sum_bound. intros d IN. apply in_seq in IN. unfold new. destruct (Nat.eqb d c); [lia|]. destruct (existsb _ _) eqn:E; [|lia].
    apply existsb_exists in E. destruct E as (x & X & EQ). apply Nat.eqb_eq in EQ. subst x. apply deps_reads in X. pose proof (RK d c X) as LT. unfold W.
    rewrite <- Nat.pow_succ_r'. apply Nat.pow_le_mono_r; [lia|]. specialize (RB d ltac:(lia)). lia. }
  rewrite seq_length in C. assert (0 < W c) by (apply Nat.neq_0_lt_0, Nat.pow_nonzero; lia). nia.
Qed.
Lemma wakes_bound : forall ws s s', (forall c d, reads (form V s c) d -> rank d < rank c) -> (forall c, ncells <= c -> form V s c = Unknown V /\ woken V s c = false) ->
  runs s (map (Wake V) ws) = Fine V s' -> length ws <= weight s.
Proof.
  induction ws as [|c ws IH]; intros s s' RK OUT RN; [cbn; lia|]. cbn [map Sheet.runs Sheet.step] in RN. destruct (woken V s c) eqn:WK; [|discriminate].
  destruct (turn s c) as [s1|] eqn:T; [|discriminate]. cbn [ofopt] in RN.
  assert (L : c < ncells) by (destruct (le_lt_dec ncells c) as [LE|]; auto; destruct (OUT c LE); congruence).
  pose proof (turn_weight s c s1 RK L WK T) as LT. unfold Sheet.turn in T. destruct (compute _ _) as [v|]; [|discriminate]. destruct (subscribes _ _); [|discriminate].
  assert (F1 : form V s1 = form V s) by (injection T as <-; reflexivity).
  assert (O1 : forall d, ncells <= d -> form V s1 d = Unknown V /\ woken V s1 d = false).
  { intros d LE. destruct (OUT d LE) as [A B]. injection T as <-. cbn. split; [exact A|]. rewrite B, A. destruct (Nat.eqb d c); reflexivity. }
  specialize (IH s1 s' ltac:(rewrite F1; exact RK) O1 RN). cbn. lia.
Qed.
End Rest.
End Proofs.
