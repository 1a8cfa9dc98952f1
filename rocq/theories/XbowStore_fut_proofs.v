(** Proofs for C44 and C45: the futures of for_each_async, the events of bind_for_each. *)
From Coq Require Import List Arith Bool NArith Lia.
From Verif Require Import Util Arena Spec_arena Arena_proofs Xbow Spec_xbow Xbow_proofs Xbow_run_proofs XbowData XbowData_proofs XbowStore Spec_store XbowStore_proofs XbowStore_run_proofs.
Import ListNotations.

Section Store.
Variable ww : waker -> waker -> bool.
Hypothesis WW : will_wake_ok ww.
Variable K : Type.
Variable keqb : K -> K -> bool.
Hypothesis keqb_ok : forall a b, keqb a b = true <-> a = b.
Notation val := (val K).
Notation path := (list (seg K)).
Variable H : path -> N.
Notation S_ := (seg K).
Notation xexec := (exec ww (seg K) H).
Notation xsince := (since_poll (seg K)).
Notation tr s := (w_tr (seg K) (sx K s)).
Notation sexec := (sexec ww K keqb H).
Notation sexecs := (sexecs ww K keqb H).
Notation srun := (srun ww K keqb H).
Notation borrow := (path_borrow K keqb).
Notation sstate := (sstate K).
Notation helper := (helper K).
Notation GI := (GI K H).
Notation INV := (INV K H).
Notation do_acts := (do_acts ww K keqb H).
Notation created := (created K).
Notation dropped := (dropped K).

(** * bind_for_each: what one poll does *)
Lemma bind_ok s x wk e : GI s -> In x (sh K s) -> exists s' sa, 
  let s0 := take_items K sa (h_id K x) (e_items K e) in
  poll_bind ww K keqb H s x wk e = Some s' /\ do_acts s (e_acts K e) = Some sa /\ sh K s' = sh K s /\ snext K s' = snext K s /\
  (if e_end K e then s' = emit K s0 (EDone K (h_id K x))
   else match last_item K (e_items K e) with
   | None => poll_each ww K keqb H s0 x wk = Some s'
   | Some v =>
       match path_borrow_mut K keqb (e_uniq K e) (h_path K x) (sd K s0) with
       | None => s' = emit K s0 (EDone K (h_id K x))
       | Some (_, k) => sd K s' = k v /\ str K s' = EWrote K (h_id K x) v :: EWrite K (h_path K x) :: str K s0 /\
           exists r t1, tr s' = TPoll _ (h_id K x) wk false :: TPoll _ (h_id K x) wk r :: t1 ++ tr s0 /\ In (TNotify _ (h_path K x)) t1
       end
   end).
Proof.
  intros G Hx. unfold poll_bind.
  destruct (acts_ok ww K keqb keqb_ok H (e_acts K e) s G) as (sa & t1 & E & Ga & Ha & Na & _). rewrite E.
  destruct (take_ok K (h_id K x) (e_items K e) sa) as (D0 & X0 & H0 & N0 & T0 & S0). cbv zeta in *. set (s0 := take_items K sa (h_id K x) (e_items K e)) in *.
  assert (G0 : GI s0) by (apply (gi_same K H sa); auto). assert (Hx0 : In x (sh K s0)) by (rewrite H0, Ha; exact Hx).
  destruct (e_end K e) eqn:EE; [eexists; exists sa; fold s0; split; [reflexivity|]; split; [reflexivity|]; cbn; split; [congruence|split; [congruence|reflexivity]]|].
  destruct (last_item K (e_items K e)) as [v|] eqn:LI.
  2:{ destruct (each_ok ww WW K keqb H s0 x wk G0 Hx0) as (s' & r & E' & _ & SH & SN & _). exists s', sa. fold s0. split; [exact E'|]. split; [reflexivity|]. split; [congruence|]. split; [congruence|exact E']. }
  destruct (path_borrow_mut K keqb (e_uniq K e) (h_path K x) (sd K s0)) as [(y, k)|] eqn:BM.
  2:{ eexists; exists sa; fold s0; split; [reflexivity|]; split; [reflexivity|]. rewrite BM. cbn; split; [congruence|split; [congruence|reflexivity]]. }
  destruct (notify_ok ww K H (with_d K s0 (k v)) (h_path K x)) as (w1 & t2 & EN & GN & T2 & Q2 & IN2 & _); [apply (gi_same K H s0); auto|].
  assert (E1 : do_act ww K keqb H s0 (AWrite K (h_path K x) (e_uniq K e) (fun _ => v)) = Some (emit K (with_x K (with_d K s0 (k v)) w1) (EWrite K (h_path K x)))).
  { cbn [do_act]. rewrite BM. cbn [sx with_d] in EN. rewrite EN. reflexivity. }
  rewrite E1. set (s1 := emit K (emit K (with_x K (with_d K s0 (k v)) w1) (EWrite K (h_path K x))) (EWrote K (h_id K x) v)).
  destruct (poll_ok ww WW K H s1 x wk) as (w & r & E2 & G2 & T3 & _ & _ & _); [apply gi_emit, gi_emit, GN|exact Hx0|]. rewrite E2.
  destruct (each_ok ww WW K keqb H (with_x K s1 w) x wk G2 Hx0) as (s' & r' & E' & _ & SH & SN & SD & T4 & R & STR).
  assert (FF : xsince (h_id K x) (tr (with_x K s1 w)) = Some []). { cbn [sx with_x]. rewrite T3. apply since_polled. }
  assert (r' = false). { destruct r'; [|reflexivity]. exfalso. destruct (proj1 R eq_refl) as (d & q & kk & F1 & F2 & _). rewrite FF in F1. injection F1 as <-. destruct F2. }
  subst r'. exists s', sa. fold s0. split; [exact E'|]. split; [reflexivity|]. split; [rewrite SH; cbn; congruence|]. split; [rewrite SN; cbn; congruence|]. rewrite BM.
  split; [rewrite SD; reflexivity|]. split.
  - rewrite STR. unfold firstb. rewrite FF. reflexivity.
  - exists r, t2. split; [rewrite T4; cbn [sx with_x]; rewrite T3; cbn in T2 |- *; rewrite T2; reflexivity|exact IN2].
Qed.

(** * futures *)
Definition neutral (e : sev K) : Prop := match e with EFut _ _ _ _ => False | EFutPoll _ _ => False | EFutDrop _ _ => False | _ => True end.
Fixpoint drops (t : list (sev K)) : list nat := match t with [] => [] | EFutDrop _ n :: t => n :: drops t | _ :: t => drops t end.
Fixpoint makes (t : list (sev K)) : list nat := match t with [] => [] | EFut _ _ n _ :: t => n :: makes t | _ :: t => makes t end.
Lemma drops_in t n : In n (drops t) <-> dropped n t.
Proof.
  unfold Spec_store.dropped. induction t as [|e t IH]; cbn [drops In]; [tauto|].
  destruct e; cbn [drops In]; rewrite IH; (split; [auto|intros [Q|Q]; [discriminate Q|exact Q]]) || (split; (intros [Q|Q]; [left; congruence|auto])).
Qed.
Definition good (t : list (sev K)) : Prop := forall t1 n t2, t = t1 ++ EFutPoll K n :: t2 ->
  exists h, created h n t2 /\ ~ dropped n t2 /\ forall m, created h m t2 -> m <= n.
Record FI (s : sstate) : Prop := {
  f_lt : forall h n, created h n (str K s) -> n < snext K s /\ h < w_next _ (sx K s);
  f_one : NoDup (makes (str K s));
  f_owner : forall h h' n, created h n (str K s) -> created h' n (str K s) -> h = h';
  f_drop : forall n, dropped n (str K s) -> exists h, created h n (str K s);
  f_once : NoDup (drops (str K s));
  f_cur : forall x n, In x (sh K s) -> h_fut K x = Some n -> created (h_id K x) n (str K s) /\ ~ dropped n (str K s) /\ forall m, created (h_id K x) m (str K s) -> m <= n;
  f_alive : forall h n, created h n (str K s) -> dropped n (str K s) \/ exists x, In x (sh K s) /\ h_id K x = h /\ h_fut K x = Some n;
  f_good : good (str K s) }.

Lemma neutral_created t2 t h n : (forall e, In e t2 -> neutral e) -> created h n (t2 ++ t) <-> created h n t.
Proof. intro N. split; intros (v & I); exists v; [apply in_app_iff in I as [I|I]; [destruct (N _ I)|exact I]|apply in_app_iff; auto]. Qed.
Lemma neutral_dropped t2 t n : (forall e, In e t2 -> neutral e) -> dropped n (t2 ++ t) <-> dropped n t.
Proof. intro N. unfold Spec_store.dropped. rewrite in_app_iff. split; [intros [I|I]; [destruct (N _ I)|exact I]|auto]. Qed.
Lemma neutral_lists t2 t : (forall e, In e t2 -> neutral e) -> drops (t2 ++ t) = drops t /\ makes (t2 ++ t) = makes t.
Proof. induction t2 as [|e t2 IH]; intro N; [auto|]. destruct IH as (A & B); [intros; apply N; cbn; auto|]. pose proof (N e (or_introl eq_refl)) as Q. destruct e; cbn in *; auto; destruct Q. Qed.
Lemma good_cons e t : good t -> (forall n, e = EFutPoll K n -> exists h, created h n t /\ ~ dropped n t /\ forall m, created h m t -> m <= n) -> good (e :: t).
Proof.
  intros G Q t1 n t2 E. destruct t1 as [|e' t1]; cbn in E; injection E as -> E.
  - subst t2. apply Q. reflexivity.
  - apply (G t1 n t2 E).
Qed.
Lemma good_neutral t2 t : good t -> (forall e, In e t2 -> neutral e) -> good (t2 ++ t).
Proof. intros G. induction t2 as [|e t2 IH]; intro N; [exact G|]. cbn [app]. apply good_cons; [apply IH; intros; apply N; cbn; auto|]. intros n ->. destruct (N _ (or_introl eq_refl)). Qed.

Lemma fi_neutral s s' t2 : FI s -> str K s' = t2 ++ str K s -> (forall e, In e t2 -> neutral e) -> snext K s' = snext K s -> w_next _ (sx K s) <= w_next _ (sx K s') ->
  (forall x n, In x (sh K s') -> h_fut K x = Some n -> exists z, In z (sh K s) /\ h_id K z = h_id K x /\ h_fut K z = Some n) ->
  (forall z n, In z (sh K s) -> h_fut K z = Some n -> exists x, In x (sh K s') /\ h_id K x = h_id K z /\ h_fut K x = Some n) -> FI s'.
Proof.
  intros F E N SN LE A B. destruct (neutral_lists t2 (str K s) N) as (ND & NM). split; rewrite ?E, ?ND, ?NM.
  - intros h n C. apply (proj1 (neutral_created _ _ _ _ N)) in C. destruct (f_lt _ F h n C). rewrite SN. lia.
  - apply (f_one _ F).
  - intros h h' n C C'. apply (proj1 (neutral_created _ _ _ _ N)) in C, C'. apply (f_owner _ F h h' n C C').
  - intros n D. apply (proj1 (neutral_dropped _ _ _ N)) in D. destruct (f_drop _ F n D) as (h & C). exists h. apply (proj2 (neutral_created _ _ _ _ N)); auto.
  - apply (f_once _ F).
  - intros x n Hx FX. destruct (A x n Hx FX) as (z & Hz & <- & FZ). destruct (f_cur _ F z n Hz FZ) as (C & D & L). split; [apply (proj2 (neutral_created _ _ _ _ N)); auto|].
    split; [intro Q; apply (proj1 (neutral_dropped _ _ _ N)) in Q; auto|]. intros m M. apply (proj1 (neutral_created _ _ _ _ N)) in M. auto.
  - intros h n C. apply (proj1 (neutral_created _ _ _ _ N)) in C. destruct (f_alive _ F h n C) as [D|(z & Hz & ID & FZ)]; [left; apply (proj2 (neutral_dropped _ _ _ N)); auto|].
    right. destruct (B z n Hz FZ) as (x & Hx & IX & FX). exists x. split; [exact Hx|]. split; [congruence|exact FX].
  - apply good_neutral; [apply (f_good _ F)|exact N].
Qed.
Lemma fi_same s s' t2 : FI s -> str K s' = t2 ++ str K s -> (forall e, In e t2 -> neutral e) -> snext K s' = snext K s -> w_next _ (sx K s) <= w_next _ (sx K s') -> sh K s' = sh K s -> FI s'.
Proof. intros. eapply fi_neutral; eauto; intros; [rewrite H5 in *|rewrite <- H5 in *]; eauto. Qed.

Lemma unique_fut s x y : NoDup (map (h_id K) (sh K s)) -> In x (sh K s) -> In y (sh K s) -> h_id K x = h_id K y -> x = y.
Proof.
  generalize (sh K s). induction l as [|a l IH]; cbn; intros ND Hx Hy E; [destruct Hx|]. inversion ND as [|? ? NI ND']; subst.
  destruct Hx as [->|Hx], Hy as [->|Hy]; auto; exfalso; apply NI; [rewrite E|rewrite <- E]; apply in_map; auto.
Qed.
(** polling the current future *)
Lemma fi_poll s x n : FI s -> In x (sh K s) -> h_fut K x = Some n -> FI (emit K s (EFutPoll K n)).
Proof.
  intros F Hx FX. destruct (f_cur _ F x n Hx FX) as (C & D & L). 
  assert (CR : forall h m, created h m (str K (emit K s (EFutPoll K n))) <-> created h m (str K s)).
  { intros h m. cbn. split; intros (v & Q); exists v; [destruct Q as [Q|Q]; [discriminate|exact Q]|right; exact Q]. }
  assert (DR : forall m, dropped m (str K (emit K s (EFutPoll K n))) <-> dropped m (str K s)).
  { intros m. cbn. unfold Spec_store.dropped. cbn. split; [intros [Q|Q]; [discriminate|exact Q]|auto]. }
  split.
  - intros h m Q. apply CR in Q. apply (f_lt _ F h m Q).
  - apply (f_one _ F).
  - intros h h' m Q Q'. apply CR in Q, Q'. apply (f_owner _ F h h' m Q Q').
  - intros m Q. apply DR in Q. destruct (f_drop _ F m Q) as (h & Q'). exists h. apply CR, Q'.
  - apply (f_once _ F).
  - intros y m Hy FY. destruct (f_cur _ F y m Hy FY) as (C' & D' & L'). split; [apply CR, C'|]. split; [intro Q; apply DR in Q; auto|]. intros m' Q. apply CR in Q. auto.
  - intros h m Q. apply CR in Q. destruct (f_alive _ F h m Q) as [A|A]; [left; apply DR, A|right; exact A].
  - apply good_cons; [apply (f_good _ F)|]. intros m [= <-]. exists (h_id K x). auto.
Qed.
(** dropping it *)
Lemma set_fut_eq h o l y : In y (set_fut K h o l) -> exists z, In z l /\ h_id K z = h_id K y /\ h_kind K z = h_kind K y /\ ((h_id K z = h /\ h_fut K y = o) \/ (h_id K z <> h /\ y = z)).
Proof. intro I. apply in_map_iff in I as (z & <- & Hz). exists z. destruct (Nat.eqb_spec (h_id K z) h); cbn; auto 6. Qed.
Lemma set_fut_other h o l z : In z l -> h_id K z <> h -> In z (set_fut K h o l).
Proof. intros I N. apply in_map_iff. exists z. apply Nat.eqb_neq in N. rewrite N. auto. Qed.
Lemma set_fut_this h o l z : In z l -> h_id K z = h -> exists y, In y (set_fut K h o l) /\ h_id K y = h /\ h_fut K y = o.
Proof. intros I N. exists (mkH K h (h_kind K z) (h_path K z) o). split; [|auto]. apply in_map_iff. exists z. apply Nat.eqb_eq in N. rewrite N. auto. Qed.
Lemma fi_finish s s' x n : FI s -> NoDup (map (h_id K) (sh K s)) -> In x (sh K s) -> h_fut K x = Some n ->
  str K s' = EFutDrop K n :: str K s -> snext K s' = snext K s -> w_next _ (sx K s) <= w_next _ (sx K s') ->
  (forall y m, In y (sh K s') -> h_fut K y = Some m -> In y (sh K s) /\ h_id K y <> h_id K x) ->
  (forall z, In z (sh K s) -> h_id K z <> h_id K x -> In z (sh K s')) -> FI s'.
Proof.
  intros F ND Hx FX ST SN LE A B. destruct (f_cur _ F x n Hx FX) as (C & D & L).
  assert (CR : forall h m, created h m (str K s') <-> created h m (str K s)).
  { intros h m. rewrite ST. split; intros (v & Q); exists v; [destruct Q as [Q|Q]; [discriminate|exact Q]|right; exact Q]. }
  assert (DR : forall m, dropped m (str K s') <-> m = n \/ dropped m (str K s)).
  { intros m. rewrite ST. unfold Spec_store.dropped. cbn. split; [intros [[= ->]|Q]; auto|intros [->|Q]; auto]. }
  split.
  - intros h m Q. apply CR in Q. destruct (f_lt _ F h m Q). rewrite SN. lia.
  - rewrite ST. apply (f_one _ F).
  - intros h h' m Q Q'. apply CR in Q, Q'. apply (f_owner _ F h h' m Q Q').
  - intros m Q. apply DR in Q as [->|Q]; [exists (h_id K x); apply CR, C|]. destruct (f_drop _ F m Q) as (h & Q'). exists h. apply CR, Q'.
  - rewrite ST. cbn. constructor; [intro Q; apply drops_in in Q; auto|apply (f_once _ F)].
  - intros y m Hy FY. destruct (A y m Hy FY) as (Hy' & NE). destruct (f_cur _ F y m Hy' FY) as (C' & D' & L'). split; [apply CR, C'|]. split.
    + intro Q. apply DR in Q as [->|Q]; [|auto]. apply NE. apply (f_owner _ F _ _ n C' C).
    + intros m' Q. apply CR in Q. auto.
  - intros h m Q. apply CR in Q. destruct (f_alive _ F h m Q) as [Z|(z & Hz & ID & FZ)]; [left; apply DR; auto|].
    destruct (Nat.eq_dec (h_id K z) (h_id K x)) as [EQ|NE].
    + left. apply DR. left. assert (z = x) by (eapply unique_fut; eauto). subst z. congruence.
    + right. exists z. auto.
  - rewrite ST. apply good_cons; [apply (f_good _ F)|discriminate].
Qed.
(** a new one replaces the old one *)
Lemma fi_create s x v w : FI s -> NoDup (map (h_id K) (sh K s)) -> In x (sh K s) -> h_id K x < w_next _ w -> w_next _ (sx K s) <= w_next _ w ->
  FI (with_fut K (drop_fut K (mkS K (sd K s) w (sh K s) (S (snext K s)) (EFut K (h_id K x) (snext K s) v :: str K s)) (h_fut K x)) (h_id K x) (Some (snext K s))).
Proof.
  intros F ND Hx LT LE. set (n := snext K s). set (t := EFut K (h_id K x) n v :: str K s).
  set (s' := with_fut K (drop_fut K (mkS K (sd K s) w (sh K s) (S n) t) (h_fut K x)) (h_id K x) (Some n)).
  assert (NEW : forall h, ~ created h n (str K s)). { intros h Q. destruct (f_lt _ F h n Q). unfold n in *. lia. }
  assert (ST : str K s' = match h_fut K x with Some m => EFutDrop K m :: t | None => t end) by (subst s'; destruct (h_fut K x); reflexivity).
  assert (SN : snext K s' = S n) by (subst s'; destruct (h_fut K x); reflexivity).
  assert (SX : sx K s' = w) by (subst s'; destruct (h_fut K x); reflexivity).
  assert (SHE : sh K s' = set_fut K (h_id K x) (Some n) (sh K s)) by (subst s'; destruct (h_fut K x); reflexivity).
  assert (CR : forall h m, created h m (str K s') <-> (h = h_id K x /\ m = n) \/ created h m (str K s)).
  { intros h m. rewrite ST. assert (X : created h m t <-> (h = h_id K x /\ m = n) \/ created h m (str K s)).
    { subst t. split.
      - intros (v' & [[= <- <- _]|Q]); [auto|right; exists v'; exact Q].
      - intros [(-> & ->)|(v' & Q)]; [exists v; left; reflexivity|exists v'; right; exact Q]. }
    destruct (h_fut K x); [|exact X]. rewrite <- X. split; intros (v' & Q); exists v'; [destruct Q as [Q|Q]; [discriminate|exact Q]|right; exact Q]. }
  assert (DR : forall m, dropped m (str K s') <-> h_fut K x = Some m \/ dropped m (str K s)).
  { intros m. rewrite ST. subst t. unfold Spec_store.dropped. destruct (h_fut K x); cbn; split; try (intros [[=]|[[=]|Q]]); try (intros [[=]|Q]); auto; try discriminate; subst; auto. }
  assert (OLD : forall m, h_fut K x = Some m -> created (h_id K x) m (str K s) /\ m <> n).
  { intros m FM. destruct (f_cur _ F x m Hx FM) as (C & _). split; [exact C|]. intros ->. apply (NEW _ C). }
  split; rewrite ?SN, ?SX.
  - intros h m Q. apply CR in Q as [(-> & ->)|Q]; [unfold n; lia|]. destruct (f_lt _ F h m Q). unfold n. lia.
  - rewrite ST. assert (Q : NoDup (makes t)).
    { subst t. cbn. constructor; [|apply (f_one _ F)]. intro Q. assert (Z : forall l, In n (makes l) -> exists h, created h n l).
      { induction l as [|e l IH]; cbn; [tauto|]. intro Z. assert (Y : (exists h, created h n l) -> exists h, created h n (e :: l)) by (intros (h & v' & J); exists h, v'; cbn; auto).
        destruct e as [| |h0 n0 v0| | | | | | | |]; auto. destruct Z as [->|Z]; [exists h0, v0; cbn; auto|auto]. }
      destruct (Z _ Q) as (h & C). apply (NEW h C). }
    destruct (h_fut K x); exact Q.
  - intros h h' m Q Q'. apply CR in Q as [(E1 & E2)|Q]; apply CR in Q' as [(E1' & E2')|Q'].
    + congruence.
    + exfalso. rewrite E2 in Q'. apply (NEW _ Q').
    + exfalso. rewrite E2' in Q. apply (NEW _ Q).
    + apply (f_owner _ F h h' m Q Q').
  - intros m Q. apply DR in Q as [Q|Q]; [exists (h_id K x); apply CR; right; apply OLD, Q|]. destruct (f_drop _ F m Q) as (h & Q'). exists h. apply CR. auto.
  - rewrite ST. assert (Q : NoDup (drops t)) by (subst t; apply (f_once _ F)). destruct (h_fut K x) as [m|] eqn:FM; [|exact Q]. cbn. constructor; [|exact Q].
    intro Z. destruct (f_cur _ F x m Hx FM) as (_ & D & _). apply D. apply drops_in. subst t. exact Z.
  - intros y m Hy FY. rewrite SHE in Hy. apply set_fut_eq in Hy as (z & Hz & ID & _ & [(E1 & E2)|(E1 & ->)]).
    + rewrite E2 in FY. injection FY as <-. rewrite <- ID, E1. split; [apply CR; auto|]. split.
      * intro Q. apply DR in Q as [Q|Q]; [destruct (OLD _ Q); congruence|]. destruct (f_drop _ F _ Q) as (h & C). apply (NEW h C).
      * intros m' Q. apply CR in Q as [(_ & ->)|Q]; [lia|]. destruct (f_lt _ F _ _ Q). unfold n. lia.
    + destruct (f_cur _ F z m Hz FY) as (C' & D' & L'). split; [apply CR; auto|]. split.
      * intro Q. apply DR in Q as [Q|Q]; [|auto]. destruct (OLD _ Q) as (C & _). apply E1. apply (f_owner _ F _ _ m C' C).
      * intros m' Q. apply CR in Q as [(Q & _)|Q]; [congruence|auto].
  - intros h m Q. rewrite SHE. apply CR in Q as [(-> & ->)|Q].
    + right. destruct (set_fut_this (h_id K x) (Some n) (sh K s) x Hx eq_refl) as (y & Hy & E1 & E2). eauto.
    + destruct (f_alive _ F h m Q) as [Z|(z & Hz & ID & FZ)]; [left; apply DR; auto|]. destruct (Nat.eq_dec (h_id K z) (h_id K x)) as [EQ|NE].
      * left. apply DR. left. assert (z = x) by (eapply unique_fut; eauto). subst z. exact FZ.
      * right. exists z. split; [apply set_fut_other; auto|auto].
  - rewrite ST. assert (Q : good t) by (subst t; apply good_cons; [apply (f_good _ F)|discriminate]). destruct (h_fut K x); [apply good_cons; [exact Q|discriminate]|exact Q].
Qed.

Lemma run_fut_fi s h x o e s' : FI s -> GI s -> In x (sh K s) -> h_id K x = h -> h_fut K x = o -> run_fut ww K keqb H s h o e = Some s' -> FI s'.
Proof.
  intros F G Hx ID FX. unfold run_fut. destruct o as [n|]; [|intros [= <-]; exact F].
  pose proof (fi_poll s x n F Hx FX) as F1.
  destruct (acts_ok ww K keqb keqb_ok H (e_acts K e) (emit K s (EFutPoll K n)) (gi_emit _ _ _ _ G)) as (s1 & t1 & E & G1 & H1 & N1 & T1 & Q1 & (u & U & V) & P1 & S1 & B1). rewrite E.
  assert (F2 : FI s1).
  { eapply (fi_same (emit K s (EFutPoll K n)) s1 u); eauto; [|eapply ws_next, ws_acts; exact E]. intros ev0 J. destruct (V _ J) as (p & [->| ->]); exact Logic.I. }
  destruct (e_done K e); intros [= <-]; [|exact F2].
  eapply (fi_finish s1 _ x n); eauto.
  - apply (g_nd _ _ _ G1).
  - rewrite H1. exact Hx.
  - intros y m Hy FY. cbn in Hy. apply set_fut_eq in Hy as (z & Hz & IZ & _ & [(E1 & E2)|(E1 & ->)]); [congruence|]. split; [exact Hz|congruence].
  - intros z Hz NE. cbn. apply set_fut_other; [exact Hz|congruence].
Qed.
Lemma async_fi s x wk e s' : FI s -> GI s -> In x (sh K s) -> h_kind K x = KAsync -> poll_async ww K keqb H s x wk e = Some s' -> FI s'.
Proof.
  intros F G Hx KA E. destruct (async_ok ww WW K keqb keqb_ok H s x wk e G Hx) as (s1 & w & r & E1 & E2 & T & R & GM & EP). cbv zeta in *. rewrite E in E1. injection E1 as <-.
  apply (ws_poll ww K H (fun _ => True)) in EP as (EP & _). apply ws_next in EP. cbn [sx with_x] in EP.
  unfold async_mid in *. destruct (async_val K keqb s x (firstb K s (h_id K x) || r)) as [v|]; cbn [fst snd] in *.
  - pose proof (fi_create s x v w F (g_nd _ _ _ G) Hx) as F1. specialize (F1 ltac:(pose proof (helper_lt _ _ _ _ G Hx); lia) EP).
    assert (SHE : sh K (with_fut K (drop_fut K (mkS K (sd K s) w (sh K s) (S (snext K s)) (EFut K (h_id K x) (snext K s) v :: str K s)) (h_fut K x)) (h_id K x) (Some (snext K s))) = set_fut K (h_id K x) (Some (snext K s)) (sh K s)) by (destruct (h_fut K x); reflexivity).
    destruct (set_fut_this (h_id K x) (Some (snext K s)) (sh K s) x Hx eq_refl) as (y & Hy & IY & FY). rewrite <- SHE in Hy.
    eapply run_fut_fi; [exact F1|exact GM|exact Hy|exact IY|exact FY|exact E2].
  - eapply (run_fut_fi (with_x K s w) (h_id K x) x); [|exact GM|exact Hx|reflexivity|reflexivity|exact E2]. eapply (fi_same s _ []); eauto. intros ? [].
Qed.

Lemma step_fi s o s' : FI s -> INV s -> sexec s o = Some s' -> FI s'.
Proof.
  intros F I E. pose proof (i_gi _ _ _ I) as G. pose proof (ws_next _ _ _ _ _ _ (ws_exec ww K keqb H _ _ _ E)) as LE.
  destruct o as [a|o|k p|h wk e|h]; cbn [XbowStore.sexec] in E.
  - destruct (act_ok ww K keqb keqb_ok H s a G) as (s1 & t1 & E1 & _ & SH & SN & _ & _ & _ & (t2 & U & V) & _). rewrite E in E1. injection E1 as <-.
    eapply (fi_same s s' t2); eauto. intros ev0 J. destruct (V _ J) as (p & [->| ->]); exact Logic.I.
  - assert (X : forall w, w_next _ (sx K s) <= w_next _ w -> FI (with_x K s w)). { intros w L. eapply (fi_same s _ []); eauto. intros ? []. }
    destruct o as [p b|i wk|i|q]; [|destruct (is_helper K i (sh K s))|destruct (is_helper K i (sh K s))|]; try (injection E as <-; exact F);
      (destruct (xexec (sx K s) _); [|discriminate]; injection E as <-; apply X, LE).
  - destruct (xexec (sx K s) _); [|discriminate]. injection E as <-. eapply (fi_neutral s _ []); eauto; [intros ? []| |].
    + intros x n [<-|Hx] FX; [discriminate|eauto].
    + intros z n Hz FZ. exists z. cbn. auto.
  - destruct (find_helper K h (sh K s)) as [x|] eqn:FH; [|injection E as <-; exact F]. apply find_helper_some in FH as (Hx & ID).
    assert (F0 : FI (emit K s (EPoll K h wk))). { eapply (fi_same s _ [EPoll K h wk]); eauto. intros e0 [<-|[]]. exact Logic.I. }
    pose proof (gi_emit _ _ _ (EPoll K h wk) G) as G0. destruct (h_kind K x) eqn:KI.
    + destruct (each_ok ww WW K keqb H _ x wk G0 Hx) as (s1 & r & E1 & _ & SH & SN & _ & _ & _ & STR). rewrite E in E1. injection E1 as <-.
      eapply (fi_same _ s' _ F0 STR); eauto. intros e0 J. unfold call_events in J. destruct (_ || _)%bool; [destruct (borrow _ _)|]; first [destruct J as [<-|[]]; exact Logic.I|destruct J].
    + eapply async_fi; eauto.
    + destruct (signal_ok ww WW K keqb H _ x fire_immediately wk G0 Hx) as (s1 & r & E1 & _ & SH & SN & _ & _ & _ & STR). rewrite E in E1. injection E1 as <-.
      eapply (fi_same _ s' _ F0 STR); eauto. intros e0 J. unfold item_events in J. destruct (_ || _)%bool; first [destruct J as [<-|[]]; exact Logic.I|destruct J].
    + destruct (bind_ok (emit K s (EPoll K h wk)) x wk e G0 Hx) as (s1 & sa & E1 & EA & SH & SN & CASES). cbv zeta in CASES. rewrite E in E1. injection E1 as <-.
      destruct (acts_ok ww K keqb keqb_ok H (e_acts K e) _ G0) as (sa' & t1 & EA' & Ga & Ha & Na & _ & _ & (u & U & V) & _). rewrite EA in EA'. injection EA' as <-.
      destruct (take_ok K (h_id K x) (e_items K e) sa) as (D0 & X0 & H0 & N0 & T0 & _). cbv zeta in *. set (s0 := take_items K sa (h_id K x) (e_items K e)) in *.
      assert (NT : forall t, (forall e0, In e0 t -> neutral e0) -> str K s' = t ++ str K s0 -> FI s').
      { intros t NT Q. eapply (fi_same (emit K s (EPoll K h wk)) s' (t ++ rev (map (EIncoming K (h_id K x)) (e_items K e)) ++ u)); eauto.
        - rewrite Q, T0, U, <- !app_assoc. reflexivity.
        - intros e0 J. apply in_app_iff in J as [J|J]; [auto|]. apply in_app_iff in J as [J|J].
          + apply in_rev in J. apply in_map_iff in J as (v & <- & _). exact Logic.I.
          + destruct (V _ J) as (p & [->| ->]); exact Logic.I. }
      assert (G0' : GI s0) by (apply (gi_same K H sa); auto). assert (Hx0 : In x (sh K s0)) by (rewrite H0, Ha; exact Hx).
      destruct (e_end K e); [|destruct (last_item K (e_items K e)) as [v|]; [destruct (path_borrow_mut _ _ _ _ _) as [(y, k)|]|]].
      * apply (NT [EDone K (h_id K x)]); [intros e0 [<-|[]]; exact Logic.I|rewrite CASES; reflexivity].
      * destruct CASES as (_ & Q & _). apply (NT [EWrote K (h_id K x) v; EWrite K (h_path K x)]); [intros e0 [<-|[<-|[]]]; exact Logic.I|exact Q].
      * apply (NT [EDone K (h_id K x)]); [intros e0 [<-|[]]; exact Logic.I|rewrite CASES; reflexivity].
      * destruct (each_ok ww WW K keqb H s0 x wk G0' Hx0) as (s2 & r & E2 & _ & _ & _ & _ & _ & _ & STR). rewrite CASES in E2. injection E2 as <-.
        apply (NT _) in STR; [exact STR|]. intros e0 J. unfold call_events in J. destruct (_ || _)%bool; [destruct (borrow _ _)|]; first [destruct J as [<-|[]]; exact Logic.I|destruct J].
  - destruct (find_helper K h (sh K s)) as [x|] eqn:FH; [|injection E as <-; exact F]. apply find_helper_some in FH as (Hx & ID). destruct (xexec (sx K s) _) as [w|]; [|discriminate]. injection E as <-.
    assert (OTH : forall z, In z (sh K s) -> h_id K z <> h_id K x -> In z (filter (fun y => negb (h_id K y =? h)) (sh K s))).
    { intros z Hz NE. apply filter_In. split; [exact Hz|]. apply negb_true_iff, Nat.eqb_neq. congruence. }
    assert (SUB : forall z, In z (filter (fun y => negb (h_id K y =? h)) (sh K s)) -> In z (sh K s) /\ h_id K z <> h_id K x).
    { intros z Hz. apply filter_In in Hz as (Hz & NE). apply negb_true_iff, Nat.eqb_neq in NE. split; [exact Hz|congruence]. }
    destruct (h_fut K x) as [n|] eqn:FX.
    + eapply (fi_finish s _ x n); eauto. apply (g_nd _ _ _ G).
    + eapply (fi_neutral s _ []); eauto; [intros ? []| |].
      * intros y n Hy FY. cbn in Hy. apply SUB in Hy as (Hy & _). eauto.
      * intros z n Hz FZ. exists z. split; [|auto]. cbn. apply OTH; [exact Hz|]. intro Q. assert (z = x) by (eapply unique_fut; eauto; apply (g_nd _ _ _ G)). congruence.
Qed.
Lemma run_fi d ops s : srun d ops = Some s -> FI s.
Proof.
  unfold XbowStore.srun. assert (X : FI (sinit K d) /\ INV (sinit K d)).
  { split; [|apply inv_init]. split; cbn.
    - intros h n (v & []).
    - constructor.
    - intros h h' n (v & []).
    - intros n [].
    - constructor.
    - intros x n [].
    - intros h n (v & []).
    - intros [|? ?] n t2 Q; discriminate Q. }
  revert X. generalize (sinit K d). induction ops as [|o ops IH]; intros s0 (F & I); cbn [XbowStore.sexecs]; [intros [= <-]; exact F|].
  destruct (step_ok ww WW K keqb keqb_ok H s0 o I) as (s1 & E & I1 & _). rewrite E. apply IH. split; [eapply step_fi; eauto|exact I1].
Qed.
End Store.
