(** Proofs for C67: views. *)
From Coq Require Import List Arith Bool Lia.
From Verif Require Import Util Arena Spec_arena Readiness Combinator Tree Spec_tree Tree_proofs Goes_proofs Executor Spec_executor Executor_proofs
  Queue Spec_queue Queue_proofs App App_proofs Page Page_proofs Spec_obey Obey_proofs Obey_page_proofs Props_queue Spec_view.
Import ListNotations.

Section Traces.
Variable V : Type.
Notation ev := (Tree.ev V).
Variable p : place.
Definition ran (tr : list ev) : Prop := exists got, In (Tree.ERun p got) tr.
(** woken since its code was last run *)
Fixpoint unseen (tr : list ev) : bool :=
  match tr with
  | [] => false
  | Tree.EWake q :: t => if place_eqb q p then true else unseen t
  | Tree.ERun q _ :: t => if place_eqb q p then false else unseen t
  | _ :: t => unseen t
  end.
Lemma always_split (P : list ev -> Prop) a b : Spec_tree.always P (a ++ b) -> Spec_tree.always P b.
Proof. induction a as [|e a IH]; auto. intros [_ H]. auto. Qed.
Lemma always_head (P : list ev -> Prop) b : Spec_tree.always P b -> P b.
Proof. destruct b; cbn; tauto. Qed.
Lemma live_made (tr : list ev) q : live tr q -> made q tr.
Proof. destruct 1; cbn; eauto 8. Qed.
Lemma ran_made (tr : list (Tree.ev V)) : Spec_tree.always poll_live tr -> Spec_tree.always Spec_tree.run_ok tr ->
  forall a b got, tr = a ++ Tree.ERun p got :: b -> (forall n k c, In (ENew n k c p) b -> made p b) -> made p b.
Proof.
  intros PL RO a b got -> N. apply always_split, always_head in RO. cbn in RO. destruct got as [v|].
  - destruct RO as ((n & k & c & _ & H) & _). exact (N n k c H).
  - destruct RO as [H _]. destruct b as [|e b]; [discriminate H|]. injection H as ->.
    apply always_split in PL. destruct PL as [_ PL]. apply always_head in PL. cbn in PL. apply live_made in PL.
    apply (made_app p [Tree.EPoll p] b PL).
Qed.
(** the part of the trace since the code of the block last ran *)
Lemma leaf_split (tr : list (Tree.ev V)) : at_leaf p tr = true -> exists a got b, tr = a ++ Tree.ERun p got :: b /\ (forall got', ~ In (Tree.ERun p got') a) /\ (forall n k c, ~ In (ENew n k c p) a).
Proof.
  induction tr as [|e tr IH]; cbn [at_leaf]; [discriminate|]. intro L.
  assert (K : at_leaf p tr = true -> (forall g, e <> Tree.ERun p g) -> (forall n k c, e <> ENew n k c p) ->
    exists a got b, e :: tr = a ++ Tree.ERun p got :: b /\ (forall got', ~ In (Tree.ERun p got') a) /\ (forall n k c, ~ In (ENew n k c p) a)).
  { intros Q N1 N2. destruct (IH Q) as (a & got & b & -> & A & B). exists (e :: a), got, b. split; [reflexivity|].
    split; [intros g [->|H]; [destruct (N1 g)|apply (A g)]; auto|intros n k c [->|H]; [destruct (N2 n k c)|apply (B n k c)]; auto]. }
  destruct e as [q|q|q v|q|n k b q|n v|q got]; try (apply K; [exact L|discriminate|discriminate]).
  - destruct (place_eqb_spec q p) as [->|D]; [discriminate|]. apply K; [exact L|discriminate|discriminate].
  - destruct (place_eqb_spec q p) as [->|D]; [discriminate|]. apply K; [exact L|discriminate|congruence].
  - destruct (place_eqb_spec q p) as [->|D]; [|apply K; [exact L|congruence|discriminate]].
    exists [], got, tr. split; [reflexivity|]. split; [intros g []|intros n k c []].
Qed.
Lemma unseen_woken (tr : list (Tree.ev V)) : goes_on tr -> Spec_tree.always Spec_tree.run_ok tr -> at_leaf p tr = true -> unseen tr = true -> woken p tr = true.
Proof.
  intros G RO L U. destruct (leaf_split tr L) as (a & got & b & E & A & B).
  assert (NP : ~ In (Tree.EPoll p) a).
  { intro H. apply in_split in H as (a1 & a2 & ->). destruct (G a1 p (a2 ++ Tree.ERun p got :: b)) as (a' & ->).
    - rewrite E, <- app_assoc. reflexivity.
    - intros n k c H. apply in_app_iff in H as [H|H]; [destruct (B n k c); apply in_app_iff; right; right; exact H|].
      destruct H as [H|H]; [discriminate|]. rewrite E in RO. apply always_split, always_head in RO. cbn in RO.
      assert (Q : gone n b) by (destruct got; [exact (proj2 RO n k c H)|exact (proj2 RO n k c H)]).
      destruct Q as (v & Q). exists v. apply in_app_iff. right. right. exact Q.
    - apply (A None). rewrite <- app_assoc. apply in_app_iff. right. left. reflexivity. }
  subst tr. clear G RO L B. revert A NP U. induction a as [|e a IH]; intros A NP.
  - cbn [app unseen]. rewrite place_eqb_refl. discriminate.
  - assert (K : unseen (a ++ Tree.ERun p got :: b) = true -> woken p (a ++ Tree.ERun p got :: b) = true).
    { apply IH; [intros g H; apply (A g); right; exact H|intro H; apply NP; right; exact H]. }
    cbn [app]. destruct e as [q|q|q v|q|n k c q|n v|q g]; cbn [unseen woken]; auto.
    + destruct (place_eqb_spec q p) as [->|]; auto. destruct NP. left. reflexivity.
    + destruct (place_eqb_spec q p); auto.
    + destruct (place_eqb_spec q p) as [->|]; auto. destruct (A g). left. reflexivity.
Qed.
(** a block that was polled, made no combinator and did not return *)
Lemma polled_ran_leaf (tr : list (Tree.ev V)) : goes_on tr -> (forall n k c, ~ In (ENew n k c p) tr) -> ~ returned p tr -> Spec_tree.polls p tr > 0 -> at_leaf p tr = true.
Proof.
  intros G N NR P. assert (H : exists a b, tr = a ++ Tree.EPoll p :: b).
  { clear - P. induction tr as [|e tr IH]; [cbn in P; lia|].
    assert (K : Spec_tree.polls p tr > 0 -> exists a b, e :: tr = a ++ Tree.EPoll p :: b).
    { intro Q. destruct (IH Q) as (a & b & ->). exists (e :: a), b. reflexivity. }
    destruct e; cbn in P; auto. destruct (place_eqb_spec p0 p) as [->|]; [exists [], tr; reflexivity|auto]. }
  destruct H as (a & b & E). destruct (G a p b E) as (a' & ->); [intros n k c H; destruct (N n k c); rewrite E; apply in_app_iff; right; right; exact H|].
  assert (R : In (Tree.ERun p None) tr) by (rewrite E; apply in_app_iff; left; apply in_app_iff; right; left; reflexivity).
  clear - N NR R. induction tr as [|e tr IH]; [contradiction|]. cbn [at_leaf].
  assert (K : In (Tree.ERun p None) tr -> at_leaf p tr = true).
  { apply IH; [intros n k c H; apply (N n k c); right; exact H|intros (v & H); apply NR; exists v; right; exact H]. }
  destruct R as [->|R]; [rewrite place_eqb_refl; reflexivity|]. destruct e as [q|q|q v|q|n k c q|n v|q g]; auto.
  - destruct (place_eqb_spec q p) as [->|]; auto. destruct NR. exists v. left. reflexivity.
  - destruct (place_eqb_spec q p) as [->|]; auto. destruct (N n k c). left. reflexivity.
  - destruct (place_eqb_spec q p); auto.
Qed.
(** wakes at the end *)
Notation wakes_of ks := (rev (map (@Tree.EWake V) ks)).
Lemma unseen_wakes ks tr : unseen (wakes_of ks ++ tr) = true <-> In p ks \/ unseen tr = true.
Proof.
  induction ks as [|q ks IH] using rev_ind; [cbn; tauto|]. rewrite map_app, rev_app_distr. cbn [map rev app unseen]. rewrite in_app_iff. cbn [In].
  destruct (place_eqb_spec q p) as [->|]; [tauto|]. rewrite IH. intuition.
Qed.
Lemma in_wakes' (e : ev) ks tr : match e with Tree.EWake _ => False | _ => True end -> In e (wakes_of ks ++ tr) <-> In e tr.
Proof.
  intro N. split; [intro H; eapply in_wakes; eauto|]. intro H. apply in_app_iff. auto.
Qed.
Lemma ran_wakes ks tr : ran (wakes_of ks ++ tr) -> ran tr.
Proof. intros (got & H); exists got; apply (in_wakes' (Tree.ERun p got) ks tr); cbn; auto. Qed.
Lemma leaf_wakes ks (tr : list (Tree.ev V)) : at_leaf p (wakes_of ks ++ tr) = at_leaf p tr.
Proof. induction ks as [|q ks IH] using rev_ind; [reflexivity|]. rewrite map_app, rev_app_distr. exact IH. Qed.
Lemma leaf_ran (tr : list (Tree.ev V)) : at_leaf p tr = true -> ran tr.
Proof. intro L. destruct (leaf_split tr L) as (a & got & b & -> & _). exists got. apply in_app_iff. right. left. reflexivity. Qed.
Lemma woke_in (tr : list ev) ws ks : woke tr ws ks -> In p ws -> made p tr -> In p ks.
Proof.
  intros W H M. induction W as [|q ws ks N W IH|q ws l ks N C W IH]; [contradiction| |].
  - destruct H as [->|H]; [contradiction|auto].
  - apply in_app_iff. destruct H as [->|H]; [|auto]. left. destruct C; left; reflexivity.
Qed.
End Traces.

Section View.
Variables V X : Type.
Variable ww : waker -> waker -> bool.
Variable debug : bool.
Variable bound : nat.
Variable code : nat -> X -> place -> option V -> X * list gact * next V.
Variable on_drop : nat -> X -> X * list gact.
Variable evs0 : list (pev X).
Variables (J fresh : X -> Prop) (t0 : nat) (p0 : place).
Hypothesis WW : will_wake_ok ww.
Hypothesis CO : forall t x p got x' l k b n, code t x p got = (x', l, NAwait k b n) -> beh_ok b /\ (k = KTuple -> n > 0).
Hypothesis VO : view_of J fresh t0 p0 code on_drop evs0.
Notation page := (page V X). Notation Z := (X * list gact)%type. Notation ttr := (w_tr V Z).
Notation step := (page_step V X ww debug bound code). Notation fin := (page_fin V X on_drop).
Notation pg_t := (pg_t V X). Notation pg_x := (pg_x V X). Notation Good := (Good V X ww debug code).
Notation bcode := (block_code V X code).
Notation w0 := (GWake t0 p0).

Definition WI (tr : list (Tree.ev V)) : Prop := (forall n k b, In (ENew n k b p0) tr -> ran V p0 tr) /\ (ran V p0 tr -> made p0 tr).
Definition VI (tr : list (Tree.ev V)) (x : X) : Prop := WI tr /\ (at_leaf p0 tr = true -> fresh x \/ unseen V p0 tr = true).
Lemma WI_wakes ks tr : WI tr -> WI (rev (map (@Tree.EWake V) ks) ++ tr).
Proof.
  intros [N M]. split.
  - intros n k b H. apply (in_wakes' V (ENew n k b p0) ks tr) in H; [|exact Logic.I]. destruct (N n k b H) as (g & Q). exists g. apply in_app_iff. auto.
  - intro R. apply made_app, M. apply ran_wakes in R. exact R.
Qed.

(** a poll of the view's own application *)
Lemma plays_own tr z evs z' : plays (bcode t0) tr z evs z' ->
  (forall a b got, rev evs ++ tr = a ++ Tree.ERun p0 got :: b -> (forall n k c, In (ENew n k c p0) b -> made p0 b) -> made p0 b) ->
  J (fst z) -> VI tr (fst z) -> J (fst z') /\ VI (rev evs ++ tr) (fst z').
Proof.
  destruct VO as (VO1 & VO2 & _).
  intro P. induction P as [tr z|tr z p got z1 ws nx ks e l z2 E W N P IH|tr z e l z2 E P IH]; intros RM Jz I.
  - auto.
  - assert (FULL : rev (Tree.ERun p got :: map (@Tree.EWake V) ks ++ e :: l) ++ tr = rev l ++ e :: rev (map (@Tree.EWake V) ks) ++ Tree.ERun p got :: tr).
    { cbn [rev]. rewrite rev_app_distr. cbn [rev]. rewrite <- !app_assoc. reflexivity. }
    rewrite FULL in RM |- *. destruct I as ((NN & MD) & FR).
    unfold block_code in E. destruct (code t0 (fst z) p got) as [[x' lg] nx'] eqn:EC. injection E as <- <- <-.
    assert (NP : nx' <> NPanic) by (intros ->; exact N).
    assert (OWN : In w0 lg -> In p0 (flat_map (own t0) lg)).
    { intro H. apply in_flat_map. exists w0. split; auto. cbn. rewrite Nat.eqb_refl. left. reflexivity. }
    assert (JN : J x' /\ (p = p0 /\ (nx' = NPend -> fresh x' \/ In w0 lg) \/ p <> p0 /\ (fresh (fst z) -> fresh x' \/ In w0 lg))).
    { destruct (place_eqb_spec p p0) as [->|D].
      - destruct (VO1 _ _ _ _ _ Jz EC) as [Q|(J' & F)]; [contradiction|]. split; auto.
      - destruct (VO2 t0 (fst z) p got x' lg nx') as [Q|(J' & F)]; auto. contradiction. }
    destruct JN as (J' & F).
    assert (US : forall t, unseen V p0 (e :: t) = unseen V p0 t).
    { intro t. destruct nx' as [|v| |kk bb nn]; cbn in N; [subst; reflexivity|subst; reflexivity|contradiction|]. destruct N as (id & -> & _). reflexivity. }
    assert (RE : forall t, ran V p0 (e :: t) -> ran V p0 t).
    { intros t (g & [H|H]); [|exists g; auto]. destruct nx' as [|v| |kk bb nn]; cbn in N; [subst; discriminate|subst; discriminate|contradiction|].
      destruct N as (id & -> & _). discriminate. }
    assert (MADE : ran V p0 (Tree.ERun p got :: tr) -> made p0 tr).
    { intros (g & [H|H]); [|apply MD; exists g; auto]. injection H as -> _.
      apply (RM (rev l ++ e :: rev (map (@Tree.EWake V) ks)) tr got); [rewrite <- app_assoc; reflexivity|].
      intros n k c Q. apply MD, (NN n k c Q). }
    assert (R1 : forall g, In (Tree.ERun p0 g) (Tree.ERun p got :: tr) -> ran V p0 (e :: rev (map (@Tree.EWake V) ks) ++ Tree.ERun p got :: tr)).
    { intros g H. exists g. right. apply in_app_iff. right. exact H. }
    apply IH; auto. split.
    + split.
      * intros n k b [H|H].
        -- destruct nx' as [|v| |kk bb nn]; cbn in N; [subst; discriminate|subst; discriminate|contradiction|]. destruct N as (id & -> & _).
           injection H as _ _ _ Q. apply (R1 got). rewrite Q. left. reflexivity.
        -- apply in_wakes in H; cbn; auto. destruct H as [H|H]; [discriminate|]. destruct (NN n k b H) as (g & Q). apply (R1 g). right. exact Q.
      * intro R. apply RE in R. apply ran_wakes in R. apply MADE in R.
        apply (made_app p0 [e]). apply made_app. apply (made_app p0 [Tree.ERun p got]). exact R.
    + intro L. assert (R : ran V p0 (Tree.ERun p got :: tr)) by (apply leaf_ran in L; apply RE in L; apply ran_wakes in L; exact L).
      rewrite US, unseen_wakes. cbn [fst].
      assert (WK : In w0 lg -> In p0 ks) by (intro H; eapply woke_in; eauto).
      cbn [unseen]. destruct (place_eqb_spec p p0) as [->|D].
      * destruct F as [(_ & F)|(F & _)]; [|contradiction].
        assert (PN : nx' = NPend).
        { destruct nx' as [|v| |kk bb nn]; auto; cbn in N; [|contradiction|].
          - subst e. cbn [at_leaf] in L. rewrite place_eqb_refl in L. discriminate.
          - destruct N as (id & -> & _). cbn [at_leaf] in L. rewrite place_eqb_refl in L. discriminate. }
        destruct (F PN); auto.
      * destruct F as [(F & _)|(_ & F)]; [contradiction|].
        assert (L' : at_leaf p0 tr = true).
        { destruct nx' as [|v| |kk bb nn]; cbn in N; [subst e|subst e|contradiction|destruct N as (id & -> & _)]; cbn [at_leaf] in L;
            try (destruct (place_eqb_spec p p0) as [Q|_]; [contradiction|]); rewrite leaf_wakes in L; cbn [at_leaf] in L;
            destruct (place_eqb_spec p p0) as [Q|_]; congruence. }
        destruct (FR L') as [Q|Q]; [|auto]. destruct (F Q); auto.
  - cbn [rev] in RM |- *. rewrite <- app_assoc in RM |- *. cbn [app] in RM |- *. apply IH; auto.
    destruct I as ((NN & MD) & FR). destruct e; try contradiction E; (split; [split|]);
      try (intros n' k' b' [H|H]; [discriminate|]; destruct (NN n' k' b' H) as (g & Q); exists g; right; exact Q);
      try (intros (g & [H|H]); [discriminate|]; apply (made_app p0 [_] tr), MD; exists g; auto; fail);
      cbn [at_leaf unseen]; auto.
Qed.
(** a poll of another application *)
Lemma plays_foreign u tr z evs z' : u <> t0 -> plays (bcode u) tr z evs z' -> J (fst z) ->
  J (fst z') /\ (fresh (fst z) \/ In w0 (snd z) -> fresh (fst z') \/ In w0 (snd z')).
Proof.
  destruct VO as (_ & VO2 & _).
  intros D P. induction P as [tr z|tr z p got z1 ws nx ks e l z2 E W N P IH|tr z e l z2 E P IH]; intros Jz; auto.
  unfold block_code in E. destruct (code u (fst z) p got) as [[x' lg] nx'] eqn:EC. injection E as <- <- <-.
  destruct (VO2 u (fst z) p got x' lg nx') as [Q|(J' & F)]; auto; [subst; contradiction|].
  destruct (IH J') as [J2 F2]. split; auto. intro H. apply F2. cbn [fst snd]. rewrite in_app_iff, filter_In.
  destruct H as [H|H]; [|auto]. destruct (F H) as [Q|Q]; auto. right. right. split; auto. cbn. apply negb_true_iff, Nat.eqb_neq. congruence.
Qed.
Lemma do_gact_wakes a y y' l : Good y -> do_gact V X a y = (y', l) -> pg_x y' = pg_x y /\
  exists ks, ttr (pg_t y' t0) = rev (map (@Tree.EWake V) ks) ++ ttr (pg_t y t0) /\ (a = w0 -> made p0 (ttr (pg_t y t0)) -> In p0 ks).
Proof.
  clear VO. intros G E. pose proof (do_gact_ok V X ww debug code WW CO a y G) as H. rewrite E in H. destruct H as [G' _].
  destruct a as [u p| |u| |]; cbn [do_gact] in E; try (injection E as <- <-; split; auto; exists []; split; [reflexivity|discriminate]; fail).
  pose proof (prog_PI V X ww debug code WW u _ (gd_prog _ _ _ _ _ _ G u)) as P.
  destruct (wake_place V Z (pg_t y u) p) as [w| | |] eqn:EW; try (injection E as <- <-; discriminate (gd_fault _ _ _ _ _ _ G')).
  injection E as <- <-. split; auto. cbn. destruct (Nat.eqb_spec t0 u) as [<-|]; [|exists []; split; [reflexivity|]; congruence].
  destruct (wake_place_chain V Z (pg_t y t0) p w P EW) as [(M & ks & C & E1 & _)|(M & ->)].
  - exists ks. split; auto. intros [= ->] _. destruct C; left; reflexivity.
  - exists []. split; [reflexivity|]. intros [= ->] H. contradiction.
Qed.
Lemma do_gacts_wakes a : forall y y' l, Good y -> do_gacts V X a y = (y', l) -> pg_x y' = pg_x y /\
  exists ks, ttr (pg_t y' t0) = rev (map (@Tree.EWake V) ks) ++ ttr (pg_t y t0) /\ (In w0 a -> made p0 (ttr (pg_t y t0)) -> In p0 ks).
Proof.
  clear VO. induction a as [|g a IH]; intros y y' l G; cbn [do_gacts]; [intros [= <- <-]; split; auto; exists []; split; [reflexivity|contradiction]|].
  destruct (do_gact V X g y) as [y1 l1] eqn:E1. destruct (do_gacts V X a y1) as [y2 l2] eqn:E2. intros [= <- <-].
  destruct (do_gact_wakes g y y1 l1 G E1) as (A & k1 & B & B'). pose proof (do_gact_ok V X ww debug code WW CO g y G) as H. rewrite E1 in H. destruct H as [G1 _].
  destruct (IH y1 y2 l2 G1 E2) as (C & k2 & D & D'). split; [congruence|]. exists (k1 ++ k2). split.
  - rewrite D, B, map_app, rev_app_distr, app_assoc. reflexivity.
  - intros [->|H] M; apply in_app_iff; [left; auto|]. right. apply D'; auto. rewrite B. apply made_app. exact M.
Qed.
Definition JV (y : page) : Prop := J (pg_x y) /\ VI (ttr (pg_t y t0)) (pg_x y).
(** acts after the state changed: the view may be out of date if its waker is among them *)
Lemma acts_JV y1 a y' l : Good y1 -> do_gacts V X a y1 = (y', l) -> J (pg_x y1) -> WI (ttr (pg_t y1 t0)) ->
  (at_leaf p0 (ttr (pg_t y1 t0)) = true -> fresh (pg_x y1) \/ In w0 a \/ unseen V p0 (ttr (pg_t y1 t0)) = true) -> JV y'.
Proof.
  intros G E J1 W F. destruct (do_gacts_wakes a y1 y' l G E) as (A & ks & B & C). split; [rewrite A; auto|]. rewrite A, B. split; [apply WI_wakes; auto|].
  intro R. rewrite leaf_wakes in R. rewrite unseen_wakes. destruct (F R) as [Q|[Q|Q]]; auto. right. left. apply C; auto. apply W, leaf_ran, R.
Qed.
Definition Rv (y : page) (l : list (option tact)) (d : list nat) (y' : page) : Prop := JV y -> JV y'.
Lemma Rv_step t y y' l o : Good y -> step t y = (y', l, o) -> Rv y l [] y'.
Proof.
  intros G S [Jy I]. destruct (step_plays V X ww debug bound code WW CO t y y' l o G S) as [(-> & _)|(w' & evs & l2 & E & P & _ & G1 & D)]; [split; auto|].
  destruct (Nat.eq_dec t t0) as [->|NE].
  - assert (TW : pg_t (mkPg V X (pg_t (set_app V X t0 w' y)) (fst (w_x V Z w')) (pg_fault V X y)) t0 = w').
    { cbn. rewrite Nat.eqb_refl. reflexivity. }
    destruct (gd_prog _ _ _ _ _ _ G1 t0) as (z0 & tevs & TR). rewrite TW in TR.
    destruct (proj2 (Tree_proofs.run_ok V Z ww debug (bcode t0) WW (bcode_ok V X code CO t0) z0 tevs) w' TR) as [_ _].
    assert (PL : Spec_tree.always poll_live (ttr w')) by (apply (Tree_proofs.run_ok V Z ww debug (bcode t0) WW (bcode_ok V X code CO t0) z0 tevs); auto).
    assert (RO : Spec_tree.always Spec_tree.run_ok (ttr w')) by (apply (Tree_proofs.run_ok V Z ww debug (bcode t0) WW (bcode_ok V X code CO t0) z0 tevs); auto).
    rewrite E in PL, RO. destruct (plays_own _ _ _ _ P (ran_made V p0 _ PL RO) Jy I) as (J' & (WI' & F')).
    rewrite <- E in WI', F'. eapply acts_JV; [exact G1|exact D|exact J'| |]; rewrite TW; auto.
    intro R. destruct (F' R); auto.
  - destruct (plays_foreign t _ _ _ _ NE P Jy) as [J' F'].
    assert (TW : pg_t (mkPg V X (pg_t (set_app V X t w' y)) (fst (w_x V Z w')) (pg_fault V X y)) t0 = pg_t y t0).
    { cbn. destruct (Nat.eqb_spec t0 t); congruence. }
    destruct I as [W F]. eapply acts_JV; [exact G1|exact D|exact J'| |]; rewrite TW; auto.
    intro R. cbn [Page.pg_x]. destruct (F R) as [Q|Q]; auto. destruct F'; auto.
Qed.
Lemma Rv_acts y x a y' l : Good y -> do_gacts V X a (mkPg V X (pg_t y) x (pg_fault V X y)) = (y', l) ->
  J x -> (fresh (pg_x y) -> fresh x \/ In w0 a) -> JV y -> JV y'.
Proof.
  intros G D J' F' [Jy [W F]]. eapply acts_JV; [apply (good_set V X ww debug code y x G)|exact D|exact J'|exact W|].
  intro R. cbn in R |- *. destruct (F R) as [Q|Q]; auto. destruct (F' Q); auto.
Qed.
Lemma Rv_fin t y y' l : Good y -> fin t y = (y', l) -> Rv y l [t] y'.
Proof.
  intros G S JY. unfold page_fin in S. destruct (on_drop t (pg_x y)) as [x a] eqn:E. destruct VO as (_ & _ & VO3 & _).
  destruct (VO3 t _ x a (proj1 JY) E) as [J' F']. eapply Rv_acts; eauto.
Qed.
Lemma Rv_do a y y' l : Good y -> do_gact V X a y = (y', l) -> Rv y l [] y'.
Proof.
  intros G E JY. assert (D : do_gacts V X [a] (mkPg V X (pg_t y) (pg_x y) (pg_fault V X y)) = (y', l ++ [])).
  { cbn [do_gacts]. replace (mkPg V X (pg_t y) (pg_x y) (pg_fault V X y)) with y by (destruct y; reflexivity). rewrite E. reflexivity. }
  eapply Rv_acts; eauto. apply JY.
Qed.
Lemma Rv_code f : In (PCode f) evs0 -> Rx_code V X ww debug code Rv f.
Proof.
  intros H y x a y' l G E D JY. destruct VO as (_ & _ & _ & VO4). destruct (VO4 f _ x a H (proj1 JY) E) as [J' F']. eapply Rv_acts; eauto.
Qed.
Lemma view_inv x s : J x -> prun V X ww debug bound code on_drop x evs0 = Live s \/ prun V X ww debug bound code on_drop x evs0 = Crashed s ->
  JV (q_x _ (xs _ s)).
Proof.
  intros J0 R. destruct (prun_qr V X ww debug bound code on_drop WW CO Rv) with (x := x) (evs := evs0) (s := s) as (l & H); auto.
  - intros y JY. exact JY.
  - intros y l d y' l' d' y'' A B JY. auto.
  - intros; eapply Rv_step; eauto.
  - intros; eapply Rv_fin; eauto.
  - intros; eapply Rv_do; eauto.
  - apply Rv_code.
  - apply H. split; auto. cbn. split; [split|].
    + intros n k b [].
    + intros (g & []).
    + discriminate.
Qed.
Lemma owed_new t tr : alive t tr = true -> Spec_queue.polls t tr = 0 -> owed t tr = true.
Proof.
  unfold Spec_queue.polls. induction tr as [|e tr IH]; cbn; [discriminate|]. destruct e as [u|u|u|u|u|u]; cbn; intros A P; try (rewrite IH by auto; apply orb_true_r); auto.
  - destruct (Nat.eqb u t); cbn in *; auto.
  - destruct (Nat.eqb u t); cbn in *; [discriminate|auto].
  - apply andb_true_iff in A as [A1 A2]. rewrite A1. cbn. auto.
Qed.
(** nothing is owed: the view is up to date *)
Lemma view_fresh x s : J x -> prun V X ww debug bound code on_drop x evs0 = Live s ->
  (forall t, owed t (q_tr _ (xs _ s)) = false) ->
  alive t0 (q_tr _ (xs _ s)) = true -> live (ttr (pg_t (q_x _ (xs _ s)) t0)) p0 -> at_leaf p0 (ttr (pg_t (q_x _ (xs _ s)) t0)) = true ->
  fresh (pg_x (q_x _ (xs _ s))).
Proof.
  intros J0 R NO A L AL. destruct (view_inv x s J0 (or_introl R)) as (_ & _ & F).
  destruct (prun_pi V X ww debug bound code on_drop WW CO x evs0 s R) as (_ & P).
  set (y := q_x _ (xs _ s)) in *. destruct (gd_prog _ _ _ _ _ _ (Page_proofs.pi_good _ _ _ _ _ _ P) t0) as (z0 & tevs & TR).
  pose proof (Goes_proofs.run_goes V Z ww debug (bcode t0) z0 tevs _ TR) as GO.
  assert (RO : Spec_tree.always Spec_tree.run_ok (ttr (pg_t y t0))) by (apply (Tree_proofs.run_ok V Z ww debug (bcode t0) WW (bcode_ok V X code CO t0) z0 tevs); auto).
  destruct (F AL) as [Q|Q]; auto. exfalso. apply (unseen_woken V p0 _ GO RO AL) in Q.
  pose proof (woken_owed V X ww debug bound code on_drop WW CO x evs0 s t0 p0 R A L Q) as O. rewrite NO in O. discriminate.
Qed.
(** a block of an application at rest that has made no combinator awaits something of its own *)
Lemma polled_leaf x s : prun V X ww debug bound code on_drop x evs0 = Live s -> (forall t, owed t (q_tr _ (xs _ s)) = false) ->
  alive t0 (q_tr _ (xs _ s)) = true -> live (ttr (pg_t (q_x _ (xs _ s)) t0)) p0 ->
  (forall n k b, ~ In (ENew n k b p0) (ttr (pg_t (q_x _ (xs _ s)) t0))) -> at_leaf p0 (ttr (pg_t (q_x _ (xs _ s)) t0)) = true.
Proof.
  clear VO.
  intros R NO A L NN.
  destruct (prun_pi V X ww debug bound code on_drop WW CO x evs0 s R) as (_ & P).
  set (y := q_x _ (xs _ s)) in *. destruct (gd_prog _ _ _ _ _ _ (Page_proofs.pi_good _ _ _ _ _ _ P) t0) as (z0 & tevs & TR).
  pose proof (Goes_proofs.run_goes V Z ww debug (bcode t0) z0 tevs _ TR) as GO.
  assert (PO : Spec_tree.polls p0 (ttr (pg_t y t0)) > 0).
  { destruct (live_polled V Z (pg_t y t0) p0) as [Q|Q]; auto.
    - apply (prog_inv V X ww debug code WW CO t0). exists z0, tevs. exact TR.
    - rewrite Q in *. destruct (Spec_tree.polls Root (ttr (pg_t y t0))) eqn:E; [|lia]. exfalso.
      unfold y in E. rewrite (pi_polls _ _ _ _ _ _ P t0) in E. specialize (NO t0). rewrite owed_new in NO by auto. discriminate. }
  apply (polled_ran_leaf V p0); auto. destruct L as [H|n k b q i H1 H2 H3 H4 H5]; auto.
Qed.
End View.
(** when nothing is owed *)
Section Settled.
Variables V X : Type.
Variable ww : waker -> waker -> bool.
Variable debug : bool.
Variable bound : nat.
Variable code : nat -> X -> place -> option V -> X * list gact * next V.
Variable on_drop : nat -> X -> X * list gact.
Notation prun := (prun V X ww debug bound code on_drop).
Lemma settled_idle x evs s : prun x evs = Live s -> In (PDo GSchedule) evs -> timers _ s = 0 -> forall t, owed t (q_tr _ (xs _ s)) = false.
Proof.
  intros R M T t. destruct (owed t (q_tr _ (xs _ s))) eqn:O; auto. exfalso.
  destruct (prun_xrun V X ww debug bound code on_drop x evs) as (l & E & ML). specialize (ML M).
  rewrite E in R, ML. assert (timers _ s > 0); [|lia]. apply (C60_timer_pending_partial _ _ _ _ l s t R); auto. apply ML. rewrite R. discriminate.
Qed.
Lemma settled_turn x evs s e s' : prun x evs = Live s -> In (PDo GSchedule) evs ->
  (exists fuel, e = PRun fuel) \/ (exists fuel, e = PFire fuel) /\ timers _ s > 0 ->
  prun x (evs ++ [e]) = Live s' -> forall t, owed t (q_tr _ (xs _ s')) = false.
Proof.
  intros R M HE R' t.
  destruct (prun_xrun V X ww debug bound code on_drop x evs) as (l & E & ML). specialize (ML M).
  assert (NS : prun x evs <> Stuck) by (rewrite R; discriminate). specialize (ML NS).
  pose proof R' as R2. unfold Page.prun in R2. rewrite fold_left_app in R2. cbn [fold_left] in R2.
  fold (prun x evs) in R2. rewrite E in R, R2. rewrite R in R2. cbn [pexec] in R2.
  assert (exists e', xexec _ (page_step V X ww debug bound code) (page_fin V X on_drop) (Live s) e' = Live s' /\
    ((exists fuel, e' = XRun fuel) \/ (exists fuel, e' = XFire fuel) /\ timers _ s > 0)) as (e' & E' & HE').
  { destruct HE as [(f & ->)|((f & ->) & T)]; cbn [pevents fold_left] in R2; eexists; split; eauto; right; eauto. }
  assert (X' : xrun _ (page_step V X ww debug bound code) (page_fin V X on_drop) (page0 V X x) (l ++ [e']) = Live s').
  { unfold xrun in *. rewrite fold_left_app, R. exact E'. }
  apply (C60_all_served_partial _ _ _ _ l s e' s' t R ML HE' X').
Qed.
End Settled.
