(** Proofs for C78: a new combinator polls all its children before any other code goes on. *)
From Coq Require Import List Arith Bool Lia.
From Verif Require Import Util Arena Spec_arena Readiness Combinator Tree Spec_tree Spec_first Combinator_proofs Tree_proofs Goes_proofs.
Import ListNotations.

Lemma lset_ne {A} (l : list A) : forall i j x, j <> i -> nth_error (lset l i x) j = nth_error l j.
Proof. induction l as [|a l IH]; intros [|i] [|j] x N; cbn; auto; congruence. Qed.
Section Proofs.
Variables V X : Type.
Variable ww : waker -> waker -> bool.
Variable debug : bool.
Variable code : X -> place -> option V -> X * list place * next V.
Notation ev := (ev V). Notation world := (world V X). Notation tr := (w_tr V X).
Notation hp := (w_hp V X). Notation sub := (w_sub V X).
Notation set_node := (set_node V X). Notation emit := (Tree.emit V X).
Notation owner := (nd_owner V). Notation nb := (nd_b V). Notation nc := (nd_c V).
Notation K nd := (c_n V (nc nd)). Notation rd nd := (c_rd V (nc nd)). Notation filled nd := (c_filled V (nc nd)). Notation items nd := (c_items V (nc nd)).
Notation SI := (SI V X). Notation Gr := (Gr V X).

Definition seg1 (t new : list ev) : Prop := forall a q g b, new = a ++ ERun q g :: b -> first_polls (ERun q g :: b ++ t).
Record FI (w : world) : Prop := {
  fi_si : SI w;
  fi_lvl : forall n k b p, In (ENew n k b p) (tr w) -> lvl p <= n;
  fi_new : forall n k b p, In (ENew n k b p) (tr w) -> exists nd, nth_error (hp w) n = Some nd /\ K nd = k;
  fi_items : forall n nd, nth_error (hp w) n = Some nd -> length (items nd) = K nd;
  fi_fill : forall n nd i, nth_error (hp w) n = Some nd -> nth_error (filled nd) i = Some true -> begun (Kid n i) (tr w);
  fi_own : forall n k b p, In (ENew n k b p) (tr w) -> begun p (tr w) }.
Definition Ge (w w' : world) : Prop :=
  FI w' /\ length (hp w) <= length (hp w') /\ exists new, tr w' = new ++ tr w /\ seg1 (tr w) new.

Lemma seg1_nil t : seg1 t []. Proof. intros a q g b H. destruct a; discriminate. Qed.
Lemma seg1_one t e : match e with ERun _ _ => False | _ => True end -> seg1 t [e].
Proof. intros H a q g b E. destruct a as [|? [|]]; [injection E as -> <-; contradiction|discriminate|discriminate]. Qed.
Lemma seg1_app t n1 n2 : seg1 t n1 -> seg1 (n1 ++ t) n2 -> seg1 t (n2 ++ n1).
Proof.
  intros S1 S2 a q g b E. apply app_eq_app in E as (l & [[E1 E2]|[E1 E2]]).
  - destruct l as [|e l]; cbn in E2.
    + apply (S1 [] q g b). cbn. congruence.
    + injection E2 as <- ->. rewrite <- app_assoc. apply (S2 a q g l). exact E1.
  - apply (S1 l q g b). exact E2.
Qed.
Lemma Ge_refl w : FI w -> Ge w w.
Proof. intro I. split; auto. split; auto. exists []. split; auto. apply seg1_nil. Qed.
Lemma Ge_trans a b c : Ge a b -> Ge b c -> Ge a c.
Proof.
  intros (I & L & n & E & P) (J & M & m & F & Q). split; auto. split; [lia|]. exists (m ++ n). rewrite F, E, app_assoc. split; auto.
  apply seg1_app; auto. rewrite <- E. exact Q.
Qed.
Lemma Ge_fi w w' : Ge w w' -> FI w'. Proof. intros []; auto. Qed.
Lemma Ge_new w w' n k b p : Ge w w' -> In (ENew n k b p) (tr w) -> In (ENew n k b p) (tr w').
Proof. intros (_ & _ & l & E & _) H. rewrite E. apply in_app_iff. auto. Qed.
Lemma begun_cons p e (t : list ev) : begun p t -> begun p (e :: t).
Proof. intros (g & H). exists g. right. exact H. Qed.
Lemma Ge_begun w w' p : Ge w w' -> begun p (tr w) -> begun p (tr w').
Proof. intros (_ & _ & l & E & _) (g & H). exists g. rewrite E. apply in_app_iff. auto. Qed.
Lemma begun_dec q (tr : list ev) : begun q tr \/ ~ begun q tr.
Proof.
  induction tr as [|e tr [IH|IH]]; [right; intros (g & [])|left; apply begun_cons; exact IH|].
  assert (K : (forall g, e <> ERun q g) -> ~ begun q (e :: tr)) by (intros N (g & [H|H]); [apply (N g H)|apply IH; exists g; exact H]).
  destruct e; try (right; apply K; intros g; discriminate). destruct (place_eqb_spec p q) as [->|D]; [left; exists got; left; reflexivity|right; apply K; congruence].
Qed.
Lemma below_mono (t t' : list ev) n q : (forall m k b p, In (ENew m k b p) t -> In (ENew m k b p) t') -> below t n q -> below t' n q.
Proof. intros M. induction 1 as [i|m k b p i N B IH]; [constructor|econstructor; eauto]. Qed.
Lemma Ge_below w w' n q : Ge w w' -> below (tr w) n q -> below (tr w') n q.
Proof. intros G. apply below_mono. intros m k b p. apply Ge_new, G. Qed.
Lemma below_lvl w n q : FI w -> below (tr w) n q -> n < lvl q.
Proof. intros I. induction 1 as [i|m k b p i N B IH]; cbn; [lia|]. apply (fi_lvl _ I) in N. lia. Qed.

(** events *)
Lemma FI_emit e w : match e with ENew _ _ _ _ | EGone _ _ => False | _ => True end -> FI w -> FI (emit e w).
Proof.
  intros N [A B C D E O]. constructor; cbn [Tree.emit Tree.w_tr Tree.w_hp Tree.w_sub].
  - apply (SI_emit V X); auto.
  - intros n k b p [->|H]; [contradiction|eauto].
  - intros n k b p [->|H]; [contradiction|eauto].
  - auto.
  - intros n nd i H F. apply begun_cons, (E n nd i H F).
  - intros n k b p [->|H]; [contradiction|]. apply begun_cons. eauto.
Qed.
Lemma Ge_emit e w : match e with ENew _ _ _ _ | EGone _ _ | ERun _ _ => False | _ => True end -> FI w -> Ge w (emit e w).
Proof.
  intros N I. split; [apply FI_emit; auto; destruct e; auto|]. split; [cbn; lia|]. exists [e]. split; [reflexivity|]. apply seg1_one. destruct e; auto.
Qed.
Lemma beg_emit e w n : match e with ENew _ _ _ _ => False | _ => True end -> beginning n (tr (emit e w)) -> beginning n (tr w).
Proof.
  intros N (k & b & p & i & H & G & L & P). cbn in *. exists k, b, p, i. destruct H as [->|H]; [contradiction|]. split; [exact H|].
  split; [intros (v & Q); apply G; exists v; right; exact Q|]. split; auto. intro Q. apply P, begun_cons, Q.
Qed.
Lemma FI_same w w' : tr w' = tr w -> hp w' = hp w -> (forall p, sub w' p = sub w p) -> FI w -> FI w'.
Proof. intros E L S [A B C D F O]. constructor; rewrite ?E, ?L; auto. apply (SI_same V X w); auto. congruence. Qed.
Lemma Ge_same w w' : tr w' = tr w -> hp w' = hp w -> (forall p, sub w' p = sub w p) -> FI w -> Ge w w'.
Proof. intros E L S I. split; [eapply FI_same; eauto|]. split; [rewrite L; auto|]. exists []. split; auto. apply seg1_nil. Qed.
(** a node changes *)
Lemma Ge_node n c w nd : FI w -> nth_error (hp w) n = Some nd -> c_n V c = K nd -> length (c_items V c) = c_n V c ->
  (forall i, nth_error (c_filled V c) i = Some true -> begun (Kid n i) (tr w)) -> Ge w (set_node n c w).
Proof.
  intros [A B C D F O] E EK EI EF.
  assert (AT : forall m nd', nth_error (hp (set_node n c w)) m = Some nd' -> m = n /\ nd' = mkN V c (nb nd) (owner nd) \/ m <> n /\ nth_error (hp w) m = Some nd').
  { intros m nd' H. destruct (Nat.eq_dec m n) as [->|NE].
    - left. rewrite (at_set_same V X w n c nd E) in H. injection H as <-. auto.
    - right. split; auto. rewrite (at_set_other V X w n c nd m E NE) in H. exact H. }
  assert (T : tr (set_node n c w) = tr w) by apply set_node_tr.
  split; [|split; [rewrite set_node_len; auto|exists []; rewrite T; split; auto; apply seg1_nil]].
  constructor; rewrite ?T; auto.
  - eapply Gr_si, Gr_node; auto.
  - intros m k b p H. destruct (C m k b p H) as (nd' & H1 & H2). destruct (Nat.eq_dec m n) as [->|NE].
    + exists (mkN V c (nb nd) (owner nd)). split; [apply (at_set_same V X w n c nd E)|]. cbn. congruence.
    + exists nd'. split; auto. rewrite (at_set_other V X w n c nd m E NE). exact H1.
  - intros m nd' H. apply AT in H as [[-> ->]|[NE H]]; [exact EI|eauto].
  - intros m nd' i H. apply AT in H as [[-> ->]|[NE H]]; [apply EF|eauto].
Qed.
Lemma Ge_rd n r w nd : FI w -> nth_error (hp w) n = Some nd -> Ge w (set_node n (set_rd V (nc nd) r) w).
Proof.
  intros I E. apply (Ge_node n _ w nd); auto; [apply (fi_items _ I n nd E)|]. intros i. apply (fi_fill _ I n nd i E).
Qed.
Lemma beg_node n c w m : beginning m (tr (set_node n c w)) -> beginning m (tr w).
Proof. rewrite set_node_tr. auto. Qed.

(** wakes *)
Lemma wake_ge fuel : forall locked t w w', FI w -> wake V X fuel locked t w = Done w' -> Ge w w' /\ forall n, beginning n (tr w') -> beginning n (tr w).
Proof.
  induction fuel as [|f IH]; intros locked t w w' I; cbn [wake]; (destruct (w_task t) as [k|]; [|intros [= <-]; split; auto; apply Ge_refl; auto]);
    (destruct (place_of k) as [|n i]; [intros [= <-]; split; [apply Ge_emit; cbn; auto|intros n H; apply beg_emit in H; cbn; auto]|]); try discriminate.
  destruct (existsb (Nat.eqb n) locked); [discriminate|]. destruct (nth_error (hp w) n) as [nd|] eqn:E; [|discriminate]. cbn [get bind].
  destruct (rd_wake (c_rd V (nd_c V nd)) i) as [(r, o)|]; [|discriminate]. cbn [get bind].
  set (w1 := set_node n (set_rd V (nd_c V nd) r) (emit (EWake (Kid n i)) w)).
  assert (G0 : Ge w (emit (EWake (Kid n i)) w)) by (apply Ge_emit; cbn; auto).
  assert (G : Ge w w1) by (eapply Ge_trans; [exact G0|]; apply Ge_rd; [eapply Ge_fi; eauto|exact E]).
  assert (B : forall m, beginning m (tr w1) -> beginning m (tr w)) by (intros m H; apply beg_node, beg_emit in H; cbn; auto).
  destruct o as [t'|]; [|intros [= <-]; auto]. intro E2. apply IH in E2 as [E2 B2]; [|eapply Ge_fi; eauto]. split; [eapply Ge_trans; eauto|auto].
Qed.
Lemma wake_place_ge w p w' : FI w -> wake_place V X w p = Done w' -> Ge w w' /\ forall n, beginning n (tr w') -> beginning n (tr w).
Proof.
  intros I. unfold wake_place. destruct (exists_place V X w p); [|intros [= <-]; split; auto; apply Ge_refl; auto]. intro E. eapply wake_ge; eauto.
Qed.
Lemma wake_all_ge l : forall w w', FI w -> wake_all V X l w = Done w' -> Ge w w' /\ forall n, beginning n (tr w') -> beginning n (tr w).
Proof.
  induction l as [|p l IH]; intros w w' I; cbn [wake_all]; [intros [= <-]; split; auto; apply Ge_refl; auto|].
  destruct (wake_place V X w p) as [w1| | |] eqn:E; try discriminate. cbn [bind]. intro E2. apply wake_place_ge in E as [E B]; auto.
  apply IH in E2 as [E2 B2]; [|eapply Ge_fi; eauto]. split; [eapply Ge_trans; eauto|auto].
Qed.
(** a new combinator *)
Lemma Ge_alloc k b n p w : FI w -> lvl p <= length (hp w) -> begun p (tr w) -> Ge w (alloc V X k b n p w).
Proof.
  intros [A B C D F O] L BG. split; [|split; [cbn; rewrite app_length; lia|]].
  - constructor.
    + eapply Gr_si, Gr_alloc; auto.
    + cbn. intros m k' b' p' [[= <- <- <- <-]|H]; eauto.
    + intros m k' b' p' [[= <- <- <- <-]|H].
      * eexists. split; [apply at_alloc_new|]. reflexivity.
      * destruct (C _ _ _ _ H) as (nd & H1 & H2). exists nd. split; auto. apply at_alloc_old. exact H1.
    + intros m nd H. apply at_alloc_inv in H as [(-> & ->)|(_ & H)]; [cbn; apply repeat_length|eauto].
    + intros m nd i H. apply at_alloc_inv in H as [(-> & ->)|(_ & H)].
      * cbn. intro H. apply nth_error_In in H. apply repeat_spec in H. discriminate.
      * intro Q. apply begun_cons, (F m nd i H Q).
    + intros m k' b' p' [[= <- <- <- <-]|H]; apply begun_cons; eauto.
  - exists [ENew (length (hp w)) n b p]. split; [reflexivity|]. apply seg1_one; cbn; auto.
Qed.
Lemma beg_alloc k b n p w m : beginning m (tr (alloc V X k b n p w)) -> m = length (hp w) \/ beginning m (tr w).
Proof.
  intros (k' & b' & p' & i & H & G & L & P). cbn in *. destruct H as [[= <- _ _ _]|H]; [auto|right]. exists k', b', p', i. split; [exact H|]. split; [|split; [exact L|intro Q; apply P, begun_cons, Q]].
  intros (v & Q). apply G. exists v. right. exact Q.
Qed.
(** a combinator returns *)
Lemma Ge_gone n v p k b w : FI w -> In (ENew n k b p) (tr w) -> Ge w (emit (EGone n v) (Tree.set_sub V X p None w)).
Proof.
  intros I H. pose proof (fi_si _ I) as S. destruct I as [A B C D F O]. split; [|split; [cbn; lia|]].
  - constructor; cbn; auto.
    + eapply Gr_si, Gr_gone; eauto.
    + intros m k' b' p' [Q|Q]; [discriminate|eauto].
    + intros m k' b' p' [Q|Q]; [discriminate|eauto].
    + intros m nd i Q1 Q2. apply begun_cons. eauto.
    + intros m k' b' p' [Q|Q]; [discriminate|]. apply begun_cons. eauto.
  - exists [EGone n v]. split; [reflexivity|]. apply seg1_one; cbn; auto.
Qed.
Lemma beg_gone n v p w m : beginning m (tr (emit (EGone n v) (Tree.set_sub V X p None w))) -> m <> n /\ beginning m (tr w).
Proof.
  intros (k' & b' & p' & i & H & G & L & P). cbn in *. destruct H as [H|H]; [discriminate|]. split.
  - intros ->. apply G. exists v. left. reflexivity.
  - exists k', b', p', i. split; [exact H|]. split; [|split; [exact L|intro Q; apply P, begun_cons, Q]]. intros (u & Q). apply G. exists u. right. exact Q.
Qed.
Lemma awake_new k n wk : rd_awake_list (rd_set_parent ww (c_rd V (c_new V k n)) wk) = seq 0 n.
Proof. destruct k; cbn; unfold ra_set_parent, rv_set_parent; cbn; match goal with |- context [if ?c then _ else _] => destruct c end; cbn; auto; unfold ra_awake_list; cbn; apply map_id. Qed.
Lemma awake_parent r wk : rd_awake_list (rd_set_parent ww r wk) = rd_awake_list r.
Proof. destruct r as [a|v]; cbn; unfold ra_set_parent, rv_set_parent; match goal with |- context [if ?c then _ else _] => destruct c end; reflexivity. Qed.

Definition left_in (w : world) (n : nat) (l : list nat) : Prop := forall i, (exists k b p, In (ENew n k b p) (tr w) /\ i < k) -> ~ begun (Kid n i) (tr w) -> In i l.
Definition Rdy (w : world) (n : nat) : Prop := forall nd, nth_error (hp w) n = Some nd -> left_in w n (rd_awake_list (rd nd)).
Definition upto (w : world) (n : nat) (p : place) : Prop := forall m, beginning m (tr w) -> m = n \/ below (tr w) m p.
Definition over_ (w : world) (p : place) : Prop := forall m, beginning m (tr w) -> below (tr w) m p.
Definition less (w w' : world) : Prop := forall m, beginning m (tr w') -> beginning m (tr w).

Lemma all_ge f :
  (forall p wk w w' o, FI w -> lvl p <= length (hp w) -> over_ w p -> poll_block V X ww debug code f p wk w = Done (w', o) -> Ge w w' /\ less w w' /\ begun p (tr w')) /\
  (forall p wk got w w' o, FI w -> lvl p <= length (hp w) -> over_ w p -> run_code V X ww debug code f p wk got w = Done (w', o) -> Ge w w' /\ less w w' /\ begun p (tr w')) /\
  (forall p wk n w w' o k b, FI w -> In (ENew n k b p) (tr w) -> upto w n p -> Rdy w n -> await V X ww debug code f p wk n w = Done (w', o) ->
     Ge w w' /\ less w w' /\ ~ beginning n (tr w')) /\
  (forall p wk n w w' o k b, FI w -> In (ENew n k b p) (tr w) -> upto w n p -> Rdy w n -> poll_comb V X ww debug code f n wk w = Done (w', o) ->
     Ge w w' /\ less w w' /\ (o = None -> ~ beginning n (tr w'))) /\
  (forall p n l w w' o k b, FI w -> In (ENew n k b p) (tr w) -> upto w n p -> left_in w n l -> loop V X ww debug code f n l w = Done (w', o) ->
     Ge w w' /\ less w w' /\ (o = None -> ~ beginning n (tr w'))).
Proof.
  induction f as [|f (HB & HC & HA & HP & HL)]; [repeat split; intros; discriminate|]. split; [|split; [|split; [|split]]].
  - intros p wk w w' o I L OV. rewrite poll_block_S. intro E.
    assert (G1 : Ge w (emit (EPoll p) w)) by (apply Ge_emit; cbn; auto).
    assert (I1 : FI (emit (EPoll p) w)) by (eapply Ge_fi; eauto).
    assert (B1 : less w (emit (EPoll p) w)) by (intros m; apply beg_emit; cbn; auto).
    destruct (sub w p) as [n|] eqn:S.
    + destruct (si_sub _ _ _ (fi_si _ I) _ _ S) as ((k & b & N) & G).
      assert (NB : ~ beginning n (tr w)).
      { intro Q. apply OV, (below_lvl w n p I) in Q. apply (fi_lvl _ I) in N. lia. }
      destruct (HA p wk n (emit (EPoll p) w) w' o k b) as (A1 & A2 & A3); auto.
      * right. exact N.
      * intros m Q. right. apply (Ge_below w); auto.
      * intros nd _ i (k' & b' & p' & Q & Li) PO. exfalso. apply NB. cbn in Q, PO. destruct Q as [Q|Q]; [discriminate|].
        exists k', b', p', i. split; auto. split; auto. split; auto. intro Q'. apply PO, begun_cons, Q'.
      * split; [eapply Ge_trans; eauto|]. split; [intros m Q; auto|]. eapply Ge_begun; [exact A1|]. apply begun_cons. eapply fi_own; eauto.
    + destruct (HC p wk None (emit (EPoll p) w) w' o) as (A1 & A2 & A3); auto.
      * intros m Q. apply (Ge_below w); auto.
      * split; [eapply Ge_trans; eauto|]. split; [intros m Q; auto|exact A3].
  - intros p wk got w w' o I L OV. rewrite run_code_S. destruct (code (w_x V X w) p got) as [[x l] nx].
    destruct (wake_all V X l _) as [w1| | |] eqn:E1; try discriminate. cbn [bind].
    set (w0 := Tree.set_x V X x (emit (ERun p got) w)) in *.
    assert (I0 : FI w0) by (apply (FI_same (emit (ERun p got) w)); try reflexivity; apply FI_emit; cbn; auto).
    assert (G0 : Ge w w0).
    { split; auto. split; [cbn; auto|]. exists [ERun p got]. split; [reflexivity|]. intros a q g b H. destruct a as [|? [|]]; try discriminate. injection H as <- <- <-. exact OV. }
    assert (B0 : less w w0) by (intros m Q; apply (beg_emit (ERun p got)); cbn; auto).
    apply wake_all_ge in E1 as [G1 B1]; auto. assert (I1 := Ge_fi _ _ G1).
    assert (BG : begun p (tr w1)) by (apply (Ge_begun w0 w1); auto; exists got; left; reflexivity).
    assert (G : Ge w w1) by (eapply Ge_trans; eauto). assert (B : less w w1) by (intros m Q; auto).
    destruct nx as [|v| |k b n]; [intros [= <- <-]; split; [exact G|split; [exact B|exact BG]]|intros [= <- <-]; split; [exact G|split; [exact B|exact BG]]|discriminate|]. intro E2.
    assert (L1 : lvl p <= length (hp w1)) by (destruct G as (_ & G & _); lia).
    assert (G2 : Ge w1 (alloc V X k b n p w1)) by (apply Ge_alloc; auto).
    assert (G3 : Ge w (alloc V X k b n p w1)) by (eapply Ge_trans; eauto).
    destruct (HA p wk (length (hp w1)) (alloc V X k b n p w1) w' o n b) as (A1 & A2 & A3); auto.
    + eapply Ge_fi; eauto.
    + left. reflexivity.
    + intros m Q. apply beg_alloc in Q as [->|Q]; [auto|]. right. apply (Ge_below w); auto.
    + intros nd H. rewrite at_alloc_new in H. injection H as <-. intros i (k' & b' & p' & Q & Li) _.
      destruct Q as [[= <- <- <-]|Q]; [|apply (si_new _ _ _ (fi_si _ I1)) in Q; lia].
      cbn [nd_c]. rewrite <- (awake_parent _ (mkW None 0)), awake_new. apply in_seq. lia.
    + split; [eapply Ge_trans; eauto|]. split; [|apply (Ge_begun _ _ p A1); apply begun_cons; exact BG]. intros m Q. pose proof Q as Q'. apply A2 in Q. apply beg_alloc in Q as [->|Q]; [contradiction|auto].
  - intros p wk n w w' o k b I N UP RD. rewrite await_S. destruct (poll_comb V X ww debug code f n wk w) as [(w1, r)| | |] eqn:E1; try discriminate.
    cbn [bind]. apply (HP p wk n w w1 r k b) in E1 as (G1 & B1 & NB); auto. destruct r as [v|]; [|intros [= <- <-]; auto]. intro E2.
    assert (N1 : In (ENew n k b p) (tr w1)) by (eapply Ge_new; eauto).
    assert (G2 : Ge w1 (emit (EGone n v) (Tree.set_sub V X p None w1))) by (eapply Ge_gone; [eapply Ge_fi; eauto|exact N1]).
    assert (G3 : Ge w (emit (EGone n v) (Tree.set_sub V X p None w1))) by (eapply Ge_trans; eauto).
    apply HC in E2 as (A1 & A2 & _).
    + split; [eapply Ge_trans; eauto|]. split.
      * intros m Q. apply A2, beg_gone in Q as [_ Q]. auto.
      * intros Q. apply A2, beg_gone in Q as [Q _]. auto.
    + eapply Ge_fi; eauto.
    + pose proof (fi_lvl _ I _ _ _ _ N). pose proof (si_new _ _ _ (fi_si _ I) _ _ _ _ N). destruct G3 as (_ & G3 & _). lia.
    + intros m Q. apply beg_gone in Q as [NE Q]. apply B1 in Q. destruct (UP m Q) as [->|Q']; [contradiction|]. apply (Ge_below w); auto.
  - intros p wk n w w' o k b I N UP RD. rewrite poll_comb_S. destruct (nth_error (hp w) n) as [nd|] eqn:E; [|discriminate]. cbn [get bind].
    destruct (c_entry V V V (nd_b V nd) (nd_c V nd)) as [[]|] eqn:EN; try discriminate.
    + intros [= <- <-]. split; [apply Ge_refl; auto|]. split; [intros m Q; auto|]. intros _ (k' & b' & p' & i & H & _ & Li & _).
      destruct (fi_new _ I _ _ _ _ H) as (nd' & E' & EK). rewrite E in E'. injection E' as <-. pose proof (fi_items _ I n nd E) as LI.
      unfold c_entry in EN. destruct (c_kind V (nc nd)).
      * destruct (Nat.eqb_spec (K nd) 0); [lia|]. cbn [andb orb] in EN. destruct (0 <? c_pending V (nc nd)); discriminate.
      * destruct (0 <? c_pending V (nc nd)); discriminate.
      * destruct (c_pending V (nc nd) =? 0); [|discriminate]. destruct (items nd) eqn:EI; [|discriminate]. cbn in LI. lia.
    + destruct (rd_clear _) as [r2|]; [|discriminate]. cbn [get bind]. intro E2. rewrite awake_parent in E2.
      assert (G1 : Ge w (set_node n (set_rd V (nc nd) r2) w)) by (apply Ge_rd; auto).
      destruct (HL p n (rd_awake_list (rd nd)) (set_node n (set_rd V (nc nd) r2) w) w' o k b) as (A1 & A2 & A3); auto.
      * eapply Ge_fi; eauto.
      * rewrite set_node_tr. auto.
      * intros m Q. apply beg_node in Q. destruct (UP m Q); auto. right. apply (Ge_below w); auto.
      * intros i. rewrite set_node_tr. apply (RD nd E).
      * split; [eapply Ge_trans; eauto|]. split; auto. intros m Q. apply A2, beg_node in Q. auto.
  - intros p n l w w' o k b I N UP LF. rewrite loop_S. destruct (nth_error (hp w) n) as [nd|] eqn:E; [|discriminate]. cbn [get bind]. destruct l as [|i l].
    + destruct (finish V debug (nd_b V nd) (nd_c V nd)) as [v| | |]; try discriminate. cbn [bind]. intros [= <- <-]. split; [apply Ge_refl; auto|].
      split; [intros m Q; auto|]. intros _ (k' & b' & p' & i & H & _ & Li & P). destruct (LF i); auto. eauto.
    + assert (LI : forall w2, Ge w w2 -> begun (Kid n i) (tr w2) -> left_in w2 n l).
      { intros w2 G2 P2 j (k' & b' & p' & H & Lj) P. destruct (fi_new _ (Ge_fi _ _ G2) _ _ _ _ H) as (nd2 & Q1 & Q2).
        destruct (fi_new _ (Ge_fi _ _ G2) _ _ _ _ (Ge_new _ _ _ _ _ _ G2 N)) as (nd3 & Q3 & Q4).
        assert (k' = k) by congruence. subst k'. assert (Q : In j (i :: l)).
        { apply LF; [exists k, b, p; split; [exact N|lia]|]. intro Q. apply P, (Ge_begun _ _ _ G2 Q). }
        destruct Q as [<-|Q]; [contradiction|exact Q]. }
      destruct (nth_error (c_filled V (nd_c V nd)) i) as [[]|] eqn:EF; [|cbn [get bind]|discriminate].
      { cbn [get bind]. intro E2. eapply (HL p n l w w' o k b); eauto. apply LI; [apply Ge_refl; auto|]. eapply fi_fill; eauto. }
      destruct (poll_block V X ww debug code f (Kid n i) _ w) as [(w1, r)| | |] eqn:E1; try discriminate. cbn [bind].
      apply HB in E1 as (G1 & B1 & P1); auto.
      2: { cbn. assert (Q : nth_error (hp w) n <> None) by congruence. apply nth_error_Some in Q. lia. }
      2: { intros m Q. destruct (UP m Q) as [->|Q']; [constructor|]. econstructor; eauto. }
      destruct r as [v|].
      * assert (G2 : Ge w (emit (EDone (Kid n i) v) w1)).
        { eapply Ge_trans; [exact G1|]. apply Ge_emit; cbn; auto. eapply Ge_fi; eauto. }
        assert (B2 : less w (emit (EDone (Kid n i) v) w1)) by (intros m Q; apply beg_emit in Q; cbn; auto).
        destruct (b_maybe_return (nd_b V nd) i v) as [o'|s]; [intros [= <- <-]; split; [exact G2|]; split; [exact B2|]; discriminate|].
        destruct (nth_error (hp (emit (EDone (Kid n i) v) w1)) n) as [nd2|] eqn:E2; [|discriminate]. cbn [get bind].
        destruct (store V (nd_c V nd2) i s) as [c| | |] eqn:ES; try discriminate. cbn [bind]. intro E3.
        assert (I2 := Ge_fi _ _ G2).
        assert (G3 : Ge (emit (EDone (Kid n i) v) w1) (set_node n c (emit (EDone (Kid n i) v) w1))).
        { unfold store in ES. destruct (nth_error (items nd2) i); [|discriminate]. destruct (c_pending V (nc nd2)); [discriminate|]. injection ES as <-.
          apply (Ge_node n _ _ nd2); auto; cbn [c_n c_items c_filled].
          - rewrite lset_length. apply (fi_items _ I2 n nd2 E2).
          - intros j H. destruct (Nat.eq_dec j i) as [->|NE]; [apply begun_cons, P1|]. rewrite lset_ne in H by auto. apply (fi_fill _ I2 n nd2 j E2 H). }
        assert (G4 : Ge w (set_node n c (emit (EDone (Kid n i) v) w1))) by (eapply Ge_trans; eauto).
        destruct (HL p n l _ w' o k b (Ge_fi _ _ G4)) with (4 := E3) as (A1 & A2 & A3).
        -- eapply Ge_new; eauto.
        -- intros m Q. apply beg_node in Q. apply B2 in Q. destruct (UP m Q); auto. right. apply (Ge_below w); auto.
        -- apply LI; auto. rewrite set_node_tr. apply begun_cons, P1.
        -- split; [eapply Ge_trans; eauto|]. split; auto. intros m Q. apply A2, beg_node in Q. auto.
      * intro E3. assert (G2 : Ge w (emit (EPend (Kid n i)) w1)).
        { eapply Ge_trans; [exact G1|]. apply Ge_emit; cbn; auto. eapply Ge_fi; eauto. }
        assert (B2 : less w (emit (EPend (Kid n i)) w1)) by (intros m Q; apply beg_emit in Q; cbn; auto).
        destruct (HL p n l _ w' o k b (Ge_fi _ _ G2)) with (4 := E3) as (A1 & A2 & A3).
        -- eapply Ge_new; eauto.
        -- intros m Q. apply B2 in Q. destruct (UP m Q); auto. right. apply (Ge_below w); auto.
        -- apply LI; auto. apply begun_cons, P1.
        -- split; [eapply Ge_trans; eauto|]. split; auto. intros m Q. auto.
Qed.
Lemma FI_start x : FI (Tree.start V X x).
Proof. constructor; cbn; try contradiction; [apply SI_start| |]; intros [|n] nd; cbn; discriminate. Qed.
Notation none w := (forall m, ~ beginning m (tr w)).
Lemma exec_ge w e w' : FI w -> none w -> Tree.exec V X ww debug code w e = Done w' -> Ge w w' /\ none w'.
Proof.
  intros I N. destruct e as [fuel tag|p|g]; cbn [Tree.exec].
  - destruct (w_over V X w); [intros [= <-]; split; auto; apply Ge_refl; auto|].
    destruct (poll_block V X ww debug code fuel Root _ w) as [(w1, r)| | |] eqn:E; try discriminate. cbn [bind].
    destruct (all_ge fuel) as (HB & _). apply HB in E as (G & B & _); [|auto|cbn; lia|intros m Q; destruct (N m Q)]. pose proof (Ge_fi _ _ G) as I1.
    destruct r as [v|]; intros [= <-].
    + split.
      * eapply Ge_trans; [exact G|]. eapply Ge_trans; [apply (Ge_emit (EDone Root v)); cbn; auto|]. apply Ge_same; try reflexivity. apply FI_emit; cbn; auto.
      * intros m Q. apply (N m), B, (beg_emit (EDone Root v)); cbn; auto.
    + split; [eapply Ge_trans; [exact G|]; apply Ge_emit; cbn; auto|]. intros m Q. apply (N m), B, (beg_emit (EPend Root)); cbn; auto.
  - intro E. apply wake_place_ge in E as [G B]; auto. split; auto. intros m Q. apply (N m), B, Q.
  - intros [= <-]. split; [apply Ge_same; auto|exact N].
Qed.
Lemma run_ge evs : forall w w', FI w -> none w -> run_from V X ww debug code w evs = Done w' -> Ge w w' /\ none w'.
Proof.
  induction evs as [|e evs IH]; intros w w' I N; cbn [run_from]; [intros [= <-]; split; auto; apply Ge_refl; auto|].
  destruct (Tree.exec V X ww debug code w e) as [w1| | |] eqn:E; try discriminate. cbn [bind]. intro E2. apply exec_ge in E as [G N1]; auto.
  apply IH in E2 as [G2 N2]; [|eapply Ge_fi; eauto|auto]. split; auto. eapply Ge_trans; eauto.
Qed.
Lemma seg1_always (t : list ev) : seg1 [] t -> Spec_tree.always first_polls t.
Proof.
  induction t as [|e t IH]; intro S; [exact Logic.I|]. split.
  - destruct e; try exact Logic.I. specialize (S [] p got t eq_refl). rewrite app_nil_r in S. exact S.
  - apply IH. intros a q g b ->. apply (S (e :: a) q g b). reflexivity.
Qed.
Lemma run_first x evs w : Tree.run V X ww debug code x evs = Done w -> Spec_tree.always first_polls (tr w) /\ none w.
Proof.
  intros R. apply run_ge in R as ((_ & _ & new & E & S) & N); [|apply FI_start|intros m (k & b & p & i & [] & _)]. split; auto.
  cbn in E. rewrite app_nil_r in E. subst new. apply seg1_always. exact S.
Qed.
Lemma run_lvl x evs w : Tree.run V X ww debug code x evs = Done w -> forall n k b p, In (ENew n k b p) (tr w) -> lvl p <= n.
Proof.
  intros R. apply run_ge in R as (G & _); [|apply FI_start|intros m (k & b & p & i & [] & _)]. apply fi_lvl, (Ge_fi _ _ G).
Qed.
End Proofs.
