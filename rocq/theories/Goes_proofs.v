(** Proofs for C53: a block that awaits nothing goes on as soon as it is polled. *)
From Coq Require Import List Arith Bool Lia.
From Verif Require Import Util Arena Spec_arena Readiness Combinator Tree Spec_tree Combinator_proofs Tree_proofs.
Import ListNotations.

Section Proofs.
Variables V X : Type.
Variable ww : waker -> waker -> bool.
Variable debug : bool.
Variable code : X -> place -> option V -> X * list place * next V.
Notation ev := (ev V). Notation world := (world V X). Notation tr := (w_tr V X).
Notation hp := (w_hp V X). Notation sub := (w_sub V X).
Notation set_node := (set_node V X). Notation emit := (Tree.emit V X).
Notation idle p t := (forall n k b, In (ENew n k b p) t -> gone n t).

(** every poll of an idle block, among the new events, is followed at once by its code *)
Definition seg (t new : list ev) : Prop :=
  forall a p b, new = a ++ EPoll p :: b -> idle p (b ++ t) -> exists a', a = a' ++ [ERun p None].
Record SI (w : world) : Prop := {
  si_sub : forall p n, sub w p = Some n -> (exists k b, In (ENew n k b p) (tr w)) /\ ~ gone n (tr w);
  si_gone : forall n, gone n (tr w) -> n < length (hp w);
  si_new : forall n k b p, In (ENew n k b p) (tr w) -> n < length (hp w);
  si_own : forall n k b p k' b' p', In (ENew n k b p) (tr w) -> In (ENew n k' b' p') (tr w) -> p = p' }.
Definition Gr (w w' : world) : Prop := SI w' /\ exists new, tr w' = new ++ tr w /\ seg (tr w) new.

Lemma seg_nil t : seg t []. Proof. intros a p b H. destruct a; discriminate. Qed.
Lemma seg_app t n1 n2 : seg t n1 -> seg (n1 ++ t) n2 -> seg t (n2 ++ n1).
Proof.
  intros S1 S2 a p b E ID. revert a E. revert S2. induction n2 as [|e n2 IH] using rev_ind; intros S2 a E; [apply S1 in E; auto|].
  clear IH. apply app_eq_app in E as (l & [[E1 E2]|[E1 E2]]).
  - destruct l as [|e' l]; cbn in E2.
    + rewrite app_nil_r in E1. subst a. destruct (S1 [] p b) as (a' & A); auto. destruct a'; discriminate A.
    + injection E2 as <- E2. subst b. apply (S2 a p l); auto. rewrite <- app_assoc in ID. exact ID.
  - destruct (S1 l p b E2 ID) as (a' & ->). exists ((n2 ++ [e]) ++ a'). rewrite E1, app_assoc. reflexivity.
Qed.
Lemma seg_one t e : match e with EPoll _ => False | _ => True end -> seg t [e].
Proof. intros H a p b E. destruct a as [|? [|]]; [injection E as -> ->; contradiction|discriminate|discriminate]. Qed.
Lemma Gr_refl w : SI w -> Gr w w. Proof. intro I. split; auto. exists []. split; auto. apply seg_nil. Qed.
Lemma Gr_trans a b c : Gr a b -> Gr b c -> Gr a c.
Proof.
  intros (I & n & E & P) (J & m & F & Q). split; auto. exists (m ++ n). rewrite F, E, app_assoc. split; auto.
  apply seg_app; auto. rewrite <- E. exact Q.
Qed.
Lemma Gr_si w w' : Gr w w' -> SI w'. Proof. intros []; auto. Qed.
Lemma Gr_new w w' n k b p : Gr w w' -> In (ENew n k b p) (tr w) -> In (ENew n k b p) (tr w').
Proof. intros (_ & l & E & _) H. rewrite E. apply in_app_iff. auto. Qed.
(** steps that add one event that is no poll, no new combinator and no return of one *)
Lemma SI_emit e w : match e with ENew _ _ _ _ | EGone _ _ => False | _ => True end -> SI w -> SI (emit e w).
Proof.
  intros N [A B C D]. assert (GN : forall n, gone n (e :: tr w) -> gone n (tr w)) by (intros n (v & [->|H]); [contradiction|exists v; auto]).
  constructor; cbn [Tree.emit Tree.w_tr Tree.w_hp Tree.w_sub].
  - intros p n E. destruct (A _ _ E) as ((k & b & H) & G). split; [exists k, b; right; auto|]. intro G'. apply G, GN, G'.
  - auto.
  - intros n k b p [->|H]; [contradiction|eauto].
  - intros n k b p k' b' p' [->|H]; [contradiction|]. intros [->|H']; [contradiction|eauto].
Qed.
Lemma Gr_emit e w : match e with ENew _ _ _ _ | EGone _ _ | EPoll _ => False | _ => True end -> SI w -> Gr w (emit e w).
Proof.
  intros N I. split; [apply SI_emit; auto; destruct e; auto|]. exists [e]. split; [reflexivity|]. apply seg_one. destruct e; auto.
Qed.
Lemma SI_same w w' : tr w' = tr w -> length (hp w') = length (hp w) -> (forall p, sub w' p = sub w p) -> SI w -> SI w'.
Proof.
  intros E L S [A B C D]. constructor; rewrite ?E, ?L; auto. intros p n. rewrite S. auto.
Qed.
Lemma Gr_same w w' : tr w' = tr w -> length (hp w') = length (hp w) -> (forall p, sub w' p = sub w p) -> SI w -> Gr w w'.
Proof. intros E L S I. split; [eapply SI_same; eauto|]. exists []. split; auto. apply seg_nil. Qed.
Lemma Gr_node n c w : SI w -> Gr w (set_node n c w).
Proof. intro I. apply Gr_same; auto; [|apply set_node_len|]; unfold Tree.set_node; destruct (nth_error (hp w) n); reflexivity. Qed.

Lemma wake_gr fuel : forall locked t w w', SI w -> wake V X fuel locked t w = Done w' -> Gr w w'.
Proof.
  induction fuel as [|f IH]; intros locked t w w' I; cbn [wake]; (destruct (w_task t) as [k|]; [|intros [= <-]; apply Gr_refl; auto]);
    (destruct (place_of k) as [|n i]; [intros [= <-]; apply Gr_emit; cbn; auto|]); try discriminate.
  destruct (existsb (Nat.eqb n) locked); [discriminate|]. destruct (nth_error (hp w) n) as [nd|] eqn:E; [|discriminate]. cbn [get bind].
  destruct (rd_wake (c_rd V (nd_c V nd)) i) as [(r, o)|]; [|discriminate]. cbn [get bind].
  set (w1 := set_node n (set_rd V (nd_c V nd) r) (emit (EWake (Kid n i)) w)).
  assert (G : Gr w w1).
  { eapply Gr_trans; [apply (Gr_emit (EWake (Kid n i))); cbn; auto|]. apply Gr_node. apply SI_emit; cbn; auto. }
  destruct o as [t'|]; [|intros [= <-]; auto]. intro E2. eapply Gr_trans; [exact G|]. eapply IH; eauto. eapply Gr_si; eauto.
Qed.
Lemma wake_place_gr w p w' : SI w -> wake_place V X w p = Done w' -> Gr w w'.
Proof.
  intros I. unfold wake_place. destruct (exists_place V X w p); [|intros [= <-]; apply Gr_refl; auto]. intro E. eapply wake_gr; eauto.
Qed.
Lemma wake_all_gr l : forall w w', SI w -> wake_all V X l w = Done w' -> Gr w w'.
Proof.
  induction l as [|p l IH]; intros w w' I; cbn [wake_all]; [intros [= <-]; apply Gr_refl; auto|].
  destruct (wake_place V X w p) as [w1| | |] eqn:E; try discriminate. cbn [bind]. intro E2. apply wake_place_gr in E; auto.
  eapply Gr_trans; [exact E|]. apply IH; auto. eapply Gr_si; eauto.
Qed.
Lemma Gr_alloc k b n p w : SI w -> Gr w (alloc V X k b n p w).
Proof.
  intro I. split.
  - destruct I as [A B C D]. assert (GN : forall m, gone m (ENew (length (hp w)) n b p :: tr w) -> gone m (tr w)).
    { intros m (v & [H|H]); [discriminate|exists v; auto]. }
    constructor; cbn.
    + intros q m. destruct (place_eqb_spec q p) as [->|].
      * intros [= <-]. split; [eauto|]. intro G. apply GN, B in G. lia.
      * intro E. destruct (A _ _ E) as ((k' & b' & H) & G). split; [eauto|]. intro G'. apply G, GN, G'.
    + intros m G. apply GN, B in G. rewrite app_length. cbn. lia.
    + intros m k' b' p'. rewrite app_length. cbn. intros [[= <- _ _ _]|H]; [lia|]. apply C in H. lia.
    + intros m k1 b1 p1 k2 b2 p2 [H|H] [H'|H'].
      * congruence.
      * injection H as <- <- <- <-. apply C in H'. lia.
      * injection H' as <- <- <- <-. apply C in H. lia.
      * eauto.
  - exists [ENew (length (hp w)) n b p]. split; [reflexivity|]. apply seg_one; cbn; auto.
Qed.
Lemma Gr_gone n v p k b w : SI w -> In (ENew n k b p) (tr w) -> Gr w (emit (EGone n v) (Tree.set_sub V X p None w)).
Proof.
  intros [A B C D] H. split.
  - constructor; cbn.
    + intros q m. destruct (place_eqb_spec q p) as [->|NE]; [discriminate|]. intro E. destruct (A _ _ E) as ((k' & b' & H') & G). split; [eauto|].
      intros (v' & [G'|G']); [|apply G; exists v'; auto]. injection G' as <- <-. apply NE. eapply D; eauto.
    + intros m (v' & [G|G]); [injection G as <- <-; eauto|]. apply B. exists v'. auto.
    + intros m k' b' p' [G|G]; [discriminate|eauto].
    + intros m k1 b1 p1 k2 b2 p2 [G|G]; [discriminate|]. intros [G'|G']; [discriminate|eauto].
  - exists [EGone n v]. split; [reflexivity|]. apply seg_one; cbn; auto.
Qed.

(** the same, beginning with the block's code *)
Definition Gc (p : place) (got : option V) (w w' : world) : Prop :=
  SI w' /\ exists new, tr w' = new ++ ERun p got :: tr w /\ seg (ERun p got :: tr w) new.
Lemma Gc_Gr p got w w' : Gc p got w w' -> Gr w w'.
Proof.
  intros (I & new & E & S). split; auto. exists (new ++ [ERun p got]). rewrite E, <- app_assoc. split; auto. apply seg_app; [apply seg_one; cbn; auto|exact S].
Qed.

Lemma all_gr f :
  (forall p wk w w' o, SI w -> poll_block V X ww debug code f p wk w = Done (w', o) -> Gr w w') /\
  (forall p wk got w w' o, SI w -> run_code V X ww debug code f p wk got w = Done (w', o) -> Gc p got w w') /\
  (forall p wk n w w' o k b, SI w -> In (ENew n k b p) (tr w) -> await V X ww debug code f p wk n w = Done (w', o) -> Gr w w') /\
  (forall wk n w w' o, SI w -> poll_comb V X ww debug code f n wk w = Done (w', o) -> Gr w w') /\
  (forall n l w w' o, SI w -> loop V X ww debug code f n l w = Done (w', o) -> Gr w w').
Proof.
  induction f as [|f (HB & HC & HA & HP & HL)]; [repeat split; intros; discriminate|]. split; [|split; [|split; [|split]]].
  - intros p wk w w' o I. rewrite poll_block_S. intro E.
    assert (I1 : SI (emit (EPoll p) w)) by (apply SI_emit; cbn; auto).
    assert (ONE : forall (a : list ev) q b, [EPoll p] = a ++ EPoll q :: b -> a = [] /\ q = p /\ b = []).
    { intros a q b H. destruct a as [|? [|]]; try discriminate. injection H as <- <-. auto. }
    destruct (sub w p) as [n|] eqn:S.
    + destruct (si_sub _ I _ _ S) as ((k & b & N) & G). eapply HA in E; eauto; [|right; eauto].
      eapply Gr_trans; [|exact E]. split; auto. exists [EPoll p]. split; [reflexivity|]. intros a q b' H ID.
      apply ONE in H as (-> & -> & ->). exfalso. apply G. eapply ID. exact N.
    + eapply HC in E as (I2 & new & E & SG); auto. split; auto. cbn in E, SG. exists (new ++ [ERun p None; EPoll p]). split; [rewrite E, <- app_assoc; reflexivity|].
      intros a q b H ID. change (new ++ [ERun p None; EPoll p]) with (new ++ ([ERun p None] ++ [EPoll p])) in H. rewrite app_assoc in H.
      destruct b as [|e b] using rev_ind.
      * apply app_inj_tail in H as [H1 H2]. injection H2 as <-. exists new. auto.
      * clear IHb. change (EPoll q :: b ++ [e]) with ((EPoll q :: b) ++ [e]) in H. rewrite app_assoc in H. apply app_inj_tail in H as [H1 H2]. subst e.
        assert (SS : seg (EPoll p :: tr w) (new ++ [ERun p None])) by (apply seg_app; [apply seg_one; cbn; auto|exact SG]).
        apply (SS a q b H1). rewrite <- app_assoc in ID. exact ID.
  - intros p wk got w w' o I. rewrite run_code_S. destruct (code (w_x V X w) p got) as [[x l] nx].
    destruct (wake_all V X l _) as [w1| | |] eqn:E1; try discriminate. cbn [bind].
    set (w0 := Tree.set_x V X x (emit (ERun p got) w)) in *.
    assert (I0 : SI w0) by (apply (SI_same (emit (ERun p got) w)); try reflexivity; apply SI_emit; cbn; auto).
    apply wake_all_gr in E1; auto.
    assert (K : forall w2, Gr w0 w2 -> Gc p got w w2) by (intros w2 (J & new & E & S); split; auto; exists new; auto).
    destruct nx as [|v| |k b n]; [intros [= <- <-]; auto|intros [= <- <-]; auto|discriminate|]. intro E2. apply K.
    assert (G2 : Gr w1 (alloc V X k b n p w1)) by (apply Gr_alloc; eapply Gr_si; eauto).
    eapply (HA p wk _ _ _ _ n b) in E2; [|eapply Gr_si; eauto|left; reflexivity].
    eapply Gr_trans; [exact E1|]. eapply Gr_trans; [exact G2|exact E2].
  - intros p wk n w w' o k b I N. rewrite await_S. destruct (poll_comb V X ww debug code f n wk w) as [(w1, r)| | |] eqn:E1; try discriminate.
    cbn [bind]. apply HP in E1; auto. destruct r as [v|]; [|intros [= <- <-]; auto]. intro E2.
    assert (G : Gr w1 (emit (EGone n v) (Tree.set_sub V X p None w1))).
    { eapply Gr_gone; [eapply Gr_si; eauto|eapply Gr_new; eauto]. }
    apply HC in E2; [|eapply Gr_si; eauto]. apply Gc_Gr in E2. eapply Gr_trans; [exact E1|]. eapply Gr_trans; eauto.
  - intros wk n w w' o I. rewrite poll_comb_S. destruct (nth_error (hp w) n) as [nd|] eqn:E; [|discriminate]. cbn [get bind].
    destruct (c_entry V V V (nd_b V nd) (nd_c V nd)) as [[]|]; try discriminate; [intros [= <- <-]; apply Gr_refl; auto|].
    destruct (rd_clear _) as [r2|]; [|discriminate]. cbn [get bind]. intro E2.
    apply HL in E2; [|eapply Gr_si, Gr_node; auto]. eapply Gr_trans; [|exact E2]. apply Gr_node; auto.
  - intros n l w w' o I. rewrite loop_S. destruct (nth_error (hp w) n) as [nd|] eqn:E; [|discriminate]. cbn [get bind]. destruct l as [|i l].
    + destruct (finish V debug (nd_b V nd) (nd_c V nd)) as [v| | |]; try discriminate. cbn [bind]. intros [= <- <-]. apply Gr_refl; auto.
    + destruct (nth_error (c_filled V (nd_c V nd)) i) as [[]|]; [|cbn [get bind]|discriminate]; [apply HL; auto|].
      destruct (poll_block V X ww debug code f (Kid n i) _ w) as [(w1, r)| | |] eqn:E1; try discriminate. cbn [bind].
      apply HB in E1; auto. destruct r as [v|].
      * assert (G1 : Gr w (emit (EDone (Kid n i) v) w1)).
        { eapply Gr_trans; [exact E1|]. apply Gr_emit; cbn; auto. eapply Gr_si; eauto. }
        destruct (b_maybe_return (nd_b V nd) i v) as [o'|s]; [intros [= <- <-]; auto|].
        destruct (nth_error (hp (emit (EDone (Kid n i) v) w1)) n) as [nd2|]; [|discriminate]. cbn [get bind].
        destruct (store V (nd_c V nd2) i s) as [c| | |]; try discriminate. cbn [bind]. intro E3.
        assert (G2 : Gr (emit (EDone (Kid n i) v) w1) (set_node n c (emit (EDone (Kid n i) v) w1))) by (apply Gr_node; eapply Gr_si; eauto).
        apply HL in E3; [|eapply Gr_si; eauto]. eapply Gr_trans; [exact G1|]. eapply Gr_trans; eauto.
      * intro E3. assert (G1 : Gr w (emit (EPend (Kid n i)) w1)).
        { eapply Gr_trans; [exact E1|]. apply Gr_emit; cbn; auto. eapply Gr_si; eauto. }
        apply HL in E3; [|eapply Gr_si; eauto]. eapply Gr_trans; eauto.
Qed.
Lemma SI_start x : SI (Tree.start V X x).
Proof. constructor; cbn; try discriminate; try contradiction. intros n (v & []). Qed.
Lemma exec_gr w e w' : SI w -> Tree.exec V X ww debug code w e = Done w' -> Gr w w'.
Proof.
  intros I. destruct e as [fuel tag|p|g]; cbn [Tree.exec].
  - destruct (w_over V X w); [intros [= <-]; apply Gr_refl; auto|].
    destruct (poll_block V X ww debug code fuel Root _ w) as [(w1, r)| | |] eqn:E; try discriminate. cbn [bind].
    destruct (all_gr fuel) as (HB & _). apply HB in E; auto. pose proof (Gr_si _ _ E) as I1.
    destruct r as [v|]; intros [= <-]; (eapply Gr_trans; [exact E|]); [|apply Gr_emit; cbn; auto].
    eapply Gr_trans; [apply (Gr_emit (EDone Root v)); cbn; auto|]. apply Gr_same; try reflexivity. apply SI_emit; cbn; auto.
  - intro E. eapply wake_place_gr; eauto.
  - intros [= <-]. apply Gr_same; auto.
Qed.
Lemma run_gr evs : forall w w', SI w -> run_from V X ww debug code w evs = Done w' -> Gr w w'.
Proof.
  induction evs as [|e evs IH]; intros w w' I; cbn [run_from]; [intros [= <-]; apply Gr_refl; auto|].
  destruct (Tree.exec V X ww debug code w e) as [w1| | |] eqn:E; try discriminate. cbn [bind]. intro E2. apply exec_gr in E; auto.
  eapply Gr_trans; [exact E|]. apply IH; auto. eapply Gr_si; eauto.
Qed.
Lemma run_goes x evs w : Tree.run V X ww debug code x evs = Done w -> goes_on (tr w).
Proof.
  intros R. apply run_gr in R as (_ & new & E & S); [|apply SI_start]. cbn in E. rewrite app_nil_r in E. intros a p b H ID. subst new.
  apply (S a p b H). cbn. rewrite app_nil_r. exact ID.
Qed.
End Proofs.
