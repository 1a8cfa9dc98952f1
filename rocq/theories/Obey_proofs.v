(** Proofs for C66: the code of a tree of async blocks is run as written. *)
From Coq Require Import List Arith Bool Lia.
From Verif Require Import Util Arena Spec_arena Readiness Combinator Tree Spec_tree Combinator_proofs Tree_proofs Spec_obey.
Import ListNotations.

Lemma nth_error_lset_eq {A} (l : list A) i x : i < length l -> nth_error (lset l i x) i = Some x.
Proof. intro L. rewrite lset_nth by auto. now rewrite Nat.eqb_refl. Qed.
Lemma nth_error_lset_ne {A} (l : list A) i j x : i < length l -> j <> i -> nth_error (lset l i x) j = nth_error l j.
Proof. intros L D. rewrite lset_nth by auto. destruct (Nat.eqb_spec j i); [congruence|reflexivity]. Qed.

Definition rd_parent (r : rd) : waker := match r with RA a => ra_parent a | RV v => rv_parent v end.
Lemma rd_wake_parent r i r' o : rd_wake r i = Some (r', o) -> rd_parent r' = rd_parent r /\ (o = None \/ o = Some (rd_parent r)).
Proof.
  destruct r as [r|r]; cbn [rd_wake]; unfold ra_wake, rv_wake, ra_set_woken, rv_set_woken;
    repeat match goal with |- context [if ?c then _ else _] => destruct c end; cbn; intros [= <- <-]; cbn; auto.
Qed.
Lemma rd_clear_parent r r' : rd_clear r = Some r' -> rd_parent r' = rd_parent r.
Proof.
  destruct r as [r|r]; cbn [rd_clear]; unfold ra_clear, rv_clear.
  - destruct (_ <? _); [|destruct (unset_all _ _ _)]; cbn; intros [= <-]; reflexivity.
  - destruct (_ <? _); [destruct (unset_all _ _ _)|]; cbn; intros [= <-]; reflexivity.
Qed.
Lemma rd_set_parent_task ww r wk : will_wake_ok ww -> w_task (rd_parent (rd_set_parent ww r wk)) = w_task wk.
Proof.
  intro WW. destruct r as [r|r]; cbn [rd_set_parent rd_parent]; unfold ra_set_parent, rv_set_parent;
    destruct (ww _ wk) eqn:E; cbn; auto; apply WW; auto.
Qed.

Section Proofs.
Variables V X : Type.
Variable ww : waker -> waker -> bool.
Variable debug : bool.
Variable code : X -> place -> option V -> X * list place * next V.
Hypothesis WW : will_wake_ok ww.
Notation ev := (ev V). Notation world := (world V X). Notation tr := (w_tr V X). Notation wx := (w_x V X).
Notation hp := (w_hp V X). Notation sub := (w_sub V X).
Notation K nd := (c_n V (nd_c V nd)). Notation owner := (nd_owner V).
Notation set_node := (set_node V X). Notation emit := (Tree.emit V X).
Notation plays := (plays code).

(** who created which combinator, and whom it wakes *)
Record PI (w : world) : Prop := {
  pi_node : forall n nd, nth_error (hp w) n = Some nd -> In (ENew n (K nd) (nd_b V nd) (owner nd)) (tr w) /\
    (w_task (rd_parent (c_rd V (nd_c V nd))) = None \/ w_task (rd_parent (c_rd V (nd_c V nd))) = Some (task_of (owner nd)));
  pi_new : forall n k b p, In (ENew n k b p) (tr w) -> exists nd, nth_error (hp w) n = Some nd /\ K nd = k /\ nd_b V nd = b /\ owner nd = p;
  pi_sub : forall p n, sub w p = Some n -> exists k b, In (ENew n k b p) (tr w) }.

Lemma new_fun w n k b p k' b' p' : PI w -> In (ENew n k b p) (tr w) -> In (ENew n k' b' p') (tr w) -> k = k' /\ b = b' /\ p = p'.
Proof.
  intros I H H'. destruct (pi_new _ I _ _ _ _ H) as (nd & E & <- & <- & <-). destruct (pi_new _ I _ _ _ _ H') as (nd' & E' & <- & <- & <-).
  rewrite E in E'. injection E' as <-. auto.
Qed.
Lemma made_exists w p : PI w -> made p (tr w) <-> exists_place V X w p = true.
Proof.
  intro I. destruct p as [|n i]; cbn; [tauto|]. split.
  - intros (k & b & q & H & L). destruct (pi_new _ I _ _ _ _ H) as (nd & E & <- & _). rewrite E. apply Nat.ltb_lt. auto.
  - destruct (nth_error (hp w) n) as [nd|] eqn:E; [|discriminate]. intro L. apply Nat.ltb_lt in L.
    exists (K nd), (nd_b V nd), (owner nd). split; auto. apply (pi_node _ I _ _ E).
Qed.

Lemma plays_app t x l x1 l' x2 : plays t x l x1 -> plays (rev l ++ t) x1 l' x2 -> plays t x (l ++ l') x2.
Proof.
  intro P. induction P as [t x|t x p got x1 ws nx ks e l x1' E W N P IH|t x e l x1' E P IH]; intro Q.
  - exact Q.
  - replace ((ERun p got :: map EWake ks ++ e :: l) ++ l') with (ERun p got :: map EWake ks ++ e :: (l ++ l'))
      by (cbn; now rewrite <- app_assoc).
    eapply plays_run; eauto. apply IH.
    replace (rev (ERun p got :: map EWake ks ++ e :: l) ++ t) with (rev l ++ e :: rev (map EWake ks) ++ ERun p got :: t) in Q; auto.
    cbn [rev]. rewrite rev_app_distr. cbn [rev]. rewrite <- !app_assoc. reflexivity.
  - cbn [app]. apply plays_other; auto. apply IH. cbn [rev] in Q. rewrite <- app_assoc in Q. exact Q.
Qed.

Lemma PI_emit e w : match e with ENew _ _ _ _ => False | _ => True end -> PI w -> PI (emit e w).
Proof.
  intros N I. constructor; cbn.
  - intros n nd E. destruct (pi_node _ I _ _ E) as [A B]. auto.
  - intros n k b p [->|H]; [contradiction|]. apply (pi_new _ I); auto.
  - intros p n E. destruct (pi_sub _ I _ _ E) as (k & b & H). eauto.
Qed.
Lemma PI_set_x x w : PI w -> PI (Tree.set_x V X x w).
Proof. intros []. constructor; auto. Qed.
Lemma PI_set_sub p o w : PI w -> (forall n, o = Some n -> exists k b, In (ENew n k b p) (tr w)) -> PI (Tree.set_sub V X p o w).
Proof.
  intros [A B C] H. constructor; auto. cbn. intros q n. destruct (place_eqb_spec q p) as [->|]; auto.
Qed.
Lemma PI_set_node n c w nd : PI w -> nth_error (hp w) n = Some nd -> c_n V c = K nd ->
  (w_task (rd_parent (c_rd V c)) = None \/ w_task (rd_parent (c_rd V c)) = Some (task_of (owner nd))) -> PI (set_node n c w).
Proof.
  intros I E N T. unfold Tree.set_node. rewrite E.
  assert (L : n < length (hp w)) by (apply nth_error_Some; congruence).
  constructor; cbn.
  - intros m nd' E'. destruct (Nat.eq_dec m n) as [->|D].
    + rewrite nth_error_lset_eq in E' by auto. injection E' as <-. cbn. rewrite N. split; auto. apply (pi_node _ I _ _ E).
    + rewrite nth_error_lset_ne in E' by auto. apply (pi_node _ I); auto.
  - intros m k b p H. destruct (pi_new _ I _ _ _ _ H) as (nd' & E' & A). destruct (Nat.eq_dec m n) as [->|D].
    + rewrite nth_error_lset_eq by auto. eexists. split; [reflexivity|]. cbn. rewrite E in E'. injection E' as <-. rewrite N. auto.
    + rewrite nth_error_lset_ne by auto. eauto.
  - apply (pi_sub _ I).
Qed.
Lemma PI_alloc k b n p w : PI w -> PI (alloc V X k b n p w).
Proof.
  intro I. assert (OLD : forall m k' b' p', In (ENew m k' b' p') (tr w) -> m < length (hp w)).
  { intros m k' b' p' H. destruct (pi_new _ I _ _ _ _ H) as (nd & E & _). apply nth_error_Some. congruence. }
  constructor; cbn.
  - intros m nd E. destruct (Nat.lt_ge_cases m (length (hp w))) as [L|L].
    + rewrite nth_error_app1 in E by auto. destruct (pi_node _ I _ _ E) as [A B]. auto.
    + rewrite nth_error_app2 in E by auto. destruct (m - length (hp w)) as [|d] eqn:D; [|destruct d; discriminate].
      injection E as <-. cbn. replace m with (length (hp w)) by lia. unfold c_new. split; [left; destruct k; reflexivity|]. left. destruct k; reflexivity.
  - intros m k' b' p' [[= <- <- <- <-]|H].
    + rewrite nth_error_app2, Nat.sub_diag by auto. eexists. split; [reflexivity|]. cbn. unfold c_new. destruct k; auto.
    + pose proof (OLD _ _ _ _ H). rewrite nth_error_app1 by auto. apply (pi_new _ I); auto.
  - intros q m. destruct (place_eqb_spec q p) as [->|].
    + intros [= <-]. eauto.
    + intro E. destruct (pi_sub _ I _ _ E) as (k' & b' & H). eauto.
Qed.

(** ** wakes *)
Definition Woke (w : world) (l : list place) (w' : world) : Prop :=
  tr w' = rev (map EWake l) ++ tr w /\ wx w' = wx w /\ length (hp w') = length (hp w) /\ PI w'.
Lemma in_wakes (e : ev) l t : In e (rev (map EWake l) ++ t) -> match e with EWake _ => False | _ => True end -> In e t.
Proof.
  intros H N. apply in_app_iff in H as [H|H]; auto. apply in_rev in H. apply in_map_iff in H as (p & <- & _). contradiction.
Qed.
Lemma wake_chain fuel : forall locked t w w' p, PI w -> w_task t = Some (task_of p) -> wake V X fuel locked t w = Done w' ->
  exists l, chain (tr w) p l /\ Woke w l w'.
Proof.
  induction fuel as [|f IH]; intros locked t w w' p I T; cbn [wake]; rewrite T, place_task; destruct p as [|n i]; try discriminate.
  1, 2: intros [= <-]; exists [Root]; split; [constructor|]; split; [reflexivity|]; split; [reflexivity|]; split; [reflexivity|]; apply PI_emit; cbn; auto.
  destruct (existsb (Nat.eqb n) locked); [discriminate|]. destruct (nth_error (hp w) n) as [nd|] eqn:E; [|discriminate]. cbn [get bind].
  destruct (rd_wake (c_rd V (nd_c V nd)) i) as [(r, o)|] eqn:R; [|discriminate]. cbn [get bind].
  apply rd_wake_parent in R as [RP RO]. destruct (pi_node _ I _ _ E) as [N T'].
  set (w1 := set_node n (set_rd V (nd_c V nd) r) (emit (EWake (Kid n i)) w)).
  assert (I1 : PI w1).
  { apply (PI_set_node _ _ _ nd); auto; [apply PI_emit; cbn; auto|]. cbn [c_rd set_rd]. rewrite RP. exact T'. }
  assert (E1 : tr w1 = EWake (Kid n i) :: tr w) by (unfold w1, Tree.set_node; cbn; rewrite E; reflexivity).
  assert (X1 : wx w1 = wx w) by (unfold w1, Tree.set_node; cbn; rewrite E; reflexivity).
  assert (L1 : length (hp w1) = length (hp w)) by (unfold w1; rewrite set_node_len; reflexivity).
  assert (ONE : Woke w [Kid n i] w1) by (split; [exact E1|]; split; [exact X1|]; split; [exact L1|exact I1]).
  destruct o as [t'|]; [|intros [= <-]; exists [Kid n i]; split; auto; constructor].
  destruct RO as [D|[= ->]]; [discriminate|]. destruct T' as [T'|T'].
  - destruct f; cbn [wake]; rewrite T'; intros [= <-]; exists [Kid n i]; split; auto; constructor.
  - intro E2. destruct (IH _ _ _ _ _ I1 T' E2) as (l & C & E3 & X3 & L3 & I3). exists (Kid n i :: l). split.
    + eapply chain_up; [exact N|]. clear - C E1. rewrite E1 in C.
      induction C as [p|n' i' k b q l H C IH]; [constructor|]. destruct H as [H|H]; [discriminate|]. econstructor; eauto.
    + split; [|split; [congruence|split; [congruence|auto]]]. rewrite E3, E1. cbn [map rev]. rewrite <- app_assoc. reflexivity.
Qed.
Lemma chain_mono (t t' : list ev) p l : (forall n k b q, In (ENew n k b q) t -> In (ENew n k b q) t') -> chain t p l -> chain t' p l.
Proof. intros H C. induction C; econstructor; eauto. Qed.
Lemma wake_place_chain w p w' : PI w -> wake_place V X w p = Done w' ->
  (made p (tr w) /\ exists l, chain (tr w) p l /\ Woke w l w') \/ (~ made p (tr w) /\ w' = w).
Proof.
  intro I. unfold wake_place. pose proof (made_exists w p I) as M. destruct (exists_place V X w p) eqn:E.
  - intro E2. left. split; [apply M; auto|]. eapply wake_chain; eauto. reflexivity.
  - intros [= <-]. right. split; auto. intro H. apply M in H. discriminate.
Qed.
Lemma wake_all_woke l : forall w w', PI w -> wake_all V X l w = Done w' -> exists ks, woke (tr w) l ks /\ Woke w ks w'.
Proof.
  induction l as [|p l IH]; intros w w' I; cbn [wake_all].
  - intros [= <-]. exists []. split; [constructor|]. split; [reflexivity|]. auto.
  - destruct (wake_place V X w p) as [w1| | |] eqn:E; try discriminate. cbn [bind]. intro E2.
    destruct (wake_place_chain w p w1 I E) as [(M & l1 & C & E1 & X1 & L1 & I1)|(M & ->)].
    + destruct (IH _ _ I1 E2) as (ks & W & E3 & X3 & L3 & I3). exists (l1 ++ ks). split.
      * apply woke_one; auto. rewrite E1 in W. revert W. generalize (tr w) as t. intros t W.
        assert (S : forall e : ev, In e (rev (map EWake l1) ++ t) -> match e with EWake _ => False | _ => True end -> In e t) by (intros; eapply in_wakes; eauto).
        clear - W S. induction W as [|r0 ws ks0 M W IH0|r0 ws l0 ks0 M C W IH0]; [constructor| |].
        -- apply woke_none; auto. intro H. apply M. destruct r0 as [|n i]; cbn in *; auto. destruct H as (k & b & q & H & L).
           exists k, b, q. split; auto. apply in_app_iff. auto.
        -- apply woke_one; auto.
           ++ destruct r0 as [|n i]; cbn in *; auto. destruct M as (k & b & q & H & L). exists k, b, q. split; auto.
           ++ eapply chain_mono; [|exact C]. intros n k b q H. apply S; auto.
      * split; [|split; [congruence|split; [congruence|auto]]]. rewrite E3, E1, map_app, rev_app_distr, app_assoc. reflexivity.
    + destruct (IH _ _ I E2) as (ks & W & W'). exists ks. split; auto. apply woke_none; auto.
Qed.

(** ** polls *)
Definition fin (p : place) (o : option V) : ev := match o with None => EPend p | Some v => EDone p v end.
Definition GoB (p : place) (w : world) (o : option V) (w' : world) : Prop :=
  exists l, tr w' = rev l ++ tr w /\ plays (tr w) (wx w) (l ++ [fin p o]) (wx w').
Definition Go (w w' : world) : Prop := exists l, tr w' = rev l ++ tr w /\ plays (tr w) (wx w) l (wx w').
Definition wk_of (p : place) (wk : waker) : Prop := w_task wk = Some (task_of p).
Lemma Go_refl w : Go w w. Proof. exists []. split; [reflexivity|constructor]. Qed.
Lemma Go_trans a b c : Go a b -> Go b c -> Go a c.
Proof.
  intros (l & E & P) (m & F & Q). exists (l ++ m). split; [rewrite F, E, rev_app_distr, app_assoc; reflexivity|].
  eapply plays_app; eauto. rewrite <- E. exact Q.
Qed.
Lemma Go_B p a b o c : Go a b -> GoB p b o c -> GoB p a o c.
Proof.
  intros (l & E & P) (m & F & Q). exists (l ++ m). split; [rewrite F, E, rev_app_distr, app_assoc; reflexivity|].
  rewrite <- app_assoc. eapply plays_app; eauto. rewrite <- E. exact Q.
Qed.
Lemma B_Go p a b o : GoB p a o b -> Go a (emit (fin p o) b).
Proof. intros (l & E & P). exists (l ++ [fin p o]). split; auto. cbn. rewrite rev_app_distr. cbn. rewrite E. reflexivity. Qed.
Lemma Go_same a b : tr b = tr a -> wx b = wx a -> Go a b.
Proof. intros E F. exists []. rewrite E, F. split; [reflexivity|constructor]. Qed.
Lemma Go_emit e w : match e with EPoll _ | EPend _ | EGone _ _ => True | _ => False end -> Go w (emit e w).
Proof. intro H. exists [e]. split; [reflexivity|]. apply plays_other; auto. constructor. Qed.
Lemma Go_new w w' n k b p : Go w w' -> In (ENew n k b p) (tr w) -> In (ENew n k b p) (tr w').
Proof. intros (l & E & _) H. rewrite E. apply in_app_iff. auto. Qed.
Lemma GoB_new q o w w' n k b p : GoB q w o w' -> In (ENew n k b p) (tr w) -> In (ENew n k b p) (tr w').
Proof. intros (l & E & _) H. rewrite E. apply in_app_iff. auto. Qed.
Lemma set_node_same n c w : Go w (set_node n c w).
Proof. unfold Tree.set_node. destruct (nth_error (hp w) n); apply Go_same; reflexivity. Qed.

Lemma all_go f :
  (forall p wk w w' o, PI w -> wk_of p wk -> poll_block V X ww debug code f p wk w = Done (w', o) -> PI w' /\ GoB p w o w') /\
  (forall p wk got w w' o, PI w -> wk_of p wk -> run_code V X ww debug code f p wk got w = Done (w', o) -> PI w' /\ GoB p w o w') /\
  (forall p wk n w w' o k b, PI w -> wk_of p wk -> In (ENew n k b p) (tr w) -> await V X ww debug code f p wk n w = Done (w', o) -> PI w' /\ GoB p w o w') /\
  (forall p wk n w w' o k b, PI w -> wk_of p wk -> In (ENew n k b p) (tr w) -> poll_comb V X ww debug code f n wk w = Done (w', o) -> PI w' /\ Go w w') /\
  (forall n l w w' o, PI w -> loop V X ww debug code f n l w = Done (w', o) -> PI w' /\ Go w w').
Proof.
  induction f as [|f (HB & HC & HA & HP & HL)]; [repeat split; intros; discriminate|]. split; [|split; [|split; [|split]]].
  - intros p wk w w' o I T. rewrite poll_block_S. intro E.
    assert (I1 : PI (emit (EPoll p) w)) by (apply PI_emit; cbn; auto).
    assert (G1 : Go w (emit (EPoll p) w)) by (apply Go_emit; cbn; auto).
    destruct (sub w p) as [n|] eqn:S.
    + destruct (pi_sub _ I _ _ S) as (k & b & N). eapply HA in E as [I2 G2]; eauto; [|right; eauto]. split; auto. eapply Go_B; eauto.
    + eapply HC in E as [I2 G2]; eauto. split; auto. eapply Go_B; eauto.
  - intros p wk got w w' o I T. rewrite run_code_S. destruct (code (wx w) p got) as [[x l] nx] eqn:EC.
    destruct (wake_all V X l _) as [w1| | |] eqn:E1; try discriminate. cbn [bind].
    destruct (wake_all_woke l (Tree.set_x V X x (emit (ERun p got) w)) w1) as (ks & W & E2 & X2 & L2 & I2); auto.
    { apply PI_set_x, PI_emit; cbn; auto. }
    cbn in E2, X2, L2.
    assert (W' : woke (tr w) l ks).
    { clear - W. cbn in W. induction W as [|q ws ks M W IH|q ws l ks M C W IH]; [constructor| |].
      - apply woke_none; auto. intro H. apply M. destruct q as [|n i]; cbn in *; auto. destruct H as (k & b & r & H & L). eauto 8.
      - apply woke_one; auto.
        + destruct q as [|n i]; cbn in *; auto. destruct M as (k & b & r & [H|H] & L); [discriminate|eauto 8].
        + eapply chain_mono; [|exact C]. intros n k b r [H|H]; [discriminate|auto]. }
    assert (BASE : forall e, next_event (tr w) p nx e -> forall m x2, plays (e :: tr w1) x m x2 ->
      plays (tr w) (wx w) (ERun p got :: map EWake ks ++ e :: m) x2).
    { intros e N m x2 P. eapply plays_run; eauto. rewrite <- E2. exact P. }
    assert (TR : tr w1 = rev (ERun p got :: map EWake ks) ++ tr w) by (rewrite E2; cbn [rev]; rewrite <- app_assoc; reflexivity).
    destruct nx as [|v| |k b n].
    + intros [= <- <-]. split; auto. exists (ERun p got :: map EWake ks). split; auto. rewrite X2.
      change ((ERun p got :: map EWake ks) ++ [fin p None]) with (ERun p got :: map EWake ks ++ [@EPend V p]).
      apply BASE; [reflexivity|constructor].
    + intros [= <- <-]. split; auto. exists (ERun p got :: map EWake ks). split; auto. rewrite X2.
      change ((ERun p got :: map EWake ks) ++ [fin p (Some v)]) with (ERun p got :: map EWake ks ++ [EDone p v]).
      apply BASE; [reflexivity|constructor].
    + discriminate.
    + intro E3. eapply (HA p wk _ _ _ _ n b) in E3 as [I3 (m & E3 & P3)]; auto; [|apply PI_alloc; auto|left; reflexivity].
      split; auto. cbn in E3, P3. exists (ERun p got :: map EWake ks ++ ENew (length (hp w1)) n b p :: m). split.
      * rewrite E3, TR. cbn [rev]. rewrite rev_app_distr. cbn [rev]. rewrite <- !app_assoc. reflexivity.
      * replace ((ERun p got :: map EWake ks ++ ENew (length (hp w1)) n b p :: m) ++ [fin p o])
          with (ERun p got :: map EWake ks ++ ENew (length (hp w1)) n b p :: (m ++ [fin p o])) by (cbn; now rewrite <- app_assoc).
        apply BASE; [|rewrite <- X2; exact P3]. exists (length (hp w1)). split; auto. intros k' b' p' H.
        destruct (pi_new _ I _ _ _ _ H) as (nd & E & _). assert (length (hp w1) < length (hp w)) by (apply nth_error_Some; congruence). lia.
  - intros p wk n w w' o k b I T N. rewrite await_S. destruct (poll_comb V X ww debug code f n wk w) as [(w1, r)| | |] eqn:E1; try discriminate.
    cbn [bind]. eapply HP in E1 as [I1 G1]; eauto. destruct r as [v|].
    + intro E2. assert (I2 : PI (emit (EGone n v) (Tree.set_sub V X p None w1))).
      { apply PI_emit; cbn; auto. apply PI_set_sub; auto. discriminate. }
      eapply HC in E2 as [I3 G3]; eauto. split; auto. eapply Go_B; [exact G1|]. eapply Go_B; [|exact G3].
      eapply Go_trans; [|apply Go_emit; cbn; auto]. apply Go_same; reflexivity.
    + intros [= <- <-]. split; auto. destruct G1 as (l & E & P). exists l. split; auto. eapply plays_app; eauto.
      apply plays_other; cbn; auto. constructor.
  - intros p wk n w w' o k b I T N. rewrite poll_comb_S. destruct (nth_error (hp w) n) as [nd|] eqn:E; [|discriminate]. cbn [get bind].
    destruct (c_entry V V V (nd_b V nd) (nd_c V nd)) as [[]|]; try discriminate; [intros [= <- <-]; split; [auto|apply Go_refl]|].
    destruct (rd_clear _) as [r2|] eqn:R; [|discriminate]. cbn [get bind]. intro E2.
    assert (OW : owner nd = p).
    { destruct (pi_node _ I _ _ E) as [N' _]. destruct (new_fun _ _ _ _ _ _ _ _ I N N') as (_ & _ & A). auto. }
    apply HL in E2 as [I2 G2].
    + split; auto. eapply Go_trans; [apply set_node_same|exact G2].
    + apply (PI_set_node _ _ _ nd); auto. right. cbn [c_rd set_rd]. rewrite (rd_clear_parent _ _ R), rd_set_parent_task, OW; auto.
  - intros n l w w' o I. rewrite loop_S. destruct (nth_error (hp w) n) as [nd|] eqn:E; [|discriminate]. cbn [get bind]. destruct l as [|i l].
    + destruct (finish V debug (nd_b V nd) (nd_c V nd)) as [v| | |]; try discriminate. cbn [bind]. intros [= <- <-]. split; [auto|apply Go_refl].
    + destruct (nth_error (c_filled V (nd_c V nd)) i) as [[]|]; [|cbn [get bind]|discriminate]; [apply HL; auto|].
      destruct (poll_block V X ww debug code f (Kid n i) _ w) as [(w1, r)| | |] eqn:E1; try discriminate. cbn [bind].
      apply HB in E1 as [I1 G1]; auto; [|reflexivity]. apply B_Go in G1. destruct r as [v|]; cbn [fin] in G1.
      * assert (I2 : PI (emit (EDone (Kid n i) v) w1)) by (apply PI_emit; cbn; auto).
        destruct (b_maybe_return (nd_b V nd) i v) as [o'|s]; [intros [= <- <-]; auto|].
        destruct (nth_error (hp (emit (EDone (Kid n i) v) w1)) n) as [nd2|] eqn:E2; [|discriminate]. cbn [get bind].
        destruct (store V (nd_c V nd2) i s) as [c| | |] eqn:ES; try discriminate. cbn [bind]. intro E3.
        unfold store in ES. destruct (nth_error (c_items V (nd_c V nd2)) i); [|discriminate].
        destruct (c_pending V (nd_c V nd2)); [discriminate|]. injection ES as <-.
        apply HL in E3 as [I3 G3].
        -- split; auto. eapply Go_trans; [exact G1|]. eapply Go_trans; [apply set_node_same|exact G3].
        -- apply (PI_set_node _ _ _ nd2); auto. apply (pi_node _ I2 _ _ E2).
      * intro E3. apply HL in E3 as [I3 G3]; [|apply PI_emit; cbn; auto]. split; auto. eapply Go_trans; eauto.
Qed.

Lemma PI_start x : PI (Tree.start V X x).
Proof. constructor; cbn; [intros n nd E; destruct n; discriminate|contradiction|discriminate]. Qed.
Lemma exec_PI w e w' : PI w -> Tree.exec V X ww debug code w e = Done w' -> PI w'.
Proof.
  intros I. destruct e as [fuel tag|p|g]; cbn [Tree.exec].
  - destruct (w_over V X w); [intros [= <-]; auto|].
    destruct (poll_block V X ww debug code fuel Root _ w) as [(w1, r)| | |] eqn:E; try discriminate. cbn [bind].
    destruct (all_go fuel) as (HB & _). apply HB in E as [I1 _]; auto; [|reflexivity].
    destruct r as [v|]; intros [= <-]; [|apply PI_emit; cbn; auto].
    assert (I2 : PI (emit (EDone Root v) w1)) by (apply PI_emit; cbn; auto). destruct I2 as [A B C]. constructor; auto.
  - intro E. destruct (wake_place_chain _ _ _ I E) as [(_ & l & _ & W)|(_ & ->)]; auto. apply W.
  - intros [= <-]. apply PI_set_x. auto.
Qed.
Lemma run_PI evs : forall w w', PI w -> run_from V X ww debug code w evs = Done w' -> PI w'.
Proof.
  induction evs as [|e evs IH]; intros w w' I; cbn [run_from]; [intros [= <-]; auto|].
  destruct (Tree.exec V X ww debug code w e) as [w1| | |] eqn:E; try discriminate. cbn [bind]. apply IH. eapply exec_PI; eauto.
Qed.
Lemma poll_plays fuel tag w w' : PI w -> w_over V X w = false -> Tree.exec V X ww debug code w (HPoll fuel tag) = Done w' -> Go w w'.
Proof.
  intros I O. cbn [Tree.exec]. rewrite O. destruct (poll_block V X ww debug code fuel Root _ w) as [(w1, r)| | |] eqn:E; try discriminate. cbn [bind].
  destruct (all_go fuel) as (HB & _). apply HB in E as [I1 G1]; auto; [|reflexivity]. apply B_Go in G1.
  destruct r as [v|]; intros [= <-]; auto.
Qed.
End Proofs.
