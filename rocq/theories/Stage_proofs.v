(** Proofs about pages with everything they show. *)
From Coq Require Import List Arith NArith Bool Lia.
From Verif Require Import Arena Spec_arena Readiness Combinator Util Combinator_proofs Tree Tree_proofs Position Dom Context Ui Spec_ui Ui_proofs
  Screen Spec_screen Screen_proofs Executor Executor_proofs Queue Spec_queue Queue_proofs Queue_sim Page Page_proofs Stage Spec_stage Props_screen.
Import ListNotations.

(** ** Dropped tasks *)
Lemma alive_spawned t tr : alive t tr = true -> In (QSpawn t) tr.
Proof.
  induction tr as [|e tr IH]; cbn; [discriminate|]. destruct e; cbn; auto.
  - intro H. apply orb_true_iff in H. destruct H as [H|H]; auto. apply Nat.eqb_eq in H. subst. auto.
  - intro H. apply andb_true_iff in H. destruct H; auto.
Qed.
Lemma dropped_iff t tr : legal tr -> In (QDrop t) tr <-> In (QSpawn t) tr /\ alive t tr = false.
Proof.
  induction tr as [|e tr IH]; cbn [legal In alive]; [tauto|]. intros (E & L). specialize (IH L).
  destruct e as [u|u|u|u|u|u]; cbn [alive]; try (rewrite IH; intuition discriminate).
  - cbn [ev_ok] in E. destruct (Nat.eqb_spec u t) as [->|N].
    + cbn. split; [|intros (_ & H); discriminate H]. intros [H|H]; [discriminate H|]. apply IH in H. tauto.
    + cbn. rewrite IH. split; [intros [H|H]; [discriminate H|tauto]|]. intros ([H|H] & A); [injection H as ->; congruence|tauto].
  - cbn [ev_ok] in E. destruct (Nat.eqb_spec u t) as [->|N].
    + cbn. split; [|auto]. intros _. split; auto. right. apply alive_spawned. tauto.
    + cbn. rewrite IH. split; [intros [H|H]; [injection H as ->; congruence|tauto]|]. intros ([H|H] & A); [discriminate H|tauto].
Qed.
Lemma gone_dropped {V X} c (q : qu (stage V X)) t : QI (stage V X) c q -> gone (stage V X) q t = true <-> In (QDrop t) (q_tr _ q).
Proof.
  intros I. rewrite (dropped_iff t _ (qi_legal _ _ _ I)). rewrite (qi_spawn _ _ _ I), (qi_alive _ _ _ I). unfold gone.
  destruct (Nat.ltb_spec t (q_n _ q)) as [L|L]; destruct (t_gone _); cbn; intuition (try discriminate; lia).
Qed.
Section Proofs.
Variables V X : Type.
Variable ww : waker -> waker -> bool.
Variable debug : bool.
Variable bound : nat.
Variables (root : nat -> Dom.node) (grp0 : nat -> gid) (adr0 : nat -> addr).
Variables (elem : nat -> nat -> Dom.node) (grp : nat -> nat -> gid) (adr_e adr_c : nat -> nat -> addr).
Variable code : nat -> X -> place -> option V -> X * list gact * list uact * next V.
Variable on_drop : nat -> X -> X * list gact.
Hypothesis FEW : all_few code.
Variables (d : dom) (gr : gid -> group).
Hypothesis DW : dom_wf d.
Hypothesis ST : stock d gr root grp0 elem grp.
Notation Z := (X * list gact)%type.
Notation stage := (stage V X). Notation sg_p := (sg_p V X). Notation sg_v := (sg_v V X). Notation sg_u := (sg_u V X). Notation sg_crash := (sg_crash V X).
Notation ustep := (page_step V X ww debug bound (unseen V X code)).
Notation ufin := (page_fin V X on_drop).
Notation sstep := (stage_step V X ww debug bound root grp0 elem grp adr_e adr_c code).
Notation sfin := (stage_fin V X root grp0 adr0 elem grp adr_e adr_c on_drop).
Notation scode t := (stage_code V X code t).
Notation mounted := (mounted root grp0 adr0 elem grp adr_e adr_c).
Notation cur t u := (cur_of (elem t) (grp t) (adr_e t) (adr_c t) u).

Lemma few_t t : few (scode t).
Proof.
  intros z p got x' ws acts k b n. unfold stage_code. intros H. injection H as _ _ _ H.
  destruct (code t (fst z) p got) as [[[x1 l1] a1] n1] eqn:E. cbn in H. subst n1. eapply FEW; eauto.
Qed.
(** the same code, without the rendering *)
Lemma plain_same t : plain (scode t) = block_code V X (unseen V X code) t.
Proof. reflexivity. Qed.

Definition st_of (y : stage) := sg_u y.
(** an application whose future exists *)
Record App (y : stage) (t : nat) : Prop := {
  a_inv : INV V Z (v_fut (sg_v y t)) (pg_t V X (sg_p y) t) (v_log (sg_v y t));
  a_good : good (kids d) (sg_u y) (mounted t (sg_v y t));
  a_nd : NoDup (nodes (cur t (v_fut (sg_v y t))));
  a_gd : NoDup (gids (cur t (v_fut (sg_v y t))));
  a_n : forall n, In n (nodes (cur t (v_fut (sg_v y t)))) -> exists k, n = elem t k /\ k < v_next (sg_v y t);
  a_g : forall n, In n (gids (cur t (v_fut (sg_v y t)))) -> exists k, n = grp t k /\ k < v_next (sg_v y t) }.
Record SI (G : nat -> bool) (y : stage) : Prop := {
  si_wf : dom_wf (rdom (ur (sg_u y)));
  si_drop : udrop (sg_u y) = None;
  si_frag : frag (rdom (ur (sg_u y))) = frag d;
  si_app : forall t, G t = false -> App y t;
  si_new : forall t k, v_next (sg_v y t) <= k -> par (rdom (ur (sg_u y))) (elem t k) = None /\
     kids (rdom (ur (sg_u y))) (elem t k) = kids d (elem t k) /\ rgrp (ur (sg_u y)) (grp t k) = [];
  si_gone : forall t, G t = true -> kids (rdom (ur (sg_u y))) (root t) = kids d (root t);
  si_rest : forall q, (forall t, q <> root t) -> (forall t k, q <> elem t k) -> kids (rdom (ur (sg_u y))) q = kids d q }.
(** dropping its future panics *)
Definition bad (y : stage) (t : nat) : Prop := opens Root (v_log (sg_v y t)) <> [] \/ awaits Root (w_tr V Z (pg_t V X (sg_p y) t)) <> None.
Definition Rel (G : nat -> bool) (y : stage) : Prop :=
  (sg_crash y = true /\ exists t, G t = true /\ bad y t) \/
  (sg_crash y = false /\ SI G y /\ forall t, G t = true -> ~ bad y t).

Lemma rel_ext G G' y : (forall t, G t = G' t) -> Rel G y -> Rel G' y.
Proof.
  intros E [(C & t & GT & B)|(C & [] & B)]; [left; split; auto; exists t; rewrite <- E; auto|right]. split; auto. split; [constructor; auto|].
  - intros t H. apply si_app0. rewrite E. auto.
  - intros t H. apply si_gone0. rewrite E. auto.
  - intros t H. apply B. rewrite E. auto.
Qed.
Lemma bad_same y y' t : sg_v y' t = sg_v y t -> mild V Z (pg_t V X (sg_p y) t) (pg_t V X (sg_p y') t) -> bad y' t <-> bad y t.
Proof. intros E (_ & _ & _ & A). unfold bad. rewrite E, A. tauto. Qed.
Lemma bad_new y y' t : sg_v y' t = sg_v y t -> mild V Z (pg_t V X (sg_p y) t) (pg_t V X (sg_p y') t) -> bad y t -> bad y' t.
Proof. intros E M. apply (bad_same y y' t E M). Qed.
Lemma bad_old y y' t : sg_v y' t = sg_v y t -> mild V Z (pg_t V X (sg_p y) t) (pg_t V X (sg_p y') t) -> bad y' t -> bad y t.
Proof. intros E M. apply (bad_same y y' t E M). Qed.

(** ** Waking blocks and changing the state does not matter *)
Lemma mild_sym_x (w : world V Z) z : mild V Z w (Tree.set_x V Z z w).
Proof. apply mild_set_x. Qed.
Definition quiet (p p' : page V X) : Prop := forall t, mild V Z (pg_t V X p t) (pg_t V X p' t).
Lemma quiet_refl p : quiet p p.
Proof. intro t. apply mild_refl. Qed.
Lemma quiet_trans p q r : quiet p q -> quiet q r -> quiet p r.
Proof. intros A B t. eapply mild_trans; [apply A|apply B]. Qed.
Lemma gact_quiet a p : quiet p (fst (do_gact V X a p)).
Proof.
  destruct a as [t q| | | |]; cbn [do_gact fst]; try apply quiet_refl.
  destruct (wake_place V Z (pg_t V X p t) q) as [w| | |] eqn:E; cbn [fst]; try (intro u; apply mild_refl).
  intro u. cbn. destruct (Nat.eqb_spec u t) as [Q|]; [subst u|apply mild_refl]. eapply wake_place_mild; eauto.
Qed.
Lemma gacts_quiet l : forall p, quiet p (fst (do_gacts V X l p)).
Proof.
  induction l as [|a l IH]; intro p; cbn [do_gacts]; [apply quiet_refl|].
  pose proof (gact_quiet a p) as A. destruct (do_gact V X a p) as [p1 l1]. specialize (IH p1).
  destruct (do_gacts V X l p1) as [p2 l2]. cbn [fst] in *. eapply quiet_trans; eauto.
Qed.
Lemma si_quiet G y p' : quiet (sg_p y) p' -> SI G y -> SI G (with_p V X p' y).
Proof.
  intros Q [A B C D E F H]. constructor; auto. intros t GT. destruct (D t GT) as [I1 I2 I3 I4 I5 I6]. constructor; auto.
  cbn [Stage.sg_v Stage.sg_p with_p]. eapply mild_INV; [apply Q|exact I1].
Qed.
Lemma rel_quiet G y p' : quiet (sg_p y) p' -> Rel G y -> Rel G (with_p V X p' y).
Proof.
  intros Q [(C & t & GT & B)|(C & S & B)].
  - left. split; [exact C|]. exists t. split; auto. apply (bad_new y); [reflexivity| |exact B]. apply Q.
  - right. split; [exact C|]. split; [apply si_quiet; auto|]. intros t GT BT. apply (B t GT). eapply bad_old; [| |exact BT]; [reflexivity|apply Q].
Qed.

(** ** What one application does to the document leaves the others alone *)
Definition mine (t : nat) (q : Dom.node) : Prop := q = root t \/ exists k, q = elem t k.
Definition mineg (t : nat) (h : gid) : Prop := h = grp0 t \/ exists k, h = grp t k.
Lemma mine_other t u q : t <> u -> mine t q -> mine u q -> False.
Proof.
  destruct ST as (R & E & ER & _). intros N [->|(k & ->)] [H|(k' & H)].
  - apply N. auto.
  - symmetry in H. apply ER in H. auto.
  - apply ER in H. auto.
  - apply E in H. tauto.
Qed.
Lemma mineg_other t u q : t <> u -> mineg t q -> mineg u q -> False.
Proof.
  destruct ST as (_ & _ & _ & R & E & ER & _). intros N [->|(k & ->)] [H|(k' & H)].
  - apply N. auto.
  - symmetry in H. apply ER in H. auto.
  - apply ER in H. auto.
  - apply E in H. tauto.
Qed.
Lemma app_frame y t N Gs st' : App y t -> frame N Gs (sg_u y) st' ->
  (forall q, In q N -> mine t q -> False) -> (forall h, In h Gs -> mineg t h -> False) ->
  good (kids d) st' (mounted t (sg_v y t)).
Proof.
  intros A FR H1 H2. eapply good_keeps; [|apply A]. eapply frame_keeps; [exact FR| |]; cbn [Stage.mounted mount nodes gids].
  - intros q [<-|I] J; [apply (H1 _ J); left; auto|]. apply (a_n _ _ A) in I. destruct I as (k & -> & _). apply (H1 _ J). right. eauto.
  - intros q [<-|I] J; [apply (H2 _ J); left; auto|]. apply (a_g _ _ A) in I. destruct I as (k & -> & _). apply (H2 _ J). right. eauto.
Qed.

Lemma nd_elems t nx m : NoDup (map (elem t) (seq nx m)) /\ NoDup (map (grp t) (seq nx m)).
Proof.
  destruct ST as (_ & E & _ & _ & E' & _). split; (apply FinFun.Injective_map_NoDup; [|apply seq_NoDup]); intros i j H.
  - apply E in H. tauto.
  - apply E' in H. tauto.
Qed.
(** a poll of one application *)
Lemma poll_app G y t sl nx' : SI G y -> G t = false -> makes (elem t) (grp t) (v_next (sg_v y t)) nx' (flat_map created sl) ->
  exists ch' st', poll_root sl (mounted t (sg_v y t)) (sg_u y) = Some (mount (root t) (grp0 t) (adr0 t) ch', st') /\
    good (kids d) st' (mount (root t) (grp0 t) (adr0 t) ch') /\ udrop st' = None /\
    NoDup (nodes ch') /\ NoDup (gids ch') /\
    (forall n, In n (nodes ch') -> exists k, n = elem t k /\ k < nx') /\ (forall n, In n (gids ch') -> exists k, n = grp t k /\ k < nx') /\
    frame (root t :: nodes (cur t (v_fut (sg_v y t))) ++ map (elem t) (seq (v_next (sg_v y t)) (nx' - v_next (sg_v y t))))
          (grp0 t :: gids (cur t (v_fut (sg_v y t))) ++ map (grp t) (seq (v_next (sg_v y t)) (nx' - v_next (sg_v y t)))) (sg_u y) st'.
Proof.
  intros S GT (LE & MN & MG & MU). pose proof (si_app _ _ S t GT) as A. set (v := sg_v y t) in *.
  destruct (nd_elems t (v_next v) (nx' - v_next v)) as (ND1 & ND2). destruct ST as (R & E & ER & R' & E' & ER' & FR & EP & _).
  destruct (poll_root_ok (kids d) sl (root t) (grp0 t) (adr0 t) (FBlock (cur t (v_fut v))) (sg_u y) (a_good _ _ A) (si_drop _ _ S))
    as (ch' & st' & P & GD & U & N1 & N2 & I1 & I2 & F).
  - apply Forall_forall. intros f Hf. rewrite Forall_forall in MU. specialize (MU f Hf). split; [|apply unpolled_unadded; auto].
    apply unpolled_good; auto; [apply S| |].
    + intros n Hn. assert (I : In n (flat_map nodes (flat_map created sl))) by (apply in_flat_map; eauto). rewrite MN in I.
      apply in_map_iff in I. destruct I as (k & <- & I). apply in_seq in I. destruct (si_new _ _ S t k) as (B1 & B2 & _); [fold v; lia|].
      rewrite (si_frag _ _ S). split; [apply EP|auto].
    + intros n Hn. assert (I : In n (flat_map gids (flat_map created sl))) by (apply in_flat_map; eauto). rewrite MG in I.
      apply in_map_iff in I. destruct I as (k & <- & I). apply in_seq in I. apply (si_new _ _ S t k). fold v. lia.
  - rewrite MN. cbn [nodes]. constructor.
    + intro H. apply in_app_iff in H. destruct H as [H|H].
      * apply (a_n _ _ A) in H. destruct H as (k & H & _). symmetry in H. exact (ER _ _ _ H).
      * apply in_map_iff in H. destruct H as (k & H & _). exact (ER _ _ _ H).
    + apply nodup_app_intro; [apply A|exact ND1|]. intros q H1 H2. apply (a_n _ _ A) in H1. destruct H1 as (k & -> & L).
      apply in_map_iff in H2. destruct H2 as (k' & H2 & L'). apply E in H2. apply in_seq in L'. fold v in L. lia.
  - rewrite MG. cbn [gids]. constructor.
    + intro H. apply in_app_iff in H. destruct H as [H|H].
      * apply (a_g _ _ A) in H. destruct H as (k & H & _). symmetry in H. exact (ER' _ _ _ H).
      * apply in_map_iff in H. destruct H as (k & H & _). exact (ER' _ _ _ H).
    + apply nodup_app_intro; [apply A|exact ND2|]. intros q H1 H2. apply (a_g _ _ A) in H1. destruct H1 as (k & -> & L).
      apply in_map_iff in H2. destruct H2 as (k' & H2 & L'). apply E' in H2. apply in_seq in L'. fold v in L. lia.
  - rewrite MN in I1, F. rewrite MG in I2, F. exists ch', st'. split; [exact P|]. split; auto. split; auto.
    inversion N1; subst. inversion N2; subst. split; auto. split; auto. split; [|split; [|exact F]].
    + intros n Hn. apply I1, in_app_iff in Hn. destruct Hn as [Hn|Hn].
      * apply (a_n _ _ A) in Hn. destruct Hn as (k & -> & L). exists k. split; auto. fold v in L. lia.
      * apply in_map_iff in Hn. destruct Hn as (k & <- & L). apply in_seq in L. exists k. split; auto. lia.
    + intros n Hn. apply I2, in_app_iff in Hn. destruct Hn as [Hn|Hn].
      * apply (a_g _ _ A) in Hn. destruct Hn as (k & -> & L). exists k. split; auto. fold v in L. lia.
      * apply in_map_iff in Hn. destruct Hn as (k & <- & L). apply in_seq in L. exists k. split; auto. lia.
Qed.
(** the invariant after application [t] has changed the document, within what is its own *)
Lemma si_step G y t N Gs st' y' : SI G y -> frame N Gs (sg_u y) st' ->
  (forall q, In q N -> mine t q) -> (forall h, In h Gs -> mineg t h) ->
  sg_u y' = st' -> udrop st' = None ->
  (forall u, u <> t -> sg_v y' u = sg_v y u /\ mild V Z (pg_t V X (sg_p y) u) (pg_t V X (sg_p y') u)) ->
  v_next (sg_v y t) <= v_next (sg_v y' t) ->
  (forall k, v_next (sg_v y' t) <= k -> ~ In (elem t k) N /\ ~ In (grp t k) Gs) ->
  forall G', (forall u, u <> t -> G' u = G u) ->
  (G' t = false -> App y' t) -> (G' t = true -> kids (rdom (ur st')) (root t) = kids d (root t)) ->
  SI G' y'.
Proof.
  intros S FR HN HG EU UD OTH LE NEW G' GG AT KT.
  assert (DN : forall u q, u <> t -> mine u q -> ~ In q N) by (intros u q NE M I; eapply mine_other; [exact NE|exact M|auto]).
  assert (DG : forall u q, u <> t -> mineg u q -> ~ In q Gs) by (intros u q NE M I; eapply mineg_other; [exact NE|exact M|auto]).
  constructor; rewrite ?EU.
  - apply FR.
  - exact UD.
  - rewrite (fr_frag _ _ _ _ FR). apply S.
  - intros u GU. destruct (Nat.eq_dec u t) as [Q|NE]; [subst u; auto|]. destruct (OTH u NE) as (EV & M). rewrite (GG u NE) in GU.
    pose proof (si_app _ _ S u GU) as A. constructor; rewrite ?EV; try apply A.
    + eapply mild_INV; [exact M|apply A].
    + rewrite EU. eapply app_frame; [exact A|exact FR| |].
      * intros q I M'. eapply DN; eauto.
      * intros q I M'. eapply DG; eauto.
  - intros u k L. destruct (Nat.eq_dec u t) as [Q|NE].
    + subst u. destruct (NEW k L) as (I1 & I2). rewrite (fr_par _ _ _ _ FR), (fr_kids _ _ _ _ FR), (fr_grp _ _ _ _ FR) by auto. apply S. lia.
    + destruct (OTH u NE) as (EV & _). rewrite EV in L.
      rewrite (fr_par _ _ _ _ FR), (fr_kids _ _ _ _ FR), (fr_grp _ _ _ _ FR); [apply S; auto| | |].
      * apply (DG u); auto. right. eauto.
      * apply (DN u); auto. right. eauto.
      * apply (DN u); auto. right. eauto.
  - intros u GU. destruct (Nat.eq_dec u t) as [Q|NE]; [subst u; auto|]. rewrite (GG u NE) in GU.
    rewrite (fr_kids _ _ _ _ FR); [apply S; auto|]. apply (DN u); auto. left. auto.
  - intros q Q1 Q2. rewrite (fr_kids _ _ _ _ FR); [apply S; auto|]. intro I. destruct (HN q I) as [->|(k & ->)]; [eapply Q1|eapply Q2]; reflexivity.
Qed.

(** a poll of one application, without what it shows, leaves the others alone *)
Lemma ustep_others t p p' l o : ustep t p = (p', l, o) -> forall u, u <> t -> mild V Z (pg_t V X p u) (pg_t V X p' u).
Proof.
  unfold page_step. destruct (Tree.exec V Z ww debug (block_code V X (unseen V X code) t) _ _) as [w'| | |];
    try (intros [= <- <- <-] u NE; apply mild_refl).
  pose proof (gacts_quiet (snd (w_x V Z w')) (mkPg V X (pg_t V X (set_app V X t w' p)) (fst (w_x V Z w')) (pg_fault V X p))) as Q.
  destruct (do_gacts V X (snd (w_x V Z w')) _) as [p2 l2]. cbn [fst] in Q. intros [= <- <- <-] u NE. specialize (Q u). cbn in Q.
  destruct (Nat.eqb_spec u t) as [|_]; [contradiction|exact Q].
Qed.
Lemma step_sim G t y : Rel G y -> G t = false -> forall y' l o, sstep t y = (y', l, o) ->
  ustep t (sg_p y) = (sg_p y', l, o) /\ (o <> Panics -> Rel G y').
Proof.
  intros R GT y' l o. unfold stage_step. destruct (sg_crash y) eqn:C.
  - destruct (ustep t (sg_p y)) as [[p' l'] o'] eqn:E. intros [= <- <- <-]. split; [reflexivity|]. intros _. left. split; [exact C|].
    destruct R as [(_ & u & GU & B)|(C' & _)]; [|congruence]. exists u. split; auto. apply (bad_new y); [reflexivity| |exact B].
    apply (ustep_others _ _ _ _ _ E). intros ->. congruence.
  - destruct R as [(R & _)|(_ & S & NB)]; [congruence|]. set (w := Tree.set_x V Z (pg_x V X (sg_p y), []) (pg_t V X (sg_p y) t)).
    pose proof (si_app _ _ S t GT) as A. set (v := sg_v y t) in *.
    assert (I0 : INV V Z (v_fut v) w (v_log v)) by (eapply mild_INV; [apply mild_set_x|apply A]).
    destruct (Screen_proofs.exec_ok V Z ww debug (elem t) (grp t) (adr_e t) (adr_c t) (scode t) (few_t t) (root t) (grp0 t) (adr0 t) (HPoll bound 0) (v_fut v) w (v_next v) (v_log v) I0)
      as (sl & nx' & lg' & u' & MK & E & RR).
    destruct (poll_app G y t sl nx' S GT MK) as (ch' & st' & P & GD & U & N1 & N2 & I1 & I2 & F). fold v in F, P.
    rewrite E. unfold Stage.mounted in P. rewrite P. unfold whole. unfold page_step. fold w.
    rewrite plain_same. rewrite plain_same in RR.
    destruct (Tree.exec V Z ww debug (block_code V X (unseen V X code) t) w (HPoll bound 0)) as [w'| | |] eqn:T.
    2,3,4: intros [= <- <- <-]; split; [reflexivity|congruence].
    destruct (RR w' eq_refl) as (I' & CU). specialize (CU _ _ _ P). cbn [s_w s_u s_next s_log].
    pose proof (gacts_quiet (snd (w_x V Z w')) (mkPg V X (pg_t V X (set_app V X t w' (sg_p y))) (fst (w_x V Z w')) (pg_fault V X (sg_p y)))) as Q.
    destruct (do_gacts V X (snd (w_x V Z w')) _) as [p2 l2]. cbn [fst] in Q. intros [= <- <- <-]. split; [reflexivity|]. intros _. right. split; [reflexivity|].
    injection CU as CU. rewrite CU in *. clear CU ch'.
    assert (OTH : forall u, u <> t -> (if Nat.eqb u t then mkV u' nx' lg' else sg_v y u) = sg_v y u /\ mild V Z (pg_t V X (sg_p y) u) (pg_t V X p2 u)).
    { intros u NE. specialize (Q u). cbn in Q. destruct (Nat.eqb_spec u t) as [|_]; [contradiction|]. split; [reflexivity|exact Q]. }
    split; [|intros u GU BU; apply (NB u GU); eapply bad_old; [| |exact BU]; cbn [Stage.sg_v Stage.sg_p]; apply OTH; intros ->; congruence].
    eapply (si_step G y t _ _ st'); [exact S|exact F| | |reflexivity|exact U| | | |reflexivity| |]; cbn [Stage.sg_v Stage.sg_u Stage.sg_p].
    + intros q [<-|H]; [left; auto|]. right. apply in_app_iff in H. destruct H as [H|H].
      * apply (a_n _ _ A) in H. destruct H as (k & -> & _). eauto.
      * apply in_map_iff in H. destruct H as (k & <- & _). eauto.
    + intros q [<-|H]; [left; auto|]. right. apply in_app_iff in H. destruct H as [H|H].
      * apply (a_g _ _ A) in H. destruct H as (k & -> & _). eauto.
      * apply in_map_iff in H. destruct H as (k & <- & _). eauto.
    + exact OTH.
    + rewrite Nat.eqb_refl. cbn [v_next]. apply MK.
    + rewrite Nat.eqb_refl. cbn [v_next]. intros k L. destruct ST as (_ & EI & ER & _ & EI' & ER' & _). destruct MK as (LE & _). split.
      * intros [H|H]; [symmetry in H; exact (ER _ _ _ H)|]. apply in_app_iff in H. destruct H as [H|H].
        -- apply (a_n _ _ A) in H. destruct H as (k' & H & L'). apply EI in H. fold v in L'. lia.
        -- apply in_map_iff in H. destruct H as (k' & H & L'). apply EI in H. apply in_seq in L'. lia.
      * intros [H|H]; [symmetry in H; exact (ER' _ _ _ H)|]. apply in_app_iff in H. destruct H as [H|H].
        -- apply (a_g _ _ A) in H. destruct H as (k' & H & L'). apply EI' in H. fold v in L'. lia.
        -- apply in_map_iff in H. destruct H as (k' & H & L'). apply EI' in H. apply in_seq in L'. lia.
    + intros _. constructor; cbn [Stage.sg_v Stage.sg_u Stage.sg_p]; rewrite Nat.eqb_refl; cbn [v_fut v_log v_next]; auto.
      eapply mild_INV; [|exact I']. specialize (Q t). cbn in Q. rewrite Nat.eqb_refl in Q. exact Q.
    + congruence.
Qed.

Lemma page_fin_quiet t p : quiet p (fst (ufin t p)).
Proof.
  unfold page_fin. destruct (on_drop t (pg_x V X p)) as [x l].
  apply (gacts_quiet l (mkPg V X (pg_t V X p) x (pg_fault V X p))).
Qed.
(** dropping the future of an application *)
Lemma unmount_app G y t : SI G y -> G t = false ->
  (touches (cur t (v_fut (sg_v y t))) = true -> unmount (mounted t (sg_v y t)) (sg_u y) = None) /\
  (touches (cur t (v_fut (sg_v y t))) = false -> exists st', unmount (mounted t (sg_v y t)) (sg_u y) = Some st' /\
     kids (rdom (ur st')) (root t) = kids d (root t) /\ udrop st' = None /\
     frame (root t :: nodes (cur t (v_fut (sg_v y t)))) (grp0 t :: gids (cur t (v_fut (sg_v y t)))) (sg_u y) st').
Proof.
  intros S GT. pose proof (si_app _ _ S t GT) as A. split; intro T.
  - apply drop_touch; [exact T|apply S].
  - unfold unmount, Stage.mounted, mount. rewrite drop_elem_eq. unfold drop_own.
    assert (N1 : ~ In (root t) (nodes (FBlock (cur t (v_fut (sg_v y t)))))).
    { intro H. cbn [nodes] in H. apply (a_n _ _ A) in H. destruct H as (k & H & _). symmetry in H. destruct ST as (_ & _ & ER & _). exact (ER _ _ _ H). }
    assert (N2 : ~ In (grp0 t) (gids (FBlock (cur t (v_fut (sg_v y t)))))).
    { intro H. cbn [gids] in H. apply (a_g _ _ A) in H. destruct H as (k & H & _). symmetry in H. destruct ST as (_ & _ & _ & _ & _ & ER & _). exact (ER _ _ _ H). }
    destruct (empty_own_group (kids d) (sg_u y) (root t) (grp0 t) _ (adr0 t) ShouldNotAdd (a_good _ _ A) N1 N2) as (r & Er & G' & FR & K).
    rewrite Er. destruct (drop_quiet (kids d) (FBlock (cur t (v_fut (sg_v y t)))) (with_r (sg_u y) r)) as (s & D' & FR' & U'); auto.
    + apply FR.
    + apply S.
    + apply A.
    + apply A.
    + rewrite D'. eexists; split; [reflexivity|].
      assert (B : ur (blocker_drop (adr0 t) s) = ur s) by (unfold blocker_drop; destruct (udrop s) as [b|]; auto; destruct (Nat.eqb b (adr0 t)); auto).
      split; [rewrite B, (fr_kids _ _ _ _ FR') by auto; exact K|]. split; [apply blocker_drop_none; auto|].
      assert (F1 : frame (root t :: nodes (cur t (v_fut (sg_v y t)))) (grp0 t :: gids (cur t (v_fut (sg_v y t)))) (sg_u y) s).
      { eapply frame_trans; [exact FR|]. eapply frame_mono; [exact FR'| |]; intros q H; right; exact H. }
      destruct F1 as [F1 F2 F3 F4 F5]. constructor; rewrite ?B; auto.
Qed.
Lemma fin_sim G t y : Rel G y -> G t = false -> forall y' l, sfin t y = (y', l) ->
  ufin t (sg_p y) = (sg_p y', l) /\ Rel (fun u => if Nat.eqb u t then true else G u) y'.
Proof.
  intros R GT y' l. unfold stage_fin. pose proof (page_fin_quiet t (sg_p y)) as Q. destruct (ufin t (sg_p y)) as [p' l'] eqn:E. cbn [fst] in Q.
  destruct (sg_crash y) eqn:C.
  - intros [= <- <-]. split; [reflexivity|]. left. split; [exact C|]. destruct R as [(_ & u & GU & B)|(C' & _)]; [|congruence].
    exists u. split; [destruct (Nat.eqb u t); auto|]. apply (bad_new y); [reflexivity|apply Q|exact B].
  - destruct R as [(R & _)|(_ & S & NB)]; [congruence|]. destruct (unmount_app G y t S GT) as (H1 & H2).
    pose proof (si_app _ _ S t GT) as A. destruct (a_inv _ _ A) as (_ & FI & _).
    pose proof (touches_cur V Z (elem t) (grp t) (adr_e t) (adr_c t) _ _ _ FI) as TC.
    destruct (touches (cur t (v_fut (sg_v y t)))) eqn:T.
    + rewrite H1 by auto. intros [= <- <-]. split; [reflexivity|]. left. split; [reflexivity|]. exists t. rewrite Nat.eqb_refl. split; auto.
      apply (bad_new y); [reflexivity|apply Q|]. apply TC. reflexivity.
    + destruct H2 as (st' & -> & K & U & F); auto. intros [= <- <-]. split; [reflexivity|]. right. split; [reflexivity|].
      split; [|intros u GU BU; assert (B' : bad y u) by (eapply bad_old; [| |exact BU]; [reflexivity|apply Q]);
        destruct (Nat.eqb_spec u t) as [Q1|_]; [rewrite Q1 in B'; apply TC in B'; discriminate B'|exact (NB u GU B')]].
      destruct ST as (_ & EI & ER & _ & EI' & ER' & _).
      eapply (si_step G y t _ _ st'); [exact S|exact F| | |reflexivity|exact U| | | | | |]; cbn [Stage.sg_v Stage.sg_u Stage.sg_p].
      * intros q [<-|H]; [left; auto|]. right. apply (a_n _ _ A) in H. destruct H as (k & -> & _). eauto.
      * intros q [<-|H]; [left; auto|]. right. apply (a_g _ _ A) in H. destruct H as (k & -> & _). eauto.
      * intros u NE. split; [reflexivity|]. apply Q.
      * auto.
      * intros k L. split.
        -- intros [H|H]; [symmetry in H; exact (ER _ _ _ H)|]. apply (a_n _ _ A) in H. destruct H as (k' & H & L'). apply EI in H. lia.
        -- intros [H|H]; [symmetry in H; exact (ER' _ _ _ H)|]. apply (a_g _ _ A) in H. destruct H as (k' & H & L'). apply EI' in H. lia.
      * intros u NE. destruct (Nat.eqb_spec u t) as [|_]; [contradiction|reflexivity].
      * rewrite Nat.eqb_refl. discriminate.
      * intros _. exact K.
Qed.
Lemma start_si x : SI (fun _ => false) (stage0 V X d gr x).
Proof.
  destruct ST as (R & E & ER & R' & E' & ER' & FR & EP & G0 & GE). constructor; cbn; auto; try discriminate.
  - intros t _. constructor; cbn [Stage.sg_v Stage.sg_u Stage.sg_p stage0 v_fut v_next v_log].
    + apply start_INV.
    + split; [apply FR|]. split; [discriminate|]. split; [|split; [|exact I]].
      * unfold pic, Context_proofs.picture. cbn. rewrite G0. cbn. rewrite app_nil_r. split; auto. split; auto. constructor.
      * intros q v. unfold sh. cbn. rewrite G0. cbn. tauto.
    + constructor.
    + constructor.
    + intros n [].
    + intros n [].
  - intros t k _. split; [apply EP|]. split; auto.
Qed.

(** ** Whole histories *)
Notation strun := (strun V X ww debug bound root grp0 adr0 elem grp adr_e adr_c code on_drop d gr).
Notation stexec := (stexec V X ww debug bound root grp0 adr0 elem grp adr_e adr_c code on_drop).
Notation uprun := (prun V X ww debug bound (unseen V X code) on_drop).
Notation OKR := (OKR stage Rel).
Lemma dos_sim (l : list (option tact)) : forall r, OKR r ->
  fold_left (xexec (page V X) ustep ufin) (flat_map (fun o => match o with Some b => [XDo b] | None => [] end) l) (blind r) =
    blind (fold_left (xexec stage sstep sfin) (flat_map (fun o => match o with Some b => [XDo b] | None => [] end) l) r) /\
  OKR (fold_left (xexec stage sstep sfin) (flat_map (fun o => match o with Some b => [XDo b] | None => [] end) l) r).
Proof.
  induction l as [|[a|] l IH]; intros r O; cbn [flat_map app fold_left]; auto.
  destruct (xexec_sim (page V X) stage ustep ufin sstep sfin sg_p Rel rel_ext step_sim fin_sim r (XDo a) (XDo a) O) as (E & O').
  { intros s _. reflexivity. }
  change (fr (page V X) stage sg_p r) with (blind r) in E. rewrite E. apply IH. exact O'.
Qed.
Lemma stexec_sim r e : OKR r -> pexec V X ww debug bound (unseen V X code) on_drop (blind r) e = blind (stexec r e) /\ OKR (stexec r e).
Proof.
  intros O. assert (K : forall s, r = Live s \/ r = Crashed s ->
    fold_left (xexec (page V X) ustep ufin) (pevents V X (sg_p (q_x _ (xs _ s))) e) (blind r) = blind (fold_left (xexec stage sstep sfin) (sevents V X (q_x _ (xs _ s)) e) r) /\
    OKR (fold_left (xexec stage sstep sfin) (sevents V X (q_x _ (xs _ s)) e) r)).
  { intros s RS. assert (SA : forall s', r = Live s' \/ r = Crashed s' -> s' = s) by (intros s' [->| ->]; destruct RS as [RS|RS]; congruence).
    assert (ENV : forall p', quiet (sg_p (q_x _ (xs _ s))) p' ->
       xexec (page V X) ustep ufin (blind r) (XEnv (fun _ => p')) = blind (xexec stage sstep sfin r (XEnv (fun _ => with_p V X p' (q_x _ (xs _ s))))) /\
       OKR (xexec stage sstep sfin r (XEnv (fun _ => with_p V X p' (q_x _ (xs _ s)))))).
    { intros p' Q. apply (xexec_sim (page V X) stage ustep ufin sstep sfin sg_p Rel rel_ext step_sim fin_sim r); auto.
      intros s' RS'. rewrite (SA s' RS'). split; [reflexivity|]. intros G. apply rel_quiet. exact Q. }
    destruct e as [a|f|n|n]; cbn [pevents sevents].
    - pose proof (gact_quiet a (sg_p (q_x _ (xs _ s)))) as Q. destruct (do_gact V X a _) as [p' l]. cbn [fst] in Q. cbn [fold_left].
      destruct (ENV p' Q) as (E & O'). rewrite E. apply dos_sim. exact O'.
    - destruct (f (pg_x V X (sg_p (q_x _ (xs _ s))))) as [x a].
      pose proof (gacts_quiet a (mkPg V X (pg_t V X (sg_p (q_x _ (xs _ s)))) x (pg_fault V X (sg_p (q_x _ (xs _ s)))))) as Q.
      destruct (do_gacts V X a _) as [p' l]. cbn [fst] in Q. cbn [fold_left].
      destruct (ENV p' Q) as (E & O'). rewrite E. apply dos_sim. exact O'.
    - cbn [fold_left]. apply (xexec_sim (page V X) stage ustep ufin sstep sfin sg_p Rel rel_ext step_sim fin_sim r); auto. intros s' _. reflexivity.
    - cbn [fold_left]. apply (xexec_sim (page V X) stage ustep ufin sstep sfin sg_p Rel rel_ext step_sim fin_sim r); auto. intros s' _. reflexivity. }
  destruct r as [s|s|]; cbn [blind pexec Stage.stexec]; [apply (K s); auto|apply (K s); auto|split; [reflexivity|exact Logic.I]].
Qed.
Lemma strun_sim x evs : uprun x evs = blind (strun x evs) /\ OKR (strun x evs).
Proof.
  unfold prun, Stage.strun.
  assert (O : OKR (Live (start _ (q_start _ (stage0 V X d gr x))))).
  { cbn. split.
    - split; [apply start_qi|]. right. intros [].
    - right. split; [reflexivity|]. split; [apply start_si|discriminate]. }
  change (Live (start (qu (page V X)) (q_start (page V X) (page0 V X x)))) with (blind (Live (start _ (q_start _ (stage0 V X d gr x))))).
  revert O. generalize (Live (start _ (q_start _ (stage0 V X d gr x)))). induction evs as [|e evs IH]; intros r O; cbn [fold_left]; auto.
  destruct (stexec_sim r e O) as (E & O'). rewrite E. apply IH. exact O'.
Qed.

(** ** The record of what is rendered *)
Section Record.
Variable rec : X -> nat -> list dev.
Variable evs0 : list (pev X).
Hypothesis REC : all_record code on_drop evs0 rec.
Definition TA (y : stage) : Prop := sg_crash y = true \/
  forall u, v_log (sg_v y u) = rec (pg_x V X (sg_p y)) u /\ v_next (sg_v y u) = made (v_log (sg_v y u)).
Lemma gact_x a p : pg_x V X (fst (do_gact V X a p)) = pg_x V X p.
Proof. destruct a as [t q| | | |]; cbn [do_gact fst]; auto. destruct (wake_place _ _ _ _); reflexivity. Qed.
Lemma gacts_x l : forall p, pg_x V X (fst (do_gacts V X l p)) = pg_x V X p.
Proof.
  induction l as [|a l IH]; intro p; cbn [do_gacts]; auto. pose proof (gact_x a p) as A. destruct (do_gact V X a p) as [p1 l1].
  specialize (IH p1). destruct (do_gacts V X l p1) as [p2 l2]. cbn [fst] in *. congruence.
Qed.
Lemma ta_step t y y' l o : TA y -> sstep t y = (y', l, o) -> o <> Panics -> TA y'.
Proof.
  intros T. unfold stage_step. destruct (sg_crash y) eqn:C.
  { destruct (page_step _ _ _ _ _ _ t (sg_p y)) as [[p' l'] o']. intros [= <- <- <-] _. left. exact C. }
  destruct T as [T|T]; [congruence|].
  set (w := Tree.set_x V Z (pg_x V X (sg_p y), []) (pg_t V X (sg_p y) t)).
  destruct (Screen.exec _ _ _ _ _ _ _ _ _ _ _ _ _) as [(u', s')| | |] eqn:E; try (intros [= <- <- <-] N; congruence).
  pose proof (gacts_x (snd (w_x V Z (s_w V Z s'))) (mkPg V X (pg_t V X (set_app V X t (s_w V Z s') (sg_p y))) (fst (w_x V Z (s_w V Z s'))) (pg_fault V X (sg_p y)))) as GX.
  destruct (do_gacts V X _ _) as [p2 l2]. cbn [fst pg_x] in GX. intros [= <- <- <-] _. right.
  assert (R : records (scode t) (fun z => rec (fst z) t)).
  { intros z p got. unfold stage_code. pose proof (proj1 REC t (fst z) p got) as R. destruct (code t (fst z) p got) as [[[x1 l1] a1] n1].
    cbn. apply (R _ _ _ _ eq_refl). }
  assert (KP : forall z p got, (forall u, u <> t -> rec (fst z) u = rec (pg_x V X (sg_p y)) u) ->
     forall u, u <> t -> rec (fst (fst (fst (fst (scode t z p got))))) u = rec (pg_x V X (sg_p y)) u).
  { intros z p got H u NE. rewrite <- (H u NE). unfold stage_code. pose proof (proj1 REC t (fst z) p got) as RR. destruct (code t (fst z) p got) as [[[x1 l1] a1] n1].
    cbn. apply (RR _ _ _ _ eq_refl). exact NE. }
  pose proof (run_told V Z ww debug (elem t) (grp t) (adr_e t) (adr_c t) (scode t) _ R _ KP (root t) (grp0 t) [HPoll bound 0] (v_fut (sg_v y t))
    (mkS V Z w (sg_u y) (v_next (sg_v y t)) (v_log (sg_v y t))) u' s') as RT.
  destruct RT as (T1 & T2 & T3).
  - repeat constructor.
  - repeat constructor.
  - cbn [run_from]. rewrite E. reflexivity.
  - destruct (T t) as (A & B). split; [exact A|]. split; [exact B|]. reflexivity.
  - intro u. cbn [Stage.sg_v Stage.sg_p]. rewrite GX. destruct (Nat.eqb_spec u t) as [Q|NE].
    + rewrite Q. cbn [v_log v_next]. split; [exact T1|exact T2].
    + rewrite (T3 u NE). apply T.
Qed.
Lemma ta_fin t y y' l : TA y -> sfin t y = (y', l) -> TA y'.
Proof.
  intros T. unfold stage_fin. assert (X1 : forall u, rec (pg_x V X (fst (ufin t (sg_p y)))) u = rec (pg_x V X (sg_p y)) u).
  { intro u. unfold page_fin. pose proof (proj1 (proj2 REC) t (pg_x V X (sg_p y)) u) as R. destruct (on_drop t (pg_x V X (sg_p y))) as [x1 l1].
    rewrite gacts_x. exact R. }
  destruct (ufin t (sg_p y)) as [p' l']. cbn [fst] in X1. destruct (sg_crash y) eqn:C; [intros [= <- <-]; left; exact C|].
  destruct T as [T|T]; [congruence|].
  destruct (unmount _ _) as [ust|]; intros [= <- <-]; [right|left; reflexivity]. intro k. cbn [Stage.sg_v Stage.sg_p]. rewrite X1. apply T.
Qed.
Notation RT := (fun (_ : nat -> bool) (y : stage) => TA y).
Notation OKT := (Queue_sim.OKR stage RT).
Lemma xexec_ta r e : OKT r -> (forall f s, e = XEnv f -> r = Live s \/ r = Crashed s -> TA (q_x _ (xs _ s)) -> TA (f (q_x _ (xs _ s)))) -> OKT (xexec stage sstep sfin r e).
Proof.
  intros O H. refine (proj2 (xexec_sim stage stage sstep sfin sstep sfin (fun y => y) RT _ _ _ r e e O _)).
  - auto.
  - intros G t y T _ y' l o E. split; [exact E|]. apply (ta_step t y y' l o T E).
  - intros G t y T _ y' l E. split; [exact E|]. apply (ta_fin t y y' l T E).
  - intros s RS. destruct e; cbn [alike]; auto 10.
Qed.
Lemma ta_p y p' : (forall u, rec (pg_x V X p') u = rec (pg_x V X (sg_p y)) u) -> TA y -> TA (with_p V X p' y).
Proof. intros E [C|T]; [left; exact C|right]. intro u. cbn [with_p Stage.sg_v Stage.sg_p]. rewrite E. apply T. Qed.
Lemma dos_ta (l : list (option tact)) : forall r, OKT r ->
  OKT (fold_left (xexec stage sstep sfin) (flat_map (fun o => match o with Some b => [XDo b] | None => [] end) l) r).
Proof.
  induction l as [|[a|] l IH]; intros r O; cbn [flat_map app fold_left]; auto.
  apply IH. apply xexec_ta; auto. discriminate.
Qed.
Lemma stexec_ta r e : OKT r -> In e evs0 -> OKT (stexec r e).
Proof.
  intros O IE. assert (K : forall s, r = Live s \/ r = Crashed s -> OKT (fold_left (xexec stage sstep sfin) (sevents V X (q_x _ (xs _ s)) e) r)).
  { intros s RS. assert (SA : forall s', r = Live s' \/ r = Crashed s' -> s' = s) by (intros s' [->| ->]; destruct RS as [RS|RS]; congruence).
    assert (ENV : forall p', (forall u, rec (pg_x V X p') u = rec (pg_x V X (sg_p (q_x _ (xs _ s)))) u) ->
       OKT (xexec stage sstep sfin r (XEnv (fun _ => with_p V X p' (q_x _ (xs _ s)))))).
    { intros p' Q. apply xexec_ta; auto. intros f s' [= <-] RS'. rewrite (SA s' RS'). apply ta_p. exact Q. }
    destruct e as [a|f|n|n]; cbn [sevents].
    - pose proof (gact_x a (sg_p (q_x _ (xs _ s)))) as Q. destruct (do_gact V X a _) as [p' l]. cbn [fst] in Q. cbn [fold_left].
      apply dos_ta. apply ENV. rewrite Q. auto.
    - pose proof (fun u => proj2 (proj2 REC) f (pg_x V X (sg_p (q_x _ (xs _ s)))) u IE) as RF.
      destruct (f (pg_x V X (sg_p (q_x _ (xs _ s))))) as [x a]. cbn [fst] in RF.
      pose proof (gacts_x a (mkPg V X (pg_t V X (sg_p (q_x _ (xs _ s)))) x (pg_fault V X (sg_p (q_x _ (xs _ s)))))) as Q.
      destruct (do_gacts V X a _) as [p' l]. cbn [fst Page.pg_x] in Q. cbn [fold_left]. apply dos_ta. apply ENV. rewrite Q. exact RF.
    - cbn [fold_left]. apply xexec_ta; auto. discriminate.
    - cbn [fold_left]. apply xexec_ta; auto. discriminate. }
  destruct r as [s|s|]; cbn [Stage.stexec]; [apply (K s); auto|apply (K s); auto|exact Logic.I].
Qed.
Lemma strun_ta x : (forall u, rec x u = []) -> OKT (strun x evs0).
Proof.
  intro R0. unfold Stage.strun.
  assert (O : OKT (Live (start _ (q_start _ (stage0 V X d gr x))))).
  { cbn. split.
    - split; [apply start_qi|]. right. intros [].
    - right. intro u. cbn. rewrite R0. auto. }
  assert (I : forall l r, incl l evs0 -> OKT r -> OKT (fold_left stexec l r)).
  { induction l as [|e l IH]; intros r IN OR; cbn [fold_left]; auto. apply IH; [intros q H; apply IN; right; auto|]. apply stexec_ta; auto. apply IN. left. auto. }
  apply I; auto. apply incl_refl.
Qed.

(** ** Applications that have returned are not in any element *)
Hypothesis LEAVES : forall t x got x' l acts v, code t x Root got = (x', l, acts, NRet v) -> opens Root (rec x' t) = [].
Definition done_ (y : stage) (t : nat) : bool := w_over V Z (pg_t V X (sg_p y) t).
Definition RV (G : nat -> bool) (y : stage) : Prop :=
  Rel G y /\ TA y /\ (sg_crash y = false -> forall u, done_ y u = true -> v_fut (sg_v y u) = U [] None) /\
  (sg_crash y = true -> exists t, G t = true /\ done_ y t = false).
Lemma gact_over a p t : w_over V Z (pg_t V X (fst (do_gact V X a p)) t) = w_over V Z (pg_t V X p t).
Proof.
  destruct a as [u q| | | |]; cbn [do_gact fst]; auto. destruct (wake_place V Z (pg_t V X p u) q) as [w| | |] eqn:E; cbn [fst]; auto.
  cbn. destruct (Nat.eqb_spec t u) as [Q|]; auto. rewrite Q. exact (over_wake_place V Z _ _ _ E).
Qed.
Lemma gacts_over l : forall p t, w_over V Z (pg_t V X (fst (do_gacts V X l p)) t) = w_over V Z (pg_t V X p t).
Proof.
  induction l as [|a l IH]; intros p t; cbn [do_gacts]; auto. pose proof (gact_over a p t) as A. destruct (do_gact V X a p) as [p1 l1].
  specialize (IH p1 t). destruct (do_gacts V X l p1) as [p2 l2]. cbn [fst] in *. congruence.
Qed.
Lemma ustep_over t p p' l o : ustep t p = (p', l, o) -> forall u, u <> t -> w_over V Z (pg_t V X p' u) = w_over V Z (pg_t V X p u).
Proof.
  unfold page_step. destruct (Tree.exec V Z ww debug (block_code V X (unseen V X code) t) _ _) as [w'| | |];
    try (intros [= <- <- <-] u NE; reflexivity).
  pose proof (gacts_over (snd (w_x V Z w')) (mkPg V X (pg_t V X (set_app V X t w' p)) (fst (w_x V Z w')) (pg_fault V X p))) as Q.
  destruct (do_gacts V X (snd (w_x V Z w')) _) as [p2 l2]. cbn [fst] in Q. intros [= <- <- <-] u NE. rewrite (Q u). cbn.
  destruct (Nat.eqb_spec u t) as [|_]; [contradiction|reflexivity].
Qed.
Lemma rv_step G t y y' l o : RV G y -> G t = false -> sstep t y = (y', l, o) -> o <> Panics -> RV G y'.
Proof.
  intros (R & T & NC & CR) GT E NP. destruct (step_sim G t y R GT y' l o E) as (US & R'). specialize (R' NP).
  pose proof (ta_step t y y' l o T E NP) as T'. split; [exact R'|]. split; [exact T'|].
  pose proof (ustep_over t _ _ _ _ US) as OO.
  unfold stage_step in E. destruct (sg_crash y) eqn:C.
  { destruct (ustep t (sg_p y)) as [[p' l'] o']. injection E as <- _ _. cbn [with_p Stage.sg_crash]. split; [congruence|]. intros _.
    destruct (CR eq_refl) as (u & GU & OU). exists u. split; [exact GU|]. unfold done_ in *. rewrite OO; [exact OU|]. intros ->. congruence. }
  set (w := Tree.set_x V Z (pg_x V X (sg_p y), []) (pg_t V X (sg_p y) t)) in E.
  destruct (Screen.exec _ _ _ _ _ _ _ _ _ _ _ _ _) as [(u', s')| | |] eqn:SE; try (injection E as <- <- <-; congruence).
  pose proof (gacts_over (snd (w_x V Z (s_w V Z s'))) (mkPg V X (pg_t V X (set_app V X t (s_w V Z s') (sg_p y))) (fst (w_x V Z (s_w V Z s'))) (pg_fault V X (sg_p y)))) as GO.
  pose proof (gacts_x (snd (w_x V Z (s_w V Z s'))) (mkPg V X (pg_t V X (set_app V X t (s_w V Z s') (sg_p y))) (fst (w_x V Z (s_w V Z s'))) (pg_fault V X (sg_p y)))) as GX.
  destruct (do_gacts V X _ _) as [p2 l2]. cbn [fst pg_x] in GO, GX. injection E as <- <- <-. cbn [Stage.sg_crash]. split; [|congruence].
  intros _ u DU. unfold done_ in DU. cbn [Stage.sg_p Stage.sg_v] in *. rewrite GO in DU. cbn in DU.
  destruct (Nat.eqb_spec u t) as [Q|NE]; [|apply NC; [reflexivity|exact DU]]. cbn [v_fut].
  destruct R' as [(R1 & _)|(_ & SI' & _)]; [discriminate R1|]. destruct (a_inv _ _ (si_app _ _ SI' t GT)) as (_ & FI & _).
  cbn [Stage.sg_p Stage.sg_v] in FI. rewrite Nat.eqb_refl in FI. cbn [v_fut v_log] in FI.
  destruct T' as [T'|T']; [discriminate T'|]. destruct (T' t) as (TL & _). cbn [Stage.sg_p Stage.sg_v] in TL. rewrite Nat.eqb_refl, GX in TL. cbn [v_log] in TL.
  unfold Screen.exec in SE. cbn [s_w] in SE. destruct (w_over V Z w) eqn:OV.
  { injection SE as <- _. apply NC; [reflexivity|]. exact OV. }
  destruct (Screen.poll_block _ _ _ _ _ _ _ _ _ _ _ _ _ _ _) as [((s1, u1), r)| | |] eqn:PB; try discriminate SE. cbn [bind] in SE.
  destruct r as [v|].
  - destruct (proj1 (ret_code V Z ww debug (elem t) (grp t) (adr_e t) (adr_c t) (scode t) bound) _ _ _ _ _ _ _ _ PB) as (fr & z & got & l & acts & -> & SC).
    injection SE as <- <-. cbn [s_w with_w w_x emit s_log] in *. inversion FI as [? ? O _ _|]; subst. rewrite TL.
    unfold stage_code in SC. destruct (code t (fst z) Root got) as [[[x1 l1] a1] n1] eqn:CO. cbn [fst snd] in SC. injection SC as SX _ _ SN.
    rewrite <- SX. cbn [fst]. rewrite (LEAVES _ _ _ _ _ _ _ (eq_trans CO (f_equal _ SN))). reflexivity.
  - injection SE as <- <-. cbn [with_w s_w] in DU.
    pose proof (proj1 (all_over V Z ww debug (elem t) (grp t) (adr_e t) (adr_c t) (scode t) bound) _ _ _ _ _ _ _ _ PB) as OV'. cbn [s_w] in OV'.
    change (w_over V Z (s_w V Z s1) = true) in DU. congruence.
Qed.
Lemma rv_fin G t y y' l : RV G y -> G t = false -> sfin t y = (y', l) -> RV (fun u => if Nat.eqb u t then true else G u) y'.
Proof.
  intros (R & T & NC & CR) GT E. destruct (fin_sim G t y R GT y' l E) as (US & R'). pose proof (ta_fin t y y' l T E) as T'. split; [exact R'|]. split; [exact T'|].
  assert (OO : forall u, done_ y' u = done_ y u).
  { intro u. unfold done_. pose proof (f_equal fst US) as Q. cbn [fst] in Q. rewrite <- Q. unfold page_fin. destruct (on_drop t (pg_x V X (sg_p y))) as [x1 l1].
    apply (gacts_over l1 (mkPg V X (pg_t V X (sg_p y)) x1 (pg_fault V X (sg_p y))) u). }
  unfold stage_fin in E. destruct (ufin t (sg_p y)) as [p' l']. destruct (sg_crash y) eqn:C.
  { injection E as <- <-. cbn [with_p Stage.sg_crash]. split; [congruence|]. intros _. destruct (CR eq_refl) as (u & GU & OU). exists u.
    split; [destruct (Nat.eqb u t); auto|]. rewrite OO. exact OU. }
  destruct R as [(R & _)|(_ & S & _)]; [congruence|].
  destruct (unmount _ _) as [ust|] eqn:UM; injection E as <- <-; cbn [Stage.sg_crash]; (split; [|try congruence]).
  - intros _ u DU. cbn [Stage.sg_v]. apply NC; [reflexivity|]. rewrite <- OO. exact DU.
  - congruence.
  - intros _. exists t. rewrite Nat.eqb_refl. split; [reflexivity|]. rewrite OO. destruct (done_ y t) eqn:DT; [|reflexivity]. exfalso.
    destruct (unmount_app G y t S GT) as (_ & H2). rewrite (NC eq_refl t DT) in H2. destruct H2 as (st' & Q & _); [reflexivity|congruence].
Qed.
Notation OKV := (Queue_sim.OKR stage RV).
Lemma rv_p G y p' : quiet (sg_p y) p' -> (forall u, w_over V Z (pg_t V X p' u) = w_over V Z (pg_t V X (sg_p y) u)) ->
  (forall u, rec (pg_x V X p') u = rec (pg_x V X (sg_p y)) u) -> RV G y -> RV G (with_p V X p' y).
Proof.
  intros Q O E (R & T & NC & CR). split; [apply rel_quiet; auto|]. split; [apply ta_p; auto|]. unfold done_. cbn [with_p Stage.sg_crash Stage.sg_p Stage.sg_v].
  split; [intros C u; rewrite O; apply NC; exact C|]. intro C. destruct (CR C) as (t & A & B). exists t. rewrite O. auto.
Qed.
Lemma xexec_rv r e : OKV r -> (forall f s, e = XEnv f -> r = Live s \/ r = Crashed s -> forall G, RV G (q_x _ (xs _ s)) -> RV G (f (q_x _ (xs _ s)))) -> OKV (xexec stage sstep sfin r e).
Proof.
  intros O H. refine (proj2 (xexec_sim stage stage sstep sfin sstep sfin (fun y => y) RV _ _ _ r e e O _)).
  - intros G G' y E (R & T & NC & CR). split; [eapply rel_ext; eauto|]. split; auto. split; auto. intro C. destruct (CR C) as (t & A & B). exists t. rewrite <- E. auto.
  - intros G t y T GT y' l o E. split; [exact E|]. apply (rv_step G t y y' l o T GT E).
  - intros G t y T GT y' l E. split; [exact E|]. apply (rv_fin G t y y' l T GT E).
  - intros s RS. destruct e; cbn [alike]; auto 10.
Qed.
Lemma dos_rv (l : list (option tact)) : forall r, OKV r ->
  OKV (fold_left (xexec stage sstep sfin) (flat_map (fun o => match o with Some b => [XDo b] | None => [] end) l) r).
Proof.
  induction l as [|[a|] l IH]; intros r O; cbn [flat_map app fold_left]; auto.
  apply IH. apply xexec_rv; auto. discriminate.
Qed.
Lemma stexec_rv r e : OKV r -> In e evs0 -> OKV (stexec r e).
Proof.
  intros O IE. assert (K : forall s, r = Live s \/ r = Crashed s -> OKV (fold_left (xexec stage sstep sfin) (sevents V X (q_x _ (xs _ s)) e) r)).
  { intros s RS. assert (SA : forall s', r = Live s' \/ r = Crashed s' -> s' = s) by (intros s' [->| ->]; destruct RS as [RS|RS]; congruence).
    assert (ENV : forall p', quiet (sg_p (q_x _ (xs _ s))) p' -> (forall u, w_over V Z (pg_t V X p' u) = w_over V Z (pg_t V X (sg_p (q_x _ (xs _ s))) u)) ->
       (forall u, rec (pg_x V X p') u = rec (pg_x V X (sg_p (q_x _ (xs _ s)))) u) ->
       OKV (xexec stage sstep sfin r (XEnv (fun _ => with_p V X p' (q_x _ (xs _ s)))))).
    { intros p' Q1 Q2 Q3. apply xexec_rv; auto. intros f s' [= <-] RS' G. rewrite (SA s' RS'). apply rv_p; auto. }
    destruct e as [a|f|n|n]; cbn [sevents].
    - pose proof (gact_x a (sg_p (q_x _ (xs _ s)))) as Q. pose proof (gact_quiet a (sg_p (q_x _ (xs _ s)))) as Q1. pose proof (gact_over a (sg_p (q_x _ (xs _ s)))) as Q2.
      destruct (do_gact V X a _) as [p' l]. cbn [fst] in Q, Q1, Q2. cbn [fold_left].
      apply dos_rv. apply ENV; auto. rewrite Q. auto.
    - pose proof (fun u => proj2 (proj2 REC) f (pg_x V X (sg_p (q_x _ (xs _ s)))) u IE) as RF.
      destruct (f (pg_x V X (sg_p (q_x _ (xs _ s))))) as [x a]. cbn [fst] in RF.
      set (p0 := mkPg V X (pg_t V X (sg_p (q_x _ (xs _ s)))) x (pg_fault V X (sg_p (q_x _ (xs _ s))))).
      pose proof (gacts_x a p0) as Q. pose proof (gacts_quiet a p0) as Q1. pose proof (gacts_over a p0) as Q2.
      destruct (do_gacts V X a p0) as [p' l]. cbn [fst Page.pg_x p0] in Q, Q1, Q2. cbn [fold_left]. apply dos_rv. apply ENV; auto. rewrite Q. exact RF.
    - cbn [fold_left]. apply xexec_rv; auto. discriminate.
    - cbn [fold_left]. apply xexec_rv; auto. discriminate. }
  destruct r as [s|s|]; cbn [Stage.stexec]; [apply (K s); auto|apply (K s); auto|exact Logic.I].
Qed.
Lemma strun_rv x : (forall u, rec x u = []) -> OKV (strun x evs0).
Proof.
  intro R0. unfold Stage.strun.
  assert (O : OKV (Live (start _ (q_start _ (stage0 V X d gr x))))).
  { cbn. split.
    - split; [apply start_qi|]. right. intros [].
    - split; [right; split; [reflexivity|]; split; [apply start_si|discriminate]|].
      split; [right; intro u; cbn; rewrite R0; auto|]. split; [intros _ u D; discriminate D|discriminate]. }
  assert (I : forall l r, incl l evs0 -> OKV r -> OKV (fold_left stexec l r)).
  { induction l as [|e l IH]; intros r IN OR; cbn [fold_left]; auto. apply IH; [intros q H; apply IN; right; auto|]. apply stexec_rv; auto. apply IN. left. auto. }
  apply I; auto. apply incl_refl.
Qed.
End Record.

(** ** Blocks that are there *)
Lemma live_present (y : stage) t : will_wake_ok ww -> App y t -> Inv V Z st0 None None (pg_t V X (sg_p y) t) ->
  forall p, Spec_tree.live (w_tr V Z (pg_t V X (sg_p y) t)) p -> present (w_tr V Z (pg_t V X (sg_p y) t)) p.
Proof.
  intros WW A I p L. set (w := pg_t V X (sg_p y) t) in *. destruct (a_inv _ _ A) as (_ & F & _). fold w in F.
  revert p L. apply (live_ind_ V Z w (present (w_tr V Z w)) I); [constructor|].
  intros n i nd AT Li LO G R LV PO. destruct (present_fits V Z (elem t) (grp t) (adr_e t) (adr_c t) w _ _ F _ PO) as (v & FV & _).
  pose proof (li_sub _ _ _ _ _ _ _ _ LV) as SB.
  destruct FV as [p fr O S' AW|p fr m us O S' AW KF]; [congruence|].
  assert (m = n) as -> by congruence.
  eapply present_kid; [exact PO|exact AW|]. destruct KF as [m us nd' AT' LF _]. assert (nd' = nd) as -> by (unfold at_ in AT; congruence).
  rewrite <- LF. rewrite (li_filled _ _ _ _ _ _ _ _ LV). exact Li.
Qed.
End Proofs.
