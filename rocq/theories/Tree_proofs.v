(** Proofs about the tree of async blocks: one invariant, kept by every step. *)
From Coq Require Import List Arith Bool Lia Cantor.
From Verif Require Import Arena Spec_arena Readiness Combinator Spec_comb Util Readiness_proofs Combinator_proofs Tree Spec_tree.
Import ListNotations.

Lemma place_eqb_refl p : place_eqb p p = true.
Proof. destruct p; cbn; auto. now rewrite !Nat.eqb_refl. Qed.
Lemma place_eqb_eq p q : place_eqb p q = true <-> p = q.
Proof.
  split; [|intros ->; apply place_eqb_refl]. destruct p, q; cbn; try discriminate; auto.
  rewrite andb_true_iff, !Nat.eqb_eq. intros (-> & ->). reflexivity.
Qed.
Lemma place_eqb_neq p q : p <> q -> place_eqb p q = false.
Proof. intro H. destruct (place_eqb p q) eqn:E; auto. apply place_eqb_eq in E. contradiction. Qed.
Lemma place_eqb_spec p q : reflect (p = q) (place_eqb p q).
Proof. destruct (place_eqb p q) eqn:E; constructor; [apply place_eqb_eq; auto|]. intros ->. rewrite place_eqb_refl in E. discriminate. Qed.
Lemma place_task p : place_of (task_of p) = p.
Proof. destruct p as [|n i]; [reflexivity|]. cbn [task_of place_of]. rewrite Cantor.cancel_of_to. reflexivity. Qed.

Definition lvl (p : place) : nat := match p with Root => 0 | Kid n _ => S n end.
Definition kid (n : nat) (q : place) : Prop := exists i, q = Kid n i.
Definition b2n (b : bool) : nat := if b then 1 else 0.
Definition rest (o : option (list nat)) : list nat := match o with Some l => l | None => [] end.
Definition isb (o : option nat) (n : nat) : bool := match o with Some m => Nat.eqb m n | None => false end.
Lemma isb_same n : isb (Some n) n = true. Proof. apply Nat.eqb_refl. Qed.
Lemma isb_other m n : m <> n -> isb (Some m) n = false. Proof. apply Nat.eqb_neq. Qed.

Section Proofs.
Variables V X : Type.
Variable ww : waker -> waker -> bool.
Variable debug : bool.
Notation beh := (behavior V V V).
Variable code : X -> place -> option V -> X * list place * next V.
Hypothesis WW : will_wake_ok ww.
Hypothesis CO : code_ok code.

Notation ev := (ev V). Notation world := (world V X). Notation node := (node V).
Notation hp := (w_hp V X). Notation tr := (w_tr V X). Notation sub := (w_sub V X).
Notation owner := (nd_owner V). Notation nb := (nd_b V). Notation nc := (nd_c V).
Notation K nd := (c_n V (nc nd)). Notation rd nd := (c_rd V (nc nd)).
Notation aw nd := (rd_awake_list (c_rd V (nc nd))).
Notation filled nd := (c_filled V (nc nd)). Notation items nd := (c_items V (nc nd)). Notation pending nd := (c_pending V (nc nd)).
Notation emit := (emit V X). Notation set_node := (set_node V X). Notation set_sub := (set_sub V X).
Notation exists_place := (exists_place V X).
Notation poll_block := (poll_block V X ww debug code). Notation run_code := (run_code V X ww debug code).
Notation await := (await V X ww debug code). Notation poll_comb := (poll_comb V X ww debug code). Notation loop := (loop V X ww debug code).

(** the waker of [p] was woken after its last poll, and then [q] was polled *)
Fixpoint owed (p q : place) (t : list ev) : bool :=
  match t with
  | [] => false
  | EPoll r :: t' => if place_eqb r p then false else if place_eqb r q then woken p t' || owed p q t' else owed p q t'
  | _ :: t' => owed p q t'
  end.

Record LV (t : list ev) (n : nat) (nd : node) (sb : option nat) (bz : option (list nat)) (ex bad : bool) : Prop := {
  li_sub : sb = Some n;
  li_items : length (items nd) = K nd;
  li_filled : length (filled nd) = K nd;
  li_pend : pending nd = count_occ bool_dec (filled nd) false;
  li_more : bz = None -> pending nd > 0 \/ (K nd = 0 /\ (ex = false -> b_pend_if_empty (nb nd) = true));
  li_true : forall i, nth_error (filled nd) i = Some true ->
    exists s u, nth_error (items nd) i = Some (Some s) /\ In (EDone (Kid n i) u) t /\ b_maybe_return (nb nd) i u = inr s;
  li_false : forall i, nth_error (filled nd) i = Some false -> ~ returned (Kid n i) t;
  li_woken : forall i, i < K nd -> woken (Kid n i) t = true -> In i (aw nd) \/ In i (rest bz) \/ returned (Kid n i) t;
  li_good : ex = false -> bad = false -> aw nd <> [] -> woken (owner nd) t = true;
  li_owed : forall i, i < K nd -> owed (Kid n i) (owner nd) t = true ->
    In i (rest bz) \/ returned (Kid n i) t \/ (ex = true /\ In i (aw nd));
  li_first : forall i, i < K nd -> polls (Kid n i) t > 0 \/ In i (rest bz) \/ returned (Kid n i) t \/ (ex = true /\ In i (aw nd)) }.
Record NI (t : list ev) (n : nat) (nd : node) (sb : option nat) (bz : option (list nat)) (ex bad : bool) : Prop := {
  ni_new : In (ENew n (K nd) (nb nd) (owner nd)) t;
  ni_lvl : lvl (owner nd) <= n;
  ni_beh : beh_ok (nb nd);
  ni_tup : c_kind V (nc nd) = KTuple -> K nd > 0;
  ni_rd : exists pw, RdInv (rd nd) (K nd) (aw nd) pw /\ (ex = false -> K nd > 0 -> w_task pw = Some (task_of (owner nd)));
  ni_nodup : NoDup (rest bz);
  ni_rest : forall i, In i (rest bz) -> i < K nd;
  ni_count : forall i, i < K nd -> polls (Kid n i) t + b2n (mem i (aw nd)) + b2n (mem i (rest bz)) <= 1 + wakes (Kid n i) t;
  ni_live : ~ gone n t -> LV t n nd sb bz ex bad }.

Definition ev_place (e : ev) : option place :=
  match e with EPoll p | EWake p | EDone p _ => Some p | _ => None end.
Definition at_ (w : world) (n : nat) (nd : node) : Prop := nth_error (hp w) n = Some nd.

(** everything but the nodes *)
Record Glob (w : world) : Prop := {
  g_own : forall n nd, at_ w n nd -> exists_place w (owner nd) = true;
  g_new : forall n k b p, In (ENew n k b p) (tr w) -> exists nd, at_ w n nd /\ K nd = k /\ nb nd = b /\ owner nd = p;
  g_sub : forall p n, sub w p = Some n -> exists nd, at_ w n nd /\ owner nd = p /\ ~ gone n (tr w);
  g_gone : forall n, gone n (tr w) -> n < length (hp w);
  g_ev : forall e p, In e (tr w) -> ev_place e = Some p -> exists_place w p = true;
  g_over : w_over V X w = true <-> returned Root (tr w);
  g_tr : always poll_live (tr w) /\ always result_ok (tr w) /\ always Spec_tree.run_ok (tr w) }.
(** [st n]: what is left of the list of children combinator [n] has to poll, if it is being
    polled; [ex]: a combinator about to be polled; [bad]: one whose parent is about to be woken *)
Definition Nodes (st : nat -> option (list nat)) (ex bad : option nat) (w : world) : Prop :=
  forall n nd, at_ w n nd -> NI (tr w) n nd (sub w (owner nd)) (st n) (isb ex n) (isb bad n).
Record Inv (st : nat -> option (list nat)) (ex bad : option nat) (w : world) : Prop := {
  g_glob : Glob w;
  g_node : Nodes st ex bad w;
  g_busy : forall n l, st n = Some l -> n < length (hp w) }.

(** ** Traces *)
Lemma returned_cons p e (t : list ev) : returned p (e :: t) <-> (exists v, e = EDone p v) \/ returned p t.
Proof. unfold returned. cbn. split; [intros (v & [H|H]); eauto|intros [(v & ->)|(v & H)]; eauto]. Qed.
Lemma gone_cons n e (t : list ev) : gone n (e :: t) <-> (exists v, e = EGone n v) \/ gone n t.
Proof. unfold gone. cbn. split; [intros (v & [H|H]); eauto|intros [(v & ->)|(v & H)]; eauto]. Qed.

(** events that do not concern combinator [n] *)
Definition other (t : list ev) (n : nat) (o : place) (e : ev) : Prop :=
  match e with
  | EPoll q => (q <> o \/ gone n t) /\ ~ kid n q
  | EWake q => ~ kid n q
  | EDone q _ => ~ kid n q
  | EGone m _ => m <> n
  | _ => True
  end.
Lemma not_kid n q i : ~ kid n q -> place_eqb q (Kid n i) = false.
Proof. intro H. apply place_eqb_neq. intros ->. apply H. exists i. reflexivity. Qed.

Lemma other_polls t n o e i : other t n o e -> polls (Kid n i) (e :: t) = polls (Kid n i) t.
Proof. destruct e; cbn; auto. intros (_ & H). now rewrite not_kid. Qed.
Lemma other_wakes t n o e i : other t n o e -> wakes (Kid n i) (e :: t) = wakes (Kid n i) t.
Proof. destruct e; cbn; auto. intros H. now rewrite not_kid. Qed.
Lemma other_woken t n o e i : other t n o e -> woken (Kid n i) (e :: t) = woken (Kid n i) t.
Proof. destruct e; cbn; auto; [intros (_ & H)|intros H]; now rewrite not_kid. Qed.
Lemma other_returned t n o e i : other t n o e -> returned (Kid n i) (e :: t) <-> returned (Kid n i) t.
Proof.
  intro H. rewrite returned_cons. split; [|auto]. intros [(v & ->)|H']; auto. cbn in H. destruct H. exists i. reflexivity.
Qed.
Lemma other_owed t n o e i : other t n o e -> ~ gone n t -> owed (Kid n i) o (e :: t) = owed (Kid n i) o t.
Proof. destruct e; cbn; auto. intros ([H|H] & Hk) NG; [|contradiction]. now rewrite not_kid, place_eqb_neq. Qed.

Lemma NI_other t n nd sb bz ex bad e : other t n (owner nd) e ->
  NI t n nd sb bz ex bad -> NI (e :: t) n nd sb bz ex bad.
Proof.
  intros O []. constructor; auto.
  - now right.
  - intros i Hi. rewrite (other_polls _ _ _ _ _ O), (other_wakes _ _ _ _ _ O). auto.
  - intro NG. assert (NG' : ~ gone n t) by (intro G; apply NG, gone_cons; auto).
    destruct (ni_live0 NG') as [L1 L2 L3 L4 L5 L6 L7 L8 L9 L10 L11]. constructor; auto.
    + intros i Hi. destruct (L6 i Hi) as (s & u & A & B & C). exists s, u. cbn. auto.
    + intros i Hi R. apply (other_returned _ _ _ _ _ O) in R. exact (L7 i Hi R).
    + intros i Hi. rewrite (other_woken _ _ _ _ _ O). intro H. rewrite (other_returned _ _ _ _ _ O). auto.
    + intros E1 E2 E3. specialize (L9 E1 E2 E3). destruct e; cbn in O |- *; auto.
      * destruct O as ([Q|Q] & _); [|contradiction]. now rewrite place_eqb_neq.
      * destruct (place_eqb p (owner nd)); auto.
    + intros i Hi. rewrite (other_owed _ _ _ _ _ O NG'), (other_returned _ _ _ _ _ O). auto.
    + intros i Hi. rewrite (other_polls _ _ _ _ _ O), (other_returned _ _ _ _ _ O). auto.
Qed.

(** changing what does not matter for a node *)
Lemma NI_gone_sub t n nd sb sb' bz ex bad : gone n t -> NI t n nd sb bz ex bad -> NI t n nd sb' bz ex bad.
Proof. intros G []. constructor; auto. intros NG. contradiction. Qed.

Lemma aw_bound r k l pw i : RdInv r k l pw -> In i l -> i < k.
Proof. intros (_ & H & _). auto. Qed.
Lemma rd_aw r k l pw : RdInv r k l pw -> rd_awake_list r = l.
Proof. apply rd_awake_list_ok. Qed.

(** ** Heap *)
Lemma set_node_hp w n c nd : at_ w n nd -> hp (set_node n c w) = lset (hp w) n (mkN V c (nb nd) (owner nd)).
Proof. unfold at_, Tree.set_node. intros ->. reflexivity. Qed.
Lemma at_lt w n nd : at_ w n nd -> n < length (hp w).
Proof. unfold at_. intro H. apply nth_error_Some. congruence. Qed.
Lemma at_set_same w n c nd : at_ w n nd -> at_ (set_node n c w) n (mkN V c (nb nd) (owner nd)).
Proof.
  intro H. unfold at_. rewrite (set_node_hp _ _ _ _ H), lset_nth by (apply (at_lt _ _ _ H)). now rewrite Nat.eqb_refl.
Qed.
Lemma at_set_other w n c nd m : at_ w n nd -> m <> n -> nth_error (hp (set_node n c w)) m = nth_error (hp w) m.
Proof.
  intros H D. rewrite (set_node_hp _ _ _ _ H), lset_nth by (apply (at_lt _ _ _ H)).
  apply Nat.eqb_neq in D. now rewrite D.
Qed.
Lemma set_node_len w n c : length (hp (set_node n c w)) = length (hp w).
Proof. unfold Tree.set_node. destruct (nth_error (hp w) n); [|reflexivity]. cbn. apply lset_length. Qed.
Lemma set_node_tr w n c : tr (set_node n c w) = tr w.
Proof. unfold Tree.set_node. destruct (nth_error (hp w) n); reflexivity. Qed.
Lemma set_node_sub w n c : sub (set_node n c w) = sub w.
Proof. unfold Tree.set_node. destruct (nth_error (hp w) n); reflexivity. Qed.
Lemma set_node_over w n c : w_over V X (set_node n c w) = w_over V X w.
Proof. unfold Tree.set_node. destruct (nth_error (hp w) n); reflexivity. Qed.
Lemma set_node_exists w n c nd p : at_ w n nd -> c_n V c = K nd -> exists_place (set_node n c w) p = exists_place w p.
Proof.
  intros H E. destruct p as [|m j]; [reflexivity|]. cbn. destruct (Nat.eqb_spec m n) as [->|D].
  - rewrite (at_set_same _ _ c _ H). rewrite H. cbn. now rewrite E.
  - now rewrite (at_set_other _ _ c _ _ H D).
Qed.
Lemma at_set_inv w n c nd m nd' : at_ w n nd -> at_ (set_node n c w) m nd' ->
  (m = n /\ nd' = mkN V c (nb nd) (owner nd)) \/ (m <> n /\ at_ w m nd').
Proof.
  intros H H'. destruct (Nat.eq_dec m n) as [->|D].
  - left. split; auto. pose proof (at_set_same _ _ c _ H) as S'. unfold at_ in *. congruence.
  - right. split; auto. unfold at_ in *. now rewrite <- (at_set_other _ _ c _ _ H D).
Qed.

(** replacing the combinator of one node *)
Lemma Glob_set w n nd c : Glob w -> at_ w n nd -> c_n V c = K nd -> Glob (set_node n c w).
Proof.
  intros I A En.
  assert (EX : forall p, exists_place (set_node n c w) p = exists_place w p) by (intro p; eapply set_node_exists; eauto).
  constructor; rewrite ?set_node_tr, ?set_node_sub, ?set_node_len, ?set_node_over; try apply I.
  - intros m nd' B. rewrite EX. destruct (at_set_inv _ _ _ _ _ _ A B) as [(-> & ->)|(D & B')]; [cbn|]; eapply g_own; eauto.
  - intros m k b p Q. destruct (g_new _ I _ _ _ _ Q) as (nd' & B & E).
    destruct (Nat.eq_dec m n) as [->|D].
    + exists (mkN V c (nb nd) (owner nd)). split; [apply at_set_same; auto|].
      assert (nd' = nd) by (unfold at_ in *; congruence). subst nd'. cbn. rewrite En. exact E.
    + exists nd'. split; [|exact E]. unfold at_. rewrite (at_set_other _ _ c _ _ A D). exact B.
  - intros p m Q. destruct (g_sub _ I _ _ Q) as (nd' & B & E & NG).
    destruct (Nat.eq_dec m n) as [->|D].
    + exists (mkN V c (nb nd) (owner nd)). split; [apply at_set_same; auto|].
      assert (nd' = nd) by (unfold at_ in *; congruence). subst nd'. auto.
    + exists nd'. split; [|auto]. unfold at_. rewrite (at_set_other _ _ c _ _ A D). exact B.
  - intros e' p Q E. rewrite EX. eapply g_ev; eauto.
Qed.
Lemma Nodes_set st ex bad w n nd c : at_ w n nd ->
  NI (tr w) n (mkN V c (nb nd) (owner nd)) (sub w (owner nd)) (st n) (isb ex n) (isb bad n) ->
  (forall m nd', m <> n -> at_ w m nd' -> NI (tr w) m nd' (sub w (owner nd')) (st m) (isb ex m) (isb bad m)) ->
  Nodes st ex bad (set_node n c w).
Proof.
  intros A H1 H2 m nd' B. rewrite set_node_tr, set_node_sub.
  destruct (at_set_inv _ _ _ _ _ _ A B) as [(-> & ->)|(D & B')]; [exact H1|auto].
Qed.

Definition plain (w : world) (e : ev) : Prop :=
  (forall p, ev_place e = Some p -> exists_place w p = true) /\
  match e with ENew _ _ _ _ | EGone _ _ => False | EPoll p => live (tr w) p | EDone p _ => p <> Root | ERun _ _ => Spec_tree.run_ok (e :: tr w) | _ => True end.
Lemma Glob_emit w e : Glob w -> plain w e -> Glob (emit e w).
Proof.
  intros I (H3 & H4).
  assert (EX : forall p, exists_place (emit e w) p = exists_place w p) by (intros []; reflexivity).
  constructor; cbn.
  - intros m nd A. rewrite EX. eapply g_own; eauto.
  - intros m k b p [Q|Q]; [subst e; destruct H4|]. apply (g_new _ I _ _ _ _ Q).
  - intros p m Q. destruct (g_sub _ I _ _ Q) as (nd & B & E & NG). exists nd. split; auto. split; auto.
    rewrite gone_cons. intros [(v & ->)|G]; [destruct H4|auto].
  - intros m G. apply gone_cons in G. destruct G as [(v & ->)|G]; [destruct H4|]. eapply g_gone; eauto.
  - intros e' p [<-|Q] E; rewrite EX; [apply H3; auto|eapply g_ev; eauto].
  - rewrite returned_cons, (g_over _ I). split; [auto|]. intros [(v & ->)|R]; [destruct H4; reflexivity|auto].
  - destruct (g_tr _ I) as (T1 & T2 & T3). split; [|split]; (split; [|auto]); destruct e; cbn [poll_live result_ok]; auto; try exact Logic.I; destruct H4.
Qed.

(** ** Wakes *)
Lemma NI_wake_owner t n nd sb bz bad :
  NI t n nd sb bz false bad -> NI (EWake (owner nd) :: t) n nd sb bz false false.
Proof.
  intros N. assert (O : other t n (owner nd) (EWake (owner nd))).
  { cbn. intros (i & E). pose proof (ni_lvl _ _ _ _ _ _ _ N) as L. rewrite E in L. cbn in L. lia. }
  pose proof (NI_other _ _ _ _ _ _ _ _ O N) as [A1 A2 A3 A4 A5 A6 A7 A8 A9]. constructor; auto.
  intro NG. destruct (A9 NG). constructor; auto. intros _ _ _. cbn. now rewrite place_eqb_refl.
Qed.
Lemma NI_wake_kid t n nd sb bz i r pw :
  NI t n nd sb bz false false -> i < K nd ->
  RdInv (rd nd) (K nd) (aw nd) pw ->
  RdInv r (K nd) (if mem i (aw nd) then aw nd else aw nd ++ [i]) pw ->
  w_task pw = Some (task_of (owner nd)) ->
  NI (EWake (Kid n i) :: t) n (mkN V (set_rd V (nc nd) r) (nb nd) (owner nd)) sb bz false
     (if mem i (aw nd) then false else match aw nd with [] => true | _ => false end).
Proof.
  intros N Hi R0 R P. pose proof (rd_aw _ _ _ _ R) as E. destruct N as [A1 A2 A3 A4 A5 A6 A7 A8 A9].
  set (aw' := if mem i (aw nd) then aw nd else aw nd ++ [i]) in *.
  assert (SUB : forall j, In j (aw nd) -> In j aw').
  { intros j Hj. unfold aw'. destruct (mem i (aw nd)); auto. apply in_app_iff; auto. }
  assert (II : In i aw').
  { unfold aw'. destruct (mem i (aw nd)) eqn:M; [apply mem_true; auto|]. apply in_app_iff. cbn. auto. }
  constructor; cbn [nd_c nd_b nd_owner set_rd c_n c_kind c_rd c_items c_filled c_pending]; auto.
  - now right.
  - exists pw. rewrite E. split; auto.
  - intros j Hj. rewrite E. specialize (A8 j Hj). cbn [polls wakes].
    destruct (place_eqb_spec (Kid n i) (Kid n j)) as [Q|Q].
    + assert (b2n (mem j aw') <= 1) by (destruct (mem j aw'); cbn; lia). lia.
    + assert (mem j aw' = mem j (aw nd)) as ->; [|exact A8].
      unfold aw'. destruct (mem i (aw nd)); auto. rewrite mem_app. cbn.
      destruct (Nat.eqb_spec j i); [congruence|]. cbn. apply orb_false_r.
  - intro NG. destruct (A9 ltac:(intro G; apply NG, gone_cons; auto)) as [L1 L2 L3 L4 L5 L6 L7 L8 L9 L10 L11].
    constructor; cbn [nd_c nd_b nd_owner set_rd c_n c_kind c_rd c_items c_filled c_pending]; auto; rewrite ?E.
    + intros j Hj. destruct (L6 j Hj) as (s & u & B1 & B2 & B3). exists s, u. cbn. auto.
    + intros j Hj Q. apply returned_cons in Q. destruct Q as [(v & Q)|Q]; [discriminate Q|]. exact (L7 j Hj Q).
    + intros j Hj. cbn [woken]. rewrite returned_cons. destruct (place_eqb_spec (Kid n i) (Kid n j)) as [Q|Q].
      * injection Q as <-. auto.
      * intro W. destruct (L8 j Hj W) as [Q'|[Q'|Q']]; auto.
    + intros _ B _. cbn [woken]. destruct (place_eqb (Kid n i) (owner nd)) eqn:Q; auto.
      apply L9; auto. intro Z. rewrite Z in B. cbn in B. discriminate B.
    + intros j Hj. cbn [owed]. rewrite returned_cons. intro W. destruct (L10 j Hj W) as [Q|[Q|(Q & _)]]; auto. discriminate Q.
    + intros j Hj. cbn [polls]. rewrite returned_cons. destruct (L11 j Hj) as [Q|[Q|[Q|(Q & _)]]]; auto. discriminate Q.
Qed.

Definition is_wake (e : ev) : Prop := match e with EWake _ => True | _ => False end.
Definition same_core (nd nd' : node) : Prop :=
  c_kind V (nc nd') = c_kind V (nc nd) /\ K nd' = K nd /\ pending nd' = pending nd /\ items nd' = items nd /\
  filled nd' = filled nd /\ nb nd' = nb nd /\ owner nd' = owner nd.
Definition WF (w w' : world) : Prop :=
  (exists evs, tr w' = evs ++ tr w /\ Forall is_wake evs) /\
  (forall n nd, at_ w n nd -> exists nd', at_ w' n nd' /\ same_core nd nd') /\
  length (hp w') = length (hp w) /\ sub w' = sub w /\ w_over V X w' = w_over V X w.
Lemma same_core_refl nd : same_core nd nd. Proof. unfold same_core. auto 10. Qed.
Lemma same_core_trans a b c : same_core a b -> same_core b c -> same_core a c.
Proof. unfold same_core. intuition congruence. Qed.
Lemma WF_refl w : WF w w.
Proof. split; [exists []; auto|]. split; [intros n nd A; exists nd; split; auto using same_core_refl|]. auto. Qed.
Lemma WF_trans a b c : WF a b -> WF b c -> WF a c.
Proof.
  intros ((e1 & E1 & F1) & N1 & L1 & S1 & O1) ((e2 & E2 & F2) & N2 & L2 & S2 & O2). split; [|split].
  - exists (e2 ++ e1). rewrite E2, E1, app_assoc. split; auto. apply Forall_app; auto.
  - intros n nd A. destruct (N1 _ _ A) as (nd1 & A1 & C1). destruct (N2 _ _ A1) as (nd2 & A2 & C2).
    exists nd2. split; auto. eapply same_core_trans; eauto.
  - split; [congruence|split; congruence].
Qed.
Lemma WF_exists w w' p : WF w w' -> exists_place w p = true -> exists_place w' p = true.
Proof.
  intros (_ & N & _). destruct p as [|n i]; cbn; auto. destruct (nth_error (hp w) n) as [nd|] eqn:A; [|discriminate].
  destruct (N _ _ A) as (nd' & A' & C). unfold at_ in A'. rewrite A'. destruct C as (_ & -> & _). auto.
Qed.
Lemma exists_kid w n i : exists_place w (Kid n i) = true -> exists nd, at_ w n nd /\ i < K nd.
Proof. cbn. unfold at_. destruct (nth_error (hp w) n) as [nd|]; [|discriminate]. intro H. apply Nat.ltb_lt in H. eauto. Qed.
Lemma kid_exists w n i nd : at_ w n nd -> i < K nd -> exists_place w (Kid n i) = true.
Proof. unfold at_. cbn. intros -> H. apply Nat.ltb_lt; auto. Qed.
Lemma at_fun w n nd nd' : at_ w n nd -> at_ w n nd' -> nd = nd'.
Proof. unfold at_. congruence. Qed.

Lemma wake_ok st : forall fuel locked p bad w t,
  Inv st None bad w -> w_task t = Some (task_of p) -> exists_place w p = true -> lvl p <= fuel ->
  (forall m, In m locked -> lvl p <= m) ->
  (bad = None \/ exists m nd, bad = Some m /\ at_ w m nd /\ owner nd = p) ->
  exists w', wake V X fuel locked t w = Done w' /\ Inv st None None w' /\ WF w w'.
Proof.
  assert (OTH : forall p bad w m nd, Inv st None bad w -> at_ w m nd -> ~ kid m p ->
    (bad = None \/ exists m nd, bad = Some m /\ at_ w m nd /\ owner nd = p) ->
    NI (EWake p :: tr w) m nd (sub w (owner nd)) (st m) false false).
  { intros p bad w m nd I A NK B. pose proof (g_node _ _ _ _ I _ _ A) as N. cbn [isb] in N |- *. destruct (isb bad m) eqn:Bm.
    - destruct B as [->|(m' & nd' & -> & A' & O)]; [discriminate Bm|]. apply Nat.eqb_eq in Bm. subst m'.
      rewrite (at_fun _ _ _ _ A' A) in O. rewrite <- O. eapply NI_wake_owner; eauto.
    - apply NI_other; auto. }
  intro fuel. induction fuel as [|fuel IH]; intros locked p bad w t I Et EX F L B.
  - destruct p; [|cbn in F; lia]. cbn [wake]. rewrite Et, place_task. eexists. split; [reflexivity|]. split.
    + constructor.
      * apply Glob_emit; [apply I|]. split; [intros p [= <-]; reflexivity|exact Logic.I].
      * intros m nd A. apply (OTH Root bad w m nd); auto. intros (j & Q). discriminate Q.
      * apply (g_busy _ _ _ _ I).
    + split; [exists [EWake Root]; split; [reflexivity|repeat constructor]|]. split; [intros n nd A; exists nd; split; [exact A|apply same_core_refl]|]. auto.
  - cbn [wake]. rewrite Et, place_task. destruct p as [|n i].
    + destruct (IH locked Root bad w t I Et EX ltac:(cbn; lia) ltac:(cbn; intros; lia) B) as (w' & E & Q).
      exists w'. split; [|exact Q]. rewrite <- E. destruct fuel; cbn [wake]; rewrite Et, place_task; reflexivity.
    + destruct (existsb (Nat.eqb n) locked) eqn:EL.
      { exfalso. apply existsb_exists in EL as (m & Hm & Q). apply Nat.eqb_eq in Q. subst m. specialize (L _ Hm). cbn in L. lia. }
      destruct (exists_kid _ _ _ EX) as (nd & A & Hi). pose proof A as A0. unfold at_ in A. rewrite A. cbn [get bind].
      pose proof (g_node _ _ _ _ I _ _ A) as N.
      assert (NB : isb bad n = false).
      { destruct B as [->|(m & nd' & -> & A' & O)]; [reflexivity|]. apply isb_other. intros ->.
        pose proof (ni_lvl _ _ _ _ _ _ _ (g_node _ _ _ _ I _ _ A')) as Q. rewrite O in Q. cbn in Q. lia. }
      rewrite NB in N. destruct (ni_rd _ _ _ _ _ _ _ N) as (pw & R & P). specialize (P eq_refl ltac:(lia)).
      destruct (rd_wake_ok _ _ _ _ i R Hi) as (r & Er & R'). rewrite Er. cbn [get bind].
      pose proof (NI_wake_kid _ _ _ _ _ i r pw N Hi R R' P) as N'.
      set (o := if mem i (aw nd) then None else match aw nd with [] => Some pw | _ :: _ => None end) in *.
      set (w' := set_node n (set_rd V (nc nd) r) (emit (EWake (Kid n i)) w)).
      assert (A1 : at_ (emit (EWake (Kid n i)) w) n nd) by exact A.
      assert (I' : Inv st None (match o with Some _ => Some n | None => None end) w').
      { constructor.
        - eapply Glob_set; [|exact A1|reflexivity]. apply Glob_emit; [apply I|]. split; [intros p [= <-]; exact EX|exact Logic.I].
        - eapply Nodes_set; [exact A1| |].
          + cbn [isb]. replace (isb match o with Some _ => Some n | None => None end n)
              with (if mem i (aw nd) then false else match aw nd with [] => true | _ => false end); [exact N'|].
            unfold o. destruct (mem i (aw nd)); [reflexivity|]. destruct (aw nd); [symmetry; apply isb_same|reflexivity].
          + intros m nd' D A'. cbn [isb].
            replace (isb match o with Some _ => Some n | None => None end m) with false
              by (destruct o; [symmetry; apply isb_other; auto|reflexivity]).
            apply (OTH (Kid n i) bad w m nd'); auto. intros (j & Q). congruence.
        - intros m l E. unfold w'. rewrite set_node_len. eapply (g_busy _ _ _ _ I); eauto. }
      assert (W' : WF w w').
      { unfold w'. split; [exists [EWake (Kid n i)]; rewrite set_node_tr; split; [reflexivity|repeat constructor]|].
        split; [|rewrite set_node_len, set_node_sub, set_node_over; auto].
        intros m nd' A'. destruct (Nat.eq_dec m n) as [->|D].
        - eexists. split; [apply (at_set_same _ _ _ _ A1)|]. rewrite (at_fun _ _ _ _ A' A0). unfold same_core. cbn. auto 10.
        - exists nd'. split; [|apply same_core_refl]. unfold at_. rewrite (at_set_other _ _ _ _ _ A1 D). exact A'. }
      destruct o as [p|] eqn:Eo.
      * assert (p = pw) as ->.
        { unfold o in Eo. destruct (mem i (aw nd)); [discriminate Eo|]. destruct (aw nd); congruence. }
        destruct (IH (n :: locked) (owner nd) (Some n) w' pw I' P) as (w2 & E2 & I2 & W2).
        -- eapply WF_exists; eauto. eapply g_own; eauto. apply I.
        -- pose proof (ni_lvl _ _ _ _ _ _ _ N). cbn in F. lia.
        -- pose proof (ni_lvl _ _ _ _ _ _ _ N). intros m [<-|Hm]; auto. specialize (L _ Hm). cbn in L. lia.
        -- right. exists n. eexists. split; [reflexivity|]. split; [apply (at_set_same _ _ _ _ A1)|reflexivity].
        -- exists w2. split; [exact E2|]. split; [exact I2|]. eapply WF_trans; eauto.
      * exists w'. auto.
Qed.
Lemma lvl_exists w p : exists_place w p = true -> lvl p <= length (hp w).
Proof.
  destruct p as [|n i]; cbn; [lia|]. destruct (nth_error (hp w) n) eqn:A; [|discriminate].
  intros _. assert (n < length (hp w)); [apply nth_error_Some; congruence|lia].
Qed.
Lemma wake_place_ok st p w : Inv st None None w ->
  exists w', wake_place V X w p = Done w' /\ Inv st None None w' /\ WF w w'.
Proof.
  intro I. unfold wake_place. destruct (exists_place w p) eqn:EX; [|exists w; split; auto using WF_refl].
  eapply (wake_ok st _ [] p None); eauto.
  - apply lvl_exists in EX. lia.
  - intros m [].
Qed.
Lemma wake_all_ok st l : forall w, Inv st None None w ->
  exists w', wake_all V X l w = Done w' /\ Inv st None None w' /\ WF w w'.
Proof.
  induction l as [|p l IH]; intros w I; cbn [wake_all].
  - exists w. split; auto using WF_refl.
  - destruct (wake_place_ok st p w I) as (w1 & E1 & I1 & W1). rewrite E1. cbn [bind].
    destruct (IH w1 I1) as (w2 & E2 & I2 & W2). exists w2. split; auto. split; auto. eapply WF_trans; eauto.
Qed.

(** ** Frames *)
Definition deep (m : nat) (e : ev) : Prop :=
  match e with
  | EPoll q => m <= lvl q
  | EDone q _ => m < lvl q
  | EGone n _ => m <= n
  | ENew n _ _ _ => m <= n
  | _ => True
  end.
Definition Frame (m : nat) (w w' : world) : Prop :=
  (exists evs, tr w' = evs ++ tr w /\ Forall (deep m) evs) /\
  (forall n nd, at_ w n nd -> exists nd', at_ w' n nd' /\ K nd' = K nd /\ nb nd' = nb nd /\ owner nd' = owner nd /\
     (n < m -> same_core nd nd')) /\
  w_over V X w' = w_over V X w.
Lemma deep_mono m m' e : m' <= m -> deep m e -> deep m' e.
Proof. destruct e; cbn; auto; lia. Qed.
Lemma Frame_mono m m' w w' : m' <= m -> Frame m w w' -> Frame m' w w'.
Proof.
  intros L ((evs & E & F) & N & O). split; [|split; auto].
  - exists evs. split; auto. eapply Forall_impl; [|exact F]. intro e. apply deep_mono; auto.
  - intros n nd A. destruct (N _ _ A) as (nd' & B1 & B2 & B3 & B4 & B5). exists nd'. do 4 (split; [solve [auto]|]).
    intro H. apply B5. lia.
Qed.
Lemma Frame_refl m w : Frame m w w.
Proof. split; [exists []; auto|]. split; auto. intros n nd A. exists nd. split; auto. do 3 (split; [reflexivity|]). intros _. apply same_core_refl. Qed.
Lemma Frame_trans m a b c : Frame m a b -> Frame m b c -> Frame m a c.
Proof.
  intros ((e1 & E1 & F1) & N1 & O1) ((e2 & E2 & F2) & N2 & O2). split; [|split; [|congruence]].
  - exists (e2 ++ e1). rewrite E2, E1, app_assoc. split; auto. apply Forall_app; auto.
  - intros n nd A. destruct (N1 _ _ A) as (nd1 & A1 & B1 & B2 & B3 & B4). destruct (N2 _ _ A1) as (nd2 & A2 & C1 & C2 & C3 & C4).
    exists nd2. split; auto. split; [congruence|]. split; [congruence|]. split; [congruence|].
    intro H. eapply same_core_trans; eauto.
Qed.
Lemma WF_Frame m w w' : WF w w' -> Frame m w w'.
Proof.
  intros ((evs & E & F) & N & L & S' & O). split; [|split; auto].
  - exists evs. split; auto. eapply Forall_impl; [|exact F]. intros []; cbn; tauto.
  - intros n nd A. destruct (N _ _ A) as (nd' & B & C). exists nd'. split; auto.
    pose proof C as (C1 & C2 & C3 & C4 & C5 & C6 & C7). do 3 (split; [solve [auto]|]). auto.
Qed.
Lemma Frame_emit m w e : deep m e -> Frame m w (emit e w).
Proof.
  intro D. split; [exists [e]; split; [reflexivity|repeat constructor; auto]|]. split; auto.
  intros n nd A. exists nd. split; auto. do 3 (split; [reflexivity|]). intros _. apply same_core_refl.
Qed.
Lemma Frame_sub m w p o : Frame m w (set_sub p o w).
Proof.
  split; [exists []; auto|]. split; auto.
  intros n nd A. exists nd. split; auto. do 3 (split; [reflexivity|]). intros _. apply same_core_refl.
Qed.
Lemma Frame_set m w n c nd : at_ w n nd -> c_n V c = K nd -> m <= n -> Frame m w (set_node n c w).
Proof.
  intros A E L. split; [exists []; rewrite set_node_tr; auto|]. split; [|apply set_node_over].
  intros n' nd' A'. destruct (Nat.eq_dec n' n) as [->|D].
  - exists (mkN V c (nb nd) (owner nd)). rewrite (at_fun _ _ _ _ A' A). split; [apply at_set_same; auto|]. cbn. do 3 (split; [solve [auto]|]). lia.
  - exists nd'. split; [unfold at_; rewrite (at_set_other _ _ _ _ _ A D); exact A'|]. do 3 (split; [reflexivity|]). intros _. apply same_core_refl.
Qed.
Lemma Frame_exists m w w' p : Frame m w w' -> exists_place w p = true -> exists_place w' p = true.
Proof.
  intros (_ & N & _). destruct p as [|n i]; cbn; auto. destruct (nth_error (hp w) n) as [nd|] eqn:A; [|discriminate].
  destruct (N _ _ A) as (nd' & A' & C & _). unfold at_ in A'. now rewrite A', C.
Qed.
Lemma deep_gone m n evs (t : list ev) : Forall (deep m) evs -> n < m -> gone n (evs ++ t) -> gone n t.
Proof.
  intros F L (v & G). apply in_app_iff in G. destruct G as [G|G]; [|exists v; auto].
  rewrite Forall_forall in F. specialize (F _ G). cbn in F. lia.
Qed.
Lemma deep_returned m p evs (t : list ev) : Forall (deep m) evs -> lvl p <= m -> returned p (evs ++ t) -> returned p t.
Proof.
  intros F L (v & G). apply in_app_iff in G. destruct G as [G|G]; [|exists v; auto].
  rewrite Forall_forall in F. specialize (F _ G). cbn in F. lia.
Qed.
Lemma live_lvl w (I : Glob w) n k b p : In (ENew n k b p) (tr w) -> (forall nd, at_ w n nd -> lvl (owner nd) <= n) -> lvl p <= n.
Proof. intros H L. destruct (g_new _ I _ _ _ _ H) as (nd & A & _ & _ & <-). auto. Qed.
Lemma live_deep st ex bad w m evs p : Inv st ex bad w -> live (tr w) p -> Forall (deep m) evs -> lvl p <= m -> live (evs ++ tr w) p.
Proof.
  intros I L F. induction L as [R|n k b p i H Hi G R L IH]; intro H0.
  - constructor. intro Q. apply R. eapply deep_returned; eauto.
  - assert (LP : lvl p <= n).
    { eapply live_lvl; eauto; [apply I|]. intros nd A. exact (ni_lvl _ _ _ _ _ _ _ (g_node _ _ _ _ I _ _ A)). }
    cbn in H0. apply (live_kid _ _ n k b p i); auto.
    + apply in_app_iff; auto.
    + intro Q. apply G. eapply deep_gone; eauto.
    + intro Q. apply R. eapply deep_returned; eauto.
    + apply IH. lia.
Qed.
Lemma live_Frame st ex bad w w' m p : Inv st ex bad w -> live (tr w) p -> Frame m w w' -> lvl p <= m -> live (tr w') p.
Proof. intros I L ((evs & E & F) & _) H. rewrite E. eapply live_deep; eauto. Qed.

Lemma Inv_ext st st' ex bad w : (forall m, st m = st' m) -> Inv st ex bad w -> Inv st' ex bad w.
Proof.
  intros E I. constructor; [apply I| |].
  - intros n nd A. rewrite <- E. apply (g_node _ _ _ _ I _ _ A).
  - intros n l. rewrite <- E. apply (g_busy _ _ _ _ I).
Qed.

(** ** Steps of a node *)
Definition upd (st : nat -> option (list nat)) (n : nat) (o : option (list nat)) : nat -> option (list nat) :=
  fun m => if Nat.eqb m n then o else st m.
Lemma upd_same st n o : upd st n o n = o. Proof. unfold upd. now rewrite Nat.eqb_refl. Qed.
Lemma upd_other st n o m : m <> n -> upd st n o m = st m.
Proof. unfold upd. intro H. apply Nat.eqb_neq in H. now rewrite H. Qed.
Lemma owner_not_kid n q : lvl q <= n -> ~ kid n q.
Proof. intros L (i & ->). cbn in L. lia. Qed.
Lemma b2n_le b : b2n b <= 1. Proof. destruct b; cbn; lia. Qed.

Lemma NI_poll_owner t n nd sb :
  NI t n nd sb None false false -> NI (EPoll (owner nd) :: t) n nd sb None true false.
Proof.
  intros [A1 A2 A3 A4 A5 A6 A7 A8 A9]. pose proof (owner_not_kid _ _ A2) as NK.
  assert (E : forall i, place_eqb (owner nd) (Kid n i) = false) by (intro; apply not_kid; auto).
  constructor; auto.
  - now right.
  - destruct A5 as (pw & R & _). exists pw. split; [exact R|discriminate].
  - intros i Hi. cbn [polls wakes]. rewrite E. exact (A8 i Hi).
  - intro NG. destruct (A9 ltac:(intro G; apply NG, gone_cons; auto)) as [L1 L2 L3 L4 L5 L6 L7 L8 L9 L10 L11].
    constructor; auto.
    + intro Q. destruct (L5 Q) as [H|(H & _)]; [auto|right; split; [exact H|discriminate]].
    + intros i Hi. destruct (L6 i Hi) as (s & u & B1 & B2 & B3). exists s, u. cbn. auto.
    + intros i Hi Q. apply returned_cons in Q. destruct Q as [(v & Q)|Q]; [discriminate Q|]. exact (L7 i Hi Q).
    + intros i Hi. cbn [woken]. rewrite E, returned_cons. intro W. destruct (L8 i Hi W) as [Q|[Q|Q]]; auto.
    + discriminate.
    + intros i Hi. cbn [owed]. rewrite E, place_eqb_refl, returned_cons. intro W. apply orb_true_iff in W. destruct W as [W|W].
      * destruct (L8 i Hi W) as [Q|[Q|Q]]; auto.
      * destruct (L10 i Hi W) as [Q|[Q|(Q & _)]]; auto. discriminate Q.
    + intros i Hi. cbn [polls]. rewrite E, returned_cons. destruct (L11 i Hi) as [Q|[Q|[Q|(Q & _)]]]; auto. discriminate Q.
Qed.

Lemma NI_poll_kid t n nd sb i l : ~ gone n t ->
  NI t n nd sb (Some (i :: l)) false false -> NI (EPoll (Kid n i) :: t) n nd sb (Some l) false false.
Proof.
  intros NG [A1 A2 A3 A4 A5 A6 A7 A8 A9]. cbn [rest] in *.
  assert (E : place_eqb (Kid n i) (owner nd) = false).
  { apply place_eqb_neq. intro Q. apply (owner_not_kid _ _ A2). exists i. auto. }
  inversion A6 as [|? ? NI' ND]; subst.
  constructor; cbn [rest]; auto.
  - now right.
  - intros j Hj. apply A7. now right.
  - intros j Hj. specialize (A8 j Hj). cbn [polls wakes]. change (mem j (i :: l)) with (Nat.eqb j i || mem j l) in A8.
    cbn [place_eqb]. rewrite Nat.eqb_refl, (Nat.eqb_sym i j). cbn [andb]. destruct (Nat.eqb_spec j i) as [Q|D].
    + rewrite Q in *. assert (mem i l = false) as -> by (apply mem_false; auto). cbn [orb b2n] in *. lia.
    + cbn [orb] in A8. lia.
  - intros _. destruct (A9 NG) as [L1 L2 L3 L4 L5 L6 L7 L8 L9 L10 L11]. cbn [rest] in *.
    constructor; cbn [rest]; auto.
    + discriminate.
    + intros j Hj. destruct (L6 j Hj) as (s & u & B1 & B2 & B3). exists s, u. cbn. auto.
    + intros j Hj Q. apply returned_cons in Q. destruct Q as [(v & Q)|Q]; [discriminate Q|]. exact (L7 j Hj Q).
    + intros j Hj. cbn [woken]. rewrite returned_cons. destruct (place_eqb_spec (Kid n i) (Kid n j)) as [Q|Q]; [discriminate|].
      intro W. destruct (L8 j Hj W) as [Q'|[[Q'|Q']|Q']]; auto. congruence.
    + intros B1 B2 B3. cbn [woken]. rewrite E. auto.
    + intros j Hj. cbn [owed]. rewrite returned_cons. destruct (place_eqb_spec (Kid n i) (Kid n j)) as [Q|Q]; [discriminate|].
      rewrite E. intro W. destruct (L10 j Hj W) as [[Q'|Q']|[Q'|(Q' & _)]]; auto; [congruence|discriminate Q'].
    + intros j Hj. cbn [polls]. rewrite returned_cons. destruct (place_eqb_spec (Kid n i) (Kid n j)) as [Q|Q]; [left; lia|].
      destruct (L11 j Hj) as [Q'|[[Q'|Q']|[Q'|(Q' & _)]]]; auto; [congruence|discriminate Q'].
Qed.

Lemma NI_clear t n nd sb r pw :
  NI t n nd sb None true false -> RdInv r (K nd) [] pw -> w_task pw = Some (task_of (owner nd)) ->
  NI t n (mkN V (set_rd V (nc nd) r) (nb nd) (owner nd)) sb (Some (aw nd)) false false.
Proof.
  intros [A1 A2 A3 A4 A5 A6 A7 A8 A9] R P. pose proof (rd_aw _ _ _ _ R) as E. destruct A5 as (pw0 & R0 & _).
  constructor; cbn [nd_c nd_b nd_owner set_rd c_n c_kind c_rd c_items c_filled c_pending rest]; auto.
  - exists pw. rewrite E. auto.
  - apply R0.
  - apply R0.
  - intros i Hi. rewrite E. specialize (A8 i Hi). cbn [rest] in A8. cbn [mem existsb b2n] in *. lia.
  - intro NG. destruct (A9 NG) as [L1 L2 L3 L4 L5 L6 L7 L8 L9 L10 L11]. cbn [rest] in *.
    constructor; cbn [nd_c nd_b nd_owner set_rd c_n c_kind c_rd c_items c_filled c_pending rest]; auto; rewrite ?E.
    + intro QQ; discriminate QQ.
    + intros i Hi W. destruct (L8 i Hi W) as [Q|[[]|Q]]; auto.
    + intros i Hi W. destruct (L10 i Hi W) as [[]|[Q|(_ & Q)]]; auto.
    + intros i Hi. destruct (L11 i Hi) as [Q|[[]|[Q|(_ & Q)]]]; auto.
Qed.

Lemma NI_empty t n nd sb : K nd = 0 -> b_pend_if_empty (nb nd) = true -> NI t n nd sb None true false -> NI t n nd sb None false false.
Proof.
  intros Z PE [A1 A2 A3 A4 A5 A6 A7 A8 A9]. constructor; auto.
  - destruct A5 as (pw & R & _). exists pw. split; [exact R|lia].
  - intro NG. destruct A5 as (pw & R & _). destruct (A9 NG) as [L1 L2 L3 L4 L5 L6 L7 L8 L9 L10 L11]. constructor; auto.
    + intros _ _ Q. exfalso. destruct (aw nd) as [|i l]; [congruence|]. destruct R as (_ & R & _). specialize (R i ltac:(cbn; auto)). lia.
    + intros i Hi. lia.
    + intros i Hi. lia.
Qed.

Lemma NI_skip t n nd sb i l : ~ gone n t -> nth_error (filled nd) i = Some true ->
  NI t n nd sb (Some (i :: l)) false false -> NI t n nd sb (Some l) false false.
Proof.
  intros NG Hf [A1 A2 A3 A4 A5 A6 A7 A8 A9]. cbn [rest] in *. inversion A6 as [|? ? NI' ND]; subst.
  constructor; cbn [rest]; auto.
  - intros j Hj. apply A7. now right.
  - intros j Hj. specialize (A8 j Hj). change (mem j (i :: l)) with (Nat.eqb j i || mem j l) in A8.
    destruct (Nat.eqb j i), (mem j l); cbn [orb b2n] in *; lia.
  - intros _. destruct (A9 NG) as [L1 L2 L3 L4 L5 L6 L7 L8 L9 L10 L11]. cbn [rest] in *.
    assert (RI : returned (Kid n i) t). { destruct (L6 i Hf) as (s & u & _ & H & _). exists u. auto. }
    constructor; cbn [rest]; auto.
    + intro QQ; discriminate QQ.
    + intros j Hj W. destruct (L8 j Hj W) as [Q|[[Q|Q]|Q]]; auto. subst. auto.
    + intros j Hj W. destruct (L10 j Hj W) as [[Q|Q]|Q]; auto. subst. auto.
    + intros j Hj. destruct (L11 j Hj) as [Q|[[Q|Q]|Q]]; auto. subst. auto.
Qed.

Lemma NI_store t n nd sb i l v s c : ~ gone n t -> nth_error (filled nd) i = Some false ->
  b_maybe_return (nb nd) i v = inr s -> store V (nc nd) i s = Done c ->
  NI t n nd sb (Some l) false false ->
  NI (EDone (Kid n i) v :: t) n (mkN V c (nb nd) (owner nd)) sb (Some l) false false.
Proof.
  intros NG Hf Hm Hs [A1 A2 A3 A4 A5 A6 A7 A8 A9]. cbn [rest] in *.
  unfold store in Hs. destruct (nth_error (items nd) i) as [o|] eqn:Ei; [|discriminate Hs].
  destruct (pending nd) as [|pn] eqn:Ep; [discriminate Hs|]. injection Hs as <-.
  constructor; cbn [nd_c nd_b nd_owner c_n c_kind c_rd c_items c_filled c_pending rest]; auto.
  - now right.
  - intros _. destruct (A9 NG) as [L1 L2 L3 L4 L5 L6 L7 L8 L9 L10 L11]. cbn [rest] in *.
    assert (Hi : i < K nd) by (rewrite <- L3; apply nth_error_Some; congruence).
    constructor; cbn [nd_c nd_b nd_owner c_n c_kind c_rd c_items c_filled c_pending rest]; rewrite ?lset_length; auto.
    + rewrite Ep in L4. pose proof (lset_count _ _ Hf). lia.
    + discriminate.
    + intros j. rewrite lset_nth by lia. rewrite lset_nth by lia. destruct (Nat.eqb_spec j i) as [->|D].
      * intros _. exists s, v. cbn. auto.
      * intro Hj. destruct (L6 j Hj) as (s' & u & B1 & B2 & B3). exists s', u. cbn. auto.
    + intros j. rewrite lset_nth by lia. destruct (Nat.eqb_spec j i) as [->|D]; [discriminate|].
      intros Hj Q. apply returned_cons in Q. destruct Q as [(v' & Q)|Q]; [congruence|]. exact (L7 j Hj Q).
    + intros j Hj. cbn [woken]. rewrite returned_cons. intro W. destruct (L8 j Hj W) as [Q|[Q|Q]]; auto.
    + intros j Hj. cbn [owed]. rewrite returned_cons. intro W. destruct (L10 j Hj W) as [Q|[Q|Q]]; auto.
    + intros j Hj. cbn [polls]. rewrite returned_cons. destruct (L11 j Hj) as [Q|[Q|[Q|Q]]]; auto.
Qed.
Lemma store_ok t n nd sb bz i s : NI t n nd sb bz false false -> ~ gone n t -> nth_error (filled nd) i = Some false ->
  exists c, store V (nc nd) i s = Done c /\ c_n V c = K nd.
Proof.
  intros N NG Hf. destruct (ni_live _ _ _ _ _ _ _ N NG) as [L1 L2 L3 L4 L5 L6 L7 L8 L9 L10 L11].
  assert (Hi : i < K nd) by (rewrite <- L3; apply nth_error_Some; congruence).
  unfold store. destruct (nth_error (items nd) i) eqn:E; [|apply nth_error_None in E; lia].
  pose proof (lset_count _ _ Hf) as Q. rewrite <- L4 in Q. rewrite Q. eexists. split; reflexivity.
Qed.

Lemma NI_kill t n nd sb sb' bz v : NI t n nd sb bz false false -> NI (EGone n v :: t) n nd sb' None false false.
Proof.
  intros [A1 A2 A3 A4 A5 A6 A7 A8 A9]. constructor; cbn [rest]; auto.
  - now right.
  - constructor.
  - intros i [].
  - intros i Hi. specialize (A8 i Hi). cbn [polls wakes mem existsb b2n] in *. lia.
  - intro NG. destruct NG. apply gone_cons. eauto.
Qed.
Lemma NI_finish t n nd sb : pending nd > 0 -> NI t n nd sb (Some []) false false -> NI t n nd sb None false false.
Proof.
  intros P [A1 A2 A3 A4 A5 A6 A7 A8 A9]. cbn [rest] in *. constructor; auto.
  intro NG. destruct (A9 NG) as [L1 L2 L3 L4 L5 L6 L7 L8 L9 L10 L11]. constructor; auto.
Qed.

(** a combinator is dropped *)
Lemma Inv_kill st w n nd v st' p : Glob w -> at_ w n nd -> owner nd = p -> sub w p = Some n ->
  (forall m nd', m <> n -> at_ w m nd' -> NI (tr w) m nd' (sub w (owner nd')) (st m) false false) ->
  NI (EGone n v :: tr w) n nd None None false false ->
  (forall m, m <> n -> st' m = st m) -> st' n = None -> (forall m l, st m = Some l -> m < length (hp w)) ->
  result_ok (EGone n v :: tr w) ->
  Inv st' None None (emit (EGone n v) (set_sub p None w)).
Proof.
  intros G A Ow SN NN N0 O Z BZ RO. set (w' := emit (EGone n v) (set_sub p None w)).
  assert (EX : forall q, exists_place w' q = exists_place w q) by (intros []; reflexivity).
  constructor.
  - constructor; cbn.
    + intros m nd' A'. rewrite EX. eapply g_own; eauto.
    + intros m k b q [Q|Q]; [discriminate Q|]. apply (g_new _ G _ _ _ _ Q).
    + intros q m Q. destruct (place_eqb_spec q p) as [->|D]; [discriminate Q|].
      destruct (g_sub _ G _ _ Q) as (nd' & B & E & NG'). exists nd'. split; auto. split; auto.
      rewrite gone_cons. intros [(u & [= <- _])|GG]; auto. assert (nd' = nd) by (eapply at_fun; eauto). subst nd'. congruence.
    + intros m GG. apply gone_cons in GG. destruct GG as [(u & [= <- _])|GG]; [eapply at_lt; eauto|eapply g_gone; eauto].
    + intros e q [<-|Q] E; [discriminate E|]. rewrite EX. eapply g_ev; eauto.
    + rewrite returned_cons, <- (g_over _ G). split; [auto|]. intros [(u & R)|R]; [discriminate R|auto].
    + destruct (g_tr _ G) as (T1 & T2 & T3). split; [|split]; (split; [|auto]); [exact Logic.I|exact RO|exact Logic.I].
  - intros m nd' A'. change (at_ w m nd') in A'. cbn [isb Tree.emit w_tr w_sub Tree.set_sub w'].
    destruct (Nat.eq_dec m n) as [->|D].
    + rewrite Z. assert (nd' = nd) by (eapply at_fun; eauto). subst nd'. rewrite Ow, place_eqb_refl. exact N0.
    + rewrite (O m D). pose proof (NN _ _ D A') as N.
      destruct (place_eqb_spec (owner nd') p) as [E|E].
      * apply NI_other; [exact (not_eq_sym D)|].
        constructor; try apply N. intro NG'. exfalso.
        pose proof (li_sub _ _ _ _ _ _ _ (ni_live _ _ _ _ _ _ _ N NG')) as Q. rewrite E in Q. congruence.
      * apply NI_other; [exact (not_eq_sym D)|exact N].
  - intros m l E. cbn. destruct (Nat.eq_dec m n) as [->|D]; [congruence|]. rewrite (O m D) in E. eapply BZ; eauto.
Qed.

(** a block starts being polled *)
Lemma gone_dec n (t : list ev) : gone n t \/ ~ gone n t.
Proof.
  induction t as [|e t IH]; [right; intros (v & [])|]. rewrite gone_cons. destruct IH as [IH|IH]; [auto|].
  destruct e as [| | | | |m v|]; try (right; intros [(v0 & Q)|Q]; [discriminate Q|auto]).
  destruct (Nat.eq_dec m n) as [->|D]; [left; left; eauto|right; intros [(v0 & Q)|Q]; [congruence|auto]].
Qed.
Lemma sub_lvl st ex bad w p n : Inv st ex bad w -> sub w p = Some n -> lvl p <= n.
Proof.
  intros I E. destruct (g_sub _ (g_glob _ _ _ _ I) _ _ E) as (nd & A & <- & _).
  exact (ni_lvl _ _ _ _ _ _ _ (g_node _ _ _ _ I _ _ A)).
Qed.
Lemma kid_dec m p : {i | p = Kid m i} + {~ kid m p}.
Proof.
  destruct p as [|n i]; [right; intros (j & Q); discriminate Q|].
  destruct (Nat.eq_dec n m) as [->|D]; [left; eauto|right; intros (j & Q); congruence].
Qed.
Lemma Inv_begin st st' w p : Inv st None None w -> live (tr w) p -> exists_place w p = true ->
  (forall m, lvl p <= m -> st m = None) ->
  (forall n i, p = Kid n i -> exists l, st n = Some (i :: l) /\ st' n = Some l) ->
  (forall m, ~ kid m p -> st' m = st m) ->
  Inv st' (sub w p) None (emit (EPoll p) w).
Proof.
  intros I L EX Z SK SO. constructor.
  - apply Glob_emit; [apply I|]. split; [intros q [= <-]; exact EX|exact L].
  - intros m nd A. change (at_ w m nd) in A. pose proof (g_node _ _ _ _ I _ _ A) as N. cbn [isb] in N.
    cbn [Tree.emit w_tr w_sub]. destruct (kid_dec m p) as [(i & ->)|NK].
    + destruct (SK _ _ eq_refl) as (l & E1 & E2). rewrite E2. rewrite E1 in N.
      assert (isb (sub w (Kid m i)) m = false) as ->.
      { destruct (sub w (Kid m i)) as [m'|] eqn:Q; [|reflexivity]. apply isb_other. pose proof (sub_lvl _ _ _ _ _ _ I Q) as LL. cbn in LL. lia. }
      apply NI_poll_kid; auto. inversion L; subst; auto.
    + rewrite (SO m NK). destruct (sub w p) as [m'|] eqn:Q; [destruct (Nat.eq_dec m' m) as [->|D]|].
      * destruct (g_sub _ (g_glob _ _ _ _ I) _ _ Q) as (nd' & A' & E & NG). assert (nd' = nd) by (eapply at_fun; eauto). subst nd'.
        rewrite isb_same. assert (st m = None) as Zm. { apply Z. apply (sub_lvl _ _ _ _ _ _ I Q). }
        rewrite Zm in N |- *. rewrite <- E. apply NI_poll_owner. exact N.
      * rewrite isb_other by auto. apply NI_other; auto. split; auto.
        destruct (gone_dec m (tr w)) as [G|G]; auto. left. intro E.
        pose proof (li_sub _ _ _ _ _ _ _ (ni_live _ _ _ _ _ _ _ N G)) as Q'. rewrite <- E in Q'. congruence.
      * apply NI_other; auto. split; auto.
        destruct (gone_dec m (tr w)) as [G|G]; auto. left. intro E.
        pose proof (li_sub _ _ _ _ _ _ _ (ni_live _ _ _ _ _ _ _ N G)) as Q'. rewrite <- E in Q'. congruence.
  - intros m l E. cbn. destruct (kid_dec m p) as [(i & ->)|NK].
    + destruct (SK _ _ eq_refl) as (l' & E1 & E2). eapply (g_busy _ _ _ _ I); eauto.
    + rewrite (SO m NK) in E. eapply (g_busy _ _ _ _ I); eauto.
Qed.

(** a combinator is created *)
Lemma no_ev p (t : list ev) q : (forall e, In e t -> ev_place e <> Some p) ->
  polls p t = 0 /\ wakes p t = 0 /\ woken p t = false /\ owed p q t = false /\ ~ returned p t.
Proof.
  induction t as [|e t IH]; intro H; [cbn; repeat (split; [reflexivity|]); intros (v & [])|].
  destruct IH as (A & B & C & D & E). { intros e' He. apply H. now right. }
  assert (He : ev_place e <> Some p) by (apply H; now left). rewrite returned_cons.
  destruct e as [r|r|r v|r|n k b r|n v|r g]; cbn [polls wakes woken owed ev_place] in *;
    try (rewrite (place_eqb_neq r p) by congruence);
    repeat (split; [auto; fail|]); try (intros [(v0 & Q)|Q]; [congruence|auto]).
  rewrite C, D. split; [destruct (place_eqb r q); reflexivity|]. intros [(v0 & Q)|Q]; [congruence|auto].
Qed.
Lemma seq_mem i n : i < n -> In i (seq 0 n). Proof. intro H. apply in_seq. lia. Qed.
Lemma NI_new t n k b p m : (forall e i, In e t -> ev_place e <> Some (Kid m i)) -> lvl p <= m -> beh_ok b -> (k = KTuple -> n > 0) ->
  ~ gone m t ->
  NI (ENew m n b p :: t) m (mkN V (c_new V k n) b p) (Some m) None true false.
Proof.
  intros NE L BO KT NG. pose proof (rd_new_ok k n) as R. pose proof (rd_aw _ _ _ _ R) as E.
  constructor; cbn [nd_c nd_b nd_owner c_new c_n c_kind c_rd c_items c_filled c_pending rest]; auto.
  - now left.
  - exists dummy_waker. rewrite E. split; [exact R|discriminate].
  - constructor.
  - intros i [].
  - intros i Hi. destruct (no_ev (Kid m i) t p ltac:(intros; apply NE; auto)) as (Q1 & Q2 & _).
    cbn [polls wakes]. rewrite Q1. pose proof (b2n_le (mem i (rd_awake_list match k with KVec => RV (rv_new n) | _ => RA (ra_new n) end))). cbn [mem existsb b2n] in *. cbn. lia.
  - intros _.
    constructor; cbn [nd_c nd_b nd_owner c_new c_n c_kind c_rd c_items c_filled c_pending rest]; rewrite ?repeat_length, ?E; auto.
    + symmetry. apply count_repeat.
    + intros _. destruct n; [right; split; [reflexivity|discriminate]|left; lia].
    + intros i Hi. apply nth_repeat_some in Hi as (Q & _). discriminate Q.
    + intros i Hi. rewrite returned_cons. intros [(v & Q)|Q]; [discriminate Q|].
      destruct (no_ev (Kid m i) t p ltac:(intros; apply NE; auto)) as (_ & _ & _ & _ & Q2). auto.
    + intros i Hi. destruct (no_ev (Kid m i) t p ltac:(intros; apply NE; auto)) as (_ & _ & Q & _). cbn [woken]. congruence.
    + discriminate.
    + intros i Hi. destruct (no_ev (Kid m i) t p ltac:(intros; apply NE; auto)) as (_ & _ & _ & Q & _). cbn [owed]. congruence.
    + intros i Hi. right. right. right. split; auto. apply seq_mem; auto.
Qed.
Definition alloc (k : kind) (b : beh) (n : nat) (p : place) (w1 : world) : world :=
  set_sub p (Some (length (hp w1)))
    (mkT V X (hp w1 ++ [mkN V (c_new V k n) b p]) (sub w1) (w_x V X w1) (w_over V X w1) (ENew (length (hp w1)) n b p :: tr w1)).
Lemma at_alloc_old k b n p w m nd : at_ w m nd -> at_ (alloc k b n p w) m nd.
Proof. unfold at_. cbn. intro A. rewrite nth_error_app1; auto. apply nth_error_Some. congruence. Qed.
Lemma at_alloc_new k b n p w : at_ (alloc k b n p w) (length (hp w)) (mkN V (c_new V k n) b p).
Proof. unfold at_. cbn. rewrite nth_error_app2 by lia. now rewrite Nat.sub_diag. Qed.
Lemma at_alloc_inv k b n p w m nd : at_ (alloc k b n p w) m nd ->
  (m = length (hp w) /\ nd = mkN V (c_new V k n) b p) \/ (m <> length (hp w) /\ at_ w m nd).
Proof.
  unfold at_. cbn. intro A. destruct (lt_dec m (length (hp w))) as [L|L].
  - right. split; [lia|]. now rewrite nth_error_app1 in A.
  - rewrite nth_error_app2 in A by lia. left. destruct (m - length (hp w)) as [|d] eqn:Q; cbn in A; [|destruct d; discriminate A].
    split; [lia|congruence].
Qed.
Lemma alloc_exists k b n p w q : exists_place w q = true -> exists_place (alloc k b n p w) q = true.
Proof.
  destruct q as [|m i]; auto. intro H. destruct (exists_kid _ _ _ H) as (nd & A & Hi). apply (kid_exists _ _ _ nd); auto. apply at_alloc_old; auto.
Qed.
Lemma alloc_Frame k b n p w m : m <= length (hp w) -> Frame m w (alloc k b n p w).
Proof.
  intro L. split; [exists [ENew (length (hp w)) n b p]; split; [reflexivity|repeat constructor; exact L]|]. split; auto.
  intros m' nd A. exists nd. split; [apply at_alloc_old; auto|]. do 3 (split; [reflexivity|]). intros _. apply same_core_refl.
Qed.
Lemma Inv_alloc st k b n p w : Inv st None None w -> sub w p = None -> exists_place w p = true ->
  beh_ok b -> (k = KTuple -> n > 0) -> Inv st (Some (length (hp w))) None (alloc k b n p w).
Proof.
  intros I S0 EX BO KT. pose proof (g_glob _ _ _ _ I) as G. set (id := length (hp w)) in *.
  assert (NE : forall e i, In e (tr w) -> ev_place e <> Some (Kid id i)).
  { intros e i H Q. pose proof (g_ev _ G _ _ H Q) as E. destruct (exists_kid _ _ _ E) as (nd & A & _). apply at_lt in A. unfold id in A. lia. }
  assert (NG : ~ gone id (tr w)). { intro Q. apply (g_gone _ G) in Q. unfold id in Q. lia. }
  assert (SID : forall q, sub w q <> Some id).
  { intros q Q. destruct (g_sub _ G _ _ Q) as (nd & A & _). apply at_lt in A. unfold id in A. lia. }
  assert (Zid : st id = None). { destruct (st id) eqn:Q; auto. apply (g_busy _ _ _ _ I) in Q. unfold id in Q. lia. }
  constructor.
  - constructor.
    + intros m nd A. destruct (at_alloc_inv _ _ _ _ _ _ _ A) as [(-> & ->)|(D & A')]; apply alloc_exists; auto. eapply g_own; eauto.
    + intros m k' b' q [Q|Q].
      * injection Q as <- <- <- <-. eexists. split; [apply at_alloc_new|]. auto.
      * destruct (g_new _ G _ _ _ _ Q) as (nd & A & E). exists nd. split; auto. apply at_alloc_old; auto.
    + intros q m. unfold alloc. cbn [Tree.set_sub w_sub w_tr]. destruct (place_eqb_spec q p) as [->|D].
      * intros [= <-]. eexists. split; [apply at_alloc_new|]. split; [reflexivity|].
        rewrite gone_cons. intros [(v & Q)|Q]; [discriminate Q|]. exact (NG Q).
      * intro Q. destruct (g_sub _ G _ _ Q) as (nd & A & E & NG'). exists nd. split; [apply at_alloc_old; auto|]. split; auto.
        rewrite gone_cons. intros [(v & Q')|Q']; [discriminate Q'|auto].
    + intros m Q. apply gone_cons in Q. destruct Q as [(v & Q)|Q]; [discriminate Q|]. cbn. rewrite app_length. apply (g_gone _ G) in Q. cbn. lia.
    + intros e q [<-|Q] E; [discriminate E|]. apply alloc_exists. eapply g_ev; eauto.
    + unfold alloc. cbn [Tree.set_sub w_over w_tr]. rewrite returned_cons, <- (g_over _ G). split; [auto|]. intros [(u & R)|R]; [discriminate R|auto].
    + destruct (g_tr _ G) as (T1 & T2 & T3). split; [|split]; (split; [exact Logic.I|auto]).
  - intros m nd A. unfold alloc. cbn [Tree.set_sub w_sub w_tr]. destruct (at_alloc_inv _ _ _ _ _ _ _ A) as [(-> & ->)|(D & A')].
    + fold id. rewrite Zid, isb_same. cbn [nd_owner]. rewrite place_eqb_refl. apply NI_new; auto.
      apply (lvl_exists w p EX).
    + rewrite isb_other by auto. pose proof (g_node _ _ _ _ I _ _ A') as N. cbn [isb] in N. apply NI_other; [exact Logic.I|].
      destruct (place_eqb_spec (owner nd) p) as [E|E]; [|exact N].
      constructor; try apply N. intro NG'. exfalso.
      pose proof (li_sub _ _ _ _ _ _ _ (ni_live _ _ _ _ _ _ _ N NG')) as Q. rewrite E in Q. congruence.
  - intros m l Q. cbn. rewrite app_length. apply (g_busy _ _ _ _ I) in Q. cbn. lia.
Qed.

(** the end of a combinator's poll *)
Lemma finish_ok t n nd sb : NI t n nd sb (Some []) false false -> ~ gone n t ->
  (K nd = 0 -> forall l, b_when_completed (nb nd) l <> None) ->
  exists o, finish V debug (nb nd) (nc nd) = Done o /\
    match o with None => pending nd > 0 | Some v => result_ok (EGone n v :: t) end.
Proof.
  intros N NG WC. destruct (ni_live _ _ _ _ _ _ _ N NG) as [L1 L2 L3 L4 L5 L6 L7 L8 L9 L10 L11].
  unfold finish. destruct (Nat.eqb_spec (pending nd) 0) as [Z|Z]; [|exists None; split; [reflexivity|lia]].
  assert (F : filled nd = repeat true (K nd)). { rewrite <- L3. apply count_zero. lia. }
  assert (Fi : forall i, i < K nd -> nth_error (filled nd) i = Some true). { intros i Hi. rewrite F. apply nth_repeat_in; auto. }
  rewrite F, forallb_repeat_true. cbn [negb]. rewrite andb_false_r.
  destruct (all_some_ok (items nd)) as (l & El & Ll & Fl).
  { intros i Hi. destruct (L6 i) as (s & u & Q & _); [apply Fi; lia|]. eauto. }
  rewrite El. cbn [get bind].
  assert (WC' : b_when_completed (nb nd) l <> None).
  { destruct (K nd) as [|k] eqn:EK; [apply WC; auto|].
    destruct (ni_beh _ _ _ _ _ _ _ N) as [B|(_ & B)]; [apply B|].
    destruct (L6 0) as (s & u & _ & _ & Q); [apply Fi; lia|]. destruct (B 0 u) as (o & Q'). congruence. }
  destruct (b_when_completed (nb nd) l) as [v|] eqn:Ev; [|congruence]. cbn [get bind].
  exists (Some v). split; [reflexivity|].
  exists (K nd), (nb nd), (owner nd). split; [apply (ni_new _ _ _ _ _ _ _ N)|]. right. exists l. split; [lia|]. split; auto.
  intros i Hi. destruct (L6 i (Fi i Hi)) as (s & u & Q1 & Q2 & Q3). exists u, s. split; auto. split; auto. apply Fl; auto.
Qed.
Lemma entry_ok t n nd sb ex : NI t n nd sb None ex false -> ~ gone n t ->
  (c_entry V V V (nb nd) (nc nd) = Some PPending /\ K nd = 0 /\ b_pend_if_empty (nb nd) = true) \/
  (c_entry V V V (nb nd) (nc nd) = None /\ (K nd = 0 -> forall l, b_when_completed (nb nd) l <> None)).
Proof.
  intros N NG. destruct (ni_live _ _ _ _ _ _ _ N NG) as [L1 L2 L3 L4 L5 L6 L7 L8 L9 L10 L11]. specialize (L5 eq_refl).
  assert (WC : b_pend_if_empty (nb nd) = false -> forall l, b_when_completed (nb nd) l <> None).
  { intro P. destruct (ni_beh _ _ _ _ _ _ _ N) as [B|(B & _)]; [exact B|congruence]. }
  pose proof (ni_tup _ _ _ _ _ _ _ N) as T. unfold c_entry. destruct (c_kind V (nc nd)).
  - destruct (Nat.eqb_spec (K nd) 0) as [Z|Z]; cbn [andb orb].
    + destruct (b_pend_if_empty (nb nd)) eqn:P; [left; auto|right; auto].
    + right. destruct (Nat.ltb_spec 0 (pending nd)); [split; auto; lia|lia].
  - specialize (T eq_refl). right. destruct (Nat.ltb_spec 0 (pending nd)); [split; auto; lia|lia].
  - destruct (Nat.eqb_spec (pending nd) 0) as [Z|Z].
    + assert (KZ : K nd = 0) by lia. destruct (items nd); [|cbn in L2; lia].
      destruct (b_pend_if_empty (nb nd)) eqn:P; [left; auto|right; auto].
    + right. split; auto. intro Z'. exfalso. apply Z. rewrite L4. destruct (filled nd); [reflexivity|cbn in L3; lia].
Qed.

(** ** All steps together *)
(** the equations of the five functions *)
Lemma poll_block_S f p wk w : poll_block (S f) p wk w =
  match sub w p with
  | None => run_code f p wk None (emit (EPoll p) w)
  | Some n => await f p wk n (emit (EPoll p) w)
  end.
Proof. reflexivity. Qed.
Lemma run_code_S f p wk got w : run_code (S f) p wk got w =
  (let '(x, wakes, nx) := code (w_x V X w) p got in
   try w1 <- wake_all V X wakes (Tree.set_x V X x (emit (ERun p got) w));
   match nx with
   | NPanic => Panic
   | NPend => Done (w1, None)
   | NRet v => Done (w1, Some v)
   | NAwait k b n => await f p wk (length (hp w1)) (alloc k b n p w1)
   end).
Proof. reflexivity. Qed.
Lemma await_S f p wk n w : await (S f) p wk n w =
  (try (w1, r) <- poll_comb f n wk w;
   match r with
   | None => Done (w1, None)
   | Some v => run_code f p wk (Some v) (emit (EGone n v) (set_sub p None w1))
   end).
Proof. reflexivity. Qed.
Lemma poll_comb_S f n wk w : poll_comb (S f) n wk w =
  (try nd <- get (nth_error (hp w) n);
   match c_entry V V V (nb nd) (nc nd) with
   | Some PPending => Done (w, None)
   | Some _ => Fault
   | None =>
       let r1 := rd_set_parent ww (rd nd) wk in
       try r2 <- get (rd_clear r1);
       loop f n (rd_awake_list r1) (set_node n (set_rd V (nc nd) r2) w)
   end).
Proof. reflexivity. Qed.
Lemma loop_S f n l w : loop (S f) n l w =
  (try nd <- get (nth_error (hp w) n);
   match l with
   | [] => try o <- finish V debug (nb nd) (nc nd); Done (w, o)
   | i :: l' =>
       try fl <- get (nth_error (filled nd) i);
       if (fl : bool) then loop f n l' w
       else
         try (w1, r) <- poll_block f (Kid n i) (waker_of (Kid n i)) w;
         match r with
         | None => loop f n l' (emit (EPend (Kid n i)) w1)
         | Some v =>
             match b_maybe_return (nb nd) i v with
             | inl o => Done (emit (EDone (Kid n i) v) w1, Some o)
             | inr s =>
                 try nd2 <- get (nth_error (hp (emit (EDone (Kid n i) v) w1)) n);
                 try c <- store V (nc nd2) i s;
                 loop f n l' (set_node n c (emit (EDone (Kid n i) v) w1))
             end
         end
   end).
Proof. destruct l; reflexivity. Qed.

Lemma Inv_set_x st ex bad w x : Inv st ex bad w -> Inv st ex bad (Tree.set_x V X x w).
Proof.
  intros [[G1 G2 G3 G4 G5 G6 G7] N B]. constructor; [constructor|exact N|exact B]; auto.
Qed.
Lemma Frame_set_x m w x : Frame m w (Tree.set_x V X x w).
Proof.
  split; [exists []; auto|]. split; auto.
  intros n nd A. exists nd. split; auto. do 3 (split; [reflexivity|]). intros _. apply same_core_refl.
Qed.
Lemma Frame_gone m n w w' : Frame m w w' -> n < m -> ~ gone n (tr w) -> ~ gone n (tr w').
Proof. intros ((evs & E & F) & _) L NG G. apply NG. rewrite E in G. eapply deep_gone; eauto. Qed.

Definition good (st : nat -> option (list nat)) (m : nat) (w : world) (r : res (world * option V)) : Prop :=
  r <> Fault /\ forall w' o, r = Done (w', o) -> Inv st None None w' /\ Frame m w w'.
(** as [good], for a combinator: if it returns, the invariant holds once it is dropped *)
Definition goodc (st : nat -> option (list nat)) (n : nat) (p : place) (w : world) (r : res (world * option V)) : Prop :=
  r <> Fault /\ forall w' o, r = Done (w', o) -> Frame n w w' /\
    match o with None => Inv st None None w' | Some v => Inv st None None (emit (EGone n v) (set_sub p None w')) end.
Definition quiet (st : nat -> option (list nat)) (p : place) : Prop := forall m, lvl p <= m -> st m = None.
Definition SBlock (f : nat) : Prop := forall st p wk w,
  Inv st (sub w p) None (emit (EPoll p) w) -> live (tr w) p -> exists_place w p = true -> w_task wk = Some (task_of p) ->
  quiet st p -> good st (lvl p) (emit (EPoll p) w) (poll_block f p wk w).
Definition SCode (f : nat) : Prop := forall st p wk got w,
  Inv st None None w -> live (tr w) p -> exists_place w p = true -> w_task wk = Some (task_of p) ->
  quiet st p -> sub w p = None -> Spec_tree.run_ok (ERun p got :: tr w) -> good st (lvl p) w (run_code f p wk got w).
Definition SAwait (f : nat) : Prop := forall st p wk n nd w,
  Inv st (Some n) None w -> at_ w n nd -> owner nd = p -> ~ gone n (tr w) -> live (tr w) p -> w_task wk = Some (task_of p) ->
  quiet st p -> good st (lvl p) w (await f p wk n w).
Definition SComb (f : nat) : Prop := forall st p wk n nd w,
  Inv st (Some n) None w -> at_ w n nd -> owner nd = p -> ~ gone n (tr w) -> live (tr w) p -> w_task wk = Some (task_of p) ->
  quiet st p -> goodc st n p w (poll_comb f n wk w).
Definition SLoop (f : nat) : Prop := forall st p l n nd w,
  Inv st None None w -> at_ w n nd -> owner nd = p -> ~ gone n (tr w) -> live (tr w) p ->
  st n = Some l -> (forall m, n < m -> st m = None) -> (K nd = 0 -> forall l, b_when_completed (nb nd) l <> None) ->
  goodc (upd st n None) n p w (loop f n l w).

Lemma nofuel_good st m w : good st m w NoFuel.
Proof. split; [discriminate|intros w' o Q; discriminate Q]. Qed.
Lemma nofuel_goodc st n p w : goodc st n p w NoFuel.
Proof. split; [discriminate|intros w' o Q; discriminate Q]. Qed.
Lemma panic_good st m w : good st m w Panic.
Proof. split; [discriminate|intros w' o Q; discriminate Q]. Qed.
Lemma panic_goodc st n p w : goodc st n p w Panic.
Proof. split; [discriminate|intros w' o Q; discriminate Q]. Qed.
Lemma good_step st m w w1 r : Frame m w w1 -> good st m w1 r -> good st m w r.
Proof.
  intros F (H1 & H2). split; auto. intros w' o E. destruct (H2 _ _ E) as (I & F'). split; auto. eapply Frame_trans; eauto.
Qed.
Lemma goodc_step st n p w w1 r : Frame n w w1 -> goodc st n p w1 r -> goodc st n p w r.
Proof.
  intros F (H1 & H2). split; auto. intros w' o E. destruct (H2 _ _ E) as (F' & I). split; auto. eapply Frame_trans; eauto.
Qed.
Lemma goodc_ext st st' n p w r : (forall m, st m = st' m) -> goodc st n p w r -> goodc st' n p w r.
Proof.
  intros F (H1 & H2). split; auto. intros w' o E. destruct (H2 _ _ E) as (F' & I). split; auto.
  destruct o; eapply Inv_ext; eauto.
Qed.

Lemma step_block f : SCode f -> SAwait f -> SBlock (S f).
Proof.
  intros HC HA st p wk w I L EX P Z. rewrite poll_block_S.
  assert (L' : live (tr (emit (EPoll p) w)) p).
  { clear - L.
    assert (R : forall q, returned q (EPoll p :: tr w) -> returned q (tr w)).
    { intros q Q. apply returned_cons in Q. destruct Q as [(v & Q)|Q]; [discriminate Q|auto]. }
    assert (G : forall q, gone q (EPoll p :: tr w) -> gone q (tr w)).
    { intros q Q. apply gone_cons in Q. destruct Q as [(v & Q)|Q]; [discriminate Q|auto]. }
    cbn. revert R G. generalize (EPoll (V := V) p). intros e R G. induction L as [Q|n k b q i H Hi G' R' L IH].
    - constructor. auto.
    - apply (live_kid _ _ n k b q i); auto. now right. }
  destruct (sub w p) as [n|] eqn:E.
  - destruct (g_sub _ (g_glob _ _ _ _ I) p n E) as (nd & A & O & NG).
    apply (HA st p wk n nd); auto.
  - apply (HC st p wk None); auto. split; [reflexivity|]. intros n k b H.
    destruct (g_new _ (g_glob _ _ _ _ I) _ _ _ _ H) as (nd & A & _ & _ & O).
    destruct (gone_dec n (tr (emit (EPoll p) w))) as [G|G]; auto. exfalso.
    pose proof (li_sub _ _ _ _ _ _ _ (ni_live _ _ _ _ _ _ _ (g_node _ _ _ _ I _ _ A) G)) as Q. rewrite O in Q. cbn in Q. congruence.
Qed.

Lemma step_code f : SAwait f -> SCode (S f).
Proof.
  intros HA st p wk got w I L EX P Z S0 RO. rewrite run_code_S.
  destruct (code (w_x V X w) p got) as ((x, ws), nx) eqn:EC.
  assert (IE : Inv st None None (emit (ERun p got) w)).
  { constructor.
    - apply Glob_emit; [apply I|]. split; [intros q Q; discriminate Q|exact RO].
    - intros m nd' B. apply NI_other; [exact Logic.I|]. exact (g_node _ _ _ _ I _ _ B).
    - apply (g_busy _ _ _ _ I). }
  pose proof (Inv_set_x _ _ _ _ x IE) as I0. destruct (wake_all_ok st ws _ I0) as (w1 & E1 & I1 & W1). rewrite E1. cbn [bind].
  assert (F1 : Frame (lvl p) w w1) by (eapply Frame_trans; [apply (Frame_emit _ w (ERun p got)); exact Logic.I|]; eapply Frame_trans; [apply Frame_set_x|apply WF_Frame; exact W1]).
  assert (L1 : live (tr w1) p) by exact (live_Frame _ _ _ _ _ _ _ I L F1 (le_n _)).
  assert (EX1 : exists_place w1 p = true) by (eapply Frame_exists; eauto).
  destruct nx as [|v| |k b n].
  - split; [discriminate|]. intros w' o [= <- <-]. auto.
  - split; [discriminate|]. intros w' o [= <- <-]. auto.
  - split; [discriminate|]. intros w' o Q. discriminate Q.
  - destruct (CO _ _ _ _ _ _ _ _ EC) as (BO & KT).
    assert (S1 : sub w1 p = None). { destruct W1 as (_ & _ & _ & Q & _). rewrite Q. exact S0. }
    pose proof (Inv_alloc st k b n p w1 I1 S1 EX1 BO KT) as I2.
    assert (LL : lvl p <= length (hp w1)) by (apply lvl_exists; auto).
    assert (F2 : Frame (lvl p) w (alloc k b n p w1)). { eapply Frame_trans; [exact F1|]. apply alloc_Frame; auto. }
    eapply good_step; [exact F2|]. eapply (HA st p wk (length (hp w1)) (mkN V (c_new V k n) b p) (alloc k b n p w1)); auto.
    + apply at_alloc_new.
    + unfold alloc. cbn. rewrite gone_cons. intros [(v & Q)|Q]; [discriminate Q|]. apply (g_gone _ (g_glob _ _ _ _ I1)) in Q. lia.
    + eapply live_Frame; [exact I1|exact L1|apply (alloc_Frame k b n p w1 _ LL)|lia].
Qed.

Lemma step_await f : SComb f -> SCode f -> SAwait (S f).
Proof.
  intros HP HC st p wk n nd w I A O NG L P Z. rewrite await_S.
  destruct (HP st p wk n nd w I A O NG L P Z) as (NF & HD).
  assert (LN : lvl p <= n). { rewrite <- O. exact (ni_lvl _ _ _ _ _ _ _ (g_node _ _ _ _ I _ _ A)). }
  destruct (poll_comb f n wk w) as [(w1, r)| | |]; cbn [bind]; try (apply nofuel_good || apply panic_good || apply nofuel_goodc || apply panic_goodc); [|destruct NF; reflexivity].
  destruct (HD _ _ eq_refl) as (F & I1). pose proof (Frame_mono _ _ _ _ LN F) as F1. destruct r as [v|].
  - set (w2 := emit (EGone n v) (set_sub p None w1)) in *.
    assert (F2 : Frame (lvl p) w w2).
    { eapply Frame_trans; [exact F1|]. eapply Frame_trans; [apply Frame_sub|]. apply Frame_emit. exact LN. }
    eapply good_step; [exact F2|]. apply (HC st p wk (Some v) w2); auto.
    + exact (live_Frame _ _ _ _ _ _ _ I L F2 (le_n _)).
    + eapply Frame_exists; [exact F2|]. rewrite <- O. eapply g_own; eauto. apply I.
    + cbn. now rewrite place_eqb_refl.
    + split.
      * exists n, (K nd), (nb nd). split; [reflexivity|]. destruct F2 as ((evs & E & _) & _). rewrite E. apply in_app_iff. right.
        rewrite <- O. exact (ni_new _ _ _ _ _ _ _ (g_node _ _ _ _ I _ _ A)).
      * intros m k b H. destruct (g_new _ (g_glob _ _ _ _ I1) _ _ _ _ H) as (nd' & A' & _ & _ & O').
        destruct (gone_dec m (tr w2)) as [G|G]; auto. exfalso.
        pose proof (li_sub _ _ _ _ _ _ _ (ni_live _ _ _ _ _ _ _ (g_node _ _ _ _ I1 _ _ A') G)) as Q. rewrite O' in Q. cbn in Q. rewrite place_eqb_refl in Q. discriminate.
  - split; [discriminate|]. intros w' o [= <- <-]. auto.
Qed.

Lemma step_comb f : SLoop f -> SComb (S f).
Proof.
  intros HL st p wk n nd w I A O NG L P Z. rewrite poll_comb_S.
  pose proof A as A'. unfold at_ in A'. rewrite A'. cbn [get bind].
  pose proof (g_node _ _ _ _ I _ _ A) as N. rewrite isb_same in N. cbn [isb] in N.
  assert (LN : lvl p <= n) by (rewrite <- O; exact (ni_lvl _ _ _ _ _ _ _ N)).
  rewrite (Z n LN) in N.
  assert (NX : forall m nd', m <> n -> at_ w m nd' -> NI (tr w) m nd' (sub w (owner nd')) (st m) false false).
  { intros m nd' D B. pose proof (g_node _ _ _ _ I _ _ B) as N'. rewrite isb_other in N' by auto. exact N'. }
  destruct (entry_ok _ _ _ _ _ N NG) as [(E & K0 & PE)|(E & WC)]; rewrite E.
  - split; [discriminate|]. intros w' o [= <- <-]. split; [apply Frame_refl|]. constructor; [apply I| |apply I].
    intros m nd' B. destruct (Nat.eq_dec m n) as [->|D]; [|apply NX; auto].
    assert (nd' = nd) by (eapply at_fun; eauto). subst nd'. rewrite (Z n LN). apply NI_empty; auto.
  - destruct (ni_rd _ _ _ _ _ _ _ N) as (pw & R & _). destruct (rd_set_parent_ok ww _ _ _ _ wk R WW) as (pw' & R1 & ST).
    destruct (rd_clear_ok _ _ _ _ R1) as (r2 & E2 & R2). rewrite E2. cbn [get bind].
    rewrite (rd_aw _ _ _ _ R1).
    set (w1 := set_node n (set_rd V (nc nd) r2) w).
    assert (A1 : at_ w1 n (mkN V (set_rd V (nc nd) r2) (nb nd) (owner nd))) by (apply at_set_same; auto).
    assert (F1 : Frame n w w1) by (eapply Frame_set; eauto).
    set (st' := upd st n (Some (aw nd))).
    eapply goodc_step; [exact F1|]. apply (goodc_ext (upd st' n None)).
    { intro m. unfold st', upd. destruct (Nat.eqb_spec m n) as [->|D]; [symmetry; auto|reflexivity]. }
    eapply (HL st' p (aw nd) n _ w1); [|exact A1|exact O|unfold w1; rewrite set_node_tr; exact NG|unfold w1; rewrite set_node_tr; exact L|apply upd_same| |exact WC].
    + constructor.
      * eapply Glob_set; eauto; [apply I].
      * eapply Nodes_set; [exact A| |].
        -- unfold st'. rewrite upd_same. cbn [isb]. eapply NI_clear; [exact N|exact R2|]. rewrite O. unfold same_task in ST. congruence.
        -- intros m nd' D B. unfold st'. rewrite upd_other by auto. cbn [isb]. apply NX; auto.
      * intros m l0. unfold st', upd, w1. rewrite set_node_len. destruct (Nat.eqb_spec m n) as [->|D].
        -- intros _. eapply at_lt; eauto.
        -- apply (g_busy _ _ _ _ I).
    + intros m Lm. unfold st'. rewrite upd_other by lia. apply Z. lia.
Qed.

Lemma step_loop f : SBlock f -> SLoop f -> SLoop (S f).
Proof.
  intros HB HL st p l n nd w I A O NG L SN SD WC. rewrite loop_S.
  pose proof A as A'. unfold at_ in A'. rewrite A'. cbn [get bind].
  pose proof (g_node _ _ _ _ I _ _ A) as N. cbn [isb] in N. rewrite SN in N.
  assert (NX : forall m nd', m <> n -> at_ w m nd' -> NI (tr w) m nd' (sub w (owner nd')) (st m) false false).
  { intros m nd' D B. exact (g_node _ _ _ _ I _ _ B). }
  assert (SW : sub w p = Some n). { rewrite <- O. apply (li_sub _ _ _ _ _ _ _ (ni_live _ _ _ _ _ _ _ N NG)). }
  destruct l as [|i l'].
  - destruct (finish_ok _ _ _ _ N NG WC) as (o & E & RO). rewrite E. cbn [bind].
    split; [discriminate|]. intros w' o' [= <- <-]. split; [apply Frame_refl|]. destruct o as [v|].
    + eapply (Inv_kill st w n nd v); auto; [apply I|eapply NI_kill; exact N|intros m D; apply upd_other; auto|apply upd_same|apply I].
    + constructor; [apply I| |].
      * intros m nd' B. cbn [isb]. destruct (Nat.eq_dec m n) as [->|D].
        -- assert (nd' = nd) by (eapply at_fun; eauto). subst nd'. rewrite upd_same. apply NI_finish; auto.
        -- rewrite upd_other by auto. apply NX; auto.
      * intros m l0. unfold upd. destruct (Nat.eqb m n); [discriminate|]. apply (g_busy _ _ _ _ I).
  - assert (Hi : i < K nd) by (apply (ni_rest _ _ _ _ _ _ _ N); now left).
    pose proof (ni_live _ _ _ _ _ _ _ N NG) as LV0.
    destruct (nth_error (filled nd) i) as [b|] eqn:Ef; [|apply nth_error_None in Ef; rewrite (li_filled _ _ _ _ _ _ _ LV0) in Ef; lia].
    cbn [get bind]. set (st' := upd st n (Some l')).
    assert (EXT : forall m, upd st' n None m = upd st n None m). { intro m. unfold st', upd. destruct (Nat.eqb m n); reflexivity. }
    assert (SN' : st' n = Some l') by apply upd_same.
    assert (SD' : forall m, n < m -> st' m = None). { intros m Hm. unfold st'. rewrite upd_other by lia. auto. }
    destruct b.
    + apply (goodc_ext _ _ _ _ _ _ EXT). apply (HL st' p l' n nd w); auto.
      constructor; [apply I| |].
      * intros m nd' B. cbn [isb]. destruct (Nat.eq_dec m n) as [->|D].
        -- assert (nd' = nd) by (eapply at_fun; eauto). subst nd'. rewrite SN'. eapply NI_skip; eauto.
        -- unfold st'. rewrite upd_other by auto. apply NX; auto.
      * intros m l0. unfold st', upd. destruct (Nat.eqb_spec m n) as [->|D]; [intros _; eapply at_lt; eauto|]. apply (g_busy _ _ _ _ I).
    + assert (EK : exists_place w (Kid n i) = true) by (eapply kid_exists; eauto).
      assert (LK : live (tr w) (Kid n i)).
      { apply (live_kid _ _ n (K nd) (nb nd) p i); auto.
        - rewrite <- O. apply (ni_new _ _ _ _ _ _ _ N).
        - apply (li_false _ _ _ _ _ _ _ LV0); auto. }
      assert (IB : Inv st' (sub w (Kid n i)) None (emit (EPoll (Kid n i)) w)).
      { eapply Inv_begin; eauto.
        - intros n' i' [= <- <-]. eauto.
        - intros m NK. unfold st'. apply upd_other. intros ->. apply NK. exists i. reflexivity. }
      assert (QQ : quiet st' (Kid n i)). { intros m Hm. apply SD'. cbn in Hm. lia. }
      destruct (HB st' (Kid n i) (waker_of (Kid n i)) w IB LK EK eq_refl QQ) as (NF & HD).
      destruct (poll_block f (Kid n i) (waker_of (Kid n i)) w) as [(w1, r)| | |]; cbn [bind];
        try (apply nofuel_good || apply panic_good || apply nofuel_goodc || apply panic_goodc); [|destruct NF; reflexivity].
      destruct (HD _ _ eq_refl) as (I1 & F0). cbn [lvl] in F0.
      assert (F1 : Frame (S n) w w1) by (refine (Frame_trans _ _ _ _ (Frame_emit (S n) w (EPoll (Kid n i)) _) F0); apply le_n).
      pose proof F1 as (_ & FN & _). destruct (FN _ _ A) as (nd1 & A1 & _ & _ & _ & SC). specialize (SC ltac:(lia)).
      destruct SC as (C1 & C2 & C3 & C4 & C5 & C6 & C7).
      pose proof (g_node _ _ _ _ I1 _ _ A1) as N1. cbn [isb] in N1. rewrite SN' in N1.
      assert (NG1 : ~ gone n (tr w1)) by (eapply Frame_gone; eauto).
      assert (LN : lvl p <= n) by (rewrite <- O; exact (ni_lvl _ _ _ _ _ _ _ N)).
      assert (F1' : Frame n w w1) by (eapply Frame_mono; [|exact F1]; lia).
      assert (EK1 : exists_place w1 (Kid n i) = true) by (eapply Frame_exists; eauto).
      assert (Ef1 : nth_error (filled nd1) i = Some false) by congruence.
      destruct r as [v|].
      * set (w2 := emit (EDone (Kid n i) v) w1).
        assert (F2 : Frame n w w2). { eapply Frame_trans; [exact F1'|]. apply Frame_emit. cbn. lia. }
        assert (G2 : Glob w2). { apply Glob_emit; [apply I1|]. split; [intros q [= <-]; exact EK1|discriminate]. }
        assert (NX1 : forall m nd', m <> n -> at_ w1 m nd' -> NI (tr w2) m nd' (sub w2 (owner nd')) (st' m) false false).
        { intros m nd' D B. apply NI_other; [|exact (g_node _ _ _ _ I1 _ _ B)]. intros (j & Q). congruence. }
        assert (A2 : at_ w2 n nd1) by exact A1.
        destruct (b_maybe_return (nb nd) i v) as [o|s] eqn:EM.
        -- split; [discriminate|]. intros w' o' [= <- <-]. split; [exact F2|].
           assert (O1 : owner nd1 = p) by congruence.
           assert (RO : result_ok (EGone n o :: tr w2)).
           { exists (K nd1), (nb nd1), (owner nd1). split; [right; apply (ni_new _ _ _ _ _ _ _ N1)|]. left.
             exists i, v, (tr w1). split; [reflexivity|]. split; [lia|]. congruence. }
           assert (SW2 : sub w2 p = Some n). { rewrite <- O1. exact (li_sub _ _ _ _ _ _ _ (ni_live _ _ _ _ _ _ _ N1 NG1)). }
           eapply (Inv_kill st' w2 n nd1 o); auto.
           ++ change (tr w2) with (EDone (Kid n i) v :: tr w1).
              destruct N1 as [B1 B2 B3 B4 B5 B6 B7 B8 B9]. constructor; auto.
              ** right. now right.
              ** constructor.
              ** intros j [].
              ** intros j Hj. specialize (B8 j Hj). cbn [polls wakes mem existsb b2n rest] in *. lia.
              ** intro Q. destruct Q. apply gone_cons. eauto.
           ++ intros m D. unfold st'. rewrite !upd_other by auto. reflexivity.
           ++ apply upd_same.
           ++ apply (g_busy _ _ _ _ I1).
        -- rewrite A2. cbn [get bind].
           destruct (store_ok _ _ _ _ _ i s N1 NG1 Ef1) as (c & Es & Ec). rewrite Es. cbn [bind].
           set (w3 := set_node n c w2).
           assert (A3 : at_ w3 n (mkN V c (nb nd1) (owner nd1))) by (apply at_set_same; auto).
           assert (F3 : Frame n w2 w3) by (eapply Frame_set; eauto).
           assert (F4 : Frame n w w3) by (eapply Frame_trans; eauto).
           apply (goodc_ext _ _ _ _ _ _ EXT). eapply goodc_step; [exact F4|].
           assert (N3 : NI (tr w2) n (mkN V c (nb nd1) (owner nd1)) (sub w2 (owner nd1)) (Some l') false false).
           { eapply NI_store; eauto. congruence. }
           eapply (HL st' p l' n _ w3); [|exact A3|cbn; congruence| | |exact SN'|exact SD'|].
           ++ constructor.
              ** eapply Glob_set; eauto.
              ** eapply Nodes_set; [exact A2| |].
                 --- rewrite SN'. exact N3.
                 --- intros m nd' D B. apply NX1; auto.
              ** intros m l0 Q. unfold w3. rewrite set_node_len. apply (g_busy _ _ _ _ I1 _ _ Q).
           ++ unfold w3. rewrite set_node_tr. unfold w2. cbn. rewrite gone_cons. intros [(v0 & Q)|Q]; [discriminate Q|auto].
           ++ exact (live_Frame _ _ _ _ _ _ _ I L F4 LN).
           ++ cbn [nd_c nd_b]. rewrite Ec, C2, C6. exact WC.
      * set (w2 := emit (EPend (Kid n i)) w1).
        assert (F2 : Frame n w w2). { eapply Frame_trans; [exact F1'|]. apply Frame_emit. exact Logic.I. }
        apply (goodc_ext _ _ _ _ _ _ EXT). eapply goodc_step; [exact F2|].
        apply (HL st' p l' n nd1 w2); auto.
        -- constructor.
           ++ apply Glob_emit; [apply I1|]. split; [intros q Q; discriminate Q|exact Logic.I].
           ++ intros m nd' B. apply NI_other; [exact Logic.I|]. exact (g_node _ _ _ _ I1 _ _ B).
           ++ apply (g_busy _ _ _ _ I1).
        -- congruence.
        -- unfold w2. cbn. rewrite gone_cons. intros [(v0 & Q)|Q]; [discriminate Q|auto].
        -- exact (live_Frame _ _ _ _ _ _ _ I L F2 LN).
        -- rewrite C2, C6. exact WC.
Qed.

Lemma all_ok f : SBlock f /\ SCode f /\ SAwait f /\ SComb f /\ SLoop f.
Proof.
  induction f as [|f (HB & HC & HA & HP & HL)].
  - split; [|split; [|split; [|split]]]; red; intros; (apply nofuel_good || apply nofuel_goodc).
  - split; [apply step_block; auto|]. split; [apply step_code; auto|]. split; [apply step_await; auto|].
    split; [apply step_comb; auto|apply step_loop; auto].
Qed.

(** ** Histories *)
Definition st0 : nat -> option (list nat) := fun _ => None.
Notation exec := (exec V X ww debug code). Notation run := (run V X ww debug code). Notation run_from := (run_from V X ww debug code).
Lemma Inv_start x : Inv st0 None None (start V X x).
Proof.
  constructor.
  - constructor; cbn.
    + intros [|n] nd A; discriminate A.
    + intros n k b p [].
    + intros p n Q. discriminate Q.
    + intros n (v & []).
    + intros e p [].
    + split; [discriminate|]. intros (v & []).
    + auto.
  - intros [|n] nd A; discriminate A.
  - intros n l Q. discriminate Q.
Qed.
Definition over (w : world) : world := mkT V X (hp w) (sub w) (w_x V X w) true (tr w).
Lemma Inv_pend st w p : Inv st None None w -> Inv st None None (emit (EPend p) w).
Proof.
  intro I. constructor.
  - apply Glob_emit; [apply I|]. split; [intros q Q; discriminate Q|exact Logic.I].
  - intros m nd' B. apply NI_other; [exact Logic.I|]. exact (g_node _ _ _ _ I _ _ B).
  - apply (g_busy _ _ _ _ I).
Qed.
Lemma Inv_done st w v : Inv st None None w -> Inv st None None (over (emit (EDone Root v) w)).
Proof.
  intro I. pose proof (g_glob _ _ _ _ I) as G.
  assert (EX : forall q, exists_place (over (emit (EDone Root v) w)) q = exists_place w q) by (intros []; reflexivity).
  constructor.
  - constructor.
    + intros m nd A. rewrite EX. eapply g_own; eauto.
    + intros m k b p [Q|Q]; [discriminate Q|]. apply (g_new _ G _ _ _ _ Q).
    + intros p m Q. destruct (g_sub _ G _ _ Q) as (nd & B & E & NG). exists nd. split; auto. split; auto.
      cbn. rewrite gone_cons. intros [(u & Q')|Q']; [discriminate Q'|auto].
    + intros m Q. apply gone_cons in Q. destruct Q as [(u & Q)|Q]; [discriminate Q|]. exact (g_gone _ G _ Q).
    + intros e p [<-|Q] E; rewrite EX; [injection E as <-; reflexivity|eapply g_ev; eauto].
    + split; [intros _; exists v; now left|reflexivity].
    + destruct (g_tr _ G) as (T1 & T2 & T3). split; [|split]; (split; [exact Logic.I|auto]).
  - intros m nd' B. apply NI_other; [|exact (g_node _ _ _ _ I _ _ B)]. intros (j & Q). discriminate Q.
  - apply (g_busy _ _ _ _ I).
Qed.
(** a poll of the root *)
Lemma root_poll fuel tag w : Inv st0 None None w -> w_over V X w = false ->
  good st0 0 (emit (EPoll Root) w) (poll_block fuel Root (mkW (Some (task_of Root)) tag) w).
Proof.
  intros I O. destruct (all_ok fuel) as (HB & _). apply (HB st0 Root); auto.
  - apply (Inv_begin st0 st0 w Root I); auto.
    + constructor. rewrite <- (g_over _ (g_glob _ _ _ _ I)). congruence.
    + intros n i Q. discriminate Q.
  - constructor. rewrite <- (g_over _ (g_glob _ _ _ _ I)). congruence.
  - intros m _. reflexivity.
Qed.
Lemma exec_ok w e : Inv st0 None None w ->
  exec w e <> Fault /\ forall w', exec w e = Done w' -> Inv st0 None None w'.
Proof.
  intro I. destruct e as [fuel tag|p|f]; cbn [Tree.exec].
  - destruct (w_over V X w) eqn:O; [split; [discriminate|intros w' [= <-]; auto]|].
    destruct (root_poll fuel tag w I O) as (NF & HD).
    destruct (poll_block fuel Root (mkW (Some (task_of Root)) tag) w) as [(w1, r)| | |]; cbn [bind];
      [|split; [discriminate|intros w' Q; discriminate Q]|destruct NF; reflexivity|split; [discriminate|intros w' Q; discriminate Q]].
    destruct (HD _ _ eq_refl) as (I1 & _). destruct r as [v|].
    + split; [discriminate|]. intros w' [= <-]. apply Inv_done; auto.
    + split; [discriminate|]. intros w' [= <-]. apply Inv_pend; auto.
  - destruct (wake_place_ok st0 p w I) as (w' & E & I' & _). rewrite E. split; [discriminate|]. intros w'' [= <-]. auto.
  - split; [discriminate|]. intros w' [= <-]. apply Inv_set_x; auto.
Qed.
Lemma run_from_ok evs : forall w, Inv st0 None None w ->
  run_from w evs <> Fault /\ forall w', run_from w evs = Done w' -> Inv st0 None None w'.
Proof.
  induction evs as [|e evs IH]; intros w I; cbn [Tree.run_from].
  - split; [discriminate|]. intros w' [= <-]. auto.
  - destruct (exec_ok w e I) as (NF & HD). destruct (exec w e) as [w1| | |]; cbn [bind];
      [|split; [discriminate|intros w' Q; discriminate Q]|destruct NF; reflexivity|split; [discriminate|intros w' Q; discriminate Q]].
    apply IH. auto.
Qed.
Lemma run_ok x evs : run x evs <> Fault /\ forall w, run x evs = Done w -> Inv st0 None None w.
Proof. apply run_from_ok, Inv_start. Qed.

Lemma live_node w n i : Inv st0 None None w -> live (tr w) (Kid n i) ->
  exists nd, at_ w n nd /\ i < K nd /\ live (tr w) (owner nd) /\ ~ gone n (tr w) /\ ~ returned (Kid n i) (tr w) /\
    LV (tr w) n nd (sub w (owner nd)) None false false.
Proof.
  intros I L. inversion L as [|n' k b p i' H Hi G R L']; subst.
  destruct (g_new _ (g_glob _ _ _ _ I) _ _ _ _ H) as (nd & A & E1 & E2 & E3). exists nd.
  split; auto. split; [lia|]. split; [rewrite E3; exact L'|]. split; auto. split; auto.
  apply (ni_live _ _ _ _ _ _ _ (g_node _ _ _ _ I _ _ A) G).
Qed.
(** a woken block's wake went up to the root *)
Lemma woken_owner w n i nd : LV (tr w) n nd (sub w (owner nd)) None false false -> i < K nd -> ~ returned (Kid n i) (tr w) ->
  woken (Kid n i) (tr w) = true -> woken (owner nd) (tr w) = true.
Proof.
  intros L Hi R W. destruct (li_woken _ _ _ _ _ _ _ L i Hi W) as [Q|[[]|Q]]; [|contradiction].
  apply (li_good _ _ _ _ _ _ _ L); auto. intro Z. rewrite Z in Q. destruct Q.
Qed.
Lemma live_ind_ w (P : place -> Prop) : Inv st0 None None w -> P Root ->
  (forall n i nd, at_ w n nd -> i < K nd -> live (tr w) (owner nd) -> ~ gone n (tr w) -> ~ returned (Kid n i) (tr w) ->
     LV (tr w) n nd (sub w (owner nd)) None false false -> P (owner nd) -> P (Kid n i)) ->
  forall p, live (tr w) p -> P p.
Proof.
  intros I H0 HS p L. induction L as [R|n k b p i H Hi G R L IH]; auto.
  destruct (g_new _ (g_glob _ _ _ _ I) _ _ _ _ H) as (nd & A & E1 & E2 & E3).
  apply (HS n i nd); auto; [lia|congruence| |congruence].
  apply (ni_live _ _ _ _ _ _ _ (g_node _ _ _ _ I _ _ A) G).
Qed.
Lemma woken_root w p : Inv st0 None None w -> live (tr w) p -> woken p (tr w) = true -> woken Root (tr w) = true.
Proof.
  intros I L. revert p L. apply (live_ind_ w (fun p => woken p (tr w) = true -> woken Root (tr w) = true) I); auto.
  intros n i nd A Hi Lo G R LV0 IH W. apply IH. eapply woken_owner; eauto.
Qed.
Lemma live_polled w p : Inv st0 None None w -> live (tr w) p -> p = Root \/ polls p (tr w) > 0.
Proof.
  intros I L. destruct p as [|n i]; auto. right. destruct (live_node _ _ _ I L) as (nd & A & Hi & _ & _ & R & LV0).
  destruct (li_first _ _ _ _ _ _ _ LV0 i Hi) as [Q|[[]|[Q|(Q & _)]]]; [auto|contradiction|discriminate Q].
Qed.
Lemma live_waits w n k b p : Inv st0 None None w -> In (ENew n k b p) (tr w) -> ~ gone n (tr w) ->
  (k = 0 /\ b_pend_if_empty b = true) \/ exists i, i < k /\ ~ returned (Kid n i) (tr w).
Proof.
  intros I H G. destruct (g_new _ (g_glob _ _ _ _ I) _ _ _ _ H) as (nd & A & <- & <- & _).
  destruct (ni_live _ _ _ _ _ _ _ (g_node _ _ _ _ I _ _ A) G) as [L1 L2 L3 L4 L5 L6 L7 L8 L9 L10 L11].
  destruct (L5 eq_refl) as [Q|(Q & Q')]; auto. right.
  assert (In false (filled nd)) as F. { apply (count_occ_In bool_dec). lia. }
  apply In_nth_error in F as (i & F). exists i. split; [rewrite <- L3; apply nth_error_Some; congruence|auto].
Qed.
Lemma polls_wakes w n i : Inv st0 None None w -> polls (Kid n i) (tr w) <= 1 + wakes (Kid n i) (tr w).
Proof.
  intro I. destruct (exists_place w (Kid n i)) eqn:E.
  - destruct (exists_kid _ _ _ E) as (nd & A & Hi). pose proof (ni_count _ _ _ _ _ _ _ (g_node _ _ _ _ I _ _ A) i Hi). lia.
  - destruct (no_ev (Kid n i) (tr w) Root) as (Q & _); [|lia].
    intros e H Q. pose proof (g_ev _ (g_glob _ _ _ _ I) _ _ H Q). congruence.
Qed.
Lemma woken_app p new (t : list ev) : ~ In (EPoll p) new -> woken p t = true -> woken p (new ++ t) = true.
Proof.
  induction new as [|e new IH]; cbn; auto. intros N W.
  assert (IH' : woken p (new ++ t) = true) by (apply IH; auto).
  destruct e as [r|r|r v|r|n k b r|n v|r g]; auto.
  - rewrite place_eqb_neq; auto. intros ->. auto.
  - destruct (place_eqb r p); auto.
Qed.
Lemma owed_app p q new (t : list ev) : ~ In (EPoll p) new -> In (EPoll q) new -> woken p t = true -> owed p q (new ++ t) = true.
Proof.
  induction new as [|e new IH]; cbn [In app]; [intros _ []|]. intros N H W.
  assert (Nn : ~ In (EPoll p) new) by auto.
  destruct e as [r|r|r v|r|n k b r|n v|r g]; cbn [owed];
    try (destruct H as [H|H]; [discriminate H|apply IH; auto]).
  destruct (place_eqb_spec r p) as [->|D]; [destruct N; auto|].
  destruct (place_eqb_spec r q) as [->|D'].
  - rewrite (woken_app _ _ _ Nn W). reflexivity.
  - destruct H as [H|H]; [congruence|apply IH; auto].
Qed.
Lemma next_poll w fuel tag w' p : Inv st0 None None w -> live (tr w) p -> woken p (tr w) = true ->
  exec w (HPoll fuel tag) = Done w' ->
  exists new, tr w' = new ++ tr w /\ (In (EPoll p) new \/ ~ live (tr w') p).
Proof.
  intros I L W E.
  assert (I' : Inv st0 None None w') by (apply (exec_ok w (HPoll fuel tag)); auto).
  cbn [Tree.exec] in E. destruct (w_over V X w) eqn:O.
  { exfalso. apply (g_over _ (g_glob _ _ _ _ I)) in O. clear - L O. induction L as [R|n k b p i H Hi G R L IH]; auto. }
  destruct (root_poll fuel tag w I O) as (NF & HD).
  assert (HR : forall w1 r, poll_block fuel Root (mkW (Some (task_of Root)) tag) w = Done (w1, r) ->
    exists evs, tr w1 = evs ++ tr w /\ In (EPoll Root) evs).
  { intros w1 r Q. destruct (HD _ _ Q) as (_ & ((evs & E1 & _) & _)). exists (evs ++ [EPoll Root]).
    rewrite <- app_assoc. split; [exact E1|]. apply in_app_iff. right. now left. }
  assert (HN : exists new, tr w' = new ++ tr w /\ In (EPoll Root) new).
  { destruct (poll_block fuel Root (mkW (Some (task_of Root)) tag) w) as [(w1, r)| | |]; try discriminate E. cbn [bind] in E.
    destruct (HR _ _ eq_refl) as (evs & E1 & H1). destruct r as [v|]; injection E as <-; cbn; rewrite E1.
    - exists (EDone Root v :: evs). split; [reflexivity|now right].
    - exists (EPend Root :: evs). split; [reflexivity|now right]. }
  destruct HN as (new & EN & HN). exists new. split; auto.
  assert (PD : forall q : place, In (EPoll q) new \/ ~ In (EPoll (V := V) q) new).
  { intro q. clear. induction new as [|e new IH]; [right; intros []|]. destruct IH as [IH|IH]; [left; now right|].
    destruct e as [r| | | | | |]; try (right; intros [Q|Q]; [discriminate Q|auto]).
    destruct (place_eqb_spec r q) as [->|D]; [left; now left|right; intros [Q|Q]; [congruence|auto]]. }
  revert p L W. apply (live_ind_ w (fun p => woken p (tr w) = true -> In (EPoll p) new \/ ~ live (tr w') p) I); auto.
  intros n i nd A Hi Lo G R LV0 IH W. destruct (PD (Kid n i)) as [Q|Q]; auto. right. intro LL.
  destruct (live_node _ _ _ I' LL) as (nd' & A' & Hi' & Lo' & G' & R' & LV').
  assert (EO : owner nd' = owner nd).
  { pose proof (ni_new _ _ _ _ _ _ _ (g_node _ _ _ _ I _ _ A)) as Q1.
    assert (Q2 : In (ENew n (K nd) (nb nd) (owner nd)) (tr w')) by (rewrite EN; apply in_app_iff; auto).
    destruct (g_new _ (g_glob _ _ _ _ I') _ _ _ _ Q2) as (nd'' & A'' & _ & _ & E3).
    rewrite (at_fun _ _ _ _ A' A''). exact E3. }
  destruct (IH (woken_owner _ _ _ _ LV0 Hi R W)) as [P|P]; [|apply P; rewrite <- EO; exact Lo'].
  pose proof (owed_app _ _ _ _ Q P W) as OW. rewrite <- EN, <- EO in OW.
  destruct (li_owed _ _ _ _ _ _ _ LV' i Hi' OW) as [[]|[Q'|(Q' & _)]]; [contradiction|discriminate Q'].
Qed.

(** ** The bound on the length of a poll does not matter *)
Definition le_res (r r' : res (world * option V)) : Prop := r = NoFuel \/ r = r'.
Lemma le_bind {A B} (r r' : res A) (g g' : A -> res B) : (r = NoFuel \/ r = r') -> (forall a, g a = NoFuel \/ g a = g' a) ->
  bind r g = NoFuel \/ bind r g = bind r' g'.
Proof. intros [->|<-] H; [now left|]. destruct r; cbn; auto. Qed.
Lemma more_fuel f :
  (forall p wk w, le_res (poll_block f p wk w) (poll_block (S f) p wk w)) /\
  (forall p wk got w, le_res (run_code f p wk got w) (run_code (S f) p wk got w)) /\
  (forall p wk n w, le_res (await f p wk n w) (await (S f) p wk n w)) /\
  (forall n wk w, le_res (poll_comb f n wk w) (poll_comb (S f) n wk w)) /\
  (forall n l w, le_res (loop f n l w) (loop (S f) n l w)).
Proof.
  induction f as [|f (HB & HC & HA & HP & HL)].
  - split; [|split; [|split; [|split]]]; intros; now left.
  - unfold le_res in *. split; [|split; [|split; [|split]]]; intros.
    + rewrite (poll_block_S (S f)), poll_block_S. destruct (sub w p); auto.
    + rewrite (run_code_S (S f)), run_code_S. destruct (code (w_x V X w) p got) as ((x, ws), nx).
      apply le_bind; [now right|]. intro w1. destruct nx; auto.
    + rewrite (await_S (S f)), await_S. apply le_bind; auto. intros (w1, [v|]); auto.
    + rewrite (poll_comb_S (S f)), poll_comb_S. apply le_bind; [now right|]. intro nd.
      destruct (c_entry V V V (nb nd) (nc nd)); auto. apply le_bind; [now right|]. intro r2. auto.
    + rewrite (loop_S (S f)), loop_S. apply le_bind; [now right|]. intro nd. destruct l as [|i l']; auto.
      apply le_bind; [now right|]. intros [|]; auto. apply le_bind; auto. intros (w1, [v|]); auto.
      destruct (b_maybe_return (nb nd) i v); auto. apply le_bind; [now right|]. intro nd2.
      apply le_bind; [now right|]. intro c. auto.
Qed.
Lemma more_fuel_le f f' p wk w : f <= f' -> poll_block f p wk w <> NoFuel -> poll_block f' p wk w = poll_block f p wk w.
Proof.
  intros L H. induction L as [|f' L IH]; auto. rewrite <- IH.
  destruct (more_fuel f') as (HB & _). destruct (HB p wk w) as [Q|Q]; [congruence|auto].
Qed.
Lemma exec_more f f' tag w : f <= f' -> exec w (HPoll f tag) <> NoFuel -> exec w (HPoll f' tag) = exec w (HPoll f tag).
Proof.
  intros L. cbn [Tree.exec]. destruct (w_over V X w); auto. intro H.
  rewrite (more_fuel_le f f'); auto. intro Q. rewrite Q in H. apply H. reflexivity.
Qed.

(** ** A value that is returned is handed on *)
Definition next_is (a b : ev) (t : list ev) : Prop := exists pre post, t = pre ++ b :: a :: post.
Definition ans (t : list ev) : Prop := forall n v, In (EGone n v) t -> exists p, next_is (EGone n v) (ERun p (Some v)) t.
Definition not_gone (e : ev) : Prop := match e with EGone _ _ => False | _ => True end.
Lemma ans_cons e t : not_gone e -> ans t -> ans (e :: t).
Proof.
  intros N A n v [->|H]; [destruct N|]. destruct (A n v H) as (p & pre & post & E). exists p, (e :: pre), post. cbn. now rewrite E.
Qed.
Lemma ans_gone p n v t : ans t -> ans (ERun p (Some v) :: EGone n v :: t).
Proof.
  intros A m u [Q|[Q|H]]; [discriminate Q| |].
  - injection Q as <- <-. exists p, [], t. reflexivity.
  - destruct (A m u H) as (q & pre & post & E). exists q, (ERun p (Some v) :: EGone n v :: pre), post. cbn. now rewrite E.
Qed.
Lemma ans_wake fuel : forall locked t w w', wake V X fuel locked t w = Done w' -> ans (tr w) -> ans (tr w').
Proof.
  induction fuel as [|fuel IH]; intros locked t w w'; cbn [wake]; (destruct (w_task t) as [c|]; [|intros [= <-]; auto]);
    (destruct (place_of c) as [|n i]; [intros [= <-] A; apply ans_cons; [exact Logic.I|auto]|]); [discriminate|].
  destruct (existsb (Nat.eqb n) locked); [discriminate|]. destruct (nth_error (hp w) n) as [nd|]; [|discriminate]. cbn [get bind].
  destruct (rd_wake (rd nd) i) as [(r, o)|]; [|discriminate]. cbn [get bind]. intros E A.
  assert (A' : ans (tr (set_node n (set_rd V (nc nd) r) (emit (EWake (Kid n i)) w)))).
  { rewrite set_node_tr. apply ans_cons; [exact Logic.I|auto]. }
  destruct o as [q|]; [eapply IH; eauto|injection E as <-; auto].
Qed.
Lemma ans_wake_all l : forall w w', wake_all V X l w = Done w' -> ans (tr w) -> ans (tr w').
Proof.
  induction l as [|p l IH]; intros w w'; cbn [wake_all]; [intros [= <-]; auto|].
  destruct (wake_place V X w p) as [w1| | |] eqn:E; try discriminate. cbn [bind]. intros E' A. apply (IH w1); auto.
  unfold wake_place in E. destruct (exists_place w p); [eapply ans_wake; eauto|injection E as <-; auto].
Qed.
Lemma ans_poll f :
  (forall p wk w w' o, poll_block f p wk w = Done (w', o) -> ans (tr w) -> ans (tr w')) /\
  (forall p wk got w w' o, run_code f p wk got w = Done (w', o) -> ans (ERun p got :: tr w) -> ans (tr w')) /\
  (forall p wk n w w' o, await f p wk n w = Done (w', o) -> ans (tr w) -> ans (tr w')) /\
  (forall n wk w w' o, poll_comb f n wk w = Done (w', o) -> ans (tr w) -> ans (tr w')) /\
  (forall n l w w' o, loop f n l w = Done (w', o) -> ans (tr w) -> ans (tr w')).
Proof.
  induction f as [|f (HB & HC & HA & HP & HL)].
  - split; [|split; [|split; [|split]]]; intros; discriminate.
  - split; [|split; [|split; [|split]]]; intros.
    + rewrite poll_block_S in H. assert (A : ans (tr (emit (EPoll p) w))) by (apply ans_cons; [exact Logic.I|auto]).
      destruct (sub w p); [eapply HA; eauto|]. eapply HC; eauto. apply ans_cons; [exact Logic.I|auto].
    + rewrite run_code_S in H. destruct (code (w_x V X w) p got) as ((x, ws), nx).
      destruct (wake_all V X ws (Tree.set_x V X x (emit (ERun p got) w))) as [w1| | |] eqn:E; try discriminate H. cbn [bind] in H.
      assert (A : ans (tr w1)) by (eapply ans_wake_all; eauto).
      destruct nx; try discriminate H; try (injection H as <- <-; exact A). eapply HA; eauto.
      unfold alloc. cbn. apply ans_cons; [exact Logic.I|auto].
    + rewrite await_S in H. destruct (poll_comb f n wk w) as [(w1, r)| | |] eqn:E; try discriminate H. cbn [bind] in H.
      pose proof (HP _ _ _ _ _ E H0) as A. destruct r as [v|]; [|injection H as <- <-; exact A].
      eapply HC; eauto. apply ans_gone. exact A.
    + rewrite poll_comb_S in H. destruct (nth_error (hp w) n) as [nd|]; [|discriminate H]. cbn [get bind] in H.
      destruct (c_entry V V V (nb nd) (nc nd)) as [[| |]|]; try discriminate H; [injection H as <- <-; auto|].
      destruct (rd_clear (rd_set_parent ww (rd nd) wk)) as [r2|]; [|discriminate H]. cbn [get bind] in H.
      eapply HL; eauto. rewrite set_node_tr. auto.
    + rewrite loop_S in H. destruct (nth_error (hp w) n) as [nd|]; [|discriminate H]. cbn [get bind] in H. destruct l as [|i l'].
      * destruct (finish V debug (nb nd) (nc nd)); try discriminate H. injection H as <- <-. auto.
      * destruct (nth_error (filled nd) i) as [[|]|]; try discriminate H; cbn [get bind] in H; [eapply HL; eauto|].
        destruct (poll_block f (Kid n i) (waker_of (Kid n i)) w) as [(w1, r)| | |] eqn:E; try discriminate H. cbn [bind] in H.
        pose proof (HB _ _ _ _ _ E H0) as A. destruct r as [v|]; [|eapply HL; eauto; apply ans_cons; [exact Logic.I|auto]].
        assert (A2 : ans (tr (emit (EDone (Kid n i) v) w1))) by (apply ans_cons; [exact Logic.I|auto]).
        destruct (b_maybe_return (nb nd) i v) as [u|s]; [injection H as <- <-; exact A2|].
        destruct (nth_error (hp (emit (EDone (Kid n i) v) w1)) n) as [nd2|]; [|discriminate H]. cbn [get bind] in H.
        destruct (store V (nc nd2) i s) as [c| | |]; try discriminate H. cbn [bind] in H.
        eapply HL; eauto. rewrite set_node_tr. exact A2.
Qed.
Lemma ans_run x evs w : run x evs = Done w -> ans (tr w).
Proof.
  unfold Tree.run. assert (A0 : ans (tr (start V X x))) by (intros n v []). revert A0. generalize (start V X x).
  induction evs as [|e evs IH]; intros w0 A R; cbn [Tree.run_from] in R; [injection R as <-; auto|].
  destruct (exec w0 e) as [w1| | |] eqn:E; try discriminate R. cbn [bind] in R. apply (IH w1); auto. clear R.
  destruct e as [fuel tag|p|f]; cbn [Tree.exec] in E.
  - destruct (w_over V X w0); [injection E as <-; auto|].
    destruct (poll_block fuel Root (mkW (Some (task_of Root)) tag) w0) as [(w2, r)| | |] eqn:E2; try discriminate E. cbn [bind] in E.
    destruct (ans_poll fuel) as (HB & _). pose proof (HB _ _ _ _ _ E2 A) as A2.
    destruct r as [v|]; injection E as <-; cbn; apply ans_cons; try exact Logic.I; exact A2.
  - unfold wake_place in E. destruct (exists_place w0 p); [eapply ans_wake; eauto|injection E as <-; auto].
  - injection E as <-. exact A.
Qed.

(** ** A wake from outside *)
Lemma wake_woken st p w w' : Inv st None None w -> exists_place w p = true -> wake_place V X w p = Done w' -> woken p (tr w') = true.
Proof.
  intros I EX. unfold wake_place. rewrite EX. unfold waker_of.
  assert (G : forall fuel locked t (w w' : world) q, wake V X fuel locked t w = Done w' -> woken q (tr w) = true -> woken q (tr w') = true).
  { clear. induction fuel as [|fuel IH]; intros locked t w w' q; cbn [wake]; (destruct (w_task t) as [c|]; [|intros [= <-]; auto]);
      (destruct (place_of c) as [|n i]; [intros [= <-] A; cbn [Tree.emit w_tr woken]; destruct (place_eqb Root q); auto|]); [discriminate|].
    destruct (existsb (Nat.eqb n) locked); [discriminate|]. destruct (nth_error (hp w) n) as [nd|]; [|discriminate]. cbn [get bind].
    destruct (rd_wake (rd nd) i) as [(r, o)|]; [|discriminate]. cbn [get bind]. intros E A.
    assert (A' : woken q (tr (set_node n (set_rd V (nc nd) r) (emit (EWake (Kid n i)) w))) = true).
    { rewrite set_node_tr. cbn [Tree.emit w_tr woken]. destruct (place_eqb (Kid n i) q); auto. }
    destruct o as [u|]; [eapply IH; eauto|injection E as <-; auto]. }
  cbn [wake w_task]. rewrite place_task. destruct p as [|n i].
  - intros [= <-]. reflexivity.
  - cbn [existsb]. destruct (nth_error (hp w) n) as [nd|]; [|discriminate]. cbn [get bind].
    destruct (rd_wake (rd nd) i) as [(r, o)|]; [|discriminate]. cbn [get bind]. intro E.
    assert (A' : woken (Kid n i) (tr (set_node n (set_rd V (nc nd) r) (emit (EWake (Kid n i)) w))) = true).
    { rewrite set_node_tr. cbn [Tree.emit w_tr woken]. now rewrite place_eqb_refl. }
    destruct o as [u|]; [eapply G; eauto|injection E as <-; auto].
Qed.
Lemma live_exists w p : Inv st0 None None w -> live (tr w) p -> exists_place w p = true.
Proof. intros I L. destruct p as [|n i]; auto. destruct (live_node _ _ _ I L) as (nd & A & Hi & _). eapply kid_exists; eauto. Qed.
End Proofs.
