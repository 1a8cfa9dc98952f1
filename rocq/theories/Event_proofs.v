(** Proofs for C24 and C25. *)
From Coq Require Import List Arith Bool Lia.
From Verif Require Import Util Arena Spec_arena Event Spec_event.
Import ListNotations.

Section Proofs.
Variable ww : waker -> waker -> bool.
Hypothesis WW : will_wake_ok ww.

Lemma fupd_eq {A} (f : nat -> A) i v : fupd f i v i = v.
Proof. unfold fupd. rewrite Nat.eqb_refl. reflexivity. Qed.
Lemma fupd_neq {A} (f : nat -> A) i v j : j <> i -> fupd f i v j = f j.
Proof. unfold fupd. intro. destruct (Nat.eqb_spec j i); congruence. Qed.

Definition stream_ok (w : world) (s : nat) (st : stream) : Prop :=
  In (TNew s (s_target st) (s_name st)) (tr w) /\ ~ In (TDrop s) (tr w) /\ s_slot st = latest s (tr w) /\
  (if s_closure st then exists w', last_waker s (tr w) = Some w' /\ same_task (s_waker st) w'
   else last_waker s (tr w) = None /\ s_slot st = None) /\
  (s_capture st = true -> captured s (tr w)) /\
  (s_closure st = true -> In s (map l_cb (listeners w))).
Definition listener_ok (w : world) (l : listener) : Prop :=
  l_cb l < next w /\ (l_capture l = true -> captured (l_cb l) (tr w)) /\
  match streams w (l_cb l) with
  | Some st => s_closure st = true /\ l_target l = s_target st /\ l_name l = s_name st
  | None => l_capture l = true
  end.
(** events of streams that do not exist yet *)
Definition about (s : nat) (e : ev) : Prop :=
  match e with TNew s' _ _ | TCapture s' _ | TPoll s' _ _ | TDrop s' | TDeliver s' _ | TThrow s' => s' = s | _ => False end.
Record EI (w : world) : Prop := {
  ei_stream : forall s st, streams w s = Some st -> s < next w /\ stream_ok w s st;
  ei_listener : forall l, In l (listeners w) -> listener_ok w l;
  ei_nodup : NoDup (map l_cb (listeners w));
  ei_new : forall s t n, In (TNew s t n) (tr w) -> forall st, streams w s = Some st -> t = s_target st /\ n = s_name st;
  ei_old : forall s e, In e (tr w) -> about s e -> s < next w;
  ei_dead : forall s, s < next w -> streams w s = None -> In (TDrop s) (tr w);
  ei_polls : polls_ok (tr w);
  ei_wakes : wakes_ok (tr w);
  ei_throw : forall s, In (TThrow s) (tr w) -> captured s (tr w) /\ In (TDrop s) (tr w) }.

Lemma init_EI : EI init.
Proof. split; cbn; try discriminate; try (intros; contradiction); try constructor; intros; lia. Qed.

Lemma latest_new s (t : list ev) : (forall e, In e t -> about s e -> False) -> latest s t = None.
Proof.
  induction t as [|e t IH]; intro H; [reflexivity|].
  assert (IH' : latest s t = None) by (apply IH; intros; eapply H; cbn; eauto).
  assert (Ha := H e (or_introl eq_refl)). destruct e; cbn in *; auto.
  - destruct r; auto. destruct (Nat.eqb_spec s0 s); auto; tauto.
  - destruct (Nat.eqb_spec s0 s); auto. tauto.
Qed.
Lemma last_new s (t : list ev) : (forall e, In e t -> about s e -> False) -> last_waker s t = None.
Proof.
  induction t as [|e t IH]; intro H; [reflexivity|].
  assert (IH' : last_waker s t = None) by (apply IH; intros; eapply H; cbn; eauto).
  assert (Ha := H e (or_introl eq_refl)). destruct e; cbn in *; auto.
  destruct (Nat.eqb_spec s0 s); auto. tauto.
Qed.

(** an event not about [s] changes nothing for [s] *)
Lemma other_latest s e t : ~ about s e -> latest s (e :: t) = latest s t.
Proof. destruct e; cbn; auto; intro; destruct (Nat.eqb_spec s0 s); try tauto; destruct r; auto. Qed.
Lemma other_last s e t : ~ about s e -> last_waker s (e :: t) = last_waker s t.
Proof. destruct e; cbn; auto. intro. destruct (Nat.eqb_spec s0 s); tauto. Qed.

(** the streams and listeners that a step does not touch *)
Lemma stream_other w w' s st evs : stream_ok w s st ->
  tr w' = evs ++ tr w -> Forall (fun e => ~ about s e) evs ->
  (In s (map l_cb (listeners w)) -> In s (map l_cb (listeners w'))) -> stream_ok w' s st.
Proof.
  intros (A & B & C & D & E & F) ET FA L. unfold stream_ok, captured in *. rewrite ET.
  assert (LT : latest s (evs ++ tr w) = latest s (tr w)).
  { clear -FA. induction FA as [|e evs N _ IH]; [reflexivity|]. cbn [app]. rewrite other_latest; auto. }
  assert (LW : last_waker s (evs ++ tr w) = last_waker s (tr w)).
  { clear -FA. induction FA as [|e evs N _ IH]; [reflexivity|]. cbn [app]. rewrite other_last; auto. }
  rewrite LT, LW. repeat split; auto.
  - apply in_app_iff; auto.
  - intro H. apply in_app_iff in H as [H|H]; auto. rewrite Forall_forall in FA. apply (FA _ H). reflexivity.
  - intro H. apply in_app_iff. auto.
Qed.
Lemma listener_other w w' l : listener_ok w l -> next w <= next w' -> (captured (l_cb l) (tr w) -> captured (l_cb l) (tr w')) ->
  (match streams w (l_cb l), streams w' (l_cb l) with
   | Some st, Some st' => (s_closure st = true -> s_closure st' = true) /\ s_target st = s_target st' /\ s_name st = s_name st'
   | None, None => True
   | _, _ => False end) -> listener_ok w' l.
Proof.
  intros (A & B & C) N K M. split; [lia|]. split; [auto|].
  destruct (streams w (l_cb l)), (streams w' (l_cb l)); try contradiction; auto.
  destruct C as (C1 & C2 & C3), M as (M1 & M2 & M3). repeat split; auto; congruence.
Qed.

Definition keeps (w w' : world) : Prop :=
  (exists evs, tr w' = evs ++ tr w /\ Forall (fun e => match e with TDeliver _ _ | TBegin _ _ _ _ | TEnd _ | TStop _ => False | _ => True end) evs) /\
  next w <= next w' /\
  (forall s, s < next w -> streams w s = None -> streams w' s = None) /\
  (forall x, In x (listeners w) -> In x (listeners w') \/ (l_cb x < next w' /\ streams w' (l_cb x) = None)) /\
  (forall x, In x (listeners w') -> In x (listeners w) \/ last_waker (l_cb x) (tr w) = None).

Lemma remove_in x t n s l : In x (remove_listener t n s l) <-> In x l /\ ~ (l_target x = t /\ l_name x = n /\ l_cb x = s /\ l_capture x = false).
Proof.
  unfold remove_listener. rewrite filter_In, negb_true_iff.
  destruct (Nat.eqb_spec (l_target x) t), (Nat.eqb_spec (l_name x) n), (Nat.eqb_spec (l_cb x) s), (l_capture x); cbn; intuition congruence.
Qed.

Ltac app1 := match goal with |- context [?e :: tr ?w] => change (e :: tr w) with ([e] ++ tr w) end.

Lemma exec_b_ok w b : EI w -> EI (exec_b ww w b) /\ keeps w (exec_b ww w b).
Proof.
  intro I. assert (KREF : keeps w w).
  { split; [exists []; split; [reflexivity|constructor]|]. split; [lia|]. split; auto. }
  destruct b as [t n|s c|s wk|s]; cbn [exec_b].
  - (* BNew *)
    set (w' := mkW _ _ _ _). set (s := next w) in *.
    assert (NS : streams w s = None). { destruct (streams w s) as [st|] eqn:E; auto. destruct (ei_stream _ I _ _ E). unfold s in *. lia. }
    assert (NE : forall e, In e (tr w) -> about s e -> False). { intros e H1 H2. pose proof (ei_old _ I _ _ H1 H2). unfold s in *. lia. }
    split.
    + split; cbn [w' next streams listeners tr].
      * intros s' st H. destruct (Nat.eq_dec s' s) as [->|N].
        -- rewrite fupd_eq in H. injection H as <-. split; [unfold s; lia|]. unfold stream_ok; cbn -[latest last_waker].
           split; [auto|]. split.
           ++ intros [H|H]; [discriminate|]. eapply NE; [exact H|reflexivity].
           ++ assert (L1 := latest_new s _ NE). assert (L2 := last_new s _ NE).
              cbn. rewrite L1, L2. repeat split; auto; discriminate.
        -- rewrite fupd_neq in H by auto. destruct (ei_stream _ I _ _ H) as (A & B). split; [lia|].
           apply (stream_other w w' s' st [TNew s t n]); auto.
      * intros l H. apply (listener_other w w'); auto.
        -- apply (ei_listener _ I _ H).
        -- cbn; lia.
        -- intro; cbn; unfold captured; cbn; auto.
        -- cbn. destruct (ei_listener _ I _ H) as (L & _). rewrite fupd_neq by (unfold s; lia). destruct (streams w (l_cb l)); auto.
      * apply (ei_nodup _ I).
      * intros s' t' n' [H|H] st Hs.
        -- injection H as <- <- <-. rewrite fupd_eq in Hs. injection Hs as <-. auto.
        -- destruct (Nat.eq_dec s' s) as [->|N]; [exfalso; eapply NE; [exact H|reflexivity]|].
           rewrite fupd_neq in Hs by auto. eapply (ei_new _ I); eauto.
      * intros s' e [<-|H] A; [cbn in A; subst; unfold s; lia|]. pose proof (ei_old _ I _ _ H A). lia.
      * intros s' L H. destruct (Nat.eq_dec s' s) as [->|N]; [rewrite fupd_eq in H; discriminate|].
        rewrite fupd_neq in H by auto. right. apply (ei_dead _ I); auto. unfold s in *; lia.
      * apply (ei_polls _ I).
      * apply (ei_wakes _ I).
      * intros s' [H|H]; [discriminate|]. destruct (ei_throw _ I _ H). unfold captured in *. cbn. auto.
    + split; [exists [TNew s t n]; split; [reflexivity|repeat constructor]|]. split; [cbn; lia|]. split; cbn.
      * intros s' L H. rewrite fupd_neq by (unfold s; lia). auto.
      * auto.
  - (* BCapture *)
    destruct (streams w s) as [st|] eqn:ES; [|auto]. destruct (ei_stream _ I _ _ ES) as (LS & OK).
    set (st' := mkS _ _ _ _ _ _). set (w' := mkW _ _ _ _). split.
    + split; cbn [w' next streams listeners tr].
      * intros s' st0 H. destruct (Nat.eq_dec s' s) as [->|N].
        -- rewrite fupd_eq in H. injection H as <-. split; [auto|]. destruct OK as (A & B & C & D & E & F).
           unfold stream_ok, captured in *. cbn. split; [auto|]. split; [intros [Q|Q]; [discriminate|auto]|]. split; [auto|]. split; [auto|].
           split; [|auto]. destruct c; [auto|discriminate].
        -- rewrite fupd_neq in H by auto. destruct (ei_stream _ I _ _ H) as (A & B). split; [lia|].
           apply (stream_other w w' s' st0 [TCapture s c]); auto.
      * intros l H. apply (listener_other w w'); auto.
        -- apply (ei_listener _ I _ H).
        -- intro; cbn; unfold captured; cbn; auto.
        -- cbn. destruct (Nat.eq_dec (l_cb l) s) as [->|N]; [rewrite ES, fupd_eq; auto|].
           rewrite fupd_neq by auto. destruct (streams w (l_cb l)); auto.
      * apply (ei_nodup _ I).
      * intros s' t' n' [H|H] st0 Hs; [discriminate|]. destruct (Nat.eq_dec s' s) as [->|N].
        -- rewrite fupd_eq in Hs. injection Hs as <-. apply (ei_new _ I _ _ _ H _ ES).
        -- rewrite fupd_neq in Hs by auto. eapply (ei_new _ I); eauto.
      * intros s' e [<-|H] A; [cbn in A; subst; auto|]. apply (ei_old _ I _ _ H A).
      * intros s' L H. destruct (Nat.eq_dec s' s) as [->|N]; [rewrite fupd_eq in H; discriminate|].
        rewrite fupd_neq in H by auto. right. apply (ei_dead _ I); auto.
      * apply (ei_polls _ I).
      * apply (ei_wakes _ I).
      * intros s' [H|H]; [discriminate|]. destruct (ei_throw _ I _ H). unfold captured in *. cbn. auto.
    + split; [exists [TCapture s c]; split; [reflexivity|repeat constructor]|]. split; [cbn; lia|]. split; cbn; [|auto].
      intros s' L H. destruct (Nat.eq_dec s' s) as [->|N]; [congruence|]. rewrite fupd_neq; auto.
  - (* BPoll *)
    destruct (streams w s) as [st|] eqn:ES; [|auto]. destruct (ei_stream _ I _ _ ES) as (LS & OK).
    destruct OK as (A & B & C & D & E & F). unfold poll_next. set (wk' := if ww _ _ then _ else _).
    assert (WK : same_task wk' wk). { unfold wk'. destruct (ww _ _) eqn:Q; [apply WW, Q|reflexivity]. }
    destruct (s_closure st) eqn:CL.
    + set (st' := mkS _ _ _ _ _ _). set (w' := mkW _ _ _ _).
      assert (LT : latest s (TPoll s wk (s_slot st) :: tr w) = None).
      { cbn. destruct (s_slot st); [rewrite Nat.eqb_refl; reflexivity|symmetry; exact C]. }
      split.
      * split; cbn [w' next streams listeners tr].
        -- intros s' st0 H. destruct (Nat.eq_dec s' s) as [->|N].
           ++ rewrite fupd_eq in H. injection H as <-. split; [auto|]. unfold stream_ok, captured in *. cbn [tr w' st' s_target s_name s_slot s_closure s_waker s_capture listeners].
              rewrite LT. split; [cbn; auto|]. split; [intros [Q|Q]; [discriminate|auto]|]. split; [auto|].
              split; [|split; [intro Q; right; auto|auto]]. exists wk. cbn. rewrite Nat.eqb_refl. auto.
           ++ rewrite fupd_neq in H by auto. destruct (ei_stream _ I _ _ H) as (A' & B'). split; [lia|].
              apply (stream_other w w' s' st0 [TPoll s wk (s_slot st)]); auto.
        -- intros l H. apply (listener_other w w'); auto.
           ++ apply (ei_listener _ I _ H).
           ++ intro; cbn; unfold captured; cbn; auto.
           ++ cbn. destruct (Nat.eq_dec (l_cb l) s) as [->|N]; [rewrite ES, fupd_eq; auto|].
              rewrite fupd_neq by auto. destruct (streams w (l_cb l)); auto.
        -- apply (ei_nodup _ I).
        -- intros s' t' n' [H|H] st0 Hs; [discriminate|]. destruct (Nat.eq_dec s' s) as [->|N].
           ++ rewrite fupd_eq in Hs. injection Hs as <-. apply (ei_new _ I _ _ _ H _ ES).
           ++ rewrite fupd_neq in Hs by auto. eapply (ei_new _ I); eauto.
        -- intros s' e [<-|H] A'; [cbn in A'; subst; auto|]. apply (ei_old _ I _ _ H A').
        -- intros s' L H. destruct (Nat.eq_dec s' s) as [->|N]; [rewrite fupd_eq in H; discriminate|].
           rewrite fupd_neq in H by auto. right. apply (ei_dead _ I); auto.
        -- split; [exact C|apply (ei_polls _ I)].
        -- apply (ei_wakes _ I).
        -- intros s' [H|H]; [discriminate|]. destruct (ei_throw _ I _ H). unfold captured in *. cbn. auto.
      * split; [exists [TPoll s wk (s_slot st)]; split; [reflexivity|repeat constructor]|]. split; [cbn; lia|]. split; cbn; [|auto].
        intros s' L H. destruct (Nat.eq_dec s' s) as [->|N]; [congruence|]. rewrite fupd_neq; auto.
    + destruct D as (D1 & D2). set (st' := mkS _ _ _ _ _ _). set (w' := mkW _ _ _ _).
      assert (NL : ~ In s (map l_cb (listeners w))).
      { intro H. apply in_map_iff in H as (l & <- & Hl). destruct (ei_listener _ I _ Hl) as (_ & _ & Q). rewrite ES in Q. destruct Q. congruence. }
      assert (LT : latest s (TPoll s wk None :: tr w) = None) by (cbn; congruence).
      split.
      * split; cbn [w' next streams listeners tr].
        -- intros s' st0 H. destruct (Nat.eq_dec s' s) as [->|N].
           ++ rewrite fupd_eq in H. injection H as <-. split; [auto|]. unfold stream_ok, captured in *. cbn [tr w' st' s_target s_name s_slot s_closure s_waker s_capture listeners].
              rewrite LT. split; [cbn; auto|]. split; [intros [Q|Q]; [discriminate|auto]|]. split; [auto|].
              split; [exists wk; cbn; rewrite Nat.eqb_refl; auto|]. split; [intro Q; right; auto|]. intros _. rewrite map_app. apply in_app_iff. right. cbn. auto.
           ++ rewrite fupd_neq in H by auto. destruct (ei_stream _ I _ _ H) as (A' & B'). split; [lia|].
              apply (stream_other w w' s' st0 [TPoll s wk None]); auto.
              intro Q. cbn. rewrite map_app. apply in_app_iff. auto.
        -- intros l H. apply in_app_iff in H as [H|[<-|[]]].
           ++ apply (listener_other w w'); auto.
              ** apply (ei_listener _ I _ H).
              ** intro; cbn; unfold captured; cbn; auto.
              ** cbn. destruct (Nat.eq_dec (l_cb l) s) as [->|N]; [rewrite ES, fupd_eq; auto|].
                 rewrite fupd_neq by auto. destruct (streams w (l_cb l)); auto.
           ++ split; [exact LS|]. split; [intro Q; right; apply E, Q|]. cbn. rewrite fupd_eq. auto.
        -- rewrite map_app. cbn. apply nodup_app_intro; [apply (ei_nodup _ I)|repeat constructor; intros []|]. intros x H1 [<-|[]]. exact (NL H1).
        -- intros s' t' n' [H|H] st0 Hs; [discriminate|]. destruct (Nat.eq_dec s' s) as [->|N].
           ++ rewrite fupd_eq in Hs. injection Hs as <-. apply (ei_new _ I _ _ _ H _ ES).
           ++ rewrite fupd_neq in Hs by auto. eapply (ei_new _ I); eauto.
        -- intros s' e [<-|H] A'; [cbn in A'; subst; auto|]. apply (ei_old _ I _ _ H A').
        -- intros s' L H. destruct (Nat.eq_dec s' s) as [->|N]; [rewrite fupd_eq in H; discriminate|].
           rewrite fupd_neq in H by auto. right. apply (ei_dead _ I); auto.
        -- split; [congruence|apply (ei_polls _ I)].
        -- apply (ei_wakes _ I).
        -- intros s' [H|H]; [discriminate|]. destruct (ei_throw _ I _ H). unfold captured in *. cbn. auto.
      * split; [exists [TPoll s wk None]; split; [reflexivity|repeat constructor]|]. split; [cbn; lia|]. split; cbn; [|split].
        -- intros s' L H. destruct (Nat.eq_dec s' s) as [->|N]; [congruence|]. rewrite fupd_neq; auto.
        -- intros x H. left. apply in_app_iff. auto.
        -- intros x H. apply in_app_iff in H as [H|[<-|[]]]; auto.
  - (* BDrop *)
    destruct (streams w s) as [st|] eqn:ES; [|auto]. destruct (ei_stream _ I _ _ ES) as (LS & OK).
    destruct OK as (A & B & C & D & E & F). set (w' := mkW _ _ _ _).
    assert (INC : forall x, In x (listeners w') -> In x (listeners w)).
    { intros x H. cbn in H. destruct (s_closure st); [apply remove_in in H; apply H|exact H]. }
    assert (OTH : forall x, In x (listeners w) -> l_cb x <> s -> In x (listeners w')).
    { intros x H N. cbn. destruct (s_closure st); [|exact H]. apply remove_in. split; [exact H|]. tauto. }
    assert (CAP : forall x, In x (listeners w') -> l_cb x = s -> l_capture x = true).
    { intros x H Q. pose proof (INC _ H) as H0. destruct (ei_listener _ I _ H0) as (_ & _ & Z). rewrite Q, ES in Z. destruct Z as (Z1 & Z2 & Z3).
      cbn in H. rewrite Z1 in H. apply remove_in in H as (_ & H). destruct (l_capture x); auto. exfalso. apply H. auto. }
    split.
    + split; cbn [w' next streams tr].
      * intros s' st0 H. destruct (Nat.eq_dec s' s) as [->|N]; [rewrite fupd_eq in H; discriminate|].
        rewrite fupd_neq in H by auto. destruct (ei_stream _ I _ _ H) as (A' & B'). split; [lia|].
        apply (stream_other w w' s' st0 [TDrop s]); auto.
        intro Q. apply in_map_iff in Q as (x & Qx & Hx). apply in_map_iff. exists x. split; auto. apply OTH; congruence.
      * intros l H. pose proof (INC _ H) as H0. destruct (ei_listener _ I _ H0) as (L1 & L2 & L3). split; [exact L1|].
        split; [intro Q; right; apply L2, Q|]. cbn. destruct (Nat.eq_dec (l_cb l) s) as [Q|N].
        -- rewrite Q, fupd_eq. apply CAP; auto.
        -- rewrite fupd_neq by auto. exact L3.
      * cbn. destruct (s_closure st); [|apply (ei_nodup _ I)]. unfold remove_listener.
        generalize (ei_nodup _ I). generalize (listeners w). induction l as [|x l IH]; cbn; intro ND; [constructor|].
        inversion ND; subst. destruct (negb _); [|auto]. cbn. constructor; auto. intro Q. apply H1.
        apply in_map_iff in Q as (y & Qy & Hy). apply filter_In in Hy as (Hy & _). apply in_map_iff. eauto.
      * intros s' t' n' [H|H] st0 Hs; [discriminate|]. destruct (Nat.eq_dec s' s) as [->|N]; [rewrite fupd_eq in Hs; discriminate|].
        rewrite fupd_neq in Hs by auto. eapply (ei_new _ I); eauto.
      * intros s' e [<-|H] A'; [cbn in A'; subst; auto|]. apply (ei_old _ I _ _ H A').
      * intros s' L H. destruct (Nat.eq_dec s' s) as [->|N]; [cbn; auto|].
        rewrite fupd_neq in H by auto. right. apply (ei_dead _ I); auto.
      * apply (ei_polls _ I).
      * apply (ei_wakes _ I).
      * intros s' [H|H]; [discriminate|]. destruct (ei_throw _ I _ H). unfold captured in *. cbn. auto.
    + split; [exists [TDrop s]; split; [reflexivity|repeat constructor]|]. split; [cbn; lia|]. split; [|split; [|auto]].
      * cbn. intros s' L H. destruct (Nat.eq_dec s' s) as [->|N]; [rewrite fupd_eq; auto|]. rewrite fupd_neq; auto.
      * intros x H. destruct (Nat.eq_dec (l_cb x) s) as [Q|N]; [right; cbn; rewrite Q; split; [exact LS|apply fupd_eq]|left; auto].
Qed.

Lemma l_eqb_in x l : existsb (l_eqb x) l = true <-> In x l.
Proof.
  rewrite existsb_exists. unfold l_eqb. split.
  - intros (y & H & E). rewrite !andb_true_iff, !Nat.eqb_eq in E. destruct E as (((E1 & E2) & E3) & E4). apply eqb_prop in E4.
    destruct x, y; cbn in *; subst. exact H.
  - intro H. exists x. split; auto. rewrite !Nat.eqb_refl, eqb_reflx. reflexivity.
Qed.

Lemma invoke_ok w x e : EI w -> In x (listeners w) ->
  EI (invoke w (l_cb x) e) /\ next (invoke w (l_cb x) e) = next w /\ listeners (invoke w (l_cb x) e) = listeners w /\
  (forall s, streams w s = None -> streams (invoke w (l_cb x) e) s = None) /\
  match streams w (l_cb x) with
  | Some st => tr (invoke w (l_cb x) e) = TRun :: TWake (s_waker st) :: TDeliver (l_cb x) e :: tr w
  | None => tr (invoke w (l_cb x) e) = TThrow (l_cb x) :: tr w
  end.
Proof.
  intros I H. destruct (ei_listener _ I _ H) as (L1 & L2 & L3). unfold invoke. set (s := l_cb x) in *.
  destruct (streams w s) as [st|] eqn:ES.
  - destruct L3 as (CL & LT & LN). destruct (ei_stream _ I _ _ ES) as (LS & A & B & C & D & E & F). rewrite CL in D.
    set (st' := mkS _ _ _ _ _ _). set (w' := mkW _ _ _ _). split; [|split; [reflexivity|split; [reflexivity|split; [|reflexivity]]]].
    + split; cbn [w' next streams listeners tr].
      * intros s' st0 Hs. destruct (Nat.eq_dec s' s) as [->|N].
        -- rewrite fupd_eq in Hs. injection Hs as <-. split; [auto|]. unfold stream_ok, captured in *. cbn.
           rewrite CL, Nat.eqb_refl. split; [auto|]. split; [intros [Q|[Q|[Q|Q]]]; try discriminate; auto|]. auto 10.
        -- rewrite fupd_neq in Hs by auto. destruct (ei_stream _ I _ _ Hs) as (A' & B'). split; [lia|].
           apply (stream_other w w' s' st0 [TRun; TWake (s_waker st); TDeliver s e]); auto.
           repeat constructor; cbn; auto.
      * intros l Hl. apply (listener_other w w'); auto.
        -- apply (ei_listener _ I _ Hl).
        -- intro; cbn; unfold captured; cbn; auto.
        -- cbn. destruct (Nat.eq_dec (l_cb l) s) as [->|N]; [rewrite ES, fupd_eq; auto|].
           rewrite fupd_neq by auto. destruct (streams w (l_cb l)); auto.
      * apply (ei_nodup _ I).
      * intros s' t' n' [Q|[Q|[Q|Q]]] st0 Hs; try discriminate. destruct (Nat.eq_dec s' s) as [->|N].
        -- rewrite fupd_eq in Hs. injection Hs as <-. apply (ei_new _ I _ _ _ Q _ ES).
        -- rewrite fupd_neq in Hs by auto. eapply (ei_new _ I); eauto.
      * intros s' e' [<-|[<-|[<-|Q]]] A'; try (cbn in A'; contradiction); [cbn in A'; subst; auto|]. apply (ei_old _ I _ _ Q A').
      * intros s' L Q. destruct (Nat.eq_dec s' s) as [->|N]; [rewrite fupd_eq in Q; discriminate|].
        rewrite fupd_neq in Q by auto. do 3 right. apply (ei_dead _ I); auto.
      * cbn. apply (ei_polls _ I).
      * cbn. split; [exact D|apply (ei_wakes _ I)].
      * intros s' [Q|[Q|[Q|Q]]]; try discriminate. destruct (ei_throw _ I _ Q). unfold captured in *. cbn. auto 10.
    + intros s' Q. cbn. rewrite fupd_neq; auto. congruence.
  - split; [|split; [reflexivity|split; [reflexivity|split; [auto|reflexivity]]]].
    split; cbn [emit next streams listeners tr].
    + intros s' st0 Hs. destruct (ei_stream _ I _ _ Hs) as (A' & B'). split; [auto|].
      apply (stream_other w (emit (TThrow s) w) s' st0 [TThrow s]); auto. constructor; [|constructor]. cbn. congruence.
    + intros l Hl. apply (listener_other w); auto.
      * apply (ei_listener _ I _ Hl).
      * intro; cbn; unfold captured; cbn; auto.
      * cbn. destruct (streams w (l_cb l)); auto.
    + apply (ei_nodup _ I).
    + intros s' t' n' [Q|Q] st0 Hs; [discriminate|]. eapply (ei_new _ I); eauto.
    + intros s' e' [<-|Q] A'; [cbn in A'; subst; auto|]. apply (ei_old _ I _ _ Q A').
    + intros s' L Q. right. apply (ei_dead _ I); auto.
    + apply (ei_polls _ I).
    + apply (ei_wakes _ I).
    + intros s' [Q|Q].
      * injection Q as <-. split; [right; apply L2, L3|right; apply (ei_dead _ I); auto].
      * destruct (ei_throw _ I _ Q). unfold captured in *. cbn. auto.
Qed.

(** [listening] is being registered *)
Lemma listening_ok w s t n : EI w -> (listening s t n (tr w) <-> exists st, streams w s = Some st /\ s_closure st = true /\ s_target st = t /\ s_name st = n).
Proof.
  intro I. split.
  - intros (A & B & C). destruct (streams w s) as [st|] eqn:ES.
    + exists st. split; [reflexivity|]. destruct (ei_new _ I _ _ _ A _ ES) as (-> & ->).
      destruct (ei_stream _ I _ _ ES) as (_ & _ & _ & _ & D & _). destruct (s_closure st); [auto|]. destruct D. contradiction.
    + exfalso. apply C, (ei_dead _ I); auto. eapply (ei_old _ I); [exact A|reflexivity].
  - intros (st & ES & CL & <- & <-). destruct (ei_stream _ I _ _ ES) as (_ & A & B & _ & D & _). rewrite CL in D.
    split; [exact A|]. split; [|exact B]. destruct D as (w' & -> & _). discriminate.
Qed.

(** ** Events that concern no stream *)
Definition neutral (e : ev) : Prop := match e with TBegin _ _ _ _ | TEnd _ | TStop _ => True | _ => False end.
Lemma emit_EI w e : neutral e -> EI w -> EI (emit e w).
Proof.
  intros NE I. assert (NA : forall s, ~ about s e) by (intro s; destruct e; cbn in *; tauto).
  set (w' := emit e w). split; cbn [w' emit next streams listeners tr].
  - intros s' st0 Hs. destruct (ei_stream _ I _ _ Hs) as (A' & B'). split; [auto|].
    apply (stream_other w w' s' st0 [e]); auto.
  - intros l Hl. apply (listener_other w); auto.
    + apply (ei_listener _ I _ Hl).
    + intro; cbn; unfold captured; cbn; auto.
    + cbn. destruct (streams w (l_cb l)); auto.
  - apply (ei_nodup _ I).
  - intros s' t' n' [Q|Q] st0 Hs; [subst e; destruct NE|]. eapply (ei_new _ I); eauto.
  - intros s' e' [<-|Q] A'; [destruct (NA _ A')|]. apply (ei_old _ I _ _ Q A').
  - intros s' L Q. right. apply (ei_dead _ I); auto.
  - destruct e; try destruct NE; apply (ei_polls _ I).
  - destruct e; try destruct NE; apply (ei_wakes _ I).
  - intros s' [Q|Q]; [subst e; destruct NE|]. destruct (ei_throw _ I _ Q). unfold captured in *. cbn. auto.
Qed.

(** ** The dispatches that are going on *)
Definition pair_of (x : listener) : nat * bool := (l_target x, l_capture x).
Definition gone (w : world) (x : listener) : Prop := l_cb x < next w /\ streams w (l_cb x) = None.
Definition starts (e : nat) (x : ev) : Prop := match x with TBegin _ _ e' _ => e' = e | TEnd e' => e' = e | _ => False end.
Record frame_at (w : world) (f : frame) (path : list nat) (b : bool) (evs tr0 : list ev) : Prop := {
  fa_tr : tr w = evs ++ TBegin path (f_name f) (f_ev f) b :: tr0;
  fa_open : forall x, In x evs -> ~ starts (f_ev f) x;
  fa_todo : NoDup (f_todo f);
  fa_sub : forall tp, In tp (f_todo f) -> In tp (plan path b);
  fa_nodup : NoDup (map l_cb (f_cur f));
  fa_cur : forall x, In x (f_cur f) -> ~ In (pair_of x) (f_todo f) /\ In (pair_of x) (plan path b) /\ l_name x = f_name f /\
    (In x (listeners w) \/ gone w x);
  fa_zero : forall x, In x (listeners w) -> In x (f_cur f) \/ In (pair_of x) (f_todo f) -> given (l_cb x) (f_ev f) (tr w) = 0;
  fa_all : f_stop f = false -> forall s t, listening s t (f_name f) tr0 -> In t path -> b = true \/ hd_error path = Some t ->
    streams w s = None \/ given s (f_ev f) (tr w) = 1 \/
    exists x, In x (listeners w) /\ l_cb x = s /\ l_name x = f_name f /\ (In x (f_cur f) \/ In (pair_of x) (f_todo f));
  fa_stop : f_stop f = true -> In (TStop (f_ev f)) evs;
  fa_old : forall s t n, listening s t n tr0 -> s < next w }.
Definition frame_ok (w : world) (f : frame) : Prop := exists path b evs tr0, frame_at w f path b evs tr0.
Record PI (p : page) : Prop := {
  pi_ei : EI (pg_w p);
  pi_evs : NoDup (map f_ev (pg_stack p));
  pi_once : forall s e, given s e (tr (pg_w p)) <= 1;
  pi_gifts : gifts_ok (tr (pg_w p));
  pi_ends : ends_ok (tr (pg_w p));
  pi_frames : forall f, In f (pg_stack p) -> frame_ok (pg_w p) f;
  pi_closed : forall e, ~ In e (map f_ev (pg_stack p)) -> current e (tr (pg_w p)) = None }.

Lemma frame_transport w w' f evs' :
  frame_ok w f -> tr w' = evs' ++ tr w -> (forall x, In x evs' -> ~ starts (f_ev f) x) ->
  (forall s, given s (f_ev f) (tr w') = given s (f_ev f) (tr w)) ->
  next w <= next w' -> (forall s, s < next w -> streams w s = None -> streams w' s = None) ->
  (forall x, In x (listeners w) -> In x (listeners w') \/ gone w' x) ->
  (forall x, In x (listeners w') -> In x (listeners w) \/ given (l_cb x) (f_ev f) (tr w) = 0) ->
  frame_ok w' f.
Proof.
  intros (path & b & evs & tr0 & [A B C D E F G H K O]) T ST GV N SN L1 L2. exists path, b, (evs' ++ evs), tr0. split; auto.
  - rewrite T, A, app_assoc. reflexivity.
  - intros x Hx. apply in_app_iff in Hx as [Hx|Hx]; auto.
  - intros x Hx. destruct (F x Hx) as (F1 & F2 & F3 & F4). repeat split; auto. destruct F4 as [F4|(F4 & F5)]; auto.
    right. split; [lia|]. auto.
  - intros x Hx Q. rewrite GV. destruct (L2 x Hx) as [Z|Z]; auto.
  - intros S s t L Ht Hb. destruct (H S s t L Ht Hb) as [Z|[Z|(x & X1 & X2 & X3 & X4)]].
    + left. eauto.
    + right. left. rewrite GV. exact Z.
    + destruct (L1 x X1) as [Y|(Y1 & Y2)]; [right; right; eauto 6|]. left. congruence.
  - intro S. apply in_app_iff. auto.
  - intros s t n L. pose proof (O s t n L). lia.
Qed.

Lemma quiet_given s e evs t : Forall (fun e => match e with TDeliver _ _ | TBegin _ _ _ _ | TEnd _ | TStop _ => False | _ => True end) evs ->
  given s e (evs ++ t) = given s e t.
Proof. induction 1 as [|x evs N _ IH]; [reflexivity|]. cbn. destruct x; try contradiction; exact IH. Qed.
Lemma quiet_current e evs t : Forall (fun e => match e with TDeliver _ _ | TBegin _ _ _ _ | TEnd _ | TStop _ => False | _ => True end) evs ->
  current e (evs ++ t) = current e t.
Proof. induction 1 as [|x evs N _ IH]; [reflexivity|]. cbn. destruct x; try contradiction; exact IH. Qed.
Lemma quiet_gifts evs t : Forall (fun e => match e with TDeliver _ _ | TBegin _ _ _ _ | TEnd _ | TStop _ => False | _ => True end) evs ->
  gifts_ok t -> gifts_ok (evs ++ t).
Proof. induction 1 as [|x evs N _ IH]; [auto|]. intro G. cbn. destruct x; try contradiction; auto. Qed.

Lemma quiet_ends evs t : Forall (fun e => match e with TDeliver _ _ | TBegin _ _ _ _ | TEnd _ | TStop _ => False | _ => True end) evs ->
  ends_ok t -> ends_ok (evs ++ t).
Proof. induction 1 as [|x evs N _ IH]; [auto|]. intro G. cbn. destruct x; try contradiction; auto. Qed.
Lemma begin_unique e : forall evs evs' path path' n n' b b' t t',
  evs ++ TBegin path n e b :: t = evs' ++ TBegin path' n' e b' :: t' ->
  (forall p m c, ~ In (TBegin p m e c) evs) -> (forall p m c, ~ In (TBegin p m e c) evs') ->
  evs = evs' /\ path = path' /\ n = n' /\ b = b' /\ t = t'.
Proof.
  induction evs as [|x evs IH]; intros [|y evs'] path path' n n' b b' t t' E H H'; cbn in E; injection E.
  - intros. subst. auto.
  - intros _ <-. exfalso. eapply H'. now left.
  - intros _ ->. exfalso. eapply H. now left.
  - intros E2 <-. destruct (IH evs' path path' n n' b b' t t' E2) as (-> & Q).
    + intros p m c Z. eapply H. right. exact Z.
    + intros p m c Z. eapply H'. right. exact Z.
    + auto.
Qed.

Lemma last_kept s e t : last_waker s t <> None -> last_waker s (e :: t) <> None.
Proof. destruct e; cbn; auto. destruct (_ =? _); [discriminate|auto]. Qed.
(** a stream that was never polled was given nothing *)
Lemma given_polled s e t : gifts_ok t -> last_waker s t = None -> given s e t = 0.
Proof.
  induction t as [|x t IH]; [reflexivity|]. intros G L.
  assert (L' : last_waker s t = None). { destruct (last_waker s t) eqn:Q; auto. exfalso. apply (last_kept s x t) in L; auto. congruence. }
  destruct x; cbn in *; auto.
  - destruct (_ =? _); auto.
  - destruct G as ((path & n & b & tg & G1 & G2 & (_ & G3 & _) & _) & G). destruct (Nat.eqb_spec s0 s) as [->|]; cbn; [contradiction|auto].
Qed.

Lemma plan_in t ph path b : In (t, ph) (plan path b) <-> In t path /\ (ph = true \/ b = true \/ hd_error path = Some t).
Proof.
  unfold plan. rewrite in_app_iff, !in_map_iff. split.
  - intros [(x & E & H)|(x & E & H)]; injection E as <- <-.
    + apply in_rev in H. auto.
    + destruct b; [auto|]. destruct path as [|y path]; [destruct H|]. cbn in H. destruct H as [->|[]]. cbn. auto.
  - intros (H & Q). destruct ph.
    + left. exists t. split; auto. apply -> in_rev. exact H.
    + right. exists t. split; auto. destruct Q as [Q|[->|Q]]; [discriminate|auto|]. destruct b; auto. destruct path; [discriminate Q|]. injection Q as ->. cbn. auto.
Qed.
Lemma plan_nodup path b : NoDup path -> NoDup (plan path b).
Proof.
  intro ND. unfold plan. assert (INJ : forall ph l, NoDup l -> NoDup (map (fun t : nat => (t, ph : bool)) l)).
  { induction l as [|x l IH]; cbn; intro H; [constructor|]. inversion H; subst. constructor; auto.
    intro Q. apply in_map_iff in Q as (y & Q1 & Q2). injection Q1 as ->. contradiction. }
  apply nodup_app_intro.
  - apply INJ, NoDup_rev, ND.
  - apply INJ. destruct b; auto. destruct path as [|x path]; cbn; [constructor|repeat constructor; intros []].
  - intros x H1 H2. apply in_map_iff in H1 as (y & <- & _). apply in_map_iff in H2 as (z & Q & _). discriminate Q.
Qed.
Lemma copy_in n tp l x : In x (copy n tp l) <-> In x l /\ pair_of x = tp /\ l_name x = n.
Proof.
  unfold copy, pair_of. rewrite filter_In, !andb_true_iff, !Nat.eqb_eq, eqb_true_iff. destruct tp. cbn.
  split; intros (A & B); (split; [exact A|]); [destruct B as ((-> & ->) & ->); auto|]. destruct B as (B & ->). injection B as -> ->. auto.
Qed.
Lemma nodup_filter_cb f l : NoDup (map l_cb l) -> NoDup (map l_cb (filter f l)).
Proof.
  induction l as [|x l IH]; cbn; intro ND; [constructor|]. inversion ND; subst. destruct (f x); [|auto].
  cbn. constructor; auto. intro Q. apply H1. apply in_map_iff in Q as (y & Qy & Hy). apply filter_In in Hy as (Hy & _). apply in_map_iff. eauto.
Qed.
Lemma cb_inj l x y : NoDup (map l_cb l) -> In x l -> In y l -> l_cb x = l_cb y -> x = y.
Proof.
  induction l as [|z l IH]; intros ND; [intros []|]. cbn in ND. inversion ND; subst.
  intros [->|Hx] [->|Hy] E; auto.
  - exfalso. apply H1. rewrite E. apply in_map, Hy.
  - exfalso. apply H1. rewrite <- E. apply in_map, Hx.
Qed.
Lemma current_open e evs path n b tr0 : (forall x, In x evs -> ~ starts e x) -> current e (evs ++ TBegin path n e b :: tr0) = Some (path, n, b).
Proof.
  induction evs as [|x evs IH]; cbn; intro H; [now rewrite Nat.eqb_refl|].
  assert (IH' := IH ltac:(intros; apply H; auto)). assert (Hx := H x (or_introl eq_refl)).
  destruct x; cbn in Hx; auto; destruct (Nat.eqb_spec e0 e); auto; tauto.
Qed.

Lemma begin_given s path n e b t : given s e (TBegin path n e b :: t) = 0.
Proof. cbn. now rewrite Nat.eqb_refl. Qed.

Lemma exec_PI p o : PI p -> match o with Begin path _ _ _ => NoDup path | _ => True end -> PI (exec ww p o).
Proof.
  intros [I EV ON GI EN' FR CL] OK. destruct p as [w st]. cbn [pg_w pg_stack] in *. destruct o as [b|path n e b| |k now]; cbn [exec pg_w pg_stack].
  - (* the application acts *)
    destruct (exec_b_ok w b I) as (I' & (evs & T & Q) & N & SN & L1 & L2). split; cbn [pg_w pg_stack]; auto.
    + intros s e. rewrite T, quiet_given; auto.
    + rewrite T. apply quiet_gifts; auto.
    + rewrite T. apply quiet_ends; auto.
    + intros f Hf. apply (frame_transport w _ f evs); auto.
      * intros x Hx. rewrite Forall_forall in Q. specialize (Q x Hx). destruct x; cbn; tauto.
      * intro s. rewrite T. apply quiet_given; auto.
      * intros x Hx. destruct (L2 x Hx) as [Z|Z]; auto. right. apply given_polled; auto.
    + intros e He. rewrite T, quiet_current; auto.
  - (* a dispatch begins *)
    destruct (existsb _ st) eqn:EX; [split; auto|].
    assert (NE : ~ In e (map f_ev st)).
    { intro H. apply in_map_iff in H as (f & E & Hf). apply Bool.not_true_iff_false in EX. apply EX, existsb_exists. exists f. split; auto. now apply Nat.eqb_eq. }
    assert (I' : EI (emit (TBegin path n e b) w)) by (apply emit_EI; [exact Logic.I|auto]).
    split; cbn [pg_w pg_stack emit tr map f_ev]; auto.
    + constructor; auto.
    + intros s e'. cbn. destruct (_ =? _); auto.
    + intros f [<-|Hf].
      * exists path, b, [], (tr w). split; cbn; auto.
        -- apply plan_nodup, OK.
        -- constructor.
        -- intros x [].
        -- intros x _ _. now rewrite Nat.eqb_refl.
        -- intros _ s t LI Ht Hb. apply (listening_ok w s t n I) in LI as (stm & ES & C1 & C2 & C3). right. right.
           destruct (ei_stream _ I _ _ ES) as (_ & _ & _ & _ & _ & _ & F). pose proof (F C1) as H. apply in_map_iff in H as (x & E & Hx).
           destruct (ei_listener _ I _ Hx) as (_ & _ & L3). rewrite E, ES in L3. destruct L3 as (_ & E1 & E2).
           exists x. repeat split; auto; [congruence|]. right. unfold pair_of. apply plan_in. split; [congruence|]. rewrite E1, C2. tauto.
        -- discriminate.
        -- intros s t m (A & _). apply (ei_old _ I _ _ A). reflexivity.
      * assert (NF : e <> f_ev f) by (intros ->; apply NE, in_map, Hf).
        apply (frame_transport w _ f [TBegin path n e b]); auto.
        -- intros x [<-|[]]. exact NF.
        -- intro s. cbn. destruct (Nat.eqb_spec e (f_ev f)); [contradiction|reflexivity].
    + intros e' H. cbn. destruct (Nat.eqb_spec e e') as [->|N]; [exfalso; apply H; cbn; auto|]. apply CL. intro. apply H. cbn. auto.
  - (* a step of the newest dispatch *)
    destruct st as [|f st]; [split; auto|]. cbn in EV. inversion EV as [|? ? NE EV']; subst.
    destruct (FR f (or_introl eq_refl)) as (path & b & evs & tr0 & [A B C D E F G H K O]).
    assert (POP : f_cur f = [] -> f_todo f = [] \/ f_stop f = true -> PI (mkP (emit (TEnd (f_ev f)) w) st)).
    { intros PC PT. split; cbn [pg_w pg_stack emit tr]; auto.
      - apply emit_EI; [exact Logic.I|auto].
      - cbn. split; [|exact EN']. intros path' n' b' evs' tr' E2 NB NS s tg LI Ht Hb.
        rewrite A in E2. apply begin_unique in E2; [|intros p m c Q; apply (B _ Q); reflexivity|exact NB].
        destruct E2 as (<- & <- & <- & <- & <-). destruct (f_stop f) eqn:SF; [exfalso; apply NS, K; reflexivity|].
        destruct PT as [PT|PT]; [|discriminate PT]. destruct (H eq_refl s tg LI Ht Hb) as [Z|[Z|(y & _ & _ & _ & Y)]].
        + right. assert (Q : In (TDrop s) (tr w)) by (apply (ei_dead _ I); [eapply O; eauto|auto]). rewrite A in Q.
          apply in_app_iff in Q as [Q|[Q|Q]]; [exact Q|discriminate Q|]. destruct LI as (_ & _ & ND). contradiction.
        + left. exact Z.
        + exfalso. rewrite PC, PT in Y. destruct Y as [[]|[]].
      - intros g Hg. assert (NF : f_ev f <> f_ev g) by (intros Q; apply NE; rewrite Q; apply in_map, Hg).
        apply (frame_transport w _ g [TEnd (f_ev f)]); auto.
        + apply FR. right. exact Hg.
        + intros x [<-|[]]. exact NF.
      - intros e' He. cbn. destruct (Nat.eqb_spec (f_ev f) e') as [Q|N]; auto. apply CL. cbn. tauto. }
    destruct (f_cur f) as [|x cur] eqn:EC; [destruct (f_todo f) as [|tp todo] eqn:ET|].
    + apply POP; auto.
    + destruct (f_stop f) eqn:ES; [apply POP; auto|]. split; cbn [pg_w pg_stack]; auto.
      intros g [<-|Hg]; [|apply FR; now right].
      exists path, b, evs, tr0. inversion C as [|? ? NT C']; subst. split; cbn; auto.
      * intros y Hy. apply D. now right.
      * apply nodup_filter_cb, (ei_nodup _ I).
      * intros y Hy. apply copy_in in Hy as (H1 & H2 & H3). rewrite H2. repeat split; auto. apply D. now left.
      * intros y Hy [Q|Q]; apply G; auto; right; [|now right]. apply copy_in in Q as (_ & -> & _). now left.
      * intros _ s t LI Ht Hb. destruct (H eq_refl s t LI Ht Hb) as [Z|[Z|(y & Y1 & Y2 & Y3 & [[]|[Y4|Y4]])]]; auto; right; right; exists y; repeat split; auto.
        left. apply copy_in. auto.
      all: try discriminate.
    + set (f' := mkF (f_ev f) (f_name f) cur (f_todo f) (f_stop f)). cbn in E. inversion E as [|? ? NX E']; subst.
      destruct (F x (or_introl eq_refl)) as (F1 & F2 & F3 & F4).
      destruct (existsb (l_eqb x) (listeners w)) eqn:EX.
      * apply l_eqb_in in EX. destruct (invoke_ok w x (f_ev f) I EX) as (I1 & N1 & L1 & S1 & T1). set (w1 := invoke w (l_cb x) (f_ev f)) in *.
        destruct (ei_listener _ I _ EX) as (X1 & X2 & X3). assert (Z0 : given (l_cb x) (f_ev f) (tr w) = 0) by (apply G; auto; left; now left).
        destruct (streams w (l_cb x)) as [stm|] eqn:ESX.
        -- assert (GE : forall s, given s (f_ev f) (tr w1) = if l_cb x =? s then 1 else given s (f_ev f) (tr w)).
           { intro s. rewrite T1. cbn. rewrite Nat.eqb_refl, Bool.andb_true_r. destruct (Nat.eqb_spec (l_cb x) s) as [<-|]; [now rewrite Z0|reflexivity]. }
           assert (GO : forall s e, e <> f_ev f -> given s e (tr w1) = given s e (tr w)).
           { intros s e Ne. rewrite T1. cbn. destruct (Nat.eqb_spec (f_ev f) e); [congruence|]. now rewrite Bool.andb_false_r. }
           split; cbn [pg_w pg_stack]; auto.
           ++ intros s e. destruct (Nat.eq_dec e (f_ev f)) as [->|Ne]; [rewrite GE; destruct (_ =? _); auto|rewrite GO; auto].
           ++ rewrite T1. cbn. split; [|exact GI]. exists path, (f_name f), b, (l_target x). split; [rewrite A; apply current_open, B|].
              unfold pair_of in F2. apply plan_in in F2 as (P1 & P2). split; [exact P1|]. split.
              ** apply (listening_ok w _ _ _ I). exists stm. destruct X3 as (X4 & X5 & X6). repeat split; congruence.
              ** destruct P2 as [P2|[P2|P2]]; auto.
           ++ rewrite T1. exact EN'.
           ++ intros g [<-|Hg].
              ** exists path, b, (TRun :: TWake (s_waker stm) :: TDeliver (l_cb x) (f_ev f) :: evs), tr0. split; cbn [f' f_ev f_name f_cur f_todo f_stop]; auto.
                 --- rewrite T1, A. reflexivity.
                 --- intros y [<-|[<-|[<-|Hy]]]; cbn; auto; try tauto; apply (B _ Hy).
                 --- intros y Hy. destruct (F y (or_intror Hy)) as (Y1 & Y2 & Y3 & Y4). repeat split; auto. rewrite L1. destruct Y4 as [Y4|(Y4 & Y5)]; auto.
                     right. split; [lia|auto].
                 --- intros y Hy Q. rewrite L1 in Hy. rewrite GE. destruct (Nat.eqb_spec (l_cb x) (l_cb y)) as [Ex|Nx].
                     +++ exfalso. assert (x = y) by (apply (cb_inj (listeners w)); auto; apply (ei_nodup _ I)). subst y. destruct Q as [Q|Q]; [|contradiction].
                         apply NX, in_map, Q.
                     +++ apply G; auto. destruct Q as [Q|Q]; auto. left. now right.
                 --- intros SF s t LI Ht Hb. rewrite GE, L1. destruct (Nat.eqb_spec (l_cb x) s) as [<-|Ns]; auto.
                     destruct (H SF s t LI Ht Hb) as [Z|[Z|(y & Y1 & Y2 & Y3 & [[Y4|Y4]|Y4])]]; auto; [congruence| |]; right; right; exists y; repeat split; auto.
                 --- intro SF. do 3 right. apply K, SF.
                 --- intros s t m LI. rewrite N1. eapply O; eauto.
              ** assert (NF : f_ev g <> f_ev f) by (intros Q; apply NE; rewrite <- Q; apply in_map, Hg).
                 apply (frame_transport w _ g [TRun; TWake (s_waker stm); TDeliver (l_cb x) (f_ev f)]); auto.
                 --- apply FR. now right.
                 --- intros y [<-|[<-|[<-|[]]]]; cbn; auto.
                 --- lia.
                 --- intros y Hy. left. rewrite L1. auto.
                 --- intros y Hy. left. rewrite <- L1. auto.
           ++ intros e He. rewrite T1. cbn. apply CL. exact He.
        -- assert (GO : forall s e, given s e (tr w1) = given s e (tr w)) by (intros; rewrite T1; reflexivity).
           split; cbn [pg_w pg_stack]; auto.
           ++ intros s e. rewrite GO; auto.
           ++ rewrite T1. exact GI.
           ++ rewrite T1. exact EN'.
           ++ intros g [<-|Hg].
              ** exists path, b, (TThrow (l_cb x) :: evs), tr0. split; cbn [f' f_ev f_name f_cur f_todo f_stop]; auto.
                 --- rewrite T1, A. reflexivity.
                 --- intros y [<-|Hy]; cbn; auto; apply (B _ Hy).
                 --- intros y Hy. destruct (F y (or_intror Hy)) as (Y1 & Y2 & Y3 & Y4). repeat split; auto. rewrite L1. destruct Y4 as [Y4|(Y4 & Y5)]; auto.
                     right. split; [lia|auto].
                 --- intros y Hy Q. rewrite L1 in Hy. rewrite GO. apply G; auto. destruct Q as [Q|Q]; auto. left. now right.
                 --- intros SF s t LI Ht Hb. rewrite GO, L1. destruct (H SF s t LI Ht Hb) as [Z|[Z|(y & Y1 & Y2 & Y3 & [[Y4|Y4]|Y4])]]; auto.
                     +++ left. apply S1. congruence.
                     +++ right; right; exists y; repeat split; auto.
                     +++ right; right; exists y; repeat split; auto.
                 --- intro SF. right. apply K, SF.
                 --- intros s t m LI. rewrite N1. eapply O; eauto.
              ** apply (frame_transport w _ g [TThrow (l_cb x)]); auto.
                 --- apply FR. now right.
                 --- intros y [<-|[]]; cbn; auto.
                 --- lia.
                 --- intros y Hy. left. rewrite L1. auto.
                 --- intros y Hy. left. rewrite <- L1. auto.
           ++ intros e He. rewrite T1. cbn. apply CL. exact He.
      * assert (NL : ~ In x (listeners w)) by (intro Q; apply l_eqb_in in Q; congruence).
        destruct F4 as [F4|F4]; [contradiction|]. split; cbn [pg_w pg_stack]; auto.
        intros g [<-|Hg]; [|apply FR; now right]. exists path, b, evs, tr0. split; cbn [f' f_ev f_name f_cur f_todo f_stop]; auto.
        -- intros y Hy. apply F. now right.
        -- intros y Hy [Q|Q]; apply G; auto. left. now right.
        -- intros SF s t LI Ht Hb. destruct (H SF s t LI Ht Hb) as [Z|[Z|(y & Y1 & Y2 & Y3 & [[Y4|Y4]|Y4])]]; auto; [congruence| |]; right; right; exists y; repeat split; auto.
  - (* stopped *)
    destruct (nth_error st k) as [f0|] eqn:EN; [|split; auto]. set (g := fun f => _).
    assert (UPD : forall st, map f_ev (upd_at k g st) = map f_ev st).
    { clear. intro st. revert k. induction st as [|f st IH]; intros [|k]; cbn; auto. now rewrite IH. }
    assert (UIN : forall st f, In f (upd_at k g st) -> In f st \/ exists f1, nth_error st k = Some f1 /\ f = g f1).
    { clear. intro st. revert k. induction st as [|f st IH]; intros [|k] h; cbn; auto.
      - intros [<-|H]; eauto.
      - intros [<-|H]; auto. destruct (IH _ _ H); auto. }
    assert (TRP : forall f, In f st -> frame_ok (emit (TStop (f_ev f0)) w) f).
    { intros f Hf. apply (frame_transport w _ f [TStop (f_ev f0)]); auto. intros x [<-|[]]; cbn; auto. }
    split; cbn [pg_w pg_stack emit tr]; auto.
    + apply emit_EI; [exact Logic.I|auto].
    + rewrite UPD. auto.
    + intros f Hf. destruct (UIN _ _ Hf) as [Hf'|(f1 & E1 & ->)]; [apply TRP, Hf'|]. rewrite EN in E1. injection E1 as <-.
      destruct (FR f0 (nth_error_In _ _ EN)) as (path & b & evs & tr0 & [A B C D E F G H K O]).
      exists path, b, (TStop (f_ev f0) :: evs), tr0. split; cbn; auto.
      * now rewrite A.
      * intros x [<-|Hx]; cbn; auto; apply (B _ Hx).
      * destruct now; [constructor|auto].
      * intros x Hx. destruct now; [destruct Hx|]. apply F, Hx.
      * intros x Hx Q. apply G; auto. destruct now; [destruct Q as [[]|Q]; auto|auto].
      * discriminate.
    + intros e He. cbn. apply CL. intro Q. apply He. now rewrite UPD.
Qed.
Lemma exec_EI p o : EI (pg_w p) -> EI (pg_w (exec ww p o)).
Proof.
  intro I. destruct p as [w st]. destruct o as [b|path n e b| |k now]; cbn [exec pg_w pg_stack] in *.
  - apply exec_b_ok, I.
  - destruct (existsb _ st); [exact I|]. apply emit_EI; [exact Logic.I|auto].
  - destruct st as [|f st]; [exact I|]. destruct (f_cur f) as [|x cur]; [destruct (f_todo f) as [|tp todo]; [|destruct (f_stop f)]|]; try (apply emit_EI; [exact Logic.I|auto]); [exact I|].
    cbn. destruct (existsb (l_eqb x) (listeners w)) eqn:EX; [|exact I]. apply l_eqb_in in EX. apply (invoke_ok w x (f_ev f) I EX).
  - destruct (nth_error st k); [|exact I]. apply emit_EI; [exact Logic.I|auto].
Qed.
Lemma run_EI ops : EI (pg_w (run ww ops)).
Proof.
  unfold run. assert (G : EI (pg_w (mkP init []))) by apply init_EI. revert G. generalize (mkP init []).
  induction ops as [|o ops IH]; intros p I; cbn; auto. apply IH, exec_EI, I.
Qed.
Lemma init_PI : PI (mkP init []).
Proof. split; cbn; auto; [apply init_EI|constructor|intros f []]. Qed.
Lemma run_PI ops : paths_ok ops -> PI (run ww ops).
Proof.
  unfold run. generalize (mkP init []) init_PI. induction ops as [|o ops IH]; intros p I P; cbn; auto.
  apply IH.
  - apply exec_PI; auto. destruct o; auto. eapply P. now left.
  - intros path n e b H. eapply P. right. exact H.
Qed.
End Proofs.
