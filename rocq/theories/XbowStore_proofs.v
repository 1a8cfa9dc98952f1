(** Proofs for C44 and C45. *)
From Coq Require Import List Arith Bool NArith Lia.
From Verif Require Import Util Arena Spec_arena Arena_proofs Xbow Spec_xbow Xbow_proofs Xbow_run_proofs XbowData XbowData_proofs XbowStore Spec_store.
Import ListNotations.

Section Store.
Variable ww : waker -> waker -> bool.
Hypothesis WW : will_wake_ok ww.
Variable K : Type.
Variable keqb : K -> K -> bool.
Hypothesis keqb_ok : forall a b, keqb a b = true <-> a = b.
Notation val := (val K).
Notation path := (list (seg K)).
Variable H : path -> N.
Notation S_ := (seg K).
Notation xexec := (exec ww (seg K) H).
Notation xexecs := (execs ww (seg K) H).
Notation xlive := (live (seg K)).
Notation xsince := (since_poll (seg K)).
Notation tr s := (w_tr (seg K) (sx K s)).
Notation do_act := (do_act ww K keqb H).
Notation do_acts := (do_acts ww K keqb H).
Notation poll_stream := (poll_stream ww K H).
Notation sexec := (sexec ww K keqb H).
Notation sexecs := (sexecs ww K keqb H).
Notation srun := (srun ww K keqb H).
Notation borrow := (path_borrow K keqb).
Notation sstate := (sstate K).
Notation helper := (helper K).

Record GI (s : sstate) : Prop := {
  g_w : exists A, WI S_ H (sx K s) A;
  g_h : forall x, In x (sh K s) -> xlive (h_id K x) (h_path K x) false (tr s);
  g_nd : NoDup (map (h_id K) (sh K s)) }.

Lemma key_dec (a b : K) : {a = b} + {a <> b}.
Proof. destruct (keqb a b) eqn:E; [left|right]; [apply keqb_ok, E|]. intro Q. apply keqb_ok in Q. congruence. Qed.
Lemma seg_dec (a b : seg K) : {a = b} + {a <> b}.
Proof. decide equality; try apply Nat.eq_dec; apply key_dec. Qed.
Lemma contains_dec (q p : path) : {contains S_ q p} + {~ contains S_ q p}.
Proof.
  revert p. induction q as [|a q IH]; intro p; [left; exists p; reflexivity|].
  destruct p as [|b p]; [right; intros (r & E); discriminate|]. destruct (seg_dec a b) as [->|N].
  - destruct (IH p) as [C|C]; [left|right].
    + destruct C as (r & ->). exists r. reflexivity.
    + intros (r & E). apply C. exists r. cbn in E. congruence.
  - right. intros (r & E). cbn in E. congruence.
Qed.

(** events of a notification *)
Definition quiet_ev (e : ev S_) : Prop := match e with TNotify _ _ => True | TWake _ _ => True | _ => False end.
Lemma live_app h p b t1 t : (forall e, In e t1 -> quiet_ev e) -> xlive h p b t -> xlive h p b (t1 ++ t).
Proof.
  intros Q (A & B). split; [apply in_app_iff; auto|]. intro I. apply in_app_iff in I as [I|I]; [|auto]. apply (Q _ I).
Qed.
Lemma gi_with s s' t1 : GI s -> sh K s' = sh K s -> (exists A, WI S_ H (sx K s') A) -> tr s' = t1 ++ tr s -> (forall e, In e t1 -> quiet_ev e) -> GI s'.
Proof.
  intros G EH W ET Q. split; [exact W| |rewrite EH; apply (g_nd _ G)]. intros x Hx. rewrite EH in Hx. rewrite ET. apply live_app; [exact Q|]. apply (g_h _ G _ Hx).
Qed.
Lemma gi_poll s s' t1 : GI s -> sh K s' = sh K s -> (exists A, WI S_ H (sx K s') A) -> tr s' = t1 :: tr s -> (forall i, t1 <> TDrop _ i) -> GI s'.
Proof.
  intros G EH W ET Q. split; [exact W| |rewrite EH; apply (g_nd _ G)]. intros x Hx. rewrite EH in Hx. rewrite ET. destruct (g_h _ G _ Hx) as (A & B).
  split; [cbn; auto|]. intros [E|I]; [apply (Q _ E)|auto].
Qed.

Lemma notify_ok s q : GI s -> exists w t1, xexec (sx K s) (ONotify _ q) = Some w /\ GI (with_x K s w) /\
  w_tr _ w = t1 ++ tr s /\ (forall e, In e t1 -> quiet_ev e) /\ In (TNotify _ q) t1 /\ (forall q', In (TNotify _ q') t1 -> q' = q).
Proof.
  intro G. destruct (g_w _ G) as (A & W). destruct (exec_notify ww S_ H _ _ q W) as (w & A' & ws & E & W' & T & _).
  exists w, (rev (map (TWake S_) ws) ++ [TNotify _ q]).
  assert (QE : forall e, In e (rev (map (TWake S_) ws) ++ [TNotify _ q]) -> quiet_ev e).
  { intros e Q. apply in_app_iff in Q as [Q|[<-|[]]]; [|exact I]. apply in_rev in Q. apply in_map_iff in Q as (wk & <- & _). exact I. }
  assert (TE : w_tr _ w = (rev (map (TWake S_) ws) ++ [TNotify _ q]) ++ tr s) by (rewrite <- app_assoc; exact T).
  split; [exact E|]. split; [eapply gi_with; [exact G|reflexivity|exists A'; exact W'|exact TE|exact QE]|]. split; [exact TE|]. split; [exact QE|]. split.
  - apply in_app_iff. cbn. auto.
  - intros q' Q. apply in_app_iff in Q as [Q|[Q|[]]]; [|congruence]. apply in_rev in Q. apply in_map_iff in Q as (wk & [=] & _).
Qed.

(** what an action does: nothing, a quiet write, or a notification with or without a write *)
Lemma act_ok s a : GI s -> exists s' t1, do_act s a = Some s' /\ GI s' /\ sh K s' = sh K s /\ snext K s' = snext K s /\
  tr s' = t1 ++ tr s /\ (forall e, In e t1 -> quiet_ev e) /\
  (forall h, shown K h (str K s') = shown K h (str K s)) /\
  (exists t2, str K s' = t2 ++ str K s /\ forall e, In e t2 -> exists p, e = EWrite K p \/ e = EQuiet K p) /\
  (forall q, In (TNotify _ q) t1 -> q = act_path K a) /\
  (forall p, act_visible K p a -> borrow p (sd K s') = borrow p (sd K s) \/ exists q, In (TNotify _ q) t1 /\ contains S_ q p).
Proof.
  intro G. destruct a as [q u f|q u f|q]; cbn [XbowStore.do_act].
  - destruct (path_borrow_mut K keqb u q (sd K s)) as [(x, k)|] eqn:E.
    + destruct (notify_ok (with_d K s (k (f x))) q) as (w & t1 & EE & G' & T & QE & IN & ON).
      { split; [apply (g_w _ G)|apply (g_h _ G)|apply (g_nd _ G)]. }
      cbn [sx with_d] in *. rewrite EE. eexists. exists t1. split; [reflexivity|].
      split; [split; [apply (g_w _ G')|apply (g_h _ G')|apply (g_nd _ G')]|]. split; [reflexivity|]. split; [reflexivity|]. split; [exact T|]. split; [exact QE|].
      split; [reflexivity|]. split; [exists [EWrite K q]; split; [reflexivity|]; intros e [<-|[]]; eauto|]. split; [exact ON|]. intros p V. cbn in V |- *.
      destruct (contains_dec q p) as [C|C]; [right; eauto|]. left. eapply mut_elsewhere; eauto.
      intro C'. apply C. rewrite (V C'). exists []. rewrite app_nil_r. reflexivity.
    + exists s, []. cbn. split; [reflexivity|]. split; [exact G|]. do 3 (split; [reflexivity|]). split; [intros ? []|]. split; [reflexivity|].
      split; [exists []; split; [reflexivity|intros ? []]|]. split; [intros ? []|]. auto.
  - destruct (path_borrow_mut K keqb u q (sd K s)) as [(x, k)|] eqn:E.
    + eexists. exists []. split; [reflexivity|]. split; [split; [apply (g_w _ G)|apply (g_h _ G)|apply (g_nd _ G)]|]. do 3 (split; [reflexivity|]). split; [intros ? []|].
      split; [reflexivity|]. split; [exists [EQuiet K q]; split; [reflexivity|]; intros e [<-|[]]; eauto|]. split; [intros ? []|].
      intros p (V1 & V2). left. cbn. eapply mut_elsewhere; eauto.
    + exists s, []. cbn. split; [reflexivity|]. split; [exact G|]. do 3 (split; [reflexivity|]). split; [intros ? []|]. split; [reflexivity|].
      split; [exists []; split; [reflexivity|intros ? []]|]. split; [intros ? []|]. auto.
  - destruct (notify_ok s q G) as (w & t1 & EE & G' & T & QE & IN & ON). rewrite EE. eexists. exists t1. split; [reflexivity|]. split; [exact G'|]. do 2 (split; [reflexivity|]).
    split; [exact T|]. split; [exact QE|]. split; [reflexivity|]. split; [exists []; split; [reflexivity|intros ? []]|]. split; [exact ON|]. auto.
Qed.

(** [h] shows what is at [p], or was not polled since a change *)
Definition ok_shown (k : kind) (o : option val) (x : val) : Prop := o = Some x \/ (k = KSignal false /\ o = None).
Definition synced (h : nat) (k : kind) (p : path) (s : sstate) : Prop :=
  forall d, xsince h (tr s) = Some d -> (forall q, In (TNotify _ q) d -> ~ contains S_ q p) ->
  forall x, borrow p (sd K s) = Some x -> ok_shown k (shown K h (str K s)) x.

Lemma quiet_since h t1 t : (forall e, In e t1 -> quiet_ev e) -> xsince h (t1 ++ t) = match xsince h t with Some d => Some (t1 ++ d) | None => None end.
Proof. intro Q. apply since_app. intros w r I. apply (Q _ I). Qed.

Lemma synced_step h k p s s' t1 : synced h k p s -> tr s' = t1 ++ tr s -> (forall w r, ~ In (TPoll _ h w r) t1) ->
  shown K h (str K s') = shown K h (str K s) ->
  (borrow p (sd K s') = borrow p (sd K s) \/ exists q, In (TNotify _ q) t1 /\ contains S_ q p) -> synced h k p s'.
Proof.
  intros SY T NP SH B d E N x X. rewrite T in E. destruct (since_app S_ h t1 (tr s) NP) as (Q & _). rewrite Q in E.
  destruct (xsince h (tr s)) as [d0|] eqn:ED; [|discriminate]. injection E as <-. rewrite SH.
  destruct B as [B|(q & I & C)]; [|exfalso; apply (N q); [apply in_app_iff; auto|exact C]].
  rewrite B in X. apply (SY d0); auto. intros q I. apply N. apply in_app_iff. auto.
Qed.

Lemma acts_ok l : forall s, GI s -> exists s' t1, do_acts s l = Some s' /\ GI s' /\ sh K s' = sh K s /\ snext K s' = snext K s /\
  tr s' = t1 ++ tr s /\ (forall e, In e t1 -> quiet_ev e) /\
  (exists t2, str K s' = t2 ++ str K s /\ forall e, In e t2 -> exists p, e = EWrite K p \/ e = EQuiet K p) /\
  (forall q, In (TNotify _ q) t1 -> In q (map (act_path K) l)) /\
  (forall h, shown K h (str K s') = shown K h (str K s)) /\
  (forall p, Forall (act_visible K p) l -> borrow p (sd K s') = borrow p (sd K s) \/ exists q, In (TNotify _ q) t1 /\ contains S_ q p).
Proof.
  induction l as [|a l IH]; intros s G.
  - exists s, []. cbn. split; [reflexivity|]. split; [exact G|]. do 3 (split; [reflexivity|]). split; [intros ? []|].
    split; [exists []; split; [reflexivity|intros ? []]|]. split; [intros ? []|]. split; [reflexivity|]. auto.
  - destruct (act_ok s a G) as (s1 & t1 & E1 & G1 & H1 & N1 & T1 & Q1 & S1 & (u1 & U1 & V1) & P1 & B1).
    destruct (IH s1 G1) as (s2 & t2 & E2 & G2 & H2 & N2 & T2 & Q2 & (u2 & U2 & V2) & P2 & S2 & B2).
    exists s2, (t2 ++ t1). cbn [XbowStore.do_acts]. rewrite E1. split; [exact E2|]. split; [exact G2|]. split; [congruence|]. split; [congruence|].
    split; [rewrite T2, T1, app_assoc; reflexivity|]. split; [intros e I; apply in_app_iff in I as [I|I]; auto|].
    split; [exists (u2 ++ u1); split; [rewrite U2, U1, app_assoc; reflexivity|]; intros e I; apply in_app_iff in I as [I|I]; auto|].
    split; [intros q I; apply in_app_iff in I as [I|I]; cbn; [right; auto|left; symmetry; auto]|]. split; [intro h; rewrite S2, S1; reflexivity|].
    intros p V. inversion V as [|? ? V3 V4]; subst. destruct (B1 p V3) as [B|(q & I & C)]; [|right; exists q; split; [apply in_app_iff; auto|exact C]].
    destruct (B2 p V4) as [B'|(q & I & C)]; [left; congruence|right; exists q; split; [apply in_app_iff; auto|exact C]].
Qed.

(** polling the stream of a helper *)
Lemma poll_ok s x wk : GI s -> In x (sh K s) -> exists w r, poll_stream s (h_id K x) wk = Some (with_x K s w, r) /\ GI (with_x K s w) /\
  w_tr _ w = TPoll _ (h_id K x) wk r :: tr s /\
  polled K (sx K s) (h_id K x) = match xsince (h_id K x) (tr s) with Some _ => true | None => false end /\
  polled K w (h_id K x) = true /\
  (r = true <-> exists d q k, xsince (h_id K x) (tr s) = Some d /\ In (TNotify _ q) d /\ In k (listen_keys S_ H (h_path K x) false) /\ In k (notify_keys S_ H q)).
Proof.
  intros G Hx. destruct (g_w _ G) as (A & W). pose proof (g_h _ G _ Hx) as L.
  assert (PO : forall w' A', WI S_ H w' A' -> xlive (h_id K x) (h_path K x) false (w_tr _ w') ->
     polled K w' (h_id K x) = match xsince (h_id K x) (w_tr _ w') with Some _ => true | None => false end).
  { intros w' A' W' (L1 & L2). destruct (wi_live _ _ _ _ W' _ _ _ L1 L2) as (u & Hu & ID & _). unfold polled.
    destruct (find_stream (h_id K x) (w_streams _ w')) as [u'|] eqn:F; [|exfalso; apply (find_stream_none _ _ F _ Hu ID)].
    apply find_stream_some in F as (Hu' & ID'). assert (u' = u) by (apply (id_unique _ _ _ (wi_ids _ _ _ _ W')); congruence). subst u'.
    pose proof (wi_sum _ _ _ _ W' u Hu) as SU. rewrite ID in SU. destruct (xsince (h_id K x) (w_tr _ w')); [apply Nat.leb_le; lia|]. rewrite SU. reflexivity. }
  destruct (poll_live ww WW S_ H _ _ _ _ _ wk W L) as (w & r & E & T & R).
  destruct (exec_poll ww WW S_ H _ _ (h_id K x) wk W) as (w1 & A1 & E1 & W1 & _). rewrite E in E1. injection E1 as <-.
  exists w, r. split; [unfold XbowStore.poll_stream; rewrite E, T; reflexivity|].
  assert (G' : GI (with_x K s w)). { eapply gi_poll; [exact G|reflexivity|exists A1; exact W1|exact T|discriminate]. }
  split; [exact G'|]. split; [exact T|]. split; [apply (PO _ _ W L)|]. split; [|exact R].
  rewrite (PO _ _ W1 (g_h _ G' _ Hx)). cbn in T |- *. rewrite T. cbn. rewrite Nat.eqb_refl. reflexivity.
Qed.
Lemma ready_changed s x r : (r = true <-> exists d q k, xsince (h_id K x) (tr s) = Some d /\ In (TNotify _ q) d /\ In k (listen_keys S_ H (h_path K x) false) /\ In k (notify_keys S_ H q)) ->
  changed K (h_id K x) (h_path K x) (tr s) -> r = true.
Proof.
  intros R (d & q & E & I & C). apply R. destruct (affects_hit S_ H q (h_path K x) false C) as (k & K1 & K2). eauto 8.
Qed.

(** what an operation leaves alone *)
Definition frame (P : path -> Prop) (s s' : sstate) (h0 : option nat) : Prop :=
  exists t1, tr s' = t1 ++ tr s /\
  (forall h w r, In (TPoll _ h w r) t1 -> h0 = Some h \/ ~ In h (map (h_id K) (sh K s))) /\
  (forall h, h0 <> Some h -> shown K h (str K s') = shown K h (str K s)) /\
  (forall p, P p -> borrow p (sd K s') = borrow p (sd K s) \/ exists q, In (TNotify _ q) t1 /\ contains S_ q p).
Lemma frame_refl P s h0 : frame P s s h0.
Proof. exists []. split; [reflexivity|]. split; [intros ? ? ? []|]. auto. Qed.
Lemma frame_trans P s s1 s2 h0 : frame P s s1 h0 -> frame P s1 s2 h0 -> map (h_id K) (sh K s1) = map (h_id K) (sh K s) -> frame P s s2 h0.
Proof.
  intros (t1 & T1 & N1 & S1 & B1) (t2 & T2 & N2 & S2 & B2) EH. exists (t2 ++ t1). split; [rewrite T2, T1, app_assoc; reflexivity|]. split; [|split].
  - intros h w r I. rewrite EH in N2. apply in_app_iff in I as [I|I]; eauto.
  - intros h N. rewrite (S2 h N). auto.
  - intros p V. destruct (B1 p V) as [B|(q & I & C)]; [|right; exists q; split; [apply in_app_iff; auto|exact C]].
    destruct (B2 p V) as [B'|(q & I & C)]; [left; congruence|right; exists q; split; [apply in_app_iff; auto|exact C]].
Qed.
Lemma frame_acts s s' l t1 h0 : tr s' = t1 ++ tr s -> (forall e, In e t1 -> quiet_ev e) -> (forall h, shown K h (str K s') = shown K h (str K s)) ->
  (forall p, Forall (act_visible K p) l -> borrow p (sd K s') = borrow p (sd K s) \/ exists q, In (TNotify _ q) t1 /\ contains S_ q p) ->
  frame (fun p => Forall (act_visible K p) l) s s' h0.
Proof. intros T Q SH B. exists t1. split; [exact T|]. split; [|auto]. intros h w r I. destruct (Q _ I). Qed.
(** same data; at most polls of [h0] *)
Lemma frame_quiet P s s' h0 : sd K s' = sd K s -> (tr s' = tr s \/ exists h w r, h0 = Some h /\ tr s' = TPoll _ h w r :: tr s) ->
  (forall h, h0 <> Some h -> shown K h (str K s') = shown K h (str K s)) -> frame P s s' h0.
Proof.
  intros D T SH. destruct T as [T|(h & w & r & E & T)].
  - exists []. split; [exact T|]. split; [intros ? ? ? []|]. split; [exact SH|]. rewrite D. auto.
  - exists [TPoll _ h w r]. split; [exact T|]. split; [|split; [exact SH|rewrite D; auto]]. intros h' w' r' [I|[]]. left. congruence.
Qed.
Lemma synced_frame P s s' h0 x p : frame P s s' h0 -> P p -> In x (sh K s) -> h0 <> Some (h_id K x) ->
  synced (h_id K x) (h_kind K x) p s -> synced (h_id K x) (h_kind K x) p s'.
Proof.
  intros (t1 & T & N & SH & B) V Hx NE SY. eapply synced_step; eauto. intros w r I. destruct (N _ _ _ I) as [Q|Q]; [congruence|]. apply Q, in_map, Hx.
Qed.

(** the state right after the stream of a helper was polled *)
Definition due_spec (s : sstate) (x : helper) (r : bool) : Prop :=
  r = true <-> exists d q k, xsince (h_id K x) (tr s) = Some d /\ In (TNotify _ q) d /\ In k (listen_keys S_ H (h_path K x) false) /\ In k (notify_keys S_ H q).
Definition firstb (s : sstate) (h : nat) : bool := match xsince h (tr s) with Some _ => false | None => true end.
Lemma after_poll s s1 x wk r due : due_spec s x r -> tr s1 = TPoll _ (h_id K x) wk r :: tr s -> sd K s1 = sd K s ->
  (due = (firstb s (h_id K x) || r)%bool \/ (due = r /\ h_kind K x = KSignal false /\ (xsince (h_id K x) (tr s) = None -> shown K (h_id K x) (str K s) = None))) ->
  (if due then forall v, borrow (h_path K x) (sd K s) = Some v -> shown K (h_id K x) (str K s1) = Some v
   else shown K (h_id K x) (str K s1) = shown K (h_id K x) (str K s)) ->
  synced (h_id K x) (h_kind K x) (h_path K x) s -> synced (h_id K x) (h_kind K x) (h_path K x) s1.
Proof.
  intros R T D DU SH SY d E N v B. rewrite D in B. destruct due; [left; auto|]. rewrite SH.
  assert (RF : r = false). { destruct DU as [DU|(DU & _)]; [|congruence]. symmetry in DU. apply orb_false_iff in DU. tauto. }
  destruct (xsince (h_id K x) (tr s)) as [d0|] eqn:ED.
  - apply (SY d0 ED); [|exact B]. intros q I C. apply Bool.diff_false_true. rewrite <- RF.
    apply (ready_changed s x r R). exists d0, q. auto.
  - destruct DU as [DU|(_ & KS & SN)].
    + unfold firstb in DU. rewrite ED in DU. discriminate.
    + right. auto.
Qed.
Lemma shown_call h v t : shown K h (ECall K h v :: t) = Some v.
Proof. cbn. rewrite Nat.eqb_refl. reflexivity. Qed.
Lemma shown_other h h' v t : h' <> h -> shown K h (ECall K h' v :: t) = shown K h t.
Proof. intro N. cbn. apply Nat.eqb_neq in N. rewrite N. reflexivity. Qed.

(** what a poll of a helper achieves *)
Definition poll_result (s s' : sstate) (x : helper) (acts : list (act K)) : Prop :=
  GI s' /\ map (h_id K) (sh K s') = map (h_id K) (sh K s) /\
  (forall y, In y (sh K s') -> exists z, In z (sh K s) /\ h_id K z = h_id K y /\ h_kind K z = h_kind K y /\ h_path K z = h_path K y) /\
  frame (fun p => Forall (act_visible K p) acts /\ (h_kind K x = KBind -> contains S_ p (h_path K x) -> h_path K x = p)) s s' (Some (h_id K x)) /\
  ((xsince (h_id K x) (tr s) = None -> shown K (h_id K x) (str K s) = None) ->
   (xsince (h_id K x) (tr s') = None -> shown K (h_id K x) (str K s') = None) /\
   (Forall (act_visible K (h_path K x)) acts -> synced (h_id K x) (h_kind K x) (h_path K x) s -> synced (h_id K x) (h_kind K x) (h_path K x) s')).

Definition call_events (s : sstate) (x : helper) (due : bool) : list (sev K) :=
  if due then match borrow (h_path K x) (sd K s) with Some v => [ECall K (h_id K x) v] | None => [] end else [].
Lemma each_ok s x wk : GI s -> In x (sh K s) -> exists s' r, poll_each ww K keqb H s x wk = Some s' /\ GI s' /\ sh K s' = sh K s /\ snext K s' = snext K s /\ sd K s' = sd K s /\
  tr s' = TPoll _ (h_id K x) wk r :: tr s /\ due_spec s x r /\ str K s' = call_events s x (firstb s (h_id K x) || r) ++ str K s.
Proof.
  intros G Hx. destruct (poll_ok s x wk G Hx) as (w & r & E & G1 & T & PO & _ & R). unfold poll_each. rewrite PO, E.
  assert (FB : negb (match xsince (h_id K x) (tr s) with Some _ => true | None => false end) = firstb s (h_id K x)) by (unfold firstb; destruct (xsince (h_id K x) (tr s)); reflexivity).
  rewrite FB. destruct (firstb s (h_id K x) || r)%bool eqn:DU; [cbn [sd with_x]; destruct (borrow (h_path K x) (sd K s)) as [v|] eqn:B|];
    (eexists; exists r; split; [reflexivity|]; split; [split; [apply (g_w _ G1)|apply (g_h _ G1)|apply (g_nd _ G1)]|]; do 3 (split; [reflexivity|]);
     split; [exact T|]; split; [exact R|]; rewrite DU; unfold call_events; rewrite ?B; reflexivity).
Qed.
Lemma since_polled h wk r (t : list (ev S_)) : xsince h (TPoll _ h wk r :: t) = Some [].
Proof. cbn. rewrite Nat.eqb_refl. reflexivity. Qed.

(** a state followed by a listening poll *)
Lemma listen_result s s1 x wk acts : GI s1 -> In x (sh K s1) -> map (h_id K) (sh K s1) = map (h_id K) (sh K s) ->
  (forall y, In y (sh K s1) -> exists z, In z (sh K s) /\ h_id K z = h_id K y /\ h_kind K z = h_kind K y /\ h_path K z = h_path K y) ->
  frame (fun p => Forall (act_visible K p) acts /\ (h_kind K x = KBind -> contains S_ p (h_path K x) -> h_path K x = p)) s s1 (Some (h_id K x)) ->
  ((xsince (h_id K x) (tr s) = None -> shown K (h_id K x) (str K s) = None) -> Forall (act_visible K (h_path K x)) acts ->
    synced (h_id K x) (h_kind K x) (h_path K x) s -> synced (h_id K x) (h_kind K x) (h_path K x) s1) ->
  exists s', poll_each ww K keqb H s1 x wk = Some s' /\ poll_result s s' x acts.
Proof.
  intros G Hx MI MH FR SY. destruct (each_ok s1 x wk G Hx) as (s' & r & E & G' & SH & _ & D & T & R & STR). exists s'. split; [exact E|].
  split; [exact G'|]. split; [rewrite SH; exact MI|]. split; [rewrite SH; exact MH|]. split.
  - eapply frame_trans; [exact FR| |exact MI]. apply frame_quiet; [exact D|right; exists (h_id K x), wk, r; auto|].
    intros h NE. rewrite STR. unfold call_events. destruct (_ || _)%bool; [destruct (borrow _ _)|]; cbn [app]; auto. apply shown_other. congruence.
  - intro SN. split; [rewrite T, since_polled; discriminate|]. intros V SY0.
    eapply (after_poll s1 s' x wk r (firstb s1 (h_id K x) || r)); eauto. rewrite STR. unfold call_events.
    destruct (firstb s1 (h_id K x) || r)%bool; [|reflexivity]. intros v B. rewrite B. apply shown_call.
Qed.

Lemma gi_emit s e : GI s -> GI (emit K s e).
Proof. intro G. split; [apply (g_w _ G)|apply (g_h _ G)|apply (g_nd _ G)]. Qed.
Lemma same_helpers s s' : sh K s' = sh K s -> forall y, In y (sh K s') -> exists z, In z (sh K s) /\ h_id K z = h_id K y /\ h_kind K z = h_kind K y /\ h_path K z = h_path K y.
Proof. intros E y Hy. rewrite E in Hy. eauto. Qed.

(** for_each *)
Lemma each_result s x wk acts : GI s -> In x (sh K s) -> exists s', poll_each ww K keqb H s x wk = Some s' /\ poll_result s s' x acts.
Proof. intros G Hx. apply listen_result; auto using frame_refl. apply same_helpers. reflexivity. Qed.

(** signal_stream *)
Definition item_events (s : sstate) (x : helper) (due : bool) : list (sev K) :=
  if due then [EItem K (h_id K x) (borrow (h_path K x) (sd K s))] else [].
Lemma signal_ok s x fire wk : GI s -> In x (sh K s) -> exists s' r, poll_signal ww K keqb H s x fire wk = Some s' /\ GI s' /\ sh K s' = sh K s /\ snext K s' = snext K s /\ sd K s' = sd K s /\
  tr s' = TPoll _ (h_id K x) wk r :: tr s /\ due_spec s x r /\ str K s' = item_events s x (firstb s (h_id K x) && fire || r) ++ str K s.
Proof.
  intros G Hx. destruct (poll_ok s x wk G Hx) as (w & r & E & G1 & T & PO & _ & R). unfold poll_signal. rewrite PO, E.
  assert (FB : negb (match xsince (h_id K x) (tr s) with Some _ => true | None => false end) = firstb s (h_id K x)) by (unfold firstb; destruct (xsince (h_id K x) (tr s)); reflexivity).
  rewrite FB. destruct (firstb s (h_id K x) && fire || r)%bool eqn:DU;
    (eexists; exists r; split; [reflexivity|]; split; [split; [apply (g_w _ G1)|apply (g_h _ G1)|apply (g_nd _ G1)]|]; do 3 (split; [reflexivity|]);
     split; [exact T|]; split; [exact R|]; rewrite DU; reflexivity).
Qed.
Lemma signal_result s x fire wk acts : GI s -> In x (sh K s) -> h_kind K x = KSignal fire -> exists s', poll_signal ww K keqb H s x fire wk = Some s' /\ poll_result s s' x acts.
Proof.
  intros G Hx KS. destruct (signal_ok s x fire wk G Hx) as (s' & r & E & G' & SH & _ & D & T & R & STR). exists s'. split; [exact E|].
  split; [exact G'|]. split; [rewrite SH; reflexivity|]. split; [apply same_helpers, SH|]. split.
  - apply frame_quiet; [exact D|right; exists (h_id K x), wk, r; auto|].
    intros h NE. rewrite STR. unfold item_events. destruct (_ || _)%bool; cbn [app]; auto. cbn. destruct (borrow _ _); [|reflexivity]. destruct (Nat.eqb_spec (h_id K x) h); [congruence|reflexivity].
  - intro SN. split; [rewrite T, since_polled; discriminate|]. intros V SY0.
    eapply (after_poll s s' x wk r (firstb s (h_id K x) && fire || r)); eauto.
    + destruct fire; [left; rewrite andb_true_r; reflexivity|right]. rewrite andb_false_r. auto.
    + rewrite STR. unfold item_events. destruct (_ || _)%bool; [|reflexivity]. intros v B. rewrite B. cbn. rewrite Nat.eqb_refl. reflexivity.
Qed.

(** for_each_async *)
Lemma set_fut_id h o l : map (h_id K) (set_fut K h o l) = map (h_id K) l.
Proof. unfold set_fut. rewrite map_map. apply map_ext. intro x. destruct (Nat.eqb_spec (h_id K x) h); cbn; congruence. Qed.
Lemma set_fut_in h o l y : In y (set_fut K h o l) -> exists z, In z l /\ h_id K z = h_id K y /\ h_kind K z = h_kind K y /\ h_path K z = h_path K y.
Proof. intro I. apply in_map_iff in I as (z & <- & Hz). exists z. destruct (Nat.eqb_spec (h_id K z) h); cbn; auto. Qed.
Lemma gi_fut s h o : GI s -> GI (with_fut K s h o).
Proof.
  intro G. split; [apply (g_w _ G)| |cbn; rewrite set_fut_id; apply (g_nd _ G)]. intros y Hy. apply set_fut_in in Hy as (z & Hz & <- & _ & <-). apply (g_h _ G _ Hz).
Qed.
Lemma run_fut_ok s h o e : GI s -> exists s' t1 t2, run_fut ww K keqb H s h o e = Some s' /\ GI s' /\ snext K s' = snext K s /\
  tr s' = t1 ++ tr s /\ (forall q, In (TNotify _ q) t1 -> In q (map (act_path K) (e_acts K e))) /\
  str K s' = t2 ++ str K s /\
  (match o with
   | None => t2 = [] /\ sh K s' = sh K s
   | Some n => exists a, (forall x, In x a -> exists p, x = EWrite K p \/ x = EQuiet K p) /\
       ((e_done K e = true /\ t2 = EFutDrop K n :: a ++ [EFutPoll K n] /\ sh K s' = set_fut K h None (sh K s)) \/
        (e_done K e = false /\ t2 = a ++ [EFutPoll K n] /\ sh K s' = sh K s))
   end) /\ (forall h, shown K h (str K s') = shown K h (str K s)) /\ frame (fun p => Forall (act_visible K p) (e_acts K e)) s s' None.
Proof.
  intro G. unfold run_fut. destruct o as [n|].
  - destruct (acts_ok (e_acts K e) (emit K s (EFutPoll K n)) (gi_emit _ _ G)) as (s1 & t1 & E & G1 & H1 & N1 & T1 & Q1 & (u & U & V) & P1 & S1 & B1). rewrite E.
    assert (FR : frame (fun p => Forall (act_visible K p) (e_acts K e)) s s1 None). { eapply frame_acts; [exact T1|exact Q1|exact S1|exact B1]. }
    destruct (e_done K e).
    + eexists. exists t1, (EFutDrop K n :: u ++ [EFutPoll K n]). split; [reflexivity|]. split; [apply gi_fut, gi_emit, G1|]. split; [exact N1|]. split; [exact T1|]. split; [exact P1|].
      split; [cbn; rewrite U, <- app_assoc; reflexivity|]. split; [exists u; split; [exact V|left]; cbn; rewrite H1; auto|]. split; [exact S1|].
      eapply frame_trans; [exact FR| |rewrite H1; reflexivity]. apply frame_quiet; auto.
    + eexists. exists t1, (u ++ [EFutPoll K n]). split; [reflexivity|]. split; [exact G1|]. split; [exact N1|]. split; [exact T1|]. split; [exact P1|].
      split; [rewrite U, <- app_assoc; reflexivity|]. split; [exists u; split; [exact V|right]; auto|]. split; [exact S1|exact FR].
  - exists s, [], []. split; [reflexivity|]. split; [exact G|]. do 2 (split; [reflexivity|]). split; [intros ? []|]. split; [reflexivity|]. split; [auto|]. split; [reflexivity|]. apply frame_refl.
Qed.
(** the state in which the future is polled, and that future *)
Definition async_val (s : sstate) (x : helper) (due : bool) : option val := if due then borrow (h_path K x) (sd K s) else None.
Definition async_mid (s : sstate) (x : helper) (due : bool) (w : world S_) : sstate * option nat :=
  match async_val s x due with
  | Some v => let n := snext K s in
      (with_fut K (drop_fut K (mkS K (sd K s) w (sh K s) (S n) (EFut K (h_id K x) n v :: str K s)) (h_fut K x)) (h_id K x) (Some n), Some n)
  | None => (with_x K s w, h_fut K x)
  end.
Lemma async_ok s x wk e : GI s -> In x (sh K s) -> exists s' w r, 
  let mid := async_mid s x (firstb s (h_id K x) || r) w in
  poll_async ww K keqb H s x wk e = Some s' /\ run_fut ww K keqb H (fst mid) (h_id K x) (snd mid) e = Some s' /\
  w_tr _ w = TPoll _ (h_id K x) wk r :: tr s /\ due_spec s x r /\ GI (fst mid) /\ poll_stream s (h_id K x) wk = Some (with_x K s w, r).
Proof.
  intros G Hx. destruct (poll_ok s x wk G Hx) as (w & r & E & G1 & T & PO & _ & R).
  assert (FB : negb (match xsince (h_id K x) (tr s) with Some _ => true | None => false end) = firstb s (h_id K x)) by (unfold firstb; destruct (xsince (h_id K x) (tr s)); reflexivity).
  assert (GM : GI (fst (async_mid s x (firstb s (h_id K x) || r) w))).
  { unfold async_mid. destruct (async_val s x _); [|exact G1]. cbn [fst]. apply gi_fut. destruct (h_fut K x); cbn [drop_fut]; try apply gi_emit; (split; [apply (g_w _ G1)|apply (g_h _ G1)|apply (g_nd _ G1)]). }
  destruct (run_fut_ok _ (h_id K x) (snd (async_mid s x (firstb s (h_id K x) || r) w)) e GM) as (s' & _ & _ & E' & _).
  exists s', w, r. cbv zeta. split; [|auto 6]. unfold poll_async. rewrite PO, E, FB. cbn [sd with_x snext]. revert E'. unfold async_mid, async_val.
  destruct (firstb s (h_id K x) || r)%bool; [destruct (borrow (h_path K x) (sd K s)) as [v|]|]; auto.
Qed.
Lemma async_result s x wk e : GI s -> In x (sh K s) -> h_kind K x = KAsync -> exists s', poll_async ww K keqb H s x wk e = Some s' /\ poll_result s s' x (e_acts K e).
Proof.
  intros G Hx KA. destruct (async_ok s x wk e G Hx) as (s' & w & r & E & E2 & T & R & GM & _). cbv zeta in *.
  set (mid := async_mid s x (firstb s (h_id K x) || r) w) in *. exists s'. split; [exact E|].
  destruct (run_fut_ok _ (h_id K x) (snd mid) e GM) as (s'' & t1 & t2 & E3 & G' & _ & T1 & _ & STR & CASES & SH & FR). rewrite E2 in E3. injection E3 as <-.
  assert (MT : tr (fst mid) = TPoll _ (h_id K x) wk r :: tr s).
  { subst mid. unfold async_mid. destruct (async_val s x _); [|exact T]. destruct (h_fut K x); exact T. }
  assert (MD : sd K (fst mid) = sd K s). { subst mid. unfold async_mid. destruct (async_val s x _); [|reflexivity]. destruct (h_fut K x); reflexivity. }
  assert (MI : map (h_id K) (sh K (fst mid)) = map (h_id K) (sh K s)). { subst mid. unfold async_mid. destruct (async_val s x _); [|reflexivity]. destruct (h_fut K x); cbn; apply set_fut_id. }
  assert (MH : forall y, In y (sh K (fst mid)) -> exists z, In z (sh K s) /\ h_id K z = h_id K y /\ h_kind K z = h_kind K y /\ h_path K z = h_path K y).
  { subst mid. unfold async_mid. destruct (async_val s x _); [|cbn; eauto]. destruct (h_fut K x); cbn; apply set_fut_in. }
  assert (MS : forall h, h <> h_id K x -> shown K h (str K (fst mid)) = shown K h (str K s)).
  { intros h NE. subst mid. unfold async_mid. destruct (async_val s x _); [|reflexivity]. destruct (h_fut K x); cbn; (destruct (Nat.eqb_spec (h_id K x) h); [congruence|reflexivity]). }
  assert (SHH : sh K s' = sh K (fst mid) \/ sh K s' = set_fut K (h_id K x) None (sh K (fst mid))).
  { destruct (snd mid) as [n|]; [destruct CASES as (a & _ & [(_ & _ & Q)|(_ & _ & Q)])|destruct CASES as (_ & Q)]; auto. }
  assert (F0 : frame (fun p => Forall (act_visible K p) (e_acts K e) /\ (h_kind K x = KBind -> contains S_ p (h_path K x) -> h_path K x = p)) s (fst mid) (Some (h_id K x))).
  { apply frame_quiet; [exact MD|right; exists (h_id K x), wk, r; auto|]. intros h NE. apply MS. congruence. }
  split; [exact G'|]. split; [destruct SHH as [->| ->]; rewrite ?set_fut_id; exact MI|]. split.
  { intros y Hy. destruct SHH as [Q|Q]; rewrite Q in Hy; [apply MH, Hy|]. apply set_fut_in in Hy as (z & Hz & Q1 & Q2 & Q3). destruct (MH z Hz) as (z' & Hz' & Z1 & Z2 & Z3). exists z'. split; [exact Hz'|]. split; [congruence|]. split; congruence. }
  split.
  - eapply frame_trans; [exact F0| |exact MI]. destruct FR as (t & FR1 & FR2 & FR3 & FR4). exists t. split; [exact FR1|]. split; [|split; [|intros p (V & _); auto]].
    + intros h w0 r0 I. destruct (FR2 _ _ _ I) as [Q|Q]; [discriminate|auto].
    + intros h _. apply FR3. discriminate.
  - intro SN. split.
    + rewrite T1, MT. destruct FR as (t & FR1 & FR2 & _). rewrite T1, MT in FR1.
      assert (NP : forall w0 r0, ~ In (TPoll _ (h_id K x) w0 r0) t1).
      { rewrite <- MT in FR1. apply app_inv_tail in FR1. subst t. intros w0 r0 I. destruct (FR2 _ _ _ I) as [Q|Q]; [discriminate|]. apply Q. rewrite MI. apply in_map, Hx. }
      destruct (since_app S_ (h_id K x) t1 (TPoll _ (h_id K x) wk r :: tr s) NP) as (Q & _). rewrite Q, since_polled. discriminate.
    + intros V SY. assert (SM : synced (h_id K x) (h_kind K x) (h_path K x) (fst mid)).
      { eapply (after_poll s (fst mid) x wk r (firstb s (h_id K x) || r)); eauto. subst mid. unfold async_mid, async_val. destruct (firstb s (h_id K x) || r)%bool; [|reflexivity].
        intros v B. rewrite B. destruct (h_fut K x); cbn; rewrite Nat.eqb_refl; reflexivity. }
      destruct FR as (t & FR1 & FR2 & FR3 & FR4). eapply (synced_step _ _ _ _ _ t); [exact SM|exact FR1| | |apply FR4; exact V].
      * intros w0 r0 I. destruct (FR2 _ _ _ I) as [Q|Q]; [discriminate|]. apply Q. rewrite MI. apply in_map, Hx.
      * apply FR3. discriminate.
Qed.

(** bind_for_each *)
Lemma take_ok h items : forall s, let s' := take_items K s h items in
  sd K s' = sd K s /\ sx K s' = sx K s /\ sh K s' = sh K s /\ snext K s' = snext K s /\
  str K s' = rev (map (EIncoming K h) items) ++ str K s /\ (forall h', shown K h' (str K s') = shown K h' (str K s)).
Proof.
  induction items as [|v items IH]; intro s; [cbn; auto 6|]. cbn [take_items]. destruct (IH (emit K s (EIncoming K h v))) as (A & B & C & D & E & F).
  cbv zeta. split; [exact A|]. split; [exact B|]. split; [exact C|]. split; [exact D|]. split; [rewrite E; cbn; rewrite <- app_assoc; reflexivity|exact F].
Qed.
Lemma gi_same s s' : GI s -> sx K s' = sx K s -> sh K s' = sh K s -> GI s'.
Proof. intros G A B. split; [rewrite A; apply (g_w _ G)|rewrite A, B; apply (g_h _ G)|rewrite B; apply (g_nd _ G)]. Qed.
Lemma bind_result s x wk e : GI s -> In x (sh K s) -> h_kind K x = KBind -> exists s', poll_bind ww K keqb H s x wk e = Some s' /\ poll_result s s' x (e_acts K e).
Proof.
  intros G Hx KB. unfold poll_bind.
  destruct (acts_ok (e_acts K e) s G) as (sa & t1 & E & Ga & Ha & Na & Ta & Qa & (u & U & V) & Pa & Sa & Ba). rewrite E.
  destruct (take_ok (h_id K x) (e_items K e) sa) as (D0 & X0 & H0 & N0 & T0 & S0). cbv zeta in *. set (s0 := take_items K sa (h_id K x) (e_items K e)) in *.
  assert (G0 : GI s0) by (apply (gi_same sa); auto). assert (Hx0 : In x (sh K s0)) by (rewrite H0, Ha; exact Hx).
  assert (F0 : forall h0, frame (fun p => Forall (act_visible K p) (e_acts K e)) s s0 h0).
  { intro h0. apply (frame_acts _ _ _ t1); [rewrite X0; exact Ta|exact Qa|intro h; rewrite S0; apply Sa|rewrite D0; exact Ba]. }
  assert (FW : forall (P : path -> Prop) h0, (forall p, P p -> Forall (act_visible K p) (e_acts K e)) -> frame P s s0 h0).
  { intros P h0 PQ. destruct (F0 h0) as (t & A & B & C & D). exists t. split; [exact A|]. split; [exact B|]. split; [exact C|]. intros p Q. apply D, PQ, Q. }
  assert (SY0 : Forall (act_visible K (h_path K x)) (e_acts K e) -> synced (h_id K x) (h_kind K x) (h_path K x) s -> synced (h_id K x) (h_kind K x) (h_path K x) s0).
  { intros VI SY. eapply (synced_frame _ s s0 None x); [apply F0|exact VI|exact Hx|discriminate|exact SY]. }
  assert (NS0 : (xsince (h_id K x) (tr s) = None -> shown K (h_id K x) (str K s) = None) -> xsince (h_id K x) (tr s0) = None -> shown K (h_id K x) (str K s0) = None).
  { intros SN Q. rewrite S0, Sa. apply SN. rewrite X0, Ta, quiet_since in Q by exact Qa. destruct (xsince (h_id K x) (tr s)); [discriminate|reflexivity]. }
  assert (DONE : poll_result s (emit K s0 (EDone K (h_id K x))) x (e_acts K e)).
  { split; [apply gi_emit, G0|]. split; [cbn; rewrite H0, Ha; reflexivity|]. split; [apply same_helpers; cbn; congruence|]. split; [|intro SN; split; [apply NS0, SN|exact SY0]].
    apply FW. tauto. }
  destruct (e_end K e); [eexists; split; [reflexivity|exact DONE]|].
  destruct (last_item K (e_items K e)) as [v|] eqn:LI.
  2:{ apply (listen_result s s0 x wk (e_acts K e)); auto; [congruence|apply same_helpers; congruence|apply FW; tauto]. }
  destruct (path_borrow_mut K keqb (e_uniq K e) (h_path K x) (sd K s0)) as [(y, k)|] eqn:BM; [|eexists; split; [reflexivity|exact DONE]].
  destruct (act_ok s0 (AWrite K (h_path K x) (e_uniq K e) (fun _ => v)) G0) as (s1 & t2 & E1 & G1 & H1 & _ & T1 & Q1 & S1 & _ & _ & B1). rewrite E1.
  assert (D1 : sd K s1 = k v). { cbn [XbowStore.do_act] in E1. rewrite BM in E1. destruct (xexec (sx K s0) _); [|discriminate]. injection E1 as <-. reflexivity. }
  destruct (poll_ok (emit K s1 (EWrote K (h_id K x) v)) x wk) as (w & r & E2 & G2 & T2 & _ & _ & _); [apply gi_emit, G1|cbn; rewrite H1; exact Hx0|]. rewrite E2.
  apply (listen_result s (with_x K (emit K s1 (EWrote K (h_id K x) v)) w) x wk (e_acts K e)).
  - exact G2.
  - cbn. rewrite H1. exact Hx0.
  - cbn. congruence.
  - apply same_helpers. cbn. congruence.
  - eapply frame_trans; [apply FW; intros p (Q & _); exact Q| |congruence].
    exists (TPoll _ (h_id K x) wk r :: t2). split; [cbn in *; rewrite T2, T1; reflexivity|]. split; [|split].
    + intros h w' r' [I|I]; [left; congruence|]. destruct (Q1 _ I).
    + intros h NE. cbn. destruct (Nat.eqb_spec (h_id K x) h); [congruence|]. apply S1.
    + intros p (_ & VB). cbn. destruct (B1 p) as [B|(q & I & C)]; [cbn; intro C; apply VB; auto|left; exact B|right; exists q; cbn; auto].
  - intros _ _ _ d _ _ z B. left. cbn in B |- *. rewrite Nat.eqb_refl. rewrite D1 in B. destruct (mut_read K keqb _ _ _ _ _ BM) as (_ & _ & RW). specialize (RW v []). rewrite app_nil_r in RW.
    rewrite RW in B. exact B.
Qed.

(** * All operations *)
Record INV (s : sstate) : Prop := {
  i_gi : GI s;
  i_never : forall x, In x (sh K s) -> xsince (h_id K x) (tr s) = None -> shown K (h_id K x) (str K s) = None;
  i_new : forall h, w_next _ (sx K s) <= h -> shown K h (str K s) = None }.
Record VIS (p : path) (s : sstate) : Prop := {
  v_bind : forall x, In x (sh K s) -> h_kind K x = KBind -> contains S_ p (h_path K x) -> h_path K x = p;
  v_sync : forall x, In x (sh K s) -> h_path K x = p -> synced (h_id K x) (h_kind K x) p s }.

Lemma find_helper_some h l x : find_helper K h l = Some x -> In x l /\ h_id K x = h.
Proof. intro F. apply find_some in F as (A & B). apply Nat.eqb_eq in B. auto. Qed.
Lemma is_helper_false h l : is_helper K h l = false -> ~ In h (map (h_id K) l).
Proof.
  intros E I. apply in_map_iff in I as (x & <- & Hx). assert (Q : is_helper K (h_id K x) l = true) by (apply existsb_exists; exists x; rewrite Nat.eqb_refl; auto). congruence.
Qed.
Lemma helper_lt s x : GI s -> In x (sh K s) -> h_id K x < w_next _ (sx K s).
Proof. intros G Hx. destruct (g_w _ G) as (A & W). destruct (g_h _ G _ Hx) as (L & _). eapply (wi_tr _ _ _ _ W); [exact L|reflexivity]. Qed.
Lemma exec_next w o w' : xexec w o = Some w' -> w_next _ w <= w_next _ w'.
Proof.
  destruct o; cbn [exec]; intro E.
  - destruct (add_slots _ _) as [(st, l)|]; [|discriminate]. injection E as <-. cbn. lia.
  - destruct (find_stream _ _); [destruct (poll_slots _ _ _ _) as [(st, v)|]; [|discriminate]|]; injection E as <-; cbn; lia.
  - destruct (find_stream _ _); [destruct (remove_slots _ _) as [st|]; [|discriminate]|]; injection E as <-; cbn; lia.
  - destruct (wake_entries _ _) as [(st, v)|]; [|discriminate]. injection E as <-. cbn. lia.
Qed.
(** the world only makes its own steps, and only notifies the paths of the operation *)
Definition wsteps (P : path -> Prop) (w w' : world S_) : Prop :=
  exists l, xexecs w l = Some w' /\ forall o q, In o l -> op_path _ o = Some q -> P q.
Lemma ws_refl P w : wsteps P w w.
Proof. exists []. split; [reflexivity|intros ? ? []]. Qed.
Lemma execs_app l1 : forall l2 w w1 w2, xexecs w l1 = Some w1 -> xexecs w1 l2 = Some w2 -> xexecs w (l1 ++ l2) = Some w2.
Proof.
  induction l1 as [|o l1 IH]; intros l2 w w1 w2; cbn [execs app]; [intros [= ->]; auto|]. destruct (xexec w o); [|discriminate]. intros; eapply IH; eauto.
Qed.
Lemma ws_trans P w w1 w2 : wsteps P w w1 -> wsteps P w1 w2 -> wsteps P w w2.
Proof.
  intros (l1 & E1 & P1) (l2 & E2 & P2). exists (l1 ++ l2). split; [eapply execs_app; eauto|]. intros o q I. apply in_app_iff in I as [I|I]; eauto.
Qed.
Lemma ws_one (P : path -> Prop) w o w' : xexec w o = Some w' -> (forall q, op_path _ o = Some q -> P q) -> wsteps P w w'.
Proof. intros E Q. exists [o]. cbn [execs]. rewrite E. split; [reflexivity|]. intros o' q [<-|[]]. auto. Qed.
Lemma ws_weaken (P Q : path -> Prop) w w' : wsteps P w w' -> (forall q, P q -> Q q) -> wsteps Q w w'.
Proof. intros (l & E & F) I. exists l. eauto. Qed.
Lemma ws_act s a s' : do_act s a = Some s' -> wsteps (eq (act_path K a)) (sx K s) (sx K s').
Proof.
  destruct a as [q u f|q u f|q]; cbn [XbowStore.do_act]; intro E.
  - destruct (path_borrow_mut K keqb u q (sd K s)) as [(x, k)|]; [|injection E as <-; apply ws_refl].
    destruct (xexec (sx K s) (ONotify _ q)) as [w|] eqn:EX; [|discriminate]. injection E as <-. eapply ws_one; [exact EX|]. intros ? [= <-]. reflexivity.
  - destruct (path_borrow_mut K keqb u q (sd K s)) as [(x, k)|]; injection E as <-; apply ws_refl.
  - destruct (xexec (sx K s) (ONotify _ q)) as [w|] eqn:EX; [|discriminate]. injection E as <-. eapply ws_one; [exact EX|]. intros ? [= <-]. reflexivity.
Qed.
Lemma ws_acts l : forall s s', do_acts s l = Some s' -> wsteps (fun q => In q (map (act_path K) l)) (sx K s) (sx K s').
Proof.
  induction l as [|a l IH]; intros s s'; cbn [XbowStore.do_acts]; [intros [= <-]; apply ws_refl|]. destruct (do_act s a) as [s1|] eqn:E; [|discriminate]. intro E'.
  eapply ws_trans; [eapply ws_weaken; [apply (ws_act _ _ _ E)|]|eapply ws_weaken; [apply (IH _ _ E')|]]; intros q Q; cbn; auto.
Qed.
Lemma ws_poll P s h wk s' r : poll_stream s h wk = Some (s', r) -> wsteps P (sx K s) (sx K s') /\ sh K s' = sh K s.
Proof.
  unfold XbowStore.poll_stream. destruct (xexec (sx K s) (OPoll _ h wk)) as [w|] eqn:E; [|discriminate]. destruct (w_tr _ w) as [|[| | | |]]; try discriminate. intros [= <- <-].
  split; [|reflexivity]. eapply ws_one; [exact E|]. discriminate.
Qed.
Lemma ws_each P s x wk s' : poll_each ww K keqb H s x wk = Some s' -> wsteps P (sx K s) (sx K s').
Proof.
  unfold poll_each. destruct (poll_stream s (h_id K x) wk) as [(s1, r)|] eqn:E; [|discriminate]. apply (ws_poll P) in E as (E & _). intro Q.
  destruct (_ || _)%bool; [destruct (borrow _ _)|]; injection Q as <-; exact E.
Qed.
Lemma ws_fut s h o e s' : run_fut ww K keqb H s h o e = Some s' -> wsteps (fun q => In q (map (act_path K) (e_acts K e))) (sx K s) (sx K s').
Proof.
  unfold run_fut. destruct o as [n|]; [|intros [= <-]; apply ws_refl]. destruct (do_acts (emit K s (EFutPoll K n)) (e_acts K e)) as [s1|] eqn:E; [|discriminate].
  apply ws_acts in E. intro Q. destruct (e_done K e); injection Q as <-; exact E.
Qed.
Lemma ws_exec s o s' : sexec s o = Some s' -> wsteps (fun q => In q (sop_paths K o) \/ exists x, In x (sh K s) /\ h_path K x = q) (sx K s) (sx K s').
Proof.
  destruct o as [a|o|k p|h wk e|h]; cbn [XbowStore.sexec sop_paths].
  - intro E. eapply ws_weaken; [apply (ws_act _ _ _ E)|]. intros q <-. cbn. auto.
  - assert (X : forall w, xexec (sx K s) o = Some w -> wsteps (fun q => In q (match op_path _ o with Some q => [q] | None => [] end) \/ exists x, In x (sh K s) /\ h_path K x = q) (sx K s) w).
    { intros w E. eapply ws_one; [exact E|]. intros q ->. cbn. auto. }
    destruct o as [p b|i wk|i|q].
    + destruct (xexec (sx K s) _) as [w|] eqn:E; [|discriminate]. intros [= <-]. apply X. reflexivity.
    + destruct (is_helper K i (sh K s)); [intros [= <-]; apply ws_refl|]. destruct (xexec (sx K s) _) as [w|] eqn:E; [|discriminate]. intros [= <-]. apply X. reflexivity.
    + destruct (is_helper K i (sh K s)); [intros [= <-]; apply ws_refl|]. destruct (xexec (sx K s) _) as [w|] eqn:E; [|discriminate]. intros [= <-]. apply X. reflexivity.
    + intros [= <-]. apply ws_refl.
  - destruct (xexec (sx K s) (ONew _ p false)) as [w|] eqn:E; [|discriminate]. intros [= <-]. cbn. eapply ws_one; [exact E|]. intros q [= <-]. cbn. auto.
  - destruct (find_helper K h (sh K s)) as [x|] eqn:F; [|intros [= <-]; apply ws_refl]. apply find_helper_some in F as (Hx & ID). destruct (h_kind K x).
    + apply (ws_each _ (emit K s (EPoll K h wk))).
    + unfold poll_async. destruct (poll_stream _ (h_id K x) wk) as [(s1, r)|] eqn:E; [|discriminate]. apply ws_poll with (P := fun q => In q (map (act_path K) (e_acts K e)) \/ exists x, In x (sh K s) /\ h_path K x = q) in E as (E & _). intro Q.
      eapply ws_trans; [exact E|]. destruct (_ || _)%bool; [destruct (borrow _ _)|]; apply ws_fut in Q; (eapply ws_weaken; [|intros q I; left; exact I]); try exact Q.
      destruct (h_fut K x); exact Q.
    + unfold poll_signal. destruct (poll_stream _ (h_id K x) wk) as [(s1, r)|] eqn:E; [|discriminate]. apply ws_poll with (P := fun q => In q (map (act_path K) (e_acts K e)) \/ exists x, In x (sh K s) /\ h_path K x = q) in E as (E & _). intro Q.
      destruct (_ || _)%bool; injection Q as <-; exact E.
    + unfold poll_bind. destruct (do_acts _ (e_acts K e)) as [sa|] eqn:EA; [|discriminate]. apply ws_acts in EA. intro Q. eapply ws_trans; [eapply ws_weaken; [exact EA|intros q I; left; exact I]|].
      destruct (take_ok (h_id K x) (e_items K e) sa) as (_ & X0 & _). cbv zeta in X0. rewrite <- X0. set (s0 := take_items K sa (h_id K x) (e_items K e)) in *.
      destruct (e_end K e); [injection Q as <-; apply ws_refl|]. destruct (last_item K (e_items K e)) as [v|]; [|apply (ws_each _ s0 x wk); exact Q].
      destruct (path_borrow_mut K keqb (e_uniq K e) (h_path K x) (sd K s0)) as [yk|]; [|injection Q as <-; apply ws_refl].
      destruct (do_act s0 _) as [s1|] eqn:E1; [|discriminate]. destruct (poll_stream _ (h_id K x) wk) as [(s2, r)|] eqn:E2; [|discriminate].
      apply ws_act in E1. eapply ws_trans; [eapply ws_weaken; [exact E1|]; intros q <-; right; eauto|]. apply ws_poll with (P := fun q => In q (map (act_path K) (e_acts K e)) \/ exists x, In x (sh K s) /\ h_path K x = q) in E2 as (E2 & _).
      eapply ws_trans; [exact E2|]. apply (ws_each _ s2 x wk). exact Q.
  - destruct (find_helper K h (sh K s)) as [x|] eqn:F; [|intros [= <-]; apply ws_refl]. destruct (xexec (sx K s) (ODrop _ h)) as [w|] eqn:E; [|discriminate]. intros [= <-].
    destruct (h_fut K x); cbn; (eapply ws_one; [exact E|discriminate]).
Qed.
Lemma ws_next P w w' : wsteps P w w' -> w_next _ w <= w_next _ w'.
Proof.
  intros (l & E & _). revert w E. induction l as [|o l IH]; intros w; cbn [execs]; [intros [= <-]; lia|]. destruct (xexec w o) as [w1|] eqn:E; [|discriminate]. intro Q.
  apply IH in Q. apply exec_next in E. lia.
Qed.
End Store.
