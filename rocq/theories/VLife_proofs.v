(** Proofs for C72. *)
From Coq Require Import List Arith Bool Lia.
From Verif Require Import Util Arena Spec_arena Cell Spec_cell Cell_proofs Combinator Tree Page Spec_view View_part_proofs Virtual VLife Spec_vlife.
Import ListNotations.

Section VL.
Variable ww : waker -> waker -> bool.
Hypothesis WW : will_wake_ok ww.
Notation ctrace := (list (cev unit)).
Notation lives := (live_ids unit).
Notation changed := (changed_since_poll unit).
Notation since := (since_poll unit).
Notation clast := (Spec_cell.last_waker unit).
Notation CI := (CInv unit tt).

(** what always holds; [ctr] is the history of the signal *)
Record Base (s : vr) (ctr : ctrace) : Prop := {
  b_c : CI ctr (vr_cell s);
  b_g : guarded unit ctr = false;
  b_l : vl_run vl_new (updates (vr_tr s)) = Some (vr_list s);
  b_listen : vr_listen s = listening (vr_tr s);
  b_obs : vr_obs s = observing (vr_tr s);
  b_nd : NoDup (map fst (vr_futs s));
  b_lt : forall j f, In (j, f) (vr_futs s) -> j < vr_next s;
  b_made : forall j, made j (vr_tr s) = true <-> get j (vr_futs s) <> None
}.
(** steps that only tell the list something, or update it *)
Record Calm (s : vr) (ctr : ctrace) (s' : vr) (ctr' : ctrace) : Prop := {
  cm_base : Base s' ctr';
  cm_futs : vr_futs s' = vr_futs s;
  cm_next : vr_next s' = vr_next s;
  cm_ids : lives ctr' = lives ctr;
  cm_clast : forall id, clast id ctr' = clast id ctr;
  cm_since : forall id, since id ctr <> None -> since id ctr' <> None;
  cm_made : forall j, made j (vr_tr s') = made j (vr_tr s);
  cm_rend : rendering (vr_tr s') = rendering (vr_tr s);
  cm_last : forall j, last_waker j (vr_tr s') = last_waker j (vr_tr s);
  cm_listen : listening (vr_tr s') = listening (vr_tr s);
  cm_obs : observing (vr_tr s') = observing (vr_tr s);
  cm_unseen : forall id, since id ctr <> None -> (unseen (vr_tr s) = true -> changed id ctr) -> unseen (vr_tr s') = true -> changed id ctr';
  cm_heard : forall id, changed id ctr' -> heard (vr_tr s') = true \/ changed id ctr;
  cm_more : heard (vr_tr s) = true -> heard (vr_tr s') = true;
  cm_deaf : listening (vr_tr s) = false -> unseen (vr_tr s') = true -> unseen (vr_tr s) = true;
  cm_new : exists new, vr_tr s' = new ++ vr_tr s /\
    (unseen (vr_tr s') = true -> unseen (vr_tr s) = false -> forall id, In id (lives ctr) -> exists w, In w (woken new) /\ same_task w (wk_of unit id ctr))
}.
Lemma calm_refl s ctr : Base s ctr -> Calm s ctr s ctr.
Proof. intro B. constructor; auto. exists []. split; [reflexivity|]. congruence. Qed.
Lemma woken_app a b : woken (a ++ b) = woken a ++ woken b.
Proof. induction a as [|[] a IH]; cbn; auto. f_equal. exact IH. Qed.
Lemma calm_trans s ctr s1 ctr1 s2 ctr2 : Calm s ctr s1 ctr1 -> Calm s1 ctr1 s2 ctr2 -> Calm s ctr s2 ctr2.
Proof.
  intros A B. constructor.
  - apply (cm_base _ _ _ _ B).
  - rewrite (cm_futs _ _ _ _ B). apply (cm_futs _ _ _ _ A).
  - rewrite (cm_next _ _ _ _ B). apply (cm_next _ _ _ _ A).
  - rewrite (cm_ids _ _ _ _ B). apply (cm_ids _ _ _ _ A).
  - intro id. rewrite (cm_clast _ _ _ _ B). apply (cm_clast _ _ _ _ A).
  - intros id H. apply (cm_since _ _ _ _ B), (cm_since _ _ _ _ A), H.
  - intro j. rewrite (cm_made _ _ _ _ B). apply (cm_made _ _ _ _ A).
  - rewrite (cm_rend _ _ _ _ B). apply (cm_rend _ _ _ _ A).
  - intro j. rewrite (cm_last _ _ _ _ B). apply (cm_last _ _ _ _ A).
  - rewrite (cm_listen _ _ _ _ B). apply (cm_listen _ _ _ _ A).
  - rewrite (cm_obs _ _ _ _ B). apply (cm_obs _ _ _ _ A).
  - intros id SI U. apply (cm_unseen _ _ _ _ B); [apply (cm_since _ _ _ _ A), SI|]. apply (cm_unseen _ _ _ _ A); auto.
  - intros id H. destruct (cm_heard _ _ _ _ B id H) as [K|K]; auto. destruct (cm_heard _ _ _ _ A id K) as [Q|Q]; auto. left. exact (cm_more _ _ _ _ B Q).
  - intro H. apply (cm_more _ _ _ _ B), (cm_more _ _ _ _ A), H.
  - intros L U. apply (cm_deaf _ _ _ _ A L). apply (cm_deaf _ _ _ _ B); auto. rewrite (cm_listen _ _ _ _ A). exact L.
  - destruct (cm_new _ _ _ _ A) as (n1 & E1 & W1). destruct (cm_new _ _ _ _ B) as (n2 & E2 & W2). exists (n2 ++ n1). rewrite E2, E1, app_assoc. split; [reflexivity|].
    intros U2 U0 id IN. rewrite woken_app. rewrite <- app_assoc, <- E1, <- E2 in U2. destruct (unseen (vr_tr s1)) eqn:U1.
    + destruct (W1 eq_refl U0 id IN) as (w & I & ST). exists w. split; [apply in_app_iff; auto|exact ST].
    + destruct (W2 U2 eq_refl id) as (w & I & ST); [rewrite (cm_ids _ _ _ _ A); exact IN|]. exists w. split; [apply in_app_iff; auto|].
      unfold wk_of in *. rewrite (cm_clast _ _ _ _ A) in ST. exact ST.
Qed.
(** what waking adds *)
Lemma wakes_tr ws : forall s, let s' := fold_left (fun s wk => emit (TWake wk) s) ws s in
  vr_tr s' = rev (map TWake ws) ++ vr_tr s /\ vr_list s' = vr_list s /\ vr_cell s' = vr_cell s /\ vr_listen s' = vr_listen s /\ vr_obs s' = vr_obs s /\ vr_futs s' = vr_futs s /\ vr_next s' = vr_next s.
Proof.
  induction ws as [|w ws IH]; intro s; cbn; [auto 10|]. destruct (IH (emit (TWake w) s)) as (E & R). rewrite E. cbn. rewrite <- app_assoc. split; [reflexivity|exact R].
Qed.
Lemma woken_rev ws : forall tr, woken (rev (map TWake ws) ++ tr) = rev ws ++ woken tr.
Proof. induction ws as [|w ws IH]; intro tr; cbn; [reflexivity|]. rewrite <- !app_assoc, IH. reflexivity. Qed.
Lemma wakes_skip ws tr :
  rendering (rev (map TWake ws) ++ tr) = rendering tr /\ listening (rev (map TWake ws) ++ tr) = listening tr /\ observing (rev (map TWake ws) ++ tr) = observing tr /\
  heard (rev (map TWake ws) ++ tr) = heard tr /\ unseen (rev (map TWake ws) ++ tr) = unseen tr /\ updates (rev (map TWake ws) ++ tr) = updates tr /\ (forall j, made j (rev (map TWake ws) ++ tr) = made j tr) /\ forall j, last_waker j (rev (map TWake ws) ++ tr) = last_waker j tr.
Proof.
  rewrite <- map_rev. induction (rev ws) as [|w r IH]; cbn; auto 10.
Qed.
Lemma signal_ok s ctr : CI ctr (vr_cell s) -> guarded unit ctr = false -> exists s' ws, signal ww s = Some s' /\
  vr_tr s' = rev (map TWake ws) ++ vr_tr s /\ vr_list s' = vr_list s /\ vr_listen s' = vr_listen s /\ vr_obs s' = vr_obs s /\ vr_futs s' = vr_futs s /\ vr_next s' = vr_next s /\
  CI (CEnd _ :: CBegin _ :: ctr) (vr_cell s') /\ Forall2 same_task ws (map (fun id => wk_of unit id ctr) (lives ctr)).
Proof.
  intros C G. unfold signal. destruct (cexec_ok unit ww WW tt ctr _ (CBegin _) C G) as (c1 & o1 & -> & C1 & _). cbv beta iota.
  destruct (cexec_ok unit ww WW tt _ _ (CEnd _) C1 eq_refl) as (c2 & o2 & -> & C2 & O2). cbv beta iota.
  destruct o2 as [| | |ws]; try contradiction. destruct (wakes_tr ws (set_cell c2 s)) as (T & L & CE & LI & OB & F & N).
  eexists _, ws. split; [reflexivity|]. rewrite T, L, CE, LI, OB, F, N. do 6 (split; [reflexivity|]). split; [exact C2|exact O2].
Qed.
(** being told *)
Definition told (e : ev) : Prop := e = TScroll \/ e = TInter.
Lemma told_ok s ctr e : Base s ctr -> told e -> e = TInter \/ vr_listen s = true -> (listening (vr_tr s) = false -> lives ctr = []) -> exists s' ws ctr', signal ww (emit e s) = Some s' /\
  vr_tr s' = rev (map TWake ws) ++ e :: vr_tr s /\ Calm s ctr s' ctr' /\ vr_list s' = vr_list s /\ Forall2 same_task ws (map (fun id => wk_of unit id ctr) (lives ctr)).
Proof.
  intros B TE _ NL. destruct (signal_ok (emit e s) ctr (b_c _ _ B) (b_g _ _ B)) as (s' & ws & E & T & L & LI & OB & F & N & C & FA). exists s', ws, (CEnd _ :: CBegin _ :: ctr).
  split; [exact E|]. cbn [emit vr_tr vr_list vr_listen vr_obs vr_futs vr_next] in *. split; [exact T|].
  destruct (wakes_skip ws (e :: vr_tr s)) as (W1 & W2 & W3 & WH & W4 & W5 & W7 & W6).
  assert (Z : rendering (e :: vr_tr s) = rendering (vr_tr s) /\ listening (e :: vr_tr s) = listening (vr_tr s) /\ observing (e :: vr_tr s) = observing (vr_tr s) /\
    unseen (e :: vr_tr s) = listening (vr_tr s) || unseen (vr_tr s) /\ updates (e :: vr_tr s) = updates (vr_tr s) /\ (forall j, made j (e :: vr_tr s) = made j (vr_tr s)) /\ forall j, last_waker j (e :: vr_tr s) = last_waker j (vr_tr s)) by (destruct TE as [-> | ->]; cbn; auto 10).
  destruct Z as (Z1 & Z2 & Z3 & Z4 & Z5 & Z7 & Z6).
  split; [|split; [exact L|exact FA]]. constructor.
  - constructor; rewrite ?T, ?L, ?LI, ?OB, ?F, ?N, ?W1, ?W2, ?W3, ?W4, ?W5, ?Z1, ?Z2, ?Z3, ?Z5; try apply B; auto. intro j. rewrite W7, Z7. apply B.
  - exact F.
  - exact N.
  - reflexivity.
  - reflexivity.
  - intros id H. cbn. destruct (since id ctr); [discriminate|congruence].
  - intro j. rewrite T, W7, Z7. reflexivity.
  - rewrite T, W1, Z1. reflexivity.
  - intro j. rewrite T, W6, Z6. reflexivity.
  - rewrite T, W2, Z2. reflexivity.
  - rewrite T, W3, Z3. reflexivity.
  - intros id SI _ _. unfold changed_since_poll. cbn. destruct (since id ctr) as [l|]; [|congruence]. eexists. split; [reflexivity|]. left. reflexivity.
  - intros id _. left. rewrite T, WH. destruct TE as [ -> | -> ]; reflexivity.
  - intros _. rewrite T, WH. destruct TE as [ -> | -> ]; reflexivity.
  - rewrite T, W4, Z4. intros ->. auto.
  - exists (rev (map TWake ws) ++ [e]). rewrite T, <- app_assoc. split; [reflexivity|]. intros U U0 id IN. rewrite W4, Z4, U0, orb_false_r in U.
    rewrite woken_app. assert (WE : woken [e] = []) by (destruct TE as [-> | ->]; reflexivity). rewrite WE, app_nil_r.
    assert (K : exists w, In w ws /\ same_task w (wk_of unit id ctr)).
    { clear - FA IN. remember (map (fun id0 => wk_of unit id0 ctr) (lives ctr)) as m eqn:M. assert (IM : In (wk_of unit id ctr) m) by (rewrite M; apply in_map_iff; eauto). clear M IN.
      induction FA as [|a b l l' H FA IH]; [destruct IM|]. destruct IM as [<-|IM]; [exists a; split; [left; reflexivity|exact H]|]. destruct (IH IM) as (w & I & ST). exists w. split; [right; exact I|exact ST]. }
    destruct K as (w & I & ST). exists w. split; [|exact ST]. rewrite <- (app_nil_r (rev (map TWake ws))), woken_rev, app_nil_r. apply in_rev in I. exact I.
Qed.
(** no stream without the listener, except during a first poll *)
Definition quiet (s : vr) (ctr : ctrace) : Prop := listening (vr_tr s) = false -> lives ctr = [].
Lemma scroll_ok s ctr : Base s ctr -> quiet s ctr -> exists s' ws ctr', scroll ww s = Some s' /\
  vr_tr s' = rev (map TWake ws) ++ TScroll :: vr_tr s /\ Calm s ctr s' ctr' /\ vr_list s' = vr_list s /\
  Forall2 same_task ws (map (fun id => wk_of unit id ctr) (lives ctr)).
Proof.
  intros B NL. unfold scroll. destruct (vr_listen s) eqn:LI; [apply told_ok; auto; left; reflexivity|].
  pose proof (b_listen _ _ B) as LT. rewrite LI in LT. exists (emit TScroll s), [], ctr. split; [reflexivity|]. split; [reflexivity|]. rewrite (NL (eq_sym LT)). split; [|split; [reflexivity|constructor]].
  constructor; cbn; auto.
  - constructor; cbn; try apply B.
  - rewrite <- LT. auto.
  - rewrite <- LT. auto.
  - exists [TScroll]. split; [reflexivity|]. rewrite (NL (eq_sym LT)). intros _ _ id [].
Qed.
Lemma calm_quiet s ctr s' ctr' : Calm s ctr s' ctr' -> quiet s ctr -> quiet s' ctr'.
Proof. intros C Q. unfold quiet. rewrite (cm_listen _ _ _ _ C), (cm_ids _ _ _ _ C). exact Q. Qed.
Lemma scrolls_ok k : forall s ctr, Base s ctr -> quiet s ctr -> exists s' ctr', scrolls ww k s = Some s' /\ Calm s ctr s' ctr' /\ vr_list s' = vr_list s.
Proof.
  induction k as [|k IH]; intros s ctr B Q; [exists s, ctr; split; [reflexivity|split; [apply calm_refl; auto|reflexivity]]|].
  cbn [scrolls]. destruct (scroll_ok s ctr B Q) as (s1 & ws & ctr1 & -> & _ & C1 & L1 & _). destruct (IH s1 ctr1 (cm_base _ _ _ _ C1) (calm_quiet _ _ _ _ C1 Q)) as (s2 & ctr2 & E2 & C2 & L2).
  exists s2, ctr2. split; [exact E2|]. split; [eapply calm_trans; eauto|congruence].
Qed.
Lemma vl_run_app l : forall v l', vl_run v (l ++ l') = match vl_run v l with Some v' => vl_run v' l' | None => None end.
Proof. induction l as [|o l IH]; intros v l'; [reflexivity|]. cbn. destruct (vl_exec v o); auto. Qed.
Lemma updates_app a b : updates (a ++ b) = updates b ++ updates a.
Proof. induction a as [|[] a IH]; cbn; rewrite ?app_nil_r; auto. rewrite IH, app_assoc. reflexivity. Qed.
(** the list panics, after some more updates *)
Definition list_panics (s : vr) : Prop := exists l, vl_run vl_new (updates (vr_tr s) ++ l) = None.
(** what an update does *)
Definition updated (s : vr) (ctr : ctrace) (s' : vr) (ctr' : ctrace) (k : nat) : Prop :=
  Calm s ctr s' ctr' /\ (listening (vr_tr s) = false \/ k = 0 -> unseen (vr_tr s') = false) /\
  (forall id, since id ctr <> None -> unseen (vr_tr s') = true -> changed id ctr') /\
  (exists o l, updates (vr_tr s') = updates (vr_tr s) ++ o :: l) /\
  exists new, vr_tr s' = new ++ vr_tr s /\
    (unseen (vr_tr s') = true -> forall id, In id (lives ctr) -> exists w, In w (woken new) /\ same_task w (wk_of unit id ctr)).
Lemma update_ok num u s ctr : Base s ctr -> quiet s ctr ->
  match update ww num u s with
  | Some s' => exists ctr', updated s ctr s' ctr' (snd u)
  | None => list_panics s
  end.
Proof.
  intros B Q. unfold update. set (o := match num with Some n => VNum n (fst u) | None => VVisible (fst u) end).
  destruct (vl_exec (vr_list s) o) as [v|] eqn:EV.
  2: { exists [o]. rewrite vl_run_app, (b_l _ _ B). cbn. rewrite EV. reflexivity. }
  set (s1 := emit (TUpdate num (fst u)) (set_list v s)).
  assert (C1 : Calm s ctr s1 ctr).
  { constructor; cbn; auto; try discriminate.
    - constructor; cbn; try apply B. fold o. rewrite vl_run_app, (b_l _ _ B). cbn. rewrite EV. reflexivity.
    - exists [TUpdate num (fst u)]. split; [reflexivity|discriminate]. }
  destruct (scrolls_ok (snd u) s1 ctr (cm_base _ _ _ _ C1) (calm_quiet _ _ _ _ C1 Q)) as (s2 & ctr2 & E2 & C2 & L2).
  rewrite E2. exists ctr2. split; [eapply calm_trans; eauto|]. split; [|split; [|split]].
  - intros [Z|Z].
    + destruct (unseen (vr_tr s2)) eqn:U; [|reflexivity]. pose proof (cm_deaf _ _ _ _ C2 Z U) as K. discriminate.
    + rewrite Z in E2. cbn [scrolls] in E2. injection E2 as <-. reflexivity.
  - intros id SI. apply (cm_unseen _ _ _ _ C2 id SI). discriminate.
  - destruct (cm_new _ _ _ _ C2) as (new & T & _). rewrite T, updates_app. exists o, (updates new). cbn [s1 emit vr_tr updates set_list]. rewrite <- app_assoc. reflexivity.
  - destruct (cm_new _ _ _ _ C2) as (new & T & W). exists (new ++ [TUpdate num (fst u)]). rewrite <- app_assoc. split; [exact T|]. intros U id IN.
    destruct (W U eq_refl id IN) as (w & I & ST). exists w. rewrite woken_app. split; [apply in_app_iff; auto|exact ST].
Qed.
Lemma panics_back s s' : (exists l, updates (vr_tr s') = updates (vr_tr s) ++ l) -> list_panics s' -> list_panics s.
Proof. intros (l & E) (l' & P). exists (l ++ l'). rewrite app_assoc, <- E. exact P. Qed.
(** a poll of the stream *)
Lemma spoll_ok s ctr id wk : Base s ctr -> In id (lives ctr) -> exists c o, cexec unit ww (vr_cell s) (CPoll _ id wk) = Some (c, o) /\
  Base (set_cell c s) (CPoll _ id wk :: ctr) /\ (o = OReady /\ changed id ctr \/ o = OPending /\ ~ changed id ctr).
Proof.
  intros B IN. apply live_in in IN. destruct (cexec_ok unit ww WW tt ctr _ (CPoll _ id wk) (b_c _ _ B) (conj (b_g _ _ B) IN)) as (c & o & E & C & O). exists c, o.
  split; [exact E|]. split; [constructor; cbn; try apply B; auto|]. destruct o; try contradiction; auto.
Qed.
Definition waited (s : vr) (ctr : ctrace) (s' : vr) (ctr' : ctrace) (id : nat) (wk : waker) : Prop :=
  Base s' ctr' /\ vr_futs s' = vr_futs s /\ vr_next s' = vr_next s /\ lives ctr' = lives ctr /\ clast id ctr' = Some wk /\ since id ctr' <> None /\
  rendering (vr_tr s') = rendering (vr_tr s) /\ (forall j, made j (vr_tr s') = made j (vr_tr s)) /\ (forall j, last_waker j (vr_tr s') = last_waker j (vr_tr s)) /\ listening (vr_tr s') = listening (vr_tr s) /\ observing (vr_tr s') = observing (vr_tr s) /\
  unseen (vr_tr s') = false /\ (~ changed id ctr -> updates (vr_tr s') = updates (vr_tr s)) /\ ~ changed id ctr' /\ exists new, vr_tr s' = new ++ vr_tr s.
Lemma polled_unchanged id wk ctr : ~ changed id (CPoll _ id wk :: ctr).
Proof. intros (l & E & I). cbn in E. rewrite Nat.eqb_refl in E. injection E as <-. destruct I. Qed.
Lemma wait_ok us : forall s ctr id wk, Base s ctr -> lives ctr = [id] -> listening (vr_tr s) = true -> (unseen (vr_tr s) = true -> changed id ctr) ->
  match wait ww us id wk s with
  | Some s' => exists ctr', waited s ctr s' ctr' id wk
  | None => list_panics s
  end.
Proof.
  induction us as [|u us IH]; intros s ctr id wk B LV LI U; cbn [wait].
  - destruct (spoll_ok s ctr id wk B) as (c & o & -> & B1 & O); [rewrite LV; left; reflexivity|]. cbv beta iota zeta.
    assert (S1 : since id (CPoll _ id wk :: ctr) = Some []) by (cbn; rewrite Nat.eqb_refl; reflexivity).
    assert (K1 : clast id (CPoll _ id wk :: ctr) = Some wk) by (cbn; rewrite Nat.eqb_refl; reflexivity).
    destruct O as [(-> & CH) | (-> & NC)].
    + pose proof (update_ok None (None, 0) (set_cell c s) _ B1 ltac:(unfold quiet; cbn; congruence)) as UP. destruct (update ww None (None, 0) (set_cell c s)) as [s2|]; [|exact UP].
      destruct UP as (ctr2 & C2 & N2 & _ & _ & new & T2 & _). assert (L2 : lives ctr2 = [id]) by (rewrite (cm_ids _ _ _ _ C2); exact LV).
      destruct (spoll_ok s2 ctr2 id wk (cm_base _ _ _ _ C2)) as (c3 & o3 & -> & B3 & _); [rewrite L2; left; reflexivity|]. cbv beta iota.
      exists (CPoll _ id wk :: ctr2). split; [exact B3|]. cbn [set_cell vr_futs vr_next vr_tr]. split; [apply (cm_futs _ _ _ _ C2)|]. split; [apply (cm_next _ _ _ _ C2)|].
      split; [apply (cm_ids _ _ _ _ C2)|]. split; [cbn; rewrite Nat.eqb_refl; reflexivity|]. split; [cbn; rewrite Nat.eqb_refl; discriminate|].
      split; [apply (cm_rend _ _ _ _ C2)|]. split; [apply (cm_made _ _ _ _ C2)|]. split; [apply (cm_last _ _ _ _ C2)|]. split; [apply (cm_listen _ _ _ _ C2)|]. split; [apply (cm_obs _ _ _ _ C2)|].
      split; [apply N2; right; reflexivity|]. split; [tauto|]. split; [apply polled_unchanged|]. exists new. exact T2.
    + exists (CPoll _ id wk :: ctr). split; [exact B1|]. repeat (split; [reflexivity|]). split; [exact K1|]. split; [rewrite S1; discriminate|]. repeat (split; [reflexivity|]).
      split; [|split; [reflexivity|split; [apply polled_unchanged|exists []; reflexivity]]]. cbn. destruct (unseen (vr_tr s)); [destruct (NC (U eq_refl))|reflexivity].
  - destruct (spoll_ok s ctr id wk B) as (c & o & -> & B1 & O); [rewrite LV; left; reflexivity|]. cbv beta iota zeta.
    assert (S1 : since id (CPoll _ id wk :: ctr) = Some []) by (cbn; rewrite Nat.eqb_refl; reflexivity).
    assert (K1 : clast id (CPoll _ id wk :: ctr) = Some wk) by (cbn; rewrite Nat.eqb_refl; reflexivity).
    destruct O as [(-> & CH) | (-> & NC)].
    + pose proof (update_ok None u (set_cell c s) _ B1 ltac:(unfold quiet; cbn; congruence)) as UP. destruct (update ww None u (set_cell c s)) as [s2|]; [|exact UP].
      destruct UP as (ctr2 & C2 & N2 & H2 & (o2 & l2 & M2) & new & T2 & _). assert (L2 : lives ctr2 = [id]) by (rewrite (cm_ids _ _ _ _ C2); exact LV).
      specialize (IH s2 ctr2 id wk (cm_base _ _ _ _ C2) L2 ltac:(rewrite (cm_listen _ _ _ _ C2); exact LI) ltac:(apply H2; rewrite S1; discriminate)).
      destruct (wait ww us id wk s2) as [s3|]; [|exact (panics_back _ _ (ex_intro _ _ M2) IH)]. destruct IH as (ctr3 & B3 & A1 & A2 & A3 & A4 & A5 & A6 & AM & A7 & A8 & A9 & A10 & AU & AC & new' & T3).
      exists ctr3. split; [exact B3|]. split; [rewrite A1; apply (cm_futs _ _ _ _ C2)|]. split; [rewrite A2; apply (cm_next _ _ _ _ C2)|]. split; [rewrite A3, L2; auto|].
      split; [exact A4|]. split; [exact A5|]. split; [rewrite A6; apply (cm_rend _ _ _ _ C2)|]. split; [intro j; rewrite AM; apply (cm_made _ _ _ _ C2)|]. split; [intro j; rewrite A7; apply (cm_last _ _ _ _ C2)|].
      split; [rewrite A8; apply (cm_listen _ _ _ _ C2)|]. split; [rewrite A9; apply (cm_obs _ _ _ _ C2)|]. split; [exact A10|]. split; [tauto|]. split; [exact AC|]. exists (new' ++ new). rewrite T3, T2. cbn. apply app_assoc.
    + exists (CPoll _ id wk :: ctr). split; [exact B1|]. repeat (split; [reflexivity|]). split; [exact K1|]. split; [rewrite S1; discriminate|]. repeat (split; [reflexivity|]).
      split; [|split; [reflexivity|split; [apply polled_unchanged|exists []; reflexivity]]]. cbn. destruct (unseen (vr_tr s)); [destruct (NC (U eq_refl))|reflexivity].
Qed.

(** ** The invariant between operations *)
Definition phase (s : vr) (ctr : ctrace) : Prop :=
  match rendering (vr_tr s) with
  | None => lives ctr = [] /\ listening (vr_tr s) = false /\ observing (vr_tr s) = false /\ forall j f, In (j, f) (vr_futs s) -> f = None
  | Some j => exists id, lives ctr = [id] /\ listening (vr_tr s) = true /\ observing (vr_tr s) = true /\ In (j, Some id) (vr_futs s) /\
      (forall i f, In (i, Some f) (vr_futs s) -> i = j) /\ clast id ctr = last_waker j (vr_tr s) /\ last_waker j (vr_tr s) <> None /\ since id ctr <> None /\ (unseen (vr_tr s) = true -> changed id ctr) /\ (changed id ctr -> heard (vr_tr s) = true)
  end.
Definition Inv (s : vr) (ctr : ctrace) : Prop := Base s ctr /\ phase s ctr.
Lemma inv_quiet s ctr : Inv s ctr -> quiet s ctr.
Proof. intros (_ & P) L. unfold phase in P. destruct (rendering (vr_tr s)); [|apply P]. destruct P as (id & _ & LI & _). congruence. Qed.
Lemma calm_inv s ctr s' ctr' : Inv s ctr -> Calm s ctr s' ctr' -> Inv s' ctr'.
Proof.
  intros (B & P) C. split; [apply C|]. unfold phase in *. rewrite (cm_rend _ _ _ _ C), (cm_listen _ _ _ _ C), (cm_obs _ _ _ _ C), (cm_ids _ _ _ _ C), (cm_futs _ _ _ _ C).
  destruct (rendering (vr_tr s)) as [j|]; [|exact P]. destruct P as (id & P1 & P2 & P3 & P4 & P5 & P6 & P7 & P8 & P9 & P10). exists id. repeat (split; [assumption|]).
  rewrite (cm_last _ _ _ _ C), (cm_clast _ _ _ _ C). repeat (split; [assumption|]). split; [apply (cm_since _ _ _ _ C), P8|]. split; [exact (cm_unseen _ _ _ _ C id P8 P9)|].
  intro H. destruct (cm_heard _ _ _ _ C id H) as [K|K]; auto. exact (cm_more _ _ _ _ C (P10 K)).
Qed.
Lemma get_in j l f : get j l = Some f -> In (j, f) l.
Proof. induction l as [|[i g] l IH]; cbn; [discriminate|]. destruct (Nat.eqb_spec i j) as [->|]; [intros [= ->]; auto|auto]. Qed.
Lemma in_get j l f : NoDup (map fst l) -> In (j, f) l -> get j l = Some f.
Proof.
  induction l as [|[i g] l IH]; cbn; [intros _ []|]. intros ND [[= -> ->]|IN]; [rewrite Nat.eqb_refl; reflexivity|]. inversion ND; subst. destruct (Nat.eqb_spec i j) as [->|]; [|auto].
  destruct H1. apply in_map_iff. exists (j, f). auto.
Qed.
Lemma get_none j l : get j l = None -> ~ In j (map fst l).
Proof. induction l as [|[i g] l IH]; cbn; [auto|]. destruct (Nat.eqb_spec i j); [discriminate|]. intros H [E|E]; auto. exact (IH H E). Qed.
Lemma in_del j l p : In p (del j l) <-> In p l /\ fst p <> j.
Proof. unfold del. rewrite filter_In, negb_true_iff, Nat.eqb_neq. reflexivity. Qed.
Lemma del_nodup j l : NoDup (map fst l) -> NoDup (map fst (del j l)).
Proof.
  induction l as [|[i g] l IH]; cbn; [constructor|]. intro ND. inversion ND; subst. destruct (i =? j); cbn; [auto|]. constructor; [|auto].
  intro X. apply H1. apply in_map_iff in X as (p & E & IN). apply in_del in IN. apply in_map_iff. exists p. tauto.
Qed.
Lemma del_not j l : ~ In j (map fst (del j l)).
Proof. intro X. apply in_map_iff in X as ((i, f) & E & IN). apply in_del in IN. cbn in *. tauto. Qed.
Lemma get_del i j l : i <> j -> get i (del j l) = get i l.
Proof. intro NE. induction l as [|(a, b) l IH]; cbn; [reflexivity|]. destruct (Nat.eqb_spec a j) as [->|]; cbn; [|destruct (a =? i); auto]. destruct (Nat.eqb_spec j i); [congruence|auto]. Qed.
Lemma get_del_same j l : get j (del j l) = None.
Proof. destruct (get j (del j l)) as [f|] eqn:E; [|reflexivity]. apply get_in, in_del in E as (_ & N). cbn in N. tauto. Qed.
Lemma get_app i l k f : get i (l ++ [(k, f)]) = match get i l with Some g => Some g | None => if k =? i then Some f else None end.
Proof. induction l as [|(a, b) l IH]; cbn; [reflexivity|]. destruct (a =? i); auto. Qed.
Lemma made_drop j i f t : (made i t = true <-> get i f <> None) -> (negb (j =? i) && made i t = true <-> get i (del j f) <> None).
Proof.
  intro M. rewrite andb_true_iff, negb_true_iff, Nat.eqb_neq, M. destruct (Nat.eq_dec i j) as [->|NE]; [rewrite get_del_same; split; intuition congruence|]. rewrite get_del by auto. intuition congruence.
Qed.
(** polls *)
Definition refused (s : vr) (j : nat) : Prop := get j (vr_futs s) = Some None /\ rendering (vr_tr s) <> None.
Lemma poll_ok s ctr j wk us f : Inv s ctr -> get j (vr_futs s) = Some f ->
  match poll ww j wk us s with
  | Some s' => exists ctr', Inv s' ctr' /\ rendering (vr_tr s') = Some j /\ last_waker j (vr_tr s') = Some wk /\ unseen (vr_tr s') = false /\ (exists new, vr_tr s' = new ++ vr_tr s) /\
      (forall i, i <> j -> last_waker i (vr_tr s') = last_waker i (vr_tr s)) /\ (get j (vr_futs s) = Some None -> exists o l, updates (vr_tr s') = updates (vr_tr s) ++ o :: l) /\
      (get j (vr_futs s) <> Some None -> heard (vr_tr s) = false -> updates (vr_tr s') = updates (vr_tr s))
  | None => refused s j \/ list_panics s
  end.
Proof.
  intros (B & P) G. unfold poll. rewrite G. pose proof (get_in _ _ _ G) as IN. destruct f as [id|].
  - unfold phase in P. destruct (rendering (vr_tr s)) as [i|] eqn:R.
    2: { destruct P as (_ & _ & _ & P). specialize (P _ _ IN). discriminate. }
    destruct P as (id' & P1 & P2 & P3 & P4 & P5 & P6 & P7 & P8 & P9 & P10). assert (i = j) as -> by (symmetry; eapply P5; eauto).
    assert (id' = id) as -> by (rewrite (in_get _ _ _ (b_nd _ _ B) P4) in G; congruence).
    assert (B1 : Base (emit (TPoll j wk) s) ctr) by (constructor; cbn; apply B).
    pose proof (wait_ok us (emit (TPoll j wk) s) ctr id wk B1 P1 P2 P9) as W. destruct (wait ww us id wk (emit (TPoll j wk) s)) as [s'|]; [|right; exact W].
    destruct W as (ctr' & B' & A1 & A2 & A3 & A4 & A5 & A6 & AM & A7 & A8 & A9 & A10 & AU & AC & new & T). cbn [emit vr_tr vr_futs vr_next] in *. exists ctr'.
    assert (R' : rendering (vr_tr s') = Some j) by (rewrite A6; reflexivity). assert (LW : last_waker j (vr_tr s') = Some wk) by (rewrite A7; cbn; rewrite Nat.eqb_refl; reflexivity).
    split; [split; [exact B'|]|].
    + unfold phase. rewrite R'. exists id. rewrite A3, A8, A9, A1, LW. repeat (split; [assumption|]). split; [discriminate|]. split; [assumption|]. split; [rewrite A10; discriminate|tauto].
    + split; [exact R'|]. split; [exact LW|]. split; [exact A10|]. split; [exists (new ++ [TPoll j wk]); rewrite T, <- app_assoc; reflexivity|]. split; [|split; [congruence|]].
      2: { intros _ H. apply AU. intro K. rewrite (P10 K) in H. discriminate. }
      intros i NE. rewrite A7. cbn. destruct (Nat.eqb_spec j i); congruence.
  - destruct (existsb started (vr_futs s)) eqn:EX.
    { left. split; [exact G|]. intro R. unfold phase in P. rewrite R in P. destruct P as (_ & _ & _ & P). apply existsb_exists in EX as ((i, f) & I & ST). specialize (P _ _ I). subst f. discriminate. }
    assert (NS : forall i f, In (i, f) (vr_futs s) -> f = None).
    { intros i f I. destruct f as [f|]; [|reflexivity]. assert (existsb started (vr_futs s) = true) by (apply existsb_exists; exists (i, Some f); auto). congruence. }
    unfold phase in P. destruct (rendering (vr_tr s)) as [i|] eqn:R.
    { destruct P as (id & _ & _ & _ & P4 & _). specialize (NS _ _ P4). discriminate. }
    destruct P as (P1 & P2 & P3 & _). set (s1 := emit TConnect (set_obs true (emit (TPoll j wk) s))). cbv zeta.
    assert (B1 : Base s1 ctr) by (constructor; cbn; try apply B; reflexivity).
    pose proof (update_ok None (hd (None, 0) us) s1 ctr B1 (fun _ => P1)) as UP. destruct (update ww None (hd (None, 0) us) s1) as [s2|]; [|right; exact UP].
    destruct UP as (ctr2 & C2 & N2 & _ & (o2 & l2 & M2) & new & T2 & _). cbv beta iota. set (s3 := emit TAdd (set_listen true s2)). pose proof (cm_base _ _ _ _ C2) as B2.
    destruct (cexec_ok unit ww WW tt ctr2 _ (CNew _) (b_c _ _ B2) (b_g _ _ B2)) as (c & o & E & C & _). change (vr_cell s3) with (vr_cell s2). rewrite E. cbv beta iota.
    set (id := cw_next unit (vr_cell s2)). set (s4 := set_futs _ _).
    assert (EI : id = created unit ctr2) by apply (ci_next _ _ _ _ (b_c _ _ B2)).
    assert (L4 : lives (CNew _ :: ctr2) = [id]).
    { unfold live_ids. cbn [created dropped]. rewrite seq_S, filter_app. fold (lives ctr2). rewrite (cm_ids _ _ _ _ C2), P1. cbn.
      destruct (ci_small _ _ _ _ (b_c _ _ B2) (created unit ctr2) (le_n _)) as (_ & _ & ->). rewrite EI. reflexivity. }
    assert (F2 : vr_futs s2 = vr_futs s) by (rewrite (cm_futs _ _ _ _ C2); reflexivity). assert (X2 : vr_next s2 = vr_next s) by (rewrite (cm_next _ _ _ _ C2); reflexivity).
    assert (B4 : Base s4 (CNew _ :: ctr2)).
    { constructor; cbn; try apply B2; auto.
      - rewrite F2. constructor; [apply del_not|apply del_nodup, B].
      - rewrite F2, X2. intros i f [[= <- <-]|I]; [eapply (b_lt _ _ B); eauto|]. apply in_del in I as (I & _). eapply (b_lt _ _ B); eauto.
      - intro i. rewrite (b_made _ _ B2 i), F2. destruct (Nat.eqb_spec j i) as [->|NE]; [rewrite G; split; discriminate|]. pose proof (get_del i j (vr_futs s) (not_eq_sym NE)) as K. unfold del in K. rewrite K. tauto. }
    assert (U4 : unseen (vr_tr s4) = false) by (cbn; apply N2; left; exact P2).
    pose proof (wait_ok (tl us) s4 (CNew _ :: ctr2) id wk B4 L4 eq_refl ltac:(congruence)) as W. destruct (wait ww (tl us) id wk s4) as [s'|].
    2: { right. refine (panics_back s s4 _ W). exists (o2 :: l2). exact M2. }
    destruct W as (ctr' & B' & A1 & A2 & A3 & A4 & A5 & A6 & AM & A7 & A8 & A9 & A10 & AU & AC & new' & T'). exists ctr'.
    assert (R' : rendering (vr_tr s') = Some j) by (rewrite A6; cbn; rewrite (cm_rend _ _ _ _ C2); reflexivity).
    assert (LW : last_waker j (vr_tr s') = Some wk) by (rewrite A7; cbn; rewrite (cm_last _ _ _ _ C2); cbn; rewrite Nat.eqb_refl; reflexivity).
    assert (OB : observing (vr_tr s') = true) by (rewrite A9; cbn; rewrite (cm_obs _ _ _ _ C2); reflexivity).
    assert (FU : vr_futs s' = (j, Some id) :: del j (vr_futs s)) by (rewrite A1; cbn; rewrite F2; reflexivity).
    split; [split; [exact B'|]|].
    + unfold phase. rewrite R'. exists id. rewrite A3, A8, LW, FU. split; [exact L4|]. split; [reflexivity|]. split; [exact OB|]. split; [left; reflexivity|]. split.
      { intros i f [[= <- _]|I]; [reflexivity|]. apply in_del in I as (I & _). specialize (NS _ _ I). discriminate. }
      split; [exact A4|]. split; [discriminate|]. split; [exact A5|]. split; [rewrite A10; discriminate|tauto].
    + split; [exact R'|]. split; [exact LW|]. split; [exact A10|]. split.
      * exists (new' ++ TAdd :: new ++ [TConnect; TPoll j wk]). rewrite T'. cbn. rewrite T2. cbn. rewrite <- !app_assoc. cbn. rewrite <- app_assoc. reflexivity.
      * split; [|split; [|congruence]; intros _; exists o2, (l2 ++ updates new'); rewrite T', updates_app; cbn [s4 s3 set_futs set_cell emit set_listen vr_tr updates]; rewrite M2; cbn [s1 emit set_obs vr_tr updates]; rewrite <- app_assoc; reflexivity].
        intros i NE. rewrite A7. cbn. rewrite (cm_last _ _ _ _ C2). cbn. destruct (Nat.eqb_spec j i); congruence.
Qed.
Lemma drop_ok s ctr j : Inv s ctr -> exists s' ctr', drop ww j s = Some s' /\ Inv s' ctr' /\ vr_list s' = vr_list s /\ updates (vr_tr s') = updates (vr_tr s) /\
  (exists new, vr_tr s' = new ++ vr_tr s /\ woken new = []) /\ get j (vr_futs s') = None /\ unseen (vr_tr s') = unseen (vr_tr s) /\ (forall i, last_waker i (vr_tr s') = last_waker i (vr_tr s)) /\
  (forall i, i <> j -> rendering (vr_tr s') = Some i <-> rendering (vr_tr s) = Some i) /\ (rendering (vr_tr s') <> Some j).
Proof.
  intros (B & P). unfold drop.
  pose proof (get_del_same j) as DG.
  destruct (get j (vr_futs s)) as [[id|]|] eqn:G.
  - pose proof (get_in _ _ _ G) as IN. unfold phase in P. destruct (rendering (vr_tr s)) as [i|] eqn:R.
    2: { destruct P as (_ & _ & _ & P). specialize (P _ _ IN). discriminate. }
    destruct P as (id' & P1 & P2 & P3 & P4 & P5 & P6 & P7 & P8 & P9 & P10). assert (i = j) as -> by (symmetry; eapply P5; eauto).
    assert (id' = id) as -> by (rewrite (in_get _ _ _ (b_nd _ _ B) P4) in G; congruence).
    assert (LV : live unit id ctr) by (apply live_in; rewrite P1; left; reflexivity).
    destruct (cexec_ok unit ww WW tt ctr _ (CDrop _ id) (b_c _ _ B) (conj (b_g _ _ B) LV)) as (c & o & -> & C & _). cbv beta iota. eexists _, (CDrop _ id :: ctr). split; [reflexivity|].
    assert (R' : forall t, rendering (TDrop j :: TRemove :: TDisconnect :: t) = match rendering t with Some i => if i =? j then None else Some i | None => None end) by reflexivity.
    split; [split|].
    + constructor; cbn; try apply B; auto; [apply del_nodup, B| |intro i; apply made_drop, B]. intros i f I. apply in_del in I as (I & _). eapply (b_lt _ _ B); eauto.
    + unfold phase. cbn [vr_tr emit set_listen set_obs set_futs set_cell vr_futs]. rewrite R', R, Nat.eqb_refl. split; [|split; [reflexivity|split; [reflexivity|]]].
      * unfold live_ids. cbn [created dropped]. unfold live_ids in P1. revert P1. generalize (seq 0 (created unit ctr)). intro l. clear.
        assert (K : forall l, filter (fun i => negb ((id =? i) || dropped unit i ctr)) l = filter (fun i => negb (id =? i)) (filter (fun i => negb (dropped unit i ctr)) l)).
        { clear. induction l as [|a l IH]; cbn; [reflexivity|]. destruct (dropped unit a ctr); cbn; [rewrite orb_true_r; exact IH|]. rewrite orb_false_r. destruct (id =? a); cbn; rewrite IH; reflexivity. }
        rewrite K. intros ->. cbn. rewrite Nat.eqb_refl. reflexivity.
      * intros i f I. apply in_del in I as (I & NE). cbn in NE. destruct f as [f|]; [|reflexivity]. destruct NE. exact (P5 _ _ I).
    + cbn. rewrite R, Nat.eqb_refl. split; [reflexivity|]. split; [reflexivity|]. split; [exists [TDrop j; TRemove; TDisconnect]; auto|]. split; [apply DG|]. split; [reflexivity|]. split; [reflexivity|].
      split; [|discriminate]. intros i NE. split; intros [= ->]. congruence.
  - pose proof (get_in _ _ _ G) as IN. eexists _, ctr. split; [reflexivity|].
    assert (RN : rendering (vr_tr s) <> Some j).
    { intro R. unfold phase in P. rewrite R in P. destruct P as (id & _ & _ & _ & P4 & _). rewrite (in_get _ _ _ (b_nd _ _ B) P4) in G. discriminate. }
    assert (R' : rendering (TDrop j :: vr_tr s) = rendering (vr_tr s)).
    { cbn. destruct (rendering (vr_tr s)) as [i|]; [|reflexivity]. destruct (Nat.eqb_spec i j); congruence. }
    split; [split|].
    + constructor; cbn; try apply B; [apply del_nodup, B| |intro i; apply made_drop, B]. intros i f I. apply in_del in I as (I & _). eapply (b_lt _ _ B); eauto.
    + unfold phase in *. cbn [vr_tr emit set_futs vr_futs]. rewrite R'. destruct (rendering (vr_tr s)) as [i|].
      * destruct P as (id & P1 & P2 & P3 & P4 & P5 & P6). exists id. repeat (split; [assumption|]). split; [apply in_del; split; [exact P4|cbn; congruence]|]. split; [|exact P6].
        intros a f I. apply in_del in I as (I & _). eauto.
      * destruct P as (P1 & P2 & P3 & P4). repeat (split; [assumption|]). intros a f I. apply in_del in I as (I & _). eauto.
    + cbn [vr_tr emit set_futs vr_futs vr_list]. rewrite R'. cbn. split; [reflexivity|]. split; [reflexivity|]. split; [exists [TDrop j]; auto|]. split; [apply DG|]. split; [reflexivity|]. split; [reflexivity|]. split; [tauto|exact RN].
  - exists s, ctr. split; [reflexivity|]. split; [split; assumption|]. do 2 (split; [reflexivity|]). split; [exists []; auto|]. split; [exact G|]. do 2 (split; [reflexivity|]). split; [tauto|].
    intro R. unfold phase in P. rewrite R in P. destruct P as (id & _ & _ & _ & P4 & _). rewrite (in_get _ _ _ (b_nd _ _ B) P4) in G. discriminate.
Qed.
(** ** All histories *)
Lemma render_inv s ctr s' : Inv s ctr -> exec ww s ORender = Some s' -> Inv s' ctr.
Proof.
  intros (B & P) [= <-]. split.
  - constructor; cbn; try apply B.
    + rewrite map_app. cbn. assert (NI : ~ In (vr_next s) (map fst (vr_futs s))).
      { intro I. apply in_map_iff in I as ((i, f) & E & I). cbn in E. subst i. pose proof (b_lt _ _ B _ _ I). lia. }
      clear P. destruct B as [_ _ _ _ _ ND _]. induction (map fst (vr_futs s)) as [|a l IH]; cbn; [repeat constructor; auto|]. inversion ND; subst. constructor.
      * rewrite in_app_iff. intros [X|[X|[]]]; [auto|]. apply NI. left. auto.
      * apply IH; auto. intro X. apply NI. right. exact X.
    + intros j f I. apply in_app_iff in I as [I|[[= <- <-]|[]]]; [pose proof (b_lt _ _ B _ _ I)|]; lia.
    + intro j. rewrite orb_true_iff, Nat.eqb_eq, (b_made _ _ B j), get_app. destruct (get j (vr_futs s)); [intuition congruence|]. destruct (Nat.eqb_spec (vr_next s) j); intuition congruence.
  - unfold phase in *. cbn. destruct (rendering (vr_tr s)) as [i|].
    + destruct P as (id & P1 & P2 & P3 & P4 & P5 & P6). exists id. repeat (split; [assumption|]). split; [apply in_app_iff; auto|]. split; [|exact P6].
      intros a f I. apply in_app_iff in I as [I|[[=]|[]]]. eauto.
    + destruct P as (P1 & P2 & P3 & P4). repeat (split; [assumption|]). intros a f I. apply in_app_iff in I as [I|[[= _ <-]|[]]]; eauto.
Qed.
Lemma exec_inv s ctr o : Inv s ctr ->
  match exec ww s o with
  | Some s' => exists ctr', Inv s' ctr'
  | None => (exists j wk us, o = OPoll j wk us /\ refused s j) \/ list_panics s
  end.
Proof.
  intro IV. pose proof (inv_quiet _ _ IV) as Q. destruct o as [|j wk us|j| | |n u]; cbn [exec].
  - exists ctr. eapply render_inv; eauto.
  - destruct (get j (vr_futs s)) as [f|] eqn:G; [|unfold poll; rewrite G; eauto].
    pose proof (poll_ok s ctr j wk us f IV G) as PO. destruct (poll ww j wk us s) as [s'|]; [|destruct PO; [left; eauto|auto]]. destruct PO as (ctr' & I & _). eauto.
  - destruct (drop_ok s ctr j IV) as (s' & ctr' & -> & I & _). eauto.
  - destruct (scroll_ok s ctr (proj1 IV) Q) as (s' & ws & ctr' & -> & _ & C & _). exists ctr'. eapply calm_inv; eauto.
  - destruct (told_ok s ctr TInter (proj1 IV) (or_intror eq_refl) (or_introl eq_refl) Q) as (s' & ws & ctr' & -> & _ & C & _). exists ctr'. eapply calm_inv; eauto.
  - pose proof (update_ok (Some n) u s ctr (proj1 IV) Q) as UP. destruct (update ww (Some n) u s) as [s'|]; [|right; exact UP]. destruct UP as (ctr' & C & _). exists ctr'. eapply calm_inv; eauto.
Qed.
Lemma init_inv : exists s, init = Some s /\ Inv s [] /\ vr_tr s = [].
Proof.
  unfold init. destruct (ci_init unit tt) as (c & -> & C). eexists. split; [reflexivity|]. split; [|reflexivity]. split; [|cbn; repeat split; auto; intros j f []].
  constructor; cbn; auto; [constructor| |intro j; split; congruence]. intros j f [].
Qed.
Lemma execs_inv ops : forall s ctr s', Inv s ctr -> execs ww s ops = Some s' -> exists ctr', Inv s' ctr'.
Proof.
  induction ops as [|o ops IH]; intros s ctr s' I; cbn [execs]; [intros [= <-]; eauto|]. pose proof (exec_inv s ctr o I) as E. destruct (exec ww s o) as [s1|]; [|discriminate].
  destruct E as (ctr1 & I1). eapply IH; eauto.
Qed.
Lemma run_inv ops s : run ww ops = Some s -> exists ctr, Inv s ctr.
Proof. unfold run. destruct init_inv as (s0 & -> & I & _). cbv beta iota. apply execs_inv with (ctr := []). exact I. Qed.

Lemma grows s ctr o s' : Inv s ctr -> exec ww s o = Some s' -> exists new, vr_tr s' = new ++ vr_tr s.
Proof.
  intros IV E. pose proof (inv_quiet _ _ IV) as Q. destruct o as [|i wk us|i| | |n u]; cbn [exec] in E.
  - injection E as <-. eexists [_]. reflexivity.
  - destruct (get i (vr_futs s)) as [f|] eqn:G.
    + pose proof (poll_ok s ctr i wk us f IV G) as PO. rewrite E in PO. destruct PO as (ctr' & _ & _ & _ & _ & N & _). exact N.
    + unfold poll in E. rewrite G in E. injection E as <-. exists []. reflexivity.
  - destruct (drop_ok s ctr i IV) as (s1 & ctr' & E1 & _ & _ & _ & (new & N & _) & _). rewrite E in E1. injection E1 as <-. eauto.
  - destruct (scroll_ok s ctr (proj1 IV) Q) as (s1 & ws & ctr' & E1 & _ & C & _). rewrite E in E1. injection E1 as <-. destruct (cm_new _ _ _ _ C) as (new & N & _). eauto.
  - destruct (told_ok s ctr TInter (proj1 IV) (or_intror eq_refl) (or_introl eq_refl) Q) as (s1 & ws & ctr' & E1 & _ & C & _). rewrite E in E1. injection E1 as <-. destruct (cm_new _ _ _ _ C) as (new & N & _). eauto.
  - pose proof (update_ok (Some n) u s ctr (proj1 IV) Q) as UP. rewrite E in UP. destruct UP as (ctr' & C & _). destruct (cm_new _ _ _ _ C) as (new & N & _). eauto.
Qed.

(** ** In a page *)
Variables (j t : nat) (p : place).
Definition reachedV (s : vr) : Prop := exists ops, run ww ops = Some s.
Definition JV (s : vr) : Prop := reachedV s /\ forall wk, last_waker j (vr_tr s) = Some wk -> w_task wk = Some (block_task t p).
Definition freshV (s : vr) : Prop := last_waker j (vr_tr s) <> None /\ (rendering (vr_tr s) = Some j -> unseen (vr_tr s) = false).
Lemma reach_step s o s' : reachedV s -> exec ww s o = Some s' -> reachedV s'.
Proof.
  intros (ops & R) E. exists (ops ++ [o]). unfold run in *. destruct init as [s0|]; [|discriminate]. cbv beta iota in *. revert s0 R. induction ops as [|o' ops IH]; intros s0 R.
  - cbn in R. injection R as ->. cbn [app execs]. rewrite E. reflexivity.
  - cbn [app execs] in *. destruct (exec ww s0 o'); [|discriminate]. apply IH, R.
Qed.
Notation polls := (fun o => match o with OPoll i wk _ => if i =? j then Some wk else None | _ => None end).
(** what one operation does to the last waker *)
Lemma last_step s ctr o s' : Inv s ctr -> exec ww s o = Some s' ->
  match o with
  | OPoll i wk _ => made i (vr_tr s) = false /\ s' = s \/ last_waker i (vr_tr s') = Some wk /\ forall k, k <> i -> last_waker k (vr_tr s') = last_waker k (vr_tr s)
  | _ => forall k, last_waker k (vr_tr s') = last_waker k (vr_tr s)
  end.
Proof.
  intros IV E. pose proof (inv_quiet _ _ IV) as Q. destruct o as [|i wk us|i| | |n u]; cbn [exec] in E.
  - injection E as <-. reflexivity.
  - destruct (get i (vr_futs s)) as [f|] eqn:G.
    + right. pose proof (poll_ok s ctr i wk us f IV G) as PO. rewrite E in PO. destruct PO as (ctr' & _ & _ & LW & _ & _ & LO & _). auto.
    + left. unfold poll in E. rewrite G in E. injection E as <-. split; [|reflexivity]. destruct (made i (vr_tr s)) eqn:M; [|reflexivity]. apply (b_made _ _ (proj1 IV)) in M. congruence.
  - destruct (drop_ok s ctr i IV) as (s1 & ctr' & E1 & _ & _ & _ & _ & _ & _ & L & _). rewrite E in E1. injection E1 as <-. exact L.
  - destruct (scroll_ok s ctr (proj1 IV) Q) as (s1 & ws & ctr' & E1 & _ & C & _). rewrite E in E1. injection E1 as <-. apply C.
  - destruct (told_ok s ctr TInter (proj1 IV) (or_intror eq_refl) (or_introl eq_refl) Q) as (s1 & ws & ctr' & E1 & _ & C & _). rewrite E in E1. injection E1 as <-. apply C.
  - pose proof (update_ok (Some n) u s ctr (proj1 IV) Q) as UP. rewrite E in UP. destruct UP as (ctr' & C & _). apply C.
Qed.
Lemma jv_step s o s' : JV s -> (forall wk, polls o = Some wk -> w_task wk = Some (block_task t p)) -> exec ww s o = Some s' -> JV s'.
Proof.
  intros (R & L) M E. split; [eapply reach_step; eauto|]. intros wk LW. destruct (proj1 (conj R R)) as (ops & RU). destruct (run_inv _ _ RU) as (ctr & IV).
  pose proof (last_step s ctr o s' IV E) as LS. destruct o as [|i wk' us|i| | |n u]; try (rewrite LS in LW; auto; fail).
  destruct LS as [(_ & ->)|(L1 & L2)]; auto. destruct (Nat.eqb_spec i j) as [->|NE]; [apply M; congruence|]. rewrite (L2 j) in LW by auto. auto.
Qed.
Lemma fv_calm s ctr s' ctr' l : JV s -> Inv s ctr -> freshV s -> Calm s ctr s' ctr' -> vlist_tells s s' l -> freshV s' \/ In (GWake t p) l.
Proof.
  intros (R & L) (B & P) (F1 & F2) C (new' & T' & TE). unfold freshV. rewrite (cm_last _ _ _ _ C), (cm_rend _ _ _ _ C). destruct (unseen (vr_tr s')) eqn:U; [|left; auto].
  unfold phase in P. destruct (rendering (vr_tr s)) as [i|] eqn:RE; [|left; split; [auto|discriminate]]. destruct (Nat.eq_dec i j) as [->|NE]; [|left; split; [auto|congruence]]. right.
  destruct P as (id & P1 & _ & _ & _ & _ & P6 & P7 & _). destruct (cm_new _ _ _ _ C) as (new & T & W). assert (new' = new) as -> by (rewrite T in T'; apply app_inv_tail in T'; auto).
  destruct (W U (F2 eq_refl) id) as (w & IN & ST); [rewrite P1; left; reflexivity|]. apply (TE w t p IN). unfold wk_of in ST. rewrite P6 in ST. destruct (last_waker j (vr_tr s)) as [wk|]; [|congruence].
  rewrite <- (L wk eq_refl). exact ST.
Qed.
Lemma fv_step s o s' l : JV s -> freshV s -> polls o = None -> exec ww s o = Some s' -> vlist_tells s s' l -> freshV s' \/ In (GWake t p) l.
Proof.
  intros J F PN E TE. destruct (proj1 J) as (ops & RU). destruct (run_inv _ _ RU) as (ctr & IV). pose proof (inv_quiet _ _ IV) as Q. destruct o as [|i wk us|i| | |n u]; cbn [exec] in E.
  - injection E as <-. left. exact F.
  - destruct (get i (vr_futs s)) as [f|] eqn:G; [|unfold poll in E; rewrite G in E; injection E as <-; auto].
    pose proof (poll_ok s ctr i wk us f IV G) as PO. rewrite E in PO. destruct PO as (ctr' & _ & R' & LW & _ & _ & LO & _). destruct (Nat.eqb_spec i j); [discriminate|].
    left. split; [rewrite LO by auto; apply F|]. congruence.
  - destruct (drop_ok s ctr i IV) as (s1 & ctr' & E1 & _ & _ & _ & _ & _ & U & L & RI & RN). rewrite E in E1. injection E1 as <-. left. split; [rewrite L; apply F|].
    intro R. destruct (Nat.eq_dec j i) as [->|NE]; [congruence|]. rewrite U. apply F. apply RI; auto.
  - destruct (scroll_ok s ctr (proj1 IV) Q) as (s1 & ws & ctr' & E1 & _ & C & _). rewrite E in E1. injection E1 as <-. eapply fv_calm; eauto.
  - destruct (told_ok s ctr TInter (proj1 IV) (or_intror eq_refl) (or_introl eq_refl) Q) as (s1 & ws & ctr' & E1 & _ & C & _). rewrite E in E1. injection E1 as <-. eapply fv_calm; eauto.
  - pose proof (update_ok (Some n) u s ctr (proj1 IV) Q) as UP. rewrite E in UP. destruct UP as (ctr' & C & _). eapply fv_calm; eauto.
Qed.
Lemma vlist_view_of {V X} (vs : X -> vr) on (code : nat -> X -> place -> option V -> X * list gact * Tree.next V) on_drop evs :
  vlist_view ww vs on j t p code on_drop evs ->
  view_of (fun x => JV (vs x)) (fun x => on x = true -> freshV (vs x)) t p code on_drop evs.
Proof.
  apply part_view_of.
  - intros s (R & _). exact R.
  - exact jv_step.
  - exact fv_step.
  - intros s o s' l wk J PO _ E _ M. left. destruct (proj1 J) as (ops & RU). destruct (run_inv _ _ RU) as (ctr & IV). destruct o as [|i wk' us|i| | |n u]; try discriminate.
    destruct (Nat.eqb_spec i j) as [->|]; [|discriminate]. apply (b_made _ _ (proj1 IV)) in M. destruct (get j (vr_futs s)) as [f|] eqn:G; [|congruence].
    pose proof (poll_ok s ctr j wk' us f IV G) as PP. cbn [exec] in E. rewrite E in PP. destruct PP as (ctr' & _ & R' & LW & U & _). split; [congruence|auto].
Qed.
End VL.
