(** C44 and C45 (and the notification part of C42): x-bow stores with for_each,
    for_each_async, signal_stream and bind_for_each.

    [srun d ops] runs the history [ops] on a store with initial data [d].  [sd] is the
    current data, [w_tr (sx s)] the trace of streams, notifications and wake-ups, [str] the
    trace of what the helpers do, [sh] the helpers that exist.  A helper has the number of
    its change stream. *)
From Coq Require Import List Arith Bool NArith Lia.
From Verif Require Import Arena Spec_arena Arena_proofs Xbow Spec_xbow Xbow_proofs Xbow_run_proofs XbowData XbowData_proofs XbowStore Spec_store XbowStore_proofs XbowStore_run_proofs XbowStore_fut_proofs.
Import ListNotations.

Section Props.
Variable ww : waker -> waker -> bool.
Variable K : Type.
Variable keqb : K -> K -> bool.
Variable H : list (seg K) -> N.
Hypothesis WW : will_wake_ok ww.
Hypothesis keqb_ok : forall a b, keqb a b = true <-> a = b.
Notation tr s := (w_tr (seg K) (sx K s)).
Notation borrow := (path_borrow K keqb).
Notation sexec := (sexec ww K keqb H).
Notation srun := (srun ww K keqb H).
Notation do_acts := (do_acts ww K keqb H).

(** No history panics. *)
Theorem C45_no_panic : forall d ops, exists s, srun d ops = Some s.
Proof. intros d ops. destruct (run_inv ww WW K keqb keqb_ok H d ops) as (s & E & _). eauto. Qed.

(** C42.  A write through a path that cannot be borrowed mutably changes nothing and
    notifies nobody; any other write stores the value and notifies. *)
Theorem C42_store_write :
  forall d ops s p u f, srun d ops = Some s -> exists s', sexec s (SAct K (AWrite K p u f)) = Some s' /\
  match path_borrow_mut K keqb u p (sd K s) with
  | None => s' = s
  | Some (x, k) => sd K s' = k (f x) /\ exists ws, tr s' = rev (map (TWake _) ws) ++ TNotify _ p :: tr s
  end.
Proof.
  intros d ops s p u f R. destruct (run_inv ww WW K keqb keqb_ok H d ops) as (s0 & E & I & _). rewrite R in E. injection E as <-.
  cbn [XbowStore.sexec XbowStore.do_act]. destruct (path_borrow_mut K keqb u p (sd K s)) as [(x, k)|]; [|exists s; auto].
  destruct (g_w _ _ _ (i_gi _ _ _ I)) as (A & W). destruct (exec_notify ww _ H _ _ p W) as (w & A' & ws & E & _ & T & _). rewrite E.
  eexists. split; [reflexivity|]. split; [reflexivity|]. exists ws. exact T.
Qed.

(** a poll is due: readiness in terms of the trace *)
Lemma due_iff d ops s x (r : bool) : srun d ops = Some s -> In x (sh K s) -> due_spec K H s x r ->
  (changed K (h_id K x) (h_path K x) (tr s) -> r = true) /\
  (no_collision _ H (sused K ops) -> r = true -> changed K (h_id K x) (h_path K x) (tr s)).
Proof.
  intros R Hx DS. split; [apply (ready_changed K H s x r DS)|]. intros NC RT. destruct (proj1 DS RT) as (dd & q & k & E & N & K1 & K2).
  destruct (run_reach ww WW K keqb keqb_ok H d ops s R) as (HP & wops & RW & PW). exists dd, q. split; [exact E|]. split; [exact N|].
  apply (hit_affects _ H (sused K ops) q (h_path K x) false k); auto.
  - intros y C. pose proof (run_tr ww _ H wops _ RW _ (since_in _ _ _ _ E _ N)) as F. cbn in F. destruct (PW _ q F eq_refl) as (o & Ho & Q). exists o, q. auto.
  - intros y C. destruct (HP x Hx) as (o & Ho & Q). exists o, (h_path K x). auto.
Qed.
Lemma first_iff s h : firstb K s h = true <-> never_polled K h (tr s).
Proof. unfold firstb, never_polled. destruct (since_poll _ h (tr s)); split; congruence. Qed.
Lemma exists_last_or (A : Type) (l : list A) : l = [] \/ exists l' a, l = l' ++ [a].
Proof. destruct l as [|a l]; [auto|]. right. destruct (exists_last (l := a :: l)) as (l' & b & ->); [discriminate|]. eauto. Qed.
Lemma emitted d ops s h wk : srun d ops = Some s -> GI K H (emit K s (EPoll K h wk)) /\ INV K H s.
Proof. intro R. destruct (run_inv ww WW K keqb keqb_ok H d ops) as (s0 & E & I & _). rewrite R in E. injection E as <-. split; [apply gi_emit, (i_gi _ _ _ I)|exact I]. Qed.
Lemma found s x : NoDup (map (h_id K) (sh K s)) -> In x (sh K s) -> find_helper K (h_id K x) (sh K s) = Some x.
Proof.
  generalize (sh K s). induction l as [|a l IH]; cbn; intros ND Hx; [destruct Hx|]. inversion ND as [|? ? NI ND']; subst. destruct Hx as [->|Hx]; [rewrite Nat.eqb_refl; reflexivity|].
  destruct (Nat.eqb_spec (h_id K a) (h_id K x)) as [E|_]; [exfalso; apply NI; rewrite E; apply in_map, Hx|]. apply IH; auto.
Qed.

(** C45, for_each.  A poll calls the callback with the current data (if there is any) when
    it is the first one, or the path or something containing it was changed since the last
    poll; without hash collisions only then. *)
Theorem C45_for_each :
  forall d ops s h p f wk e, srun d ops = Some s -> In (mkH K h KEach p f) (sh K s) ->
  exists s' (due : bool), sexec s (SPoll K h wk e) = Some s' /\ sd K s' = sd K s /\
    str K s' = (if due then match borrow p (sd K s) with Some v => [ECall K h v] | None => [] end else []) ++ EPoll K h wk :: str K s /\
    (never_polled K h (tr s) \/ changed K h p (tr s) -> due = true) /\
    (no_collision _ H (sused K ops) -> due = true -> never_polled K h (tr s) \/ changed K h p (tr s)).
Proof.
  intros d ops s h p f wk e R Hx. destruct (emitted d ops s h wk R) as (G & I). set (x := mkH K h KEach p f) in *.
  destruct (each_ok ww WW K keqb H _ x wk G Hx) as (s' & r & E & _ & _ & _ & SD & _ & DS & STR). exists s', (firstb K s h || r)%bool.
  destruct (due_iff d ops s x r R Hx DS) as (D1 & D2).
  split; [cbn [XbowStore.sexec]; rewrite (found s x (g_nd _ _ _ (i_gi _ _ _ I)) Hx : find_helper K h (sh K s) = Some x); exact E|]. split; [exact SD|]. split; [exact STR|]. split.
  - intros [Q|Q]; apply orb_true_iff; [left; apply first_iff, Q|right; apply D1, Q].
  - intros NC Q. apply orb_true_iff in Q as [Q|Q]; [left; apply first_iff, Q|right; apply D2; auto].
Qed.

(** C45, signal_stream: likewise, it yields the current data; the first poll yields only
    with fire_immediately. *)
Theorem C45_signal_stream :
  forall d ops s h fire p f wk e, srun d ops = Some s -> In (mkH K h (KSignal fire) p f) (sh K s) ->
  exists s' (due : bool), sexec s (SPoll K h wk e) = Some s' /\ sd K s' = sd K s /\
    str K s' = (if due then [EItem K h (borrow p (sd K s))] else []) ++ EPoll K h wk :: str K s /\
    ((never_polled K h (tr s) /\ fire = true) \/ changed K h p (tr s) -> due = true) /\
    (no_collision _ H (sused K ops) -> due = true -> (never_polled K h (tr s) /\ fire = true) \/ changed K h p (tr s)).
Proof.
  intros d ops s h fire p f wk e R Hx. destruct (emitted d ops s h wk R) as (G & I). set (x := mkH K h (KSignal fire) p f) in *.
  destruct (signal_ok ww WW K keqb H _ x fire wk G Hx) as (s' & r & E & _ & _ & _ & SD & _ & DS & STR). exists s', (firstb K s h && fire || r)%bool.
  destruct (due_iff d ops s x r R Hx DS) as (D1 & D2).
  split; [cbn [XbowStore.sexec]; rewrite (found s x (g_nd _ _ _ (i_gi _ _ _ I)) Hx : find_helper K h (sh K s) = Some x); exact E|]. split; [exact SD|]. split; [exact STR|]. split.
  - intros [(Q & ->)|Q]; apply orb_true_iff; [left; rewrite andb_true_r; apply first_iff, Q|right; apply D1, Q].
  - intros NC Q. apply orb_true_iff in Q as [Q|Q]; [left; apply andb_true_iff in Q as (Q & ->); split; [apply first_iff, Q|reflexivity]|right; apply D2; auto].
Qed.

(** C44 and C45.  In every history that does not change the data at [p] behind the back of
    its listeners: every helper of [p] that was polled either was told the current data, or
    there was a change since its last poll and the task that polled it was woken after that
    poll.  (A signal_stream without fire_immediately is not told the initial data.) *)
Theorem C45_up_to_date :
  forall d ops s h k p f, srun d ops = Some s -> Forall (visible K p) ops -> In (mkH K h k p f) (sh K s) ->
  ~ never_polled K h (tr s) -> forall x, borrow p (sd K s) = Some x ->
  shown K h (str K s) = Some x \/ (changed K h p (tr s) /\ woken K h (tr s)) \/ (k = KSignal false /\ shown K h (str K s) = None).
Proof.
  intros d ops s h k p f R V Hx NP x B. destruct (run_inv ww WW K keqb keqb_ok H d ops) as (s0 & E & I & VI). rewrite R in E. injection E as <-. specialize (VI p V).
  pose proof (v_sync _ _ _ _ VI _ Hx eq_refl) as SY. cbn [h_id h_kind] in SY. unfold never_polled in NP. destruct (since_poll _ h (tr s)) as [dd|] eqn:ED; [|congruence].
  assert (X : (exists q, In (TNotify _ q) dd /\ contains _ q p) \/ (forall q, In (TNotify _ q) dd -> ~ contains _ q p)).
  { clear -keqb_ok. induction dd as [|e dd IH]; [right; intros q []|]. destruct IH as [(q & J & C)|N]; [left; exists q; cbn; auto|].
    destruct e; try (right; intros q' [J|J]; [discriminate|auto]). destruct (contains_dec K keqb keqb_ok q p) as [C|C]; [left; exists q; cbn; auto|].
    right. intros q' [[= <-]|J]; auto. }
  destruct X as [(q & J & C)|N].
  - right. left. split; [exists dd, q; auto|]. destruct (run_reach ww WW K keqb keqb_ok H d ops s R) as (_ & wops & RW & _).
    apply (pw_run ww WW K H wops _ RW h p dd q); auto. apply (g_h _ _ _ (i_gi _ _ _ I) _ Hx).
  - destruct (SY dd ED N x B) as [Q|Q]; auto.
Qed.

(** C45, for_each_async.  A poll that is due (see C45_for_each) and finds data calls the
    closure with it, drops the future that was running, and polls the new one; otherwise
    it polls the one that is running, if any.  In any case it polls no other. *)
Theorem C45_for_each_async :
  forall d ops s h p f wk e, srun d ops = Some s -> In (mkH K h KAsync p f) (sh K s) ->
  exists s' (due : bool) t, sexec s (SPoll K h wk e) = Some s' /\ str K s' = t ++ EPoll K h wk :: str K s /\
    (never_polled K h (tr s) \/ changed K h p (tr s) -> due = true) /\
    (no_collision _ H (sused K ops) -> due = true -> never_polled K h (tr s) \/ changed K h p (tr s)) /\
    match (if due then borrow p (sd K s) else None) with
    | Some v => exists n t', t = t' ++ [EFut K h n v] /\ In (EFutPoll K n) t' /\ (forall h' m v', ~ In (EFut K h' m v') t') /\
        (forall m, In (EFutPoll K m) t -> m = n) /\
        (forall m, created K h m (str K s) -> ~ dropped K m (str K s) -> In (EFutDrop K m) t)
    | None => (forall h' m v', ~ In (EFut K h' m v') t) /\
        (forall m, In (EFutPoll K m) t <-> created K h m (str K s) /\ ~ dropped K m (str K s))
    end.
Proof.
  intros d ops s h p f wk e R Hx. destruct (emitted d ops s h wk R) as (G & I). set (x := mkH K h KAsync p f) in *. pose proof (run_fi ww WW K keqb keqb_ok H d ops s R) as F.
  destruct (async_ok ww WW K keqb keqb_ok H _ x wk e G Hx) as (s' & w & r & E & E2 & T & DS & GM & _). cbv zeta in *.
  destruct (due_iff d ops s x r R Hx DS) as (D1 & D2).
  set (s0 := emit K s (EPoll K h wk)) in *.
  destruct (run_fut_ok ww K keqb keqb_ok H _ (h_id K x) (snd (async_mid K keqb s0 x (firstb K s0 (h_id K x) || r) w)) e GM) as (s'' & t1 & t2 & E3 & _ & _ & _ & _ & STR & CASES & _). rewrite E2 in E3. injection E3 as <-.
  assert (CUR : forall m, created K h m (str K s) /\ ~ dropped K m (str K s) <-> f = Some m).
  { intro m. split.
    - intros (C & D). destruct (f_alive _ _ F h m C) as [Q|(z & Hz & ID & FZ)]; [contradiction|]. assert (z = x) by (eapply (unique_fut K s); eauto; apply (g_nd _ _ _ (i_gi _ _ _ I))). subst z. exact FZ.
    - intros ->. destruct (f_cur _ _ F x m Hx eq_refl) as (C & D & _). auto. }
  assert (STEP : sexec s (SPoll K h wk e) = Some s'). { cbn [XbowStore.sexec]. rewrite (found s x (g_nd _ _ _ (i_gi _ _ _ I)) Hx : find_helper K h (sh K s) = Some x). exact E. }
  assert (DUE : forall due, due = (firstb K s0 h || r)%bool -> (never_polled K h (tr s) \/ changed K h p (tr s) -> due = true) /\
     (no_collision _ H (sused K ops) -> due = true -> never_polled K h (tr s) \/ changed K h p (tr s))).
  { intros due ->. split.
    - intros [Q|Q]; apply orb_true_iff; [left; apply (first_iff s), Q|right; apply D1, Q].
    - intros NC Q. apply orb_true_iff in Q as [Q|Q]; [left; apply (first_iff s), Q|right; apply D2; auto]. }
  assert (WR : forall n a, (forall y, In y a -> exists q, y = EWrite K q \/ y = EQuiet K q) -> forall t, (t = EFutDrop K n :: a ++ [EFutPoll K n] \/ t = a ++ [EFutPoll K n]) ->
     In (EFutPoll K n) t /\ (forall h' m v', ~ In (EFut K h' m v') t) /\ (forall m, In (EFutPoll K m) t -> m = n)).
  { intros n a V t C. assert (IT : forall y, In y t -> y = EFutDrop K n \/ y = EFutPoll K n \/ exists q, y = EWrite K q \/ y = EQuiet K q).
    { intros y J. destruct C as [->| ->]; [destruct J as [<-|J]; auto|]; (apply in_app_iff in J as [J|[<-|[]]]; auto). }
    split; [destruct C as [->| ->]; [right|]; apply in_app_iff; cbn; auto|]. split.
    - intros h' m v' J. destruct (IT _ J) as [Q|[Q|(q & [Q|Q])]]; discriminate.
    - intros m J. destruct (IT _ J) as [Q|[Q|(q & [Q|Q])]]; congruence. }
  destruct (DUE _ eq_refl) as (DU1 & DU2). exists s', (firstb K s0 h || r)%bool.
  unfold async_mid, async_val in *. change (h_id K x) with h in *. change (h_path K x) with p in *. change (h_fut K x) with f in *. change (sd K s0) with (sd K s) in *. change (snext K s0) with (snext K s) in *.
  destruct (if (firstb K s0 h || r)%bool then borrow p (sd K s) else None) as [v|]; cbn [fst snd] in *.
  - set (n := snext K s) in *. destruct CASES as (a & V & CASES).
    assert (C2 : t2 = EFutDrop K n :: a ++ [EFutPoll K n] \/ t2 = a ++ [EFutPoll K n]) by (destruct CASES as [(_ & Q & _)|(_ & Q & _)]; auto).
    destruct (WR n a V t2 C2) as (W1 & W2 & W3).
    exists (t2 ++ match f with Some m => [EFutDrop K m] | None => [] end ++ [EFut K h n v]). split; [exact STEP|]. split; [rewrite STR; destruct f; cbn; rewrite <- ?app_assoc; reflexivity|].
    split; [exact DU1|]. split; [exact DU2|]. exists n, (t2 ++ match f with Some m => [EFutDrop K m] | None => [] end). split; [rewrite app_assoc; reflexivity|]. split; [apply in_app_iff; auto|]. split.
    + intros h' m v' J. apply in_app_iff in J as [J|J]; [apply (W2 _ _ _ J)|]. destruct f; [destruct J as [J|[]]; discriminate|destruct J].
    + split.
      * intros m J. apply in_app_iff in J as [J|J]; [auto|]. apply in_app_iff in J as [J|J]; [destruct f; [destruct J as [J|[]]; discriminate|destruct J]|destruct J as [J|[]]; discriminate].
      * intros m C D. assert (Q : f = Some m) by (apply CUR; auto). rewrite Q. apply in_app_iff. right. cbn. auto.
  - exists t2. split; [exact STEP|]. split; [exact STR|]. split; [exact DU1|]. split; [exact DU2|]. destruct f as [n|].
    + destruct CASES as (a & V & CASES). assert (C2 : t2 = EFutDrop K n :: a ++ [EFutPoll K n] \/ t2 = a ++ [EFutPoll K n]) by (destruct CASES as [(_ & Q & _)|(_ & Q & _)]; auto).
      destruct (WR n a V t2 C2) as (W1 & W2 & W3). split; [exact W2|]. intro m. rewrite CUR. split; [intro J; rewrite (W3 m J); reflexivity|]. intros [= <-]. exact W1.
    + destruct CASES as (-> & _). split; [intros h' m v' []|]. intro m. rewrite CUR. split; [intros []|discriminate].
Qed.

(** At any time at most one future of a helper exists; ... *)
Theorem C45_one_future :
  forall d ops s h n m, srun d ops = Some s -> created K h n (str K s) -> ~ dropped K n (str K s) ->
  created K h m (str K s) -> ~ dropped K m (str K s) -> n = m.
Proof.
  intros d ops s h n m R C1 D1 C2 D2. pose proof (run_fi ww WW K keqb keqb_ok H d ops s R) as F. destruct (run_inv ww WW K keqb keqb_ok H d ops) as (s0 & E & I & _). rewrite R in E. injection E as <-.
  destruct (f_alive _ _ F h n C1) as [Q|(z & Hz & ID & FZ)]; [contradiction|]. destruct (f_alive _ _ F h m C2) as [Q|(z' & Hz' & ID' & FZ')]; [contradiction|].
  assert (z = z') by (eapply (unique_fut K s); eauto; [apply (g_nd _ _ _ (i_gi _ _ _ I))|congruence]). congruence.
Qed.
(** ... a future is polled only while it exists and is the newest of its helper; ... *)
Theorem C45_polls_newest :
  forall d ops s t1 n t2, srun d ops = Some s -> str K s = t1 ++ EFutPoll K n :: t2 ->
  exists h, created K h n t2 /\ ~ dropped K n t2 /\ forall m, created K h m t2 -> m <= n.
Proof. intros d ops s t1 n t2 R E. pose proof (run_fi ww WW K keqb keqb_ok H d ops s R) as F. apply (f_good _ _ F t1 n t2 E). Qed.
(** ... it is dropped at most once; ... *)
Theorem C45_dropped_once :
  forall d ops s t1 n t2, srun d ops = Some s -> str K s = t1 ++ EFutDrop K n :: t2 -> ~ dropped K n t2.
Proof.
  intros d ops s t1 n t2 R E. pose proof (run_fi ww WW K keqb keqb_ok H d ops s R) as F. pose proof (f_once _ _ F) as ND. rewrite E in ND. clear -ND.
  induction t1 as [|e t1 IH]; cbn in ND.
  - inversion ND as [|? ? NI _]; subst. intro Q. apply NI, drops_in, Q.
  - destruct e; auto. inversion ND; auto.
Qed.
(** ... and none is left when its helper is gone. *)
Theorem C45_no_future_left :
  forall d ops s h n, srun d ops = Some s -> created K h n (str K s) -> (forall x, In x (sh K s) -> h_id K x <> h) -> dropped K n (str K s).
Proof.
  intros d ops s h n R C N. pose proof (run_fi ww WW K keqb keqb_ok H d ops s R) as F. destruct (f_alive _ _ F h n C) as [Q|(z & Hz & ID & _)]; [exact Q|]. exfalso. apply (N z Hz ID).
Qed.

(** C44, bind_for_each.  If the incoming stream yields values and does not end, and the path
    can be borrowed, the last value is stored and announced, and on_change is not called.
    ([sa] is the state after what the incoming stream itself does to the store.) *)
Theorem C44_stores :
  forall d ops s h p f wk e sa v x k, srun d ops = Some s -> In (mkH K h KBind p f) (sh K s) ->
  do_acts (emit K s (EPoll K h wk)) (e_acts K e) = Some sa -> e_end K e = false -> last (map Some (e_items K e)) None = Some v ->
  path_borrow_mut K keqb (e_uniq K e) p (sd K sa) = Some (x, k) ->
  exists s', sexec s (SPoll K h wk e) = Some s' /\ sd K s' = k v /\ borrow p (sd K s') = Some v /\
    str K s' = EWrote K h v :: EWrite K p :: rev (map (EIncoming K h) (e_items K e)) ++ str K sa /\
    exists r t, tr s' = TPoll _ h wk false :: TPoll _ h wk r :: t ++ tr sa /\ In (TNotify _ p) t.
Proof.
  intros d ops s h p f wk e sa v x k R Hx EA EE LI BM. destruct (emitted d ops s h wk R) as (G & I). set (y := mkH K h KBind p f) in *.
  destruct (bind_ok ww WW K keqb keqb_ok H _ y wk e G Hx) as (s' & sa' & E & EA' & _ & _ & CASES). cbv zeta in CASES. rewrite EA in EA'. injection EA' as <-.
  rewrite EE in CASES. unfold last_item in CASES. rewrite LI in CASES. destruct (take_ok K h (e_items K e) sa) as (D0 & X0 & _ & _ & T0 & _). cbv zeta in *. change (h_id K y) with h in *. change (h_path K y) with p in *.
  rewrite D0, BM in CASES. destruct CASES as (SD & STR & r & t & T & N). exists s'.
  split; [cbn [XbowStore.sexec]; rewrite (found s y (g_nd _ _ _ (i_gi _ _ _ I)) Hx : find_helper K h (sh K s) = Some y); exact E|]. split; [exact SD|]. split.
  - rewrite SD. destruct (mut_read K keqb _ _ _ _ _ BM) as (_ & _ & RW). specialize (RW v []). rewrite app_nil_r in RW. exact RW.
  - split; [rewrite STR, T0; reflexivity|]. exists r, t. split; [rewrite T, X0; reflexivity|exact N].
Qed.
(** If the incoming stream yields nothing, on_change is called as in C45_for_each. *)
Theorem C44_reports :
  forall d ops s h p f wk e, srun d ops = Some s -> In (mkH K h KBind p f) (sh K s) ->
  e_acts K e = [] -> e_end K e = false -> e_items K e = [] ->
  exists s' (due : bool), sexec s (SPoll K h wk e) = Some s' /\ sd K s' = sd K s /\
    str K s' = (if due then match borrow p (sd K s) with Some v => [ECall K h v] | None => [] end else []) ++ EPoll K h wk :: str K s /\
    (never_polled K h (tr s) \/ changed K h p (tr s) -> due = true) /\
    (no_collision _ H (sused K ops) -> due = true -> never_polled K h (tr s) \/ changed K h p (tr s)).
Proof.
  intros d ops s h p f wk e R Hx EA EE EI. destruct (emitted d ops s h wk R) as (G & I). set (x := mkH K h KBind p f) in *.
  destruct (bind_ok ww WW K keqb keqb_ok H _ x wk e G Hx) as (s' & sa & E & EA' & _ & _ & CASES). cbv zeta in CASES. rewrite EA in EA'. injection EA' as <-. rewrite EE, EI in CASES. cbn in CASES.
  destruct (each_ok ww WW K keqb H _ x wk G Hx) as (s2 & r & E2 & _ & _ & _ & SD & _ & DS & STR). rewrite CASES in E2. injection E2 as <-. exists s', (firstb K s h || r)%bool.
  destruct (due_iff d ops s x r R Hx DS) as (D1 & D2).
  split; [cbn [XbowStore.sexec]; rewrite (found s x (g_nd _ _ _ (i_gi _ _ _ I)) Hx : find_helper K h (sh K s) = Some x); exact E|]. split; [exact SD|]. split; [exact STR|]. split.
  - intros [Q|Q]; apply orb_true_iff; [left; apply first_iff, Q|right; apply D1, Q].
  - intros NC Q. apply orb_true_iff in Q as [Q|Q]; [left; apply first_iff, Q|right; apply D2; auto].
Qed.
(** It completes when the incoming stream ends, or yields a value that cannot be stored. *)
Theorem C44_completes :
  forall d ops s h p f wk e sa, srun d ops = Some s -> In (mkH K h KBind p f) (sh K s) ->
  do_acts (emit K s (EPoll K h wk)) (e_acts K e) = Some sa ->
  exists s', sexec s (SPoll K h wk e) = Some s' /\
  ((exists t, str K s' = EDone K h :: t) <->
   e_end K e = true \/ (e_items K e <> [] /\ path_borrow_mut K keqb (e_uniq K e) p (sd K sa) = None)).
Proof.
  intros d ops s h p f wk e sa R Hx EA. destruct (emitted d ops s h wk R) as (G & I). set (x := mkH K h KBind p f) in *.
  destruct (bind_ok ww WW K keqb keqb_ok H _ x wk e G Hx) as (s' & sa' & E & EA' & _ & _ & CASES). cbv zeta in CASES. rewrite EA in EA'. injection EA' as <-.
  exists s'. split; [cbn [XbowStore.sexec]; rewrite (found s x (g_nd _ _ _ (i_gi _ _ _ I)) Hx : find_helper K h (sh K s) = Some x); exact E|].
  destruct (take_ok K h (e_items K e) sa) as (D0 & X0 & H0 & _ & T0 & _). cbv zeta in *. change (h_id K x) with h in *. change (h_path K x) with p in *.
  destruct (acts_ok ww K keqb keqb_ok H (e_acts K e) _ G) as (sa' & t1 & EA' & Ga & Ha & _ & _ & _ & (u & U & V) & _). rewrite EA in EA'. injection EA' as <-.
  assert (LN : e_items K e = [] <-> last_item K (e_items K e) = None).
  { unfold last_item. generalize (e_items K e). intro l. split; [intros ->; reflexivity|]. intro Q. destruct (exists_last_or _ l) as [->|(l' & a & ->)]; [reflexivity|]. rewrite map_app in Q. cbn [map] in Q. rewrite last_last in Q. discriminate. }
  destruct (e_end K e); [split; [auto|intros _; rewrite CASES; cbn; eauto]|]. destruct (last_item K (e_items K e)) as [v|].
  - rewrite D0 in CASES. destruct (path_borrow_mut K keqb (e_uniq K e) p (sd K sa)) as [(y, k)|].
    + destruct CASES as (_ & STR & _). rewrite STR. split; [intros (t & Q); discriminate|intros [Q|(_ & Q)]; discriminate].
    + rewrite CASES. cbn. split; [intros _; right; split; [intro Q; apply LN in Q; discriminate|reflexivity]|eauto].
  - assert (NIL : e_items K e = []) by (apply LN; reflexivity). split; [|intros [Q|(Q & _)]; congruence]. intros (t & Q). exfalso.
    destruct (each_ok ww WW K keqb H (take_items K sa h (e_items K e)) x wk) as (s2 & r & E2 & _ & _ & _ & _ & _ & _ & STR); [apply (gi_same K H sa); auto|rewrite H0, Ha; exact Hx|]. rewrite CASES in E2. injection E2 as <-.
    rewrite STR, T0, NIL, U in Q. cbn in Q. unfold call_events in Q. assert (N : exists e0 t0, u ++ EPoll K h wk :: str K s = e0 :: t0 /\ e0 <> EDone K h).
    { destruct u as [|e0 u]; [cbn; eexists; eexists; split; [reflexivity|discriminate]|]. destruct (V e0 (or_introl eq_refl)) as (q & [->| ->]); cbn; eexists; eexists; (split; [reflexivity|discriminate]). }
    destruct N as (e0 & t0 & EQ & NE). cbn in EQ. destruct (_ || _)%bool; [destruct (borrow _ _)|]; cbn in Q; try discriminate; rewrite EQ in Q; congruence.
Qed.
End Props.
Print Assumptions C45_no_panic.
Print Assumptions C42_store_write.
Print Assumptions C45_for_each.
Print Assumptions C45_signal_stream.
Print Assumptions C45_up_to_date.
Print Assumptions C45_for_each_async.
Print Assumptions C45_one_future.
Print Assumptions C45_polls_newest.
Print Assumptions C45_dropped_once.
Print Assumptions C45_no_future_left.
Print Assumptions C44_stores.
Print Assumptions C44_reports.
Print Assumptions C44_completes.

(** Examples.  A store of two leaves with a helper of each kind on the first. *)
Section Examples.
Let ww (a b : waker) := match w_task a, w_task b with Some x, Some y => x =? y | _, _ => false end.
Let H0 : list (seg nat) -> N := fun p => N.mul (N.of_nat (fold_right (fun s a => match s with SField _ i => S i + 10 * a | _ => 7 + 10 * a end) 0 p)) 256.
Let leaf := VLeaf nat.
Let d0 : val nat := VStruct _ [leaf 1; leaf 2].
Let P : list (seg nat) := [SField _ 0].
Let Q : list (seg nat) := [SField _ 1].
Let wk (i : nat) := mkW (Some i) 0.
Let quiet : env nat := mkEnv _ [] false (fun _ => true) [] false.
Let set_ p v := SAct nat (AWrite _ p (fun _ => true) (fun _ => v)).
Let hist : list (sop nat) :=
  [SNew _ KEach P; SNew _ KAsync P; SNew _ (KSignal false) P; SNew _ KBind P;
   SPoll _ 0 (wk 0) quiet; SPoll _ 1 (wk 1) quiet; SPoll _ 2 (wk 2) quiet; SPoll _ 3 (wk 3) quiet;
   set_ P (leaf 5); SPoll _ 0 (wk 0) quiet; set_ Q (leaf 9)].
Example demo_visible : Forall (visible nat P) hist.
Proof. repeat (constructor; try exact Logic.I); cbn; auto. intros (r & E). discriminate. Qed.
Example demo_run :
  option_map (fun s => rev (str nat s)) (srun ww nat Nat.eqb H0 d0 hist) =
  Some [EPoll _ 0 (wk 0); ECall _ 0 (leaf 1); EPoll _ 1 (wk 1); EFut _ 1 0 (leaf 1); EFutPoll _ 0; EPoll _ 2 (wk 2); EPoll _ 3 (wk 3); ECall _ 3 (leaf 1);
        EWrite _ P; EPoll _ 0 (wk 0); ECall _ 0 (leaf 5); EWrite _ Q].
Proof. vm_compute. reflexivity. Qed.
Example demo_woken :
  option_map (fun s => filter (fun e => match e with TWake _ _ => true | _ => false end) (w_tr _ (sx nat s))) (srun ww nat Nat.eqb H0 d0 hist) =
  Some [TWake _ (wk 3); TWake _ (wk 2); TWake _ (wk 1); TWake _ (wk 0)].
Proof. vm_compute. reflexivity. Qed.
(** the change replaces the future; the signal yields; the incoming values are stored *)
Example demo_more :
  option_map (fun s => (rev (firstn 11 (str nat s)), sd nat s))
    (srun ww nat Nat.eqb H0 d0 (hist ++ [SPoll _ 1 (wk 1) quiet; SPoll _ 2 (wk 2) quiet; SPoll _ 3 (wk 3) (mkEnv _ [leaf 6; leaf 7] false (fun _ => true) [] false)])) =
  Some ([EPoll _ 1 (wk 1); EFut _ 1 1 (leaf 5); EFutDrop _ 0; EFutPoll _ 1; EPoll _ 2 (wk 2); EItem _ 2 (Some (leaf 5));
         EPoll _ 3 (wk 3); EIncoming _ 3 (leaf 6); EIncoming _ 3 (leaf 7); EWrite _ P; EWrote _ 3 (leaf 7)], VStruct _ [leaf 7; leaf 9]).
Proof. vm_compute. reflexivity. Qed.
Example demo_dropped :
  option_map (fun s => (hd (EDone _ 9) (str nat s), map (h_id _) (sh _ s))) (srun ww nat Nat.eqb H0 d0 (hist ++ [SDrop _ 1])) = Some (EFutDrop _ 0, [3; 2; 0]).
Proof. vm_compute. reflexivity. Qed.
Example demo_ends :
  option_map (fun s => (hd (EPoll _ 9 (wk 0)) (str nat s), sd nat s)) (srun ww nat Nat.eqb H0 d0 (hist ++ [SPoll _ 3 (wk 3) (mkEnv _ [] true (fun _ => true) [] false)])) =
  Some (EDone _ 3, VStruct _ [leaf 5; leaf 9]).
Proof. vm_compute. reflexivity. Qed.
(** a write that cannot be made: the index is out of range *)
Example demo_failed : path_borrow_mut nat Nat.eqb (fun _ => true) [SField _ 3] d0 = None.
Proof. reflexivity. Qed.

(** C44: two parts of the documentation of bind_for_each are false.  "on_change is called
    once in the beginning": not if the incoming stream has a value at the first poll ... *)
Theorem C44_first_refuted :
  exists ops h v, option_map (fun s => (map (h_id _) (sh _ s), sd nat s, rev (str nat s))) (srun ww nat Nat.eqb H0 d0 ops) =
    Some ([h], VStruct _ [v; leaf 2], [EPoll _ h (wk 0); EIncoming _ h v; EWrite _ P; EWrote _ h v; EPoll _ h (wk 0); EPoll _ h (wk 0)]).
Proof.
  exists [SNew _ KBind P; SPoll _ 0 (wk 0) (mkEnv _ [leaf 6] false (fun _ => true) [] false); SPoll _ 0 (wk 0) quiet; SPoll _ 0 (wk 0) quiet], 0, (leaf 6).
  vm_compute. reflexivity.
Qed.
(** ... and "whenever the incoming stream yields a value the data is updated to it": not if
    the stream ends in the same poll (nor if it yields another value in the same poll). *)
Theorem C44_last_value_refuted :
  exists ops h v, v <> leaf 1 /\ option_map (fun s => (sd nat s, rev (str nat s))) (srun ww nat Nat.eqb H0 d0 ops) =
    Some (VStruct _ [leaf 1; leaf 2], [EPoll _ h (wk 0); EIncoming _ h v; EDone _ h]).
Proof.
  exists [SNew _ KBind P; SPoll _ 0 (wk 0) (mkEnv _ [leaf 6] true (fun _ => true) [] false)], 0, (leaf 6).
  split; [discriminate|]. vm_compute. reflexivity.
Qed.
End Examples.
Print Assumptions C44_first_refuted.
Print Assumptions C44_last_value_refuted.
