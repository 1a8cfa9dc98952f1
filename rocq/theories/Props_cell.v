(** Properties C08 (waker lists) and C09-C11 (ReactiveCell). *)
From Coq Require Import List Arith Bool Permutation Lia.
From Verif Require Import Util Arena Spec_arena Arena_proofs Cell Spec_cell Cell_proofs Foreach_proofs.
Import ListNotations.

(** C08: after any history of calls on any number of lists ([S] is what the calls
    describe): all live handles are different and nothing panics, new handles are
    fresh, a list is deleted exactly when it is empty, and iterating a list wakes
    exactly the tasks registered in it, in order of registration. *)
Theorem C08_no_panic_and_fresh :
  forall ww a S, will_wake_ok ww -> history ww a S ->
  NoDup (handles S) /\
  (exists a' h, ar_add_sublist a = Some (a', h) /\ ~ In h (handles S)) /\
  (forall h, live_list h S -> exists a' i, ar_add a h = Some (a', i) /\ ~ In i (handles S)) /\
  (forall i w, live_slot i S -> exists a', ar_update ww a i w = Some a') /\
  (forall i, live_slot i S -> exists a', ar_remove a i = Some a') /\
  (forall h l, In (h, l) S -> exists a' b, ar_remove_sublist a h = Some (a', b) /\ (b = true <-> l = [])).
Proof.
  intros ww a S WW H. destruct (history_inv ww a S WW H) as (free & I).
  assert (ND := ai_nodup _ _ _ I).
  split; [inversion ND; subst; eapply nd_app_r; eauto|]. split.
  { destruct (add_sublist_ok _ _ _ I) as (a' & h & f & E & N & _). eauto. }
  split. { intros h L. destruct (add_ok _ _ _ h I L) as (a' & i & f & E & N & _). eauto. }
  split. { intros i w L. destruct (update_ok ww _ _ _ i w WW I L) as (a' & E & _). eauto. }
  split. { intros i L. destruct (remove_ok _ _ _ i I L) as (a' & E & _). eauto. }
  intros h l L. apply in_split in L. destruct L as (S1 & S2 & ->).
  destruct (remove_sublist_ok _ _ _ _ _ _ I) as [A B]. destruct l as [|q l].
  - destruct (B eq_refl) as (a' & E & _). exists a', true. split; auto. split; auto.
  - rewrite A by discriminate. exists a, false. split; auto. split; discriminate.
Qed.
Print Assumptions C08_no_panic_and_fresh.

Theorem C08_iter_exact :
  forall ww a S h l, will_wake_ok ww -> history ww a S -> In (h, l) S ->
  exists ws, ar_iter a h = Some ws /\ tasks ws = tasks (map snd l).
Proof.
  intros ww a S h l WW H I. destruct (history_inv ww a S WW H) as (free & AI).
  destruct (iter_ok _ _ _ _ _ AI I) as (ws & E & F). exists ws. split; auto.
  clear - F. unfold tasks. induction F; simpl; f_equal; auto.
Qed.
Print Assumptions C08_iter_exact.

(** freed places are reused: as long as some place is free, registering does not
    allocate *)
Theorem C08_reuse :
  forall ww a S, will_wake_ok ww -> history ww a S -> length (handles S) + 1 < a_len a ->
  (forall a' h, ar_add_sublist a = Some (a', h) -> a_len a' = a_len a) /\
  (forall h a' i, live_list h S -> ar_add a h = Some (a', i) -> a_len a' = a_len a).
Proof.
  intros ww a S WW H L. destruct (history_inv ww a S WW H) as (free & I).
  assert (P := Permutation_length (ai_all _ _ _ I)). simpl in P. rewrite app_length, seq_length in P.
  destruct free as [|f0 free]; [simpl in P; lia|].
  assert (TK := take_free _ _ _ _ I).
  assert (FX : forall x b p n y, ar_fix x b p n = Some y -> a_len y = a_len x).
  { intros x b p n y. unfold ar_fix, set_next, set_prev. destruct b; [|congruence].
    destruct (p <? a_len x); [|discriminate]. simpl. destruct (n <? a_len x); [|discriminate]. intro E; inversion E; auto. }
  assert (SP : forall x i p y, set_prev x i p = Some y -> a_len y = a_len x).
  { intros x i p y. unfold set_prev. destruct (i <? a_len x); [|discriminate]. intro E; inversion E; auto. }
  assert (SN : forall x i p y, set_next x i p = Some y -> a_len y = a_len x).
  { intros x i p y. unfold set_next. destruct (i <? a_len x); [|discriminate]. intro E; inversion E; auto. }
  split.
  - intros a' h E. unfold ar_add_sublist in E. rewrite TK in E.
    destruct (get_prev a f0) as [q1|]; [|discriminate]. destruct (get_next a f0) as [q2|]; [|discriminate].
    destruct (set_prev a f0 f0) as [x1|] eqn:E1; [|discriminate]. destruct (set_next x1 f0 f0) as [x2|] eqn:E2; [|discriminate].
    destruct (ar_fix x2 true q1 q2) as [x3|] eqn:E3; [|discriminate]. inversion E; subst.
    rewrite (FX _ _ _ _ _ E3), (SN _ _ _ _ E2), (SP _ _ _ _ E1). auto.
  - intros h a' i LV E. unfold ar_add in E. rewrite TK in E.
    destruct (get_prev a h) as [q0|]; [|discriminate].
    destruct (set_prev a h f0) as [x1|] eqn:E1; [|discriminate]. destruct (set_next x1 q0 f0) as [x2|] eqn:E2; [|discriminate].
    destruct (get_prev x2 f0) as [q1|]; [|discriminate]. destruct (get_next x2 f0) as [q2|]; [|discriminate].
    destruct (set_prev x2 f0 q0) as [x3|] eqn:E3; [|discriminate]. destruct (set_next x3 f0 h) as [x4|] eqn:E4; [|discriminate].
    destruct (ar_fix x4 true q1 q2) as [x5|] eqn:E5; [|discriminate]. inversion E; subst.
    rewrite (FX _ _ _ _ _ E5), (SN _ _ _ _ E4), (SP _ _ _ _ E3), (SN _ _ _ _ E2), (SP _ _ _ _ E1). auto.
Qed.
Print Assumptions C08_reuse.

Definition never (a b : waker) := false.
Lemma never_ok : will_wake_ok never. Proof. intros a b H. discriminate. Qed.
Definition ex_wk (n : nat) := mkW (Some n) 0.
(** scripts, to exhibit a history *)
Inductive hop := HSub | HAdd (h : nat) | HUpd (i : nat) (w : waker) | HRem (i : nat) | HDel (h : nat).
Definition live_slotb (i : nat) (S : lists) : bool := existsb (Nat.eqb i) (slots S).
Definition live_listb (i : nat) (S : lists) : bool := existsb (Nat.eqb i) (map fst S).
Definition hexec (st : arena * lists) (o : hop) : option (arena * lists) :=
  let '(a, L0) := st in
  match o with
  | HSub => do (a', h) <- ar_add_sublist a; Some (a', L0 ++ [(h, [])])
  | HAdd h => if live_listb h L0 then do (a', i) <- ar_add a h; Some (a', lists_add h i dummy_waker L0) else None
  | HUpd i w => if live_slotb i L0 then do a' <- ar_update never a i w; Some (a', lists_set i w L0) else None
  | HRem i => if live_slotb i L0 then do a' <- ar_remove a i; Some (a', lists_remove i L0) else None
  | HDel h => if live_listb h L0 then do (a', b) <- ar_remove_sublist a h; Some (a', if b : bool then lists_del h L0 else L0) else None
  end.
Fixpoint hrun (st : arena * lists) (os : list hop) : option (arena * lists) :=
  match os with [] => Some st | o :: t => do st' <- hexec st o; hrun st' t end.
Lemma existsb_in i l : existsb (Nat.eqb i) l = true -> In i l.
Proof. intro E. apply existsb_exists in E. destruct E as (j & A & B). apply Nat.eqb_eq in B. subst. auto. Qed.
Lemma hrun_history os : forall st st', history never (fst st) (snd st) -> hrun st os = Some st' -> history never (fst st') (snd st').
Proof.
  induction os as [|o t IH]; intros [a L0] st' H E; cbn [hrun] in E; [inversion E; subst; auto|].
  destruct (hexec (a, L0) o) as [st1|] eqn:X; [|discriminate]. apply (IH st1 st'); auto. clear IH E. simpl in H.
  destruct o; cbn [hexec] in X.
  - destruct (ar_add_sublist a) as [[a1 h]|] eqn:Y; [|discriminate]. inversion X; subst. simpl. eapply hist_sublist; eauto.
  - destruct (live_listb h L0) eqn:LV; [|discriminate]. destruct (ar_add a h) as [[a1 i]|] eqn:Y; [|discriminate]. inversion X; subst. simpl.
    eapply hist_add; eauto. apply existsb_in; auto.
  - destruct (live_slotb i L0) eqn:LV; [|discriminate]. destruct (ar_update never a i w) as [a1|] eqn:Y; [|discriminate]. inversion X; subst. simpl.
    eapply hist_update; eauto. apply existsb_in; auto.
  - destruct (live_slotb i L0) eqn:LV; [|discriminate]. destruct (ar_remove a i) as [a1|] eqn:Y; [|discriminate]. inversion X; subst. simpl.
    eapply hist_remove; eauto. apply existsb_in; auto.
  - destruct (live_listb h L0) eqn:LV; [|discriminate]. destruct (ar_remove_sublist a h) as [[a1 b]|] eqn:Y; [|discriminate]. inversion X; subst. simpl.
    destruct b; [eapply hist_deleted|eapply hist_kept]; eauto; apply existsb_in; auto.
Qed.
Definition ex_script : list hop :=
  [HSub; HAdd 1; HSub; HAdd 3; HAdd 1; HUpd 4 (ex_wk 8); HRem 5; HUpd 2 (ex_wk 7); HSub; HDel 3; HAdd 1; HAdd 5; HUpd 6 (ex_wk 9); HDel 5; HRem 4; HDel 3].
Example C08_nonvacuous :
  exists a S, history never a S /\ length S = 2 /\ 3 = length (slots S) /\
    Forall (fun p => exists ws, ar_iter a (fst p) = Some ws /\ 1 <= length ws) S.
Proof.
  destruct (hrun (ar_new, []) ex_script) as [[a L0]|] eqn:E; [|vm_compute in E; discriminate E].
  exists a, L0. split; [apply (hrun_history ex_script (ar_new, []) (a, L0)); [apply hist_new|exact E]|].
  assert (R : match hrun (ar_new, []) ex_script with
    | Some (a, L0) => length L0 = 2 /\ 3 = length (slots L0) /\
       map (fun p => match ar_iter a (fst p) with Some ws => length ws | None => 0 end) L0 = [2; 1]
    | None => False end) by (vm_compute; auto).
  rewrite E in R. destruct R as (R1 & R2 & R3). split; auto. split; auto.
  clear E. destruct L0 as [|p1 [|p2 [|]]]; try discriminate. simpl in R3.
  constructor; [|constructor; [|constructor]].
  - destruct (ar_iter a (fst p1)) as [ws|]; [|discriminate]. injection R3 as X1 X2. exists ws. split; [reflexivity|lia].
  - destruct (ar_iter a (fst p2)) as [ws|]; [|discriminate]. injection R3 as X1 X2. exists ws. split; [reflexivity|lia].
Qed.

(** C09: in any interleaving of mutable borrows, creations, polls and drops that
    Rust allows, nothing panics, and polling a stream reports ready exactly when a
    mutable borrow ended since its previous poll (never on its first poll). *)
Theorem C09_until_change :
  forall (T : Type) ww (x : T) tr, will_wake_ok ww -> allowed_trace T tr ->
  exists w0 w, cw_new T x = Some w0 /\ crun T ww w0 (rev tr) = Some w /\
  forall id wk, allowed T (CPoll _ id wk) tr ->
  exists w' o, cexec T ww w (CPoll _ id wk) = Some (w', o) /\
    (changed_since_poll T id tr -> o = OReady) /\ (~ changed_since_poll T id tr -> o = OPending).
Proof.
  intros T ww x tr WW A. destruct (crun_ok T ww WW x tr A) as (w0 & w & E0 & R & I).
  exists w0, w. split; auto. split; auto. intros id wk AL.
  destruct (cexec_ok T ww WW x tr w _ I AL) as (w' & o & E & _ & O). exists w', o. split; auto.
  destruct o; tauto.
Qed.
Print Assumptions C09_until_change.

(** C10: when a mutable borrow ends, the tasks woken are, in order of creation of
    the live streams, the ones each was last polled with (a stream never polled
    wakes nothing); dropped streams wake nothing. *)
Theorem C10_wakes :
  forall (T : Type) ww (x : T) tr, will_wake_ok ww -> allowed_trace T (CEnd _ :: tr) ->
  exists w0 w w' ws, cw_new T x = Some w0 /\ crun T ww w0 (rev tr) = Some w /\
    cexec T ww w (CEnd _) = Some (w', OWoken ws) /\
    tasks ws = map (fun id => match last_waker T id tr with Some wk => w_task wk | None => None end) (live_ids T tr).
Proof.
  intros T ww x tr WW [A1 A]. destruct (crun_ok T ww WW x tr A) as (w0 & w & E0 & R & I).
  destruct (cexec_ok T ww WW x tr w _ I A1) as (w' & o & E & _ & O). destruct o; try tauto.
  exists w0, w, w', l. split; auto. split; auto. split; auto. revert O. generalize (live_ids T tr). clear.
  unfold tasks. intros ids F. remember (map (fun id => wk_of T id tr) ids) as m. revert ids Heqm.
  induction F as [|a b l l' H F IH]; intros [|i ids] E; simpl in *; try discriminate; auto.
  inversion E; subst. f_equal; auto. rewrite H. unfold wk_of. destruct (last_waker T i tr); auto.
Qed.
Print Assumptions C10_wakes.

Definition ex_ctr : list (cev nat) :=
  rev [CNew _; CPoll _ 0 (ex_wk 5); CBegin _; CWrite _ 3; CEnd _; CNew _; CNew _; CPoll _ 2 (ex_wk 6); CDrop _ 1;
       CPoll _ 0 (ex_wk 7); CBegin _; CEnd _; CNew _; CPoll _ 3 (ex_wk 8)].
Example C09_nonvacuous :
  allowed_trace nat (CEnd _ :: CBegin _ :: ex_ctr) /\
  changed_since_poll nat 0 ex_ctr /\ ~ changed_since_poll nat 3 ex_ctr /\ live_ids nat ex_ctr = [0; 2; 3].
Proof.
  split; [vm_compute; repeat split; auto; lia|]. split.
  - eexists. split; [vm_compute; reflexivity|]. simpl. auto.
  - split; [|reflexivity]. intros (l & E & I). vm_compute in E. inversion E; subst. destruct I.
Qed.

(** C11: in any interleaving with for_each futures, nothing panics and each poll of
    a for_each future calls the function at most once: with the current value, on
    the first poll and whenever a mutable borrow ended since its previous poll. *)
Theorem C11_for_each :
  forall (T : Type) ww fuel (x : T) ftr w e, will_wake_ok ww -> 1 <= fuel ->
  fhist T ww fuel x ftr w -> fallowed T w e ->
  exists w' o, fexec T ww fuel w e = Some (w', o) /\
    forall j wk, e = FPoll _ j wk -> exists f f', In (j, f) (fw_fes _ w) /\ In (j, f') (fw_fes _ w') /\
      (~ fpolled T j ftr \/ fchanged T j ftr -> fe_calls _ f' = fvalue T x ftr :: fe_calls _ f) /\
      (fpolled T j ftr /\ ~ fchanged T j ftr -> fe_calls _ f' = fe_calls _ f).
Proof.
  intros T ww fuel x ftr w e WW FU H AL. assert (I := fhist_inv T ww WW fuel FU x ftr w H).
  destruct (fexec_ok T ww WW fuel FU x ftr w e I AL) as (w' & o & E & I' & O). exists w', o. split; auto.
  intros j wk ->. destruct O as (f & f' & A & B & C). exists f, f'. split; auto. split; auto. tauto.
Qed.
Print Assumptions C11_for_each.

(** ... so after each poll the last value passed is the current one *)
Theorem C11_up_to_date :
  forall (T : Type) ww fuel (x : T) ftr w j wk w' o f, will_wake_ok ww -> 1 <= fuel ->
  fhist T ww fuel x ftr w -> fallowed T w (FPoll _ j wk) ->
  fexec T ww fuel w (FPoll _ j wk) = Some (w', o) -> In (j, f) (fw_fes _ w') ->
  exists t, fe_calls _ f = fvalue T x ftr :: t.
Proof.
  intros T ww fuel x ftr w j wk w' o f WW FU H AL E IF. assert (I := fhist_inv T ww WW fuel FU x ftr w H).
  destruct (fexec_ok T ww WW fuel FU x ftr w _ I AL) as (w1 & o1 & E1 & I' & _). rewrite E in E1. inversion E1; subst w1 o1.
  assert (F := fi_fes _ _ _ _ I' j f IF). unfold fe_ok in F. destruct (fe_stream T f) as [id|].
  - destruct F as (_ & _ & _ & (v & t & C1 & C2) & C3 & _). exists t. rewrite C1. f_equal.
    assert (V := fi_value _ _ _ _ I'). simpl in V.
    destruct C2 as [C2|[C2|C2]].
    + exfalso. assert (AL2 := AL). destruct AL2 as [G IN]. destruct (f_get_some T _ _ IN) as (f0 & EG).
      destruct (fe_poll_ok T ww WW fuel FU x ftr w j f0 wk I G (f_get_in T _ _ _ EG)) as (w2 & f2 & tr2 & X & _ & _ & G2 & _).
      simpl in E. rewrite EG, X in E. inversion E; subst. simpl in C2. congruence.
    + apply C3 in C2. simpl in C2. destruct C2; congruence.
    + congruence.
  - destruct F as (_ & F & _). exfalso. apply F. simpl. auto.
Qed.
Print Assumptions C11_up_to_date.

(** ... and when a mutable borrow ends, the task that polled it last is woken. *)
Theorem C11_woken :
  forall (T : Type) ww fuel (x : T) ftr w j f, will_wake_ok ww -> 1 <= fuel ->
  fhist T ww fuel x ftr w -> fallowed T w (FCell _ (CEnd _)) -> In (j, f) (fw_fes _ w) ->
  exists w' ws, fexec T ww fuel w (FCell _ (CEnd _)) = Some (w', OWoken ws) /\
    forall wk, flast_waker T j ftr = Some wk -> In (w_task wk) (tasks ws).
Proof.
  intros T ww fuel x ftr w j f WW FU H AL IF. assert (I := fhist_inv T ww WW fuel FU x ftr w H).
  destruct (fexec_ok T ww WW fuel FU x ftr w _ I AL) as (w' & o & E & I' & O). destruct O as (ws & -> & F).
  exists w', ws. split; auto. intros wk LW. assert (FJ := fi_fes _ _ _ _ I j f IF). unfold fe_ok in FJ.
  destruct (fe_stream T f) as [id|]; [|destruct FJ as (_ & _ & FJ); congruence].
  destruct FJ as (LV & _ & _ & _ & _ & L). apply live_in in LV.
  clear - F LV L LW. unfold tasks.
  remember (live_ids T (fw_tr T w)) as ids eqn:EI. clear EI.
  remember (map (fun id => wk_of T id (fw_tr T w)) ids) as m. revert ids Heqm LV.
  induction F as [|a b l l' H F IH]; intros [|i ids] E LV; simpl in *; try discriminate; try tauto.
  inversion E; subst. destruct LV as [->|LV]; [left|right; eauto].
  rewrite H. unfold wk_of. rewrite L, LW. auto.
Qed.
Print Assumptions C11_woken.

(** scripts, to exhibit a history *)
Definition allowedb (e : cev nat) (tr : list (cev nat)) : bool :=
  match e with
  | CBegin _ | CNew _ => negb (guarded _ tr)
  | CWrite _ _ | CEnd _ => guarded _ tr
  | CPoll _ id _ | CDrop _ id => negb (guarded _ tr) && ((id <? created _ tr) && negb (dropped _ id tr))
  end.
Definition fallowedb (w : fworld nat) (e : fev nat) : bool :=
  match e with
  | FCell _ e => allowedb e (fw_tr _ w) &&
      match e with
      | CPoll _ id _ | CDrop _ id =>
          forallb (fun p => match fe_stream _ (snd p) with Some i => negb (Nat.eqb i id) | None => true end) (fw_fes _ w)
      | _ => true
      end
  | FStart _ => true
  | FPoll _ j _ | FDropFe _ j => negb (guarded _ (fw_tr _ w)) && existsb (Nat.eqb j) (map fst (fw_fes _ w))
  end.
Lemma allowedb_ok e tr : allowedb e tr = true -> allowed _ e tr.
Proof.
  destruct e; simpl; rewrite ?negb_true_iff; auto; rewrite !andb_true_iff, !negb_true_iff, Nat.ltb_lt; unfold live; tauto.
Qed.
Lemma fallowedb_ok w e : fallowedb w e = true -> fallowed _ w e.
Proof.
  destruct e as [e| |j wk|j]; simpl; auto; rewrite andb_true_iff.
  - intros [A B]. split; [apply allowedb_ok; auto|]. destruct e; auto; intros j f I X; rewrite forallb_forall in B;
      specialize (B _ I); simpl in B; rewrite X, Nat.eqb_refl in B; discriminate.
  - rewrite negb_true_iff. intros [A B]. split; auto. apply existsb_in; auto.
  - rewrite negb_true_iff. intros [A B]. split; auto. apply existsb_in; auto.
Qed.
Fixpoint frun (w : fworld nat) (es : list (fev nat)) : option (fworld nat) :=
  match es with
  | [] => Some w
  | e :: t => if fallowedb w e then do (w', _) <- fexec nat never 1 w e; frun w' t else None
  end.
Lemma frun_hist x es : forall ftr w w', fhist nat never 1 x ftr w -> frun w es = Some w' -> fhist nat never 1 x (rev es ++ ftr) w'.
Proof.
  induction es as [|e t IH]; intros ftr w w' H E; cbn [frun] in E; [inversion E; subst; auto|].
  destruct (fallowedb w e) eqn:A; [|discriminate]. destruct (fexec nat never 1 w e) as [[w1 o]|] eqn:X; [|discriminate].
  simpl. rewrite <- app_assoc. simpl. eapply IH; eauto. eapply fh_step; eauto. apply fallowedb_ok; auto.
Qed.
Definition ex_fscript : list (fev nat) :=
  [FStart _; FPoll _ 0 (ex_wk 1); FCell _ (CBegin _); FCell _ (CWrite _ 4); FCell _ (CEnd _); FStart _; FCell _ (CNew _);
   FPoll _ 1 (ex_wk 2); FPoll _ 0 (ex_wk 1); FCell _ (CBegin _); FCell _ (CWrite _ 5); FCell _ (CEnd _); FPoll _ 0 (ex_wk 3)].
Definition ex_cw0 : cworld nat :=
  match cw_new nat 3 with Some w => w | None => mkCW _ (mkC _ 0 ar_new 0 false) [] 0 end.
Example C11_nonvacuous :
  exists w, fhist nat never 1 3 (rev ex_fscript) w /\
    map (fun p => fe_calls _ (snd p)) (fw_fes _ w) = [[5; 4; 3]; [4]] /\
    fallowed nat w (FCell _ (CBegin _)) /\ fallowed nat w (FPoll _ 1 (ex_wk 2)) /\ fchanged nat 1 (rev ex_fscript).
Proof.
  assert (R : match frun (mkFW _ ex_cw0 [] 0 []) ex_fscript with
      | Some w => map (fun p => fe_calls _ (snd p)) (fw_fes _ w) = [[5; 4; 3]; [4]] /\
          fallowedb w (FCell _ (CBegin _)) = true /\ fallowedb w (FPoll _ 1 (ex_wk 2)) = true
      | None => False end) by (vm_compute; auto).
  destruct (frun (mkFW _ ex_cw0 [] 0 []) ex_fscript) as [w|] eqn:E; [|tauto].
  exists w. split; [|split; [apply R|split; [apply fallowedb_ok; apply R|split; [apply fallowedb_ok; apply R|]]]].
  - rewrite <- (app_nil_r (rev ex_fscript)). eapply frun_hist; [|exact E]. apply fh_new.
    destruct (ci_init nat 3) as (w0 & E0 & _). unfold ex_cw0. rewrite E0. auto.
  - simpl. split; [discriminate|auto].
Qed.
