(** Proofs for C64. *)
From Coq Require Import List Arith Bool NArith Lia.
From Verif Require Import Arena Spec_arena Xbow Xbow_proofs Xbow_run_proofs XbowData XbowData_proofs XbowStore XbowGuard Spec_xguard.
Import ListNotations.

Section Proofs.
Variable ww : waker -> waker -> bool.
Hypothesis WW : will_wake_ok ww.
Variable K : Type.
Variable keqb : K -> K -> bool.
Notation val := (val K).
Notation path := (list (seg K)).
Variable H : path -> N.
Notation trace := (list (xop K * xout K)).
Notation xexec := (exec ww (seg K) H).
Notation cursor := (option (path * (nat -> bool) * bool * (val -> val))).

(** the guard that is alive after a history *)
Fixpoint cur_after (cur : cursor) (l : trace) : cursor :=
  match l with
  | [] => cur
  | (XBorrowMut _ p u, XUnit _) :: t => cur_after (Some (p, u, true, fun v => v)) t
  | (XBorrowQuiet _ p u, XUnit _) :: t => cur_after (Some (p, u, false, fun v => v)) t
  | (XWriteMut _ f, _) :: t =>
      cur_after (match cur with Some (p, u, b, f0) => Some (p, u, b, fun v => f (f0 v)) | None => None end) t
  | (XDropMut _, _) :: t => cur_after None t
  | _ :: t => cur_after cur t
  end.
Ltac ev e o := destruct e as [?|?|?|? ?|? ?|?| | |?|? ? ?|[? ?|? ?|?|?]]; try destruct o.
Lemma cur_app l : forall cur l', cur_after cur (l ++ l') = cur_after (cur_after cur l) l'.
Proof. induction l as [|[e o] l IH]; intros cur l'; [reflexivity|]. ev e o; cbn [app cur_after]; apply IH. Qed.
Lemma serial_app l : forall cur l', serial K cur (l ++ l') = serial K cur l ++ serial K (cur_after cur l) l'.
Proof.
  induction l as [|[e o] l IH]; intros cur l'; [reflexivity|].
  ev e o; cbn [app cur_after serial]; rewrite IH; rewrite <- ?app_assoc; reflexivity.
Qed.
Lemma sexecs_app l : forall s l', sexecs ww K keqb H s (l ++ l') =
  match sexecs ww K keqb H s l with Some s1 => sexecs ww K keqb H s1 l' | None => None end.
Proof. induction l as [|o l IH]; intros s l'; [reflexivity|]. cbn [app sexecs]. destruct (sexec ww K keqb H s o); auto. Qed.

(** the state without guards *)
Definition matches (s : sstate K) (g : xg K) (cur : cursor) : Prop :=
  sx _ s = x_w _ g /\ sh _ s = [] /\
  match x_mut _ g, cur with
  | None, None => sd _ s = x_data _ g
  | Some m, Some (p, u, b, f) =>
      m_path _ m = p /\ m_loud _ m = b /\
      exists x, path_borrow_mut K keqb u p (sd _ s) = Some (x, m_put _ m) /\ x_data _ g = m_put _ m (f x)
  | _, _ => False
  end.
Record XInv (d : val) (tr : trace) (g : xg K) : Prop := {
  xi_next : x_next _ g = refs_made K tr;
  xi_refs : forall r p, In (r, p) (x_refs _ g) <-> ref_alive K r p tr;
  xi_nodup : NoDup (map fst (x_refs _ g));
  xi_small : forall r p, In (r, p) (x_refs _ g) -> r < x_next _ g;
  xi_there : forall r p, In (r, p) (x_refs _ g) -> path_borrow K keqb p (x_data _ g) <> None;
  xi_mut : forall p, mut_alive K p tr <-> exists m, x_mut _ g = Some m /\ m_path _ m = p;
  xi_excl : x_mut _ g <> None -> x_refs _ g = [];
  xi_world : exists A, WI (seg K) H (x_w _ g) A;
  xi_serial : exists s, srun ww K keqb H d (serial K None (rev tr)) = Some s /\ matches s g (cur_after None (rev tr))
}.

Lemma x_find_spec d tr g r : XInv d tr g ->
  (forall p, x_find K r g = Some p <-> In (r, p) (x_refs _ g)).
Proof.
  intros I p. unfold x_find. assert (N := xi_nodup _ _ _ I). revert N. generalize (x_refs K g). clear I.
  induction l as [|[r' q] l IH]; intro N; cbn; [intuition discriminate|]. inversion N; subst.
  destruct (Nat.eqb_spec r' r) as [->|NE].
  - split; [intro E; injection E as ->; auto|]. intros [E|E]; [congruence|]. exfalso. apply H2. apply in_map_iff. exists (r, p). auto.
  - rewrite IH by auto. intuition congruence.
Qed.
Lemma can_read_spec d tr g : XInv d tr g -> (x_can_read K g = false <-> exists p, mut_alive K p tr).
Proof.
  intro I. unfold x_can_read. split.
  - destruct (x_mut K g) as [m|] eqn:M; [|discriminate]. intros _. exists (m_path _ m). apply (xi_mut _ _ _ I). eauto.
  - intros (p & A). apply (xi_mut _ _ _ I) in A as (m & -> & _). reflexivity.
Qed.
Lemma can_write_spec d tr g : XInv d tr g ->
  (x_can_write K g = false <-> (exists p, mut_alive K p tr) \/ exists r p, ref_alive K r p tr).
Proof.
  intro I. unfold x_can_write. rewrite andb_false_iff, (can_read_spec _ _ _ I).
  assert (E : match x_refs K g with [] => true | _ => false end = false <-> exists r p, ref_alive K r p tr); [|rewrite E; reflexivity].
  destruct (x_refs K g) as [|[r p] l] eqn:R.
  - split; [discriminate|]. intros (r & p & A). apply (xi_refs _ _ _ I) in A. rewrite R in A. destruct A.
  - split; auto. intros _. exists r, p. apply (xi_refs _ _ _ I). rewrite R. left; auto.
Qed.
Lemma can_write_true g : x_can_write K g = true -> x_mut _ g = None /\ x_refs _ g = [].
Proof. unfold x_can_write, x_can_read. destruct (x_mut K g), (x_refs K g); cbn; try discriminate; auto. Qed.

Lemma x_init d : XInv d [] (x_new K d).
Proof.
  constructor; cbn; auto; try tauto.
  - constructor.
  - intro p. split; [tauto|]. intros (m & E & _). discriminate.
  - eexists. apply wi_init.
  - exists (sinit K d). split; [reflexivity|]. unfold matches. cbn. auto.
Qed.

(** a step that touches no guard: [e] is none of the operations on guards *)
Definition neutral (e : xop K) (o : xout K) : Prop :=
  match e, o with
  | XBorrow _ _, XUnit _ | XDropRef _ _, _ | XBorrowMut _ _ _, XUnit _ | XBorrowQuiet _ _ _, XUnit _
  | XWriteMut _ _, _ | XDropMut _, _ => False
  | _, _ => True
  end.
Lemma neutral_next e o tr : neutral e o -> refs_made K ((e, o) :: tr) = refs_made K tr.
Proof. ev e o; cbn; tauto. Qed.
Lemma neutral_refs e o tr r p : neutral e o -> (ref_alive K r p ((e, o) :: tr) <-> ref_alive K r p tr).
Proof. ev e o; cbn; tauto. Qed.
Lemma neutral_mut e o tr p : neutral e o -> (mut_alive K p ((e, o) :: tr) <-> mut_alive K p tr).
Proof. ev e o; cbn; tauto. Qed.
Lemma neutral_cur e o cur : neutral e o -> cur_after cur [(e, o)] = cur.
Proof. ev e o; cbn; tauto. Qed.

(** the serial history after one more event *)
Lemma serial_step d tr g e o : XInv d tr g ->
  exists s, srun ww K keqb H d (serial K None (rev tr)) = Some s /\ matches s g (cur_after None (rev tr)) /\
    forall g', (exists s', sexecs ww K keqb H s (serial K (cur_after None (rev tr)) [(e, o)]) = Some s' /\
                 matches s' g' (cur_after (cur_after None (rev tr)) [(e, o)])) ->
      exists s', srun ww K keqb H d (serial K None (rev ((e, o) :: tr))) = Some s' /\ matches s' g' (cur_after None (rev ((e, o) :: tr))).
Proof.
  intro I. destruct (xi_serial _ _ _ I) as (s & R & M). exists s. split; auto. split; auto. intros g' (s' & E & M').
  exists s'. cbn [rev]. unfold srun in *. rewrite serial_app, cur_app, sexecs_app, R. auto.
Qed.

Lemma neutral_same d tr g e o : XInv d tr g -> neutral e o -> serial K (cur_after None (rev tr)) [(e, o)] = [] -> XInv d ((e, o) :: tr) g.
Proof.
  intros I N S. destruct (serial_step d tr g e o I) as (s & SR & M & X). destruct I. constructor; auto.
  - rewrite neutral_next; auto.
  - intros r p. rewrite neutral_refs; auto.
  - intro p. rewrite neutral_mut; auto.
  - apply X. rewrite S. exists s. split; [reflexivity|]. rewrite neutral_cur; auto.
Qed.

Lemma borrow_mut_ok d tr g p u (b : bool) e :
  XInv d tr g -> e = (if b then XBorrowMut K p u else XBorrowQuiet K p u) ->
  match x_borrow_mut K keqb g p u b with
  | None => (exists p, mut_alive K p tr) \/ exists r p, ref_alive K r p tr
  | Some (g', o) => XInv d ((e, o) :: tr) g' /\ ~ ((exists p, mut_alive K p tr) \/ exists r p, ref_alive K r p tr) /\
      ((o = XUnit K /\ exists x k, path_borrow_mut K keqb u p (x_data _ g) = Some (x, k)) \/
       (o = XNone K /\ path_borrow_mut K keqb u p (x_data _ g) = None))
  end.
Proof.
  intros I ->. unfold x_borrow_mut. destruct (x_can_write K g) eqn:W; [|apply (can_write_spec _ _ _ I), W].
  assert (NG : ~ ((exists p, mut_alive K p tr) \/ exists r p, ref_alive K r p tr)) by (rewrite <- (can_write_spec _ _ _ I); congruence).
  apply can_write_true in W as [M0 R0]. destruct (path_borrow_mut K keqb u p (x_data K g)) as [[x k]|] eqn:E.
  - split; [|split; [auto|left; split; eauto]].
    set (e := if b then XBorrowMut K p u else XBorrowQuiet K p u).
    destruct (serial_step d tr g e (XUnit K) I) as (s & SR & M & X). destruct I. constructor; cbn [x_next x_refs x_data x_mut x_w].
    + unfold e. destruct b; cbn; auto.
    + intros r q. unfold e. destruct b; cbn; auto.
    + auto.
    + auto.
    + auto.
    + intro q. unfold e. destruct b; cbn; (split; [intros ->; eexists; split; [reflexivity|auto]|intros (m & Q & <-); injection Q as <-; auto]).
    + auto.
    + auto.
    + apply X. exists s. assert (serial K (cur_after None (rev tr)) [(e, XUnit K)] = []) as -> by (unfold e; destruct b; auto).
      split; [reflexivity|]. destruct M as (M1 & M2 & M3). split; [exact M1|]. split; [exact M2|]. rewrite M0 in M3. cbn [x_mut].
      destruct (cur_after None (rev tr)); [contradiction|]. unfold e. destruct b; cbn; (split; [auto|]; split; [auto|]; exists x; rewrite M3; split; auto;
        destruct (mut_read K keqb u p _ x k E) as (_ & Q & _); auto).
  - split; [apply neutral_same; auto; destruct b; cbn; auto|]. split; auto.
Qed.

Lemma write_ok d tr g f : XInv d tr g -> (exists p, mut_alive K p tr) ->
  exists g', x_write K keqb g f = Some (g', XUnit K) /\ XInv d ((XWriteMut K f, XUnit K) :: tr) g' /\ x_mut _ g' = x_mut _ g /\ x_w _ g' = x_w _ g /\
    exists v m, x_mut _ g = Some m /\ path_borrow K keqb (m_path _ m) (x_data _ g) = Some v /\ x_data _ g' = m_put _ m (f v) /\
      path_borrow K keqb (m_path _ m) (x_data _ g') = Some (f v).
Proof.
  intros I (p & A). apply (xi_mut _ _ _ I) in A as (m & EM & EP).
  destruct (serial_step d tr g (XWriteMut K f) (XUnit K) I) as (s & SR & M & X). assert (M' := M). destruct M' as (M1 & M2 & M3).
  unfold x_write. rewrite EM in *. destruct (cur_after None (rev tr)) as [[[[q u] b] f0]|] eqn:C; [|contradiction].
  destruct M3 as (<- & <- & x & B & D). destruct (mut_read K keqb u _ _ x _ B) as (_ & Q & RD).
  assert (P : forall y, path_borrow K keqb (m_path K m) (m_put _ m y) = Some y) by (intro y; rewrite <- (app_nil_r (m_path K m)), RD; reflexivity).
  assert (V : path_borrow K keqb (m_path K m) (x_data K g) = Some (f0 x)) by (rewrite D; apply P). rewrite V.
  eexists. split; [reflexivity|]. split; [|cbn [x_mut x_w x_data]; split; [auto|]; split; [auto|]; exists (f0 x), m; auto].
  assert (RE : x_refs K g = []) by (apply (xi_excl _ _ _ I); rewrite EM; discriminate).
  destruct I. constructor; cbn [x_next x_refs x_data x_mut x_w]; auto.
  - rewrite RE. intros r q [].
  - intro q. cbn [mut_alive]. rewrite (xi_mut0 q), EM. reflexivity.
  - apply X. exists s. split; [reflexivity|]. split; [exact M1|]. split; [exact M2|]. cbn. split; [auto|]. split; [auto|]. exists x. auto.
Qed.

Lemma drop_mut_ok d tr g : XInv d tr g -> (exists p, mut_alive K p tr) ->
  exists g', x_drop_mut ww K H g = Some (g', XUnit K) /\ XInv d ((XDropMut K, XUnit K) :: tr) g' /\ x_data _ g' = x_data _ g /\ x_mut _ g' = None /\
    exists m, x_mut _ g = Some m /\
      (if m_loud _ m then xexec (x_w _ g) (ONotify _ (m_path _ m)) else Some (x_w _ g)) = Some (x_w _ g').
Proof.
  intros I (p & A). apply (xi_mut _ _ _ I) in A as (m & EM & EP).
  destruct (serial_step d tr g (XDropMut K) (XUnit K) I) as (s & SR & M & X). assert (M' := M). destruct M' as (M1 & M2 & M3).
  unfold x_drop_mut. rewrite EM in *. destruct (cur_after None (rev tr)) as [[[[q u] b] f0]|] eqn:C; [|contradiction].
  destruct M3 as (<- & <- & x & B & D). destruct (xi_world _ _ _ I) as (Wa & WI1).
  assert (NX : exists w A, (if m_loud K m then xexec (x_w K g) (ONotify _ (m_path K m)) else Some (x_w K g)) = Some w /\ WI (seg K) H w A).
  { destruct (m_loud K m); [apply (exec_ok ww WW _ H _ _ _ WI1)|]. eauto. }
  destruct NX as (w & A' & E & WI2). rewrite E. eexists. split; [reflexivity|]. split; [|cbn [x_data x_mut x_w]; eauto].
  assert (RE : x_refs K g = []) by (apply (xi_excl _ _ _ I); rewrite EM; discriminate).
  destruct I. constructor; cbn [x_next x_refs x_data x_mut x_w]; auto.
  - intro q. cbn [mut_alive]. split; [tauto|]. intros (m' & Q & _). discriminate.
  - eauto.
  - apply X. cbn [serial app sexecs sexec atomic]. destruct (m_loud K m) eqn:L; cbn [do_act].
    + rewrite B, M1, E. eexists. split; [reflexivity|]. split; [reflexivity|]. split; [exact M2|]. cbn. auto.
    + rewrite B. injection E as <-. eexists. split; [reflexivity|]. split; [exact M1|]. split; [exact M2|]. cbn. auto.
Qed.

(** XSet is borrow_mut, write, drop *)
Lemma set_serial p u v cur : cur = None ->
  serial K cur [(XBorrowMut K p u, XUnit K); (XWriteMut K (fun _ => v), XUnit K); (XDropMut K, XUnit K)] = [atomic K true p u (fun _ => v)].
Proof. reflexivity. Qed.

Lemma step_ok d tr g e : XInv d tr g -> usable K e tr ->
  match xgexec ww K keqb H g e with
  | None => in_the_way K e tr
  | Some (g', o) => XInv d ((e, o) :: tr) g' /\ ~ in_the_way K e tr
  end.
Proof.
  intros I U. assert (CR := can_read_spec _ _ _ I). assert (CW := can_write_spec _ _ _ I).
  destruct e as [p|r|r|p u|p u|f| | |p|p u v|so]; cbn [xgexec usable in_the_way] in *.
  - (* XBorrow *) destruct (x_can_read K g) eqn:R; [|apply CR; auto].
    assert (NM : ~ exists p, mut_alive K p tr) by (rewrite <- CR; discriminate).
    assert (M0 : x_mut K g = None) by (unfold x_can_read in R; destruct (x_mut K g); [discriminate|auto]).
    destruct (path_borrow K keqb p (x_data K g)) as [v|] eqn:E.
    + split; [|auto]. destruct (serial_step d tr g (XBorrow K p) (XUnit K) I) as (s & SR & M & X).
      destruct I. constructor; cbn [x_next x_refs x_data x_mut x_w refs_made ref_alive mut_alive]; auto.
      * intros r q. rewrite <- xi_refs0, <- xi_next0. cbn. intuition congruence.
      * cbn. constructor; auto. intro Q. apply in_map_iff in Q as ([r q] & Q1 & Q2). cbn in Q1. apply xi_small0 in Q2. lia.
      * intros r q [Q|Q]; [injection Q as <- <-; lia|]. apply xi_small0 in Q. lia.
      * intros r q [Q|Q]; [injection Q as <- <-; congruence|eauto].
      * rewrite M0. congruence.
      * apply X. exists s. split; [reflexivity|]. exact M.
    + split; auto. apply neutral_same; cbn; auto.
  - (* XReadRef *) destruct U as (p & U). apply (xi_refs _ _ _ I) in U. rewrite (proj2 (x_find_spec _ _ _ r I p) U).
    destruct (path_borrow K keqb p (x_data K g)) as [v|] eqn:E; [|destruct (xi_there _ _ _ I r p U E)].
    split; auto. apply neutral_same; cbn; auto.
  - (* XDropRef *) destruct U as (p & U). apply (xi_refs _ _ _ I) in U. rewrite (proj2 (x_find_spec _ _ _ r I p) U).
    split; [|auto]. destruct (serial_step d tr g (XDropRef K r) (XUnit K) I) as (s & SR & M & X).
    destruct I. constructor; cbn [x_next x_refs x_data x_mut x_w refs_made ref_alive mut_alive]; auto.
    + intros r' q. rewrite <- xi_refs0, filter_In, negb_true_iff, Nat.eqb_neq. cbn. intuition.
    + clear - xi_nodup0. induction (x_refs K g) as [|[a b] l IH]; cbn in *; [constructor|]. inversion xi_nodup0; subst.
      destruct (negb (a =? r)); cbn; auto. constructor; auto. intro Q. apply H1. apply in_map_iff in Q as (x & Q1 & Q2).
      apply filter_In in Q2 as [Q2 _]. apply in_map_iff. eauto.
    + intros r' q Q. apply filter_In in Q as [Q _]. eauto.
    + intros r' q Q. apply filter_In in Q as [Q _]. eauto.
    + intro Q. rewrite (xi_excl0 Q). reflexivity.
    + apply X. exists s. split; [reflexivity|]. exact M.
  - (* XBorrowMut *) assert (B := borrow_mut_ok d tr g p u true (XBorrowMut K p u) I eq_refl).
    destruct (x_borrow_mut K keqb g p u true) as [[g' o]|]; [|auto]. tauto.
  - (* XBorrowQuiet *) assert (B := borrow_mut_ok d tr g p u false (XBorrowQuiet K p u) I eq_refl).
    destruct (x_borrow_mut K keqb g p u false) as [[g' o]|]; [|auto]. tauto.
  - (* XWriteMut *) destruct (write_ok d tr g f I U) as (g' & E & I' & _). rewrite E. auto.
  - (* XReadMut *) destruct (write_ok d tr g (fun v => v) I U) as (_ & _ & _ & _ & _ & v & m & EM & EV & _).
    rewrite EM, EV. split; auto. apply neutral_same; cbn; auto.
  - (* XDropMut *) destruct (drop_mut_ok d tr g I U) as (g' & E & I' & _). rewrite E. auto.
  - (* XGet *) destruct (x_can_read K g) eqn:R; [|apply CR; auto].
    assert (NM : ~ exists p, mut_alive K p tr) by (rewrite <- CR; discriminate).
    destruct (path_borrow K keqb p (x_data K g)) as [v|] eqn:E; (split; [apply neutral_same; cbn; auto|auto]).
  - (* XSet *) assert (B := borrow_mut_ok d tr g p u true (XBorrowMut K p u) I eq_refl).
    destruct (x_borrow_mut K keqb g p u true) as [[g1 o]|] eqn:E1; [|auto]. destruct B as (I1 & NG & [[-> (x & k & Q)]|[-> Q]]).
    + destruct (write_ok d _ g1 (fun _ => v) I1) as (g2 & E2 & I2 & M2 & W2 & y & m & EM & EV & D2 & _); [exists p; cbn; auto|]. rewrite E2.
      destruct (drop_mut_ok d _ g2 I2) as (g3 & E3 & I3 & D3 & M3 & m' & EM' & EW); [exists p; cbn; auto|]. rewrite E3. split; [|auto].
      assert (R3 : x_refs _ g3 = x_refs _ g /\ x_next _ g3 = x_next _ g).
      { clear - E1 E2 E3. unfold x_borrow_mut in E1. destruct (x_can_write K g); [|discriminate].
        destruct (path_borrow_mut K keqb u p (x_data K g)) as [[? ?]|]; [|discriminate]. injection E1 as <-.
        unfold x_write in E2. cbn [x_mut] in E2. destruct (path_borrow K keqb _ _); [|discriminate]. injection E2 as <-.
        unfold x_drop_mut in E3. cbn [x_mut m_loud m_path x_w] in E3. destruct (exec ww (seg K) H (x_w K g) (ONotify (seg K) p)) in E3; [|discriminate E3]. injection E3 as <-. auto. }
      destruct R3 as [R3 N3].
      destruct (serial_step d tr g (XSet K p u v) (XUnit K) I) as (s & SR & M & X).
      assert (CN : cur_after None (rev tr) = None).
      { assert (M0 : x_mut K g = None).
        { unfold x_borrow_mut in E1. destruct (x_can_write K g) eqn:W; [|discriminate]. apply can_write_true in W. tauto. }
        destruct M as (_ & _ & M). rewrite M0 in M. destruct (cur_after None (rev tr)); [contradiction|auto]. }
      constructor.
      * rewrite N3. apply (xi_next _ _ _ I).
      * intros r q. rewrite R3. apply (xi_refs _ _ _ I).
      * rewrite R3. apply (xi_nodup _ _ _ I).
      * rewrite R3, N3. apply (xi_small _ _ _ I).
      * apply (xi_there _ _ _ I3).
      * intro q. cbn [mut_alive]. rewrite M3. split; [|intros (? & ? & _); discriminate]. intro A. exfalso. apply NG. left. eauto.
      * rewrite M3. congruence.
      * apply (xi_world _ _ _ I3).
      * destruct (xi_serial _ _ _ I3) as (s' & S1 & S2). apply X. rewrite CN. cbn [serial cur_after]. exists s'. split.
        -- destruct (xi_serial _ _ _ I) as (s0 & S3 & S4).
           (* the same serial history *)
           cbn [rev] in S1. rewrite <- !app_assoc in S1. cbn [app] in S1. rewrite serial_app, CN in S1. cbn [serial app] in S1.
           unfold srun in S1, S3, SR. rewrite sexecs_app, S3 in S1. 
           rewrite S3 in SR. injection SR as <-. exact S1.
        -- cbn [rev] in S2. rewrite !cur_app in S2. cbn in S2. exact S2.
    + split; [|auto]. destruct (serial_step d tr g (XSet K p u v) (XNone K) I) as (s & SR & M & X).
      assert (g1 = g).
      { unfold x_borrow_mut in E1. destruct (x_can_write K g); [|discriminate]. rewrite Q in E1. congruence. } subst g1.
      assert (M0 : x_mut K g = None).
      { unfold x_borrow_mut in E1. destruct (x_can_write K g) eqn:W; [|discriminate]. apply can_write_true in W. tauto. }
      assert (CN : cur_after None (rev tr) = None).
      { destruct M as (_ & _ & M). rewrite M0 in M. destruct (cur_after None (rev tr)); [contradiction|auto]. }
      destruct I. constructor; cbn [refs_made ref_alive mut_alive]; auto.
      apply X. rewrite CN in *. cbn [serial sexecs sexec atomic do_act]. destruct M as (M1 & M2 & M3'). rewrite M0 in M3'. rewrite M3', Q.
      exists s. split; [reflexivity|]. split; [auto|]. split; [auto|]. cbn. rewrite M0. exact M3'.
  - (* XStream *) destruct (xi_world _ _ _ I) as (Wa & WI1). destruct (exec_ok ww WW _ H _ _ so WI1) as (w & A' & E & WI2). rewrite E.
    split; [|auto]. destruct (serial_step d tr g (XStream K so) (XUnit K) I) as (s & SR & M & X).
    destruct I. constructor; cbn [x_next x_refs x_data x_mut x_w refs_made ref_alive mut_alive]; auto.
    + eauto.
    + apply X. destruct M as (M1 & M2 & M3). assert (C : cur_after (cur_after None (rev tr)) [(XStream K so, XUnit K)] = cur_after None (rev tr)) by reflexivity.
      rewrite C. destruct so; cbn [serial sexecs sexec do_act is_helper]; rewrite ?M2; cbn [is_helper existsb]; rewrite M1, E;
        (eexists; split; [reflexivity|]; split; [reflexivity|]; split; [exact M2|]; exact M3).
Qed.

Lemma xhist_inv d tr g : xhist ww K keqb H d tr g -> XInv d tr g.
Proof.
  induction 1 as [|tr g e g' o X IH U E]; [apply x_init|]. assert (S := step_ok d tr g e IH U). rewrite E in S. apply S.
Qed.
Lemma alive_back r p tr later : ref_alive K r p (later ++ tr) -> r < refs_made K tr -> ref_alive K r p tr.
Proof.
  intros A L. assert (M : forall l, refs_made K tr <= refs_made K (l ++ tr)).
  { induction l as [|[e o] l IH]; cbn; auto. ev e o; cbn; auto. }
  induction later as [|[e o] l IH]; auto. apply IH. specialize (M l). ev e o; cbn in A; auto; try tauto.
  destruct A as [[-> _]|A]; [lia|auto].
Qed.
Lemma alive_small d tr g r p : xhist ww K keqb H d tr g -> ref_alive K r p tr -> r < refs_made K tr.
Proof. intros X A. assert (I := xhist_inv _ _ _ X). rewrite <- (xi_next _ _ _ I). apply (xi_refs _ _ _ I) in A. eapply xi_small; eauto. Qed.
Lemma xhist_fun d tr : forall g g', xhist ww K keqb H d tr g -> xhist ww K keqb H d tr g' -> g = g'.
Proof.
  induction tr as [|[e o] tr IH]; intros g g' X Y; inversion X; inversion Y; subst; auto.
  assert (g0 = g1) by (eapply IH; eauto). subst. congruence.
Qed.
(** while a shared guard is alive nothing is written *)
Lemma data_stable d tr g r p : xhist ww K keqb H d tr g -> ref_alive K r p tr ->
  forall later g', xhist ww K keqb H d (later ++ tr) g' -> ref_alive K r p (later ++ tr) -> x_data _ g' = x_data _ g.
Proof.
  intros X A. induction later as [|[e o] l IH]; intros g' X' A'.
  - f_equal. eapply xhist_fun; eauto.
  - cbn [app] in *. inversion X' as [|tr1 g1 e1 g2 o1 X1 U E]; subst.
    assert (A1 : ref_alive K r p (l ++ tr)).
    { apply (alive_back r p (l ++ tr) [(e, o)] A'). assert (Q := alive_small _ _ _ _ _ X A).
      clear - Q. induction l as [|[e o] l IH]; cbn; auto. ev e o; cbn; lia. }
    rewrite <- (IH g1 X1 A1). assert (I := xhist_inv _ _ _ X1).
    assert (NM : x_mut _ g1 = None).
    { destruct (x_mut K g1) eqn:Q; auto. apply (xi_refs _ _ _ I) in A1. rewrite (xi_excl _ _ _ I) in A1; [destruct A1|congruence]. }
    assert (NW : x_can_write K g1 = false).
    { apply (can_write_spec _ _ _ I). right. eauto. }
    destruct e; cbn [xgexec] in E; unfold x_borrow_mut, x_write, x_drop_mut in E; rewrite ?NM, ?NW in E; try discriminate.
    + destruct (x_can_read K g1); [|discriminate]. destruct (path_borrow _ _ _ _); injection E as <- _; auto.
    + destruct (x_find K r0 g1); [|discriminate]. destruct (path_borrow _ _ _ _); [|discriminate]. injection E as <- _; auto.
    + destruct (x_find K r0 g1); [|discriminate]. injection E as <- _; auto.
    + destruct (x_can_read K g1); [|discriminate]. destruct (path_borrow _ _ _ _); injection E as <- _; auto.
    + destruct (exec ww (seg K) H (x_w K g1) o0); [|discriminate]. injection E as <- _; auto.
Qed.
End Proofs.
