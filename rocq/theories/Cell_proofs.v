(** Proofs for C09-C11. *)
From Coq Require Import List Arith Bool Permutation Lia.
From Verif Require Import Util Arena Spec_arena Arena_proofs Cell Spec_cell.
Import ListNotations.

Section Proofs.
Variable T : Type.
Variable ww : waker -> waker -> bool.
Hypothesis WW : will_wake_ok ww.
Notation trace := (list (cev T)).

Definition wk_of (id : nat) (tr : trace) : waker :=
  match last_waker T id tr with Some w => w | None => dummy_waker end.

(** the state of one stream against the trace *)
Definition stream_ok (ver : nat) (tr : trace) (id : nat) (s : stream) : Prop :=
  (s_last s = 0 <-> since_poll T id tr = None) /\ s_last s <= ver /\
  (0 < s_last s < ver <-> changed_since_poll T id tr).

Record CInv (x : T) (tr : trace) (w : cworld T) : Prop := {
  ci_data : c_data _ (cw_cell _ w) = value_after T x tr;
  ci_guard : c_guard _ (cw_cell _ w) = guarded T tr;
  ci_next : cw_next _ w = created T tr;
  ci_ver : 1 <= c_ver _ (cw_cell _ w);
  ci_ids : map fst (cw_streams _ w) = live_ids T tr;
  ci_arena : exists free, AInv (c_arena _ (cw_cell _ w)) free
      [(1, map (fun p => (s_slot (snd p), wk_of (fst p) tr)) (cw_streams _ w))];
  ci_streams : forall id s, In (id, s) (cw_streams _ w) -> stream_ok (c_ver _ (cw_cell _ w)) tr id s;
  ci_small : forall id, created T tr <= id -> since_poll T id tr = None /\ last_waker T id tr = None /\ dropped T id tr = false
}.

Lemma ci_init x : exists w, cw_new T x = Some w /\ CInv x [] w.
Proof.
  unfold cw_new, cell_new.
  destruct (add_sublist_ok ar_new [1] [] ar_new_inv) as (a & h & free & E & _ & _ & I).
  assert (H1 : h = 1).
  { clear I. revert E. vm_compute. intro E. inversion E. auto. }
  rewrite E. subst h. eexists. split; [reflexivity|]. constructor; simpl; auto.
  - exists free. exact I.
  - intros id s [].
Qed.

Lemma s_get_in (l : list (nat * stream)) id s : s_get id l = Some s -> In (id, s) l.
Proof.
  induction l as [|[j t] l IH]; simpl; [discriminate|]. destruct (Nat.eqb_spec j id); intro E; auto.
  inversion E; subst. auto.
Qed.
Lemma s_get_some (l : list (nat * stream)) id : In id (map fst l) -> exists s, s_get id l = Some s.
Proof.
  induction l as [|[j t] l IH]; simpl; [tauto|]. destruct (Nat.eqb_spec j id); eauto. intros [E|E]; auto. congruence.
Qed.
Lemma live_in id tr : In id (live_ids T tr) <-> live T id tr.
Proof.
  unfold live_ids, live. rewrite filter_In, in_seq, negb_true_iff. intuition lia.
Qed.
Lemma live_ids_nodup tr : NoDup (live_ids T tr).
Proof. apply NoDup_filter, seq_NoDup. Qed.

Lemma s_put_map_fst id s l : map fst (s_put id s l) = map fst l.
Proof.
  unfold s_put. rewrite map_map. apply map_ext. intros [j t]. simpl. destruct (Nat.eqb_spec j id); simpl; auto.
Qed.
Lemma s_put_in id s l j t : In (j, t) (s_put id s l) -> (j = id /\ t = s) \/ (j <> id /\ In (j, t) l).
Proof.
  unfold s_put. intro I. apply in_map_iff in I. destruct I as ([j' t'] & E & I). simpl in E.
  destruct (Nat.eqb_spec j' id); inversion E; subst; auto.
Qed.
Lemma s_del_in id (l : list (nat * stream)) j t : In (j, t) (s_del id l) -> j <> id /\ In (j, t) l.
Proof.
  unfold s_del. rewrite filter_In. simpl. rewrite negb_true_iff, Nat.eqb_neq. tauto.
Qed.

(** traces that neither poll [id] nor end a borrow leave its status *)
Lemma since_other id tr e : (forall w, e <> CPoll _ id w) ->
  since_poll T id (e :: tr) = option_map (cons e) (since_poll T id tr) /\ last_waker T id (e :: tr) = last_waker T id tr.
Proof.
  intro N. destruct e; simpl; auto. destruct (Nat.eqb_spec id0 id) as [->|]; auto. exfalso. eapply N. reflexivity.
Qed.
Lemma changed_other id tr e : (forall w, e <> CPoll _ id w) -> e <> CEnd _ ->
  changed_since_poll T id (e :: tr) <-> changed_since_poll T id tr.
Proof.
  intros N NE. unfold changed_since_poll. rewrite (proj1 (since_other id tr e N)).
  destruct (since_poll T id tr) as [l|]; simpl; split; intros (l' & A & B); inversion A; subst.
  - destruct B as [B|B]; [congruence|]. eauto.
  - eexists. split; [reflexivity|]. simpl. auto.
Qed.
Lemma changed_end id tr : changed_since_poll T id (CEnd _ :: tr) <-> since_poll T id tr <> None.
Proof.
  unfold changed_since_poll. simpl. destruct (since_poll T id tr) as [l|]; simpl; split.
  - congruence.
  - intros _. eexists. split; [reflexivity|]. simpl. auto.
  - intros (l' & A & _). discriminate.
  - congruence.
Qed.
Lemma stream_ok_other ver tr id s e : (forall w, e <> CPoll _ id w) -> e <> CEnd _ ->
  stream_ok ver tr id s -> stream_ok ver (e :: tr) id s.
Proof.
  intros N NE (A & B & C). split; [|split; auto].
  - rewrite A, (proj1 (since_other id tr e N)). destruct (since_poll T id tr); simpl; split; congruence.
  - rewrite changed_other; auto.
Qed.
Lemma stream_ok_end ver tr id s : 1 <= ver -> stream_ok ver tr id s -> stream_ok (ver + 1) (CEnd _ :: tr) id s.
Proof.
  intros V (A & B & C). split; [|split; [lia|]].
  - rewrite A. simpl. destruct (since_poll T id tr); simpl; split; congruence.
  - rewrite changed_end, <- A. lia.
Qed.
Lemma wk_other id tr e : (forall w, e <> CPoll _ id w) -> wk_of id (e :: tr) = wk_of id tr.
Proof. intro N. unfold wk_of. rewrite (proj2 (since_other id tr e N)). auto. Qed.

Lemma small_other tr e : (forall id w, e = CPoll _ id w -> id < created T tr) -> (forall id, e = CDrop _ id -> id < created T tr) ->
  (forall id, created T tr <= id -> since_poll T id tr = None /\ last_waker T id tr = None /\ dropped T id tr = false) ->
  forall id, created T tr <= id -> since_poll T id (e :: tr) = None /\ last_waker T id (e :: tr) = None /\ dropped T id (e :: tr) = false.
Proof.
  intros P D H id L. destruct (H id L) as (A & B & C).
  assert (N : forall w, e <> CPoll _ id w) by (intros w ->; specialize (P _ _ eq_refl); lia).
  destruct (since_other id tr e N) as [-> ->]. rewrite A, B. split; auto. split; auto.
  destruct e; simpl; auto. rewrite C. specialize (D _ eq_refl). rewrite (proj2 (Nat.eqb_neq _ _)) by lia. auto.
Qed.

(** one step *)
Lemma cexec_ok x tr w e : CInv x tr w -> allowed T e tr ->
  exists w' o, cexec T ww w e = Some (w', o) /\ CInv x (e :: tr) w' /\
    match e, o with
    | CPoll _ id wk, OReady => changed_since_poll T id tr
    | CPoll _ id wk, OPending => ~ changed_since_poll T id tr
    | CPoll _ _ _, _ => False
    | CEnd _, OWoken ws => Forall2 same_task ws (map (fun id => wk_of id tr) (live_ids T tr))
    | CEnd _, _ => False
    | _, o => o = OUnit
    end.
Proof.
  intros H AL. destruct H as [HD HG HN HV HI HA HS HM]. destruct w as [[data ar ver g] ss nx].
  simpl in *. destruct HA as (free & HA). subst g nx.
  destruct e as [|y| | |id wk|id]; simpl in AL.
  - unfold cexec, cell_borrow_mut. simpl. rewrite AL. eexists _, _. split; [reflexivity|]. split; [|auto].
    constructor; simpl; auto.
    + exists free. exact HA.
    + intros id s I. apply stream_ok_other; try discriminate. auto.
    + intros id L. destruct (HM id L) as (A & B & C). rewrite A. auto.
  - unfold cexec, cell_write. simpl. rewrite AL. eexists _, _. split; [reflexivity|]. split; [|auto].
    constructor; simpl; auto.
    + exists free. exact HA.
    + intros id s I. apply stream_ok_other; try discriminate. auto.
    + intros id L. destruct (HM id L) as (A & B & C). rewrite A. auto.
  - unfold cexec, cell_end. simpl. rewrite AL.
    destruct (iter_ok ar free _ 1 (map (fun p => (s_slot (snd p), wk_of (fst p) tr)) ss) HA) as (ws & E & F). { simpl; auto. }
    unfold SUBLIST. rewrite E. eexists _, _. split; [reflexivity|]. split.
    + constructor; simpl; auto.
      * lia.
      * exists free. exact HA.
      * intros id s I. apply stream_ok_end; auto.
      * intros id L. destruct (HM id L) as (A & B & C). rewrite A. auto.
    + rewrite map_map in F. simpl in F. rewrite <- HI, map_map. exact F.
  - unfold cexec, cell_until_change. simpl. rewrite AL.
    destruct (add_ok ar free _ 1 HA) as (a' & i & free' & E & NI & _ & HA'). { simpl. red. simpl. auto. }
    unfold SUBLIST. rewrite E. eexists _, _. split; [reflexivity|]. split; [|auto].
    destruct (HM (created T tr) ltac:(lia)) as (M1 & M2 & M3).
    constructor; simpl; auto.
    + rewrite map_app, HI. simpl. unfold live_ids. cbn [created dropped].
      rewrite seq_S, filter_app. simpl. rewrite M3. simpl. auto.
    + exists free'. simpl in HA'. rewrite map_app. simpl. unfold wk_of at 2. simpl. rewrite M2. exact HA'.
    + intros id s I. apply in_app_iff in I. destruct I as [I|[I|[]]].
      * apply stream_ok_other; try discriminate. auto.
      * inversion I; subst. assert (Z : since_poll T (created T tr) (CNew _ :: tr) = None) by (simpl; rewrite M1; auto).
        split; [|split]; simpl s_last; [rewrite Z; tauto|lia|]. split; [lia|].
        intros (l & A & _). rewrite Z in A. discriminate.
    + intros id L. destruct (HM id ltac:(lia)) as (A & B & C). rewrite A. auto.
  - destruct AL as [G L]. assert (IL : In id (map fst ss)) by (rewrite HI; apply live_in; auto).
    destruct (s_get_some ss id IL) as (s & ES). assert (IS := s_get_in _ _ _ ES).
    unfold cexec. simpl. rewrite ES. unfold stream_poll. simpl. rewrite G.
    assert (ND : NoDup (map fst ss)) by (rewrite HI; apply live_ids_nodup).
    destruct (HS _ _ IS) as (S1 & S2 & S3).
    destruct (update_ok ww ar free _ (s_slot s) wk WW HA) as (a' & EU & HA').
    { red. unfold slots. simpl. rewrite app_nil_r, map_map. simpl. apply in_map_iff. exists (id, s). auto. }
    assert (WKS : lists_set (s_slot s) wk [(1, map (fun p => (s_slot (snd p), wk_of (fst p) tr)) ss)] =
      [(1, map (fun p => (s_slot (snd p), wk_of (fst p) (CPoll _ id wk :: tr))) ss)]).
    { unfold lists_set. simpl. f_equal. f_equal. rewrite map_map. simpl.
      assert (SLN : NoDup (map (fun p => s_slot (snd p)) ss)).
      { assert (X := ai_nodup _ _ _ HA). unfold handles in X. simpl in X. rewrite app_nil_r, map_map in X. simpl in X.
        inversion X; subst. apply nd_app_r in H2. inversion H2; auto. }
      apply map_ext_in. intros [j t] I. simpl. destruct (Nat.eqb_spec (s_slot t) (s_slot s)) as [Q|Q].
      - assert (J : (j, t) = (id, s)).
        { clear - SLN I IS Q. induction ss as [|q l IH]; simpl in *; [tauto|]. inversion SLN; subst.
          destruct I as [->|I], IS as [->|IS]; auto.
          - exfalso. apply H1. simpl. rewrite Q. apply in_map_iff. exists (id, s). auto.
          - exfalso. apply H1. simpl. rewrite <- Q. apply in_map_iff. exists (j, t). auto. }
        inversion J; subst. unfold wk_of. simpl. rewrite Nat.eqb_refl. auto.
      - assert (NJ : j <> id). { intros ->. apply Q. f_equal.
          clear - ND I IS. induction ss as [|q l IH]; simpl in *; [tauto|]. inversion ND; subst.
          destruct I as [->|I], IS as [E|IS]; try (inversion E; auto; fail); auto.
          - exfalso. apply H1. simpl. apply in_map_iff. exists (id, s). auto.
          - exfalso. apply H1. subst q. simpl. apply in_map_iff. exists (id, t). auto. }
        unfold wk_of. simpl. rewrite (proj2 (Nat.eqb_neq id j)) by auto. auto. }
    rewrite WKS in HA'. clear WKS.
    assert (CHK : forall lv : nat, lv = ver ->
      CInv x (CPoll _ id wk :: tr) (mkCW T (mkC T data a' ver false) (s_put id (mkS lv (s_slot s)) ss) (created T tr))).
    { intros lv ->. constructor; simpl; auto.
      - rewrite s_put_map_fst, HI. auto.
      - exists free. replace (map (fun p => (s_slot (snd p), wk_of (fst p) (CPoll T id wk :: tr))) (s_put id (mkS ver (s_slot s)) ss))
          with (map (fun p => (s_slot (snd p), wk_of (fst p) (CPoll T id wk :: tr))) ss); [exact HA'|].
        unfold s_put. rewrite map_map. apply map_ext_in. intros [j t] I. simpl.
        destruct (Nat.eqb_spec j id) as [->|]; simpl; auto. f_equal. f_equal.
        clear - ND I IS. induction ss as [|q l IH]; simpl in *; [tauto|]. inversion ND; subst.
        destruct I as [->|I], IS as [E|IS]; try (inversion E; auto; fail); auto.
        + exfalso. apply H1. simpl. apply in_map_iff. exists (id, s). auto.
        + exfalso. apply H1. subst q. simpl. apply in_map_iff. exists (id, t). auto.
      - intros j t I. apply s_put_in in I. destruct I as [[-> ->]|[N I]].
        + unfold stream_ok, changed_since_poll. simpl. rewrite Nat.eqb_refl. split; [split; [lia|discriminate]|]. split; [lia|].
          split; [lia|]. intros (l & A & B). inversion A; subst. destruct B.
        + apply stream_ok_other; auto; congruence.
      - intros j J. refine (small_other tr (CPoll _ id wk) _ _ HM j J); intros; try discriminate. inversion H; subst. apply L. }
    destruct (Nat.eqb_spec (s_last s) 0) as [Z|Z].
    + rewrite EU. eexists _, _. split; [reflexivity|]. split; [apply CHK; auto|].
      rewrite <- S3. lia.
    + destruct (Nat.ltb_spec (s_last s) ver) as [Y|Y].
      * rewrite EU. eexists _, _. split; [reflexivity|]. split; [apply CHK; auto|]. apply S3. lia.
      * rewrite EU. eexists _, _. split; [reflexivity|]. split; [apply CHK; lia|]. rewrite <- S3. lia.
  - destruct AL as [G L]. assert (IL : In id (map fst ss)) by (rewrite HI; apply live_in; auto).
    destruct (s_get_some ss id IL) as (s & ES). assert (IS := s_get_in _ _ _ ES).
    unfold cexec. simpl. rewrite ES. unfold stream_drop. simpl. rewrite G.
    assert (ND : NoDup (map fst ss)) by (rewrite HI; apply live_ids_nodup).
    destruct (remove_ok ar free _ (s_slot s) HA) as (a' & EU & HA').
    { red. unfold slots. simpl. rewrite app_nil_r, map_map. simpl. apply in_map_iff. exists (id, s). auto. }
    rewrite EU. eexists _, _. split; [reflexivity|]. split; [|auto]. constructor; simpl; auto.
    + unfold s_del. unfold live_ids. cbn [created dropped].
      assert (X : map fst (filter (fun p : nat * stream => negb (fst p =? id)) ss) = filter (fun j => negb (j =? id)) (map fst ss)).
      { clear. induction ss as [|[j t] l IH]; simpl; auto. destruct (j =? id); simpl; rewrite IH; auto. }
      rewrite X, HI. unfold live_ids. generalize (seq 0 (created T tr)). clear.
      induction l as [|j l IH]; simpl; auto. rewrite (Nat.eqb_sym id j).
      destruct (dropped T j tr); simpl; [rewrite orb_true_r; simpl; auto|].
      rewrite orb_false_r. destruct (j =? id); simpl; rewrite IH; auto.
    + exists (s_slot s :: free). simpl in HA'.
      replace (map (fun p => (s_slot (snd p), wk_of (fst p) (CDrop T id :: tr))) (s_del id ss))
        with (filter (fun q : nat * waker => negb (fst q =? s_slot s)) (map (fun p => (s_slot (snd p), wk_of (fst p) tr)) ss)); [exact HA'|].
      assert (SLN : NoDup (map (fun p => s_slot (snd p)) ss)).
      { assert (X := ai_nodup _ _ _ HA). unfold handles in X. simpl in X. rewrite app_nil_r, map_map in X. simpl in X.
        inversion X; subst. apply nd_app_r in H2. inversion H2; auto. }
      assert (SAME : forall j t, In (j, t) ss -> (s_slot t =? s_slot s) = (j =? id)).
      { intros j t I. destruct (Nat.eqb_spec (s_slot t) (s_slot s)) as [Q|Q].
        - assert (J : (j, t) = (id, s)).
          { clear - SLN I IS Q. induction ss as [|q l IH]; simpl in *; [tauto|]. inversion SLN; subst.
            destruct I as [->|I], IS as [->|IS]; auto.
            - exfalso. apply H1. simpl. rewrite Q. apply in_map_iff. exists (id, s). auto.
            - exfalso. apply H1. simpl. rewrite <- Q. apply in_map_iff. exists (j, t). auto. }
          inversion J; subst. rewrite Nat.eqb_refl. auto.
        - symmetry. apply Nat.eqb_neq. intros ->. apply Q. f_equal.
          clear - ND I IS. induction ss as [|q l IH]; simpl in *; [tauto|]. inversion ND; subst.
          destruct I as [->|I], IS as [E|IS]; try (inversion E; auto; fail); auto.
          + exfalso. apply H1. simpl. apply in_map_iff. exists (id, s). auto.
          + exfalso. apply H1. subst q. simpl. apply in_map_iff. exists (id, t). auto. }
      clear - SAME. unfold s_del.
      induction ss as [|[j t] l IH]; simpl; auto. rewrite (SAME j t) by (simpl; auto).
      assert (IHx := IH ltac:(intros; apply SAME; simpl; auto)).
      destruct (j =? id); simpl; [auto|]. rewrite IHx. unfold wk_of. auto.
    + intros j t I. apply s_del_in in I. destruct I as [N I]. apply stream_ok_other; try discriminate. auto.
    + intros j J. refine (small_other tr (CDrop _ id) _ _ HM j J); intros; try discriminate. inversion H; subst. apply L.
Qed.

Lemma crun_ok x tr : allowed_trace T tr -> exists w0 w, cw_new T x = Some w0 /\ crun T ww w0 (rev tr) = Some w /\ CInv x tr w.
Proof.
  destruct (ci_init x) as (w0 & E0 & I0).
  assert (APP : forall es w e, crun T ww w (es ++ [e]) = match crun T ww w es with Some w1 => match cexec T ww w1 e with Some (w2, _) => Some w2 | None => None end | None => None end).
  { clear. induction es as [|e0 es IH]; intros w e; simpl.
    - destruct (cexec T ww w e) as [[w2 o]|]; auto.
    - destruct (cexec T ww w e0) as [[w2 o]|]; auto. }
  induction tr as [|e t IH]; intro A.
  - exists w0, w0. auto.
  - destruct A as [A1 A2]. destruct (IH A2) as (w0' & w & E & R & I). rewrite E0 in E. inversion E; subst w0'.
    destruct (cexec_ok x t w e I A1) as (w' & o & EX & I' & _).
    exists w0, w'. split; auto. split; auto. simpl. rewrite APP, R, EX. auto.
Qed.
End Proofs.
