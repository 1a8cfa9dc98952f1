(** Proofs for C67: a view made with [ReactiveCell::for_each]. *)
From Coq Require Import List Arith Bool Lia Cantor.
From Verif Require Import Util Arena Spec_arena Cell Spec_cell Cell_proofs Foreach_proofs Combinator Tree Page Props_cell Spec_view.
Import ListNotations.

Section Cells.
Variable T : Type.
Variable ww : waker -> waker -> bool.
Hypothesis WW : will_wake_ok ww.
Variable fuel : nat.
Hypothesis FU : 1 <= fuel.
Variable v0 : T.
Variables (j t : nat) (p : place).
Notation fworld := (fworld T). Notation fw_tr := (fw_tr T). Notation fw_fes := (fw_fes T).
Notation fhist := (fhist T ww fuel v0).

Definition JC (w : fworld) : Prop := exists ftr, fhist ftr w /\ forall wk, flast_waker T j ftr = Some wk -> w_task wk = Some (block_task t p).
Definition freshC (w : fworld) : Prop := j < fw_next T w /\
  forall f, In (j, f) (fw_fes w) -> exists v r, fe_calls T f = v :: r /\ (guarded T (fw_tr w) = true \/ v = c_data T (cw_cell T (fw_w T w))).

Lemma data_value ftr w : FInv T v0 ftr w -> c_data T (cw_cell T (fw_w T w)) = value_after T v0 (fw_tr w).
Proof. intro I. apply (ci_data _ _ _ _ (fi_c _ _ _ _ I)). Qed.
Lemma fe_poll_guard w f wk : forall w' f' tr', fe_poll T ww fuel w f wk = Some (w', f', tr') -> forall tr, guarded T (tr' ++ tr) = guarded T tr /\ value_after T v0 (tr' ++ tr) = value_after T v0 tr.
Proof.
  assert (K : forall fu w calls tr0 w' f' tr', fe_loop T ww fu w calls wk tr0 = Some (w', f', tr') ->
    exists m, tr' = m ++ tr0 /\ forall tr, guarded T (m ++ tr) = guarded T tr /\ value_after T v0 (m ++ tr) = value_after T v0 tr).
  { clear. induction fu as [|fu IH]; intros w calls tr0 w' f' tr'; cbn [fe_loop]; [discriminate|].
    destruct (cell_read T (cw_cell T w)); [|discriminate]. destruct (cexec T ww w (CNew T)) as [[w1 o1]|]; [|discriminate].
    destruct (cexec T ww w1 _) as [[w2 r]|]; [|discriminate].
    destruct r; try (intros [= <- <- <-]; exists [CPoll T (cw_next T w) wk; CNew T]; split; [reflexivity|]; intro; split; reflexivity).
    destruct (cexec T ww w2 _) as [[w3 o3]|]; [|discriminate]. intro E. apply IH in E as (m & -> & H).
    exists (m ++ [CDrop T (cw_next T w); CPoll T (cw_next T w) wk; CNew T]). split; [rewrite <- app_assoc; reflexivity|].
    intro tr. rewrite <- app_assoc. destruct (H ([CDrop T (cw_next T w); CPoll T (cw_next T w) wk; CNew T] ++ tr)) as [H1 H2]. rewrite H1, H2. split; reflexivity. }
  intros w' f' tr'. unfold fe_poll. destruct (fe_stream T f) as [id|].
  - destruct (cexec T ww w _) as [[w1 r]|]; [|discriminate].
    destruct r; try (intros [= <- <- <-] tr; split; reflexivity).
    destruct (cexec T ww w1 _) as [[w2 o2]|]; [|discriminate]. intros E tr. apply K in E as (m & -> & H). rewrite <- app_assoc.
    destruct (H ([CDrop T id; CPoll T id wk] ++ tr)) as [H1 H2]. rewrite H1, H2. split; reflexivity.
  - intros E tr. apply K in E as (m & -> & H). rewrite app_nil_r. apply H.
Qed.
Lemma fe_drop_guard w f : forall w' tr', fe_drop T ww w f = Some (w', tr') -> forall tr, guarded T (tr' ++ tr) = guarded T tr /\ value_after T v0 (tr' ++ tr) = value_after T v0 tr.
Proof.
  intros w' tr'. unfold fe_drop. destruct (fe_stream T f) as [id|]; [|intros [= <- <-] tr; split; reflexivity].
  destruct (cexec T ww w _) as [[w1 o]|]; [|discriminate]. intros [= <- <-] tr. split; reflexivity.
Qed.

(** one step *)
Lemma step_J w e w' o : JC w -> (forall wk, e = FPoll T j wk -> w_task wk = Some (block_task t p)) -> fallowed T w e -> fexec T ww fuel w e = Some (w', o) -> JC w'.
Proof.
  intros (ftr & H & L) K AL E. exists (e :: ftr). split; [econstructor; eauto|]. intros wk. cbn. destruct e as [e| |i wk'|i]; auto.
  destruct (Nat.eqb_spec i j) as [->|]; auto. intros [= ->]. apply K. reflexivity.
Qed.
Lemma step_fresh w e w' o l : JC w -> freshC w -> (forall wk, e <> FPoll T j wk) -> fallowed T w e -> fexec T ww fuel w e = Some (w', o) -> does_wakes o l ->
  freshC w' \/ In (GWake t p) l.
Proof.
  intros (ftr & H & L) (LT & F) NE AL E DW. pose proof (fhist_inv T ww WW fuel FU v0 ftr w H) as I.
  assert (H' : fhist (e :: ftr) w') by (econstructor; eauto). pose proof (fhist_inv T ww WW fuel FU v0 _ w' H') as I'.
  pose proof (data_value _ _ I) as D. pose proof (data_value _ _ I') as D'. unfold freshC. rewrite D'. setoid_rewrite D in F.
  destruct e as [e| |i wk|i].
  - destruct e as [|y| | |id wk|id].
    + left. cbn in E. destruct (cell_borrow_mut T _); [|discriminate]. injection E as <- <-. cbn in *. split; auto.
      intros f IN. destruct (F f IN) as (v & r & C & _). exists v, r. auto.
    + left. cbn in E. destruct (cell_write T _ y); [|discriminate]. injection E as <- <-. cbn in *. split; auto.
      intros f IN. destruct (F f IN) as (v & r & C & _). exists v, r. split; auto. left. apply AL.
    + destruct (f_get T j (fw_fes w)) as [f|] eqn:EG.
      * right. apply f_get_in in EG. destruct (C11_woken T ww fuel v0 ftr w j f WW FU H AL EG) as (w2 & ws & E2 & WK). rewrite E in E2. injection E2 as <- ->.
        destruct (F f EG) as (v & r & C & _). pose proof (fi_fes _ _ _ _ I j f EG) as FO. unfold fe_ok in FO.
        destruct (fe_stream T f) as [id|]; [|destruct FO as (FO & _); rewrite FO in C; discriminate].
        destruct FO as (_ & _ & FP & _). destruct (flast_waker T j ftr) as [wk|] eqn:FL.
        -- specialize (WK wk eq_refl). rewrite (L wk eq_refl) in WK. unfold tasks in WK. apply in_map_iff in WK as (wk' & E1 & IN).
           exact (DW wk' t p IN E1).
        -- exfalso. clear - FP FL. induction ftr as [|e ftr IH]; cbn in *; auto. destruct e; auto. destruct (Nat.eqb_spec j0 j); [discriminate|]. destruct FP; auto.
      * left. cbn in E. destruct (cell_end T _) as [[c ws]|]; [|discriminate]. injection E as <- <-. cbn in *. split; auto.
        intros f IN. exfalso. destruct (f_get_some T (fw_fes w) j) as (g & EG'); [|congruence]. apply in_map_iff. exists (j, f). auto.
    + left. cbn in E. destruct (cell_until_change T _) as [[c s]|]; [|discriminate]. injection E as <- <-. cbn in *. split; auto.
    + left. cbn in E. destruct (s_get id _); [|discriminate]. destruct (stream_poll T ww _ _ wk) as [[[c s'] r']|]; [|discriminate].
      injection E as <- <-. cbn in *. split; auto.
    + left. cbn in E. destruct (s_get id _); [|discriminate]. destruct (stream_drop T _ _); [|discriminate].
      injection E as <- <-. cbn in *. split; auto.
  - left. cbn in E. injection E as <- <-. cbn in *. split; [lia|]. intros f IN. apply in_app_iff in IN as [IN|[IN|[]]]; auto. injection IN as IN _. lia.
  - left. cbn in E. destruct (f_get T i (fw_fes w)) as [g|]; [|discriminate]. destruct (fe_poll T ww fuel (fw_w T w) g wk) as [[[w1 g'] m]|] eqn:EP; [|discriminate].
    injection E as <- <-. cbn in *. split; auto. intros f IN. destruct (fe_poll_guard _ _ _ _ _ _ EP (fw_tr w)) as [G1 G2]. rewrite G1, G2.
    apply f_put_in in IN as [[-> _]|[_ IN]]; auto. destruct (NE wk); auto.
  - left. cbn in E. destruct (f_get T i (fw_fes w)) as [g|]; [|discriminate]. destruct (fe_drop T ww (fw_w T w) g) as [[w1 m]|] eqn:EP; [|discriminate].
    injection E as <- <-. cbn in *. split; auto. intros f IN. destruct (fe_drop_guard _ _ _ _ EP (fw_tr w)) as [G1 G2]. rewrite G1, G2.
    apply f_del_in in IN as [_ IN]. auto.
Qed.
Lemma uses_J (ok : fev T -> Prop) w l w' : (forall e wk, ok e -> e = FPoll T j wk -> w_task wk = Some (block_task t p)) -> uses ww fuel ok w l w' -> JC w -> JC w'.
Proof. intros K U. induction U as [|w l e w1 o w' O AL E DW U IH]; auto. intro Jw. apply IH. eapply step_J; eauto. Qed.
Lemma uses_fresh w l w' : uses ww fuel (fun e => forall wk, e <> FPoll T j wk) w l w' -> JC w -> freshC w -> freshC w' \/ In (GWake t p) l.
Proof.
  intro U. induction U as [|w l e w1 o w' O AL E DW U IH]; auto. intros Jw F.
  assert (J1 : JC w1) by (eapply step_J; eauto; intros wk Q; destruct (O wk Q)).
  destruct (step_fresh w e w1 o l Jw F O AL E DW) as [F1|W1]; auto.
Qed.
Lemma poll_fresh w wk w' o : JC w -> fallowed T w (FPoll T j wk) -> fexec T ww fuel w (FPoll T j wk) = Some (w', o) -> freshC w'.
Proof.
  intros (ftr & H & L) AL E. pose proof (fhist_inv T ww WW fuel FU v0 ftr w H) as I.
  assert (H' : fhist (FPoll T j wk :: ftr) w') by (econstructor; eauto). pose proof (fhist_inv T ww WW fuel FU v0 _ w' H') as I'. split.
  - destruct AL as [_ IN]. replace (fw_next T w') with (fw_next T w).
    + destruct (Nat.lt_ge_cases j (fw_next T w)) as [Q|Q]; auto. destruct (fi_small _ _ _ _ I j Q) as [Q' _]. contradiction.
    + cbn in E. destruct (f_get T j (fw_fes w)) as [g|]; [|discriminate]. destruct (fe_poll T ww fuel (fw_w T w) g wk) as [[[w1 g'] m]|]; [|discriminate]. injection E as <- <-. reflexivity.
  - intros f IN. destruct (C11_up_to_date T ww fuel v0 ftr w j wk w' o f WW FU H AL E IN) as (r & C). exists (fvalue T v0 ftr), r. split; auto. right.
    rewrite (data_value _ _ I'), (fi_value _ _ _ _ I'). reflexivity.
Qed.
End Cells.

Lemma for_each_view_of {T V X} ww fuel (v0 : T) (cw : X -> fworld T) on j t p (code : nat -> X -> place -> option V -> X * list gact * next V) on_drop evs :
  will_wake_ok ww -> 1 <= fuel -> for_each_view ww fuel v0 cw on j t p code on_drop evs ->
  view_of (fun x => JC T ww fuel v0 j t p (cw x)) (fun x => on x = true -> freshC T j (cw x)) t p code on_drop evs.
Proof.
  intros WW FU (A & B & C & D). assert (US : forall x, JC T ww fuel v0 j t p (cw x) -> exists ftr, fhist T ww fuel v0 ftr (cw x)) by (intros x (ftr & H & _); eauto).
  assert (O : forall w l w', uses ww fuel (fun e => forall wk, e <> FPoll T j wk) w l w' -> JC T ww fuel v0 j t p w ->
    JC T ww fuel v0 j t p w' /\ (freshC T j w -> freshC T j w' \/ In (GWake t p) l)).
  { intros w l w' U Jw. split; [eapply uses_J; eauto; intros e wk N E; destruct (N wk E)|]. eapply uses_fresh; eauto. }
  assert (O' : forall x l x', uses ww fuel (fun e => forall wk, e <> FPoll T j wk) (cw x) l (cw x') /\ (on x' = true -> on x = true) -> JC T ww fuel v0 j t p (cw x) ->
    JC T ww fuel v0 j t p (cw x') /\ ((on x = true -> freshC T j (cw x)) -> (on x' = true -> freshC T j (cw x')) \/ In (GWake t p) l)).
  { intros x l x' (U & ON) Jx. destruct (O _ _ _ U Jx) as (J' & F). split; auto. intro G. destruct (on x') eqn:E; [|left; discriminate].
    destruct (F (G (ON eq_refl))); auto. }
  split; [|split; [|split]].
  - intros x got x' l nx Jx E. destruct (A x got x' l nx (US x Jx) E) as [->|(U & P)]; auto.
    right. split; [eapply uses_J; eauto; cbn; eauto|]. intros NX. destruct (on x') eqn:ON; [|left; discriminate].
    destruct (P NX eq_refl) as (w & wk & o & w' & WT & U1 & AL & E' & U2).
    assert (Jw : JC T ww fuel v0 j t p w) by (eapply uses_J; eauto; cbn; eauto).
    assert (Jw' : JC T ww fuel v0 j t p w') by (eapply step_J; eauto; intros wk' [= <-]; auto).
    destruct (O _ _ _ U2 Jw') as (_ & F). destruct F; auto. eapply (poll_fresh T ww WW fuel FU v0 j t p w wk); eauto.
  - intros u x q got x' l nx N Jx E. destruct (B u x q got x' l nx N (US x Jx) E) as [->|U]; auto.
  - intros u x x' l Jx E. apply O'; eauto.
  - intros f x x' l IN Jx E. apply O'; eauto.
Qed.
