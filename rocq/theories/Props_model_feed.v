(** Property C84: a ModeledList that is updated from a ReactiveCell with a ListModel, as in
    [cell.for_each(|model| list.update(model)).await], shows the model in the cell when the page is at
    rest. *)
From Coq Require Import List Arith Bool Lia Permutation.
From Verif Require Import Util Arena Spec_arena Readiness Combinator Tree Spec_tree Tree_proofs Props_tree Executor Spec_executor
  Queue Spec_queue App Page Page_proofs Props_page Cell Spec_cell Cell_proofs Foreach_proofs Spec_view View_proofs View_cell_proofs Props_view
  Spec_list DynList Calls Modeled Spec_modeled Modeled_proofs Spec_model_feed.
Import ListNotations.

Lemma visits_map {T U} (g : T -> U) c h : visits c h -> visits (map g c) (map g h).
Proof. induction 1; cbn [map] in *; constructor; auto. Qed.

(** ** the values that for_each passes on *)
Section Values.
Variables (T : Type) (ww : waker -> waker -> bool) (fuel : nat).
Definition silent (e : cev T) : Prop := match e with CWrite _ _ => False | _ => True end.
Lemma had_silent x tr tr0 : Forall silent tr -> had x (tr ++ tr0) = had x tr0.
Proof. induction 1 as [|e tr S _ IH]; cbn; auto. destruct e; try contradiction; exact IH. Qed.
Lemma cexec_data w e w' o : cexec T ww w e = Some (w', o) -> silent e -> c_data T (cw_cell T w') = c_data T (cw_cell T w).
Proof.
  intros E S. destruct e; try contradiction; cbn in E; unfold cell_borrow_mut, cell_end, cell_until_change, stream_poll, stream_drop in E;
    repeat (match goal with H : context [match ?x with _ => _ end] |- _ => destruct x eqn:?; try discriminate end; cbn in *);
    repeat match goal with H : Some _ = Some _ |- _ => injection H; clear H; intros; subst end; try reflexivity; try discriminate.
Qed.
Lemma fe_loop_values fu : forall w calls wk tr w' f tr' x h, fe_loop T ww fu w calls wk tr = Some (w', f, tr') ->
  h = x :: tl h -> c_data T (cw_cell T w) = x -> visits calls h -> Forall silent tr ->
  c_data T (cw_cell T w') = x /\ visits (fe_calls T f) h /\ Forall silent tr'.
Proof.
  induction fu as [|fu IH]; intros w calls wk tr w' f tr' x h E HH D V S; [discriminate|]. cbn [fe_loop] in E.
  unfold cell_read in E. destruct (c_guard T (cw_cell T w)); [discriminate|].
  destruct (cexec T ww w (CNew T)) as [[w1 o1]|] eqn:E1; [|discriminate].
  destruct (cexec T ww w1 (CPoll T (cw_next T w) wk)) as [[w2 o2]|] eqn:E2; [|discriminate].
  pose proof (cexec_data _ _ _ _ E1 I) as D1. pose proof (cexec_data _ _ _ _ E2 I) as D2.
  assert (V' : visits (c_data T (cw_cell T w) :: calls) h) by (rewrite HH in *; rewrite D; constructor; exact V).
  assert (K : c_data T (cw_cell T w2) = x) by congruence.
  destruct o2; try (injection E as <- <- <-; split; [exact K|]; split; [exact V'|repeat constructor; exact S]).
  destruct (cexec T ww w2 (CDrop T (cw_next T w))) as [[w3 o3]|] eqn:E3; [|discriminate].
  pose proof (cexec_data _ _ _ _ E3 I) as D3. eapply IH; [exact E|exact HH|congruence|exact V'|repeat constructor; exact S].
Qed.
Lemma fe_poll_values w f wk w' f' tr' x h : fe_poll T ww fuel w f wk = Some (w', f', tr') ->
  h = x :: tl h -> c_data T (cw_cell T w) = x -> visits (fe_calls T f) h ->
  c_data T (cw_cell T w') = x /\ visits (fe_calls T f') h /\ Forall silent tr'.
Proof.
  intros E HH D V. unfold fe_poll in E. destruct (fe_stream T f) as [id|]; [|eapply fe_loop_values; eauto].
  destruct (cexec T ww w (CPoll T id wk)) as [[w1 o1]|] eqn:E1; [|discriminate]. pose proof (cexec_data _ _ _ _ E1 I) as D1.
  destruct o1; try (injection E as <- <- <-; split; [congruence|]; split; [exact V|repeat constructor]).
  destruct (cexec T ww w1 (CDrop T id)) as [[w2 o2]|] eqn:E2; [|discriminate]. pose proof (cexec_data _ _ _ _ E2 I) as D2.
  eapply fe_loop_values; [exact E|exact HH|congruence|exact V|repeat constructor].
Qed.
Lemma had_cons x tr : had (T := T) x tr = hd x (had x tr) :: tl (had x tr).
Proof. induction tr as [|e tr IH]; [reflexivity|]. destruct e; cbn; auto. Qed.
Lemma cexec_had w e w' o x tr : cexec T ww w e = Some (w', o) -> c_data T (cw_cell T w) = hd x (had x tr) -> c_data T (cw_cell T w') = hd x (had x (e :: tr)).
Proof.
  intros E D. destruct e; try (rewrite (cexec_data _ _ _ _ E I); exact D). cbn in E. unfold cell_write in E. destruct (c_guard T (cw_cell T w)); [|discriminate]. injection E as <- <-. reflexivity.
Qed.
Lemma visits_write c x tr e : visits c (had x tr) -> visits c (had (T := T) x (e :: tr)).
Proof. intro V. destruct e; try exact V. cbn. constructor. exact V. Qed.
Lemma values x ftr w : fhist T ww fuel x ftr w ->
  c_data T (cw_cell T (fw_w T w)) = hd x (had x (fw_tr T w)) /\ forall j f, In (j, f) (fw_fes T w) -> visits (fe_calls T f) (had x (fw_tr T w)).
Proof.
  induction 1 as [w0 E|ftr w e w' o H IH A E].
  - cbn. unfold cw_new in E. destruct (cell_new T x) as [c|] eqn:C; [|discriminate]. injection E as <-. cbn. unfold cell_new in C. destruct (ar_add_sublist ar_new) as [[a s]|]; [|discriminate]. injection C as <-. split; [reflexivity|]. intros j f [].
  - destruct IH as (D & V). destruct e as [e| |j wk|j]; cbn [fexec] in E.
    + destruct (cexec T ww (fw_w T w) e) as [[w1 o1]|] eqn:E1; [|discriminate]. injection E as <- <-. cbn [fw_w fw_tr fw_fes]. split; [eapply cexec_had; eauto|]. intros j f IN. apply visits_write, (V j f IN).
    + injection E as <- <-. cbn [fw_w fw_tr fw_fes]. split; [exact D|]. intros j f IN. apply in_app_iff in IN as [IN|[IN|[]]]; [eauto|]. injection IN as <- <-. constructor.
    + destruct (f_get T j (fw_fes T w)) as [f|] eqn:G; [|discriminate]. destruct (fe_poll T ww fuel (fw_w T w) f wk) as [[[w1 f1] tr1]|] eqn:P; [|discriminate]. injection E as <- <-. cbn [fw_w fw_tr fw_fes].
      destruct (fe_poll_values _ _ _ _ _ _ _ _ P (had_cons x (fw_tr T w)) D (V j f (f_get_in _ _ _ _ G))) as (D1 & V1 & S). rewrite had_silent by exact S. split; [exact D1|].
      intros i t IN. apply f_put_in in IN as [(-> & ->)|(_ & IN)]; eauto.
    + destruct (f_get T j (fw_fes T w)) as [f|] eqn:G; [|discriminate]. destruct (fe_drop T ww (fw_w T w) f) as [[w1 tr1]|] eqn:P; [|discriminate]. injection E as <- <-. cbn [fw_w fw_tr fw_fes].
      assert (S : Forall silent tr1 /\ c_data T (cw_cell T w1) = c_data T (cw_cell T (fw_w T w))).
      { unfold fe_drop in P. destruct (fe_stream T f) as [id|]; [|injection P as <- <-; auto]. destruct (cexec T ww (fw_w T w) (CDrop T id)) as [[w2 o2]|] eqn:E1; [|discriminate]. injection P as <- <-. split; [repeat constructor|]. eapply cexec_data; eauto. exact I. }
      destruct S as (S & D1). rewrite had_silent by exact S. split; [congruence|]. intros i t IN. apply f_del_in in IN as (_ & IN). eauto.
Qed.
End Values.

(** ** the list *)
Lemma updates_app ms m : forall s s1, updates s ms = Some s1 -> updates s (ms ++ [m]) = ml_update s1 m.
Proof. induction ms as [|m0 ms IH]; intros s s1 E; cbn in *; [injection E as <-; destruct (ml_update s m); reflexivity|]. destruct (ml_update s m0); [apply IH; exact E|discriminate]. Qed.
Definition shows (h : list lmodel) (s : mlist) : Prop :=
  NoDup (ml_keys s) /\ (forall u, ml_uid s = Some u -> In u (map lm_id h)) /\
  match h with
  | [] => False
  | m :: _ => NoDup (lm_vec m) /\ exists vs, log_ok f_calls m vs /\
      (ml_uid s = Some (lm_id m) -> ml_ver s <= lm_ver m /\ nth_error vs (lm_ver m - ml_ver s) = Some (ml_keys s))
  end.
Lemma shows_step h : models h -> forall s,
  (forall m h', h = m :: h' -> h' <> [] -> shows h' s) -> (tl h = [] -> s = ml_new) -> shows h s.
Proof.
  intros M s IH N. destruct M as [v id ND|m h M|m h o m' M E ND AD|v id h M ND F].
  - rewrite (N eq_refl). split; [constructor|]. split; [discriminate|]. split; [exact ND|]. exists [v]. split; [apply log_ok_new, f_calls_nil|discriminate].
  - destruct (IH m (m :: h) eq_refl ltac:(discriminate)) as (K & U & R). split; [exact K|]. split; [intros u Hu; right; exact (U u Hu)|exact R].
  - destruct (IH m' (m :: h) eq_refl ltac:(discriminate)) as (K & U & ND0 & vs & LO & R). split; [exact K|]. split; [intros u Hu; right; exact (U u Hu)|]. split; [exact ND|].
    destruct (mexec_kind m o m' E ND0 ND) as (IDE & [->|[(c & T & V & A & D)|(T & V)]]); [exists vs; auto| |].
    + exists (lm_vec m' :: vs). split.
      * eapply log_ok_step; eauto using f_calls_nil, f_calls_app. unfold f_calls. simpl. rewrite D by auto. auto.
      * rewrite IDE. intro X. destruct (R X) as [U1 U2]. split; [lia|]. rewrite V, Nat.sub_succ_l by auto. auto.
    + exists (lm_vec m' :: vs). split; [eapply log_ok_clear; eauto using f_calls_nil|]. rewrite IDE. intro X. destruct (R X) as [U1 U2]. split; [lia|]. rewrite V, Nat.sub_succ_l by auto. auto.
  - assert (NE : h <> []) by (intros ->; inversion M). destruct (IH _ h eq_refl NE) as (K & U & _). split; [exact K|]. split; [intros u Hu; right; exact (U u Hu)|]. split; [exact ND|].
    exists [v]. split; [apply log_ok_new, f_calls_nil|]. cbn [lm_id lm_from]. intro X. destruct (F (U id X)).
Qed.
Lemma models_tl m h : models (m :: h) -> h <> [] -> models h.
Proof. intros M N. inversion M; subst; auto. congruence. Qed.
Lemma shows_new h : models h -> shows h ml_new.
Proof.
  induction h as [|m h IH]; intro M; [inversion M|]. apply shows_step; [exact M| |reflexivity]. intros m0 h' E NE. injection E as <- <-. apply IH. eapply models_tl; eauto.
Qed.
Lemma feed c h : visits c h -> models h -> exists s, updates ml_new (rev c) = Some s /\ shows h s /\ (c = [] -> s = ml_new) /\
  match c with v :: _ => ml_keys s = lm_vec v | [] => True end.
Proof.
  induction 1 as [h|v c h V IH|v c h V IH]; intro M.
  - exists ml_new. split; [reflexivity|]. split; [apply shows_new, M|]. auto.
  - destruct (IH M) as (s & E & (K & U & ND & vs & LO & R) & _). pose proof (ml_update_ok s v vs LO K ND R) as UP. cbn [rev].
    exists (mkML (lm_vec v) (lm_ver v) (Some (lm_id v))). split; [rewrite (updates_app _ _ _ _ E); exact UP|]. split; [|split; [discriminate|reflexivity]].
    split; [exact ND|]. split; [intros u Hu; injection Hu as <-; left; reflexivity|]. split; [exact ND|]. exists vs. split; [exact LO|]. intros _. cbn. split; [lia|]. rewrite Nat.sub_diag. destruct LO as (_ & _ & (t & ->) & _). reflexivity.
  - destruct h as [|m h].
    + inversion V; subst. exists ml_new. split; [reflexivity|]. split; [apply shows_new, M|]. auto.
    + destruct (IH (models_tl _ _ M ltac:(discriminate))) as (s & E & S & N & L). exists s. split; [exact E|]. split; [|auto]. apply shows_step; [exact M| |discriminate]. intros m0 h' Q _. injection Q as <- <-. exact S.
Qed.

(** C84: whatever is done to a cell and its for_each futures, in any order, the function given to
    for_each is called with values that the cell has had, in the order in which it had them. *)
Theorem C84_values_in_order :
  forall T ww fuel (v0 : T) ftr w j f, fhist T ww fuel v0 ftr w -> In (j, f) (fw_fes T w) ->
  visits (fe_calls T f) (had v0 (fw_tr T w)).
Proof. intros T ww fuel v0 ftr w j f H IN. apply (values T ww fuel v0 ftr w H) with (j := j). exact IN. Qed.
Print Assumptions C84_values_in_order.

(** C84: the cell holds a ListModel, perhaps with other data.  At rest, whatever has been done to the
    cell, no update has panicked and the list shows the items of the model in the cell, in their order. *)
Theorem C84_model_shown :
  forall T V X ww debug bound code on_drop x evs s ww' fuel (v0 : T) (cw : X -> fworld T) on ftr j t p f (model : T -> lmodel),
  will_wake_ok ww -> will_wake_ok ww' -> 1 <= fuel -> page_code_ok code ->
  for_each_view ww' fuel v0 cw on j t p code on_drop evs ->
  fhist T ww' fuel v0 ftr (cw x) -> ~ fpolled T j ftr ->
  prun V X ww debug bound code on_drop x evs = Live s -> at_rest ww debug bound code on_drop x evs s ->
  Spec_queue.alive t (q_tr _ (xs _ s)) = true -> Spec_tree.live (app_tr s t) p -> at_leaf p (app_tr s t) = true ->
  on (pg_x V X (q_x _ (xs _ s))) = true ->
  let w := cw (pg_x V X (q_x _ (xs _ s))) in
  guarded T (fw_tr T w) = false -> In (j, f) (fw_fes T w) ->
  models (map model (had v0 (fw_tr T w))) ->
  exists l, updates ml_new (map model (rev (fe_calls T f))) = Some l /\
    ml_keys l = lm_vec (model (c_data T (cw_cell T (fw_w T w)))).
Proof.
  intros T V X ww debug bound code on_drop x evs s ww' fuel v0 cw on ftr j t p f model WW WW' FU CO FV H NP R AR A L AL ON w G IN M.
  destruct (C67_for_each T V X ww debug bound code on_drop x evs s ww' fuel v0 cw on ftr j t p f WW WW' FU CO FV H NP R AR A L AL ON G IN) as (rest & C). fold w in C.
  assert (J : JC T ww' fuel v0 j t p w).
  { eapply (view_inv V X ww debug bound code on_drop evs _ _ t p WW CO (for_each_view_of ww' fuel v0 cw on j t p code on_drop evs WW' FU FV) x s); [|left; exact R].
    exists ftr. split; auto. intros wk E. exfalso. apply NP. clear - E. induction ftr as [|e ftr IH]; cbn in *; [discriminate|].
    destruct e; auto. destruct (Nat.eqb_spec j0 j); auto. }
  destruct J as (ftr' & H' & _).
  destruct (feed _ _ (visits_map model _ _ (C84_values_in_order T ww' fuel v0 ftr' w j f H' IN)) M) as (l & E & _ & _ & K).
  exists l. rewrite map_rev. split; [exact E|]. rewrite C in K. exact K.
Qed.
Print Assumptions C84_model_shown.

(** Non-vacuity: the page of Props_view.v, whose cell has had 1, 5 and 6, each of which stands for a model:
    the first has the items 1 2 3 4; then 7 is inserted at index 1; then it
    is replaced by a new one with the items 3 9. *)
Definition exm_5 : lmodel := match lm_insert (lm_from [1; 2; 3; 4] 0) 1 7 with Some m => m | None => lm_from [] 0 end.
Definition exm_model (n : nat) : lmodel := match n with 1 => lm_from [1; 2; 3; 4] 0 | 5 => exm_5 | _ => lm_from [3; 9] 1 end.
Example exm_shown :
  match exv_run exv_evs with
  | Live s => at_rest ex_ww true 40 exv_code exv_drop exv_x0 exv_evs s /\ Spec_queue.alive 0 (q_tr _ (xs _ s)) = true /\
      Spec_tree.live (app_tr s 0) (Kid 0 0) /\ at_leaf (Kid 0 0) (app_tr s 0) = true /\
      let w := pg_x _ _ (q_x _ (xs _ s)) in
      guarded nat (fw_tr nat w) = false /\ (exists f, In (0, f) (fw_fes nat w) /\ fe_calls nat f = [6; 5; 1]) /\
      had 1 (fw_tr nat w) = [6; 5; 1] /\ models (map exm_model (had 1 (fw_tr nat w))) /\
      option_map ml_keys (updates ml_new (map exm_model [1; 5; 6])) = Some [3; 9]
  | _ => False end.
Proof.
  pose proof exv_rest as AR. destruct exv_shown as (_ & _ & H & L).
  assert (HD : match exv_run exv_evs with Live s => had 1 (fw_tr nat (pg_x _ _ (q_x _ (xs _ s)))) | _ => [] end = [6; 5; 1]) by (vm_compute; reflexivity).
  destruct (exv_run exv_evs) as [s|s|]; try contradiction. cbn [exv_see] in H. injection H as H1 _ H3 H4 H5.
  split; [exact AR|]. split; [exact H1|]. destruct L as (L1 & L2). split; [exact L1|]. split; [exact L2|]. cbv zeta. split; [exact H3|]. split; [|split; [exact HD|split; [rewrite HD|reflexivity]]].
  - destruct (fw_fes nat _) as [|(i, f) [|? ?]]; try discriminate. cbn in H4. injection H4 as -> H4. exists f. split; [left; reflexivity|exact H4].
  - cbn [map exm_model]. apply models_new; [|repeat constructor; cbn; intuition discriminate|cbn; intuition discriminate].
    apply (models_op _ _ (OInsert 1 7)); [apply models_first; repeat constructor; cbn; intuition discriminate|reflexivity|cbn; repeat constructor; cbn; intuition discriminate|exact I].
Qed.
