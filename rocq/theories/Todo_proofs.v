(** Proofs for C86. *)
From Coq Require Import List Arith ZArith Bool Lia.
From Verif Require Import Todo Spec_todo.
Import ListNotations.

Definition key (i : item) : nat * bool := (i_id i, checked i).
(** the list that the pending event leads to *)
Definition abs (s : state) : list (nat * bool) :=
  match ev s with
  | Some EAdd => map key (items s) ++ [(next_id s, false)]
  | Some (EBox id) => map (fun i => if is_id id i then (i_id i, box i) else key i) (items s)
  | Some EToggle => map (fun i => (i_id i, toggle s)) (items s)
  | Some EClear => map key (filter (fun i => negb (checked i)) (items s))
  | Some (EDelete id) => map key (filter (fun i => negb (is_id id i)) (items s))
  | Some (EFilter _) | None => map key (items s)
  end.
Definition abs_mode (s : state) : mode := match ev s with Some (EFilter m) => m | _ => filt s end.
Definition abs_next (s : state) : nat := match ev s with Some EAdd => S (next_id s) | _ => next_id s end.
Definition boxed (e : option event) (i : item) : bool := match e with Some (EBox id) => is_id id i | _ => false end.
Definition lefts (l : list item) : Z := Z.of_nat (length (filter (fun i => negb (compl i)) l)).
Record good (m : mode) (e : option event) (i : item) : Prop := {
  g_chk : checked i = xorb (p_chk i) (compl i);
  g_box : box i = xorb (boxed e i) (compl i);
  g_hid : p_hid i = false -> hidden i = negb (should_show m (checked i));
  g_ev : e <> None -> p_chk i = false }.
Record Inv (s : state) (t : todo) : Prop := {
  v_abs : abs s = list_of t;
  v_mode : abs_mode s = shown_mode t;
  v_next : abs_next s = made t;
  v_good : Forall (good (filt s) (ev s)) (items s);
  v_ids : NoDup (map i_id (items s));
  v_lt : Forall (fun i => i_id i < next_id s) (items s);
  v_active : active s = lefts (items s);
  v_total : total s = Z.of_nat (length (items s));
  v_span : p_span s = false -> span s = active s;
  v_main : p_main s = false -> main_hidden s = Z.eqb (total s) 0;
  v_clear : p_clear s = false -> clear_hidden s = negb (Z.ltb (active s) (total s));
  v_tog : p_tog s = false -> items s <> [] -> ev s = Some EToggle \/ existsb p_chk (items s) = true \/ toggle s = Z.eqb (active s) 0;
  v_ev : ev s <> None -> p_tog s = false }.
Lemma inv_start : Inv start (mkTodo [] All 0).
Proof. constructor; cbn; auto; try constructor; try discriminate. Qed.

(** ** one item is changed *)
Definition at_id (id : nat) (f : item -> item) (l : list item) : list item := map (fun i => if is_id id i then f i else i) l.
Lemma at_ids id f l : (forall i, i_id (f i) = i_id i) -> map i_id (at_id id f l) = map i_id l.
Proof. intro H. unfold at_id. rewrite map_map. apply map_ext. intro i. destruct (is_id id i); auto. Qed.
Lemma at_len id f l : length (at_id id f l) = length l. Proof. apply map_length. Qed.
Lemma find_split id l it : NoDup (map i_id l) -> find (is_id id) l = Some it ->
  exists a b, l = a ++ it :: b /\ is_id id it = true /\ (forall i, In i (a ++ b) -> is_id id i = false).
Proof.
  induction l as [|x l IH]; intros ND F; [discriminate|]. cbn in F. inversion ND; subst. destruct (is_id id x) eqn:E.
  - injection F as <-. exists [], l. split; [reflexivity|]. split; [exact E|]. intros i IN. cbn in IN. destruct (is_id id i) eqn:E'; auto. exfalso. apply H1. unfold is_id in *. apply Nat.eqb_eq in E, E'. rewrite E, <- E'. apply in_map. exact IN.
  - destruct (IH H2 F) as (a & b & -> & A & B). exists (x :: a), b. split; [reflexivity|]. split; [exact A|]. intros i [<-|IN]; auto.
Qed.
Lemma at_split id f a it b : is_id id it = true -> (forall i, In i (a ++ b) -> is_id id i = false) -> at_id id f (a ++ it :: b) = a ++ f it :: b.
Proof.
  intros A B. unfold at_id. rewrite map_app. cbn. rewrite A. f_equal; [|f_equal].
  - rewrite <- (map_id a) at 2. apply map_ext_in. intros i IN. rewrite B; [reflexivity|apply in_or_app; auto].
  - rewrite <- (map_id b) at 2. apply map_ext_in. intros i IN. rewrite B; [reflexivity|apply in_or_app; auto].
Qed.
Lemma lefts_app a b : lefts (a ++ b) = (lefts a + lefts b)%Z.
Proof. unfold lefts. rewrite filter_app, app_length. lia. Qed.
Lemma lefts_cons i l : lefts (i :: l) = ((if compl i then 0 else 1) + lefts l)%Z.
Proof. unfold lefts. cbn. destruct (compl i); cbn [negb length]; lia. Qed.
Lemma lefts_set f a it b : compl (f it) = negb (compl it) -> lefts (a ++ f it :: b) = (lefts (a ++ it :: b) + delta (compl (f it)))%Z.
Proof. intro E. rewrite !lefts_app, !lefts_cons, E. unfold delta. destruct (compl it); cbn [negb]; lia. Qed.
Lemma lefts_checked l : (forall i, In i l -> checked i = compl i) -> lefts l = Z.of_nat (length (filter (fun i => negb (checked i)) l)).
Proof.
  intro H. unfold lefts. do 2 f_equal. induction l as [|i l IH]; [reflexivity|]. cbn. rewrite (H i (or_introl eq_refl)), IH; [reflexivity|]. intros j J. apply H. right. exact J.
Qed.
Lemma lefts_map f l : (forall i, compl (f i) = compl i) -> lefts (map f l) = lefts l.
Proof. intro H. induction l as [|i l IH]; [reflexivity|]. cbn [map]. rewrite !lefts_cons, H, IH. reflexivity. Qed.
Lemma filter_map {A B} (f : A -> B) p l : filter p (map f l) = map f (filter (fun x => p (f x)) l).
Proof. induction l as [|x l IH]; [reflexivity|]. cbn. destruct (p (f x)); cbn; rewrite IH; reflexivity. Qed.
Lemma parts (P : item -> bool) l : lefts l = (lefts (filter P l) + lefts (filter (fun i => negb (P i)) l))%Z /\
  length l = length (filter P l) + length (filter (fun i => negb (P i)) l).
Proof. induction l as [|i l [IH1 IH2]]; [split; reflexivity|]. cbn [filter]. destruct (P i); cbn [negb length]; rewrite !lefts_cons, ?IH1, ?IH2; split; lia. Qed.
Lemma nodup_filter (P : item -> bool) l : NoDup (map i_id l) -> NoDup (map i_id (filter P l)).
Proof.
  induction l as [|i l IH]; cbn; intro H; [constructor|]. inversion H; subst. destruct (P i); [|auto]. cbn. constructor; auto. intro IN. apply H2. apply in_map_iff in IN. destruct IN as (j & E & IN). apply filter_In in IN. rewrite <- E. apply in_map. tauto.
Qed.
Lemma forall_filter {A} (Q : A -> Prop) P l : Forall Q l -> Forall Q (filter P l).
Proof. rewrite !Forall_forall. intros H x IN. apply filter_In in IN. apply H. tauto. Qed.
Lemma all_filter {A} (P : A -> bool) l : filter P l = [] -> filter (fun i => negb (P i)) l = l.
Proof. induction l as [|i l IH]; [reflexivity|]. cbn. destruct (P i); [discriminate|]. cbn. intro H. rewrite IH; auto. Qed.
Lemma no_pending s t : Inv s t -> ev s <> None -> existsb p_chk (items s) = false.
Proof.
  intros I NE. destruct (existsb p_chk (items s)) eqn:E; auto. apply existsb_exists in E. destruct E as (i & IN & P). pose proof (proj1 (Forall_forall _ _) (v_good _ _ I) i IN) as G. rewrite (g_ev _ _ _ G NE) in P. discriminate.
Qed.
Lemma good_plain m e i : good m e i -> boxed e i = false -> good m None i.
Proof. intros [] B. constructor; [exact g_chk0|rewrite B in g_box0; exact g_box0|exact g_hid0|intro N; contradiction]. Qed.

Ltac done_ev := let N := fresh in intro N; exfalso; apply N; reflexivity.
(** ** the events *)
Lemma drop_ok s t (P : item -> bool) e : Inv s t -> ev s = Some e -> (forall i, boxed (ev s) i = false) -> e <> EToggle ->
  map key (filter (fun i => negb (P i)) (items s)) = list_of t -> abs_mode s = filt s -> abs_next s = next_id s ->
  Inv (drop_items s (filter P (items s)) (filter (fun i => negb (P i)) (items s))) t.
Proof.
  intros I EV BX NT AB AM AN.
  assert (GD : Forall (good (filt s) None) (items s)) by (eapply Forall_impl; [|exact (v_good _ _ I)]; intros i G; eapply good_plain; [exact G|apply BX]).
  assert (CH : forall i, In i (items s) -> checked i = compl i).
  { intros i IN. pose proof (proj1 (Forall_forall _ _) (v_good _ _ I) i IN) as G. rewrite (g_chk _ _ _ G), (g_ev _ _ _ G) by congruence. apply xorb_false_l. }
  destruct (parts P (items s)) as [P1 P2]. unfold drop_items. destruct (filter P (items s)) as [|g0 gs] eqn:GN.
  - rewrite (all_filter _ _ GN) in *. destruct I. constructor; cbn; auto; try done_ev; try congruence.
    + intros T NI. destruct (v_tog0 T NI) as [Q|[Q|Q]]; auto. congruence.
  - rewrite <- GN in *. destruct I. constructor; cbn; auto; try done_ev; try discriminate; try congruence.
    + apply forall_filter. exact GD.
    + apply nodup_filter. auto.
    + apply forall_filter. auto.
    + rewrite v_active0. rewrite <- (lefts_checked (filter P (items s))) by (intros i IN; apply filter_In in IN; apply CH; tauto). lia.
    + rewrite v_total0. lia.
Qed.

Lemma event_inv s t e : Inv s t -> ev s = Some e -> Inv (on_event s e) t.
Proof.
  intros I EV. pose proof (no_pending s t I ltac:(congruence)) as NP. pose proof (v_abs _ _ I) as AB. unfold abs in AB. rewrite EV in AB.
  pose proof (v_mode _ _ I) as MO. unfold abs_mode in MO. rewrite EV in MO. pose proof (v_next _ _ I) as NX. unfold abs_next in NX. rewrite EV in NX.
  destruct e as [|id| | |id|m]; cbn [on_event].
  - destruct I. rewrite EV in *. constructor; cbn; auto; try discriminate; try done_ev.
    + unfold abs. cbn. rewrite map_app. exact AB.
    + apply Forall_app. split; [eapply Forall_impl; [|exact v_good0]; intros i G; eapply good_plain; [exact G|reflexivity]|]. constructor; [|constructor]. constructor; cbn; congruence.
    + rewrite map_app. cbn. rewrite <- (rev_involutive (_ ++ _)). apply NoDup_rev. rewrite rev_app_distr. cbn. constructor; [|apply NoDup_rev; auto]. rewrite <- in_rev. intro IN. apply in_map_iff in IN. destruct IN as (i & E & IN). rewrite Forall_forall in v_lt0. specialize (v_lt0 i IN). lia.
    + apply Forall_app. split; [eapply Forall_impl; [|exact v_lt0]; cbn; intros; lia|constructor; [cbn; lia|constructor]].
    + rewrite lefts_app, lefts_cons. cbn. rewrite v_active0. cbn. lia.
    + rewrite app_length. cbn. rewrite v_total0. lia.
  - destruct (find (is_id id) (items s)) as [it|] eqn:F.
    + destruct (find_split id (items s) it (v_ids _ _ I) F) as (a & b & EI & A & B). fold (at_id id (fun i => mkI (i_id i) (box i) (box i) (box i) (hidden i) (p_chk i) true) (items s)).
      pose proof (v_good _ _ I) as VG. rewrite EI in VG. pose proof VG as VG'. apply Forall_app in VG'. destruct VG' as [GA GB]. apply Forall_inv in GB as GI.
      assert (CO : box it = negb (compl it)) by (rewrite (g_box _ _ _ GI), EV; cbn; rewrite A; destruct (compl it); reflexivity).
      pose proof (g_ev _ _ _ GI ltac:(congruence)) as PC.
      assert (PL : forall i, In i (a ++ b) -> good (filt s) None i).
      { intros i IN. apply (good_plain _ (ev s)); [|rewrite EV; cbn; apply B; exact IN]. rewrite Forall_forall in VG. apply VG. apply in_app_or in IN. apply in_or_app. cbn. tauto. }
      set (f := fun i => mkI (i_id i) (box i) (box i) (box i) (hidden i) (p_chk i) true).
      assert (AT : at_id id f (items s) = a ++ f it :: b) by (rewrite EI; apply at_split; auto). rewrite AT.
      destruct I. constructor; cbn; auto; try discriminate; try done_ev.
      * unfold abs. cbn. rewrite <- AB, EI, !map_app. cbn. rewrite A. f_equal; [|f_equal]; apply map_ext_in; intros i IN; rewrite B; auto; apply in_or_app; auto.
      * rewrite Forall_app. split; [apply Forall_forall; intros i IN; apply PL, in_or_app; auto|]. constructor; [|apply Forall_forall; intros i IN; apply PL, in_or_app; auto]. constructor; cbn; auto; try congruence; rewrite ?PC; auto using xorb_false_l; destruct (box it); reflexivity.
      * rewrite <- AT. rewrite at_ids by reflexivity. auto.
      * rewrite EI in v_lt0. apply Forall_app in v_lt0. destruct v_lt0 as [L1 L2]. inversion L2; subst. apply Forall_app. split; auto.
      * rewrite (lefts_set f a it b) by exact CO. rewrite v_active0, EI. reflexivity.
      * rewrite v_total0, <- AT, at_len. reflexivity.
    + assert (B : forall i, In i (items s) -> is_id id i = false) by (intros i IN; exact (find_none _ _ F i IN)).
      destruct I. constructor; cbn; auto; try done_ev.
      * unfold abs. cbn. rewrite <- AB. apply map_ext_in. intros i IN. rewrite B by exact IN. reflexivity.
      * rewrite Forall_forall in *. intros i IN. apply (good_plain _ (ev s)); [apply v_good0; exact IN|]. rewrite EV. cbn. apply B. exact IN.
      * intros T NI. destruct (v_tog0 T NI) as [Q|[Q|Q]]; auto; congruence.
  - assert (PK : forall i, In i (items s) -> p_chk i = false /\ checked i = compl i /\ box i = compl i /\ (p_hid i = false -> hidden i = negb (should_show (filt s) (checked i)))).
    { intros i IN. pose proof (proj1 (Forall_forall _ _) (v_good _ _ I) i IN) as G. pose proof (g_ev _ _ _ G ltac:(congruence)) as P. split; [exact P|]. rewrite (g_chk _ _ _ G) at 1. rewrite P, (g_box _ _ _ G), EV. cbn [boxed]. rewrite !xorb_false_l. split; [reflexivity|]. split; [reflexivity|]. exact (g_hid _ _ _ G). }
    destruct I. constructor; cbn; auto; try done_ev.
    + unfold abs. cbn. rewrite <- AB, map_map. apply map_ext. intro i. unfold set_checked. destruct (Bool.eqb_spec (checked i) (toggle s)) as [E|E]; unfold key; cbn; congruence.
    + rewrite Forall_forall. intros i IN. apply in_map_iff in IN. destruct IN as (j & <- & IN). destruct (PK j IN) as (Q1 & Q2 & Q3 & Q4). unfold set_checked. destruct (Bool.eqb_spec (checked j) (toggle s)) as [E|E]; constructor; cbn; rewrite ?Q1, ?Q3, ?xorb_false_l; auto; try congruence; try discriminate.
      all: rewrite ?Q2 in E; destruct (toggle s), (compl j); cbn; congruence.
    + rewrite map_map. erewrite map_ext; [exact v_ids0|]. intro i. unfold set_checked. destruct (Bool.eqb _ _); reflexivity.
    + rewrite Forall_forall in *. intros i IN. apply in_map_iff in IN. destruct IN as (j & <- & IN). unfold set_checked. destruct (Bool.eqb _ _); cbn; auto; exact (v_lt0 j IN).
    + rewrite lefts_map; [exact v_active0|]. intro i. unfold set_checked. destruct (Bool.eqb _ _); reflexivity.
    + rewrite map_length. exact v_total0.
    + intros T NI. right. destruct (existsb p_chk (map (set_checked (toggle s)) (items s))) eqn:E; [auto|right].
      assert (AL : forall i, In i (items s) -> compl i = toggle s).
      { intros i IN. destruct (PK i IN) as (_ & Q2 & _). rewrite <- Q2. destruct (Bool.eqb_spec (checked i) (toggle s)) as [X|X]; auto. exfalso.
        assert (Y : existsb p_chk (map (set_checked (toggle s)) (items s)) = true) by (apply existsb_exists; exists (set_checked (toggle s) i); split; [apply in_map; exact IN|unfold set_checked; destruct (Bool.eqb_spec (checked i) (toggle s)); [contradiction|reflexivity]]). congruence. }
      rewrite v_active0. assert (NI' : items s <> []) by (intro Z; apply NI; rewrite Z; reflexivity). clear -AL NI'.
      destruct (items s) as [|i l]; [contradiction|]. rewrite lefts_cons, (AL i (or_introl eq_refl)). destruct (toggle s).
      * assert (L : lefts l = 0%Z) by (assert (AL' : forall j, In j l -> compl j = true) by (intros j J; apply AL; right; exact J); clear -AL'; induction l as [|j l IH]; [reflexivity|]; rewrite lefts_cons, (AL' j (or_introl eq_refl)), IH; [reflexivity|intros; apply AL'; right; assumption]). rewrite L. reflexivity.
      * symmetry. apply Z.eqb_neq. unfold lefts. lia.
  - apply (drop_ok s t checked EClear); auto; try (intro i; rewrite EV; reflexivity); try discriminate; unfold abs_mode, abs_next; rewrite EV; auto.
  - apply (drop_ok s t (is_id id) (EDelete id)); auto; try (intro i; rewrite EV; reflexivity); try discriminate; unfold abs_mode, abs_next; rewrite EV; auto.
  - destruct I. constructor; cbn; auto; try done_ev.
    + unfold abs. cbn. rewrite <- AB, map_map. reflexivity.
    + rewrite Forall_forall in *. intros i IN. apply in_map_iff in IN. destruct IN as (j & <- & IN). destruct (v_good0 j IN). rewrite EV in *. constructor; cbn; auto; congruence.
    + rewrite map_map. exact v_ids0.
    + rewrite Forall_forall in *. intros i IN. apply in_map_iff in IN. destruct IN as (j & <- & IN). exact (v_lt0 j IN).
    + rewrite lefts_map; auto.
    + rewrite map_length. auto.
    + intros T NI. assert (NI' : items s <> []) by (intro Z; apply NI; rewrite Z; reflexivity). destruct (v_tog0 T NI') as [Q|[Q|Q]]; auto; congruence.
Qed.

(** ** the blocks *)
Lemma step_inv s t b : Inv s t -> Inv (step s b) t.
Proof.
  intro I. destruct b as [|id|id| | | |]; cbn [step].
  - destruct (ev s) as [e|] eqn:E; [apply event_inv; auto|exact I].
  - destruct (find (is_id id) (items s)) as [it|] eqn:F; [|exact I]. destruct (p_chk it) eqn:PC; [|exact I].
    destruct (find_split id (items s) it (v_ids _ _ I) F) as (a & b & EI & A & B).
    set (f := fun i => mkI (i_id i) (checked i) (checked i) (checked i) (hidden i) false (p_hid i)).
    assert (AT : at_id id f (items s) = a ++ f it :: b) by (rewrite EI; apply at_split; auto). change (map _ (items s)) with (at_id id f (items s)).
    pose proof (v_good _ _ I) as VG. rewrite EI in VG. pose proof VG as VG'. apply Forall_app in VG'. destruct VG' as [GA GB]. inversion GB as [|? ? GI GB']; subst.
    assert (EV : ev s = None) by (destruct (ev s) eqn:E; auto; rewrite (g_ev _ _ _ GI) in PC by congruence; discriminate).
    assert (CO : checked it = negb (compl it)) by (rewrite (g_chk _ _ _ GI), PC; destruct (compl it); reflexivity).
    destruct I. unfold abs, abs_mode, abs_next in *. rewrite EV in *. rewrite AT. constructor; cbn; auto; try discriminate; try done_ev.
    + unfold abs. cbn. rewrite <- v_abs0, EI, !map_app. reflexivity.
    + apply Forall_app. split; [exact GA|]. constructor; [|exact GB']. destruct GI. constructor; cbn; auto; destruct (checked it); reflexivity.
    + rewrite <- AT, at_ids by reflexivity. auto.
    + rewrite EI in v_lt0. apply Forall_app in v_lt0. destruct v_lt0 as [L1 L2]. inversion L2; subst. apply Forall_app. split; auto.
    + rewrite (lefts_set f a it b) by exact CO. rewrite v_active0, EI. reflexivity.
    + rewrite v_total0, <- AT, at_len. reflexivity.
  - set (f := fun i => if is_id id i && p_hid i then mkI (i_id i) (checked i) (box i) (compl i) (negb (should_show (filt s) (checked i))) (p_chk i) false else i).
    assert (K : forall i, i_id (f i) = i_id i /\ checked (f i) = checked i /\ box (f i) = box i /\ compl (f i) = compl i /\ p_chk (f i) = p_chk i) by (intro i; unfold f; destruct (is_id id i && p_hid i); auto).
    assert (K1 : forall i, key (f i) = key i) by (intro i; unfold key; destruct (K i) as (-> & -> & _); reflexivity).
    assert (K2 : forall j i, is_id j (f i) = is_id j i) by (intros j i; unfold is_id; destruct (K i) as (-> & _); reflexivity).
    destruct I. constructor; cbn; auto.
    + rewrite <- v_abs0. unfold abs. cbn. destruct (ev s) as [[| | | | |]|]; rewrite ?filter_map, ?map_map;
        try (erewrite map_ext; [reflexivity|exact K1]); try (f_equal; apply map_ext; exact K1).
      * apply map_ext. intro i. rewrite K2, K1. destruct (K i) as (-> & _ & -> & _). reflexivity.
      * apply map_ext. intro i. destruct (K i) as (-> & _). reflexivity.
      * erewrite map_ext; [|exact K1]. f_equal. apply filter_ext. intro i. destruct (K i) as (_ & -> & _). reflexivity.
      * erewrite map_ext; [|exact K1]. f_equal. apply filter_ext. intro i. rewrite K2. reflexivity.
    + rewrite Forall_forall in *. intros i IN. apply in_map_iff in IN. destruct IN as (j & <- & IN). destruct (v_good0 j IN). unfold f. destruct (is_id id j && p_hid j); constructor; cbn; auto.
      all: destruct (ev s) as [[| | | | |]|]; auto.
    + rewrite map_map. erewrite map_ext; [exact v_ids0|]. intro i. apply K.
    + rewrite Forall_forall in *. intros i IN. apply in_map_iff in IN. destruct IN as (j & <- & IN). destruct (K j) as (-> & _). auto.
    + rewrite lefts_map; auto. intro i. apply K.
    + rewrite map_length. auto.
    + intros T NI. assert (NI' : items s <> []) by (intro Z; apply NI; rewrite Z; reflexivity). destruct (v_tog0 T NI') as [Q|[Q|Q]]; auto. right. left.
      apply existsb_exists in Q. destruct Q as (i & IN & P). apply existsb_exists. exists (f i). split; [apply in_map; exact IN|]. destruct (K i) as (_ & _ & _ & _ & ->). exact P.
  - destruct (p_span s); [|exact I]. destruct I. constructor; cbn; auto.
  - destruct (p_tog s) eqn:T; [|exact I]. destruct I. constructor; cbn; auto. rewrite <- v_abs0. unfold abs. cbn. destruct (ev s) as [[| | | | |]|] eqn:E; auto. specialize (v_ev0 ltac:(congruence)). congruence.
  - destruct (p_main s); [|exact I]. destruct I. constructor; cbn; auto.
  - destruct (p_clear s); [|exact I]. destruct I. constructor; cbn; auto.
Qed.

(** ** the user *)
Lemma quiet_facts s : quiet s = true -> p_span s = false /\ p_tog s = false /\ p_main s = false /\ p_clear s = false /\ ev s = None /\ forall i, In i (items s) -> p_chk i = false /\ p_hid i = false.
Proof.
  unfold quiet. intro H. repeat (apply andb_true_iff in H; destruct H as [H ?]). rewrite forallb_forall in H0. destruct (p_span s), (p_tog s), (p_main s), (p_clear s), (ev s); try discriminate.
  repeat split; auto; apply H0 in H5; destruct (p_chk i), (p_hid i); auto; discriminate.
Qed.
Lemma lefts_zero l : Z.eqb (lefts l) 0 = forallb compl l.
Proof.
  induction l as [|i l IH]; [reflexivity|]. rewrite lefts_cons. cbn [forallb]. destruct (compl i); cbn [andb]; [rewrite Z.add_0_l; exact IH|]. apply Z.eqb_neq. unfold lefts. lia.
Qed.
Lemma user_inv s t e : quiet s = true -> Inv s t -> Inv (user s e) (acted t e).
Proof.
  intros Q I. destruct (quiet_facts s Q) as (Q1 & Q2 & Q3 & Q4 & Q5 & Q6).
  assert (CH : forall i, In i (items s) -> checked i = compl i /\ box i = compl i).
  { intros i IN. pose proof (proj1 (Forall_forall _ _) (v_good _ _ I) i IN) as G. rewrite (g_chk _ _ _ G), (g_box _ _ _ G), Q5. destruct (Q6 i IN) as [-> _]. cbn. destruct (compl i); auto. }
  assert (NP : existsb p_chk (items s) = false).
  { destruct (existsb p_chk (items s)) eqn:E; auto. apply existsb_exists in E. destruct E as (i & IN & P). destruct (Q6 i IN). congruence. }
  assert (GE : forall e', (forall i, boxed (Some e') i = false) -> Forall (good (filt s) (Some e')) (items s)).
  { intros e' BX. rewrite Forall_forall. intros i IN. pose proof (proj1 (Forall_forall _ _) (v_good _ _ I) i IN) as []. destruct (Q6 i IN), (CH i IN). constructor; auto. rewrite BX. destruct (compl i); auto. }
  destruct I. unfold abs, abs_mode, abs_next in *. rewrite Q5 in *.
  assert (TG : items s <> [] -> toggle s = Z.eqb (active s) 0) by (intro NI; destruct (v_tog0 Q2 NI) as [X|[X|X]]; auto; congruence).
  destruct e as [|id| | |id|m]; cbn [user acted].
  - constructor; cbn; auto. unfold abs. cbn. rewrite v_abs0, v_next0. reflexivity.
  - set (f := fun i => mkI (i_id i) (checked i) (negb (box i)) (compl i) (hidden i) (p_chk i) (p_hid i)).
    destruct (existsb (is_id id) (items s)) eqn:EX.
    + change (map _ (items s)) with (at_id id f (items s)). constructor; cbn; auto.
      * unfold abs, at_id. cbn. rewrite <- v_abs0, !map_map. apply map_ext_in. intros i IN. cbn. fold (is_id id i). destruct (is_id id i) eqn:E; cbn.
        -- unfold is_id in *. cbn. rewrite E. destruct (CH i IN) as [-> ->]. reflexivity.
        -- rewrite E. reflexivity.
      * rewrite Forall_forall in *. intros i IN. apply in_map_iff in IN. destruct IN as (j & <- & IN). destruct (v_good0 j IN), (Q6 j IN), (CH j IN). destruct (is_id id j) eqn:E; constructor; cbn; auto.
        -- unfold is_id in *. cbn. rewrite E, H2. destruct (compl j); reflexivity.
        -- rewrite E, H2. destruct (compl j); reflexivity.
      * rewrite at_ids; auto.
      * rewrite Forall_forall in *. intros i IN. apply in_map_iff in IN. destruct IN as (j & <- & IN). destruct (is_id id j); cbn; auto; apply v_lt0; auto.
      * unfold at_id. rewrite lefts_map; auto. intro i. destruct (is_id id i); reflexivity.
      * rewrite at_len. auto.
      * intros T NI. right. right. apply TG. intro Z. apply NI. rewrite Z. reflexivity.
    + constructor; unfold abs, abs_mode, abs_next; rewrite ?Q5; cbn; auto. rewrite <- v_abs0, map_map. apply map_ext_in. intros i IN. cbn. fold (is_id id i). destruct (is_id id i) eqn:E; auto. exfalso. assert (existsb (is_id id) (items s) = true) by (apply existsb_exists; eauto). congruence.
  - constructor; cbn; auto.
    + unfold abs. cbn. rewrite <- v_abs0, map_map. destruct (items s) as [|i0 l0] eqn:EI; [reflexivity|]. rewrite <- EI in *. apply map_ext_in. intros i IN. cbn. f_equal. rewrite TG by (rewrite EI; discriminate).
      rewrite v_active0, lefts_zero. clear -CH. induction (items s) as [|j l IH]; [reflexivity|]. cbn. destruct (CH j (or_introl eq_refl)) as [-> _]. destruct (compl j); cbn; [|reflexivity]. apply IH. intros k K. apply CH. right. exact K.
  - constructor; cbn; auto. unfold abs. cbn. rewrite <- v_abs0, filter_map. reflexivity.
  - constructor; cbn; auto. unfold abs. cbn. rewrite <- v_abs0, filter_map. reflexivity.
  - constructor; cbn; auto.
Qed.

Lemma runs_inv : forall l s t s', Inv s t -> runs s l = Some s' -> Inv s' (fold_left acted (events l) t).
Proof.
  induction l as [|[e|b] l IH]; intros s t s' I R; cbn in *.
  - injection R as <-. exact I.
  - destruct (quiet s) eqn:Q; [|discriminate]. eapply IH; [|exact R]. apply user_inv; auto.
  - eapply IH; [|exact R]. apply step_inv. exact I.
Qed.

(** ** the blocks come to rest *)
Definition b2n (b : bool) : nat := if b then 1 else 0.
Fixpoint pend (l : list item) : nat := match l with [] => 0 | i :: t => 10 * b2n (p_chk i) + b2n (p_hid i) + pend t end.
Definition weight (s : state) : nat :=
  match ev s with Some _ => 100 + 20 * length (items s) | None => 0 end + pend (items s) + b2n (p_span s) + b2n (p_tog s) + b2n (p_main s) + b2n (p_clear s).
Lemma b2n_le b : b2n b <= 1. Proof. destruct b; cbn; lia. Qed.
Lemma pend_app a b : pend (a ++ b) = pend a + pend b.
Proof. induction a as [|i a IH]; cbn; rewrite ?IH; lia. Qed.
Lemma pend_filter P l : pend (filter P l) <= pend l.
Proof. induction l as [|i l IH]; cbn; [lia|]. destruct (P i); cbn; lia. Qed.
Lemma pend_map f l n : (forall i, 10 * b2n (p_chk (f i)) + b2n (p_hid (f i)) <= 10 * b2n (p_chk i) + b2n (p_hid i) + n) -> pend (map f l) <= pend l + n * length l.
Proof. intro H. induction l as [|i l IH]; [cbn; lia|]. cbn [map pend length]. specialize (H i). lia. Qed.
Lemma pend_down f l it n : In it l -> (forall i, 10 * b2n (p_chk (f i)) + b2n (p_hid (f i)) <= 10 * b2n (p_chk i) + b2n (p_hid i)) ->
  10 * b2n (p_chk (f it)) + b2n (p_hid (f it)) + n <= 10 * b2n (p_chk it) + b2n (p_hid it) -> pend (map f l) + n <= pend l.
Proof.
  intros IN H E. induction l as [|i l IH]; [contradiction|]. cbn [map pend]. destruct IN as [->|IN].
  - pose proof (pend_map f l 0 ltac:(intro j; specialize (H j); lia)). lia.
  - specialize (IH IN). specialize (H i). lia.
Qed.
Lemma on_event_weight s e : ev s = Some e -> weight (on_event s e) < weight s.
Proof.
  intro E. pose proof (b2n_le (p_span s)). pose proof (b2n_le (p_tog s)). pose proof (b2n_le (p_main s)). pose proof (b2n_le (p_clear s)).
  assert (D : forall g k, pend k <= pend (items s) -> weight (drop_items s g k) < weight s).
  { intros g k H'. unfold drop_items, weight. rewrite E. destruct g; cbn [set_items set_total set_active ev items p_span p_tog p_main p_clear b2n]; lia. }
  destruct e as [|id| | |id|m]; cbn [on_event]; try (apply D; apply pend_filter).
  - unfold weight. rewrite E. cbn -[Nat.mul]. rewrite pend_app. cbn. lia.
  - destruct (find _ _); [|unfold weight; rewrite E; cbn -[Nat.mul]; lia]. unfold weight. rewrite E. cbn -[Nat.mul].
    match goal with |- context [pend (map ?f (items s))] => assert (P : pend (map f (items s)) <= pend (items s) + 1 * length (items s)) by (apply pend_map; intro j; pose proof (b2n_le (p_hid j)); destruct (is_id id j); cbn -[Nat.mul]; lia) end.
    lia.
  - unfold weight. rewrite E. cbn -[Nat.mul].
    assert (P : pend (map (set_checked (toggle s)) (items s)) <= pend (items s) + 11 * length (items s)) by (apply pend_map; intro i; unfold set_checked; destruct (Bool.eqb _ _); cbn -[Nat.mul]; lia).
    lia.
  - unfold weight. rewrite E. cbn -[Nat.mul].
    match goal with |- context [pend (map ?f (items s))] => assert (P : pend (map f (items s)) <= pend (items s) + 1 * length (items s)) by (apply pend_map; intro i; cbn -[Nat.mul]; lia) end.
    lia.
Qed.
Lemma step_weight s b : step s b = s \/ weight (step s b) < weight s.
Proof.
  pose proof (b2n_le (p_span s)). pose proof (b2n_le (p_tog s)). pose proof (b2n_le (p_main s)). pose proof (b2n_le (p_clear s)).
  destruct b as [|id|id| | | |]; cbn [step].
  - destruct (ev s) as [e|] eqn:E; [right; apply on_event_weight; exact E|left; reflexivity].
  - destruct (find (is_id id) (items s)) as [it|] eqn:F; [|left; reflexivity]. destruct (p_chk it) eqn:PC; [|left; reflexivity]. right. apply find_some in F. destruct F as [IN EI].
    unfold weight. cbn -[Nat.mul]. rewrite map_length.
    match goal with |- context [pend (map ?f (items s))] => assert (P : pend (map f (items s)) + 10 <= pend (items s)) end.
    { eapply pend_down; [exact IN| |]; [intro i; cbv beta; destruct (is_id id i); cbn -[Nat.mul]; lia|]. cbv beta. rewrite EI, PC. cbn -[Nat.mul]. cbn. lia. }
    destruct (ev s); lia.
  - destruct (existsb (fun i => is_id id i && p_hid i) (items s)) eqn:EX.
    + right. apply existsb_exists in EX. destruct EX as (it & IN & P). unfold weight. cbn -[Nat.mul]. rewrite map_length.
      match goal with |- context [pend (map ?f (items s))] => assert (Q : pend (map f (items s)) + 1 <= pend (items s)) end.
      { eapply pend_down; [exact IN| |]; [intro i; cbv beta; destruct (is_id id i && p_hid i); cbn -[Nat.mul]; lia|]. cbv beta. rewrite P. apply andb_true_iff in P. destruct P as [_ P]. rewrite P. cbn -[Nat.mul]. cbn. lia. }
      destruct (ev s); lia.
    + left. unfold set_items. replace (map _ (items s)) with (items s); [destruct s; reflexivity|]. rewrite <- (map_id (items s)) at 1. apply map_ext_in. intros i IN. destruct (is_id id i && p_hid i) eqn:P; [|reflexivity]. exfalso.
      assert (existsb (fun i => is_id id i && p_hid i) (items s) = true) by (apply existsb_exists; eauto). congruence.
  - destruct (p_span s) eqn:P; [right; unfold weight; rewrite P; cbn -[Nat.mul]; lia|left; reflexivity].
  - destruct (p_tog s) eqn:P; [right; unfold weight; rewrite P; cbn -[Nat.mul]; lia|left; reflexivity].
  - destruct (p_main s) eqn:P; [right; unfold weight; rewrite P; cbn -[Nat.mul]; lia|left; reflexivity].
  - destruct (p_clear s) eqn:P; [right; unfold weight; rewrite P; cbn -[Nat.mul]; lia|left; reflexivity].
Qed.
Lemma busy_weight : forall bs s, busy s bs -> length bs <= weight s.
Proof.
  induction bs as [|b bs IH]; intros s B; [cbn; lia|]. destruct B as [N B]. cbn. destruct (step_weight s b) as [E|E]; [contradiction|]. specialize (IH _ B). lia.
Qed.
Lemma find_self i l : NoDup (map i_id l) -> In i l -> find (is_id (i_id i)) l = Some i.
Proof.
  intros ND IN. destruct (find (is_id (i_id i)) l) as [it|] eqn:F.
  - destruct (find_split _ _ _ ND F) as (a & b & -> & A & B). f_equal. apply in_app_or in IN. cbn in IN.
    assert (X : ~ In i (a ++ b)) by (intro J; specialize (B i J); unfold is_id in B; rewrite Nat.eqb_refl in B; discriminate). destruct IN as [IN|[IN|IN]]; [exfalso; apply X, in_or_app; auto|exact IN|exfalso; apply X, in_or_app; auto].
  - apply find_none with (x := i) in F; [|exact IN]. unfold is_id in F. rewrite Nat.eqb_refl in F. discriminate.
Qed.
Lemma not_quiet s : NoDup (map i_id (items s)) -> quiet s = false -> exists b, step s b <> s.
Proof.
  intros ND Q. unfold quiet in Q.
  destruct (p_span s) eqn:P1; [exists LSpan; cbn; rewrite P1; intro E; apply (f_equal p_span) in E; cbn in E; congruence|].
  destruct (p_tog s) eqn:P2; [exists LTog; cbn; rewrite P2; intro E; apply (f_equal p_tog) in E; cbn in E; congruence|].
  destruct (p_main s) eqn:P3; [exists LMain; cbn; rewrite P3; intro E; apply (f_equal p_main) in E; cbn in E; congruence|].
  destruct (p_clear s) eqn:P4; [exists LClear; cbn; rewrite P4; intro E; apply (f_equal p_clear) in E; cbn in E; congruence|].
  destruct (ev s) as [e|] eqn:EV.
  { exists LEvent. cbn. rewrite EV. intro E. pose proof (on_event_weight s e EV) as W. rewrite E in W. lia. }
  cbn [negb andb] in Q. assert (EX : exists i, In i (items s) /\ (p_chk i = true \/ p_hid i = true)).
  { clear -Q. induction (items s) as [|i l IH]; [discriminate|]. cbn in Q. destruct (p_chk i) eqn:A; [exists i; cbn; auto|]. destruct (p_hid i) eqn:B; [exists i; cbn; auto|]. destruct (IH Q) as (j & J & K). exists j. cbn. auto. }
  destruct EX as (i & IN & [P|P]).
  - exists (LChk (i_id i)). cbn. rewrite (find_self i _ ND IN), P. intro E. apply (f_equal p_tog) in E. cbn in E. congruence.
  - exists (LHid (i_id i)). intro E. apply (f_equal items) in E. cbn in E.
    match type of E with map ?f _ = _ => assert (W : pend (map f (items s)) + 1 <= pend (items s)) end.
    { eapply pend_down; [exact IN| |]; [intro k; cbv beta; destruct (is_id (i_id i) k && p_hid k); cbn -[Nat.mul]; lia|]. cbv beta. unfold is_id. rewrite Nat.eqb_refl, P. cbn -[Nat.mul]. cbn. lia. }
    rewrite E in W. lia.
Qed.
