(** Property C76: several applications in one document.

    [shown x evs]: what has become of the page after the history [evs] (as in C65: code outside
    the executor doing things, timers firing, event handlers calling run_now), where application
    [t] is mounted in node [root t] of document [d], and the code of its blocks renders elements
    ([elem t k] is its [k]-th).  [st_tr s t] is the trace of its blocks, [st_log s t] what they
    have rendered, [st_kids s] the children of each node (Spec_stage.v). *)
From Coq Require Import List Arith NArith Bool Lia Cantor.
From Verif Require Import Arena Spec_arena Readiness Combinator Tree Tree_proofs Position Dom Context Ui Spec_ui Ui_proofs
  Screen Spec_screen Screen_proofs Props_screen Executor Executor_proofs Queue Spec_queue Queue_proofs Queue_sim Page Page_proofs Props_page
  Ends_proofs Props_ends Spec_view View_proofs Props_view Stage Spec_stage Stage_proofs.
Import ListNotations.

Section Props.
Variables V X : Type.
Variable ww : waker -> waker -> bool.
Variable debug : bool.
Variable bound : nat.
Variables (root : nat -> Dom.node) (grp0 : nat -> gid) (adr0 : nat -> addr).
Variables (elem : nat -> nat -> Dom.node) (grp : nat -> nat -> gid) (adr_e adr_c : nat -> nat -> addr).
Variable code : nat -> X -> place -> option V -> X * list gact * list uact * next V.
Variable on_drop : nat -> X -> X * list gact.
Variables (d : dom) (gr : gid -> group).
Notation shown := (strun V X ww debug bound root grp0 adr0 elem grp adr_e adr_c code on_drop d gr).

(** C76.  Rendering is transparent: whatever the applications render, and whatever they share,
    rendering never fails, and what is polled, woken, spawned, cancelled, awaited and returned, in
    which order, is the same as without any rendering.  So all that is said about pages (C65 to
    C72) holds of pages that render. *)
Theorem C76_transparent : forall x evs, all_few code -> dom_wf d -> stock d gr root grp0 elem grp ->
  blind (shown x evs) = prun V X ww debug bound (unseen V X code) on_drop x evs.
Proof.
  intros x evs FEW W SU. symmetry.
  apply (strun_sim V X ww debug bound root grp0 adr0 elem grp adr_e adr_c code on_drop FEW d gr W SU x evs).
Qed.

(** the invariant *)
Lemma shown_si x evs s : all_few code -> dom_wf d -> stock d gr root grp0 elem grp -> shown x evs = Live s ->
  Rel V X root grp0 adr0 elem grp adr_e adr_c d (gone (stage V X) (xs _ s)) (q_x _ (xs _ s)) /\
  (forall t, gone (stage V X) (xs _ s) t = true <-> st_dropped s t).
Proof.
  intros FEW W SU H. destruct (strun_sim V X ww debug bound root grp0 adr0 elem grp adr_e adr_c code on_drop FEW d gr W SU x evs) as (_ & O).
  rewrite H in O. destruct O as ((I & _) & R). split; [exact R|]. intro t. eapply gone_dropped. exact I.
Qed.

(** C76.  As long as no drop has panicked: the node of an application whose future was not dropped
    has the children it had before, followed by what the root block shows; the children of an
    element that one of its blocks is in are those it had before, followed by what the element
    holds; the node of an application whose future was dropped has the children it had before;
    all nodes that belong to no application keep their children. *)
Theorem C76_document : forall x evs s, all_few code -> dom_wf d -> stock d gr root grp0 elem grp ->
  shown x evs = Live s -> st_crash s = false ->
  (forall t, ~ st_dropped s t ->
     (exists l, shows (st_tr s t) (st_log s t) Root l /\ st_kids s (root t) = kids d (root t) ++ map (elem t) l) /\
     (forall p out e inn, present (st_tr s t) p -> opens p (st_log s t) = out ++ e :: inn ->
        exists l, holds (st_tr s t) (st_log s t) p inn l /\ st_kids s (elem t e) = kids d (elem t e) ++ map (elem t) l)) /\
  (forall t, st_dropped s t -> st_kids s (root t) = kids d (root t)) /\
  (forall q, (forall t, q <> root t) -> (forall t k, q <> elem t k) -> st_kids s q = kids d q).
Proof.
  intros x evs s FEW W SU H C. destruct (shown_si x evs s FEW W SU H) as (R & GD). unfold st_crash in C.
  destruct R as [(C' & _)|(_ & S & _)]; [congruence|]. split; [|split].
  - intros t ND. assert (GT : gone (stage V X) (xs _ s) t = false).
    { destruct (gone (stage V X) (xs _ s) t) eqn:E; auto. destruct ND. apply GD. exact E. }
    pose proof (si_app _ _ _ _ _ _ _ _ _ _ _ _ S t GT) as A.
    destruct (a_inv _ _ _ _ _ _ _ _ _ _ _ _ A) as (_ & F & _). pose proof (a_good _ _ _ _ _ _ _ _ _ _ _ _ A) as GOOD.
    unfold st_tr, st_log, st_kids. set (y := q_x _ (xs _ s)) in *. set (w := pg_t V X (sg_p V X y) t) in *. set (v := sg_v V X y t) in *.
    assert (K : forall n ch, In (n, ch) (containers (mounted root grp0 adr0 elem grp adr_e adr_c t v)) ->
       kids (rdom (ur (sg_u V X y))) n = kids d n ++ out ch) by (intros n ch IN; eapply good_containers; eauto).
    split.
    + exists (outs (v_fut v)). split; [apply (fits_shows V _ w (v_log v) (v_fut v) Root F)|]. rewrite <- (out_cur (elem t) (grp t) (adr_e t) (adr_c t) (v_fut v)).
      change (out (cur_of (elem t) (grp t) (adr_e t) (adr_c t) (v_fut v))) with (out (FBlock (cur_of (elem t) (grp t) (adr_e t) (adr_c t) (v_fut v)))). apply K. cbn. auto.
    + intros p out0 e inn P O. destruct (present_fits V _ (elem t) (grp t) (adr_e t) (adr_c t) w (v_log v) (v_fut v) F p P) as (u & FV & IN).
      destruct u as [fr sub]. assert (fr = opens p (v_log v)) as -> by (inversion FV; auto).
      destruct (containers_cur (elem t) (grp t) (adr_e t) (adr_c t) (U (opens p (v_log v)) sub) out0 e inn sub) as (ch & C1 & C2); [rewrite <- O; reflexivity|].
      eexists. split; [|rewrite <- C2; apply K; cbn; right; apply IN; exact C1].
      unfold holds. destruct inn; [|reflexivity]. apply (fits_shows V _ w (v_log v) _ p FV).
  - intros t DR. apply (si_gone _ _ _ _ _ _ _ _ _ _ _ _ S). apply GD. exact DR.
  - apply (si_rest _ _ _ _ _ _ _ _ _ _ _ _ S).
Qed.

(** C76.  When does the drop of an application's future panic (in C76_document)?  If and only if
    its root block is in an element, or awaits a combinator, at that moment. *)
Theorem C76_drop_panics_iff : forall x evs s, all_few code -> dom_wf d -> stock d gr root grp0 elem grp ->
  shown x evs = Live s ->
  (st_crash s = true <-> exists t, st_dropped s t /\ (opens Root (st_log s t) <> [] \/ awaits Root (st_tr s t) <> None)).
Proof.
  intros x evs s FEW W SU H. destruct (shown_si x evs s FEW W SU H) as (R & GD). unfold st_crash, st_log, st_tr.
  destruct R as [(C & t & GT & B)|(C & _ & NB)]; rewrite C.
  - split; auto. intros _. exists t. split; [apply GD; exact GT|exact B].
  - split; [discriminate|]. intros (t & DR & B). exfalso. apply (NB t); [apply GD; exact DR|exact B].
Qed.

(** C76.  What is rendered is what the code says: a record that the code itself keeps, in its own
    state, of the elements it enters and leaves, agrees with the log. *)
Theorem C76_as_written : forall rec x evs s, all_record code on_drop evs rec -> (forall t, rec x t = []) ->
  shown x evs = Live s -> st_crash s = false ->
  forall t, st_log s t = rec (st_x s) t.
Proof.
  intros rec x evs s RE R0 H C t.
  pose proof (strun_ta V X ww debug bound root grp0 adr0 elem grp adr_e adr_c code on_drop d gr rec evs RE x R0) as O.
  rewrite H in O. destruct O as (_ & [T|T]); [unfold st_crash in C; congruence|]. apply T.
Qed.

(** C76.  If the node of an application was empty and elements are made without children, then an
    element is in the document, below that node, if and only if it is an element of this
    application and a block of it whose future exists is in it. *)
Theorem C76_exactly : forall x evs s t, all_few code -> dom_wf d -> stock d gr root grp0 elem grp ->
  kids d (root t) = [] -> (forall k, kids d (elem t k) = []) ->
  shown x evs = Live s -> st_crash s = false -> ~ st_dropped s t ->
  forall n, Spec_screen.under (st_kids s) (root t) n <->
    exists p e, n = elem t e /\ present (st_tr s t) p /\ In e (opens p (st_log s t)).
Proof.
  intros x evs s t FEW W SU K0 KE H C ND. destruct (C76_document x evs s FEW W SU H C) as (DA & _).
  destruct (DA t ND) as ((l0 & S0 & D0) & DE). rewrite K0 in D0. apply (exactly_of V (elem t) _ _ _ _ l0 S0 D0).
  intros p out e inn P O. destruct (DE p out e inn P O) as (l & HO & D). exists l. rewrite KE in D. auto.
Qed.

(** C76.  When the page is at rest (C67), the document is up to date: let block [p] of application
    [t] be a view that brings the elements it is in up to date with the state ([want x l]: in the
    state [x] these should be [l]; [rec] is the record it keeps of them).  Then those it is in are
    the ones the present state wants, and they are in the document. *)
Theorem C76_up_to_date : forall rec (want : X -> list nat -> Prop) (J : X -> Prop) x evs s t p,
  will_wake_ok ww -> page_code_ok (unseen V X code) -> all_few code -> dom_wf d -> stock d gr root grp0 elem grp ->
  all_record code on_drop evs rec -> (forall t, rec x t = []) ->
  view_of J (fun x => want x (opens p (rec x t))) t p (unseen V X code) on_drop evs -> J x ->
  shown x evs = Live s -> st_crash s = false ->
  at_rest ww debug bound (unseen V X code) on_drop x evs (blind_s s) ->
  alive t (q_tr _ (xs _ s)) = true -> Spec_tree.live (st_tr s t) p -> at_leaf p (st_tr s t) = true ->
  kids d (root t) = [] -> (forall k, kids d (elem t k) = []) ->
  exists l, want (st_x s) l /\ opens p (st_log s t) = l /\ forall e, In e l -> Spec_screen.under (st_kids s) (root t) (elem t e).
Proof.
  intros rec want J x evs s t p WW CO FEW W SU RE R0 VO J0 H C AR AL LV LF K0 KE.
  pose proof (C76_transparent x evs FEW W SU) as TR. rewrite H in TR. cbn [blind] in TR. symmetry in TR.
  exists (opens p (st_log s t)). split; [|split; [reflexivity|]].
  - rewrite (C76_as_written rec x evs s RE R0 H C t).
    exact (C67_up_to_date V X ww debug bound (unseen V X code) on_drop x evs (blind_s s) J (fun x => want x (opens p (rec x t))) t p WW CO VO J0 TR AR AL LV LF).
  - destruct (shown_si x evs s FEW W SU H) as (R & GD).
    assert (ND : ~ st_dropped s t).
    { intro DR. destruct (strun_sim V X ww debug bound root grp0 adr0 elem grp adr_e adr_c code on_drop FEW d gr W SU x evs) as (_ & O).
      rewrite H in O. destruct O as ((I & _) & _). apply (dropped_iff t _ (qi_legal _ _ _ I)) in DR. destruct DR. congruence. }
    intros e IE. apply (C76_exactly x evs s t FEW W SU K0 KE H C ND). exists p, e. split; auto. split; auto.
    destruct R as [(C' & _)|(_ & S & _)]; [unfold st_crash in C; congruence|].
    assert (GT : gone (stage V X) (xs _ s) t = false) by (destruct (gone (stage V X) (xs _ s) t) eqn:E; auto; destruct ND; apply GD; exact E).
    apply (live_present V X ww root grp0 adr0 elem grp adr_e adr_c d _ t WW (si_app _ _ _ _ _ _ _ _ _ _ _ _ S t GT)); [|exact LV].
    pose proof (prun_good V X ww debug bound (unseen V X code) on_drop WW CO x evs) as G. rewrite TR in G.
    exact (prog_inv V X ww debug (unseen V X code) WW CO t _ (gd_prog _ _ _ _ _ _ G t)).
Qed.

(** C76.  Only unmounting panics: if blocks are in no element when they return, and the drop of an
    application's future has panicked, then an application was unmounted (the Task that mount_at
    returned was dropped), and its block had not returned. *)
Theorem C76_panics_only_if_unmounted : forall rec x evs s,
  will_wake_ok ww -> page_code_ok (unseen V X code) -> all_few code -> dom_wf d -> stock d gr root grp0 elem grp ->
  all_record code on_drop evs rec -> (forall t, rec x t = []) -> returns_outside code rec ->
  shown x evs = Live s -> st_crash s = true ->
  exists t, cancelled t (q_tr _ (xs _ s)) = true /\ st_dropped s t /\ ~ Spec_tree.returned Root (st_tr s t).
Proof.
  intros rec x evs s WW CO FEW W SU RE R0 RO H C.
  pose proof (strun_rv V X ww debug bound root grp0 adr0 elem grp adr_e adr_c code on_drop FEW d gr W SU rec evs RE RO x R0) as O.
  rewrite H in O. destruct O as ((I & _) & (_ & _ & _ & CR)). destruct (CR C) as (t & GT & OV). exists t.
  assert (DR : st_dropped s t) by (apply (gone_dropped _ _ _ I); exact GT).
  pose proof (C76_transparent x evs FEW W SU) as TR. rewrite H in TR. cbn [blind] in TR. symmetry in TR.
  assert (NR : ~ Spec_tree.returned Root (st_tr s t)).
  { intro R. pose proof (prun_good V X ww debug bound (unseen V X code) on_drop WW CO x evs) as G. rewrite TR in G.
    apply (g_over _ _ _ (g_glob _ _ _ _ _ _ (prog_inv V X ww debug (unseen V X code) WW CO t _ (gd_prog _ _ _ _ _ _ G t)))) in R.
    unfold done_ in OV. cbn [blind_s xs blind_q q_x] in R. congruence. }
  split; [|split; auto].
  destruct (C65_ends V X ww debug bound (unseen V X code) on_drop x evs (blind_s s) t WW CO TR) as (_ & E).
  destruct (E DR) as [E1|E1]; [destruct (NR E1)|exact E1].
Qed.
End Props.
Print Assumptions C76_transparent.
Print Assumptions C76_document.
Print Assumptions C76_drop_panics_iff.
Print Assumptions C76_as_written.
Print Assumptions C76_exactly.
Print Assumptions C76_up_to_date.
Print Assumptions C76_panics_only_if_unmounted.

(** Non-vacuity.  The state is a number [ph] and the record.  Application 0 joins two blocks: the
    first is a view that shows an element exactly if [ph] is not 0, the second shows an element all
    the time.  Application 1 shows an element until [ph] is 2, and returns then.  The nodes of the
    applications are 0, 2, 4, ...; the elements are the odd nodes.  A handler counts [ph] up. *)
From Verif Require Import Spec_tree Props_tree.
Definition exS := (nat * (list dev * list dev))%type.
Definition exs_rec (x : exS) (t : nat) : list dev := match t with 0 => fst (snd x) | 1 => snd (snd x) | _ => [] end.
Definition exs_prog (t ph : nat) (p : place) (inside : list nat) : list uact * next val :=
  match t, p with
  | 0, Root => ([], NAwait KVec join_val 2)
  | 0, Kid 0 0 => (if ph =? 0 then match inside with [] => [] | _ => [Leave] end else match inside with [] => [Enter] | _ => [] end, NPend)
  | 0, _ => (match inside with [] => [Enter] | _ => [] end, NPend)
  | 1, Root => if ph =? 2 then (map (fun _ => Leave) inside, NRet (VNat 7)) else (match inside with [] => [Enter] | _ => [] end, NPend)
  | _, _ => ([], NPend)
  end.
Definition exs_code (t : nat) (x : exS) (p : place) (got : option val) : exS * list gact * list uact * next val :=
  let r := exs_prog t (fst x) p (opens p (exs_rec x t)) in
  let lg := fold_left (tell p) (fst r) (exs_rec x t) in
  ((fst x, match t with 0 => (lg, snd (snd x)) | 1 => (fst (snd x), lg) | _ => snd x end), [], fst r, snd r).
Definition exs_drop (t : nat) (x : exS) : exS * list gact := (x, []).
Definition exs_click (x : exS) : exS * list gact := ((S (fst x), snd x), [GWake 0 (Kid 0 0); GWake 1 Root]).
Definition exs_pair (t k : nat) : nat := 2 * Cantor.to_nat (t, k) + 1.
Definition exs_x : exS := (0, ([], [])).
Definition exs_run (evs : list (pev exS)) :=
  strun val exS ex_ww true 40 (fun t => 2 * t) (fun t => 2 * t) (fun _ => 0) exs_pair exs_pair (fun _ _ => 0) (fun _ _ => 0) exs_code exs_drop dom_empty (fun _ => []) exs_x evs.
Definition exs_see (r : rres (qu (stage val exS))) (l : list nat) : option (list (list nat) * bool * nat) :=
  match r with Live s => Some (map (st_kids s) l, st_crash s, timers _ s) | _ => None end.
Definition exs_h : list (pev exS) := pmount ++ pmount ++ [PFire 9].
Definition exs_h1 := exs_h ++ [PCode exs_click].
Definition exs_h2 := exs_h1 ++ [PFire 9].
Definition exs_h3 := exs_h2 ++ [PCode exs_click; PFire 9].
(** elements 1 of application 0, 5 of application 1; after the click nothing is done until the timer
    fires, then the first block shows element 3 in front; then application 1 is over *)
Example exs_shown :
  exs_see (exs_run exs_h) [0; 2] = Some ([[exs_pair 0 0]; [exs_pair 1 0]], false, 0) /\
  exs_see (exs_run exs_h1) [0; 2] = Some ([[exs_pair 0 0]; [exs_pair 1 0]], false, 1) /\
  exs_see (exs_run exs_h2) [0; 2] = Some ([[exs_pair 0 1; exs_pair 0 0]; [exs_pair 1 0]], false, 0) /\
  exs_see (exs_run exs_h3) [0; 2] = Some ([[exs_pair 0 1; exs_pair 0 0]; []], false, 0).
Proof. vm_compute. repeat split. Qed.
(** cancelling application 1 while its block is in its element makes the drop panic *)
Example exs_panics : exs_see (exs_run (exs_h ++ [PDo (GCancel 1); PFire 9])) [] = Some ([], true, 0).
Proof. vm_compute. reflexivity. Qed.
Lemma exs_leave_all p l : forall lg, length (opens p lg) <= length l -> opens p (fold_left (tell p) (map (fun _ : nat => Leave) l) lg) = [].
Proof.
  induction l as [|a l IH]; intros lg L; cbn [map fold_left] in *; [destruct (opens p lg); [auto|cbn in L; lia]|]. apply IH.
  assert (E : place_eqb p p = true) by (destruct p as [|n i]; cbn; rewrite ?Nat.eqb_refl; auto).
  cbn [tell opens]. rewrite E. destruct (opens p lg) as [|b r] using rev_ind; [cbn; lia|].
  rewrite removelast_last. rewrite app_length in L. cbn in L. lia.
Qed.
Example exs_outside : returns_outside exs_code exs_rec.
Proof.
  intros t x got x' l acts v E. unfold exs_code in E. injection E as <- _ _ E. destruct t as [|[|t]]; cbn [exs_prog snd] in *; try discriminate E.
  destruct (fst x =? 2) eqn:PH; [|discriminate E]. cbn [exs_rec fst snd]. apply exs_leave_all. auto.
Qed.
Example exs_hyps : all_few exs_code /\ dom_wf dom_empty /\
  stock dom_empty (fun _ => []) (fun t => 2 * t) (fun t => 2 * t) exs_pair exs_pair /\
  page_code_ok (unseen val exS exs_code).
Proof.
  assert (PI : forall t u i j, exs_pair t i = exs_pair u j -> t = u /\ i = j).
  { intros t u i j H. unfold exs_pair in H. assert (E : Cantor.to_nat (t, i) = Cantor.to_nat (u, j)) by lia.
    apply (f_equal Cantor.of_nat) in E. rewrite !Cantor.cancel_of_to in E. injection E. auto. }
  assert (AW : forall t ph p l k b n, snd (exs_prog t ph p l) = NAwait k b n -> k = KVec /\ b = join_val /\ n = 2).
  { intros t ph p l k b n. unfold exs_prog. destruct t as [|[|t]], p as [|[|m] [|i]]; cbn; try discriminate.
    - intros [= <- <- <-]. auto.
    - destruct (ph =? 2); discriminate. }
  split; [|split; [|split]].
  - intros t x p got x' l acts k b n. unfold exs_code. intros [= _ _ _ E]. apply AW in E. destruct E as (_ & _ & ->). vm_compute. discriminate.
  - split; [intro; constructor|intros; simpl; intuition congruence].
  - split; [intros; lia|]. split; [exact PI|]. split; [unfold exs_pair; intros; lia|]. split; [intros; lia|]. split; [exact PI|].
    split; [unfold exs_pair; intros; lia|]. repeat split.
  - intros t x p got x' l k b n. unfold unseen, exs_code. cbn [fst snd]. intros [= _ _ E]. apply AW in E. destruct E as (-> & -> & _).
    split; [apply ex_behaviours|discriminate].
Qed.
Lemma exs_other p q acts : p <> q -> forall lg, opens q (fold_left (tell p) acts lg) = opens q lg.
Proof.
  intro NE. induction acts as [|a acts IH]; intro lg; cbn [fold_left]; auto. rewrite IH.
  assert (E : place_eqb p q = false). { destruct (place_eqb p q) eqn:E; auto. destruct NE. destruct p as [|n i], q as [|m j]; cbn in E; try discriminate; auto.
    apply andb_true_iff in E. destruct E as (E1 & E2). apply Nat.eqb_eq in E1, E2. congruence. }
  destruct a; cbn; rewrite E; reflexivity.
Qed.
Definition exs_want (x : exS) (l : list nat) : Prop := if fst x =? 0 then l = [] else exists e, l = [e].
Example exs_views : all_record exs_code exs_drop exs_h2 exs_rec /\ (forall t, exs_rec exs_x t = []) /\
  view_of (fun x : exS => length (opens (Kid 0 0) (exs_rec x 0)) <= 1) (fun x => exs_want x (opens (Kid 0 0) (exs_rec x 0))) 0 (Kid 0 0) (unseen val exS exs_code) exs_drop exs_h2.
Proof.
  split; [|split].
  - split; [|split].
    + intros t x p got x' l acts nx E. unfold exs_code in E. injection E as <- _ <- _. destruct t as [|[|t]].
      * split; [reflexivity|]. intros [|[|u]] NE; [congruence|reflexivity|reflexivity].
      * split; [reflexivity|]. intros [|[|u]] NE; [reflexivity|congruence|reflexivity].
      * split; [reflexivity|]. intros u NE. reflexivity.
    + reflexivity.
    + intros f x u IN. cbn in IN. repeat (destruct IN as [Q|IN]; [try discriminate Q; injection Q as <-; destruct u as [|[|u]]; reflexivity|]). destruct IN.
  - intros [|[|t]]; reflexivity.
  - split; [|split; [|split]].
    + intros x got x' l nx J E. right. unfold unseen, exs_code in E. cbn [fst snd] in E. injection E as <- <- <-.
      cbn [exs_rec fst snd exs_prog] in *. unfold exs_want. cbn [fst].
      destruct (fst x =? 0) eqn:PH; destruct (opens (Kid 0 0) (fst (snd x))) as [|e [|e2 r]] eqn:O; cbn [length] in J; try lia;
        cbn [fold_left tell]; cbn [opens place_eqb Nat.eqb andb]; rewrite ?O; cbn [app removelast length]; split; auto; intros _; left; eauto.
    + intros u x q got x' l nx NE J E. right. unfold unseen, exs_code in E. cbn [fst snd] in E. injection E as <- <- <-.
      assert (OP : opens (Kid 0 0) (exs_rec (fst x, match u with 0 => (fold_left (tell q) (fst (exs_prog u (fst x) q (opens q (exs_rec x u)))) (exs_rec x u), snd (snd x))
         | 1 => (fst (snd x), fold_left (tell q) (fst (exs_prog u (fst x) q (opens q (exs_rec x u)))) (exs_rec x u)) | _ => snd x end) 0) = opens (Kid 0 0) (exs_rec x 0)).
      { destruct u as [|[|u]]; cbn [exs_rec fst snd]; auto. apply exs_other. destruct NE; congruence. }
      rewrite OP. split; auto.
    + intros u x x' l J [= <- <-]. auto.
    + intros f x x' l IN J E. cbn in IN. repeat (destruct IN as [Q|IN]; [try discriminate Q; injection Q as <-|]); [|destruct IN].
      injection E as <- <-. split; [exact J|]. intros _. right. left. reflexivity.
Qed.
Example exs_live : match exs_run exs_h2 with
  | Live s => at_rest ex_ww true 40 (unseen val exS exs_code) exs_drop exs_x exs_h2 (blind_s s) /\ alive 0 (q_tr _ (xs _ s)) = true /\
      Spec_tree.live (st_tr s 0) (Kid 0 0) /\ at_leaf (Kid 0 0) (st_tr s 0) = true /\ st_crash s = false /\ opens (Kid 0 0) (st_log s 0) = [1]
  | _ => False end.
Proof.
  assert (T : match exs_run exs_h2 with Live s => timers _ s = 0 | _ => False end) by (vm_compute; reflexivity).
  assert (L : match exs_run exs_h2 with Live s => alive 0 (q_tr _ (xs _ s)) = true /\
      Spec_tree.live (st_tr s 0) (Kid 0 0) /\ at_leaf (Kid 0 0) (st_tr s 0) = true /\ st_crash s = false /\ opens (Kid 0 0) (st_log s 0) = [1] | _ => False end).
  { vm_compute. split; [reflexivity|]. split; [|repeat split]. apply live_kid with (k := 2) (b := join_val) (p := Root).
    - repeat (first [left; reflexivity|right]).
    - lia.
    - intros (v & H). repeat (destruct H as [H|H]; [discriminate H|]). exact H.
    - intros (v & H). repeat (destruct H as [H|H]; [discriminate H|]). exact H.
    - constructor. intros (v & H). repeat (destruct H as [H|H]; [discriminate H|]). exact H. }
  destruct (exs_run exs_h2) as [s|s|]; try contradiction. split; [|exact L]. left. split; [right; left; reflexivity|exact T].
Qed.
