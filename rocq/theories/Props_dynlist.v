(** Properties C28-C32: DynamicList. *)
From Coq Require Import List Arith NArith Bool Permutation Sorting.Sorted.
From Verif Require Import Util Position Dom Context Spec_path Spec_render Render_history
  Dom_proofs Context_proofs Render_history_proofs Spec_list DynList Spec_dynlist DynList_proofs DynList_run_proofs.
Import ListNotations.

Lemma reached_inv r fr s e ops w : reached r fr s e ops w ->
  exists segs P Q, LInv w segs P Q /\ keys_of segs = keys_after ops /\
    alive_inv w (contents_after [] (fun _ => []) ops) /\
    dl_start (lw_l w) = s /\ dl_end (lw_l w) = e.
Proof.
  intros ((W & FF & KF & NE & PS & PE & FS & FE) & w0 & E0 & L & bs & E).
  destruct (new_ok r fr s e) as (w0' & E0' & I & S & EE & _); auto.
  rewrite E0 in E0'. inversion E0'; subst w0'.
  destruct (run_ok ops w0 [] [] [] (fun _ => []) I) as (w' & segs & P & Q & R & I' & K & AI & S1 & S2); auto.
  { intros k st H. assert (X := li_items _ _ _ _ I). simpl in X.
    apply Permutation_sym, Permutation_nil in X. rewrite X in H. destruct H. }
  rewrite E in R. inversion R; subst. exists segs, P, Q. repeat (split; auto).
Qed.

(** C28.  From a new list, perform any history of insertions (before any present
    key or at the end, of new or present keys), removals, moves before another
    key, swaps (of items where the first is not immediately followed by the
    second), retains, renders and removals inside the items, drops of removed
    items, renders and unrenders of the list, and changes to the rest of the page.
    Nothing panics, every call returns whether its key was present, the list holds
    exactly the keys of the abstract list, and between the list's two markers the
    document shows the items in the abstract order, each contiguous and with its
    content in the order of its paths. *)
Theorem C28_keyed_list :
  forall (r : rstate) (fr s e : node) (ops : list lop),
  fresh_list r fr s e ->
  exists w0, dl_new r fr s e = Some w0 /\
  (legal_lrun w0 [] (fun _ => []) ops ->
   exists w P m Q, lrun w0 ops = Some (w, arets [] ops) /\
     kids (rdom (lw_r w)) (cget (dl_cont (lw_l w))) = P ++ s :: m ++ e :: Q /\
     shows w (contents_after [] (fun _ => []) ops) m (keys_after ops) /\
     NoDup (keys_after ops) /\
     (forall k, dl_contains w k = memb k (keys_after ops))).
Proof.
  intros r fr s e ops (W & FF & KF & NE & PS & PE & FS & FE).
  destruct (new_ok r fr s e) as (w0 & E0 & I & S & EE & _); auto.
  exists w0. split; auto. intro L.
  destruct (run_ok ops w0 [] [] [] (fun _ => []) I) as (w' & segs & P & Q & R & I' & K & AI & S1 & S2); auto.
  { intros k st H. assert (X := li_items _ _ _ _ I). simpl in X.
    apply Permutation_sym, Permutation_nil in X. rewrite X in H. destruct H. }
  destruct (linv_shows _ _ _ _ _ I' AI) as (SH & ND & PM).
  simpl in K. fold (keys_after ops) in K. rewrite K in *.
  exists w', P, (mid (rgrp (lw_r w')) segs), Q. repeat (split; auto).
  - rewrite (v_kids _ _ _ _ _ _ _ _ (li_view _ _ _ _ I')), S1, S2, S, EE. auto.
  - intro k. unfold dl_contains. destruct (hm_get k (dl_items (lw_l w'))) eqn:G.
    + symmetry. apply memb_iff. destruct (in_dec Nat.eq_dec k (keys_after ops)); auto.
      rewrite <- K in n. apply (linv_none _ _ _ _ k I') in n. congruence.
    + symmetry. apply memb_false. rewrite <- K. apply (linv_none _ _ _ _ k I'). auto.
Qed.
Print Assumptions C28_keyed_list.

(** C28, locality: such an operation changes nothing outside the list's markers. *)
Theorem C28_edit_is_local :
  forall r fr s e ops w o,
  reached r fr s e ops w ->
  llegal w (keys_after ops) (contents_after [] (fun _ => []) ops) o -> is_edit o ->
  exists w' P m m' Q, lexec w o = Some (w', aret (keys_after ops) o) /\
    let c := cget (dl_cont (lw_l w)) in
    dl_cont (lw_l w') = dl_cont (lw_l w) /\
    kids (rdom (lw_r w)) c = P ++ s :: m ++ e :: Q /\
    kids (rdom (lw_r w')) c = P ++ s :: m' ++ e :: Q /\
    (forall q, q <> c -> kids (rdom (lw_r w')) q = kids (rdom (lw_r w)) q).
Proof.
  intros r fr s e ops w o R L ED.
  destruct (reached_inv _ _ _ _ _ _ R) as (segs & P & Q & I & K & AI & S & EE).
  rewrite <- K in *.
  destruct (step_ok _ _ _ _ _ _ I AI L) as (w' & segs' & P' & Q' & E & I' & _ & _ & S1 & S2 & X).
  assert (X' : P' = P /\ Q' = Q /\ stays w w') by (destruct o; simpl in ED; tauto). clear X.
  destruct X' as (-> & -> & ST).
  exists w', P, (mid (rgrp (lw_r w)) segs), (mid (rgrp (lw_r w')) segs'), Q. split; auto. simpl.
  split; [apply ST|]. split; [|split].
  - rewrite (v_kids _ _ _ _ _ _ _ _ (li_view _ _ _ _ I)), S, EE. auto.
  - rewrite <- (sy_cont _ _ ST), (v_kids _ _ _ _ _ _ _ _ (li_view _ _ _ _ I')), S1, S2, S, EE. auto.
  - apply ST.
Qed.
Print Assumptions C28_edit_is_local.

(** C28, removed items.  The items whose content may still stand between the others are as
    many as were removed, replaced or not retained, minus those that the executor dropped;
    when none is left, the document shows the present items and nothing else. *)
Theorem C28_removed_disappear :
  forall r fr s e ops w,
  reached r fr s e ops w ->
  length (dl_dead (lw_l w)) = pending_after [] 0 ops /\
  (pending_after [] 0 ops = 0 ->
   exists P m Q, kids (rdom (lw_r w)) (cget (dl_cont (lw_l w))) = P ++ s :: m ++ e :: Q /\
     shows_only w (contents_after [] (fun _ => []) ops) m (keys_after ops)).
Proof.
  intros r fr s e ops w R.
  assert (D : length (dl_dead (lw_l w)) = pending_after [] 0 ops).
  { destruct R as ((W & FF & KF & NE & PS & PE & FS & FE) & w0 & E0 & L & bs & E).
    destruct (new_ok r fr s e) as (w0' & E0' & I & S & EE & _); auto.
    rewrite E0 in E0'. injection E0' as <-.
    assert (D0 : dl_dead (lw_l w0) = []).
    { assert (X := li_dead _ _ _ _ I). simpl in X. apply Permutation_nil. symmetry. exact X. }
    rewrite (run_dead ops w0 [] [] [] (fun _ => []) I) with (w' := w) (bs := bs); auto.
    - rewrite D0. reflexivity.
    - intros k st H. assert (X := li_items _ _ _ _ I). simpl in X.
      apply Permutation_sym, Permutation_nil in X. rewrite X in H. destruct H. }
  split; [exact D|]. intro Z. rewrite Z in D.
  destruct (reached_inv _ _ _ _ _ _ R) as (segs & P & Q & I & K & AI & S & EE).
  destruct (linv_shows _ _ _ _ _ I AI) as (SH & _ & _). rewrite K in SH.
  exists P, (mid (rgrp (lw_r w)) segs), Q. split.
  - rewrite (v_kids _ _ _ _ _ _ _ _ (li_view _ _ _ _ I)), S, EE. auto.
  - apply shows_only_iff; auto. destruct (dl_dead (lw_l w)); auto. discriminate D.
Qed.
Print Assumptions C28_removed_disappear.

(** a list rendered between other nodes of an element: three items, one of them
    replaced, content rendered inside, a swap, a removal, an unrender *)
Definition ex_page : dom :=
  mkDom (fun n => if Nat.eqb n 0 then [5; 6] else [])
        (fun n => if Nat.eqb n 5 then Some 0 else if Nat.eqb n 6 then Some 0 else None)
        (fun n => Nat.eqb n 100).
Definition ex_r : rstate :=
  mkR ex_page (fun g => if Nat.eqb g 50 then [([0%N], 5); ([2%N], 6)] else []).
Definition ex_ctx : ctx := CChild (CContainer 50 0) 1.
Definition ex_ops : list lop :=
  [LInsert 1 None (mkStored 10 11 12); LInsert 2 None (mkStored 20 21 22);
   LRender ex_ctx;
   LItem ex_ctx 1 (Render [] 13); LItem ex_ctx 2 (Render [1%N] 24); LItem ex_ctx 2 (Render [0%N] 23);
   LInsert 3 (Some 2) (mkStored 30 31 32); LItem ex_ctx 3 (Render [] 33);
   LSwap 1 2; LInsert 3 (Some 1) (mkStored 40 41 42); LRemove 1; LReap ex_ctx 0;
   LMove 3 (Some 2); LRetain (fun k => negb (Nat.eqb k 2)); LUnrender; LRender ex_ctx].
Definition ex_w0 : lworld :=
  match dl_new ex_r 100 101 102 with Some w => w | None => mkLW ex_r (mkDL [] (Fake 0) 0 0 0 []) end.
Definition ex_state (n : nat) : lworld :=
  match lrun ex_w0 (firstn n ex_ops) with Some (w, _) => w | None => ex_w0 end.
Lemma ex_page_wf : dom_wf ex_page.
Proof.
  split.
  - intro p. simpl. destruct (Nat.eqb p 0); repeat constructor; simpl; intuition congruence.
  - intros p n. simpl. destruct (Nat.eqb_spec p 0) as [->|NP]; simpl;
    destruct (Nat.eqb_spec n 5) as [->|N5]; simpl; try (intuition congruence);
    destruct (Nat.eqb_spec n 6) as [->|N6]; simpl; intuition congruence.
Qed.
Lemma ex_fresh : fresh_list ex_r 100 101 102.
Proof.
  unfold fresh_list. split; [apply ex_page_wf|]. simpl. repeat split; auto; discriminate.
Qed.
Lemma legal_prefix ops : forall w ks al,
  (forall n o w1 bs, nth_error ops n = Some o -> lrun w (firstn n ops) = Some (w1, bs) ->
     llegal w1 (fold_left astep (firstn n ops) ks) (contents_after ks al (firstn n ops)) o) ->
  legal_lrun w ks al ops.
Proof.
  induction ops as [|o t IH]; intros w ks al H; [exact I|]. split.
  - apply (H 0 o w []); auto.
  - intros w' b E. apply IH. intros n o1 w1 bs N R. apply (H (S n) o1 w1 (b :: bs)); auto.
    simpl. rewrite E, R. auto.
Qed.
Lemma is_some {A} (x : option A) d : (match x with Some _ => true | None => false end) = true ->
  x = Some (match x with Some y => y | None => d end).
Proof. destruct x; congruence. Qed.

Lemma ex_room n : n = 2 \/ n = 15 -> room (ex_state n) ex_ctx.
Proof.
  intro H. exists 50, 0, (CContainer 50 0), [1%N]. split; auto.
  split; [repeat constructor|]. split; [destruct H; subst; vm_compute; discriminate|].
  split; auto. split; [destruct H; subst; vm_compute; intuition discriminate|].
  assert (G : rgrp (lw_r (ex_state n)) 50 = [([0%N], 5); ([2%N], 6)]) by (destruct H; subst; vm_compute; reflexivity).
  rewrite G. split.
  - simpl. repeat constructor.
  - assert (K : kids (rdom (lw_r (ex_state n))) 0 = [5; 6]) by (destruct H; subst; vm_compute; reflexivity).
    rewrite K. intros k m [E|[E|[]]]; inversion E; subst; simpl; split; auto; intros [x X]; discriminate.
Qed.

Example C28_pending : pending_after [] 0 (firstn 11 ex_ops) = 2 /\ pending_after [] 0 (firstn 12 ex_ops) = 1 /\
  pending_after [] 0 (firstn 9 ex_ops) = 0.
Proof. repeat split; reflexivity. Qed.

Example C28_nonvacuous :
  fresh_list ex_r 100 101 102 /\ dl_new ex_r 100 101 102 = Some ex_w0 /\
  legal_lrun ex_w0 [] (fun _ => []) ex_ops /\
  keys_after ex_ops = [3] /\
  kids (rdom (lw_r (ex_state 9))) 0 = [5; 101; 21; 23; 24; 22; 31; 33; 32; 11; 13; 12; 102; 6] /\
  keys_after (firstn 9 ex_ops) = [2; 3; 1] /\
  kids (rdom (lw_r (ex_state 12))) 0 = [5; 101; 21; 23; 24; 22; 33; 41; 42; 102; 6] /\
  kids (rdom (lw_r (ex_state 16))) 0 = [5; 101; 41; 42; 23; 24; 33; 102; 6].
Proof.
  split; [apply ex_fresh|]. split; [apply is_some; vm_compute; reflexivity|].
  split; [|repeat match goal with |- _ /\ _ => split end; vm_compute; reflexivity].
  apply legal_prefix. intros n o w1 bs N R.
  assert (W : w1 = ex_state n) by (unfold ex_state; rewrite R; auto). subst w1. clear R.
  destruct n as [|[|[|[|[|[|[|[|[|[|[|[|[|[|[|[|n]]]]]]]]]]]]]]]];
    [injection N as <- ..|destruct n; discriminate].
  1,2: split; [discriminate|]; vm_compute; repeat split; auto; intuition discriminate.
  1: split; [exists 100; vm_compute; reflexivity|]; apply ex_room; auto.
  1,2,3: vm_compute; repeat split; auto; intuition discriminate.
  1: split; [intros b' E; injection E as <-; vm_compute; auto|];
     vm_compute; repeat split; auto; intuition discriminate.
  1: vm_compute; repeat split; auto.
  1: vm_compute; repeat split; auto; intros (l1 & l2 & E);
     destruct l1 as [|? [|? [|? [|? ?]]]]; inversion E.
  1: split; [intros b' E; injection E as <-; vm_compute; auto|];
     vm_compute; repeat split; auto; intuition discriminate.
  1: exact I.
  1: vm_compute; reflexivity.
  1: split; [vm_compute; auto|]; intros b' E; injection E as <-; vm_compute; split; auto; discriminate.
  1: exact I.
  1: exists 0; vm_compute; reflexivity.
  split; [exists 100; vm_compute; reflexivity|]. apply ex_room. auto.
Qed.

(** C29, the part that holds.  Swapping two present items, when the first is not
    immediately followed by the second, exchanges exactly these two in the order
    shown; with a missing key it panics.  Missing: [a] immediately followed by [b]
    (see the refutation below). *)
Theorem C29_swap_partial :
  forall r fr s e ops w a b,
  reached r fr s e ops w ->
  (In a (keys_after ops) -> In b (keys_after ops) -> ~ adjacent a b (keys_after ops) ->
   exists w' P m m' Q, dl_swap w a b = Some w' /\
     let c := cget (dl_cont (lw_l w)) in
     kids (rdom (lw_r w)) c = P ++ s :: m ++ e :: Q /\
     shows w (contents_after [] (fun _ => []) ops) m (keys_after ops) /\
     kids (rdom (lw_r w')) c = P ++ s :: m' ++ e :: Q /\
     shows w' (contents_after [] (fun _ => []) ops) m' (l_swap a b (keys_after ops)) /\
     (forall q, q <> c -> kids (rdom (lw_r w')) q = kids (rdom (lw_r w)) q)) /\
  (~ (In a (keys_after ops) /\ In b (keys_after ops)) -> dl_swap w a b = None).
Proof.
  intros r fr s e ops w a b R.
  destruct (reached_inv _ _ _ _ _ _ R) as (segs & P & Q & I & K & AI & S & EE).
  rewrite <- K in *. split.
  - intros HA HB NA.
    destruct (step_ok _ _ _ _ _ (LSwap a b) I AI) as (w' & segs' & P' & Q' & E & I' & K' & AI' & S1 & S2 & -> & -> & ST).
    { simpl; auto. }
    simpl in E. unfold noret in E. destruct (dl_swap w a b) as [w1|] eqn:E1; [|discriminate].
    inversion E; subst w1. simpl in K', AI'.
    exists w', P, (mid (rgrp (lw_r w)) segs), (mid (rgrp (lw_r w')) segs'), Q. split; auto. simpl.
    destruct (linv_shows _ _ _ _ _ I AI) as (SH & _ & _).
    destruct (linv_shows _ _ _ _ _ I' AI') as (SH' & _ & _). rewrite K' in SH'.
    repeat (split; auto).
    + rewrite (v_kids _ _ _ _ _ _ _ _ (li_view _ _ _ _ I)), S, EE. auto.
    + rewrite <- (sy_cont _ _ ST), (v_kids _ _ _ _ _ _ _ _ (li_view _ _ _ _ I')), S1, S2, S, EE. auto.
    + apply ST.
  - intro H. unfold dl_swap. destruct (hm_get a (dl_items (lw_l w))) eqn:GA; [|reflexivity]. simpl.
    destruct (hm_get b (dl_items (lw_l w))) eqn:GB; [|reflexivity].
    exfalso. apply H. split.
    + destruct (in_dec Nat.eq_dec a (keys_of segs)) as [X|X]; auto.
      apply (linv_none _ _ _ _ _ I) in X. congruence.
    + destruct (in_dec Nat.eq_dec b (keys_of segs)) as [X|X]; auto.
      apply (linv_none _ _ _ _ _ I) in X. congruence.
Qed.
Print Assumptions C29_swap_partial.

Lemma ex_legal n : legal_lrun ex_w0 [] (fun _ => []) (firstn n ex_ops).
Proof.
  destruct C28_nonvacuous as (_ & _ & L & _).
  assert (G : forall n ops w ks al, legal_lrun w ks al ops -> legal_lrun w ks al (firstn n ops)).
  { induction n0 as [|n0 IH]; intros ops w ks al H; [exact I|].
    destruct ops as [|o t]; auto. simpl. destruct H as [H1 H2]. split; auto. intros w1 b E. apply IH. eapply H2; eauto. }
  apply G; auto.
Qed.
Lemma ex_reached n : n <= 16 -> reached ex_r 100 101 102 (firstn n ex_ops) (ex_state n).
Proof.
  intro H. split; [apply ex_fresh|]. exists ex_w0. split; [apply C28_nonvacuous|]. split; [apply ex_legal|].
  unfold ex_state.
  destruct (C28_keyed_list ex_r 100 101 102 (firstn n ex_ops) ex_fresh) as (w0 & E & X).
  assert (w0 = ex_w0) by (unfold ex_w0; rewrite E; auto). subst.
  destruct (X (ex_legal n)) as (w & _ & _ & _ & E1 & _). rewrite E1. eauto.
Qed.

(** keys 1, 3, 2 in this order (before the swap of the example): 2 and 1 may be
    swapped in either argument order, and 3 with 1 as swap(3, 1) *)
Example C29_nonvacuous :
  reached ex_r 100 101 102 (firstn 8 ex_ops) (ex_state 8) /\
  keys_after (firstn 8 ex_ops) = [1; 3; 2] /\
  ~ adjacent 1 2 (keys_after (firstn 8 ex_ops)) /\ ~ adjacent 3 1 (keys_after (firstn 8 ex_ops)).
Proof.
  split; [apply ex_reached; repeat constructor|]. split; [reflexivity|].
  split; intros (l1 & l2 & E); vm_compute in E; destruct l1 as [|? [|? [|? [|? ?]]]]; inversion E.
Qed.

(** the example list after swap(1, 3) *)
Definition ex_torn : lworld := match dl_swap (ex_state 8) 1 3 with Some w => w | None => ex_w0 end.
Lemma ex_torn_witness :
  dl_swap (ex_state 8) 1 3 = Some ex_torn /\
  kids (rdom (lw_r (ex_state 8))) 0 = [5; 101; 11; 13; 12; 31; 33; 32; 21; 23; 24; 22; 102; 6] /\
  kids (rdom (lw_r ex_torn)) 0 = [5; 101; 11; 13; 12; 33; 32; 31; 21; 23; 24; 22; 102; 6] /\
  (forall ks, ~ shows ex_torn (contents_after [] (fun _ => []) (firstn 8 ex_ops))
                [11; 13; 12; 33; 32; 31; 21; 23; 24; 22] ks).
Proof.
  split; [apply is_some; vm_compute; reflexivity|].
  split; [vm_compute; reflexivity|]. split; [vm_compute; reflexivity|].
  set (w' := ex_torn).
  assert (IT : dl_items (lw_l w') = [(3, mkStored 30 31 32); (2, mkStored 20 21 22); (1, mkStored 10 11 12)]) by (vm_compute; reflexivity).
  assert (DD : dl_dead (lw_l w') = []) by (vm_compute; reflexivity).
  set (al := contents_after _ _ _).
  assert (A1 : al 1 = [([], 13)]) by reflexivity.
  clearbody w' al.
  assert (ST : forall m ks, shows w' al m ks -> m = [] \/ exists x t, m = x :: t /\ (x = 11 \/ x = 21 \/ x = 31)).
  { intros m ks H. destruct H as [|st m ks X _|k st c m ks X _ _ _]; auto.
    - rewrite DD in X. destruct X.
    - right. eexists; eexists; split; [reflexivity|]. rewrite IT in X. simpl in X.
      destruct X as [E|[E|[E|[]]]]; inversion E; simpl; auto. }
  intros ks H. remember [11; 13; 12; 33; 32; 31; 21; 23; 24; 22] as m0 eqn:EM.
  destruct H as [|st m ks X _|k st c m ks X PM _ SH]; [discriminate| |].
  - rewrite DD in X. destruct X.
  - rewrite IT in X. simpl in X. destruct X as [E|[E|[E|[]]]]; inversion E; subst k st; simpl in EM; try discriminate.
    rewrite A1 in PM. apply Permutation_sym, Permutation_length_1_inv in PM. subst c. simpl in EM.
    injection EM as EM. subst m. apply ST in SH as [X|(x & t & X & Y)]; inversion X; subst.
    intuition discriminate.
Qed.

(** C29 is false of the code when the first item is immediately followed by the
    second: [swap] then tears the second item apart.  In the example list with
    items 1 (markers 11,12, content 13), 3 (31,32, content 33), 2 (21,22, content
    23,24), swap(1, 3) gives an arrangement that shows no order of items: item 3's
    start marker comes after its end marker. *)
Theorem C29_swap_adjacent_refuted :
  exists r fr s e ops w w' a b,
    reached r fr s e ops w /\ adjacent a b (keys_after ops) /\ a <> b /\
    dl_swap w a b = Some w' /\
    kids (rdom (lw_r w)) 0 = [5; 101; 11; 13; 12; 31; 33; 32; 21; 23; 24; 22; 102; 6] /\
    kids (rdom (lw_r w')) 0 = [5; 101; 11; 13; 12; 33; 32; 31; 21; 23; 24; 22; 102; 6] /\
    (forall ks, ~ shows w' (contents_after [] (fun _ => []) ops)
                  [11; 13; 12; 33; 32; 31; 21; 23; 24; 22] ks).
Proof.
  exists ex_r, 100, 101, 102, (firstn 8 ex_ops), (ex_state 8), ex_torn, 1, 3.
  split; [apply ex_reached; repeat constructor|]. split; [exists [], [2]; reflexivity|].
  split; [discriminate|]. exact ex_torn_witness.
Qed.
Print Assumptions C29_swap_adjacent_refuted.

(** C30.  The documentation promises that an unknown [before] key means "at the
    end".  In the code, insert and move_before panic whenever the [before] key is
    not in the list. *)
Theorem C30_unknown_reference_panics :
  forall r fr s e ops w k b st,
  reached r fr s e ops w -> ~ In b (keys_after ops) ->
  dl_insert w k (Some b) st = None /\ dl_move w k (Some b) = None.
Proof.
  intros r fr s e ops w k b st R H.
  destruct (reached_inv _ _ _ _ _ _ R) as (segs & P & Q & I & K & AI & S & EE).
  rewrite <- K in H. apply (linv_none _ _ _ _ _ I) in H.
  unfold dl_insert, dl_move, ref_node. rewrite H. auto.
Qed.
Print Assumptions C30_unknown_reference_panics.

Example C30_nonvacuous : reached ex_r 100 101 102 (firstn 8 ex_ops) (ex_state 8) /\
  ~ In 7 (keys_after (firstn 8 ex_ops)).
Proof. split; [apply ex_reached; repeat constructor|]. vm_compute. intuition discriminate. Qed.

(** ... and moving an item before itself does not leave the list unchanged: the
    item's start marker ends up behind its end marker. *)
Theorem C30_self_move_refuted :
  exists r fr s e ops w w' k,
    reached r fr s e ops w /\ In k (keys_after ops) /\ dl_move w k (Some k) = Some w' /\
    kids (rdom (lw_r w)) 0 = [5; 101; 11; 13; 12; 31; 33; 32; 21; 23; 24; 22; 102; 6] /\
    kids (rdom (lw_r w')) 0 = [5; 101; 11; 13; 12; 33; 32; 31; 21; 23; 24; 22; 102; 6].
Proof.
  exists ex_r, 100, 101, 102, (firstn 8 ex_ops), (ex_state 8),
    (match dl_move (ex_state 8) 3 (Some 3) with Some w => w | None => ex_w0 end), 3.
  split; [apply ex_reached; repeat constructor|]. split; [vm_compute; auto|].
  split; [apply is_some; vm_compute; reflexivity|]. split; vm_compute; reflexivity.
Qed.
Print Assumptions C30_self_move_refuted.

(** C31.  In any reachable state: dropping the render takes exactly the list's
    nodes out of the document (what stood before and after them remains, all other
    elements are unchanged) and keeps items, order and contents; rendering puts
    the whole list, unchanged, between the nodes of the new place. *)
Theorem C31_render_unrender :
  forall r fr s e ops w,
  reached r fr s e ops w ->
  (rendered w -> exists n w' P m Q, dl_cont (lw_l w) = Real n /\ dl_unrender w = Some w' /\
     kids (rdom (lw_r w)) n = P ++ (s :: m ++ [e]) ++ Q /\
     shows w (contents_after [] (fun _ => []) ops) m (keys_after ops) /\
     kids (rdom (lw_r w')) n = P ++ Q /\
     kids (rdom (lw_r w')) (cget (dl_cont (lw_l w'))) = s :: m ++ [e] /\
     shows w' (contents_after [] (fun _ => []) ops) m (keys_after ops) /\
     (forall q, q <> n -> q <> cget (dl_cont (lw_l w')) -> kids (rdom (lw_r w')) q = kids (rdom (lw_r w)) q)) /\
  (forall c, (exists f, dl_cont (lw_l w) = Fake f) -> room w c ->
     exists n w' P m Q, dl_render w c = Some w' /\ dl_cont (lw_l w') = Real n /\
     kids (rdom (lw_r w)) (cget (dl_cont (lw_l w))) = s :: m ++ [e] /\
     shows w (contents_after [] (fun _ => []) ops) m (keys_after ops) /\
     kids (rdom (lw_r w)) n = P ++ Q /\
     kids (rdom (lw_r w')) n = P ++ (s :: m ++ [e]) ++ Q /\
     shows w' (contents_after [] (fun _ => []) ops) m (keys_after ops) /\
     (forall q, q <> n -> q <> cget (dl_cont (lw_l w)) -> kids (rdom (lw_r w')) q = kids (rdom (lw_r w)) q)).
Proof.
  intros r fr s e ops w R.
  destruct (reached_inv _ _ _ _ _ _ R) as (segs & P & Q & I & K & AI & S & EE). rewrite <- K.
  assert (VK := v_kids _ _ _ _ _ _ _ _ (li_view _ _ _ _ I)). rewrite S, EE in VK.
  destruct (linv_shows _ _ _ _ _ I AI) as (SH & _ & _). split.
  - intro RD. destruct (unrender_ok _ _ _ _ I RD) as (w' & n & HC & E & I' & HC' & SI & SD & S1 & S2 & S3 & G & KN & KO).
    assert (AI' : alive_inv w' (contents_after [] (fun _ => []) ops)).
    { intros k st H. rewrite G. apply AI. rewrite <- SI; auto. }
    destruct (linv_shows _ _ _ _ _ I' AI') as (SH' & _ & _). rewrite G in SH'.
    exists n, w', P, (mid (rgrp (lw_r w)) segs), Q. rewrite HC in VK. simpl in VK.
    repeat (split; auto).
    + rewrite VK. simpl. rewrite <- app_assoc. auto.
    + assert (VK' := v_kids _ _ _ _ _ _ _ _ (li_view _ _ _ _ I')). rewrite S1, S2, S, EE, G in VK'. exact VK'.
    + rewrite HC'. simpl. auto.
  - intros c HF RM. destruct HF as [f HF]. assert (CI := li_cont _ _ _ _ I). rewrite HF in CI.
    destruct CI as (-> & -> & ->).
    destruct (render_ok _ _ c I) as (w' & g & n & base & p & P' & Q' & RR & E & _ & _ & KPQ & _ & I' & HC & SI & SD & S1 & S2 & S3 & G & KO); eauto.
    assert (AI' : alive_inv w' (contents_after [] (fun _ => []) ops)).
    { intros k st H. rewrite G. apply AI. rewrite <- SI; auto. }
    destruct (linv_shows _ _ _ _ _ I' AI') as (SH' & _ & _).
    assert (ME : mid (rgrp (lw_r w')) segs = mid (rgrp (lw_r w)) segs) by (apply mid_ext; auto).
    rewrite ME in SH'.
    exists n, w', P', (mid (rgrp (lw_r w)) segs), Q'.
    repeat (split; auto).
    + assert (VK' := v_kids _ _ _ _ _ _ _ _ (li_view _ _ _ _ I')). rewrite S1, S2, S, EE, ME, HC in VK'.
      simpl in VK'. rewrite VK'. simpl. rewrite <- app_assoc. auto.
    + rewrite HF. simpl. auto.
Qed.
Print Assumptions C31_render_unrender.

Example C31_nonvacuous :
  reached ex_r 100 101 102 (firstn 2 ex_ops) (ex_state 2) /\ room (ex_state 2) ex_ctx /\
  (exists f, dl_cont (lw_l (ex_state 2)) = Fake f) /\
  reached ex_r 100 101 102 (firstn 14 ex_ops) (ex_state 14) /\ rendered (ex_state 14).
Proof.
  split; [apply ex_reached; repeat constructor|]. split; [apply ex_room; auto|].
  split; [exists 100; vm_compute; reflexivity|]. split; [apply ex_reached; repeat constructor|]. exists 0; vm_compute; reflexivity.
Qed.

(** C32, the parts that hold.  (1) A list rendered at path [p] is placed after all
    siblings of smaller path and before all siblings of larger path that are
    rendered at that moment. *)
Theorem C32_rendered_in_place_partial :
  forall r fr s e ops w base p g cont F B R,
  reached r fr s e ops w -> (exists f, dl_cont (lw_l w) = Fake f) -> room w (ctx_at base p) ->
  base_of g cont R base ->
  kids (rdom (lw_r w)) cont = F ++ B ++ R ->
  StronglySorted path_lt (map (fun x => rev (fst x)) (rgrp (lw_r w) g)) ->
  (forall x, In x (rgrp (lw_r w) g) -> rev (fst x) <> p) ->
  (* the siblings stand in path order in [B], possibly with other nodes between *)
  filter (fun n => memb n (map snd (rgrp (lw_r w) g))) B = map snd (rgrp (lw_r w) g) ->
  exists w' m B1 B2 G1 G2, dl_render w (ctx_at base p) = Some w' /\
    kids (rdom (lw_r w')) cont = F ++ B1 ++ (s :: m ++ [e]) ++ B2 ++ R /\ B = B1 ++ B2 /\
    rgrp (lw_r w) g = G1 ++ G2 /\
    (forall x, In x G1 -> path_lt (rev (fst x)) p /\ In (snd x) B1) /\
    (forall x, In x G2 -> path_lt p (rev (fst x)) /\ In (snd x) B2).
Proof.
  intros r fr s e ops w base p g cont F B R RE HF RM BO K S NP FB.
  destruct (reached_inv _ _ _ _ _ _ RE) as (segs & P & Q & I & KK & AI & SS & EE).
  assert (CI := li_cont _ _ _ _ I). destruct HF as [f HF]. rewrite HF in CI. destruct CI as (_ & -> & ->).
  destruct (render_place w segs base p g cont F B R I (ex_intro _ f HF) RM BO K S FB)
    as (w' & B1 & B2 & G1 & G2 & E & EB & EG & K' & F1 & F2 & L1 & L2).
  { intro X. apply in_map_iff in X as (x & X1 & X2). apply (NP x); auto. }
  rewrite SS, EE in K'.
  exists w', (mid (rgrp (lw_r w)) segs), B1, B2, G1, G2. repeat (split; auto).
  - assert (X : In (snd x) (filter (ingroup (rgrp (lw_r w) g)) B1)) by (rewrite F1; apply in_map; auto).
    apply filter_In in X. tauto.
  - assert (X : In (snd x) (filter (ingroup (rgrp (lw_r w) g)) B2)) by (rewrite F2; apply in_map; auto).
    apply filter_In in X. tauto.
Qed.
Print Assumptions C32_rendered_in_place_partial.

(** (2) A sibling rendering later, beside a list (the run of nodes [L]) at path [p]:
    with a larger path it lands after the list; with a smaller path it lands before
    the list if and only if some already rendered sibling lies between it and the
    list.  What is missing for C32 is the remaining case, refuted below. *)
Theorem C32_later_sibling_partial :
  forall st g cont base F B1 L B2 R G1 G2 p q n,
  dom_wf (rdom st) -> base_of g cont R base ->
  kids (rdom st) cont = F ++ B1 ++ L ++ B2 ++ R ->
  rgrp st g = G1 ++ G2 -> StronglySorted path_lt (map (fun x => rev (fst x)) (G1 ++ G2)) ->
  filter (fun x => memb x (map snd (G1 ++ G2))) B1 = map snd G1 ->
  filter (fun x => memb x (map snd (G1 ++ G2))) B2 = map snd G2 ->
  (forall x, In x G1 -> path_lt (rev (fst x)) p) ->
  (forall x, In x G2 -> path_lt p (rev (fst x))) ->
  frag (rdom st) n = false -> par (rdom st) n = None ->
  p <> q -> ~ In q (map (fun x => rev (fst x)) (G1 ++ G2)) ->
  exists st', add_child (ctx_at base q) pos_default n st = Some st' /\
    ((path_lt p q \/ (forall x, In x G1 -> ~ path_lt q (rev (fst x)))) ->
       exists X Y, kids (rdom st') cont = F ++ B1 ++ L ++ X ++ n :: Y ++ R /\ B2 = X ++ Y) /\
    ((path_lt q p /\ exists x, In x G1 /\ path_lt q (rev (fst x))) ->
       exists X Y, kids (rdom st') cont = F ++ X ++ n :: Y ++ L ++ B2 ++ R /\ B1 = X ++ Y).
Proof. intros. eapply sibling_ok; eauto. Qed.
Print Assumptions C32_later_sibling_partial.

Example C32_nonvacuous :
  (* list 101..102 at path [2] between siblings [0] (node 5) and [3] (node 6) *)
  let st := mkR (mkDom (fun n => if Nat.eqb n 0 then [5; 101; 102; 6] else [])
                  (fun n => if memb n [5; 101; 102; 6] then Some 0 else None) (fun _ => false))
                (fun g => if Nat.eqb g 50 then [([0%N], 5); ([3%N], 6)] else []) in
  dom_wf (rdom st) /\ base_of 50 0 [] (CContainer 50 0) /\
  option_map (fun s => kids (rdom s) 0) (add_child (ctx_at (CContainer 50 0) [5%N]) pos_default 9 st)
    = Some [5; 101; 102; 6; 9] /\
  option_map (fun s => kids (rdom s) 0) (add_child (ctx_at (CContainer 50 0) [2%N; 1%N]) pos_default 9 st)
    = Some [5; 101; 102; 9; 6].
Proof.
  intro st. split; [|split; [constructor|split; reflexivity]]. split.
  - intro p. simpl. destruct (Nat.eqb p 0); repeat constructor; simpl; intuition congruence.
  - intros p n. simpl. unfold memb; simpl. destruct (Nat.eqb_spec p 0) as [->|NP]; simpl;
    destruct (Nat.eqb_spec n 5) as [->|]; simpl; try (intuition congruence);
    destruct (Nat.eqb_spec n 101) as [->|]; simpl; try (intuition congruence);
    destruct (Nat.eqb_spec n 102) as [->|]; simpl; try (intuition congruence);
    destruct (Nat.eqb_spec n 6) as [->|]; simpl; intuition congruence.
Qed.

(** C32 is false of the code: in join((a, list)), if [a] (index 0) renders its node
    after the list (index 1) was rendered, it appears behind the whole list. *)
Theorem C32_late_smaller_sibling_refuted :
  exists r fr s e w0 w1 r2,
    fresh_list r fr s e /\ dl_new r fr s e = Some w0 /\
    dl_render w0 (CChild (CContainer 50 0) 1) = Some w1 /\ room w0 (CChild (CContainer 50 0) 1) /\
    add_child (CChild (CContainer 50 0) 0) pos_default 7 (lw_r w1) = Some r2 /\
    kids (rdom (lw_r w1)) 0 = [s; e] /\ kids (rdom r2) 0 = [s; e; 7].
Proof.
  pose (d := mkDom (fun _ => []) (fun _ => None) (fun n => Nat.eqb n 100)).
  pose (r := mkR d (fun _ => [])).
  pose (w0 := match dl_new r 100 101 102 with Some w => w | None => ex_w0 end).
  pose (w1 := match dl_render w0 (CChild (CContainer 50 0) 1) with Some w => w | None => ex_w0 end).
  pose (r2 := match add_child (CChild (CContainer 50 0) 0) pos_default 7 (lw_r w1) with Some r => r | None => r end).
  exists r, 100, 101, 102, w0, w1, r2.
  split.
  { unfold fresh_list. split; [split; simpl; [constructor|intuition congruence]|]. simpl. repeat split; auto; discriminate. }
  split; [reflexivity|]. split; [reflexivity|]. split.
  { exists 50, 0, (CContainer 50 0), [1%N]. split; auto. split; [repeat constructor|].
    split; [vm_compute; discriminate|]. split; auto. split; [vm_compute; intuition discriminate|].
    split; [constructor|]. simpl. tauto. }
  split; [reflexivity|]. split; reflexivity.
Qed.
Print Assumptions C32_late_smaller_sibling_refuted.
