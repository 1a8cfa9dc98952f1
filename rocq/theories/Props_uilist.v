(** Properties C56-C58: applications whose components contain dynamic lists. *)
From Coq Require Import List Arith NArith Bool.
From Verif Require Import Position Dom Context Spec_path Spec_list Render_history DynList Ui UiList Spec_uilist
  UiList_done UiList_fuel.
Import ListNotations.

(** C56.  Mount in [root] any application built from elements, combinators, async
    blocks and dynamic lists, nested in any way, and let it be polled in any way any
    number of times ([scheds]): any children in any order, any part dropped and
    replaced at any moment, lists created, rendered, changed by any method call
    from anywhere, un-rendered, rendered again elsewhere, dropped; items polled,
    completed or cancelled in any order.  Then no poll panics, unless the program
    misuses a list ([Bad]); and as long as it does not, the document is the
    specified one. *)
Theorem C56_document_with_lists :
  forall (d0 : dom) (gr : gid -> group) (fuel : nat) (root : node) (g : gid) (a : addr)
         (child : ufut) (scheds : list usched),
  dom_wf d0 -> fresh_run d0 gr root g (run_made child scheds) ->
  upoll_root fuel g scheds (umount root g a child) (mkUW (mkR d0 gr) [] None) <> Panic /\
  forall f' w',
    upoll_root fuel g scheds (umount root g a child) (mkUW (mkR d0 gr) [] None) = Ok (f', w') ->
    doc_ok d0 (mine root (run_made child scheds)) f' w'.
Proof.
  intros d0 gr fuel root g a child scheds W FR.
  destruct (run_ok d0 gr fuel root g a child scheds W FR) as [NP K]. split; auto. intros f' w' E. apply (K f' w' E).
Qed.
Print Assumptions C56_document_with_lists.

(** [fuel] only bounds the recursion of drops: from some amount on the result of
    the run is always the same, and it is not [NoFuel]. *)
Theorem C56_every_run_ends :
  forall (d0 : dom) (gr : gid -> group) (root : node) (g : gid) (a : addr)
         (child : ufut) (scheds : list usched),
  exists N r, r <> NoFuel /\
    forall fuel, N <= fuel ->
      upoll_root fuel g scheds (umount root g a child) (mkUW (mkR d0 gr) [] None) = r.
Proof.
  intros d0 gr root g a child scheds.
  destruct (run_settles scheds g (umount root g a child) (mkUW (mkR d0 gr) [] None)) as (N & r & NF & E & _).
  - constructor.
  - exists N, r. auto.
Qed.
Print Assumptions C56_every_run_ends.

(** An application: an async block that makes a list, puts two items into it, and
    shows it between two elements; the second item (shown first) makes and shows a
    list of its own. *)
Definition exl_dom : dom := mkDom (fun q => match q with 0 => [40] | _ => [] end)
  (fun n => match n with 40 => Some 0 | _ => None end) (fun n => (n =? 12) || (n =? 32)).
Definition exl_w0 : uworld := mkUW (mkR exl_dom (fun _ => [])) [] None.
Definition exl_app : ufut := umount 0 0 0 (UBlock ULeaf).
Definition exl_s1 : usched :=
  KElem (KBlock
    [ANew 1 7 10 11 12 (UBlock (UComb 0 [UElem 1 1 0 ShouldAdd ULeaf; UList 1 false; UElem 2 2 0 ShouldAdd ULeaf]));
     ACall 1 (OInsert 100 None (mkStored 3 20 21) 0 (UElem 4 4 0 ShouldAdd ULeaf));
     ACall 1 (OInsert 101 (Some 100) (mkStored 5 22 23) 0 (UBlock ULeaf));
     AWait (KOwn (KBlock [AWait (KComb
       [(2, KElem KNone); (0, KElem KNone);
        (1, KList [LPoll 100 (KElem KNone);
                   LPoll 101 (KBlock [ANew 2 8 30 31 32 (UList 2 false);
                                      ACall 2 (OInsert 200 None (mkStored 6 24 25) 0 (UElem 7 8 0 ShouldAdd ULeaf));
                                      AWait (KOwn (KList [LPoll 200 (KElem KNone)]))])])])]))]).
(** the first list's first item is moved behind the other, a third one is inserted
    between them; then the item 100 is removed (its future still there) *)
Definition exl_s2 : usched :=
  KElem (KBlock [ACall 1 (OMove 101 None); ACall 1 (OInsert 102 (Some 101) (mkStored 9 26 27) 0 (UElem 5 10 0 ShouldAdd ULeaf));
                 AWait (KOwn (KBlock [AWait (KComb [(1, KList [LPoll 102 (KElem KNone)])])]));
                 ACall 1 (ORemove 100)]).
(** the removed item's future is dropped *)
Definition exl_s3 : usched := KElem (KBlock [AWait (KOwn (KBlock [AWait (KComb [(1, KList [LReap 0])])]))]).
(** the list is un-rendered and rendered again, in another element, without the
    elements around it *)
Definition exl_s4 : usched :=
  KElem (KBlock [AWait (KOwn (KBlock [AReplace (UElem 6 11 0 ShouldAdd (UList 1 false)); AWait (KElem (KList []))]))]).

Definition kids_of (q : node) (r : res (ufut * uworld)) : option (list node) :=
  match r with Ok (_, w) => Some (kids (rdom (u_r w)) q) | _ => None end.

Lemma exl_fresh extra : NoDup (0 :: flat_map made_nodes (run_made (UBlock ULeaf) [exl_s1; exl_s2; exl_s3; exl_s4] ++ extra)) ->
  NoDup (0 :: flat_map made_gids (run_made (UBlock ULeaf) [exl_s1; exl_s2; exl_s3; exl_s4] ++ extra)) ->
  flat_map made_lids extra = [] -> flat_map made_frags extra = [] -> (forall f, In (MFut f) extra -> unew f) ->
  (forall n, In n (flat_map made_nodes extra) -> n <> 40 /\ n <> 12 /\ n <> 32) ->
  fresh_run exl_dom (fun _ => []) 0 0 (run_made (UBlock ULeaf) [exl_s1; exl_s2; exl_s3; exl_s4] ++ extra).
Proof.
  intros N1 N2 L1 L2 F X. unfold fresh_run. split; [exact N1|]. split; [exact N2|].
  rewrite !flat_map_app, L1, L2, !app_nil_r.
  split; [vm_compute; repeat (constructor; [simpl; intuition congruence|]); constructor|].
  split; [vm_compute; repeat (constructor; [simpl; intuition congruence|]); constructor|].
  split; [reflexivity|].
  split.
  { intros n Q. apply in_app_iff in Q as [Q|Q].
    - vm_compute in Q. repeat (destruct Q as [<-|Q]; [split; reflexivity|]). destruct Q.
    - destruct (X n Q) as (A & B & C). simpl. split.
      + destruct (Nat.eq_dec n 40); [contradiction|]. do 40 (destruct n as [|n]; [reflexivity|]). destruct n; [congruence|reflexivity].
      + apply Nat.eqb_neq in B. apply Nat.eqb_neq in C. rewrite B, C. reflexivity. }
  split; [reflexivity|].
  split. { intros fr Q. vm_compute in Q. repeat (destruct Q as [<-|Q]; [split; reflexivity|]). destruct Q. }
  split. { intros q x Q. destruct q; simpl in Q; [destruct Q as [<-|[]]; reflexivity|destruct Q]. }
  intros f Q. apply in_app_iff in Q as [Q|Q]; [|auto].
  vm_compute in Q. repeat (destruct Q as [Q|Q]; [try discriminate; injection Q as <-; vm_compute; repeat split; discriminate|]). destruct Q.
Qed.
Lemma exl_wf : dom_wf exl_dom.
Proof.
  split.
  - intro p. destruct p; simpl; repeat constructor; auto.
  - intros p n. simpl. split.
    + destruct p; [|intros []]. intros [<-|[]]. reflexivity.
    + destruct (Nat.eq_dec n 40) as [->|NE].
      * intro E. injection E as <-. left; auto.
      * intro E. exfalso. revert NE E. do 40 (destruct n as [|n]; [discriminate|]). destruct n; [congruence|discriminate].
Qed.

Example C56_nonvacuous :
  dom_wf exl_dom /\
  fresh_run exl_dom (fun _ => []) 0 0 (run_made (UBlock ULeaf) [exl_s1; exl_s2; exl_s3; exl_s4]) /\
  kids_of 0 (upoll_root 20 0 [exl_s1] exl_app exl_w0)
    = Some [40; 1; 10; 22; 30; 24; 7; 25; 31; 23; 20; 4; 21; 11; 2] /\
  kids_of 0 (upoll_root 20 0 [exl_s1; exl_s2] exl_app exl_w0)
    = Some [40; 1; 10; 4; 26; 5; 27; 22; 30; 24; 7; 25; 31; 23; 11; 2] /\
  kids_of 0 (upoll_root 20 0 [exl_s1; exl_s2; exl_s3] exl_app exl_w0)
    = Some [40; 1; 10; 26; 5; 27; 22; 30; 24; 7; 25; 31; 23; 11; 2] /\
  kids_of 0 (upoll_root 20 0 [exl_s1; exl_s2; exl_s3; exl_s4] exl_app exl_w0) = Some [40; 6] /\
  kids_of 6 (upoll_root 20 0 [exl_s1; exl_s2; exl_s3; exl_s4] exl_app exl_w0)
    = Some [10; 26; 5; 27; 22; 30; 24; 7; 25; 31; 23; 11].
Proof.
  split; [exact exl_wf|]. split.
  { rewrite <- (app_nil_r (run_made _ _)). apply exl_fresh.
    - vm_compute. repeat (constructor; [simpl; intuition congruence|]). constructor.
    - vm_compute. repeat (constructor; [simpl; intuition congruence|]). constructor.
    - reflexivity.
    - reflexivity.
    - intros f [].
    - intros n []. }
  repeat split; vm_compute; reflexivity.
Qed.

(** ** C57: when list methods work *)

(** A list knows whether it is rendered: exactly the rendered lists refuse to be
    rendered again (the documented panic, [Bad RenderedTwice]), and every rendered
    list exists. *)
Theorem C57_rendered_lists_know :
  forall (d0 : dom) (gr : gid -> group) (fuel : nat) (root : node) (g : gid) (a : addr)
         (child : ufut) (scheds : list usched) (f' : ufut) (w' : uworld) (l : lid),
  dom_wf d0 -> fresh_run d0 gr root g (run_made child scheds) ->
  upoll_root fuel g scheds (umount root g a child) (mkUW (mkR d0 gr) [] None) = Ok (f', w') ->
  (rendered l f' w' -> exists o, get_l l (u_ls w') = Some o) /\
  forall o c, get_l l (u_ls w') = Some o ->
    (rendered l f' w' <-> exists n, dl_cont (lo_l o) = Real n) /\
    (rendered l f' w' -> list_render l c w' = Bad RenderedTwice) /\
    (~ rendered l f' w' -> list_render l c w' <> Bad RenderedTwice).
Proof.
  intros d0 gr fuel root g a child scheds f' w' l W FR E.
  destruct (run_ok d0 gr fuel root g a child scheds W FR) as [_ K]. destruct (K f' w' E) as (_ & K1 & K2 & _).
  split; auto. intros o c GL. specialize (K1 l o GL). unfold list_render. rewrite GL. destruct (dl_cont (lo_l o)) as [n|n].
  - split; [split; eauto|]. split; auto.
  - split; [split; [contradiction|intros (x & X); discriminate]|]. split; [contradiction|].
    intros _. destruct (lost_ref c pos_default w'); [discriminate|]. destruct (dl_render _ c); discriminate.
Qed.
Print Assumptions C57_rendered_lists_know.

Lemma op_bad_spec op ks : op_bad op ks = None <-> may_call op ks.
Proof.
  assert (M : forall k, memb k ks = true <-> In k ks).
  { intro k. unfold memb. rewrite existsb_exists. split; [intros (x & H & E); apply Nat.eqb_eq in E; congruence|intro H; exists k; split; auto; apply Nat.eqb_refl]. }
  destruct op as [k [b|] st a f|k|k [b|]|a b|f]; cbn [op_bad okey may_call]; try tauto.
  - rewrite <- M. destruct (memb b ks); split; congruence.
  - rewrite <- !M. destruct (memb k ks), (memb b ks); cbn; try (split; [discriminate|intuition discriminate]).
    destruct (Nat.eqb_spec b k); split; intuition congruence.
  - rewrite <- M. destruct (memb k ks); cbn; split; congruence.
  - rewrite <- !M, <- Calls_proofs.adjacentb_iff. destruct (memb a ks), (memb b ks); cbn; try (split; [discriminate|intuition discriminate]).
    destruct (Calls.adjacentb a b ks); split; intuition congruence.
Qed.
(** After any run, [insert], [remove], [move_before], [swap] and [retain] with keys that are
    in the list work (called from anywhere, for example an event handler), if the
    list is not rendered, or is rendered in an element: they return normally, the
    keys of the list are those the caller asked for, and the document is again the
    specified one.  The full claim, for lists rendered directly in an item of
    another list too, is refuted below. *)
Theorem C57_list_methods_work_partial :
  forall (d0 : dom) (gr : gid -> group) (fuel : nat) (root : node) (g : gid) (a : addr)
         (child : ufut) (scheds : list usched) (l : lid) (op : uop) (f' : ufut) (w' : uworld) (o : lobj),
  dom_wf d0 -> fresh_run d0 gr root g (run_made child scheds ++ op_made op) ->
  upoll_root fuel g scheds (umount root g a child) (mkUW (mkR d0 gr) [] None) = Ok (f', w') ->
  get_l l (u_ls w') = Some o ->
  ~ rendered l f' w' \/ in_element l f' w' ->
  may_call op (lo_keys o) ->
  exists w2, list_call l op w' = Ok w2 /\
    doc_ok d0 (mine root (run_made child scheds ++ op_made op)) f' w2 /\
    exists o', get_l l (u_ls w2) = Some o' /\ lo_keys o' = keys_after op (lo_keys o).
Proof.
  intros. assert (B : op_bad op (lo_keys o) = None) by (apply op_bad_spec; assumption).
  replace (keys_after op (lo_keys o)) with (op_keys op (lo_keys o)) by (destruct op; reflexivity). eapply run_call; eauto.
Qed.
Print Assumptions C57_list_methods_work_partial.

(** the example run, then an insertion into the outer list (rendered in the root) *)
Definition exl_op : uop := OInsert 103 (Some 101) (mkStored 12 28 29) 0 (UElem 8 13 0 ShouldAdd ULeaf).
Definition exl_obs (r : res (ufut * uworld)) :=
  match r with
  | Ok (f', w') => Some (f', all_sibs w', option_map lo_keys (get_l 1 (u_ls w')),
      match list_call 1 exl_op w' with Ok w2 => kids (rdom (u_r w2)) 6 | _ => [] end)
  | _ => None
  end.
Example C57_nonvacuous :
  fresh_run exl_dom (fun _ => []) 0 0 (run_made (UBlock ULeaf) [exl_s1; exl_s2; exl_s3; exl_s4] ++ op_made exl_op) /\
  match upoll_root 20 0 [exl_s1; exl_s2; exl_s3; exl_s4] exl_app exl_w0 with
  | Ok (f', w') => in_element 1 f' w' /\ rendered 2 f' w' /\ ~ rendered 3 f' w' /\
      match get_l 1 (u_ls w') with Some o => may_call exl_op (lo_keys o) | None => False end /\
      match list_call 1 exl_op w' with Ok w2 => kids (rdom (u_r w2)) 6 | _ => [] end
        = [10; 26; 5; 27; 28; 29; 22; 30; 24; 7; 25; 31; 23; 11]
  | _ => False
  end.
Proof.
  split.
  { apply exl_fresh.
    - vm_compute. repeat (constructor; [simpl; intuition congruence|]). constructor.
    - vm_compute. repeat (constructor; [simpl; intuition congruence|]). constructor.
    - reflexivity.
    - reflexivity.
    - simpl. intros f [Q|[Q|[Q|[Q|[]]]]]; try discriminate. injection Q as <-. vm_compute. auto.
    - simpl. intros n Q. intuition congruence. }
  destruct (upoll_root 20 0 [exl_s1; exl_s2; exl_s3; exl_s4] exl_app exl_w0) as [[f' w']| | |] eqn:E; [|vm_compute in E; discriminate..].
  assert (X : exl_obs (Ok (f', w')) = exl_obs (upoll_root 20 0 [exl_s1; exl_s2; exl_s3; exl_s4] exl_app exl_w0)) by (rewrite E; reflexivity).
  clear E. match type of X with _ = ?r => let v := eval vm_compute in r in replace r with v in X by (vm_compute; reflexivity) end.
  unfold exl_obs in X. injection X as X1 X2 X3 X4. unfold rendered, in_element.
  rewrite X1, X2, X4. split; [|split; [|split; [|split; [|reflexivity]]]].
  - exists 6, (UList 1 true). simpl. auto.
  - right. simpl. eexists. split; [right; right; left; reflexivity|]. simpl. auto.
  - intros [(n & c & Q & Z)|(s & Q & Z)].
    + simpl in Q. repeat (destruct Q as [Q|Q]; [injection Q as <- <-; simpl in Z; intuition congruence|]). destruct Q.
    + simpl in Q. repeat (destruct Q as [<-|Q]; [simpl in Z; intuition congruence|]). destruct Q.
  - destruct (get_l 1 (u_ls w')) as [o|]; [|discriminate]. simpl in X3. injection X3 as X3. rewrite X3. cbn; auto.
Qed.

(** the state after the example run *)
Definition exl_w4 : uworld :=
  match upoll_root 20 0 [exl_s1; exl_s2; exl_s3; exl_s4] exl_app exl_w0 with Ok (_, w) => w | _ => exl_w0 end.
(** does the method itself (without the checks of [list_call]) return *)
Definition returns (w : uworld) (l : lid) (op : uop) : option bool :=
  option_map (fun o => match op_run op (mkLW (u_r w) (lo_l o)) with Some _ => true | None => false end)
    (get_l l (u_ls w)).

(** C57, the part that does not hold.  The inner list 2 is rendered directly in an
    item of list 1; list 1 is un-rendered and rendered again in another element,
    with the item (and the inner list in it) still on screen.  The inner list's
    methods now panic, with keys that are in the list: it still remembers the
    element in which it was rendered first. *)
Theorem C57_list_methods_refuted :
  exists d0 gr root g a child scheds fuel f' w' l o,
    dom_wf d0 /\ fresh_run d0 gr root g (run_made child scheds ++ op_made exl_op) /\
    upoll_root fuel g scheds (umount root g a child) (mkUW (mkR d0 gr) [] None) = Ok (f', w') /\
    rendered l f' w' /\ get_l l (u_ls w') = Some o /\
    forall op, In op [OInsert 103 None (mkStored 12 28 29) 0 (UElem 8 13 0 ShouldAdd ULeaf); ORemove 200;
                      OMove 200 None; ORetain (fun _ => false)] ->
      may_call op (lo_keys o) /\ op_run op (mkLW (u_r w') (lo_l o)) = None.
Proof.
  exists exl_dom, (fun _ => []), 0, 0, 0, (UBlock ULeaf), [exl_s1; exl_s2; exl_s3; exl_s4], 20.
  destruct C57_nonvacuous as [FR K]. fold exl_app exl_w0.
  destruct (upoll_root 20 0 [exl_s1; exl_s2; exl_s3; exl_s4] exl_app exl_w0) as [[f' w']| | |] eqn:E; try contradiction.
  destruct K as (_ & R & _).
  assert (EW : exl_w4 = w') by (unfold exl_w4; rewrite E; reflexivity).
  destruct (get_l 2 (u_ls w')) as [o|] eqn:G.
  2: { rewrite <- EW in G. assert (X : returns exl_w4 2 (ORemove 200) = Some false) by (vm_compute; reflexivity). unfold returns in X. rewrite G in X. discriminate. }
  exists f', w', 2, o. split; [exact exl_wf|]. split; [exact FR|]. split; [reflexivity|]. split; [exact R|]. split; [exact G|].
  assert (KS : option_map lo_keys (get_l 2 (u_ls exl_w4)) = Some [200]) by (vm_compute; reflexivity).
  rewrite EW, G in KS. simpl in KS. injection KS as KS.
  assert (X : forall op, returns exl_w4 2 op = Some false -> op_run op (mkLW (u_r w') (lo_l o)) = None).
  { intros op Z. unfold returns in Z. rewrite EW, G in Z. simpl in Z. destruct (op_run op _); [discriminate|auto]. }
  clear E EW. intros op Q. rewrite KS.
  repeat (destruct Q as [<-|Q]; [split; [cbn; auto|apply X; vm_compute; reflexivity]|]). destruct Q.
Qed.
Print Assumptions C57_list_methods_refuted.

(** Why the other misuses are excluded: the calls panic, on the outer list of the
    example (keys 102, 101).  [AdjacentSwap] and [BeforeItself] are C29 and C30;
    [Dangling] programs are rejected by rustc ([render] borrows the list). *)
Example C57_misuses_panic :
  returns exl_w4 1 (OInsert 103 (Some 99) (mkStored 12 28 29) 0 ULeaf) = Some false /\
  returns exl_w4 1 (OMove 99 None) = Some false /\ returns exl_w4 1 (OMove 101 (Some 99)) = Some false /\
  returns exl_w4 1 (OSwap 99 101) = Some false /\ returns exl_w4 1 (OSwap 101 99) = Some false /\
  option_map (fun o => match dl_render (mkLW (u_r exl_w4) (lo_l o)) (CContainer 0 0) with Some _ => true | None => false end)
    (get_l 1 (u_ls exl_w4)) = Some false.
Proof. repeat split; vm_compute; reflexivity. Qed.

(** ** C58: items that remove themselves *)

(** Only something rendered by an item that is no longer in its list can hit
    [Bad RemovedItem]. *)
Theorem C58_current_items_render_partial :
  forall (w : uworld) (c : ctx) (g : gid) (e : node) (p : path) (q : pos),
  live_item g (u_ls w) = true -> lost_ref (ctx_at (CSibling c g e) p) q w = false.
Proof.
  intros w c g e p q LV.
  assert (X : forall p b q, (forall q, lost_ref b q w = false) -> lost_ref (ctx_at b p) q w = false).
  { intro p0. induction p0 as [|i p0 IH]; intros b q0 Z; [apply Z|]. simpl. apply IH. intro q1. simpl. apply Z. }
  apply X. intro q0. simpl. destruct (range_from_first q0 (rgrp (u_r w) g)); auto. rewrite LV. reflexivity.
Qed.
Print Assumptions C58_current_items_render_partial.
(** And nothing rendered in a container (not by an item of a list) can. *)
Theorem C58_only_removed_items_partial :
  forall (w : uworld) (c : ctx) (q : pos), lost_ref c q w = true ->
  exists c0 g e p, c = ctx_at (CSibling c0 g e) p /\ live_item g (u_ls w) = false.
Proof.
  intros w c. induction c as [n r|c IH g e|c IH i]; intros q; simpl.
  - discriminate.
  - destruct (range_from_first q (rgrp (u_r w) g)); [discriminate|]. intro H. exists c, g, e, []. split; [reflexivity|].
    apply negb_true_iff. exact H.
  - intro H. destruct (IH _ H) as (c0 & g & e & p & -> & L). exists c0, g, e, (p ++ [i]). split; auto.
    clear. generalize (CSibling c0 g e) as b. induction p as [|j p IH]; intro b; simpl; auto.
Qed.
Print Assumptions C58_only_removed_items_partial.

(** An item that is in the list when its poll begins, removes its own key, and then
    shows an element in the same poll: the program panics.  (The model stops the
    run at that point with [Bad RemovedItem]; the second part shows what the code
    does there: the insertion at the item's end marker throws.) *)
Definition exl_self : usched :=
  KElem (KBlock
    [ACall 1 (OInsert 103 None (mkStored 12 28 29) 0 (UBlock ULeaf));
     AWait (KOwn (KBlock [AWait (KElem (KList
       [LPoll 103 (KBlock [ACall 1 (ORemove 103); AReplace (UElem 8 13 0 ShouldAdd ULeaf); AWait (KElem KNone)])]))]))]).
Definition exl_before : res uworld :=
  rbind (list_call 1 (OInsert 103 None (mkStored 12 28 29) 0 (UBlock ULeaf)) exl_w4)
        (fun w => list_call 1 (ORemove 103) w).
Theorem C58_self_removal_refuted :
  upoll_root 20 0 [exl_s1; exl_s2; exl_s3; exl_s4; exl_self] exl_app exl_w0 = Bad RemovedItem /\
  match exl_before with
  | Ok w => match add_child (CSibling (CContainer 11 6) 12 29) pos_default 8 (u_r w) with
            | Some _ => Some true | None => Some false end
  | _ => None
  end = Some false.
Proof. split; vm_compute; reflexivity. Qed.
Print Assumptions C58_self_removal_refuted.

(** the same item works if it shows the element before it removes itself *)
Definition exl_self2 : usched :=
  KElem (KBlock
    [ACall 1 (OInsert 103 None (mkStored 12 28 29) 0 (UBlock ULeaf));
     AWait (KOwn (KBlock [AWait (KElem (KList
       [LPoll 103 (KBlock [AReplace (UElem 8 13 0 ShouldAdd ULeaf); AWait (KElem KNone); ACall 1 (ORemove 103)])]))]))]).
Example C58_nonvacuous :
  kids_of 6 (upoll_root 20 0 [exl_s1; exl_s2; exl_s3; exl_s4; exl_self2] exl_app exl_w0)
    = Some [10; 26; 5; 27; 22; 30; 24; 7; 25; 31; 23; 8; 11] /\
  match exl_before with Ok w => live_item 12 (u_ls w) | _ => true end = false /\
  live_item 9 (u_ls exl_w4) = true.
Proof. repeat split; vm_compute; reflexivity. Qed.
