(** Properties C05-C07, C48: a whole mounted application. *)
From Coq Require Import List Arith NArith Bool Permutation.
From Verif Require Import Position Dom Context Ui Spec_ui Ui_proofs.
Import ListNotations.

Ltac fresh_tac :=
  unfold fresh_app; simpl;
  repeat match goal with |- _ /\ _ => split end; auto;
  repeat (constructor; simpl); try (intuition congruence); try (unfold N.le; vm_compute; discriminate).

(** C05.  Mount any application built from elements, combinators and async blocks
    in [root], and let it be polled in any way any number of times ([l]): any
    children, in any order, repeatedly or not at all, with any part dropped and
    replaced by a newly created one at any moment.  Nothing panics; every rendered
    element (and the root) has as children its own previous children followed by
    exactly the elements shown by the future running inside it, in the order in
    which they are written; elements outside the application are untouched.  The
    blocker addresses are arbitrary (equal ones included). *)
Theorem C05_whole_tree :
  forall (d0 : dom) (gr : gid -> group) (root : node) (g : gid) (a : addr)
         (child : fut) (l : list sched),
  dom_wf d0 -> fresh_app d0 gr root g (child :: flat_map created l) ->
  exists f' st', poll_root l (mount root g a child) (mkU (mkR d0 gr) None 0) = Some (f', st') /\
    (exists ch', f' = mount root g a ch') /\
    (forall n ch, In (n, ch) (containers f') -> kids (rdom (ur st')) n = kids d0 n ++ out ch) /\
    (forall q, ~ In q (root :: flat_map nodes (child :: flat_map created l)) ->
       kids (rdom (ur st')) q = kids d0 q).
Proof.
  intros d0 gr root g a child l W FA.
  destruct (app_run d0 gr root g a child l W FA) as (ch' & st' & E & G & _ & _ & _ & K).
  exists (mount root g a ch'), st'. split; auto. split; eauto. split; auto.
  intros n ch H. exact (good_containers (kids d0) st' _ G n ch H).
Qed.
Print Assumptions C05_whole_tree.

(** an app: join of a div (containing a join of two texts) and an async block that
    first shows a span and is then replaced by another one *)
Definition ex_app : fut :=
  FComb 0 [FElem 1 1 0 ShouldAdd (FComb 0 [FElem 2 2 0 ShouldAdd FLeaf; FElem 3 3 0 ShouldAdd FLeaf]);
           FBlock (FElem 4 4 0 ShouldAdd FLeaf); FElem 5 5 7 ShouldAdd FLeaf].
Definition ex_scheds : list sched :=
  [SElem (SComb [(2, SElem SNone); (1, SBlock [BPoll (SElem SNone)]);
                 (0, SElem (SComb [(1, SElem SNone); (0, SElem SNone)]))]);
   SElem (SComb [(1, SBlock [BReplace (FElem 6 6 0 ShouldAdd FLeaf); BPoll (SElem SNone)])])].
Example C05_nonvacuous :
  dom_wf dom_empty /\
  fresh_app dom_empty (fun _ => []) 0 0 (ex_app :: flat_map created ex_scheds) /\
  option_map (fun r => (kids (rdom (ur (snd r))) 0, kids (rdom (ur (snd r))) 1))
    (poll_root ex_scheds (mount 0 0 0 ex_app) (mkU (mkR dom_empty (fun _ => [])) None 0))
  = Some ([1; 6; 5], [2; 3]).
Proof.
  split; [split; [intro; constructor|intros; simpl; intuition congruence]|].
  split; [|reflexivity].
  fresh_tac.
Qed.

(** C06.  Dropping a rendered element or a combinator performs exactly one removal
    in the document, whatever is nested in it, and afterwards detachment is no
    longer blocked (so the next drop works); stated for every state, context and
    future, when no nested blocker has the same address. *)
Theorem C06_drop_detaches_once :
  forall (f : fut) (a : addr) (inner : list fut) (c : ctx) (st st' : ustate),
  (exists n g ch, f = FElem n g a Added ch /\ inner = [ch]) \/ f = FComb a inner ->
  ~ In a (flat_map addrs inner) -> udrop st = None ->
  drop_fut f (Some c) st = Some st' ->
  udet st' = S (udet st) /\ udrop st' = None.
Proof.
  intros f a inner c st st' H NI U E.
  assert (X : forall st2, detach_here (Some c) (mkU (ur st) (Some a) (udet st)) = Some st2 ->
      udrop st2 = Some a /\ udet st2 = S (udet st)).
  { intros st2 D. unfold detach_here in D. simpl in D.
    destruct (remove_child_ctx c pos_default (ur st)); inversion D; subst; auto. }
  assert (Y : forall s, udrop s = Some a -> udrop (blocker_drop a s) = None /\ udet (blocker_drop a s) = udet s).
  { intros s Hs. unfold blocker_drop. rewrite Hs, Nat.eqb_refl. auto. }
  destruct H as [(n & g & ch & -> & ->)| ->].
  - rewrite drop_elem_eq in E. unfold drop_own, block_until_drop in E. rewrite U in E.
    destruct (detach_here _ _) as [st2|] eqn:D; [|discriminate].
    destruct (X st2 eq_refl) as [X1 X2].
    destruct (drop_fut ch (Some c) st2) as [st3|] eqn:E3; [|discriminate].
    apply drop_blocked with (b := a) in E3; auto; [|simpl in NI; rewrite app_nil_r in NI; auto].
    destruct E3 as [E4 E5]. inversion E; subst. destruct (Y st3 E4). split; congruence.
  - rewrite drop_comb_eq in E. unfold block_until_drop in E. rewrite U in E.
    destruct (detach_here _ _) as [st2|] eqn:D; [|discriminate].
    destruct (X st2 eq_refl) as [X1 X2].
    destruct (drop_all (Some c) inner st2) as [st3|] eqn:E3; [|discriminate].
    apply drop_all_blocked with (b := a) in E3; auto.
    destruct E3 as [E4 E5]. inversion E; subst. destruct (Y st3 E4). split; congruence.
Qed.
Print Assumptions C06_drop_detaches_once.

(** a rendered element with two rendered elements inside: one removal *)
Example C06_nonvacuous :
  let f := FElem 1 1 10 Added (FComb 11 [FElem 2 2 12 Added FLeaf; FElem 3 3 13 Added FLeaf]) in
  let d := mkDom (fun q => match q with 0 => [1] | 1 => [2; 3] | _ => [] end)
                 (fun n => match n with 1 => Some 0 | 2 | 3 => Some 1 | _ => None end) (fun _ => false) in
  let gr := fun h => match h with 0 => [([], 1)] | 1 => [([0%N], 2); ([1%N], 3)] | _ => [] end in
  option_map (fun s => (udet s, udrop s, kids (rdom (ur s)) 0))
    (drop_fut f (Some (CContainer 0 0)) (mkU (mkR d gr) None 0)) = Some (1, None, []).
Proof. reflexivity. Qed.

(** C07.  The documented claim "when the task is dropped, the app unmounts" is
    FALSE of the code: the task is dropped with no rendering context, and the
    child's drop then panics.  Exactly: after any run, unmounting succeeds if and
    only if nothing below the root has to detach itself. *)
Theorem C07_unmount_panics_iff :
  forall (d0 : dom) (gr : gid -> group) (root : node) (g : gid) (a : addr)
         (child : fut) (l : list sched) (ch' : fut) (st' : ustate),
  dom_wf d0 -> fresh_app d0 gr root g (child :: flat_map created l) ->
  poll_root l (mount root g a child) (mkU (mkR d0 gr) None 0) = Some (mount root g a ch', st') ->
  (unmount (mount root g a ch') st' = None <-> touches ch' = true).
Proof.
  intros d0 gr root g a child l ch' st' W FA E.
  destruct (app_run d0 gr root g a child l W FA) as (ch2 & st2 & E2 & G & U & N1 & N2 & _).
  rewrite E in E2. inversion E2; subst ch2 st2. clear E2.
  split.
  - intro D. destruct (touches ch') eqn:T; auto. exfalso.
    destruct (drop_quiet (kids d0) (mount root g a ch') st') as (s & D' & _); auto.
    + apply G.
    + unfold unmount in D. congruence.
  - intro T. apply drop_touch; auto.
Qed.
Print Assumptions C07_unmount_panics_iff.

(** the smallest real application: one element *)
Theorem C07_unmount_refuted :
  exists child l f' st',
    fresh_app dom_empty (fun _ => []) 0 0 (child :: flat_map created l) /\
    poll_root l (mount 0 0 0 child) (mkU (mkR dom_empty (fun _ => [])) None 0) = Some (f', st') /\
    kids (rdom (ur st')) 0 = [1] /\ unmount f' st' = None.
Proof.
  exists (FElem 1 1 1 ShouldAdd FLeaf), [SElem (SElem SNone)].
  eexists _, _. split; [|split; [reflexivity|split; reflexivity]].
  fresh_tac.
Qed.
Print Assumptions C07_unmount_refuted.

(** the part that holds: if nothing below has to detach itself, the root gets its
    original children back and nothing else changes *)
Theorem C07_unmount_partial :
  forall (d0 : dom) (gr : gid -> group) (root : node) (g : gid) (a : addr)
         (child : fut) (l : list sched) (ch' : fut) (st' : ustate),
  dom_wf d0 -> fresh_app d0 gr root g (child :: flat_map created l) ->
  poll_root l (mount root g a child) (mkU (mkR d0 gr) None 0) = Some (mount root g a ch', st') ->
  touches ch' = false ->
  exists st'', unmount (mount root g a ch') st' = Some st'' /\
    kids (rdom (ur st'')) root = kids d0 root /\ udrop st'' = None.
Proof.
  intros d0 gr root g a child l ch' st' W FA E T.
  destruct (app_run d0 gr root g a child l W FA) as (ch2 & st2 & E2 & G & U & N1 & N2 & _).
  rewrite E in E2. inversion E2; subst ch2 st2. clear E2.
  inversion N1; subst. inversion N2; subst.
  destruct (empty_own_group (kids d0) st' root g ch' a ShouldNotAdd G H1 H3) as (r & Er & G' & FR & K).
  unfold unmount, mount. rewrite drop_elem_eq. unfold drop_own. rewrite Er.
  destruct (drop_quiet (kids d0) ch' (with_r st' r)) as (s & D' & FR' & U'); auto.
  - apply FR.
  - rewrite D'. eexists; split; [reflexivity|]. split.
    + assert (X : rdom (ur (blocker_drop a s)) = rdom (ur s)) by
        (unfold blocker_drop; destruct (udrop s) as [b|]; auto; destruct (Nat.eqb b a); auto).
      rewrite X, (fr_kids _ _ _ _ FR') by auto. simpl. auto.
    + apply blocker_drop_none; auto.
Qed.
Print Assumptions C07_unmount_partial.

Example C07_partial_nonvacuous :
  touches (FBlock FLeaf) = false /\
  fresh_app dom_empty (fun _ => []) 0 0 (FBlock (FElem 1 1 1 ShouldAdd FLeaf) ::
     flat_map created [SElem (SBlock [BPoll (SElem SNone); BReplace FLeaf])]) /\
  option_map fst (poll_root [SElem (SBlock [BPoll (SElem SNone); BReplace FLeaf])]
    (mount 0 0 0 (FBlock (FElem 1 1 1 ShouldAdd FLeaf))) (mkU (mkR dom_empty (fun _ => [])) None 0))
  = Some (mount 0 0 0 (FBlock FLeaf)).
Proof.
  split; auto. split; [|reflexivity].
  fresh_tac.
Qed.

(** C48.  "Rendering an element again after its previous render was dropped shows
    only the new content" is FALSE: an element dropped from its place is removed
    from its parent but keeps the content it had ... *)
Theorem C48_dropped_element_keeps_content :
  forall (d0 : dom) (gr : gid -> group) (root : node) (g : gid) (a : addr)
         (child : fut) (l : list sched) n g1 a1 c st',
  dom_wf d0 -> fresh_app d0 gr root g (child :: flat_map created l) ->
  poll_root l (mount root g a child) (mkU (mkR d0 gr) None 0)
    = Some (mount root g a (FBlock (FElem n g1 a1 Added c)), st') ->
  exists st'',
    poll (SElem (SBlock [BReplace FLeaf])) (mount root g a (FBlock (FElem n g1 a1 Added c))) None st'
      = Some (mount root g a (FBlock FLeaf), st'') /\
    ~ In n (kids (rdom (ur st'')) root) /\
    kids (rdom (ur st'')) n = kids d0 n ++ out c.
Proof.
  intros d0 gr root g a child l n g1 a1 c st' W FA E.
  destruct (app_run d0 gr root g a child l W FA) as (ch2 & st2 & E2 & G & U & N1 & N2 & _).
  rewrite E in E2. inversion E2; subst ch2 st2. clear E2.
  destruct (dropped_keeps (kids d0) root g a n g1 a1 c st' G U N1 N2) as (st'' & E1 & NI & K).
  exists st''. split; auto. split; auto. rewrite K.
  apply (elem_kids (kids d0) st' n g1 a1 Added c). apply G.
Qed.
Print Assumptions C48_dropped_element_keeps_content.

(** ... and shows it again, before the new content, when it is rendered again. *)
Theorem C48_rerender_refuted :
  let first := FElem 1 1 1 ShouldAdd (FElem 2 2 2 ShouldAdd FLeaf) in
  let again := FElem 1 3 3 ShouldAdd (FElem 4 4 4 ShouldAdd FLeaf) in
  let show := SElem (SElem SNone) in
  option_map (fun r => kids (rdom (ur (snd r))) 1)
    (poll_root [SElem (SBlock [BPoll show; BReplace again; BPoll show])]
      (mount 0 0 0 (FBlock first)) (mkU (mkR dom_empty (fun _ => [])) None 0))
  = Some [2; 4].
Proof. reflexivity. Qed.
Print Assumptions C48_rerender_refuted.
