(** Property C37: VirtualizedList. *)
From Coq Require Import List Arith NArith Bool Permutation Lia.
From Verif Require Import Util Dom Context Spec_render Render_history
  Spec_list DynList Spec_dynlist DynList_proofs DynList_run_proofs Props_dynlist
  Calls Calls_proofs List_lemmas Props_lists Virtual Virtual_proofs.
Import ListNotations.

(** the rendered items are the window's indices in increasing order *)
Definition window_shown (v : vlist) : Prop :=
  vl_keys v = seq (vl_start v) (vl_end v - vl_start v).

(** C37, exact: one update, whatever window the page's geometry yields.  It
    panics exactly when nothing was shown and the old start lies strictly inside
    the new window; otherwise the new window is shown. *)
Theorem C37_update_exact_partial :
  forall v ns ne, window_shown v ->
  (vl_end v <= vl_start v /\ ns < vl_start v < ne -> vl_update v (Some (ns, ne)) = None) /\
  (~ (vl_end v <= vl_start v /\ ns < vl_start v < ne) ->
     exists v', vl_update v (Some (ns, ne)) = Some v' /\ window_shown v' /\
       vl_start v' = ns /\ vl_end v' = ne).
Proof.
  intros v ns ne W. unfold vl_update. red in W. fold (range (vl_start v) (vl_end v)) in W. rewrite W.
  destruct (vl_calls_exact (vl_start v) (vl_end v) ns ne) as [A B]. split.
  - intro H. rewrite B by tauto. auto.
  - intro H. rewrite A by tauto. eexists; split; [reflexivity|]. split; [reflexivity|auto].
Qed.
Print Assumptions C37_update_exact_partial.

(** no update of the history meets an empty window whose start lies strictly
    inside the new one; each new end is at most the number of items *)
Fixpoint never_stranded (v : vlist) (ops : list vop) : Prop :=
  match ops with
  | [] => True
  | o :: t =>
      let '(num, w) := match o with VNum n w => (n, w) | VVisible w => (vl_num v, w) end in
      vl_window_ok num w /\
      match w with
      | None => never_stranded (mkVL (vl_start v) (vl_end v) num (vl_keys v)) t
      | Some (ns, ne) =>
          ~ (vl_end v <= vl_start v /\ ns < vl_start v < ne) /\
          forall ks, never_stranded (mkVL ns ne num ks) t
      end
  end.

(** C37 for histories of scrolling and set_num_items, from a new list. *)
Theorem C37_window_partial :
  forall ops, never_stranded vl_new ops ->
  exists v, vl_run vl_new ops = Some v /\ window_shown v.
Proof.
  intro ops.
  assert (X : forall ops v, window_shown v -> never_stranded v ops -> exists v', vl_run v ops = Some v' /\ window_shown v').
  { clear. induction ops as [|o t IH]; intros v W H; [exists v; auto|].
    assert (Y : exists num w, vl_exec v o = vl_update (mkVL (vl_start v) (vl_end v) num (vl_keys v)) w /\
      vl_window_ok num w /\ match w with
      | None => never_stranded (mkVL (vl_start v) (vl_end v) num (vl_keys v)) t
      | Some (ns, ne) => ~ (vl_end v <= vl_start v /\ ns < vl_start v < ne) /\
          forall ks, never_stranded (mkVL ns ne num ks) t end).
    { destruct o as [n w|w]; simpl in H; [exists n, w|exists (vl_num v), w]; split; auto. destruct v; auto. }
    destruct Y as (num & w & E & _ & Y). simpl. rewrite E. clear E H.
    set (v0 := mkVL (vl_start v) (vl_end v) num (vl_keys v)) in *.
    assert (W0 : window_shown v0) by exact W.
    destruct w as [[ns ne]|]; [|simpl; apply IH; auto].
    destruct Y as [N Y].
    destruct (proj2 (C37_update_exact_partial v0 ns ne W0) N) as (v1 & E & W1 & S1 & S2). rewrite E.
    apply IH; auto. simpl in E. destruct (druns _ _) in E; [|discriminate]. inversion E; subst. apply Y. }
  apply X. reflexivity.
Qed.
Print Assumptions C37_window_partial.

(** ... in particular when every window that is not empty is followed by any
    window, and an empty one only by a window starting at or after it *)
Example C37_nonvacuous :
  never_stranded vl_new [VNum 100 (Some (0, 10)); VVisible (Some (5, 20)); VVisible None; VVisible (Some (60, 70));
                  VVisible (Some (2, 62)); VNum 50 (Some (3, 50)); VVisible (Some (50, 50)); VVisible (Some (51, 12)); VVisible (Some (52, 50))] /\
  exists v, vl_run vl_new [VNum 100 (Some (0, 10)); VVisible (Some (5, 20)); VVisible None; VVisible (Some (8, 12))] = Some v /\
    vl_keys v = [8; 9; 10; 11].
Proof.
  split.
  - simpl. repeat match goal with |- _ /\ _ => split | |- forall _, _ => intro end; try exact I; lia.
  - eexists; split; vm_compute; reflexivity.
Qed.

(** on the document *)
Theorem C37_document_partial :
  forall r fr s e ops w v ns ne lops sts,
  reached r fr s e ops w -> window_shown v -> keys_after ops = vl_keys v ->
  ~ (vl_end v <= vl_start v /\ ns < vl_start v < ne) ->
  issued (vl_calls (vl_start v) (vl_end v) ns ne) lops sts -> new_nodes w sts ->
  exists w', lrun w lops = Some (w', arets (keys_after ops) lops) /\
    reached r fr s e (ops ++ lops) w' /\ keys_after (ops ++ lops) = seq ns (ne - ns).
Proof.
  intros r fr s e ops w v ns ne lops sts R W K N IS NN. rewrite W in K.
  destruct (vl_calls_exact (vl_start v) (vl_end v) ns ne) as [A _].
  assert (D := A ltac:(tauto)). unfold range at 1 in D. rewrite <- K in D.
  destruct (calls_on_document _ _ _ _ _ _ _ _ _ _ R IS NN D) as (w' & X & Y & Z & _). exists w'. auto.
Qed.
Print Assumptions C37_document_partial.

(** C37 refuted: while scrolled far down, the number of items drops (the window
    becomes 50..10, nothing is shown), then rises again: the update panics. *)
Theorem C37_shrink_grow_refuted :
  exists ops, (forall o, In o ops -> match o with VNum n w => vl_window_ok n w | VVisible w => vl_window_ok 100 w end) /\
    vl_run vl_new ops = None.
Proof.
  exists [VNum 100 (Some (0, 20)); VVisible (Some (50, 70)); VNum 10 (Some (50, 10)); VNum 100 (Some (45, 65))].
  split; [|vm_compute; reflexivity]. intros o [<-|[<-|[<-|[<-|[]]]]]; simpl; lia.
Qed.
Print Assumptions C37_shrink_grow_refuted.
