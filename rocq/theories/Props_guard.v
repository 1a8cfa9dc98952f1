(** C63, C64: guards held across other operations. *)
From Coq Require Import List Arith Bool NArith.
From Verif Require Import Arena Spec_arena Cell CellGuard Spec_guard CellGuard_proofs.
From Verif Require Xbow XbowData XbowStore XbowGuard Spec_xguard XbowGuard_proofs.
Import ListNotations.

(** C63: a call on a ReactiveCell panics exactly if it is not a try_ method and a guard is
    in its way: an exclusive guard for borrow and clone; any guard for borrow_mut and for
    creating, polling and dropping a change stream *)
Theorem C63_panics_exactly :
  forall T ww (x : T) tr g e, will_wake_ok ww -> ghist T ww x tr g -> usable T e tr ->
  (gexec T ww g e = None <-> in_the_way T e tr /\ panicky T e).
Proof.
  intros T ww x tr g e WW H U. assert (S := step_ok T ww WW x tr g e (ghist_inv T ww WW x tr g H) U).
  destruct (gexec T ww g e) as [[g' o]|]; [|tauto]. split; [discriminate|tauto].
Qed.
Print Assumptions C63_panics_exactly.

(** C63: if it does not panic, its answer is right *)
Theorem C63_answers :
  forall T ww (x : T) tr g e g' o, will_wake_ok ww -> ghist T ww x tr g -> usable T e tr ->
  gexec T ww g e = Some (g', o) -> right_answer T x tr e o.
Proof.
  intros T ww x tr g e g' o WW H U E. assert (S := step_ok T ww WW x tr g e (ghist_inv T ww WW x tr g H) U).
  rewrite E in S. apply S.
Qed.
Print Assumptions C63_answers.

(** C63: as long as a shared guard is alive the value does not change *)
Theorem C63_stable :
  forall T ww (x : T) tr later g g' r, will_wake_ok ww ->
  ghist T ww x tr g -> ghist T ww x (later ++ tr) g' ->
  ref_alive T r tr -> ref_alive T r (later ++ tr) -> value T x (later ++ tr) = value T x tr.
Proof. intros T ww x tr later g g' r WW H H' A A'. eapply value_stable; eauto. Qed.
Print Assumptions C63_stable.

(** an executable history *)
Fixpoint gsteps {T} ww (g : gworld T) (l : list (gop T)) : option (list (gout T)) :=
  match l with
  | [] => Some []
  | e :: l => match gexec T ww g e with
              | Some (g', o) => match gsteps ww g' l with Some os => Some (o :: os) | None => None end
              | None => None
              end
  end.
Definition gcase (l : list (gop nat)) : option (list (gout nat)) :=
  match g_new nat 5 with Some g => gsteps (fun _ _ => false) g l | None => None end.
(** two readers at once, a failed try_borrow_mut, a write, a stream that sees it *)
Example ex_guard :
  gcase [GUntil _; GPoll _ 0 (mkW (Some 7) 0); GBorrow _; GCloneRef _ 0; GDropRef _ 0; GTryBorrowMut _; GRead _ 1; GDropRef _ 1;
         GTryBorrowMut _; GWrite _ 6; GTryBorrow _; GDebug _; GReadMut _; GDropMut _; GPoll _ 0 (mkW (Some 7) 0); GBorrow _; GRead _ 2]
  = Some [GUnit _; GPending _; GUnit _; GUnit _; GUnit _; GErr _; GVal _ 5; GUnit _;
          GUnit _; GUnit _; GErr _; GShown _ None; GVal _ 6; GWoken _ [mkW (Some 7) 0]; GReady _; GUnit _; GVal _ 6].
Proof. vm_compute. reflexivity. Qed.
(** Surprising: polling or dropping a change stream while a shared guard is alive panics
    (for instance when a race drops the stream before a block that holds cell.borrow()). *)
Example ex_guard_stream :
  gcase [GUntil _; GBorrow _; GPoll _ 0 (mkW (Some 7) 0)] = None /\
  gcase [GUntil _; GBorrow _; GDropStream _ 0] = None.
Proof. split; vm_compute; reflexivity. Qed.
(** the history of such a case is one the theorems speak about *)
Example ex_guard_hist : exists g,
  ghist nat (fun _ _ => false) 5 [(GBorrow _, GUnit _); (GUntil _, GUnit _)] g /\ usable nat (GDropStream _ 0) [(GBorrow _, GUnit _); (GUntil _, GUnit _)] /\
  in_the_way nat (GDropStream _ 0) [(GBorrow _, GUnit _); (GUntil _, GUnit _)].
Proof.
  eexists. split.
  - eapply gh_step; [eapply gh_step; [eapply gh_new; vm_compute; reflexivity|exact Logic.I|vm_compute; reflexivity]|exact Logic.I|vm_compute; reflexivity].
  - cbn. unfold stream_alive, guard_alive, ref_alive. cbn. split; [auto|]. right. exists 0. auto.
Qed.

Import Xbow XbowData XbowStore XbowGuard Spec_xguard XbowGuard_proofs.

(** C64: a call on an x-bow store panics exactly if a guard is in its way, wherever in the
    store: a mutable guard for reading, any guard for borrowing mutably and setting.  Change
    streams and notify_changed never panic. *)
Theorem C64_panics_exactly :
  forall ww K keqb H d tr g e, will_wake_ok ww ->
  xhist ww K keqb H d tr g -> Spec_xguard.usable K e tr ->
  (xgexec ww K keqb H g e = None <-> Spec_xguard.in_the_way K e tr).
Proof.
  intros ww K keqb H d tr g e WW X U.
  assert (S := XbowGuard_proofs.step_ok ww WW K keqb H d tr g e (xhist_inv ww WW K keqb H d tr g X) U).
  destruct (xgexec ww K keqb H g e) as [[g' o]|]; [|tauto]. split; [discriminate|tauto].
Qed.
Print Assumptions C64_panics_exactly.

(** C64: every program that holds guards is equivalent to one that does not, in which each
    write happens in one step when its guard is dropped: same data, same change streams *)
Theorem C64_serializable :
  forall ww K keqb H d tr g, will_wake_ok ww ->
  xhist ww K keqb H d tr g -> (forall p, ~ mut_alive K p tr) ->
  exists s, srun ww K keqb H d (serial K None (rev tr)) = Some s /\ sd _ s = x_data _ g /\ sx _ s = x_w _ g.
Proof.
  intros ww K keqb H d tr g WW X N. assert (I := xhist_inv ww WW K keqb H d tr g X).
  destruct (xi_serial _ _ _ _ _ _ _ I) as (s & R & M1 & _ & M3). exists s. split; auto. split; auto.
  destruct (x_mut K g) as [m|] eqn:Q.
  - destruct (N (m_path _ m)). apply (xi_mut _ _ _ _ _ _ _ I). eauto.
  - destruct (cur_after K None (rev tr)); [contradiction|auto].
Qed.
Print Assumptions C64_serializable.

(** C64: a shared guard reads the current value of its path, which is the value it had when
    the guard was made, as long as the guard is alive *)
Theorem C64_stable :
  forall ww K keqb H d tr g later g' r p, will_wake_ok ww ->
  xhist ww K keqb H d tr g -> xhist ww K keqb H d (later ++ tr) g' ->
  Spec_xguard.ref_alive K r p tr -> Spec_xguard.ref_alive K r p (later ++ tr) ->
  exists v, xgexec ww K keqb H g' (XReadRef K r) = Some (g', XVal K v) /\
    path_borrow K keqb p (x_data _ g') = Some v /\ path_borrow K keqb p (x_data _ g) = Some v.
Proof.
  intros ww K keqb H d tr g later g' r p WW X X' A A'.
  assert (D := data_stable ww WW K keqb H d tr g r p X A later g' X' A'). rewrite <- D.
  assert (I := xhist_inv ww WW K keqb H d _ g' X').
  apply (xi_refs _ _ _ _ _ _ _ I) in A'. cbn [xgexec]. rewrite (proj2 (x_find_spec ww K keqb H d _ g' r I p) A').
  destruct (path_borrow K keqb p (x_data K g')) as [v|] eqn:E; [exists v; auto|].
  destruct (xi_there _ _ _ _ _ _ _ I r p A' E).
Qed.
Print Assumptions C64_stable.

(** an executable history: a store with two numbers in a struct *)
Fixpoint xsteps (g : xg nat) (l : list (xop nat)) : option (list (xout nat) * XbowData.val nat) :=
  match l with
  | [] => Some ([], x_data _ g)
  | e :: l => match xgexec (fun _ _ => false) nat Nat.eqb (fun p => N.of_nat (length p)) g e with
              | Some (g', o) => match xsteps g' l with Some (os, d) => Some (o :: os, d) | None => None end
              | None => None
              end
  end.
Definition xstart : xg nat := x_new nat (VStruct _ [VLeaf _ 1; VLeaf _ 2]).
Definition yes : nat -> bool := fun _ => true.
(** two readers, then a writer; a stream is polled while the writer holds its guard *)
Example ex_xguard :
  xsteps xstart [XStream _ (ONew _ [SField _ 0] false); XBorrow _ [SField _ 0]; XBorrow _ []; XReadRef _ 0; XDropRef _ 0; XDropRef _ 1;
                 XBorrowMut _ [SField _ 0] yes; XWriteMut _ (fun _ => VLeaf _ 9); XStream _ (OPoll _ 0 (mkW (Some 3) 0)); XReadMut _; XDropMut _;
                 XGet _ [SField _ 0]; XSet _ [SField _ 7] yes (VLeaf _ 0); XSet _ [SField _ 1] yes (VLeaf _ 4)]
  = Some ([XUnit _; XUnit _; XUnit _; XVal _ (VLeaf _ 1); XUnit _; XUnit _; XUnit _; XUnit _; XUnit _; XVal _ (VLeaf _ 9); XUnit _;
           XVal _ (VLeaf _ 9); XNone _; XUnit _], VStruct _ [VLeaf _ 9; VLeaf _ 4]).
Proof. vm_compute. reflexivity. Qed.
(** a guard of one part of the store is in the way of every other part *)
Example ex_xguard_panics :
  xsteps xstart [XBorrowMut _ [SField _ 0] yes; XGet _ [SField _ 1]] = None /\
  xsteps xstart [XBorrow _ [SField _ 0]; XSet _ [SField _ 1] yes (VLeaf _ 4)] = None /\
  xsteps xstart [XBorrow _ [SField _ 0]; XBorrowMut _ [SField _ 8] yes] = None.
Proof. repeat split; vm_compute; reflexivity. Qed.
(** such a history is one the theorems speak about *)
Example ex_xguard_hist : exists g,
  xhist (fun _ _ => false) nat Nat.eqb (fun p => N.of_nat (length p)) (VStruct _ [VLeaf _ 1; VLeaf _ 2])
    [(XDropMut _, XUnit _); (XWriteMut _ (fun _ => VLeaf _ 9), XUnit _); (XBorrowMut _ [SField _ 0] yes, XUnit _)] g /\
  (forall p, ~ mut_alive nat p [(XDropMut _, XUnit _); (XWriteMut _ (fun _ => VLeaf _ 9), XUnit _); (XBorrowMut _ [SField _ 0] yes, XUnit _)]).
Proof.
  eexists. split; [|cbn; auto].
  eapply xh_step; [eapply xh_step; [eapply xh_step; [apply xh_new|exact Logic.I|vm_compute; reflexivity]|
    cbn; eauto|vm_compute; reflexivity]|cbn; eauto|vm_compute; reflexivity].
Qed.
