(** Property C55: what a VirtualizedList shows, with the geometry of the page. *)
From Coq Require Import List Arith Bool QArith Lia Lqa.
From Verif Require Import Spec_list DynList Calls Virtual Virtual_proofs Props_virtual VGeom Spec_vgeom VGeom_proofs.
Import ListNotations.
Local Open Scope Q_scope.

(** the rendered items of a page *)
Notation items p := (vl_keys (p_list p)).
Notation num p := (vl_num (p_list p)).

(** C55: as long as the number of items does not fall, an update of a list of which
    something is rendered leaves no hole in the viewport, wherever it was scrolled to. *)
Theorem C55_no_hole_partial :
  forall h f0 r0 r1 ops o p p', 0 < h -> r0 < r1 -> sizes_ok ops -> rising 0 (ops ++ [o]) ->
  grun h (page0 f0 r0 r1) ops = Some p -> items p <> [] ->
  match o with GMove _ _ _ => False | _ => True end -> gexec h p o = Some p' ->
  ~ hole h p'.
Proof.
  intros h f0 r0 r1 ops o p p' H R S RI G NE O E.
  assert (X : forall ops n p q, grun h p ops = Some q -> vl_num (p_list p) = n -> rising n (ops ++ [o]) ->
    rising n ops /\ match o with GNum m => (vl_num (p_list q) <= m)%nat | _ => True end).
  { clear - H. induction ops as [|a ops IH]; intros n p q G N RI; cbn in *.
    - injection G as <-. subst. destruct o; tauto.
    - destruct (gexec h p a) as [p1|] eqn:E; [|discriminate]. destruct a as [? ? ?| |m]; cbn in E.
      + injection E as <-. apply (IH n) in G; auto.
      + apply (IH n) in G; auto. now rewrite (update_num _ _ _ E).
      + destruct RI as [L RI]. apply (IH m) in G; auto. * tauto. * now rewrite (update_num _ _ _ E). }
  destruct (X ops 0%nat _ _ G eq_refl RI) as [RI' OK].
  assert (I : J p) by (apply (J_run h H ops (page0 f0 r0 r1)); auto; apply J_page0; auto).
  assert (L : (vl_start (p_list p) < vl_end (p_list p))%nat).
  { destruct (le_lt_dec (vl_end (p_list p)) (vl_start (p_list p))); auto. destruct NE. rewrite (j_shown _ I). now replace (_ - _)%nat with 0%nat by lia. }
  destruct o as [? ? ?| |m]; [destruct O| |]; cbn in E.
  - apply (no_hole h H p); auto.
  - apply (no_hole h H (set_num p m)); auto. apply J_set_num; auto.
Qed.

(** C55: nothing is rendered that the list does not have. *)
Theorem C55_items_exist_partial :
  forall h f0 r0 r1 ops p, 0 < h -> r0 < r1 -> sizes_ok ops -> rising 0 ops ->
  grun h (page0 f0 r0 r1) ops = Some p -> forall i, In i (items p) -> (i < num p)%nat.
Proof.
  intros h f0 r0 r1 ops p H R S RI G i IN.
  assert (I : J p) by (apply (J_run h H ops (page0 f0 r0 r1)); auto; apply J_page0; auto).
  rewrite (j_shown _ I) in IN. apply in_seq in IN. pose proof (j_end _ I). lia.
Qed.

(** C55: as long as the number of items does not rise again after it was first set, no
    scrolling or resizing makes an update panic. *)
Theorem C55_no_panic_partial :
  forall h f0 r0 r1 ops, 0 < h -> r0 < r1 -> sizes_ok ops -> falling None ops ->
  exists p, grun h (page0 f0 r0 r1) ops = Some p.
Proof.
  intros h f0 r0 r1 ops H R S F. apply (stuck_run h H ops None); auto. split; auto. split; [reflexivity|]. cbn. auto.
Qed.

(** C55: an update of a list of which something is rendered either changes nothing or puts
    every rendered item where it would be if all items were rendered; then (unless the
    viewport lies behind the end of the list) the list is as long as if all were rendered,
    so that the scroll bar is right. *)
Theorem C55_places :
  forall h f0 r0 r1 ops p p', 0 < h -> r0 < r1 -> sizes_ok ops ->
  grun h (page0 f0 r0 r1) ops = Some p -> items p <> [] -> gexec h p GSignal = Some p' ->
  p' = p \/
  (forall j i, nth_error (items p') j = Some i -> place h p' j == p_f0 p' + nQ i * h) /\
  (items p' <> [] -> extent h p' == nQ (num p') * h).
Proof.
  intros h f0 r0 r1 ops p p' H R S G NE E. destruct (shown_run h H ops (page0 f0 r0 r1) p R eq_refl S G) as [A B].
  assert (Z : forall q, window_shown (p_list q) -> items q <> [] -> (vl_start (p_list q) < vl_end (p_list q))%nat).
  { intros q W N. destruct (le_lt_dec (vl_end (p_list q)) (vl_start (p_list q))); auto. destruct N. rewrite W. now replace (_ - _)%nat with 0%nat by lia. }
  destruct (settles h H p p' A B (Z p B NE) E) as [|[P X]]; auto. right. split; auto. intro N. apply X.
  assert (W' : window_shown (p_list p')).
  { apply (shown_run h H [GSignal] p p' A B); [intros ? ? ? [Q|[]]; discriminate Q|]. cbn in *. now rewrite E. }
  specialize (Z p' W' N). lia.
Qed.

(** The hypotheses are met: a list of 1000 items of size 30 in a viewport of size 100,
    scrolled down and up; the first window is too small for the viewport (the code guesses
    25 for the size), and the next update corrects that. *)
Example C55_history :
  let ops := [GNum 1000; GSignal; GMove (-(4000)) 0 100; GSignal; GSignal; GMove (-(20000)) 0 250; GSignal; GMove (-(1400)) 0 100; GSignal] in
  sizes_ok ops /\ rising 0 (ops ++ [GSignal]) /\ falling None ops /\
  option_map (fun p => (items p, Qeq_bool (p_hf p) 1200, Qeq_bool (extent 30 p) 30000)) (grun 30 (page0 0 0 100) ops) =
    Some (seq 40 17, true, true).
Proof.
  split; [|split; [|split]].
  - intros f0 r0 r1 X. repeat (destruct X as [X|X]; [inversion X; subst; reflexivity|]). destruct X.
  - cbn. lia.
  - cbn. lia.
  - vm_compute. reflexivity.
Qed.
Example C55_history_small :
  option_map (fun p => items p) (grun 5 (page0 0 0 100) [GNum 1000]) = Some (seq 0 12) /\
  option_map (fun p => items p) (grun 5 (page0 0 0 100) [GNum 1000; GSignal]) = Some (seq 0 60).
Proof. split; vm_compute; reflexivity. Qed.

(** C55 refuted when the number falls: after set_num_items(100), set_num_items(3) changes
    nothing; twelve items remain rendered, whatever updates follow at this place. *)
Theorem C55_fewer_items_refuted :
  exists p, grun 50 (page0 0 0 100) [GNum 100; GSignal; GNum 3] = Some p /\
  items p = seq 0 12 /\ num p = 3%nat /\ forall k, grun 50 p (repeat GSignal k) = Some p.
Proof.
  destruct (grun 50 (page0 0 0 100) [GNum 100; GSignal; GNum 3]) as [p|] eqn:E; [|vm_compute in E; discriminate E].
  exists p. split; [auto|]. vm_compute in E. injection E as <-. split; [reflexivity|]. split; [reflexivity|].
  induction k as [|k IH]; [reflexivity|]. cbn [repeat grun gexec].
  match goal with |- match update 50 ?p with _ => _ end = _ => assert (U : update 50 p = Some p) by (vm_compute; reflexivity); rewrite U end. exact IH.
Qed.

(** C55 refuted when the number falls: 100 items, of which the first 12 are rendered;
    set_num_items(12) leaves the space of the other 88 behind the list, and no scrolling
    or resizing ever removes it: the user can scroll to where there is nothing to see. *)
Theorem C55_hole_refuted :
  exists p, grun 50 (page0 0 0 100) [GNum 100; GSignal; GNum 12] = Some p /\ num p = 12%nat /\ items p = seq 0 12 /\
  (forall f0 r0 r1, grun 50 p [GMove f0 r0 r1; GSignal] = grun 50 p [GMove f0 r0 r1]) /\
  exists p', grun 50 p [GMove (-(700)) 0 100; GSignal] = Some p' /\
    forall y, 0 < y < 100 -> back_start 50 p' <= y < back_end 50 p'.
Proof.
  destruct (grun 50 (page0 0 0 100) [GNum 100; GSignal; GNum 12]) as [p|] eqn:E; [|vm_compute in E; discriminate E].
  exists p. split; [auto|]. vm_compute in E. injection E as <-. split; [reflexivity|]. split; [reflexivity|].
  assert (X : forall v hf hb f0 r0 r1, vl_start v = 0%nat -> vl_end v = vl_num v -> update 50 (mkP v hf hb f0 r0 r1) = Some (mkP v hf hb f0 r0 r1)).
  { intros v hf hb f0 r0 r1 A B. unfold update, compute. cbn [p_list]. rewrite A, B, !Nat.eqb_refl, !orb_true_r. reflexivity. }
  split.
  - intros f0 r0 r1. cbn [grun gexec p_list p_hf p_hb]. rewrite X; reflexivity.
  - eexists. split; [cbn [grun gexec p_list p_hf p_hb]; rewrite X; reflexivity|].
    intros y Y. unfold back_end, back_start, front_end. cbn. change (nQ 12) with 12. lra.
Qed.

(** C55 refuted: a list of 100 items of size 20 is scrolled down, the number falls to 10,
    and the user scrolls on: nothing is rendered.  The browser moves the viewport to the end
    of what is left.  Then set_num_items(100) panics. *)
Theorem C55_panic_refuted :
  exists p, grun 20 (page0 0 0 100) [GNum 100; GSignal; GMove (-(700)) 0 100; GSignal; GNum 10; GMove (-(800)) 0 100; GSignal;
                                     GMove (-(500)) 0 100] = Some p /\
  back_end 20 p == p_r1 p /\ items p = [] /\ gexec 20 p (GNum 100) = None.
Proof.
  match goal with |- exists p, ?g = Some p /\ _ => destruct g as [p|] eqn:E; [|vm_compute in E; discriminate E] end.
  exists p. split; [auto|]. vm_compute in E. injection E as <-. split; [|split]; vm_compute; reflexivity.
Qed.

Print Assumptions C55_no_hole_partial.
Print Assumptions C55_items_exist_partial.
Print Assumptions C55_no_panic_partial.
Print Assumptions C55_places.
Print Assumptions C55_fewer_items_refuted.
Print Assumptions C55_hole_refuted.
Print Assumptions C55_panic_refuted.
