(** C85: undo and redo in the circles example. *)
From Coq Require Import List Arith ZArith Bool Lia.
From Verif Require Import Circles Spec_circles Circles_proofs.
Import ListNotations.

(** [pick] is the choice of the circle under the mouse: it may be any function that gives the index of a circle.
    After every [history], the program has not panicked, the circles on the screen are the present picture of an
    editor with undo and redo, and the buttons are enabled when there is something to undo and to redo. *)
Theorem C85_undo_redo_partial : forall (size : Type) (one : size) pick,
  (forall p x y i, pick p x y = Some i -> i < length p) ->
  forall evs, history size one pick evs ->
  exists s, handles size one pick (start size one) evs = Some s /\
    screen size s = present size (edits size one pick evs) /\
    (undo_disabled size s = true <-> past size (edits size one pick evs) = []) /\
    (redo_disabled size s = true <-> future size (edits size one pick evs) = []).
Proof.
  intros size one pick PK evs H. destruct (handles_ok size one pick PK evs H) as (s & E & I). exists s. split; [exact E|].
  split; [exact (inv_screen _ _ _ _ I)|]. rewrite (i_undo _ _ _ _ I), (i_redo _ _ _ _ I), (i_past _ _ _ _ I), (i_future _ _ _ _ I), !Nat.eqb_eq. pose proof (i_cursor _ _ _ _ I) as CU. split.
  - destruct (cursor size s); [cbn; tauto|]. rewrite seq_S, rev_app_distr. cbn. split; discriminate.
  - destruct (length (user_ops size s) - cursor size s) eqn:L; cbn; split; try discriminate; try reflexivity; lia.
Qed.
Print Assumptions C85_undo_redo_partial.

(** After every history that ends with the mouse in the area, a circle on the screen is highlighted exactly when it
    is the one under the mouse; at any time, only the one that was last under the mouse can be. *)
Theorem C85_highlight_partial : forall (size : Type) (one : size) pick,
  (forall p x y i, pick p x y = Some i -> i < length p) ->
  forall evs s, history size one pick evs -> handles size one pick (start size one) evs = Some s ->
  forall i it, nth_error (items size s) i = Some it ->
  (marked size s (snd it) = true -> sel size (edits size one pick evs) = Some i) /\
  (forall a x y, evs = a ++ [EMove size x y] \/ evs = a ++ [EClick size x y] ->
     (marked size s (snd it) = true <-> pick (present size (edits size one pick evs)) x y = Some i)).
Proof.
  intros size one pick PK evs s H E i it N. destruct (handles_ok size one pick PK evs H) as (s' & E' & I). rewrite E in E'. injection E' as <-.
  assert (EL : exists c, nth_error (circles size s) i = Some c /\ c_elem size c = snd it).
  { pose proof (f_equal (fun l => nth_error l i) (i_items _ _ _ _ I)) as Q. cbn in Q. rewrite !nth_error_map, N in Q. destruct (nth_error (circles size s) i) as [c|]; [|discriminate]. injection Q as Q. eauto. }
  destruct EL as (c & NC & EC). rewrite <- EC. split.
  - intro M. rewrite <- (i_sel _ _ _ _ I). exact (i_mark _ _ _ _ I i c NC M).
  - intros a x y Q.
    assert (HA : history size one pick a) by (intros a' e' b EQ; destruct Q as [Q|Q]; eapply (H a' e' (b ++ [_])); rewrite Q, EQ, <- app_assoc; reflexivity).
    destruct (handles_ok size one pick PK a HA) as (s0 & E0 & I0).
    assert (ED : sel size (edits size one pick evs) = pick (present size (edits size one pick evs)) x y) by (unfold edits; destruct Q as [-> | ->]; rewrite fold_left_app; reflexivity).
    rewrite <- ED, <- (i_sel _ _ _ _ I). destruct Q as [-> | ->]; rewrite handles_app, E0 in E; cbn [handles] in E.
    + cbn [handle] in E. destruct (inv_track size one pick PK s0 _ x y I0) as (s1 & E1 & _ & M). rewrite E1 in E. injection E as <-. exact (M i c NC).
    + cbn [handle] in E. destruct (do_op size one _ _) as [s1|] eqn:D; [|discriminate].
      assert (T : exists ed1, Inv size one s1 ed1).
      { destruct (create_inv size one s0 _ x y I0) as (s2 & D2 & I2). rewrite D in D2. injection D2 as <-. eauto. }
      destruct T as [ed1 I1]. destruct (inv_track size one pick PK s1 _ x y I1) as (s2 & E2 & _ & M). rewrite E2 in E. injection E as <-. exact (M i c NC).
Qed.
Print Assumptions C85_highlight_partial.

(** Without the condition on right clicks the program panics: a circle is made, which selects it; it is undone; and
    the context menu is asked for with the keyboard, without a mouse move. *)
Theorem C85_stale_selection_refuted :
  ~ (forall (size : Type) (one : size) pick, (forall p x y i, pick p x y = Some i -> i < length p) ->
     forall evs,
     (forall a e b, evs = a ++ e :: b -> (e = EUndo size -> past size (edits size one pick a) <> []) /\ (e = ERedo size -> future size (edits size one pick a) <> [])) ->
     exists s, handles size one pick (start size one) evs = Some s).
Proof.
  intro C. pose (pick := fun (p : list (Z * Z * nat)) (_ _ : Z) => match p with [] => None | _ => Some 0 end).
  destruct (C nat 1 pick) with (evs := [EClick nat 5 5; EUndo nat; EMenu nat [2]]) as [s E].
  - intros p x y i Q. destruct p; [discriminate|]. injection Q as <-. cbn. lia.
  - intros a e b Q. destruct a as [|? [|? [|? a]]]; cbn in Q; inversion Q; subst; try (split; intro; discriminate).
    destruct a; discriminate.
  - cbn in E. discriminate.
Qed.
Print Assumptions C85_stale_selection_refuted.

(** the nearest circle whose distance is less than 25 times its size (circles.rs:100-108), sizes in hundredths *)
Definition near (p : list (Z * Z * Z)) (x y : Z) : option nat :=
  let d c := ((fst (fst c) - x) * (fst (fst c) - x) + (snd (fst c) - y) * (snd (fst c) - y))%Z in
  option_map fst
    (fold_left (fun best ic => if (16 * d (snd ic) <? snd (snd ic) * snd (snd ic))%Z
                               then match best with
                                    | Some (j, dj) => if (d (snd ic) <? dj)%Z then Some (fst ic, d (snd ic)) else best
                                    | None => Some (fst ic, d (snd ic))
                                    end
                               else best) (combine (seq 0 (length p)) p) None).
Lemma near_ok p x y i : near p x y = Some i -> i < length p.
Proof.
  unfold near. set (f := fun best ic => _). intro H.
  assert (G : forall l b, (forall q, b = Some q -> fst q < length p) -> (forall ic, In ic l -> fst ic < length p) -> forall q, fold_left f l b = Some q -> fst q < length p).
  { induction l as [|ic l IH]; intros b B L q Q; [exact (B q Q)|]. cbn in Q. refine (IH _ _ _ q Q); [|intros; apply L; right; assumption]. intros q' Q'. unfold f in Q'.
    assert (LI : fst ic < length p) by (apply L; left; reflexivity).
    destruct (_ <? _)%Z; [|auto]. destruct b as [[j dj]|]; [destruct (_ <? dj)%Z; [|auto]|]; injection Q' as <-; exact LI. }
  destruct (fold_left f _ None) as [q|] eqn:E; [|discriminate]. injection H as <-. eapply G; [| |exact E]; [discriminate|]. intros [j c] IN. apply in_combine_l in IN. apply in_seq in IN. cbn. lia.
Qed.
(** two circles; the first one is resized; undo and redo; the second is resized, which is undone; a third one *)
Definition day : list (event Z) := [EClick Z 10 10; EClick Z 90 90; EMove Z 12 12; EMenu Z [150; 300]%Z; EUndo Z; EUndo Z; ERedo Z; ERedo Z; EMove Z 88 91; EMenu Z [50%Z]; EUndo Z; EClick Z 40 40].
(** [possible], computed *)
Definition possibleb (ed : editor Z) (e : event Z) : bool :=
  match e with
  | EUndo _ => match past Z ed with [] => false | _ => true end
  | ERedo _ => match future Z ed with [] => false | _ => true end
  | EMenu _ _ => match sel Z ed with Some i => i <? length (present Z ed) | None => true end
  | _ => true
  end.
Lemma possibleb_ok ed e : possibleb ed e = true -> possible Z ed e.
Proof.
  destruct e; cbn; auto.
  - intros H i E. rewrite E in H. apply Nat.ltb_lt. exact H.
  - destruct (past Z ed); [discriminate|intros _; discriminate].
  - destruct (future Z ed); [discriminate|intros _; discriminate].
Qed.
(** [possible] for each event in turn *)
Fixpoint allb (ed : editor Z) (evs : list (event Z)) : bool :=
  match evs with [] => true | e :: t => possibleb ed e && allb (edit Z 100%Z near ed e) t end.
Lemma allb_ok : forall evs ed, allb ed evs = true -> forall a e b, evs = a ++ e :: b -> possible Z (fold_left (edit Z 100%Z near) a ed) e.
Proof.
  induction evs as [|x evs IH]; intros ed H a e b Q; [destruct a; discriminate|]. cbn in H. apply andb_true_iff in H. destruct H as [H1 H2].
  destruct a as [|y a]; cbn in Q; injection Q as -> ->; [apply possibleb_ok; exact H1|]. cbn. eapply IH; [exact H2|reflexivity].
Qed.
Example exc_history : history Z 100%Z near day.
Proof. intros a e b Q. eapply allb_ok; [|exact Q]. vm_compute. reflexivity. Qed.
Example exc_shown : exists s, handles Z 100%Z near (start Z 100%Z) day = Some s /\ screen Z s = [(10, 10, 300); (90, 90, 100); (40, 40, 100)]%Z /\
  undo_disabled Z s = false /\ redo_disabled Z s = true /\ selected Z s = Some 2.
Proof. eexists. split; [vm_compute; reflexivity|]. vm_compute. auto. Qed.
