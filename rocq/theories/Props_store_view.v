(** Property C68: views of x-bow stores are up to date when the page comes to rest.

    The view is a block that awaits one of the helpers of a path of the store
    ([path.for_each(f).await], and so on; store_view in Spec_store_view.v).  When the page is at
    rest, the last value it was told is the data at the path. *)
From Coq Require Import List Arith Bool Lia NArith Cantor.
From Verif Require Import Util Arena Spec_arena Readiness Combinator Tree Spec_tree Tree_proofs Props_tree Executor Spec_executor
  Queue Spec_queue App Page Page_proofs Props_page Spec_view View_proofs Props_view
  Xbow Spec_xbow XbowData XbowStore Spec_store Spec_store_view View_store_proofs.
Import ListNotations.

(** C68: the page is at rest, the block is there and awaits the helper, the helper is not
    dropped and the path is valid: then the helper's function was last called with (the helper's
    future was last made from, the stream last yielded) the data that is at the path.  A
    signal_stream that does not fire at first may have yielded nothing yet. *)
Theorem C68_up_to_date :
  forall V X ww debug bound code on_drop x evs s ww' K keqb H d (st : X -> sstate K) on ops h pa t p,
  will_wake_ok ww -> will_wake_ok ww' -> (forall a b, keqb a b = true <-> a = b) -> page_code_ok code ->
  store_view ww' K keqb H d st on h pa t p code on_drop evs ->
  srun ww' K keqb H d ops = Some (st x) -> Forall (visible K pa) ops -> never_polled K h (Xbow.w_tr _ (sx K (st x))) ->
  prun V X ww debug bound code on_drop x evs = Live s -> at_rest ww debug bound code on_drop x evs s ->
  Spec_queue.alive t (q_tr _ (xs _ s)) = true -> Spec_tree.live (app_tr s t) p ->
  at_leaf p (app_tr s t) = true -> on (pg_x V X (q_x _ (xs _ s))) = true ->
  let s' := st (pg_x V X (q_x _ (xs _ s))) in
  forall k f v, In (mkH K h k pa f) (sh K s') -> path_borrow K keqb pa (sd K s') = Some v ->
  shown K h (str K s') = Some v \/ (k = KSignal false /\ shown K h (str K s') = None).
Proof.
  intros V X ww debug bound code on_drop x evs s ww' K keqb H d st on ops h pa t p WW WW' KO CO SV R0 VI NP R AR A L AL ON s' k f v IN B.
  assert (J0 : JS ww' K keqb H d h t pa p (st x)).
  { exists ops. split; auto. split; auto. intros wk E. exfalso. revert NP E. unfold never_polled. clear.
    induction (Xbow.w_tr _ (sx K (st x))) as [|e r IH]; [discriminate|]. destruct e as [| j | | |]; cbn; try (destruct (since_poll _ h r); [discriminate|auto]; fail).
    destruct (j =? h); [discriminate|]. destruct (since_poll _ h r); [discriminate|auto]. }
  assert (F : freshS K h t p s' /\ JS ww' K keqb H d h t pa p s').
  { pose proof (store_view_of ww' K keqb H WW' KO d st on h pa t p code on_drop evs SV) as VO. split.
    - exact (C67_up_to_date V X ww debug bound code on_drop x evs s _ _ t p WW CO VO J0 R AR A L AL ON).
    - exact (proj1 (view_inv V X ww debug bound code on_drop evs _ _ t p WW CO VO x s J0 (or_introl R))). }
  destruct F as [F J]. eapply (fresh_told ww' WW' K keqb KO H d h t pa p s' k f v); eauto.
Qed.
Print Assumptions C68_up_to_date.

(** Non-vacuity: the shared state is a store of two numbers.  Application 0 joins two blocks: the
    first awaits for_each on the first number (helper 0, made at its first poll), the second sets
    this number to 6 when it finds 5 in it. *)
Definition exw_H : list (seg nat) -> N := fun p => N.mul (N.of_nat (fold_right (fun s a => match s with SField _ i => S i + 10 * a | _ => 7 + 10 * a end) 0 p)) 256.
Definition exw_d : XbowData.val nat := VStruct _ [VLeaf nat 1; VLeaf nat 2].
Definition exw_p : list (seg nat) := [SField _ 0].
Definition exw_env : env nat := mkEnv _ [] false (fun _ => true) [] false.
Notation exw_exec := (sexec ex_ww nat Nat.eqb exw_H).
Notation exw_tr s := (Xbow.w_tr (seg nat) (sx nat s)).
Definition exw_wakes (s s' : sstate nat) : list gact :=
  flat_map (fun e => match e with TWake _ wk => exv_wake wk | _ => [] end) (firstn (length (exw_tr s') - length (exw_tr s)) (exw_tr s')).
Definition exw_set (n : nat) (s : sstate nat) : sstate nat * list gact :=
  match exw_exec s (SAct _ (AWrite _ exw_p (fun _ => true) (fun _ => VLeaf _ n))) with Some s' => (s', exw_wakes s s') | None => (s, []) end.
Definition exw_code (t : nat) (x : sstate nat) (p : place) (got : option Props_tree.val) : sstate nat * list gact * next Props_tree.val :=
  match t, p, got with
  | 0, Root, None => (x, [], NAwait KArray join_val 2)
  | 0, Kid 0 0, _ =>
      let x1 := if w_next _ (sx nat x) =? 0 then match exw_exec x (SNew _ KEach exw_p) with Some y => y | None => x end else x in
      match find_helper _ 0 (sh _ x1) with
      | Some (mkH _ _ KEach _ _) => match exw_exec x1 (SPoll _ 0 exv_wk exw_env) with Some x2 => (x2, [], NPend) | None => (x, [], NPanic) end
      | _ => (x, [], NPanic)
      end
  | 0, Kid 0 1, _ => match path_borrow _ Nat.eqb exw_p (sd _ x) with
                     | Some (VLeaf _ 5) => let (x', l) := exw_set 6 x in (x', l, NPend)
                     | _ => (x, [], NPend)
                     end
  | _, _, _ => (x, [], NPend)
  end.
Definition exw_drop (t : nat) (x : sstate nat) : sstate nat * list gact := (x, []).
Definition exw_click (x : sstate nat) : sstate nat * list gact := let (x', l) := exw_set 5 x in (x', l ++ [GWake 0 (Kid 0 1)]).
Definition exw_evs : list (pev (sstate nat)) := pmount ++ [PFire 9; PCode exw_click; PFire 9].

Lemma exw_told s o s' l : exw_exec s o = Some s' -> store_wakes nat s s' (exw_wakes s s' ++ l).
Proof.
  intro E. destruct (ext_exec ex_ww nat Nat.eqb exw_H s o s' E) as (new & T & _). exists new. split; auto. intros wk u q IN TK. apply in_app_iff. left.
  unfold exw_wakes. rewrite T, app_length, Nat.add_sub, firstn_app, Nat.sub_diag, firstn_all, app_nil_r. apply in_flat_map. exists (TWake _ wk). split; auto.
  unfold exv_wake. rewrite TK. unfold block_task. rewrite cancel_of_to, place_task. left. reflexivity.
Qed.
Lemma exw_set_uses n s s' l l' : exw_set n s = (s', l) -> store_uses ex_ww nat Nat.eqb exw_H (fun o => visible nat exw_p o /\ ~ polls_helper nat 0 o) s (l ++ l') s'.
Proof.
  unfold exw_set. destruct (exw_exec s _) as [s1|] eqn:E; [|intros [= <- <-]; constructor]. intros [= <- <-].
  eapply store_step; [|exact E|eapply exw_told; exact E|constructor]. split; [intro; reflexivity|]. intros [(wk & e & Q)|(wk & Q)]; discriminate.
Qed.
Lemma exw_head s x wk s' : poll_each ex_ww nat Nat.eqb exw_H (emit nat s (EPoll nat 0 wk)) x wk = Some s' ->
  (exists new, exw_tr s' = new ++ exw_tr s /\ forall wk, ~ In (TWake _ wk) new) /\ ~ exists tr, str nat s' = EDone nat 0 :: tr.
Proof.
  unfold poll_each, poll_stream. destruct (Xbow.exec _ _ _ _ _) as [w|] eqn:E; [|discriminate].
  assert (T : exists new, Xbow.w_tr _ w = new ++ exw_tr s /\ forall wk, ~ In (TWake _ wk) new).
  { unfold Xbow.exec in E. destruct (find_stream _ _) as [u|]; [|injection E as <-; exists []; split; auto]. destruct (poll_slots _ _ _ _) as [[st v]|]; [|discriminate]. injection E as <-.
    eexists [_]. split; [reflexivity|]. intros wk' [Q|[]]; discriminate. }
  destruct (Xbow.w_tr _ w) as [|[]] eqn:EW; try discriminate. rewrite <- EW in T.
  destruct (_ || _)%bool; [destruct (path_borrow _ _ _ _)|]; intros [= <-]; split; auto; intros (tr & Q); discriminate.
Qed.
Lemma exw_uses_app ok s l s1 s' : store_uses ex_ww nat Nat.eqb exw_H ok s l s1 -> store_uses ex_ww nat Nat.eqb exw_H ok s1 l s' -> store_uses ex_ww nat Nat.eqb exw_H ok s l s'.
Proof. induction 1; auto. intro. econstructor; eauto. Qed.
Example exw_view : store_view ex_ww nat Nat.eqb exw_H exw_d (fun x => x) (fun _ => true) 0 exw_p 0 (Kid 0 0) exw_code exw_drop exw_evs.
Proof.
  split; [|split; [|split]].
  - intros x got x' l nx _ E. cbn [exw_code] in E.
    set (x1 := if w_next _ (sx nat x) =? 0 then _ else x) in *.
    assert (EQ : match find_helper nat 0 (sh nat x1) with Some h => match h_kind _ h with KEach => match exw_exec x1 (SPoll _ 0 exv_wk exw_env) with Some x2 => (x2, [], NPend) | None => (x, [], NPanic) end | _ => (x, [], NPanic) end | None => (x, [], NPanic) end = (x', l, nx))
      by (rewrite <- E; destruct (find_helper nat 0 (sh nat x1)) as [[? [] ? ?]|]; reflexivity). clear E.
    destruct (find_helper nat 0 (sh nat x1)) as [h|] eqn:F; [|injection EQ as <- <- <-; auto]. destruct (h_kind nat h) eqn:KI; try (injection EQ as <- <- <-; auto; fail).
    destruct (exw_exec x1 (SPoll _ 0 exv_wk exw_env)) as [x2|] eqn:E2; [|injection EQ as <- <- <-; auto]. injection EQ as <- <- <-. right.
    pose proof E2 as E2'. cbn [sexec] in E2'. rewrite F, KI in E2'. destruct (exw_head _ _ _ _ E2') as [(new & T & NW) ND].
    assert (U1 : store_uses ex_ww nat Nat.eqb exw_H (fun o => visible nat exw_p o /\ forall wk, polled_with nat 0 o wk -> w_task wk = Some (block_task 0 (Kid 0 0))) x [] x1).
    { unfold x1. destruct (w_next _ (sx nat x) =? 0); [|constructor]. destruct (exw_exec x (SNew _ KEach exw_p)) as [y|] eqn:EN; [|constructor].
      eapply store_step with (o := SNew _ KEach exw_p); [|exact EN| |constructor].
      * split; [exact Logic.I|]. intros wk [(e & Q)|Q]; discriminate.
      * cbn [sexec] in EN. unfold Xbow.exec in EN. destruct (add_slots _ _) as [[st sl]|]; [|discriminate]. injection EN as <-. eexists [_]. split; [reflexivity|]. intros wk u q [Q|[]]; discriminate. }
    assert (WK : store_wakes nat x1 x2 []) by (exists new; split; auto; intros wk u q IN; destruct (NW wk IN)).
    assert (IS : is_helper nat 0 (sh nat x1) = true) by (clear - F; unfold find_helper, is_helper in *; induction (sh nat x1) as [|y r IH]; [discriminate|]; cbn in *; destruct (h_id nat y =? 0); auto).
    split.
    + eapply exw_uses_app; [exact U1|]. eapply store_step with (o := SPoll _ 0 exv_wk exw_env); [|exact E2|exact WK|constructor].
      split; [constructor|]. intros wk [(e & [= <- _])|Q]; [reflexivity|discriminate].
    + intros _ _. exists x1, exv_wk, exw_env, x2. repeat split; auto; constructor.
  - intros u x q got x' l nx NE _ E.
    assert (NIL : forall r, (x, [], r) = (x', l, nx) -> nx = NPanic \/ store_uses ex_ww nat Nat.eqb exw_H (fun o => visible nat exw_p o /\ ~ polls_helper nat 0 o) x l x' /\ (true = true -> true = true))
      by (intros r [= <- <- _]; right; split; [constructor|auto]).
    destruct u as [|u]; [|exact (NIL _ E)]. destruct q as [|n i]; [destruct got; exact (NIL _ E)|].
    destruct n as [|n]; [|exact (NIL _ E)]. destruct i as [|[|i]]; [destruct NE; congruence| |exact (NIL _ E)].
    cbn [exw_code] in E. destruct (path_borrow _ _ _ _) as [v|]; [|exact (NIL _ E)]. destruct v as [m| | | | | |]; try exact (NIL _ E).
    destruct m as [|[|[|[|[|[|m]]]]]]; try exact (NIL _ E). destruct (exw_set 6 x) as [y m] eqn:ES. injection E as <- <- <-. right. split; auto.
    rewrite <- (app_nil_r m). eapply exw_set_uses; eauto.
  - intros u x x' l _ [= <- <-]. split; [constructor|auto].
  - intros f x x' l IN _ E. cbn in IN. destruct IN as [Q|[Q|[Q|[Q|[Q|[]]]]]]; try discriminate. injection Q as <-.
    unfold exw_click in E. destruct (exw_set 5 x) as [y m] eqn:ES. injection E as <- <-. split; auto. eapply exw_set_uses; eauto.
Qed.
Example exw_start : srun ex_ww nat Nat.eqb exw_H exw_d [] = Some (sinit nat exw_d) /\ never_polled nat 0 (exw_tr (sinit nat exw_d)).
Proof. split; reflexivity. Qed.
Definition exw_run evs := prun Props_tree.val (sstate nat) ex_ww true 40 exw_code exw_drop (sinit nat exw_d) evs.
Definition exw_see (r : rres (qu (page Props_tree.val (sstate nat)))) :=
  match r with
  | Live s => let x := pg_x _ _ (q_x _ (xs _ s)) in
      Some (Spec_queue.alive 0 (q_tr _ (xs _ s)), timers _ s, map (h_kind nat) (sh nat x), shown nat 0 (str nat x), path_borrow nat Nat.eqb exw_p (sd nat x))
  | _ => None
  end.
(** at rest; then out of date, after the handler ran, until the timer fires; then at rest again *)
Example exw_shown :
  exw_see (exw_run (pmount ++ [PFire 9])) = Some (true, 0, [KEach], Some (VLeaf _ 1), Some (VLeaf _ 1)) /\
  exw_see (exw_run (pmount ++ [PFire 9; PCode exw_click])) = Some (true, 1, [KEach], Some (VLeaf _ 1), Some (VLeaf _ 5)) /\
  exw_see (exw_run exw_evs) = Some (true, 0, [KEach], Some (VLeaf _ 6), Some (VLeaf _ 6)) /\
  match exw_run exw_evs with Live s => Spec_tree.live (app_tr s 0) (Kid 0 0) /\ at_leaf (Kid 0 0) (app_tr s 0) = true | _ => False end.
Proof.
  split; [vm_compute; reflexivity|]. split; [vm_compute; reflexivity|]. split; [vm_compute; reflexivity|].
  vm_compute. split; [|reflexivity]. apply live_kid with (k := 2) (b := join_val) (p := Root); [cbn; tauto|lia| | |].
  - intros (v & H). cbn in H. intuition discriminate.
  - intros (v & H). cbn in H. intuition discriminate.
  - constructor. intros (v & H). cbn in H. intuition discriminate.
Qed.
Example exw_rest : match exw_run exw_evs with Live s => at_rest ex_ww true 40 exw_code exw_drop (sinit nat exw_d) exw_evs s | _ => False end.
Proof.
  destruct exw_shown as (_ & _ & H & L). destruct (exw_run exw_evs) as [s|s|]; try contradiction. clear L. left. split; [right; left; reflexivity|].
  cbn [exw_see] in H. injection H as _ T _ _ _. exact T.
Qed.
