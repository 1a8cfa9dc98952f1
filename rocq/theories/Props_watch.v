(** Property C79: a view that waits for the first of several changes is up to date when the page
    comes to rest.

    The view is a block that shows several things and then awaits a combinator of futures, one for
    each, as in [loop { show(a, b); race((a.until_change(), b.until_change())).await }].
    This joins ReactiveCell, the combinators, async_executor and the root executor, and needs C78:
    an until_change future takes note of the cell's version when it is first polled. *)
From Coq Require Import List Arith Bool Lia Cantor.
From Verif Require Import Util Arena Spec_arena Readiness Combinator Tree Spec_tree Spec_first Tree_proofs Props_tree Executor Spec_executor
  Queue Spec_queue App Page Page_proofs Obey_page_proofs Props_page Cell Spec_cell Spec_view View_proofs Props_view Spec_watch Watch_proofs Watch_cell_proofs.
Import ListNotations.

(** the numbers of the combinators that block [p] has made *)
Definition makes {V} (tr : list (Tree.ev V)) (p : place) (mine : nat -> bool) : Prop :=
  forall n k b q, In (ENew n k b q) tr -> (mine n = true <-> q = p).

(** C79: when the page is at rest, everything that a view waits for is as the view shows it. *)
Theorem C79_up_to_date :
  forall V X ww debug bound code on_drop x evs s J ok reg mine t p, will_wake_ok ww -> page_code_ok code ->
  watches J ok reg mine t p code on_drop evs -> J x ->
  prun V X ww debug bound code on_drop x evs = Live s -> at_rest ww debug bound code on_drop x evs s ->
  makes (app_tr s t) p mine -> alive t (q_tr _ (xs _ s)) = true -> Spec_tree.live (app_tr s t) p ->
  forall n k b i, In (ENew n k b p) (app_tr s t) -> ~ gone n (app_tr s t) -> i < k -> ~ returned (Kid n i) (app_tr s t) ->
  ok i (pg_x V X (q_x _ (xs _ s))).
Proof.
  intros V X ww debug bound code on_drop x evs s J ok reg mine t p WW CO WO J0 R AR M A L.
  apply (watch_ok V X ww debug bound code on_drop evs J ok reg mine t p WW CO WO x s J0 R); auto. eapply at_rest_served; eauto.
Qed.
Print Assumptions C79_up_to_date.

(** C79: no child of a race that has not returned has returned. *)
Theorem C79_race_waits_for_all :
  forall V X ww debug bound code on_drop x evs s t, will_wake_ok ww -> page_code_ok code ->
  prun V X ww debug bound code on_drop x evs = Live s ->
  forall n k b p i, In (ENew n k b p) (app_tr s t) -> ~ gone n (app_tr s t) -> ends_at_once b -> i < k -> ~ returned (Kid n i) (app_tr s t).
Proof.
  intros V X ww debug bound code on_drop x evs s t WW CO R n k b p i H G E L.
  destruct (prun_pi V X ww debug bound code on_drop WW CO x evs s R) as (_ & P).
  pose proof (prog_inv V X ww debug code WW CO t _ (gd_prog _ _ _ _ _ _ (Page_proofs.pi_good _ _ _ _ _ _ P) t)) as I.
  destruct (g_new _ _ _ (g_glob _ _ _ _ _ _ I) _ _ _ _ H) as (nd & A & <- & <- & _).
  pose proof (ni_live _ _ _ _ _ _ _ _ (g_node _ _ _ _ _ _ I _ _ A) G) as LV0.
  destruct (nth_error (c_filled V (nd_c V nd)) i) as [[|]|] eqn:F.
  - destruct (li_true _ _ _ _ _ _ _ _ LV0 i F) as (s0 & u & _ & _ & Q). destruct (E i u) as (o & Q'). congruence.
  - apply (li_false _ _ _ _ _ _ _ _ LV0 i F).
  - apply nth_error_None in F. rewrite (li_filled _ _ _ _ _ _ _ _ LV0) in F. lia.
Qed.
Print Assumptions C79_race_waits_for_all.

(** C79: when the page is at rest, a view of several cells that waits for the first change of any
    of them shows the value of each, unless the cell is mutably borrowed (or its future has been
    dropped). *)
Theorem C79_cells :
  forall T V X ww debug bound code on_drop x evs s ww' (v0 : nat -> T) cw seen fut mine t p,
  will_wake_ok ww -> will_wake_ok ww' -> page_code_ok code ->
  cells_view ww' v0 cw seen fut mine t p code on_drop evs -> (forall i, chist ww' (v0 i) (cw x i)) ->
  prun V X ww debug bound code on_drop x evs = Live s -> at_rest ww debug bound code on_drop x evs s ->
  makes (app_tr s t) p mine -> alive t (q_tr _ (xs _ s)) = true -> Spec_tree.live (app_tr s t) p ->
  forall n k b, In (ENew n k b p) (app_tr s t) -> ~ gone n (app_tr s t) -> ends_at_once b ->
  let y := pg_x V X (q_x _ (xs _ s)) in
  forall i, i < k -> live T (fut y i) (snd (cw y i)) -> guarded T (snd (cw y i)) = false -> seen y i = c_data T (cw_cell T (fst (cw y i))).
Proof.
  intros T V X ww debug bound code on_drop x evs s ww' v0 cw seen fut mine t p WW WW' CO CV J0 R AR M A L n k b H G E y i Li (_ & DR) GU.
  pose proof (C79_race_waits_for_all V X ww debug bound code on_drop x evs s t WW CO R n k b p i H G E Li) as NR.
  pose proof (C79_up_to_date V X ww debug bound code on_drop x evs s _ _ _ mine t p WW CO
    (cells_watches ww' v0 cw seen fut mine t p code on_drop evs WW' CV) J0 R AR M A L n k b i H G Li NR) as (_ & [Q|[Q|Q]]); fold y in Q; congruence.
Qed.
Print Assumptions C79_cells.

(** Non-vacuity: numbers in cells 0, 1, ....  Application 0 joins two blocks: the first shows the
    cells 0 and 1 and waits, in a loop, for the first change of any of them; the second sets cell 1
    to 6 when it finds 5 in cell 0. *)
Record wst := mkWst { wc : nat -> cst nat; ws_seen : nat -> nat; ws_fut : nat -> nat }.
Definition upd {A} (f : nat -> A) (i : nat) (a : A) (j : nat) : A := if Nat.eqb j i then a else f j.
Definition wallowed (e : cev nat) (tr : list (cev nat)) : bool :=
  match e with
  | CBegin _ | CNew _ => negb (guarded nat tr)
  | CWrite _ _ | CEnd _ => guarded nat tr
  | CPoll _ id _ | CDrop _ id => negb (guarded nat tr) && ((id <? created nat tr) && negb (dropped nat id tr))
  end.
Definition wdo (e : cev nat) (s : cst nat) : option (cst nat * cout) :=
  if wallowed e (snd s) then match cexec nat ex_ww (fst s) e with Some (w, o) => Some ((w, e :: snd s), o) | None => None end else None.
Definition wset (i v : nat) (x : wst) : wst * list gact :=
  match wdo (CBegin nat) (wc x i) with
  | Some (s1, _) => match wdo (CWrite nat v) s1 with
    | Some (s2, _) => match wdo (CEnd nat) s2 with
      | Some (s3, OWoken ws) => (mkWst (upd (wc x) i s3) (ws_seen x) (ws_fut x), flat_map exv_wake ws)
      | _ => (x, [])
      end
    | None => (x, [])
    end
  | None => (x, [])
  end.
(** drops the old future of cell [i], if any, makes a new one and shows the value *)
Definition wshow (i : nat) (x : wst) : option wst :=
  let s := match wdo (CDrop nat (ws_fut x i)) (wc x i) with Some (s, OUnit) => s | _ => wc x i end in
  match wdo (CNew nat) s with
  | Some (s1, OUnit) => if wallowed (CPoll nat (created nat (snd s)) (mkW None 0)) (snd s1)
      then Some (mkWst (upd (wc x) i s1) (upd (ws_seen x) i (c_data nat (cw_cell nat (fst s1)))) (upd (ws_fut x) i (created nat (snd s)))) else None
  | _ => None
  end.
Definition wpoll (q : place) (i : nat) (x : wst) : wst * list gact * next val :=
  match wdo (CPoll nat (ws_fut x i) (mkW (Some (block_task 0 q)) 7)) (wc x i) with
  | Some (s, o) => (mkWst (upd (wc x) i s) (ws_seen x) (ws_fut x), [], match o with OReady => NRet (VNat i) | _ => NPend end)
  | None => (x, [], NPanic)
  end.
Definition wcode (t : nat) (x : wst) (p : place) (got : option val) : wst * list gact * next val :=
  match t, p with
  | 0, Root => (x, [], match got with None => NAwait KArray join_val 2 | Some v => NRet v end)
  | 0, Kid 0 0 => match wshow 0 x with
      | Some x1 => match wshow 1 x1 with Some x2 => (x2, [], NAwait KArray race_val 2) | None => (x, [], NPanic) end
      | None => (x, [], NPanic)
      end
  | 0, Kid 0 1 => if c_data nat (cw_cell nat (fst (wc x 0))) =? 5 then let (x', l) := wset 1 6 x in (x', l, NPend) else (x, [], NPend)
  | 0, Kid 0 _ => (x, [], NPend)
  | 0, Kid n i => wpoll p i x
  | _, _ => (x, [], NPend)
  end.
Definition wdrop (t : nat) (x : wst) : wst * list gact := (x, []).
(** an event handler sets cell 0 to 5 and wakes the second block *)
Definition wclick (x : wst) : wst * list gact := let (x', l) := wset 0 5 x in (x', l ++ [GWake 0 (Kid 0 1)]).
Definition wmine (n : nat) : bool := negb (Nat.eqb n 0).
Definition wevs : list (pev wst) := pmount ++ [PFire 9; PCode wclick; PFire 9].
Definition wx0 : wst := mkWst (fun _ => match cw_new nat 1 with Some c => (c, []) | None => (mkCW nat (mkC nat 0 ar_new 0 false) [] 0, []) end) (fun _ => 0) (fun _ => 0).

Lemma wallowed_ok e tr : wallowed e tr = true -> allowed nat e tr.
Proof.
  destruct e; cbn [wallowed allowed]; try (rewrite negb_true_iff; auto); auto; intro H;
    apply andb_true_iff in H as [H1 H2]; apply andb_true_iff in H2 as [H2 H3]; apply negb_true_iff in H1, H3; apply Nat.ltb_lt in H2;
    (split; [exact H1|split; [exact H2|exact H3]]).
Qed.
Lemma wdo_uses (ok : cev nat -> Prop) e s s1 o l s' : wdo e s = Some (s1, o) -> ok e -> does_wakes o l -> cuses ex_ww ok s1 l s' -> cuses ex_ww ok s l s'.
Proof.
  unfold wdo. destruct (wallowed e (snd s)) eqn:A; [|discriminate]. destruct (cexec nat ex_ww (fst s) e) as [[w o']|] eqn:E; [|discriminate].
  intros [= <- <-] K D U. destruct s as [w0 tr]. econstructor; eauto. apply wallowed_ok. exact A.
Qed.
Lemma wdo_unit e s s1 o l : wdo e s = Some (s1, o) -> match e with CEnd _ => False | _ => True end -> does_wakes o l.
Proof.
  unfold wdo. destruct (wallowed e (snd s)); [|discriminate]. destruct (cexec nat ex_ww (fst s) e) as [[w o']|] eqn:E; [|discriminate].
  intros [= <- <-] K. destruct e as [|y| | |id wk|id]; try contradiction; cbn in E.
  - destruct (cell_borrow_mut _ _); [|discriminate]. injection E as _ <-. exact Logic.I.
  - destruct (cell_write _ _ _); [|discriminate]. injection E as _ <-. exact Logic.I.
  - destruct (cell_until_change _ _) as [[? ?]|]; [|discriminate]. injection E as _ <-. exact Logic.I.
  - destruct (s_get _ _); [|discriminate]. destruct (stream_poll _ _ _ _ _) as [[[? ?] r]|]; [|discriminate]. injection E as _ <-. destruct r; exact Logic.I.
  - destruct (s_get _ _); [|discriminate]. destruct (stream_drop _ _ _); [|discriminate]. injection E as _ <-. exact Logic.I.
Qed.
Lemma wset_others i v x x' l l' : wset i v x = (x', l) ->
  forall j, cuses ex_ww (fun e => forall wk, e <> CPoll nat (ws_fut x j) wk) (wc x j) (l ++ l') (wc x' j) /\ ws_seen x' j = ws_seen x j /\ ws_fut x' j = ws_fut x j.
Proof.
  unfold wset. intros E j.
  destruct (wdo (CBegin nat) (wc x i)) as [[s1 o1]|] eqn:E1; [|injection E as <- <-; repeat split; constructor].
  destruct (wdo (CWrite nat v) s1) as [[s2 o2]|] eqn:E2; [|injection E as <- <-; repeat split; constructor].
  destruct (wdo (CEnd nat) s2) as [[s3 o3]|] eqn:E3; [|injection E as <- <-; repeat split; constructor].
  destruct o3 as [| | |ws]; try (injection E as <- <-; repeat split; constructor). injection E as <- <-. cbn. split; auto.
  unfold upd. destruct (Nat.eqb_spec j i) as [->|]; [|constructor].
  eapply wdo_uses; [exact E1|intros wk; discriminate|eapply wdo_unit; [exact E1|exact Logic.I]|].
  eapply wdo_uses; [exact E2|intros wk; discriminate|eapply wdo_unit; [exact E2|exact Logic.I]|].
  eapply wdo_uses; [exact E3|intros wk; discriminate| |constructor].
  intros wk u q IN Q. apply in_app_iff. left. exact (exv_wakes ws wk u q IN Q).
Qed.
Lemma wshow_ok i x x' l : wshow i x = Some x' -> (forall j, cuses ex_ww (fun _ => True) (wc x j) l (wc x' j)) /\
  live nat (ws_fut x' i) (snd (wc x' i)) /\ ws_seen x' i = c_data nat (cw_cell nat (fst (wc x' i))) /\
  forall j, j <> i -> wc x' j = wc x j /\ ws_fut x' j = ws_fut x j /\ ws_seen x' j = ws_seen x j.
Proof.
  unfold wshow. set (s := match wdo (CDrop nat (ws_fut x i)) (wc x i) with Some (s, OUnit) => s | _ => wc x i end).
  assert (U : forall s', cuses ex_ww (fun _ => True) s l s' -> cuses ex_ww (fun _ => True) (wc x i) l s').
  { intros s' U. unfold s in U. destruct (wdo (CDrop nat (ws_fut x i)) (wc x i)) as [[s0 o0]|] eqn:E0; auto. destruct o0; auto. eapply wdo_uses; eauto. exact Logic.I. }
  destruct (wdo (CNew nat) s) as [[s1 o1]|] eqn:E1; [|discriminate]. destruct o1; try discriminate.
  destruct (wallowed _ (snd s1)) eqn:A; [|discriminate]. intros [= <-]. cbn [wc ws_fut ws_seen]. unfold upd. rewrite Nat.eqb_refl. split; [|split; [|split]].
  - intro j. destruct (Nat.eqb_spec j i) as [->|]; [|constructor]. apply U. eapply wdo_uses; [exact E1|exact Logic.I|exact Logic.I|constructor].
  - apply wallowed_ok in A. apply A.
  - reflexivity.
  - intros j N. rewrite (proj2 (Nat.eqb_neq j i) N). auto.
Qed.
Lemma cuses_app T ww ok (s s1 s' : cst T) l : cuses ww ok s l s1 -> cuses ww ok s1 l s' -> cuses ww ok s l s'.
Proof. induction 1; auto. intro. econstructor; eauto. Qed.
Example w_view : cells_view ex_ww (fun _ => 1) wc ws_seen ws_fut wmine 0 (Kid 0 0) wcode wdrop wevs.
Proof.
  assert (SAME : forall x l j, cuses ex_ww (fun e => forall wk, e <> CPoll nat (ws_fut x j) wk) (wc x j) l (wc x j) /\ ws_seen x j = ws_seen x j /\ ws_fut x j = ws_fut x j).
  { intros. repeat split. constructor. }
  split; [|split; [|split; [|split]]].
  - intros x got x' l nx _ E. cbn [wcode] in E. destruct (wshow 0 x) as [x1|] eqn:E1; [|injection E as <- <- <-; auto].
    destruct (wshow 1 x1) as [x2|] eqn:E2; [|injection E as <- <- <-; auto]. injection E as <- <- <-. right.
    destruct (wshow_ok 0 x x1 [] E1) as (U1 & L1 & S1 & O1). destruct (wshow_ok 1 x1 x2 [] E2) as (U2 & L2 & S2 & O2). split.
    + intro i. eapply cuses_app; eauto.
    + intros k b m [= <- <- <-] i Li. destruct i as [|[|i]]; [|auto|lia]. destruct (O2 0) as (-> & -> & ->); auto.
  - intros n i x got x' l nx M _ E. destruct n as [|n]; [discriminate|]. 
    assert (EP : wpoll (Kid (S n) i) i x = (x', l, nx)) by (destruct i; exact E). clear E. unfold wpoll in EP.
    destruct (wdo _ (wc x i)) as [[s o]|] eqn:ED; [|injection EP as <- <- <-; auto]. injection EP as <- <- <-. right.
    unfold wdo in ED. destruct (wallowed _ _) eqn:A; [|discriminate]. destruct (cexec nat ex_ww (fst (wc x i)) _) as [[w o']|] eqn:EX; [|discriminate]. injection ED as <- <-.
    exists (mkW (Some (block_task 0 (Kid (S n) i))) 7), o'. split; [reflexivity|]. split; [apply wallowed_ok; exact A|].
    cbn [wc ws_seen ws_fut]. unfold upd. rewrite Nat.eqb_refl. split; [exact EX|]. split; [reflexivity|].
    split; [intros j N; rewrite (proj2 (Nat.eqb_neq j i) N); reflexivity|]. split; [auto|]. destruct o'; eauto.
  - intros u x q got x' l nx N _ E.
    assert (NIL : forall r, (x, [], r) = (x', l, nx) -> nx = NPanic \/ forall j, cuses ex_ww (fun e => forall wk, e <> CPoll nat (ws_fut x j) wk) (wc x j) l (wc x' j) /\ ws_seen x' j = ws_seen x j /\ ws_fut x' j = ws_fut x j)
      by (intros r [= <- <- _]; right; apply SAME).
    destruct u as [|u]; [|exact (NIL _ E)]. destruct q as [|n i]; [exact (NIL _ E)|].
    destruct N as [N|(N1 & N2)]; [congruence|]. destruct n as [|n]; [|specialize (N2 (S n) i eq_refl); discriminate].
    destruct i as [|[|i]]; [congruence| |exact (NIL _ E)]. cbn [wcode] in E. destruct (_ =? 5); [|exact (NIL _ E)].
    destruct (wset 1 6 x) as [y m] eqn:ES. injection E as <- <- <-. right. rewrite <- (app_nil_r m). apply (wset_others 1 6 x y m [] ES).
  - intros u x x' l _ [= <- <-]. apply SAME.
  - intros f x x' l IN _ E. cbn in IN. destruct IN as [Q|[Q|[Q|[Q|[Q|[]]]]]]; try discriminate. injection Q as <-.
    unfold wclick in E. destruct (wset 0 5 x) as [y m] eqn:ES. injection E as <- <-. apply (wset_others 0 5 x y m _ ES).
Qed.
Example w_start : forall i, chist ex_ww 1 (wc wx0 i).
Proof. intro i. eexists. split; [reflexivity|]. split; [exact Logic.I|reflexivity]. Qed.
Example w_code_ok : page_code_ok wcode.
Proof.
  intros t x p got x' l k b n E. destruct t as [|t]; [|discriminate E]. destruct p as [|[|m] [|[|i]]]; cbn [wcode] in E; try discriminate E.
  - destruct got; [discriminate|]. injection E as _ _ <- <- <-. split; [apply ex_behaviours|discriminate].
  - destruct (wshow 0 x) as [x1|]; [|discriminate]. destruct (wshow 1 x1); [|discriminate]. injection E as _ _ <- <- <-. split; [apply ex_behaviours|discriminate].
  - destruct (_ =? 5); [|discriminate]. destruct (wset 1 6 x); discriminate.
  - unfold wpoll in E. destruct (wdo _ _) as [[? []]|]; discriminate.
  - unfold wpoll in E. destruct (wdo _ _) as [[? []]|]; discriminate.
  - unfold wpoll in E. destruct (wdo _ _) as [[? []]|]; discriminate.
Qed.
Definition wrun evs := prun val wst ex_ww true 60 wcode wdrop wx0 evs.
Definition wsee (r : rres (qu (page val wst))) : option (bool * nat * list nat * list nat * list (nat * nat)) :=
  match r with
  | Live s => let x := pg_x _ _ (q_x _ (xs _ s)) in
      Some (alive 0 (q_tr _ (xs _ s)), timers _ s, map (ws_seen x) [0; 1], map (fun i => c_data nat (cw_cell nat (fst (wc x i)))) [0; 1],
        flat_map (fun e => match e with ENew n k _ (Kid 0 0) => [(n, k)] | _ => [] end) (app_tr s 0))
  | _ => None
  end.
(** at rest; then out of date, after the handler ran, until the timer fires; then at rest again *)
Example w_shown :
  wsee (wrun (pmount ++ [PFire 9])) = Some (true, 0, [1; 1], [1; 1], [(1, 2)]) /\
  wsee (wrun (pmount ++ [PFire 9; PCode wclick])) = Some (true, 1, [1; 1], [5; 1], [(1, 2)]) /\
  wsee (wrun wevs) = Some (true, 0, [5; 6], [5; 6], [(3, 2); (2, 2); (1, 2)]).
Proof. vm_compute. auto. Qed.
(** and there, the theorem applies to it *)
Example w_rest : match wrun wevs with
  | Live s => at_rest ex_ww true 60 wcode wdrop wx0 wevs s /\ makes (app_tr s 0) (Kid 0 0) wmine /\ alive 0 (q_tr _ (xs _ s)) = true /\
      Spec_tree.live (app_tr s 0) (Kid 0 0) /\ (exists b, In (ENew 3 2 b (Kid 0 0)) (app_tr s 0) /\ ends_at_once b) /\ ~ gone 3 (app_tr s 0) /\
      let y := pg_x _ _ (q_x _ (xs _ s)) in
      forall i, i < 2 -> live nat (ws_fut y i) (snd (wc y i)) /\ guarded nat (snd (wc y i)) = false
  | _ => False end.
Proof.
  assert (M : match wrun wevs with
    | Live s => (timers _ s =? 0) && alive 0 (q_tr _ (xs _ s)) &&
        forallb (fun e => match e with ENew n _ _ q => eqb (wmine n) (place_eqb q (Kid 0 0)) | Tree.EDone Root _ => false | Tree.EDone (Kid 0 _) _ => false
          | EGone n _ => negb ((n =? 0) || (n =? 3)) | _ => true end) (app_tr s 0) &&
        let y := pg_x _ _ (q_x _ (xs _ s)) in
        forallb (fun i => wallowed (CPoll nat (ws_fut y i) (mkW None 0)) (snd (wc y i))) [0; 1]
    | _ => false end = true) by (vm_compute; reflexivity).
  assert (E : match wrun wevs with
    | Live s => exists b, In (ENew 3 2 b (Kid 0 0)) (app_tr s 0) /\ ends_at_once b | _ => False end).
  { vm_compute. exists race_val. split; [tauto|]. intros i v. exists v. reflexivity. }
  assert (E0 : match wrun wevs with Live s => In (ENew 0 2 join_val Root) (app_tr s 0) | _ => False end) by (vm_compute; tauto).
  destruct (wrun wevs) as [s|s|]; try contradiction.
  apply andb_true_iff in M as [M M4]. apply andb_true_iff in M as [M M3]. apply andb_true_iff in M as [M1 M2]. apply Nat.eqb_eq in M1. rewrite forallb_forall in M3.
  split; [left; split; [right; left; reflexivity|exact M1]|]. split; [|split; [exact M2|split; [|split; [exact E|split]]]].
  - intros n k b q H. apply M3, eqb_prop in H. rewrite H. clear H. destruct (place_eqb_spec q (Kid 0 0)) as [Q|N]; split; intro Q'; [exact Q|reflexivity|discriminate|contradiction].
  - apply live_kid with (k := 2) (b := join_val) (p := Root); [exact E0|lia| | |].
    + intros (v & H). apply M3 in H. discriminate.
    + intros (v & H). apply M3 in H. discriminate.
    + constructor. intros (v & H). apply M3 in H. discriminate.
  - intros (v & H). apply M3 in H. discriminate.
  - intros y i L. rewrite forallb_forall in M4. specialize (M4 i). assert (I : In i [0; 1]) by (cbn; lia). apply M4, wallowed_ok in I. split; apply I.
Qed.
