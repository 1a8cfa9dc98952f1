(** Property C80: a view of an x-bow store that waits for changes of a path and for changes inside it
    is up to date when the page comes to rest, whatever other code writes with notification.

    The view is a block that shows (parts of) a store and awaits, in a loop, a race of streams made
    with until_change and with until_bubbling_change (listens_view in Spec_store_listen.v).  A view
    that uses only one kind of stream, or a helper such as for_each, misses some writes (C38, C44). *)
From Coq Require Import List Arith Bool Lia NArith Cantor.
From Verif Require Import Util Arena Spec_arena Readiness Combinator Tree Spec_tree Tree_proofs Props_tree Executor Spec_executor
  Queue Spec_queue App Page Page_proofs Props_page Spec_view View_proofs Props_view
  Xbow Spec_xbow XbowData XbowStore Spec_store Spec_store_view View_store_proofs Props_store_view Spec_watch Props_watch Spec_store_listen Watch_listen_proofs.
Import ListNotations.

(** C80: when the page is at rest, what a stream that the view waits for listens to has not been
    borrowed mutably since the view last showed the store. *)
Theorem C80_nothing_missed :
  forall V X ww debug bound code on_drop x evs s ww' K keqb H allowed d (st snap : X -> sstate K) strm ops pa bub mine t p,
  will_wake_ok ww -> will_wake_ok ww' -> (forall a b, keqb a b = true <-> a = b) -> page_code_ok code ->
  listens_view ww' K keqb H allowed d st snap strm pa bub mine t p code on_drop evs ->
  srun ww' K keqb H d ops = Some (st x) -> (forall i, strm x i = None) ->
  prun V X ww debug bound code on_drop x evs = Live s -> at_rest ww debug bound code on_drop x evs s ->
  makes (app_tr s t) p mine -> Spec_queue.alive t (q_tr _ (xs _ s)) = true -> Spec_tree.live (app_tr s t) p ->
  forall n k b, In (ENew n k b p) (app_tr s t) -> ~ gone n (app_tr s t) -> ends_at_once b ->
  let y := pg_x V X (q_x _ (xs _ s)) in
  forall i f, i < k -> strm y i = Some f -> Spec_xbow.live _ f (pa i) (bub i) (w_tr _ (sx K (st y))) ->
  (exists ops, Forall allowed ops /\ sexecs ww' K keqb H (snap y) ops = Some (st y)) /\
  exists new, w_tr _ (sx K (st y)) = new ++ w_tr _ (sx K (snap y)) /\ forall q, In (TNotify _ q) new -> ~ affects _ q (pa i) (bub i).
Proof.
  intros V X ww debug bound code on_drop x evs s ww' K keqb H allowed d st snap strm ops pa bub mine t p WW WW' KO CO PV R0 NS R AR M A L n k b IN G E y i f Li F (_ & ND).
  pose proof (C79_race_waits_for_all V X ww debug bound code on_drop x evs s t WW CO R n k b p i IN G E Li) as NR.
  assert (J0 : JL ww' K keqb H d (st x) /\ forall i j f, strm x i = Some f -> strm x j = Some f -> i = j).
  { split; [exists ops; auto|]. intros i' j' f' Q. rewrite NS in Q. discriminate. }
  destruct (C79_up_to_date V X ww debug bound code on_drop x evs s _ _ _ mine t p WW CO
    (listens_watches ww' WW' K keqb KO H allowed d st snap strm pa bub mine t p code on_drop evs PV) J0 R AR M A L n k b i IN G Li NR) as (f' & F' & _ & Q).
  fold y in F', Q. rewrite F in F'. injection F' as <-. destruct Q as [Q|(Q1 & Q2)]; [contradiction|]. split; [exact Q1|exact Q2].
Qed.
Print Assumptions C80_nothing_missed.

(** C80: in particular, if the view waits both for changes of a path and for changes inside it, and no
    code writes there without notification, the data at the path is as when the view last showed it. *)
Theorem C80_up_to_date :
  forall V X ww debug bound code on_drop x evs s ww' K keqb H d (st snap : X -> sstate K) strm ops pa bub mine t p,
  will_wake_ok ww -> will_wake_ok ww' -> (forall a b, keqb a b = true <-> a = b) -> page_code_ok code ->
  listens_view ww' K keqb H (fun o => forall i, loud K (pa i) o) d st snap strm pa bub mine t p code on_drop evs ->
  srun ww' K keqb H d ops = Some (st x) -> (forall i, strm x i = None) ->
  prun V X ww debug bound code on_drop x evs = Live s -> at_rest ww debug bound code on_drop x evs s ->
  makes (app_tr s t) p mine -> Spec_queue.alive t (q_tr _ (xs _ s)) = true -> Spec_tree.live (app_tr s t) p ->
  forall n k b, In (ENew n k b p) (app_tr s t) -> ~ gone n (app_tr s t) -> ends_at_once b ->
  let y := pg_x V X (q_x _ (xs _ s)) in
  forall i j f g, i < k -> j < k -> pa i = pa j -> bub i = false -> bub j = true ->
  strm y i = Some f -> Spec_xbow.live _ f (pa i) (bub i) (w_tr _ (sx K (st y))) ->
  strm y j = Some g -> Spec_xbow.live _ g (pa j) (bub j) (w_tr _ (sx K (st y))) ->
  path_borrow K keqb (pa i) (sd K (st y)) = path_borrow K keqb (pa i) (sd K (snap y)).
Proof.
  intros V X ww debug bound code on_drop x evs s ww' K keqb H d st snap strm ops pa bub mine t p WW WW' KO CO PV R0 NS R AR M A L n k b IN G E y i j f g Li Lj PP Bi Bj F LF FG LG.
  pose proof (fun i => C80_nothing_missed V X ww debug bound code on_drop x evs s ww' K keqb H _ d st snap strm ops pa bub mine t p WW WW' KO CO PV R0 NS R AR M A L n k b IN G E i) as Q.
  fold y in Q. destruct (Q i f Li F LF) as ((ops' & FO & RO) & n1 & T1 & U1). destruct (Q j g Lj FG LG) as (_ & n2 & T2 & U2).
  rewrite T1 in T2. apply app_inv_tail in T2. subst n2. rewrite Bi in U1. rewrite Bj, <- PP in U2. cbn in U1, U2.
  destruct (dx_execs ww' K keqb KO H (pa i) ops' (snap y) (st y)) as (n3 & T3 & [D|(q & IQ & C)]); [eapply Forall_impl; [|exact FO]; auto|exact RO|exact D|].
  rewrite T1 in T3. apply app_inv_tail in T3. subst n3. exfalso. destruct C as [C|C]; [exact (U1 q IQ C)|exact (U2 q IQ C)].
Qed.
Print Assumptions C80_up_to_date.

(** Non-vacuity: the shared state is a store of a pair of numbers and a number.  Application 0 joins two
    blocks: the first shows the pair and waits, in a loop, for the first change of it or inside it; the
    second replaces the pair by (7, 8) when it finds 5 as its second part. *)
Record lst := mkLst { ls_st : sstate nat; ls_snap : sstate nat; ls_f0 : option nat; ls_f1 : option nat }.
Definition ls_strm (x : lst) (i : nat) := match i with 0 => ls_f0 x | 1 => ls_f1 x | _ => None end.
Definition ls_pair : list (seg nat) := [SField _ 0].
Definition ls_part : list (seg nat) := [SField _ 0; SField _ 1].
Definition ls_bub (i : nat) : bool := i =? 1.
Definition ls_d : XbowData.val nat := VStruct _ [VStruct _ [VLeaf nat 1; VLeaf nat 2]; VLeaf nat 3].
Notation ls_data s q := (path_borrow nat Nat.eqb q (sd nat s)).
Definition ls_set (q : list (seg nat)) (v : XbowData.val nat) (x : lst) : lst * list gact :=
  match exw_exec (ls_st x) (SAct _ (AWrite _ q (fun _ => true) (fun _ => v))) with
  | Some s' => (mkLst s' (ls_snap x) (ls_f0 x) (ls_f1 x), exw_wakes (ls_st x) s')
  | None => (x, [])
  end.
Definition ls_make (i : nat) (o : option nat) (s : sstate nat) : option (sstate nat * nat) :=
  match o with
  | Some f => Some (s, f)
  | None => match exw_exec s (SStream _ (ONew _ ls_pair (ls_bub i))) with Some s' => Some (s', w_next _ (sx nat s)) | None => None end
  end.
Definition ls_liveb (f i : nat) (t : list (Xbow.ev (seg nat))) : bool :=
  existsb (fun e => match e with TNew _ g [SField _ 0] b => (g =? f) && eqb b (ls_bub i) | _ => false end) t &&
  forallb (fun e => match e with TDrop _ g => negb (g =? f) | _ => true end) t.
Definition ls_show (x : lst) : option lst :=
  match ls_make 0 (ls_f0 x) (ls_st x) with
  | Some (s1, f0) => match ls_make 1 (ls_f1 x) s1 with
    | Some (s2, f1) => if ls_liveb f0 0 (exw_tr s2) && ls_liveb f1 1 (exw_tr s2) && negb (f0 =? f1) then Some (mkLst s2 s2 (Some f0) (Some f1)) else None
    | None => None
    end
  | None => None
  end.
Definition ls_poll (q : place) (i : nat) (x : lst) : lst * list gact * next Props_tree.val :=
  match ls_strm x i with
  | Some f => match exw_exec (ls_st x) (SStream _ (OPoll _ f (Arena.mkW (Some (block_task 0 q)) 7))) with
    | Some s => match exw_tr s with
      | TPoll _ _ _ r :: _ => if length (exw_tr s) =? S (length (exw_tr (ls_st x)))
          then (mkLst s (ls_snap x) (ls_f0 x) (ls_f1 x), [], if r then NRet (Props_tree.VNat i) else NPend) else (x, [], NPanic)
      | _ => (x, [], NPanic)
      end
    | None => (x, [], NPanic)
    end
  | None => (x, [], NPanic)
  end.
Definition ls_code (t : nat) (x : lst) (p : place) (got : option Props_tree.val) : lst * list gact * next Props_tree.val :=
  match t, p with
  | 0, Root => (x, [], match got with None => NAwait KArray join_val 2 | Some v => NRet v end)
  | 0, Kid 0 0 => match ls_show x with Some x1 => (x1, [], NAwait KArray race_val 2) | None => (x, [], NPanic) end
  | 0, Kid 0 1 => match ls_data (ls_st x) ls_part with
      | Some (VLeaf _ 5) => let (x', l) := ls_set ls_pair (VStruct _ [VLeaf nat 7; VLeaf nat 8]) x in (x', l, NPend)
      | _ => (x, [], NPend) end
  | 0, Kid 0 _ => (x, [], NPend)
  | 0, Kid n i => ls_poll p i x
  | _, _ => (x, [], NPend)
  end.
Definition ls_drop (t : nat) (x : lst) : lst * list gact := (x, []).
(** an event handler sets the second part of the pair to [n], and wakes the second block *)
Definition ls_click (n : nat) (x : lst) : lst * list gact := let (x', l) := ls_set ls_part (VLeaf _ n) x in (x', l ++ [GWake 0 (Kid 0 1)]).
Definition ls_evs : list (pev lst) := pmount ++ [PFire 9; PCode (ls_click 4); PFire 9; PCode (ls_click 5); PFire 9].
Definition ls_x0 : lst := mkLst (sinit nat ls_d) (sinit nat ls_d) None None.

Notation ls_loud := (fun o => forall i : nat, loud nat ((fun _ => ls_pair) i) o).
Lemma ls_set_others q v x x' l l' : ls_set q v x = (x', l) ->
  store_uses ex_ww nat Nat.eqb exw_H (fun o => ls_loud o /\ forall j f, ls_strm x j = Some f -> ~ polls_helper nat f o) (ls_st x) (l ++ l') (ls_st x') /\
  ls_snap x' = ls_snap x /\ (forall j, ls_strm x' j = ls_strm x j).
Proof.
  unfold ls_set. destruct (exw_exec (ls_st x) _) as [s1|] eqn:E; [|intros [= <- <-]; split; [constructor|auto]]. intros [= <- <-]. cbn [ls_st]. split; [|split; reflexivity].
  eapply store_step; [|exact E|eapply exw_told; exact E|constructor]. split; [intro j; exact Logic.I|]. intros j f _ [(wk & e & Q)|(wk & Q)]; discriminate.
Qed.
Lemma ls_make_ok i o s s' f : ls_make i o s = Some (s', f) -> store_uses ex_ww nat Nat.eqb exw_H ls_loud s [] s'.
Proof.
  unfold ls_make. destruct o as [f0|]; [intros [= <- _]; constructor|]. destruct (exw_exec s _) as [s1|] eqn:E; [|discriminate]. intros [= <- _].
  eapply store_step with (o := SStream _ (ONew _ ls_pair (ls_bub i))); [intro j; exact Logic.I|exact E| |constructor].
  cbn [sexec] in E. unfold Xbow.exec in E. destruct (add_slots _ _) as [[st sl]|]; [|discriminate]. injection E as <-. eexists [_]. split; [reflexivity|]. intros wk u q [Q|[]]; discriminate.
Qed.
Lemma ls_live f i t : ls_liveb f i t = true -> Spec_xbow.live _ f ls_pair (ls_bub i) t.
Proof.
  unfold ls_liveb. intro Q. apply andb_true_iff in Q as [Q1 Q2]. split.
  - apply existsb_exists in Q1 as (e & I & Q). destruct e as [g q b| | | |]; try discriminate. destruct q as [|[[|j]| | | | |] [|? ?]]; try discriminate.
    apply andb_true_iff in Q as [Q Q']. apply Nat.eqb_eq in Q. apply eqb_prop in Q'. subst. exact I.
  - intro I. rewrite forallb_forall in Q2. apply Q2 in I. rewrite Nat.eqb_refl in I. discriminate.
Qed.
Example ls_view : listens_view ex_ww nat Nat.eqb exw_H ls_loud ls_d ls_st ls_snap ls_strm (fun _ => ls_pair) ls_bub wmine 0 (Kid 0 0) ls_code ls_drop ls_evs.
Proof.
  split; [|split; [|split; [|split]]].
  - intros x got x' l nx _ E. cbn [ls_code] in E. unfold ls_show in E.
    destruct (ls_make 0 (ls_f0 x) (ls_st x)) as [[s1 f0]|] eqn:E1; [|injection E as <- <- <-; auto].
    destruct (ls_make 1 (ls_f1 x) s1) as [[s2 f1]|] eqn:E2; [|injection E as <- <- <-; auto].
    destruct (_ && _)%bool eqn:B; [|injection E as <- <- <-; auto]. injection E as <- <- <-. right. apply andb_true_iff in B as [B B3]. apply andb_true_iff in B as [B1 B2].
    apply negb_true_iff, Nat.eqb_neq in B3. split; [|split].
    + eapply exw_uses_app; eapply ls_make_ok; eauto.
    + intros [|[|i]] [|[|j]] f; cbn; congruence.
    + intros k b m [= <- <- <-]. split; [reflexivity|]. intros i Li. destruct i as [|[|i]]; [exists f0|exists f1|lia]; (split; [reflexivity|apply ls_live; assumption]).
  - intros n i x got x' l nx M _ E. destruct n as [|n]; [discriminate|].
    assert (EP : ls_poll (Kid (S n) i) i x = (x', l, nx)) by (destruct i; exact E). clear E. unfold ls_poll in EP.
    destruct (ls_strm x i) as [f|]; [|injection EP as <- <- <-; auto].
    destruct (exw_exec (ls_st x) _) as [s|] eqn:EX; [|injection EP as <- <- <-; auto].
    destruct (exw_tr s) as [|[|f' wk' r| | |] t'] eqn:T; try (injection EP as <- <- <-; auto; fail).
    destruct (length _ =? _) eqn:LE; [|injection EP as <- <- <-; auto]. injection EP as <- <- <-. right.
    exists f, (Arena.mkW (Some (block_task 0 (Kid (S n) i))) 7), r. split; [reflexivity|]. split; [reflexivity|]. split; [intro j; exact Logic.I|]. split; [exact EX|].
    split; [|split; [reflexivity|split; [reflexivity|destruct r; eauto]]]. cbn [ls_st].
    cbn [sexec] in EX. destruct (is_helper _ _ _); [injection EX as <-; exfalso; rewrite T in LE; apply Nat.eqb_eq in LE; cbn in LE; lia|].
    unfold Xbow.exec in EX. destruct (find_stream _ _) as [u|]; [|injection EX as <-; exfalso; cbn [sx with_x] in T; rewrite T in LE; apply Nat.eqb_eq in LE; cbn in LE; lia].
    destruct (poll_slots _ _ _ _) as [[st v]|]; [|discriminate]. injection EX as <-. cbn in T |- *. injection T as _ _ -> _. reflexivity.
  - intros u x q got x' l nx N _ E.
    assert (NIL : forall r, (x, [], r) = (x', l, nx) -> nx = NPanic \/
      store_uses ex_ww nat Nat.eqb exw_H (fun o => ls_loud o /\ forall j f, ls_strm x j = Some f -> ~ polls_helper nat f o) (ls_st x) l (ls_st x') /\
      ls_snap x' = ls_snap x /\ (forall j, ls_strm x' j = ls_strm x j)) by (intros r [= <- <- _]; right; split; [constructor|auto]).
    destruct u as [|u]; [|exact (NIL _ E)]. destruct q as [|n i]; [exact (NIL _ E)|].
    destruct N as [N|(N1 & N2)]; [congruence|]. destruct n as [|n]; [|specialize (N2 (S n) i eq_refl); discriminate].
    destruct i as [|[|i]]; [congruence| |exact (NIL _ E)]. cbn [ls_code] in E.
    destruct (path_borrow _ _ _ _) as [v|]; [|exact (NIL _ E)]. destruct v as [m| | | | | |]; try exact (NIL _ E).
    destruct m as [|[|[|[|[|[|m]]]]]]; try exact (NIL _ E). destruct (ls_set ls_pair _ x) as [y m] eqn:ES. injection E as <- <- <-. right.
    rewrite <- (app_nil_r m). eapply ls_set_others; eauto.
  - intros u x x' l _ [= <- <-]. split; [constructor|auto].
  - intros f x x' l IN _ E. cbn in IN. destruct IN as [Q|[Q|[Q|[Q|[Q|[Q|[Q|[]]]]]]]]; try discriminate; injection Q as <-;
    unfold ls_click in E; destruct (ls_set ls_part _ x) as [y m] eqn:ES; injection E as <- <-; eapply ls_set_others; eauto.
Qed.
Example ls_start : srun ex_ww nat Nat.eqb exw_H ls_d [] = Some (ls_st ls_x0) /\ forall i, ls_strm ls_x0 i = None.
Proof. split; [reflexivity|]. intros [|[|i]]; reflexivity. Qed.
Example ls_code_ok : page_code_ok ls_code.
Proof.
  intros t x p got x' l k b n E. destruct t as [|t]; [|discriminate E]. destruct p as [|[|m] i]; cbn [ls_code] in E.
  - destruct got; [discriminate|]. injection E as _ _ <- <- <-. split; [apply ex_behaviours|discriminate].
  - destruct i as [|[|i]]; [| |discriminate E].
    + destruct (ls_show x) as [x1|]; [|discriminate]. injection E as _ _ <- <- <-. split; [apply ex_behaviours|discriminate].
    + destruct (path_borrow _ _ _ _) as [v|]; [|discriminate]. destruct v as [q| | | | | |]; try discriminate.
      destruct q as [|[|[|[|[|[|q]]]]]]; try discriminate. destruct (ls_set ls_pair _ x); discriminate.
  - unfold ls_poll in E. destruct i; repeat (match type of E with context [match ?a with _ => _ end] => destruct a end; try discriminate E).
Qed.
Definition ls_run evs := prun Props_tree.val lst ex_ww true 60 ls_code ls_drop ls_x0 evs.
Definition ls_see (r : rres (qu (page Props_tree.val lst))) :=
  match r with
  | Live s => let x := pg_x _ _ (q_x _ (xs _ s)) in
      Some (Spec_queue.alive 0 (q_tr _ (xs _ s)), timers _ s, ls_data (ls_snap x) ls_pair, ls_data (ls_st x) ls_pair,
        flat_map (fun e => match e with ENew n k _ (Kid 0 0) => [(n, k)] | _ => [] end) (app_tr s 0))
  | _ => None
  end.
Notation pair_ a b := (Some (VStruct nat [VLeaf nat a; VLeaf nat b])).
(** at rest; then out of date, after a handler ran, until the timer fires; then at rest again; then both
    kinds of writes *)
Example ls_shown :
  ls_see (ls_run (pmount ++ [PFire 9])) = Some (true, 0, pair_ 1 2, pair_ 1 2, [(1, 2)]) /\
  ls_see (ls_run (pmount ++ [PFire 9; PCode (ls_click 4)])) = Some (true, 1, pair_ 1 2, pair_ 1 4, [(1, 2)]) /\
  ls_see (ls_run (pmount ++ [PFire 9; PCode (ls_click 4); PFire 9])) = Some (true, 0, pair_ 1 4, pair_ 1 4, [(2, 2); (1, 2)]) /\
  ls_see (ls_run ls_evs) = Some (true, 0, pair_ 7 8, pair_ 7 8, [(5, 2); (4, 2); (3, 2); (2, 2); (1, 2)]).
Proof. vm_compute. auto. Qed.
(** and there, the theorem applies to it *)
Example ls_rest : match ls_run ls_evs with
  | Live s => at_rest ex_ww true 60 ls_code ls_drop ls_x0 ls_evs s /\ makes (app_tr s 0) (Kid 0 0) wmine /\ Spec_queue.alive 0 (q_tr _ (xs _ s)) = true /\
      Spec_tree.live (app_tr s 0) (Kid 0 0) /\ (exists b, In (ENew 5 2 b (Kid 0 0)) (app_tr s 0) /\ ends_at_once b) /\ ~ gone 5 (app_tr s 0) /\
      let y := pg_x _ _ (q_x _ (xs _ s)) in
      forall i, i < 2 -> exists f, ls_strm y i = Some f /\ Spec_xbow.live _ f ((fun _ => ls_pair) i) (ls_bub i) (exw_tr (ls_st y))
  | _ => False end.
Proof.
  assert (M : match ls_run ls_evs with
    | Live s => (timers _ s =? 0) && Spec_queue.alive 0 (q_tr _ (xs _ s)) &&
        forallb (fun e => match e with ENew n _ _ q => eqb (wmine n) (place_eqb q (Kid 0 0)) | Tree.EDone Root _ => false | Tree.EDone (Kid 0 _) _ => false
          | EGone n _ => negb ((n =? 0) || (n =? 5)) | _ => true end) (app_tr s 0) &&
        let y := pg_x _ _ (q_x _ (xs _ s)) in
        forallb (fun i => match ls_strm y i with Some f => ls_liveb f i (exw_tr (ls_st y)) | None => false end) [0; 1]
    | _ => false end = true) by (vm_compute; reflexivity).
  assert (E : match ls_run ls_evs with
    | Live s => exists b, In (ENew 5 2 b (Kid 0 0)) (app_tr s 0) /\ ends_at_once b | _ => False end).
  { vm_compute. exists race_val. split; [tauto|]. intros i v. exists v. reflexivity. }
  assert (E0 : match ls_run ls_evs with Live s => In (ENew 0 2 join_val Root) (app_tr s 0) | _ => False end) by (vm_compute; tauto).
  destruct (ls_run ls_evs) as [s|s|]; try contradiction.
  apply andb_true_iff in M as [M M4]. apply andb_true_iff in M as [M M3]. apply andb_true_iff in M as [M1 M2]. apply Nat.eqb_eq in M1. rewrite forallb_forall in M3.
  split; [left; split; [right; left; reflexivity|exact M1]|]. split; [|split; [exact M2|split; [|split; [exact E|split]]]].
  - intros n k b q H. apply M3, eqb_prop in H. rewrite H. clear H. destruct (place_eqb_spec q (Kid 0 0)) as [Q|N]; split; intro Q'; [exact Q|reflexivity|discriminate|contradiction].
  - apply live_kid with (k := 2) (b := join_val) (p := Root); [exact E0|lia| | |].
    + intros (v & H). apply M3 in H. discriminate.
    + intros (v & H). apply M3 in H. discriminate.
    + constructor. intros (v & H). apply M3 in H. discriminate.
  - intros (v & H). apply M3 in H. discriminate.
  - intros y i L. rewrite forallb_forall in M4. specialize (M4 i). assert (I : In i [0; 1]) by (cbn; lia). apply M4 in I. fold y in I.
    destruct (ls_strm y i) as [f|]; [|discriminate]. exists f. split; [reflexivity|]. apply ls_live, I.
Qed.
