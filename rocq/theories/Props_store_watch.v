(** Property C79, for x-bow stores: a view that waits for the first change of several paths of a
    store is up to date when the page comes to rest. *)
From Coq Require Import List Arith Bool Lia NArith Cantor.
From Verif Require Import Util Arena Spec_arena Readiness Combinator Tree Spec_tree Tree_proofs Props_tree Executor Spec_executor
  Queue Spec_queue App Page Page_proofs Props_page Spec_view View_proofs Props_view
  Xbow Spec_xbow XbowData XbowStore Spec_store Spec_store_view View_store_proofs Props_store_view Spec_watch Props_watch Spec_store_watch Watch_store_proofs.
Import ListNotations.

(** C79: when the page is at rest, a view of several paths of a store that waits for the first
    change of any of them shows the data at each (unless the stream has been dropped). *)
Theorem C79_store :
  forall V X ww debug bound code on_drop x evs s ww' K keqb H d (st : X -> sstate K) seen strm ops pa mine t p,
  will_wake_ok ww -> will_wake_ok ww' -> (forall a b, keqb a b = true <-> a = b) -> page_code_ok code ->
  paths_view ww' K keqb H d st seen strm pa mine t p code on_drop evs ->
  srun ww' K keqb H d ops = Some (st x) -> Forall (fun o => forall i, visible K (pa i) o) ops -> (forall i, strm x i = None) ->
  prun V X ww debug bound code on_drop x evs = Live s -> at_rest ww debug bound code on_drop x evs s ->
  makes (app_tr s t) p mine -> Spec_queue.alive t (q_tr _ (xs _ s)) = true -> Spec_tree.live (app_tr s t) p ->
  forall n k b, In (ENew n k b p) (app_tr s t) -> ~ gone n (app_tr s t) -> ends_at_once b ->
  let y := pg_x V X (q_x _ (xs _ s)) in
  forall i f, i < k -> strm y i = Some f -> Spec_xbow.live _ f (pa i) false (w_tr _ (sx K (st y))) ->
  seen y i = path_borrow K keqb (pa i) (sd K (st y)).
Proof.
  intros V X ww debug bound code on_drop x evs s ww' K keqb H d st seen strm ops pa mine t p WW WW' KO CO PV R0 VI NS R AR M A L n k b IN G E y i f Li F (_ & ND).
  pose proof (C79_race_waits_for_all V X ww debug bound code on_drop x evs s t WW CO R n k b p i IN G E Li) as NR.
  assert (J0 : JX ww' K keqb H d pa (st x) /\ forall i j f, strm x i = Some f -> strm x j = Some f -> i = j).
  { split; [exists ops; auto|]. intros i' j' f' Q. rewrite NS in Q. discriminate. }
  destruct (C79_up_to_date V X ww debug bound code on_drop x evs s _ _ _ mine t p WW CO
    (paths_watches ww' WW' K keqb KO H d pa st seen strm mine t p code on_drop evs PV) J0 R AR M A L n k b i IN G Li NR) as (f' & F' & _ & Q).
  fold y in F', Q. rewrite F in F'. injection F' as <-. tauto.
Qed.
Print Assumptions C79_store.

(** Non-vacuity: the shared state is a store of two numbers.  Application 0 joins two blocks: the
    first shows both numbers and waits, in a loop, for the first change of any of them, with the
    streams it has made at first; the second sets the second number to 6 when it finds 5 in the first. *)
Record pst := mkPst { ps_st : sstate nat; ps_v0 : option (XbowData.val nat); ps_v1 : option (XbowData.val nat); ps_f0 : option nat; ps_f1 : option nat }.
Definition ps_seen (x : pst) (i : nat) := match i with 0 => ps_v0 x | 1 => ps_v1 x | _ => None end.
Definition ps_strm (x : pst) (i : nat) := match i with 0 => ps_f0 x | 1 => ps_f1 x | _ => None end.
Definition ps_path (i : nat) : list (seg nat) := [SField _ i].
Notation ps_data x i := (path_borrow nat Nat.eqb (ps_path i) (sd nat (ps_st x))).
Definition ps_set (i n : nat) (x : pst) : pst * list gact :=
  match exw_exec (ps_st x) (SAct _ (AWrite _ (ps_path i) (fun _ => true) (fun _ => VLeaf _ n))) with
  | Some s' => (mkPst s' (ps_v0 x) (ps_v1 x) (ps_f0 x) (ps_f1 x), exw_wakes (ps_st x) s')
  | None => (x, [])
  end.
(** makes a stream, if there is none *)
Definition ps_make (i : nat) (o : option nat) (s : sstate nat) : option (sstate nat * nat) :=
  match o with
  | Some f => Some (s, f)
  | None => match exw_exec s (SStream _ (ONew _ (ps_path i) false)) with Some s' => Some (s', w_next _ (sx nat s)) | None => None end
  end.
Definition ps_liveb (f i : nat) (t : list (Xbow.ev (seg nat))) : bool :=
  existsb (fun e => match e with TNew _ g [SField _ j] false => (g =? f) && (j =? i) | _ => false end) t &&
  forallb (fun e => match e with TDrop _ g => negb (g =? f) | _ => true end) t.
Definition ps_show (x : pst) : option pst :=
  match ps_make 0 (ps_f0 x) (ps_st x) with
  | Some (s1, f0) => match ps_make 1 (ps_f1 x) s1 with
    | Some (s2, f1) =>
        if ps_liveb f0 0 (exw_tr s2) && ps_liveb f1 1 (exw_tr s2) && negb (f0 =? f1) then
          Some (mkPst s2 (path_borrow nat Nat.eqb (ps_path 0) (sd nat s2)) (path_borrow nat Nat.eqb (ps_path 1) (sd nat s2)) (Some f0) (Some f1))
        else None
    | None => None
    end
  | None => None
  end.
Definition ps_poll (q : place) (i : nat) (x : pst) : pst * list gact * next Props_tree.val :=
  match ps_strm x i with
  | Some f => match exw_exec (ps_st x) (SStream _ (OPoll _ f (Arena.mkW (Some (block_task 0 q)) 7))) with
    | Some s => match exw_tr s with
      | TPoll _ _ _ r :: _ => if length (exw_tr s) =? S (length (exw_tr (ps_st x)))
          then (mkPst s (ps_v0 x) (ps_v1 x) (ps_f0 x) (ps_f1 x), [], if r then NRet (Props_tree.VNat i) else NPend) else (x, [], NPanic)
      | _ => (x, [], NPanic)
      end
    | None => (x, [], NPanic)
    end
  | None => (x, [], NPanic)
  end.
Definition ps_code (t : nat) (x : pst) (p : place) (got : option Props_tree.val) : pst * list gact * next Props_tree.val :=
  match t, p with
  | 0, Root => (x, [], match got with None => NAwait KArray join_val 2 | Some v => NRet v end)
  | 0, Kid 0 0 => match ps_show x with Some x1 => (x1, [], NAwait KArray race_val 2) | None => (x, [], NPanic) end
  | 0, Kid 0 1 => match ps_data x 0 with Some (VLeaf _ 5) => let (x', l) := ps_set 1 6 x in (x', l, NPend) | _ => (x, [], NPend) end
  | 0, Kid 0 _ => (x, [], NPend)
  | 0, Kid n i => ps_poll p i x
  | _, _ => (x, [], NPend)
  end.
Definition ps_drop (t : nat) (x : pst) : pst * list gact := (x, []).
(** an event handler sets the first number to 5 and wakes the second block *)
Definition ps_click (x : pst) : pst * list gact := let (x', l) := ps_set 0 5 x in (x', l ++ [GWake 0 (Kid 0 1)]).
Definition ps_evs : list (pev pst) := pmount ++ [PFire 9; PCode ps_click; PFire 9].
Definition ps_x0 : pst := mkPst (sinit nat exw_d) None None None None.

Lemma ps_vis i j n : act_visible nat (ps_path j) (AWrite _ (ps_path i) (fun _ => true) (fun _ => VLeaf nat n)).
Proof. intros (r & E). unfold ps_path in *. injection E as <- _. reflexivity. Qed.
Lemma ps_set_others i n x x' l l' : ps_set i n x = (x', l) ->
  store_uses ex_ww nat Nat.eqb exw_H (fun o => (forall j, visible nat (ps_path j) o) /\ forall j f, ps_strm x j = Some f -> ~ polls_helper nat f o) (ps_st x) (l ++ l') (ps_st x') /\
  (forall j, ps_seen x' j = ps_seen x j) /\ (forall j, ps_strm x' j = ps_strm x j).
Proof.
  unfold ps_set. destruct (exw_exec (ps_st x) _) as [s1|] eqn:E; [|intros [= <- <-]; split; [constructor|auto]]. intros [= <- <-]. cbn [ps_st]. split; [|split; reflexivity].
  eapply store_step; [|exact E|eapply exw_told; exact E|constructor]. split; [intro j; apply ps_vis|]. intros j f _ [(wk & e & Q)|(wk & Q)]; discriminate.
Qed.
Lemma ps_make_ok i o s s' f : ps_make i o s = Some (s', f) -> store_uses ex_ww nat Nat.eqb exw_H (fun o => forall j, visible nat (ps_path j) o) s [] s'.
Proof.
  unfold ps_make. destruct o as [f0|]; [intros [= <- _]; constructor|]. destruct (exw_exec s _) as [s1|] eqn:E; [|discriminate]. intros [= <- _].
  eapply store_step with (o := SStream _ (ONew _ (ps_path i) false)); [intro j; exact Logic.I|exact E| |constructor].
  cbn [sexec] in E. unfold Xbow.exec in E. destruct (add_slots _ _) as [[st sl]|]; [|discriminate]. injection E as <-. eexists [_]. split; [reflexivity|]. intros wk u q [Q|[]]; discriminate.
Qed.
Lemma ps_live f i t : ps_liveb f i t = true -> Spec_xbow.live _ f (ps_path i) false t.
Proof.
  unfold ps_liveb. intro Q. apply andb_true_iff in Q as [Q1 Q2]. split.
  - apply existsb_exists in Q1 as (e & I & Q). destruct e as [g q b| | | |]; try discriminate. destruct q as [|[j| | | | |] [|? ?]]; try discriminate; destruct b; try discriminate.
    apply andb_true_iff in Q as [Q Q']. apply Nat.eqb_eq in Q, Q'. subst. exact I.
  - intro I. rewrite forallb_forall in Q2. apply Q2 in I. rewrite Nat.eqb_refl in I. discriminate.
Qed.
Example ps_view : paths_view ex_ww nat Nat.eqb exw_H exw_d ps_st ps_seen ps_strm ps_path wmine 0 (Kid 0 0) ps_code ps_drop ps_evs.
Proof.
  split; [|split; [|split; [|split]]].
  - intros x got x' l nx _ E. cbn [ps_code] in E. unfold ps_show in E.
    destruct (ps_make 0 (ps_f0 x) (ps_st x)) as [[s1 f0]|] eqn:E1; [|injection E as <- <- <-; auto].
    destruct (ps_make 1 (ps_f1 x) s1) as [[s2 f1]|] eqn:E2; [|injection E as <- <- <-; auto].
    destruct (_ && _)%bool eqn:B; [|injection E as <- <- <-; auto]. injection E as <- <- <-. right. apply andb_true_iff in B as [B B3]. apply andb_true_iff in B as [B1 B2].
    apply negb_true_iff, Nat.eqb_neq in B3. split; [|split].
    + eapply exw_uses_app; eapply ps_make_ok; eauto.
    + intros [|[|i]] [|[|j]] f; cbn; congruence.
    + intros k b m [= <- <- <-] i Li. destruct i as [|[|i]]; [exists f0|exists f1|lia]; (split; [reflexivity|]; split; [apply ps_live; assumption|reflexivity]).
  - intros n i x got x' l nx M _ E. destruct n as [|n]; [discriminate|].
    assert (EP : ps_poll (Kid (S n) i) i x = (x', l, nx)) by (destruct i; exact E). clear E. unfold ps_poll in EP.
    destruct (ps_strm x i) as [f|]; [|injection EP as <- <- <-; auto].
    destruct (exw_exec (ps_st x) _) as [s|] eqn:EX; [|injection EP as <- <- <-; auto].
    destruct (exw_tr s) as [|[|f' wk' r| | |] t'] eqn:T; try (injection EP as <- <- <-; auto; fail).
    destruct (length _ =? _) eqn:LE; [|injection EP as <- <- <-; auto]. injection EP as <- <- <-. right.
    exists f, (Arena.mkW (Some (block_task 0 (Kid (S n) i))) 7), r. split; [reflexivity|]. split; [reflexivity|]. split; [exact EX|].
    split; [|split; [reflexivity|split; [reflexivity|destruct r; eauto]]]. cbn [ps_st].
    cbn [sexec] in EX. destruct (is_helper _ _ _); [injection EX as <-; exfalso; rewrite T in LE; apply Nat.eqb_eq in LE; cbn in LE; lia|].
    unfold Xbow.exec in EX. destruct (find_stream _ _) as [u|]; [|injection EX as <-; exfalso; cbn [sx with_x] in T; rewrite T in LE; apply Nat.eqb_eq in LE; cbn in LE; lia].
    destruct (poll_slots _ _ _ _) as [[st v]|]; [|discriminate]. injection EX as <-. cbn in T |- *. injection T as _ _ -> _. reflexivity.
  - intros u x q got x' l nx N _ E.
    assert (NIL : forall r, (x, [], r) = (x', l, nx) -> nx = NPanic \/
      store_uses ex_ww nat Nat.eqb exw_H (fun o => (forall j, visible nat (ps_path j) o) /\ forall j f, ps_strm x j = Some f -> ~ polls_helper nat f o) (ps_st x) l (ps_st x') /\
      (forall j, ps_seen x' j = ps_seen x j) /\ (forall j, ps_strm x' j = ps_strm x j)) by (intros r [= <- <- _]; right; split; [constructor|auto]).
    destruct u as [|u]; [|exact (NIL _ E)]. destruct q as [|n i]; [exact (NIL _ E)|].
    destruct N as [N|(N1 & N2)]; [congruence|]. destruct n as [|n]; [|specialize (N2 (S n) i eq_refl); discriminate].
    destruct i as [|[|i]]; [congruence| |exact (NIL _ E)]. cbn [ps_code] in E.
    destruct (path_borrow _ _ _ _) as [v|]; [|exact (NIL _ E)]. destruct v as [m| | | | | |]; try exact (NIL _ E).
    destruct m as [|[|[|[|[|[|m]]]]]]; try exact (NIL _ E). destruct (ps_set 1 6 x) as [y m] eqn:ES. injection E as <- <- <-. right.
    rewrite <- (app_nil_r m). eapply ps_set_others; eauto.
  - intros u x x' l _ [= <- <-]. split; [constructor|auto].
  - intros f x x' l IN _ E. cbn in IN. destruct IN as [Q|[Q|[Q|[Q|[Q|[]]]]]]; try discriminate. injection Q as <-.
    unfold ps_click in E. destruct (ps_set 0 5 x) as [y m] eqn:ES. injection E as <- <-. eapply ps_set_others; eauto.
Qed.
Example ps_start : srun ex_ww nat Nat.eqb exw_H exw_d [] = Some (ps_st ps_x0) /\ forall i, ps_strm ps_x0 i = None.
Proof. split; [reflexivity|]. intros [|[|i]]; reflexivity. Qed.
Example ps_code_ok : page_code_ok ps_code.
Proof.
  intros t x p got x' l k b n E. destruct t as [|t]; [|discriminate E]. destruct p as [|[|m] [|[|i]]]; cbn [ps_code] in E; try discriminate E.
  - destruct got; [discriminate|]. injection E as _ _ <- <- <-. split; [apply ex_behaviours|discriminate].
  - destruct (ps_show x) as [x1|]; [|discriminate]. injection E as _ _ <- <- <-. split; [apply ex_behaviours|discriminate].
  - destruct (path_borrow _ _ _ _) as [v|]; [|discriminate]. destruct v as [q| | | | | |]; try discriminate.
    destruct q as [|[|[|[|[|[|q]]]]]]; try discriminate. destruct (ps_set 1 6 x); discriminate.
  - unfold ps_poll in E. repeat (match type of E with context [match ?a with _ => _ end] => destruct a end; try discriminate E).
  - unfold ps_poll in E. repeat (match type of E with context [match ?a with _ => _ end] => destruct a end; try discriminate E).
Qed.
Definition ps_run evs := prun Props_tree.val pst ex_ww true 60 ps_code ps_drop ps_x0 evs.
Definition ps_see (r : rres (qu (page Props_tree.val pst))) :=
  match r with
  | Live s => let x := pg_x _ _ (q_x _ (xs _ s)) in
      Some (Spec_queue.alive 0 (q_tr _ (xs _ s)), timers _ s, map (ps_seen x) [0; 1], [ps_data x 0; ps_data x 1],
        flat_map (fun e => match e with ENew n k _ (Kid 0 0) => [(n, k)] | _ => [] end) (app_tr s 0))
  | _ => None
  end.
Notation num n := (Some (VLeaf nat n)).
(** at rest; then out of date, after the handler ran, until the timer fires; then at rest again *)
Example ps_shown :
  ps_see (ps_run (pmount ++ [PFire 9])) = Some (true, 0, [num 1; num 2], [num 1; num 2], [(1, 2)]) /\
  ps_see (ps_run (pmount ++ [PFire 9; PCode ps_click])) = Some (true, 1, [num 1; num 2], [num 5; num 2], [(1, 2)]) /\
  ps_see (ps_run ps_evs) = Some (true, 0, [num 5; num 6], [num 5; num 6], [(3, 2); (2, 2); (1, 2)]).
Proof. vm_compute. auto. Qed.
(** and there, the theorem applies to it *)
Example ps_rest : match ps_run ps_evs with
  | Live s => at_rest ex_ww true 60 ps_code ps_drop ps_x0 ps_evs s /\ makes (app_tr s 0) (Kid 0 0) wmine /\ Spec_queue.alive 0 (q_tr _ (xs _ s)) = true /\
      Spec_tree.live (app_tr s 0) (Kid 0 0) /\ (exists b, In (ENew 3 2 b (Kid 0 0)) (app_tr s 0) /\ ends_at_once b) /\ ~ gone 3 (app_tr s 0) /\
      let y := pg_x _ _ (q_x _ (xs _ s)) in
      forall i, i < 2 -> exists f, ps_strm y i = Some f /\ Spec_xbow.live _ f (ps_path i) false (exw_tr (ps_st y))
  | _ => False end.
Proof.
  assert (M : match ps_run ps_evs with
    | Live s => (timers _ s =? 0) && Spec_queue.alive 0 (q_tr _ (xs _ s)) &&
        forallb (fun e => match e with ENew n _ _ q => eqb (wmine n) (place_eqb q (Kid 0 0)) | Tree.EDone Root _ => false | Tree.EDone (Kid 0 _) _ => false
          | EGone n _ => negb ((n =? 0) || (n =? 3)) | _ => true end) (app_tr s 0) &&
        let y := pg_x _ _ (q_x _ (xs _ s)) in
        forallb (fun i => match ps_strm y i with Some f => ps_liveb f i (exw_tr (ps_st y)) | None => false end) [0; 1]
    | _ => false end = true) by (vm_compute; reflexivity).
  assert (E : match ps_run ps_evs with
    | Live s => exists b, In (ENew 3 2 b (Kid 0 0)) (app_tr s 0) /\ ends_at_once b | _ => False end).
  { vm_compute. exists race_val. split; [tauto|]. intros i v. exists v. reflexivity. }
  assert (E0 : match ps_run ps_evs with Live s => In (ENew 0 2 join_val Root) (app_tr s 0) | _ => False end) by (vm_compute; tauto).
  destruct (ps_run ps_evs) as [s|s|]; try contradiction.
  apply andb_true_iff in M as [M M4]. apply andb_true_iff in M as [M M3]. apply andb_true_iff in M as [M1 M2]. apply Nat.eqb_eq in M1. rewrite forallb_forall in M3.
  split; [left; split; [right; left; reflexivity|exact M1]|]. split; [|split; [exact M2|split; [|split; [exact E|split]]]].
  - intros n k b q H. apply M3, eqb_prop in H. rewrite H. clear H. destruct (place_eqb_spec q (Kid 0 0)) as [Q|N]; split; intro Q'; [exact Q|reflexivity|discriminate|contradiction].
  - apply live_kid with (k := 2) (b := join_val) (p := Root); [exact E0|lia| | |].
    + intros (v & H). apply M3 in H. discriminate.
    + intros (v & H). apply M3 in H. discriminate.
    + constructor. intros (v & H). apply M3 in H. discriminate.
  - intros (v & H). apply M3 in H. discriminate.
  - intros y i L. rewrite forallb_forall in M4. specialize (M4 i). assert (I : In i [0; 1]) by (cbn; lia). apply M4 in I. fold y in I.
    destruct (ps_strm y i) as [f|]; [|discriminate]. exists f. split; [reflexivity|]. apply ps_live, I.
Qed.
