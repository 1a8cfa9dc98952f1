(** Lemmas about the event loop of EventLoop.v. *)
From Coq Require Import List Arith Bool Lia.
From Verif Require Import Arena Spec_arena Arena_proofs Readiness Spec_comb Readiness_proofs Combinator Combinator_proofs Tree Spec_tree Tree_proofs Executor App Event EventLoop Spec_eventloop.
Import ListNotations.

Section Proofs.
Variable ww : waker -> waker -> bool.
Hypothesis WW : will_wake_ok ww.
Variable debug : bool.
Variables m n : nat.
Hypothesis N0 : n > 0.
Variable A : Type.
Variable step : A -> nat * nat -> A.
Notation val := (nat * nat)%type.
Notation lst := (lst A).
Notation code := (code ww m n A step).
Notation enter := (enter ww n A).
Notation leave := (leave ww n A step).
Notation poll_branch := (poll_branch ww A).

(** ** The event streams *)
Definition L (base i : nat) : listener := mkL i 0 (base + i) false.
(** the streams below [j] listen, with the wakers of the race [k]; [slot]: the events they hold *)
Record PX (k j : nat) (slot : nat -> option nat) (x : lst) : Prop := {
  px_next : next (lp_ev x) = lp_base x + n;
  px_lis : listeners (lp_ev x) = map (L (lp_base x)) (seq 0 j);
  px_on : forall i, i < j -> exists wk, streams (lp_ev x) (lp_base x + i) = Some (mkS i 0 true (slot i) wk false) /\
            w_task wk = Some (task_of (Kid (S k) i));
  px_off : forall i, j <= i < n -> streams (lp_ev x) (lp_base x + i) = Some (mkS i 0 false None dummy_waker false) }.
Definition quiet (i : nat) : option nat := None.

Lemma new_ok j : forall a w, let w' := fold_left (exec_b ww) (map (fun i => BNew i 0) (seq a j)) w in
  next w' = next w + j /\ listeners w' = listeners w /\
  (forall i, i < j -> streams w' (next w + i) = Some (mkS (a + i) 0 false None dummy_waker false)) /\
  (forall s, s < next w -> streams w' s = streams w s).
Proof.
  induction j as [|j IH]; intros a w; cbn [seq map fold_left].
  - split; [lia|]. split; auto. split; auto. lia.
  - set (w1 := exec_b ww w (BNew a 0)). destruct (IH (S a) w1) as (H1 & H2 & H3 & H4). cbv zeta in *.
    assert (E1 : next w1 = S (next w)) by reflexivity. rewrite E1 in *.
    split; [lia|]. split; [rewrite H2; reflexivity|]. split.
    + intros [|i] Hi.
      * rewrite !Nat.add_0_r, H4 by lia. cbn. rewrite fupd_same. reflexivity.
      * replace (next w + S i) with (S (next w) + i) by lia. rewrite H3 by lia. replace (S a + i) with (a + S i) by lia. reflexivity.
    + intros s Hs. rewrite H4 by lia. cbn. apply fupd_other. lia.
Qed.
Lemma enter_ok k x : listeners (lp_ev x) = [] -> PX k 0 quiet (enter x) /\ lp_state (enter x) = lp_state x /\ lp_shown (enter x) = Some (lp_state x).
Proof.
  intro E. split; [|auto]. destruct (new_ok n 0 (lp_ev x)) as (H1 & H2 & H3 & _). cbv zeta in *.
  constructor; cbn [EventLoop.enter lp_ev lp_base].
  - exact H1.
  - rewrite H2, E. reflexivity.
  - lia.
  - intros i Hi. rewrite H3 by lia. reflexivity.
Qed.
Lemma drop_ok base j : forall a w, listeners w = map (L base) (seq a j) ->
  (forall i, a <= i < a + j -> exists o wk, streams w (base + i) = Some (mkS i 0 true o wk false)) ->
  listeners (fold_left (exec_b ww) (map (fun i => BDrop (base + i)) (seq a j)) w) = [].
Proof.
  induction j as [|j IH]; intros a w E H; cbn [seq map fold_left]; [exact E|].
  destruct (H a ltac:(lia)) as (o & wk & S0). apply IH.
  - cbn [exec_b]. rewrite S0. cbn [s_closure s_target s_name listeners]. rewrite E. cbn [seq map]. unfold remove_listener. cbn [filter L l_target l_name l_cb l_capture].
    rewrite !Nat.eqb_refl. cbn [andb negb]. clear. 
    assert (K : forall b, b <> a -> forall s c, (l_target (L base b) =? a) && c (L base b) && s = false).
    { intros b Hb s c. cbn. destruct (Nat.eqb_spec b a); [congruence|reflexivity]. }
    assert (G : forall j b, a < b -> filter (fun x => negb ((l_target x =? a) && (l_name x =? 0) && (l_cb x =? base + a) && negb (l_capture x))) (map (L base) (seq b j)) = map (L base) (seq b j)).
    { clear j. induction j as [|j IH]; intros b Hb; cbn [seq map filter]; auto. cbn [L l_target]. destruct (Nat.eqb_spec b a); [lia|]. cbn [andb negb]. f_equal. apply IH. lia. }
    apply G. lia.
  - intros i Hi. cbn [exec_b]. rewrite S0. cbn [streams]. rewrite fupd_other by lia. apply H. lia.
Qed.
Lemma leave_ok k slot i x : PX k n slot x -> listeners (lp_ev (leave i x)) = [] /\ lp_state (leave i x) = step (lp_state x) i.
Proof.
  intros [H1 H2 H3 _]. split; [|reflexivity]. cbn [EventLoop.leave lp_ev]. apply drop_ok; auto.
  intros j Hj. destruct (H3 j) as (wk & S0 & _); [lia|]. eauto.
Qed.
(** polling the next stream that does not listen yet *)
Lemma poll_new k j x : PX k j quiet x -> j < n ->
  exists x', poll_branch x j (waker_of (Kid (S k) j)) = (x', NPend) /\ PX k (S j) quiet x' /\ lp_state x' = lp_state x /\ lp_shown x' = lp_shown x.
Proof.
  intros [H1 H2 H3 H4] Hj. unfold EventLoop.poll_branch. rewrite (H4 j) by lia. cbn [s_closure]. eexists. split; [reflexivity|].
  split; [|auto]. cbn [exec_b]. rewrite (H4 j) by lia. unfold poll_next. cbn [s_closure s_waker s_target s_name s_slot s_capture].
  assert (D : ww dummy_waker (waker_of (Kid (S k) j)) = false).
  { destruct (ww _ _) eqn:E; auto. apply WW in E. discriminate E. }
  rewrite D. constructor; cbn [lp_ev lp_base next listeners streams].
  - exact H1.
  - rewrite H2, seq_S, map_app. reflexivity.
  - intros i Hi. destruct (Nat.eq_dec i j) as [->|NE].
    + rewrite fupd_same. eexists. split; reflexivity.
    + rewrite fupd_other by lia. apply H3. lia.
  - intros i Hi. rewrite fupd_other by lia. apply H4. lia.
Qed.
(** polling the stream that got an event *)
Lemma poll_ready k slot x i e : PX k n slot x -> i < n -> slot i = Some e ->
  exists x', poll_branch x i (waker_of (Kid (S k) i)) = (x', NRet (i, e)) /\ (exists slot', PX k n slot' x') /\ lp_state x' = lp_state x /\ lp_shown x' = lp_shown x.
Proof.
  intros [H1 H2 H3 H4] Hi SL. unfold EventLoop.poll_branch. destruct (H3 i Hi) as (wk & S0 & T). rewrite SL in S0. rewrite S0. cbn [s_closure s_slot].
  eexists. split; [reflexivity|]. split; [|auto].
  exists (fun j => if j =? i then None else slot j). cbn [exec_b]. rewrite S0. unfold poll_next. cbn [s_closure s_waker s_target s_name s_slot s_capture].
  constructor; cbn [lp_ev lp_base next listeners streams]; auto.
  - intros j Hj. destruct (Nat.eqb_spec j i) as [->|NE].
    + rewrite fupd_same. eexists. split; [reflexivity|]. destruct (ww wk _); auto.
    + rewrite fupd_other by lia. apply H3. lia.
  - intros j Hj. lia.
Qed.
(** the event arrives *)
Lemma invoke_ok k slot x i e : PX k n slot x -> i < n ->
  PX k n (fun j => if j =? i then Some e else slot j) (mkLp A (lp_state x) (lp_shown x) (invoke (lp_ev x) (lp_base x + i) e) (lp_base x)).
Proof.
  intros [H1 H2 H3 H4] Hi. destruct (H3 i Hi) as (wk & S0 & T). unfold invoke. rewrite S0.
  constructor; cbn [lp_ev lp_base next listeners streams]; auto.
  - intros j Hj. destruct (Nat.eqb_spec j i) as [->|NE].
    + rewrite fupd_same. cbn [s_target s_name s_closure s_waker s_capture]. eexists. split; [reflexivity|exact T].
    + rewrite fupd_other by lia. apply H3. lia.
  - intros j Hj. lia.
Qed.
Lemma copy_ok k slot x t : PX k n slot x -> copy 0 (t, false) (listeners (lp_ev x)) = if t <? n then [L (lp_base x) t] else [].
Proof.
  intros [_ H2 _ _]. rewrite H2. unfold copy. cbn [fst snd].
  assert (G : forall j, filter (fun y => (l_target y =? t) && (l_name y =? 0) && Bool.eqb (l_capture y) false) (map (L (lp_base x)) (seq 0 j)) = if t <? j then [L (lp_base x) t] else []).
  { induction j as [|j IH]; [reflexivity|]. rewrite seq_S, map_app, filter_app, IH. cbn [Nat.add map filter L l_target l_name l_capture Bool.eqb].
    destruct (Nat.eqb_spec j t) as [->|NE]; cbn [andb].
    - rewrite Nat.ltb_irrefl. destruct (Nat.ltb_spec t (S t)); [reflexivity|lia].
    - destruct (Nat.ltb_spec t j), (Nat.ltb_spec t (S j)); try lia; reflexivity. }
  apply G.
Qed.

Lemma px_ext k j s1 s2 x : (forall i, i < j -> s1 i = s2 i) -> PX k j s1 x -> PX k j s2 x.
Proof.
  intros E [H1 H2 H3 H4]. constructor; auto. intros i Hi. destruct (H3 i Hi) as (wk & S0 & T). exists wk. rewrite <- E by auto. auto.
Qed.

(** ** The tree *)
Notation tree := (Tree.world val lst).
Notation hp := (w_hp val lst). Notation sub := (w_sub val lst). Notation tr := (w_tr val lst). Notation wx := (w_x val lst). Notation over := (w_over val lst).
Notation poll_block := (Tree.poll_block val lst ww debug code).
Notation run_code := (Tree.run_code val lst ww debug code).
Notation await := (Tree.await val lst ww debug code).
Notation poll_comb := (Tree.poll_comb val lst ww debug code).
Notation loop := (Tree.loop val lst ww debug code).
Notation set_node := (Tree.set_node val lst).
Notation at_ w i nd := (nth_error (hp w) i = Some nd).

(** the same nodes, blocks and wakes of the root *)
Definition same (w w' : tree) : Prop :=
  hp w' = hp w /\ sub w' = sub w /\ over w' = over w /\ wakes Root (tr w') = wakes Root (tr w).
Lemma same_trans w1 w2 w3 : same w1 w2 -> same w2 w3 -> same w1 w3.
Proof. unfold same. intros (-> & -> & -> & ->) (-> & -> & -> & ->). auto. Qed.
(** the component shows its state, which is [a] *)
Definition shows (a : A) (x : lst) : Prop := lp_state x = a /\ lp_shown x = Some a.

(** a combinator all of whose children are pending, [aw] of them awake, with a waker for task [t] *)
Definition CI (w : tree) (id N : nat) (B : behavior val val val) (own : place) (aw : list nat) (t : nat) : Prop :=
  exists c p, at_ w id (mkN val c B own) /\ c_kind _ c = KTuple /\ c_n _ c = N /\ c_pending _ c = N /\ c_filled _ c = repeat false N /\
    RdInv (c_rd _ c) N aw p /\ w_task p = Some t.
Lemma CI_hp w w' id N B own aw t : nth_error (hp w') id = nth_error (hp w) id -> CI w id N B own aw t -> CI w' id N B own aw t.
Proof. intros E (c & p & H). exists c, p. rewrite E. exact H. Qed.

Lemma nth_repeat_false N i : i < N -> nth_error (repeat false N) i = Some false.
Proof. revert i. induction N as [|N IH]; intros [|i] H; cbn; auto; try lia. apply IH. lia. Qed.

(** the code of a child of the race *)
Lemma leaf_new f k j w : f >= 2 -> sub w (Kid (S k) j) = None -> PX k j quiet (wx w) -> j < n ->
  exists w', poll_block f (Kid (S k) j) (waker_of (Kid (S k) j)) w = Done (w', None) /\ same w w' /\
    PX k (S j) quiet (wx w') /\ lp_state (wx w') = lp_state (wx w) /\ lp_shown (wx w') = lp_shown (wx w).
Proof.
  intros F S0 P Hj. destruct f as [|[|f]]; try lia. rewrite poll_block_S, S0, run_code_S.
  destruct (poll_new k j (wx w) P Hj) as (x' & E & P' & E1 & E2). cbn [EventLoop.code Tree.emit Tree.w_x]. rewrite E. cbn [Tree.wake_all Tree.bind].
  eexists. split; [reflexivity|]. cbn. unfold same. cbn. auto 10.
Qed.
Lemma leaf_ready f k i e slot w : f >= 2 -> sub w (Kid (S k) i) = None -> PX k n slot (wx w) -> i < n -> slot i = Some e ->
  exists w', poll_block f (Kid (S k) i) (waker_of (Kid (S k) i)) w = Done (w', Some (i, e)) /\ same w w' /\
    (exists slot', PX k n slot' (wx w')) /\ lp_state (wx w') = lp_state (wx w) /\ lp_shown (wx w') = lp_shown (wx w).
Proof.
  intros F S0 P Hi SL. destruct f as [|[|f]]; try lia. rewrite poll_block_S, S0, run_code_S.
  destruct (poll_ready k slot (wx w) i e P Hi SL) as (x' & E & P' & E1 & E2). cbn [EventLoop.code Tree.emit Tree.w_x]. rewrite E. cbn [Tree.wake_all Tree.bind].
  eexists. split; [reflexivity|]. cbn. unfold same. cbn. auto 10.
Qed.
Lemma leaf_static f i w wk : f >= 2 -> i <> m -> sub w (Kid 0 i) = None ->
  exists w', poll_block f (Kid 0 i) wk w = Done (w', None) /\ same w w' /\ wx w' = wx w.
Proof.
  intros F NE S0. destruct f as [|[|f]]; try lia. rewrite poll_block_S, S0, run_code_S. cbn [EventLoop.code].
  apply Nat.eqb_neq in NE. rewrite NE. cbn. eexists. split; [reflexivity|]. unfold same. cbn. auto.
Qed.

(** the loop of the race over streams that do not listen yet *)
Lemma race_loop d : forall j f k w own t, j + d = n -> f >= d + 3 -> CI w (S k) n raceB own [] t -> (forall i, sub w (Kid (S k) i) = None) ->
  PX k j quiet (wx w) ->
  exists w', loop f (S k) (seq j d) w = Done (w', None) /\ same w w' /\ PX k n quiet (wx w') /\
    lp_state (wx w') = lp_state (wx w) /\ lp_shown (wx w') = lp_shown (wx w).
Proof.
  induction d as [|d IH]; intros j f k w own t JD F C S0 P; (destruct f as [|f]; [lia|]); rewrite loop_S;
    destruct C as (c & p & C1 & C2 & C3 & C4 & C5 & C6 & C7); rewrite C1; cbn [get Tree.bind seq].
  - unfold finish. cbn [nd_c]. rewrite C4. replace (n =? 0) with false by (symmetry; apply Nat.eqb_neq; lia). cbn [Tree.bind].
    exists w. replace j with n in P by lia. unfold same. auto 10.
  - cbn [nd_c]. rewrite C5, nth_repeat_false by lia. cbn [get Tree.bind].
    destruct (leaf_new f k j w ltac:(lia) (S0 j) P ltac:(lia)) as (w1 & E & SM & P1 & E1 & E2). rewrite E. cbn [Tree.bind].
    destruct (IH (S j) f k (Tree.emit val lst (EPend (Kid (S k) j)) w1) own t) as (w2 & E3 & SM2 & P2 & E4 & E5); [lia|lia| | |exact P1|].
    + exists c, p. destruct SM as (SM & _). cbn. rewrite SM. auto 10.
    + intro i. destruct SM as (_ & SM & _). cbn. rewrite SM. auto.
    + exists w2. split; [exact E3|]. split; [|split; [exact P2|cbn in E4, E5; split; congruence]].
      apply (same_trans _ _ _ SM). exact SM2.
Qed.

(** the futures that only show something *)
Lemma static_loop d : forall j f w own t rest, j + d = m -> f >= d + 3 -> CI w 0 (S m) joinB own [] t -> (forall i, sub w (Kid 0 i) = None) ->
  exists w', loop f 0 (seq j d ++ rest) w = loop (f - d) 0 rest w' /\ same w w' /\ wx w' = wx w.
Proof.
  induction d as [|d IH]; intros j f w own t rest JD F C S0.
  - exists w. rewrite Nat.sub_0_r. unfold same. auto 10.
  - destruct f as [|f]; [lia|]. cbn [seq app]. rewrite loop_S. pose proof C as C'.
    destruct C as (c & p & C1 & C2 & C3 & C4 & C5 & C6 & C7). rewrite C1. cbn [get Tree.bind nd_c]. rewrite C5, nth_repeat_false by lia. cbn [get Tree.bind].
    destruct (leaf_static f j w (waker_of (Kid 0 j)) ltac:(lia) ltac:(lia) (S0 j)) as (w1 & E & SM & E1). rewrite E. cbn [Tree.bind].
    destruct (IH (S j) f (Tree.emit val lst (EPend (Kid 0 j)) w1) own t rest) as (w2 & E3 & SM2 & E4); [lia|lia| | |].
    + apply (CI_hp w); [|exact C']. destruct SM as (SM & _). cbn. now rewrite SM.
    + intro i. destruct SM as (_ & SM & _). cbn. rewrite SM. auto.
    + exists w2. split; [exact E3|]. split; [|cbn in E4; congruence]. apply (same_trans _ _ _ SM). exact SM2.
Qed.

(** what stays of a world when the block goes on to a new select! *)
Definition grown (w w' : tree) (p : place) (k : nat) : Prop :=
  length (hp w') = S (S k) /\ (forall i, i < S k -> nth_error (hp w') i = nth_error (hp w) i) /\
  sub w' p = Some (S k) /\ (forall q, q <> p -> sub w' q = sub w q) /\ over w' = over w /\ wakes Root (tr w') = wakes Root (tr w).

Lemma place_eqb_refl' p : place_eqb p p = true.
Proof. destruct p; cbn; rewrite ?Nat.eqb_refl; auto. Qed.
Lemma place_eqb_other p q : q <> p -> place_eqb q p = false.
Proof.
  intro H. destruct (place_eqb q p) eqn:E; auto. destruct q as [|a b], p as [|c d]; cbn in E; try discriminate; [congruence|].
  apply andb_true_iff in E. destruct E as [E1 E2]. apply Nat.eqb_eq in E1, E2. congruence.
Qed.

(** the first poll of a combinator: what its readiness set becomes *)
Lemma first_rd r N aw p wk t : RdInv r N aw p -> w_task wk = Some t ->
  exists r2 p', rd_clear (rd_set_parent ww r wk) = Some r2 /\ rd_awake_list (rd_set_parent ww r wk) = aw /\ RdInv r2 N [] p' /\ w_task p' = Some t.
Proof.
  intros R T. destruct (rd_set_parent_ok ww r N aw p wk R WW) as (p' & R' & ST). destruct (rd_clear_ok _ _ _ _ R') as (r2 & E & R2).
  exists r2, p'. split; [exact E|]. split; [apply (rd_awake_list_ok _ _ _ _ R')|]. split; [exact R2|]. unfold same_task in ST. congruence.
Qed.

(** the block awaits a new select! *)
Lemma race_first f k w wk t : f >= n + 5 -> length (hp w) = S k -> (forall i, sub w (Kid (S k) i) = None) -> PX k 0 quiet (wx w) -> w_task wk = Some t ->
  exists w', await f (Kid 0 m) wk (S k)
      (Tree.set_sub val lst (Kid 0 m) (Some (S k)) (mkT val lst (hp w ++ [mkN val (c_new val KTuple n) raceB (Kid 0 m)]) (sub w) (wx w) (over w) (ENew (S k) n raceB (Kid 0 m) :: tr w)))
    = Done (w', None) /\ grown w w' (Kid 0 m) k /\ CI w' (S k) n raceB (Kid 0 m) [] t /\ PX k n quiet (wx w') /\
    lp_state (wx w') = lp_state (wx w) /\ lp_shown (wx w') = lp_shown (wx w).
Proof.
  intros F L S0 P T. destruct f as [|[|f]]; try lia. rewrite await_S, poll_comb_S.
  match goal with |- context [nth_error (w_hp val lst ?v) (S k)] => set (w0 := v) end.
  assert (N0' : at_ w0 (S k) (mkN val (c_new val KTuple n) raceB (Kid 0 m))).
  { change (hp w0) with (hp w ++ [mkN val (c_new val KTuple n) raceB (Kid 0 m)]). rewrite nth_error_app2, L, Nat.sub_diag by lia. reflexivity. }
  rewrite N0'. cbn [get Tree.bind nd_b nd_c].
  assert (CE : c_entry val val val raceB (c_new val KTuple n) = None).
  { unfold c_entry. cbn. destruct n; [lia|reflexivity]. }
  rewrite CE. destruct (first_rd _ _ _ _ wk t (rd_new_ok KTuple n) T) as (r2 & p' & E1 & E2 & R2 & T2). cbn [c_new c_rd] in *.
  cbv zeta. rewrite E1, E2. cbn [get Tree.bind].
  match goal with |- context [set_node (S k) ?c w0] => set (w1 := set_node (S k) c w0) end.
  assert (C1 : CI w1 (S k) n raceB (Kid 0 m) [] t).
  { do 2 eexists. split; [unfold w1; apply (at_set_same _ _ _ _ _ _ N0')|]. cbn. split; [reflexivity|]. split; [reflexivity|]. split; [reflexivity|]. split; [reflexivity|]. split; [exact R2|exact T2]. }
  assert (X1 : wx w1 = wx w) by (unfold w1, Tree.set_node; rewrite N0'; reflexivity).
  assert (S1 : sub w1 = sub w0) by (unfold w1; apply set_node_sub).
  destruct (race_loop n 0 f k w1 (Kid 0 m) t) as (w2 & E3 & SM & P2 & E4 & E5); [lia|lia|exact C1| |rewrite X1; exact P|].
  { intro i. rewrite S1. cbn. apply S0. }
  rewrite E3. cbn [Tree.bind]. exists w2. split; [reflexivity|]. destruct SM as (SM1 & SM2 & SM3 & SM4). split.
  - unfold grown. rewrite SM1, SM2, SM3, SM4. unfold w1. rewrite set_node_len, set_node_sub, set_node_over, set_node_tr. cbn. rewrite app_length, L. cbn. split; [lia|].
    split; [intros i Hi; rewrite (at_set_other _ _ _ _ _ _ _ N0') by lia; change (hp w0) with (hp w ++ [mkN val (c_new val KTuple n) raceB (Kid 0 m)]); rewrite nth_error_app1 by lia; reflexivity|].
    rewrite Nat.eqb_refl. split; [reflexivity|]. split; [|auto]. intros q Q. apply place_eqb_other in Q. cbn in Q. rewrite Q. reflexivity.
  - split; [|split; [exact P2|rewrite X1 in *; auto]]. apply (CI_hp w1); [now rewrite SM1|exact C1].
Qed.
(** the block shows its state and awaits a new select! *)
Lemma block_enter f k w wk t got a : f >= n + 6 -> length (hp w) = S k -> (forall i, sub w (Kid (S k) i) = None) -> w_task wk = Some t ->
  (let x := match got with Some b => leave b (wx w) | None => wx w end in listeners (lp_ev x) = [] /\ lp_state x = a) ->
  exists w', run_code f (Kid 0 m) wk got w = Done (w', None) /\ grown w w' (Kid 0 m) k /\ CI w' (S k) n raceB (Kid 0 m) [] t /\ PX k n quiet (wx w') /\ shows a (wx w').
Proof.
  intros F L S0 T H. cbv zeta in H. destruct f as [|f]; [lia|]. rewrite run_code_S. cbn [EventLoop.code]. rewrite Nat.eqb_refl.
  set (x := match got with Some b => leave b (wx w) | None => wx w end) in *. destruct H as (H1 & H2).
  cbn [Tree.wake_all Tree.bind]. destruct (enter_ok k x H1) as (P & E1 & E2).
  set (w1 := Tree.set_x val lst (enter x) (Tree.emit val lst (Tree.ERun (Kid 0 m) got) w)).
  change (length (w_hp val lst w1)) with (length (hp w)). rewrite L.
  destruct (race_first f k w1 wk t) as (w2 & E3 & G & C & P2 & E4 & E5); [lia|exact L|exact S0|exact P|exact T|].
  exists w2. split; [unfold alloc; change (length (w_hp val lst w1)) with (length (hp w)); rewrite L; exact E3|]. split; [exact G|]. split; [exact C|]. split; [exact P2|].
  unfold shows. rewrite E4, E5. cbn [w1 Tree.set_x w_x]. rewrite E1, E2. split; congruence.
Qed.

(** any poll of a combinator begins like this *)
Lemma comb_poll f id N B own aw t wk t' w : N > 0 -> CI w id N B own aw t -> w_task wk = Some t' ->
  exists w1, poll_comb (S f) id wk w = loop f id aw w1 /\ CI w1 id N B own [] t' /\ length (hp w1) = length (hp w) /\
    (forall j, j <> id -> nth_error (hp w1) j = nth_error (hp w) j) /\ sub w1 = sub w /\ over w1 = over w /\ wx w1 = wx w /\ tr w1 = tr w.
Proof.
  intros NP (c & p & C1 & C2 & C3 & C4 & C5 & C6 & C7) T. rewrite poll_comb_S, C1. cbn [get Tree.bind nd_b nd_c].
  assert (CE : c_entry val val val B c = None).
  { unfold c_entry. rewrite C2, C4. destruct N; [lia|reflexivity]. }
  rewrite CE. destruct (first_rd _ _ _ _ wk t' C6 T) as (r2 & p' & E1 & E2 & R2 & T2). cbv zeta. rewrite E1, E2. cbn [get Tree.bind].
  eexists. split; [reflexivity|]. split.
  - do 2 eexists. split; [apply (at_set_same _ _ _ _ _ _ C1)|]. cbn. split; [exact C2|]. split; [exact C3|]. split; [exact C4|]. split; [exact C5|]. split; [exact R2|exact T2].
  - rewrite set_node_len, set_node_sub, set_node_over, set_node_tr. split; [reflexivity|]. split; [intros j Hj; apply (at_set_other _ _ _ _ _ _ _ C1 Hj)|].
    split; [reflexivity|]. split; [reflexivity|]. split; [|reflexivity]. unfold Tree.set_node. rewrite C1. reflexivity.
Qed.
Lemma loop_nil f id N B own aw t w : N > 0 -> CI w id N B own aw t -> loop (S f) id [] w = Done (w, None).
Proof.
  intros NP (c & p & C1 & C2 & C3 & C4 & C5 & C6 & C7). rewrite loop_S, C1. cbn [get Tree.bind nd_c nd_b]. unfold finish. rewrite C4.
  replace (N =? 0) with false by (symmetry; apply Nat.eqb_neq; lia). reflexivity.
Qed.
(** the loop comes to a child that is awake *)
Lemma loop_kid f id N B own aw t i l w w1 r : CI w id N B own aw t -> i < N -> poll_block f (Kid id i) (waker_of (Kid id i)) w = Done (w1, r) ->
  loop (S f) id (i :: l) w =
    match r with
    | None => loop f id l (Tree.emit val lst (EPend (Kid id i)) w1)
    | Some v =>
        let w2 := Tree.emit val lst (EDone (Kid id i) v) w1 in
        match b_maybe_return B i v with
        | inl o => Done (w2, Some o)
        | inr s' => Tree.bind (get (nth_error (hp w2) id)) (fun nd2 => Tree.bind (Tree.store val (nd_c _ nd2) i s') (fun c => loop f id l (set_node id c w2)))
        end
    end.
Proof.
  intros (c & p & C1 & C2 & C3 & C4 & C5 & C6 & C7) Hi E. rewrite loop_S, C1. cbn [get Tree.bind nd_c nd_b]. rewrite C5, nth_repeat_false by auto. cbn [get Tree.bind].
  rewrite E. reflexivity.
Qed.

(** ** The component between polls: [aw] are the branches whose events have come, [ev] the
    events *)
Definition held (aw : list nat) (ev : nat -> nat) (i : nat) : option nat := if mem i aw then Some (ev i) else None.
Record TI (k : nat) (aw : list nat) (ev : nat -> nat) (a : A) (w : tree) : Prop := {
  ti_join : CI w 0 (S m) joinB Root (match aw with [] => [] | _ => [m] end) (task_of Root);
  ti_race : CI w (S k) n raceB (Kid 0 m) aw (task_of (Kid 0 m));
  ti_len : length (hp w) = S (S k);
  ti_root : sub w Root = Some 0;
  ti_kid : sub w (Kid 0 m) = Some (S k);
  ti_leaf : forall j i, sub w (Kid (S j) i) = None;
  ti_over : over w = false;
  ti_px : PX k n (held aw ev) (wx w);
  ti_shows : shows a (wx w) }.

(** after the block has gone on to a new select!, the poll of the join ends *)
Lemma join_end f k w w1 w' a i own t t' : f >= 2 ->
  CI w 0 (S m) joinB own [] t -> CI w' (S k) n raceB (Kid 0 m) [] t' -> grown w1 w' (Kid 0 m) k ->
  nth_error (hp w1) 0 = nth_error (hp w) 0 -> shows a (wx w') -> PX k n quiet (wx w') ->
  loop f 0 [] (Tree.emit val lst (EPend (Kid 0 i)) w') = Done (Tree.emit val lst (EPend (Kid 0 i)) w', None).
Proof.
  intros F C C' G E _ _. destruct f; [lia|]. apply (loop_nil f 0 (S m) joinB own [] t); [lia|]. apply (CI_hp w); [|exact C].
  destruct G as (_ & G & _). cbn [Tree.emit w_hp]. change (hp (Tree.emit val lst (EPend (Kid 0 i)) w')) with (hp w'). rewrite G by lia. exact E.
Qed.

Lemma first_poll f x wk ev : f >= n + m + 20 -> w_task wk = Some (task_of Root) -> listeners (lp_ev x) = [] ->
  exists w', poll_block f Root wk (Tree.start val lst x) = Done (w', None) /\ TI 0 [] ev (lp_state x) w' /\ wakes Root (tr w') = 0.
Proof.
  intros F T Ls. destruct f as [|[|[|f]]]; try lia. rewrite poll_block_S. cbn [Tree.start w_sub]. rewrite run_code_S. cbn [EventLoop.code].
  cbn [Tree.wake_all Tree.bind]. unfold alloc. cbn [Tree.set_x Tree.emit w_hp length app w_sub w_x w_over w_tr].
  change (length (hp (Tree.start val lst x))) with 0. match goal with |- context [await _ Root wk 0 ?v] => set (w0 := v) end.
  rewrite await_S. destruct f as [|f]; [lia|]. rewrite poll_comb_S.
  assert (N0' : at_ w0 0 (mkN val (c_new val KTuple (S m)) joinB Root)) by reflexivity.
  rewrite N0'. cbn [get Tree.bind nd_b nd_c].
  assert (CE : c_entry val val val joinB (c_new val KTuple (S m)) = None) by reflexivity.
  rewrite CE. destruct (first_rd _ _ _ _ wk _ (rd_new_ok KTuple (S m)) T) as (r2 & p' & E1 & E2 & R2 & T2). cbv zeta.
  change (c_rd val (c_new val KTuple (S m))) with (RA (ra_new (S m))). rewrite E1, E2. cbn [get Tree.bind].
  match goal with |- context [set_node 0 ?c w0] => set (w1 := set_node 0 c w0) end.
  assert (C1 : CI w1 0 (S m) joinB Root [] (task_of Root)).
  { do 2 eexists. split; [reflexivity|]. cbn. split; [reflexivity|]. split; [reflexivity|]. split; [reflexivity|]. split; [reflexivity|]. split; [exact R2|exact T2]. }
  rewrite seq_S. destruct (static_loop m 0 f w1 Root (task_of Root) [0 + m]) as (w2 & E3 & SM & X2); [lia|lia|exact C1|reflexivity|].
  rewrite E3. destruct SM as (SM1 & SM2 & SM3 & SM4). cbn [Nat.add].
  assert (C2 : CI w2 0 (S m) joinB Root [] (task_of Root)) by (apply (CI_hp w1); [now rewrite SM1|exact C1]).
  remember (f - m) as g eqn:EG. destruct g as [|[|g]]; try lia.
  destruct (block_enter g 0 (Tree.emit val lst (Tree.EPoll (Kid 0 m)) w2) (waker_of (Kid 0 m)) (task_of (Kid 0 m)) None (lp_state x)) as (w3 & E4 & G & C3 & P3 & SH).
  { lia. } { cbn. rewrite SM1. reflexivity. } { intro i. cbn. rewrite SM2. reflexivity. } { reflexivity. }
  { cbn. rewrite X2. cbn. auto. }
  assert (PB : poll_block (S g) (Kid 0 m) (waker_of (Kid 0 m)) w2 = Done (w3, None)).
  { rewrite poll_block_S, SM2. exact E4. }
  rewrite (loop_kid _ _ _ _ _ _ _ _ _ _ _ _ C2 (Nat.lt_succ_diag_r m) PB).
  rewrite (join_end (S g) 0 w2 (Tree.emit val lst (Tree.EPoll (Kid 0 m)) w2) w3 (lp_state x) m Root (task_of Root) _ ltac:(lia) C2 C3 G eq_refl SH P3).
  cbn [Tree.bind]. eexists. split; [reflexivity|]. destruct G as (G1 & G2 & G3 & G4 & G5 & G6). split.
  - constructor; cbn [Tree.emit w_hp w_sub w_over w_x].
    + apply (CI_hp w2); [|exact C2]. exact (G2 0 ltac:(lia)).
    + apply (CI_hp w3); [reflexivity|exact C3].
    + exact G1.
    + rewrite G4 by discriminate. cbn. rewrite SM2. reflexivity.
    + exact G3.
    + intros j i. rewrite G4 by discriminate. cbn. rewrite SM2. reflexivity.
    + rewrite G5. cbn. rewrite SM3. reflexivity.
    + exact P3.
    + exact SH.
  - cbn. rewrite G6. cbn. rewrite SM4. reflexivity.
Qed.

Lemma next_poll f k b rest ev ev' a w wk : f >= n + 20 -> w_task wk = Some (task_of Root) -> TI k (b :: rest) ev a w ->
  exists w', poll_block f Root wk w = Done (w', None) /\ TI (S k) [] ev' (step a (b, ev b)) w' /\ wakes Root (tr w') = wakes Root (tr w).
Proof.
  intros F T [H1 H2 H3 H4 H5 H6 H7 H8 (H9 & H10)]. do 8 (destruct f as [|f]; [lia|]). rewrite poll_block_S, H4, await_S.
  set (w0 := Tree.emit val lst (Tree.EPoll Root) w).
  destruct (comb_poll (S (S (S (S (S f))))) 0 (S m) joinB Root [m] (task_of Root) wk (task_of Root) w0) as (w1 & E1 & C1 & L1 & O1 & S1 & V1 & X1 & T1); [lia|exact H1|exact T|].
  rewrite E1.
  (* the block of the loop *)
  set (w2 := Tree.emit val lst (Tree.EPoll (Kid 0 m)) w1).
  assert (C2 : CI w2 (S k) n raceB (Kid 0 m) (b :: rest) (task_of (Kid 0 m))).
  { apply (CI_hp w); [|exact H2]. change (hp w2) with (hp w1). rewrite O1 by lia. reflexivity. }
  destruct (comb_poll (S f) (S k) n raceB (Kid 0 m) (b :: rest) _ (waker_of (Kid 0 m)) (task_of (Kid 0 m)) w2 ltac:(lia) C2 eq_refl) as (w3 & E3 & C3 & L3 & O3 & S3 & V3 & X3 & T3).
  assert (BN : b < n).
  { destruct H2 as (c & p & _ & _ & _ & _ & _ & (_ & B & _) & _). apply B. now left. }
  destruct (leaf_ready f k b (ev b) (held (b :: rest) ev) w3) as (w4 & E4 & SM & (slot' & P4) & E5 & E6).
  { lia. } { rewrite S3. cbn. rewrite S1. apply H6. } { rewrite X3. cbn. rewrite X1. exact H8. } { exact BN. } { unfold held. cbn. now rewrite Nat.eqb_refl. }
  destruct SM as (SM1 & SM2 & SM3 & SM4).
  set (w5 := Tree.emit val lst (EGone (S k) (b, ev b)) (Tree.set_sub val lst (Kid 0 m) None (Tree.emit val lst (EDone (Kid (S k) b) (b, ev b)) w4))).
  assert (HP5 : hp w5 = hp w3) by (cbn; exact SM1).
  destruct (block_enter (S (S f)) (S k) w5 (waker_of (Kid 0 m)) (task_of (Kid 0 m)) (Some (b, ev b)) (step a (b, ev b))) as (w6 & E7 & G & C6 & P6 & SH).
  { lia. } { rewrite HP5, L3. cbn. rewrite L1. exact H3. } { intro i. cbn. rewrite SM2, S3. cbn. rewrite S1. apply H6. } { reflexivity. }
  { cbv zeta. change (wx w5) with (wx w4). destruct (leave_ok k slot' (b, ev b) (wx w4) P4) as (Q1 & Q2). split; [exact Q1|]. rewrite Q2, E5, X3. cbn. rewrite X1. cbn. now rewrite H9. }
  assert (AW : await (S (S (S f))) (Kid 0 m) (waker_of (Kid 0 m)) (S k) w2 = Done (w6, None)).
  { rewrite await_S, E3. rewrite (loop_kid _ _ _ _ _ _ _ _ _ _ _ _ C3 BN E4). cbn [b_maybe_return raceB Tree.bind]. exact E7. }
  assert (PB : poll_block (S (S (S (S f)))) (Kid 0 m) (waker_of (Kid 0 m)) w1 = Done (w6, None)).
  { rewrite poll_block_S, S1. cbn [w0 Tree.emit w_sub]. change (sub w0 (Kid 0 m)) with (sub w (Kid 0 m)). rewrite H5. exact AW. }
  rewrite (loop_kid _ _ _ _ _ _ _ _ _ _ _ _ C1 (Nat.lt_succ_diag_r m) PB).
  assert (HP0 : nth_error (hp w5) 0 = nth_error (hp w1) 0).
  { rewrite HP5, O3 by lia. reflexivity. }
  rewrite (join_end (S (S (S (S f)))) (S k) w1 w5 w6 (step a (b, ev b)) m Root (task_of Root) _ ltac:(lia) C1 C6 G HP0 SH P6).
  cbn [Tree.bind]. eexists. split; [reflexivity|]. destruct G as (G1 & G2 & G3 & G4 & G5 & G6). split.
  - constructor; cbn [Tree.emit w_hp w_sub w_over w_x].
    + apply (CI_hp w1); [|exact C1]. exact (eq_trans (G2 0 (Nat.lt_0_succ _)) HP0).
    + apply (CI_hp w6); [reflexivity|exact C6].
    + exact G1.
    + rewrite G4 by discriminate. cbn. rewrite SM2, S3. cbn. rewrite S1. exact H4.
    + exact G3.
    + intros j i. rewrite G4 by discriminate. cbn. rewrite SM2, S3. cbn. rewrite S1. apply H6.
    + rewrite G5. cbn. rewrite SM3, V3. cbn. rewrite V1. exact H7.
    + exact P6.
    + exact SH.
  - cbn. rewrite G6. cbn. rewrite SM4, T3. cbn. rewrite T1. reflexivity.
Qed.

(** ** Events *)
Definition put (aw : list nat) (t : nat) : list nat := if t <? n then if mem t aw then aw else aw ++ [t] else aw.
Definition evup (ev : nat -> nat) (te : nat * nat) : nat -> nat := fun j => if j =? fst te then snd te else ev j.
Definition deliver (i e : nat) (x : lst) : lst := mkLp A (lp_state x) (lp_shown x) (invoke (lp_ev x) (lp_base x + i) e) (lp_base x).

Lemma mem_snoc t aw j : mem j (aw ++ [t]) = (j =? t) || mem j aw.
Proof. unfold mem. rewrite existsb_app. cbn. rewrite orb_false_r. apply orb_comm. Qed.

Lemma wake_ok' k aw ev a w t e : TI k aw ev a w -> t < n ->
  let w1 := Tree.set_x val lst (deliver t e (wx w)) w in
  exists w2, Tree.exec val lst ww debug code w1 (HWake (Kid (S k) t)) = Done w2 /\ TI k (put aw t) (evup ev (t, e)) a w2 /\
    wakes Root (tr w2) = wakes Root (tr w) + match aw with [] => 1 | _ => 0 end.
Proof.
  intros [H1 H2 H3 H4 H5 H6 H7 H8 H9] Ht w1.
  destruct H2 as (c & p & C1 & C2 & C3 & C4 & C5 & C6 & C7).
  cbn [Tree.exec]. unfold wake_place, exists_place. change (hp w1) with (hp w). rewrite C1. cbn [nd_c]. rewrite C3.
  pose proof Ht as Ht'. apply Nat.ltb_lt in Ht'. rewrite Ht'. rewrite H3.
  assert (PT : forall q, place_of (task_of q) = q) by apply place_task.
  cbn [Tree.wake waker_of w_task]. rewrite PT. cbn [existsb]. change (hp w1) with (hp w). rewrite C1. cbn [get Tree.bind nd_c].
  destruct (rd_wake_ok _ _ _ _ t C6 Ht) as (r' & RW & RI). rewrite RW. cbn [get Tree.bind].
  set (w2 := Tree.emit val lst (Tree.EWake (Kid (S k) t)) w1).
  assert (D1 : at_ w2 (S k) (mkN val c raceB (Kid 0 m))) by exact C1.
  set (w3 := set_node (S k) (set_rd val c r') w2).
  assert (P3 : put aw t = if mem t aw then aw else aw ++ [t]) by (unfold put; now rewrite Ht').
  assert (W3 : wakes Root (tr w3) = wakes Root (tr w)).
  { unfold w3. rewrite set_node_tr. reflexivity. }
  assert (X3 : wx w3 = deliver t e (wx w)).
  { unfold w3, Tree.set_node. rewrite D1. reflexivity. }
  assert (CR : CI w3 (S k) n raceB (Kid 0 m) (put aw t) (task_of (Kid 0 m))).
  { do 2 eexists. split; [apply (at_set_same _ _ _ _ _ _ D1)|]. cbn [set_rd c_kind c_n c_pending c_filled c_rd]. rewrite P3. split; [exact C2|]. split; [exact C3|]. split; [exact C4|]. split; [exact C5|]. split; [exact RI|exact C7]. }
  assert (PX3 : PX k n (held (put aw t) (evup ev (t, e))) (wx w3)).
  { rewrite X3. eapply px_ext; [|apply (invoke_ok k _ _ t e H8 Ht)]. intros j Hj. cbn beta. unfold held, evup. cbn [fst snd]. rewrite P3. destruct (mem t aw) eqn:M.
    - destruct (Nat.eqb_spec j t) as [->|]; [rewrite M|]; reflexivity.
    - rewrite mem_snoc. destruct (j =? t); reflexivity. }
  assert (N0' : nth_error (hp w3) 0 = nth_error (hp w) 0).
  { unfold w3. rewrite (at_set_other _ _ _ _ _ _ _ D1) by lia. reflexivity. }
  assert (S3 : sub w3 = sub w) by (unfold w3; now rewrite set_node_sub).
  assert (V3 : over w3 = over w) by (unfold w3; now rewrite set_node_over).
  assert (L3 : length (hp w3) = S (S k)) by (unfold w3; now rewrite set_node_len).
  destruct aw as [|b rest].
  - (* the first event: the join and the root are woken *)
    cbn [mem existsb]. cbn [mem existsb] in RI. cbn [Tree.wake]. rewrite C7, PT. cbn [existsb]. change (0 =? S k) with false. cbn [orb].
    destruct H1 as (c0 & p0 & B1 & B2 & B3 & B4 & B5 & B6 & B7). rewrite N0', B1. cbn [get Tree.bind nd_c].
    destruct (rd_wake_ok _ _ _ _ m B6 (Nat.lt_succ_diag_r m)) as (r0 & RW0 & RI0). rewrite RW0. cbn [mem existsb get Tree.bind]. cbn [mem existsb] in RI0.
    set (w4 := Tree.emit val lst (Tree.EWake (Kid 0 m)) w3). assert (D4 : at_ w4 0 (mkN val c0 joinB Root)) by (exact (eq_trans N0' B1)).
    set (w5 := set_node 0 (set_rd val c0 r0) w4).
    assert (CJ : CI w5 0 (S m) joinB Root (match put [] t with [] => [] | _ :: _ => [m] end) (task_of Root)).
    { replace (match put [] t with [] => [] | _ :: _ => [m] end) with ([] ++ [m] : list nat) by (rewrite P3; reflexivity).
      exists (set_rd val c0 r0), p0. split; [exact (at_set_same _ _ _ _ (set_rd val c0 r0) _ D4)|]. cbn [set_rd c_kind c_n c_pending c_filled c_rd]. auto 10. }
    destruct k; cbn [Tree.wake]; rewrite B7, PT; (eexists; split; [reflexivity|]; split; [|unfold w5; cbn; rewrite set_node_tr; cbn; rewrite W3; lia]).
    all: constructor.
    all: try exact CJ.
    all: try (eapply CI_hp; [|exact CR]; cbn [Tree.emit]; change (hp (Tree.emit val lst (Tree.EWake Root) w5)) with (hp w5); unfold w5; rewrite (at_set_other _ _ _ _ _ _ _ D4) by lia; reflexivity).
    all: cbn [Tree.emit w_hp w_sub w_over w_x]; unfold w5; rewrite ?set_node_len, ?set_node_sub, ?set_node_over; cbn [w4 Tree.emit w_hp w_sub w_over w_x]; try (rewrite ?S3, ?V3, ?L3; auto; fail).
    all: unfold Tree.set_node; rewrite D4; first [exact PX3|change (shows a (wx w3)); rewrite X3; exact H9].
  - replace (if mem t (b :: rest) then None else None) with (@None waker) by (destruct (mem t (b :: rest)); reflexivity).
    exists w3. split; [reflexivity|]. split; [|lia]. constructor; auto.
    + replace (match put (b :: rest) t with [] => [] | _ :: _ => [m] end) with [m] by (rewrite P3; destruct (mem t (b :: rest)); reflexivity).
      apply (CI_hp w); [exact N0'|exact H1].
    + now rewrite S3.
    + now rewrite S3.
    + intros j i. rewrite S3. apply H6.
    + now rewrite V3.
    + rewrite X3. exact H9.
Qed.

(** ** The executor *)
Variables bound rounds : nat.
Hypothesis BD : bound >= n + m + 20.
Hypothesis RD : rounds >= 2.
Lemma two : exists g, rounds = S (S g).
Proof. destruct rounds as [|[|g]]; [lia|lia|eauto]. Qed.
Notation app_exec := (app_exec val lst ww debug code bound).
Notation poll_main := (poll_main val lst ww debug code bound).
Notation dispatch := (dispatch ww debug m n A step bound).
Notation call := (call ww debug m n A step bound).
Notation pexec := (pexec ww debug m n A step bound rounds).
Notation prun := (prun ww debug m n A step bound rounds).
Notation ex := (Executor.ex tree).
Definition some {B} (l : list B) : bool := match l with [] => false | _ => true end.
(** the component waits, with [aw] its branches whose events have come *)
Definition Wt (aw : list nat) (ev : nat -> nat) (a : A) (s : ex) : Prop :=
  (exists k, TI k aw ev a (xs _ s)) /\ scheduled _ s = some aw /\ active _ s = false.
(** it has not been polled *)
Definition Fresh (a : A) (s : ex) : Prop :=
  (exists x, xs _ s = Tree.start val lst x /\ lp_state x = a /\ lp_shown x = None /\ listeners (lp_ev x) = []) /\
  scheduled _ s = true /\ active _ s = false /\ timers _ s > 0.

Lemma TI_emit k aw ev a w e : TI k aw ev a w -> TI k aw ev a (Tree.emit val lst e w).
Proof. intros []. constructor; auto. Qed.

Lemma call_ok k aw ev a s t e : TI k aw ev a (xs _ s) -> scheduled _ s = some aw -> active _ s = false -> t < n ->
  exists s', call e (Live s) (L (lp_base (wx (xs _ s))) t) = Live s' /\ Wt (put aw t) (evup ev (t, e)) a s'.
Proof.
  intros I SC AC Ht. pose proof (ti_px _ _ _ _ _ I) as P. destruct (px_on _ _ _ _ P t Ht) as (wk & S0 & T).
  unfold EventLoop.call. cbn [L l_cb]. rewrite S0. cbn [s_waker]. rewrite T, place_task. cbn [App.app_exec Executor.exec exec1].
  destruct (wake_ok' k aw ev a (xs _ s) t e I Ht) as (w2 & E & I2 & W). unfold deliver in E. cbn [xs Executor.exec exec1].
  change (Tree.set_x val lst _ (xs tree s)) with (Tree.set_x val lst (mkLp A (lp_state (wx (xs _ s))) (lp_shown (wx (xs _ s))) (invoke (lp_ev (wx (xs _ s))) (lp_base (wx (xs _ s)) + t) e) (lp_base (wx (xs _ s)))) (xs tree s)).
  rewrite E. unfold root_wakes.
  match goal with |- context [wakes Root (w_tr val lst w2) - ?y] => change y with (wakes Root (tr (xs tree s))) end. rewrite W.
  assert (PN : some (put aw t) = true).
  { unfold put. apply Nat.ltb_lt in Ht. rewrite Ht. destruct aw; [reflexivity|]. destruct (mem t (n0 :: aw)); reflexivity. }
  destruct aw as [|b rest].
  - replace (wakes Root (tr (xs _ s)) + 1 - wakes Root (tr (xs _ s))) with 1 by lia. cbn [repeat fold_left Executor.exec exec1].
    eexists. split; [reflexivity|]. unfold Wt, schedule. cbn [scheduled active]. rewrite AC, SC, PN. cbn. split; [exists k; exact I2|auto].
  - replace (wakes Root (tr (xs _ s)) + 0 - wakes Root (tr (xs _ s))) with 0 by lia. cbn [repeat fold_left].
    eexists. split; [reflexivity|]. unfold Wt. cbn. rewrite PN. split; [exists k; exact I2|auto].
Qed.
Lemma dispatch_ok aw ev a s te : Wt aw ev a s -> exists s', dispatch (Live s) te = Live s' /\ Wt (put aw (fst te)) (evup ev te) a s'.
Proof.
  intros ((k & I) & SC & AC). unfold EventLoop.dispatch. rewrite (copy_ok k _ _ (fst te) (ti_px _ _ _ _ _ I)). destruct (Nat.ltb_spec (fst te) n) as [Ht|Ht].
  - cbn [fold_left]. destruct te as [t e]. apply (call_ok k); auto.
  - cbn [fold_left]. exists s. split; [reflexivity|]. unfold put. pose proof Ht as Ht'. apply Nat.ltb_ge in Ht'. rewrite Ht'. split; [|auto]. exists k. destruct I. constructor; auto.
    eapply px_ext; [|exact ti_px0]. intros i Hi. unfold held, evup. destruct (Nat.eqb_spec i (fst te)); [lia|reflexivity].
Qed.
Lemma dispatch_all l : forall aw ev a s, Wt aw ev a s -> exists s', fold_left dispatch l (Live s) = Live s' /\ Wt (fold_left put (map fst l) aw) (fold_left evup l ev) a s'.
Proof.
  induction l as [|te l IH]; intros aw ev a s W; cbn [fold_left map]; [eauto|].
  destruct (dispatch_ok aw ev a s te W) as (s1 & E & W1). rewrite E. apply IH. exact W1.
Qed.
Lemma put_first l : forall aw, hd_error (fold_left put l aw) = match aw with b :: _ => Some b | [] => find (fun i => i <? n) l end.
Proof.
  induction l as [|t l IH]; intros aw; cbn [fold_left find].
  - destruct aw; reflexivity.
  - rewrite IH. unfold put. destruct aw as [|b rest]; cbn [mem existsb].
    + destruct (t <? n); reflexivity.
    + destruct (t <? n); [|reflexivity]. destruct ((t =? b) || existsb (Nat.eqb t) rest); reflexivity.
Qed.
Lemma put_all l aw : existsb (fun i => i <? n) l = false -> fold_left put l aw = aw.
Proof.
  revert aw. induction l as [|t l IH]; intros aw H; cbn [existsb fold_left] in *; auto. apply orb_false_iff in H. destruct H as [H1 H2]. unfold put at 2. rewrite H1. auto.
Qed.

Lemma last_or {B} (l : list B) : forall d d', l <> [] -> last l d = last l d'.
Proof. induction l as [|x [|y l] IH]; intros d d' H; [contradiction|reflexivity|]. cbn [last]. apply (IH d d'). discriminate. Qed.
Lemma evup_all l : forall ev i, fold_left evup l ev i = last (map snd (filter (fun te => fst te =? i) l)) (ev i).
Proof.
  induction l as [|te l IH]; intros ev i; [reflexivity|]. cbn [fold_left filter]. rewrite IH. unfold evup. rewrite (Nat.eqb_sym i). destruct (fst te =? i); [|reflexivity].
  cbn [map]. destruct (map snd _) as [|y t]; [reflexivity|]. cbn [last]. apply (last_or (y :: t)). discriminate.
Qed.
Lemma find_latest l ev i : find (fun i => i <? n) (map fst l) = Some i -> fold_left evup l ev i = latest i l.
Proof.
  intro F. apply find_some in F. destruct F as [F _]. rewrite evup_all. apply last_or. apply in_map_iff in F. destruct F as (te & E & F). intro Q. apply map_eq_nil in Q.
  assert (X : In te (filter (fun te => fst te =? i) l)) by (apply filter_In; split; [exact F|apply Nat.eqb_eq; exact E]). rewrite Q in X. destruct X.
Qed.

(** a poll by the executor *)
Lemma main_next b rest ev a w k : TI k (b :: rest) ev a w -> exists w', poll_main w = (w', [], false) /\ TI (S k) [] ev (step a (b, ev b)) w'.
Proof.
  intro I. unfold App.poll_main. cbn [Tree.exec]. rewrite (ti_over _ _ _ _ _ I).
  destruct (next_poll bound k b rest ev ev a w (Arena.mkW (Some (task_of Root)) 0)) as (w' & E & I' & W); [lia|reflexivity|exact I|].
  rewrite E. cbn [Tree.bind]. unfold root_wakes. cbn [w_tr Tree.emit wakes]. rewrite W, Nat.sub_diag. cbn [repeat].
  eexists. split; [reflexivity|]. apply TI_emit. exact I'.
Qed.
Lemma main_first x ev : listeners (lp_ev x) = [] -> exists w', poll_main (Tree.start val lst x) = (w', [], false) /\ TI 0 [] ev (lp_state x) w'.
Proof.
  intro Ls. unfold App.poll_main. cbn [Tree.exec]. change (over (Tree.start val lst x)) with false.
  destruct (first_poll bound x (Arena.mkW (Some (task_of Root)) 0) ev) as (w' & E & I' & W); [lia|reflexivity|exact Ls|].
  rewrite E. cbn [Tree.bind]. unfold root_wakes. cbn [w_tr Tree.emit wakes]. rewrite W. cbn [repeat Nat.sub].
  eexists. split; [reflexivity|]. apply TI_emit. exact I'.
Qed.
Lemma loop_done g s : scheduled _ s = false -> run_loop tree poll_main (S g) s = Live (mkEx _ false false (timers _ s) (xs _ s) (ERet :: Executor.tr _ s)).
Proof. intro E. cbn [run_loop]. rewrite E. reflexivity. Qed.
Lemma loop_one g s w' : scheduled _ s = true -> poll_main (xs _ s) = (w', [], false) ->
  exists tt, run_loop tree poll_main (S (S g)) s = Live (mkEx _ false false (timers _ s) w' tt).
Proof.
  intros E P. cbn [run_loop]. rewrite E. cbn [xs]. rewrite P. cbn [fold_left Executor.emit scheduled]. eexists. reflexivity.
Qed.
Lemma run_waiting aw ev a s : Wt aw ev a s -> exists s', run_now tree poll_main rounds s = Live s' /\ Wt [] ev (match hd_error aw with Some b => step a (b, ev b) | None => a end) s'.
Proof.
  intros ((k & I) & SC & AC). unfold run_now. rewrite AC. destruct two as (g & RG). rewrite RG. destruct aw as [|b rest].
  - rewrite loop_done by exact SC. eexists. split; [reflexivity|]. split; [exists k; exact I|auto].
  - destruct (main_next b rest ev a _ k I) as (w' & E & I'). destruct (loop_one g (mkEx tree (scheduled _ s) true (timers _ s) (xs _ s) (ERun :: Executor.tr _ s)) w') as (tt & E2); [exact SC|exact E|].
    rewrite E2. eexists. split; [reflexivity|]. split; [exists (S k); exact I'|auto].
Qed.
Lemma run_fresh ev a s : Fresh a s -> exists s', run_now tree poll_main rounds s = Live s' /\ Wt [] ev a s'.
Proof.
  intros ((x & EX & E1 & E2 & E3) & SC & AC & _). unfold run_now. rewrite AC. destruct two as (g & RG). rewrite RG.
  destruct (main_first x ev E3) as (w' & E & I'). destruct (loop_one g (mkEx tree (scheduled _ s) true (timers _ s) (xs _ s) (ERun :: Executor.tr _ s)) w') as (tt & E4); [exact SC|cbn; rewrite EX; exact E|].
  rewrite E4. eexists. split; [reflexivity|]. split; [exists 0; rewrite E1 in I'; exact I'|auto].
Qed.
Lemma heard_ok a s l aw ev : Wt aw ev a s -> heard_by A (Live s) l = existsb (fun i => i <? n) (map fst l).
Proof.
  intros ((k & I) & _). unfold heard_by. induction l as [|te l IH]; [reflexivity|]. cbn [existsb map]. rewrite IH.
  rewrite (copy_ok k _ _ (fst te) (ti_px _ _ _ _ _ I)). destruct (fst te <? n); reflexivity.
Qed.

Lemma find_none l : existsb (fun i => i <? n) l = false -> find (fun i => i <? n) l = None.
Proof. induction l as [|t l IH]; cbn [existsb find]; auto. destruct (t <? n); cbn [orb]; [discriminate|auto]. Qed.
Definition Wa (a : A) (s : ex) : Prop := exists ev, Wt [] ev a s.
Lemma step_waiting a s e : Wa a s -> exists s', pexec (Live s) e = Live s' /\ Wa (fold_left step (counted n true [e]) a) s'.
Proof.
  intros [ev W]. destruct e as [l| |]; cbn [EventLoop.pexec].
  - destruct (dispatch_all l [] ev a s W) as (s1 & E & W1). rewrite E, (heard_ok a s l [] ev W). destruct (existsb (fun i => i <? n) (map fst l)) eqn:EX.
    + cbn [App.app_exec Executor.exec exec1]. destruct (run_waiting _ _ a s1 W1) as (s2 & E2 & W2). rewrite E2. exists s2. split; [reflexivity|]. exists (fold_left evup l ev).
      rewrite put_first in W2. cbn [counted]. destruct (find _ (map fst l)) eqn:FD; [rewrite (find_latest l ev _ FD) in W2|]; exact W2.
    + exists s1. split; [reflexivity|]. rewrite put_all in W1 by exact EX. cbn [counted]. rewrite find_none by exact EX. eexists. exact W1.
  - cbn [App.app_exec Executor.exec exec1]. destruct (run_waiting [] ev a s W) as (s' & E & W'). exists s'. split; [exact E|exists ev; exact W'].
  - cbn [App.app_exec Executor.exec exec1]. destruct (timers _ s) as [|tm]; [exists s; split; [reflexivity|exists ev; exact W]|].
    cut (exists s', run_now tree poll_main rounds (mkEx tree (scheduled _ s) (active _ s) tm (xs _ s) (Executor.tr _ s)) = Live s' /\ Wt [] ev a s'); [intros (s' & E & W'); exists s'; split; [exact E|exists ev; exact W']|].
    apply (run_waiting [] ev a (mkEx tree (scheduled _ s) (active _ s) tm (xs _ s) (Executor.tr _ s))). exact W.
Qed.
Lemma step_fresh a s e : Fresh a s -> exists s', pexec (Live s) e = Live s' /\ if runs e then Wa a s' else Fresh a s'.
Proof.
  intro W. pose (ev := fun _ : nat => 0). destruct e as [l| |]; cbn [EventLoop.pexec runs].
  - assert (DN : fold_left dispatch l (Live s) = Live s).
    { destruct W as ((x & EX & _ & _ & E3) & _). clear -EX E3. induction l as [|te l IH]; [reflexivity|]. cbn [fold_left].
      unfold EventLoop.dispatch at 2. rewrite EX. cbn [w_x Tree.start]. change (wx (Tree.start val lst x)) with x. rewrite E3. exact IH. }
    assert (HN : heard_by A (Live s) l = false).
    { destruct W as ((x & EX & _ & _ & E3) & _). clear -EX E3. unfold heard_by. rewrite EX. change (wx (Tree.start val lst x)) with x. rewrite E3. induction l; cbn; auto. }
    rewrite DN, HN. eauto.
  - cbn [App.app_exec Executor.exec exec1]. destruct (run_fresh ev a s W) as (s' & E & W'). exists s'. split; [exact E|exists ev; exact W'].
  - cbn [App.app_exec Executor.exec exec1]. pose proof W as ((x & EX & E1 & E2 & E3) & SC & AC & TM). destruct (timers _ s) as [|tm] eqn:ET; [lia|].
    unfold run_now. cbn [active scheduled timers xs Executor.tr]. rewrite AC. destruct two as (g & RG). rewrite RG.
    destruct (main_first x ev E3) as (w' & E & I'). destruct (loop_one g (mkEx tree (scheduled _ s) true tm (xs _ s) (ERun :: Executor.tr _ s)) w') as (tt & E5); [exact SC|cbn; rewrite EX; exact E|].
    rewrite E5. eexists. split; [reflexivity|]. exists ev. split; [exists 0; rewrite E1 in I'; exact I'|auto].
Qed.
Lemma counted_app on e evs : counted n on (e :: evs) = counted n on [e] ++ counted n (on || runs e) evs.
Proof. destruct e; cbn [counted runs]; rewrite ?app_nil_r, ?orb_false_r, ?orb_true_r; reflexivity. Qed.
Lemma run_waiting_all evs : forall a s, Wa a s -> exists s', fold_left pexec evs (Live s) = Live s' /\ Wa (fold_left step (counted n true evs) a) s'.
Proof.
  induction evs as [|e evs IH]; intros a s W; [exists s; auto|]. cbn [fold_left]. destruct (step_waiting a s e W) as (s1 & E & W1). rewrite E.
  rewrite counted_app, fold_left_app. cbn [orb]. apply IH. exact W1.
Qed.
Lemma run_all evs : forall a s, Fresh a s -> exists s', fold_left pexec evs (Live s) = Live s' /\
  if begun evs then Wa (fold_left step (counted n false evs) a) s' else Fresh a s'.
Proof.
  induction evs as [|e evs IH]; intros a s W; [exists s; auto|]. cbn [fold_left begun existsb]. destruct (step_fresh a s e W) as (s1 & E & W1). rewrite E.
  rewrite counted_app, fold_left_app. destruct (runs e) eqn:R; cbn [orb].
  - destruct e; try discriminate R; cbn [counted fold_left]; apply run_waiting_all; exact W1.
  - destruct e as [l| |]; try discriminate R. cbn [counted fold_left app]. apply IH. exact W1.
Qed.
Lemma prun_all a evs : exists s, prun a evs = Live s /\ if begun evs then Wa (fold_left step (counted n false evs) a) s else Fresh a s.
Proof.
  unfold EventLoop.prun. cbn [App.app_exec Executor.exec exec1]. apply run_all. split.
  - eexists. split; [reflexivity|]. auto.
  - cbn. auto.
Qed.
End Proofs.
