(** Proofs about the combinator model, first for every schedule, then for schedules
    that never poll a completed combinator. *)
From Coq Require Import List Arith Bool Lia.
From Verif Require Import Arena Spec_arena Readiness Combinator Spec_comb Util Readiness_proofs.
Import ListNotations.

Lemma lset_length {A} (l : list A) i x : length (lset l i x) = length l.
Proof. revert i. induction l as [|y l IH]; intros [|i]; cbn; auto. Qed.
Lemma lset_nth {A} (l : list A) i x j : i < length l ->
  nth_error (lset l i x) j = if Nat.eqb j i then Some x else nth_error l j.
Proof.
  revert i j. induction l as [|y l IH]; cbn; intros i j H; [lia|].
  destruct i as [|i], j as [|j]; cbn; auto. apply IH. lia.
Qed.
Lemma lset_count (l : list bool) i : nth_error l i = Some false ->
  count_occ bool_dec l false = S (count_occ bool_dec (lset l i true) false).
Proof.
  revert i. induction l as [|b l IH]; intros [|i]; cbn; try discriminate.
  - intros [= ->]. destruct (bool_dec false false); [|congruence]. destruct (bool_dec true false); [discriminate|]. auto.
  - intro H. rewrite (IH _ H). destruct (bool_dec b false); auto.
Qed.
Lemma count_zero (l : list bool) : count_occ bool_dec l false = 0 -> l = repeat true (length l).
Proof.
  induction l as [|b l IH]; cbn; auto. destruct (bool_dec b false); [discriminate|]. intro H.
  destruct b; [|congruence]. f_equal. auto.
Qed.
Lemma count_repeat n : count_occ bool_dec (repeat false n) false = n.
Proof. induction n; cbn; auto. Qed.
Lemma nth_repeat_some {A} (x y : A) n i : nth_error (repeat x n) i = Some y -> x = y /\ i < n.
Proof.
  revert i. induction n; intros [|i]; cbn; try discriminate.
  - intros [= ->]. split; auto. lia.
  - intro H. destruct (IHn _ H). split; auto. lia.
Qed.
Lemma nth_repeat_in {A} (x : A) n i : i < n -> nth_error (repeat x n) i = Some x.
Proof. revert i. induction n; intros [|i] H; cbn; auto; try lia. apply IHn. lia. Qed.
Lemma forallb_repeat_true n : forallb (fun b : bool => b) (repeat true n) = true.
Proof. induction n; auto. Qed.

Lemma all_some_ok {A} (l : list (option A)) : (forall i, i < length l -> exists s, nth_error l i = Some (Some s)) ->
  exists l', all_some l = Some l' /\ length l' = length l /\
    forall i s, nth_error l' i = Some s <-> nth_error l i = Some (Some s).
Proof.
  induction l as [|o l IH]; cbn [all_some length]; intro H.
  - exists []. split; [reflexivity|]. split; [reflexivity|]. intros [|i] s; cbn; split; discriminate.
  - destruct (H 0 ltac:(lia)) as (s & E). cbn in E. injection E as ->.
    destruct IH as (l' & E & L & F).
    { intros i Hi. apply (H (Datatypes.S i)). lia. }
    rewrite E. cbn. exists (s :: l'). split; auto. split; [cbn; auto|].
    intros [|i] s'; cbn; [split; congruence|apply F].
Qed.

Section Proofs.
Variables R S O X : Type.
Variable ww : waker -> waker -> bool.
Variable debug : bool.
Variable B : behavior R S O.
Variable child : X -> nat -> X * list nat * cres R.
Variables (k : kind) (n : nat) (x0 : X).

Notation comb := (comb S).
Notation world := (world R S O X).
Notation ev := (ev R S O).
Notation do_wake := (do_wake R S O X).
Notation c_loop := (c_loop R S O X B child).
Notation c_finish := (c_finish R S O X debug B).
Notation c_poll := (c_poll R S O X ww debug B child).
Notation exec := (exec R S O X ww debug B child).
Notation run := (run R S O X ww debug B child k n x0).
Notation wc := (wc R S O X). Notation wx := (wx R S O X). Notation walive := (walive R S O X). Notation wtr := (wtr R S O X).
Notation c_n := (c_n S). Notation c_kind := (c_kind S). Notation c_rd := (c_rd S).
Notation c_pending := (c_pending S). Notation c_items := (c_items S). Notation c_filled := (c_filled S).
Notation emit := (emit R S O X).

(** ** Wakes *)
Definition wakeish (e : ev) : Prop := match e with EWake _ | EParent _ => True | _ => False end.
Definition quiet (e : ev) : Prop :=
  match e with EStore _ _ | EGive _ _ | EDropItem _ _ | EFault => False | _ => True end.

Record same_core (w w' : world) : Prop := {
  sc_n : c_n (wc w') = c_n (wc w); sc_kind : c_kind (wc w') = c_kind (wc w);
  sc_pending : c_pending (wc w') = c_pending (wc w); sc_items : c_items (wc w') = c_items (wc w);
  sc_filled : c_filled (wc w') = c_filled (wc w); sc_alive : walive w' = walive w }.

Lemma same_core_refl w : same_core w w. Proof. constructor; reflexivity. Qed.
Lemma same_core_trans w1 w2 w3 : same_core w1 w2 -> same_core w2 w3 -> same_core w1 w3.
Proof. intros [] []. constructor; congruence. Qed.

Lemma do_wake_ok w i aw p : c_n (wc w) = n -> RdInv (c_rd (wc w)) n aw p ->
  exists evs aw', wtr (do_wake w i) = evs ++ wtr w /\ Forall wakeish evs /\ same_core w (do_wake w i) /\
    wx (do_wake w i) = wx w /\ RdInv (c_rd (wc (do_wake w i))) n aw' p /\
    (i < n -> aw' = if mem i aw then aw else aw ++ [i]) /\
    (i < n -> evs = (if mem i aw then [] else match aw with [] => [EParent p] | _ => [] end) ++ [EWake i]) /\
    (n <= i -> aw' = aw /\ evs = []).
Proof.
  intros En H. unfold do_wake. rewrite En. destruct (Nat.ltb_spec i n) as [Hi|Hi].
  - destruct (rd_wake_ok _ _ _ _ i H Hi) as (r' & E & H'). cbn [Combinator.emit Combinator.wc]. rewrite E.
    destruct (mem i aw) eqn:M; [|destruct aw as [|a aw]].
    + exists [EWake i], aw. split; [reflexivity|]. split; [repeat constructor|].
      split; [constructor; reflexivity|]. split; [reflexivity|]. split; [exact H'|]. split; [auto|]. split; [auto|]. lia.
    + exists [EParent p; EWake i], [i]. split; [reflexivity|]. split; [repeat constructor|].
      split; [constructor; reflexivity|]. split; [reflexivity|]. split; [exact H'|]. split; [auto|]. split; [auto|]. lia.
    + exists [EWake i], ((a :: aw) ++ [i]). split; [reflexivity|]. split; [repeat constructor|].
      split; [constructor; reflexivity|]. split; [reflexivity|]. split; [exact H'|]. split; [auto|]. split; [auto|]. lia.
  - exists [], aw. split; [reflexivity|]. split; [constructor|]. split; [apply same_core_refl|].
    split; [reflexivity|]. split; [exact H|]. split; [lia|]. split; [lia|]. auto.
Qed.

(** the readiness set agrees with the trace *)
Definition PR (c : comb) (tr : list ev) : Prop :=
  exists p, RdInv (c_rd c) n (woken n tr) p /\
    match last_call tr with
    | None => True
    | Some w0 => (n > 0 -> same_task p w0) /\ parents tr = match woken n tr with [] => [] | _ => [p] end
    end.

Lemma do_wake_PR w i : c_n (wc w) = n -> PR (wc w) (wtr w) -> PR (wc (do_wake w i)) (wtr (do_wake w i)).
Proof.
  intros En (p & H & L).
  destruct (do_wake_ok w i _ _ En H) as (evs & aw' & E & _ & _ & _ & H' & A1 & A2 & A3).
  destruct (Nat.lt_ge_cases i n) as [Hi|Hi].
  - specialize (A1 Hi). specialize (A2 Hi). exists p. rewrite E, A2.
    assert (W : woken n (((if mem i (woken n (wtr w)) then [] else match woken n (wtr w) with [] => [EParent p] | _ => [] end) ++ [EWake i]) ++ wtr w) = aw').
    { rewrite A1. transitivity (woken n (EWake i :: wtr w)); [|reflexivity].
      destruct (mem i (woken n (wtr w))); [reflexivity|]. destruct (woken n (wtr w)); reflexivity. }
    rewrite W. split; [exact H'|].
    assert (LC : last_call (((if mem i (woken n (wtr w)) then [] else match woken n (wtr w) with [] => [EParent p] | _ => [] end) ++ [EWake i]) ++ wtr w) = last_call (wtr w)).
    { destruct (mem i (woken n (wtr w))); [|destruct (woken n (wtr w))]; reflexivity. }
    rewrite LC. destruct (last_call (wtr w)) as [w0|]; auto. destruct L as (L1 & L2). split; auto.
    rewrite A1. destruct (mem i (woken n (wtr w))) eqn:M; cbn.
    + exact L2.
    + destruct (woken n (wtr w)) as [|a aw]; cbn; rewrite L2; reflexivity.
  - destruct (A3 Hi) as (-> & ->). exists p. rewrite E. auto.
Qed.

Lemma wakes_ok l : forall w aw p, c_n (wc w) = n -> RdInv (c_rd (wc w)) n aw p ->
  exists evs aw', wtr (fold_left do_wake l w) = evs ++ wtr w /\ Forall wakeish evs /\
    same_core w (fold_left do_wake l w) /\ wx (fold_left do_wake l w) = wx w /\
    RdInv (c_rd (wc (fold_left do_wake l w))) n aw' p.
Proof.
  induction l as [|i l IH]; intros w aw p En H; cbn [fold_left].
  - exists [], aw. split; [reflexivity|]. split; [constructor|]. split; [apply same_core_refl|]. auto.
  - destruct (do_wake_ok w i _ _ En H) as (e1 & aw1 & E1 & F1 & C1 & X1 & H1 & _).
    destruct (IH (do_wake w i) aw1 p) as (e2 & aw2 & E2 & F2 & C2 & X2 & H2).
    { rewrite (sc_n _ _ C1). exact En. } { exact H1. }
    exists (e2 ++ e1), aw2. rewrite E2, E1, app_assoc. split; [reflexivity|].
    split; [apply Forall_app; auto|]. split; [eapply same_core_trans; eauto|]. split; [congruence|]. exact H2.
Qed.
Lemma wakes_PR l : forall w, c_n (wc w) = n -> PR (wc w) (wtr w) ->
  PR (wc (fold_left do_wake l w)) (wtr (fold_left do_wake l w)).
Proof.
  induction l as [|i l IH]; intros w En H; cbn [fold_left]; auto.
  apply IH; [|apply do_wake_PR; auto].
  destruct H as (p & H & _). destruct (do_wake_ok w i _ _ En H) as (_ & _ & _ & _ & C & _).
  rewrite (sc_n _ _ C). exact En.
Qed.

(** ** Ownership, for every schedule *)
Lemma stores_quiet i evs tr : Forall quiet evs -> stores i (evs ++ tr) = stores i tr.
Proof. induction 1 as [|e evs Q _ IH]; cbn; auto. destruct e; try contradiction; auto. Qed.
Lemma moved_quiet i evs tr : Forall quiet evs -> moved i (evs ++ tr) = moved i tr.
Proof. induction 1 as [|e evs Q _ IH]; cbn; auto. destruct e; try contradiction; auto. Qed.
Lemma dropped_quiet i evs tr : Forall quiet evs -> dropped_items i (evs ++ tr) = dropped_items i tr.
Proof. induction 1 as [|e evs Q _ IH]; cbn; auto. destruct e; try contradiction; auto. Qed.
Lemma wakeish_quiet evs : Forall wakeish evs -> Forall quiet evs.
Proof. apply Forall_impl. intros []; cbn; auto. Qed.

(** what is common to all states: provenance of the values *)
Definition Prov (tr : list ev) : Prop :=
  ~ In EFault tr /\
  (forall i s, In (EGive i s) tr \/ In (EDropItem i s) tr -> In (EStore i s) tr) /\
  (forall i s, In (EStore i s) tr -> exists v, In (EDone i v) tr /\ b_maybe_return B i v = inr s).
Definition Active (c : comb) (tr : list ev) : Prop :=
  length (c_items c) = n /\ c_pending c = count_occ bool_dec (c_filled c) false /\
  (forall i b, nth_error (c_filled c) i = Some b ->
     (b = true -> exists s, nth_error (c_items c) i = Some (Some s) /\ In (EStore i s) tr) /\
     stores i tr = (if b then 1 else 0)) /\
  (forall i, n <= i -> stores i tr = 0) /\ (forall i, moved i tr = 0).
Definition Taken (c : comb) (tr : list ev) : Prop :=
  (n > 0 /\ moved 0 tr > 0) /\ c_pending c = 0 /\ c_filled c = repeat false n /\ (k = KVec -> c_items c = []) /\
  (forall i, stores i tr = moved i tr /\ stores i tr <= 1).
Definition Base (c : comb) : Prop :=
  c_n c = n /\ c_kind c = k /\ length (c_filled c) = n /\ exists aw p, RdInv (c_rd c) n aw p.
Definition Mem (w : world) : Prop :=
  Base (wc w) /\ Prov (wtr w) /\ (Active (wc w) (wtr w) \/ Taken (wc w) (wtr w)).

Lemma Prov_quiet evs tr : Forall quiet evs -> Prov tr -> Prov (evs ++ tr).
Proof.
  intros Q (H1 & H2 & H3). rewrite Forall_forall in Q. split; [|split].
  - rewrite in_app_iff. intros [H|H]; auto. exact (Q _ H).
  - intros i s H. rewrite !in_app_iff in *. right. apply H2.
    destruct H as [[H|H]|[H|H]]; auto; destruct (Q _ H).
  - intros i s H. rewrite in_app_iff in H. destruct H as [H|H]; [destruct (Q _ H)|].
    destruct (H3 _ _ H) as (v & Hv & E). exists v. rewrite in_app_iff. auto.
Qed.
Lemma Active_quiet c evs tr : Forall quiet evs -> Active c tr -> Active c (evs ++ tr).
Proof.
  intros Q (H1 & H2 & H3 & H4 & H5). split; [auto|]. split; [auto|]. split; [|split].
  - intros i b E. destruct (H3 _ _ E) as (A1 & A2). rewrite stores_quiet by auto. split; auto.
    intro Hb. destruct (A1 Hb) as (s & Es & I). exists s. rewrite in_app_iff. auto.
  - intros i Hi. rewrite stores_quiet; auto.
  - intro i. rewrite moved_quiet; auto.
Qed.
Lemma Taken_quiet c evs tr : Forall quiet evs -> Taken c tr -> Taken c (evs ++ tr).
Proof.
  intros Q (H1 & H2 & H3 & H4 & H5). split; [rewrite moved_quiet by auto; auto|]. repeat (split; [auto; fail|]).
  intro i. rewrite stores_quiet, moved_quiet by auto. auto.
Qed.
Lemma Active_same c c' tr : c_items c' = c_items c -> c_pending c' = c_pending c -> c_filled c' = c_filled c ->
  Active c tr -> Active c' tr.
Proof. unfold Active. intros -> -> ->. auto. Qed.
Lemma Taken_same c c' tr : c_items c' = c_items c -> c_pending c' = c_pending c -> c_filled c' = c_filled c ->
  Taken c tr -> Taken c' tr.
Proof. unfold Taken. intros -> -> ->. auto. Qed.
Lemma Mem_quiet w e : quiet e -> Mem w -> Mem (emit e w).
Proof.
  intros Q (H1 & H2 & H3). split; [exact H1|]. split.
  - apply (Prov_quiet [e]); auto.
  - destruct H3 as [H3|H3]; [left; apply (Active_quiet _ [e]); auto|right; apply (Taken_quiet _ [e]); auto].
Qed.
Lemma Mem_core w w' evs : Mem w -> same_core w w' -> wtr w' = evs ++ wtr w -> Forall quiet evs ->
  (exists aw p, RdInv (c_rd (wc w')) n aw p) -> Mem w'.
Proof.
  intros ((B1 & B2 & B3 & _) & P & A) [] E Q RD. split; [|split].
  - split; [congruence|]. split; [congruence|]. split; [congruence|]. exact RD.
  - rewrite E. apply Prov_quiet; auto.
  - rewrite E. destruct A as [A|A]; [left|right].
    + apply Active_quiet; auto. apply (Active_same (wc w)); auto.
    + apply Taken_quiet; auto. apply (Taken_same (wc w)); auto.
Qed.
Lemma Mem_wakes l w : Mem w -> Mem (fold_left do_wake l w) /\ walive (fold_left do_wake l w) = walive w /\
  (forall i, dropped_items i (wtr (fold_left do_wake l w)) = dropped_items i (wtr w)).
Proof.
  intros M. pose proof M as ((B1 & B2 & B3 & aw & p & RD) & _).
  destruct (wakes_ok l w aw p B1 RD) as (evs & aw' & E & F & C & _ & RD').
  split; [|split].
  - eapply Mem_core; eauto. apply wakeish_quiet; auto.
  - apply (sc_alive _ _ C).
  - intro i. rewrite E. apply dropped_quiet, wakeish_quiet; auto.
Qed.


Definition MemL (w : world) : Prop :=
  Base (wc w) /\ Prov (wtr w) /\ (Active (wc w) (wtr w) \/ (Taken (wc w) (wtr w) /\ k = KVec)).

Lemma c_store_mem w i s v : MemL w -> nth_error (c_filled (wc w)) i = Some false ->
  In (EDone i v) (wtr w) -> b_maybe_return B i v = inr s ->
  match c_store R S O X w i s with
  | None => Taken (wc w) (wtr w)
  | Some w' => Active (wc w) (wtr w) /\ MemL w' /\ walive w' = walive w /\ wtr w' = EStore i s :: wtr w /\
      wc w' = mkC S (c_kind (wc w)) (c_n (wc w)) (pred (c_pending (wc w))) (lset (c_items (wc w)) i (Some s))
                (lset (c_filled (wc w)) i true) (c_rd (wc w)) /\ c_pending (wc w) > 0 /\ wx w' = wx w
  end.
Proof.
  intros ((B1 & B2 & B3 & RD) & P & A) Hf Hd Hm. unfold c_store.
  assert (Hi : i < n). { rewrite <- B3. apply nth_error_Some. congruence. }
  destruct A as [A|(A & KV)].
  - pose proof A as (A1 & A2 & A3 & A4 & A5).
    destruct (nth_error (c_items (wc w)) i) eqn:Ei; [|apply nth_error_None in Ei; lia].
    pose proof (lset_count _ _ Hf) as L. rewrite <- A2 in L. rewrite L.
    split; [exact A|]. split; [|repeat split; auto; lia].
    split; [|split].
    + split; [auto|]. split; [auto|]. split; [cbn; rewrite lset_length; auto|]. exact RD.
    + destruct P as (P1 & P2 & P3). cbn. split; [|split].
      * intros [Q|Q]; [discriminate Q|auto].
      * intros j u [[Q|Q]|[Q|Q]]; try discriminate Q; right; apply P2; auto.
      * intros j u [Q|Q]. { injection Q as <- <-. exists v. cbn. auto. }
        destruct (P3 _ _ Q) as (v' & H' & E'). exists v'. cbn. auto.
    + left. unfold Active. cbn. rewrite !lset_length. split; [auto|]. split; [auto|]. split; [|split].
      * intros j b. rewrite lset_nth by lia. rewrite lset_nth by lia. rewrite (Nat.eqb_sym i j).
        destruct (Nat.eqb_spec j i) as [->|Hj].
        -- intros [= <-]. split; [intros _; exists s; auto|]. destruct (A3 _ _ Hf) as (_ & Q). rewrite Q. auto.
        -- intro E. destruct (A3 _ _ E) as (Q1 & Q2). split; auto.
           intro Hb. destruct (Q1 Hb) as (s' & E' & I). exists s'. auto.
      * intros j Hj. destruct (Nat.eqb_spec i j); [lia|]. cbn. apply A4; auto.
      * auto.
  - pose proof A as (A1 & A2 & A3 & A4 & A5). rewrite (A4 KV). destruct i; exact A.
Qed.

Lemma MemL_Mem w : MemL w -> Mem w.
Proof. intros (H1 & H2 & [H3|(H3 & _)]); split; auto. Qed.
Lemma MemL_quiet w e : quiet e -> MemL w -> MemL (emit e w).
Proof.
  intros Q (H1 & H2 & H3). split; [exact H1|]. split.
  - apply (Prov_quiet [e]); auto.
  - destruct H3 as [H3|(H3 & KV)]; [left; apply (Active_quiet _ [e]); auto|right; split; auto; apply (Taken_quiet _ [e]); auto].
Qed.
Lemma MemL_wakes l w : MemL w -> MemL (fold_left do_wake l w) /\ walive (fold_left do_wake l w) = walive w /\
  (forall i, dropped_items i (wtr (fold_left do_wake l w)) = dropped_items i (wtr w)) /\
  c_filled (wc (fold_left do_wake l w)) = c_filled (wc w).
Proof.
  intros M. pose proof M as ((B1 & B2 & B3 & aw & p & RD) & P & A).
  destruct (wakes_ok l w aw p B1 RD) as (evs & aw' & E & F & C & _ & RD').
  pose proof (wakeish_quiet _ F) as Q.
  split; [|split; [|split]].
  - destruct (Mem_core w _ evs (MemL_Mem _ M) C E Q) as (H1 & H2 & _); [eauto|].
    split; [exact H1|]. split; [exact H2|]. rewrite E. destruct C. destruct A as [A|(A & KV)]; [left|right; split; auto].
    + apply Active_quiet; auto. apply (Active_same (wc w)); auto.
    + apply Taken_quiet; auto. apply (Taken_same (wc w)); auto.
  - apply (sc_alive _ _ C).
  - intro i. rewrite E. apply dropped_quiet; auto.
  - apply (sc_filled _ _ C).
Qed.

Lemma c_loop_mem l : forall w, MemL w -> (forall i, In i l -> i < n) ->
  forall w' r, c_loop l w = (w', r) ->
  MemL w' /\ walive w' = walive w /\ forall i, dropped_items i (wtr w') = dropped_items i (wtr w).
Proof.
  induction l as [|i l IH]; intros w M HB w' r; cbn [Combinator.c_loop].
  - intros [= <- <-]. auto.
  - pose proof M as ((B1 & B2 & B3 & RD) & P & A).
    destruct (nth_error (c_filled (wc w)) i) as [[|]|] eqn:Hf.
    + apply IH; auto. intros; apply HB; cbn; auto.
    + destruct (child (wx (emit (EChild i) w)) i) as [[x' wakes] cr] eqn:Ec.
      set (w1 := set_x R S O X (emit (EChild i) w) x').
      assert (M1 : MemL w1). { apply (MemL_quiet w (EChild i)) in M; [exact M|exact Logic.I]. }
      destruct (MemL_wakes wakes w1 M1) as (M2 & A2 & D2 & F2).
      set (w2 := fold_left do_wake wakes w1) in *.
      assert (HB' : forall j, In j l -> j < n) by (intros; apply HB; cbn; auto).
      assert (D : forall j, dropped_items j (wtr w2) = dropped_items j (wtr w)) by (intro j; rewrite D2; reflexivity).
      assert (AL : walive w2 = walive w) by (rewrite A2; reflexivity).
      destruct cr as [|v|].
      * intro E. destruct (IH (emit (EPend i) w2) (MemL_quiet w2 (EPend i) Logic.I M2) HB' _ _ E) as (Q1 & Q2 & Q3). split; [exact Q1|]. split; [cbn in Q2; congruence|].
        intro j. rewrite Q3. cbn. apply D.
      * assert (M3 : MemL (emit (EDone i v) w2)) by (apply MemL_quiet; [exact Logic.I|exact M2]).
        destruct (b_maybe_return B i v) as [o|s] eqn:Em.
        -- intros [= <- <-]. split; [exact M3|]. split; auto. 
        -- pose proof (c_store_mem (emit (EDone i v) w2) i s v M3) as ST.
           assert (c_filled (wc w2) = c_filled (wc w)) as FF by (rewrite F2; reflexivity).
           specialize (ST ltac:(cbn; rewrite FF; exact Hf) ltac:(cbn; auto) Em).
           destruct (c_store R S O X (emit (EDone i v) w2) i s) as [w4|] eqn:Es.
           ++ destruct ST as (_ & M4 & A4 & T4 & _). intro E.
              destruct (IH w4 M4 HB' _ _ E) as (Q1 & Q2 & Q3). split; [exact Q1|]. split; [cbn in A4; congruence|].
              intro j. rewrite Q3, T4. cbn. apply D.
           ++ intros [= <- <-]. split; [exact M3|]. split; auto.
      * intros [= <- <-]. split; [apply MemL_quiet; [exact Logic.I|exact M2]|]. split; auto.
    + exfalso. apply nth_error_None in Hf. specialize (HB i ltac:(cbn; auto)). lia.
Qed.

Lemma gives_in l : forall j i s, In (EGive i s) (gives R S O j l) <-> j <= i /\ nth_error l (i - j) = Some s.
Proof.
  induction l as [|x l IH]; intros j i s; cbn [gives In].
  - split; [intros []|]. intros (_ & H). destruct (i - j); discriminate H.
  - rewrite IH. split.
    + intros [H|(H1 & H2)].
      * injection H as <- <-. rewrite Nat.sub_diag. cbn. auto.
      * split; [lia|]. replace (i - j) with (Datatypes.S (i - Datatypes.S j)) by lia. exact H2.
    + intros (H1 & H2). destruct (Nat.eq_dec i j) as [->|Hn].
      * rewrite Nat.sub_diag in H2. cbn in H2. injection H2 as ->. auto.
      * right. split; [lia|]. replace (i - j) with (Datatypes.S (i - Datatypes.S j)) in H2 by lia. exact H2.
Qed.
Lemma gives_only l j e : In e (gives R S O j l) -> exists i s, e = EGive i s.
Proof. revert j. induction l as [|x l IH]; cbn; intro j; [intros []|]. intros [<-|H]; eauto. Qed.
Lemma moved_gives l : forall j i tr, moved i (rev (gives R S O j l) ++ tr) =
  moved i tr + if (j <=? i) && (i <? j + length l) then 1 else 0.
Proof.
  induction l as [|x l IH]; intros j i tr; cbn [gives rev app length].
  - destruct (Nat.leb_spec j i), (Nat.ltb_spec i (j + 0)); cbn; lia.
  - rewrite <- app_assoc, IH. cbn [app moved].
    destruct (Nat.eqb_spec j i) as [->|Hj];
      repeat match goal with |- context [?a <=? ?b] => destruct (Nat.leb_spec a b) | |- context [?a <? ?b] => destruct (Nat.ltb_spec a b) end; cbn; lia.
Qed.
Lemma stores_gives l j i tr : stores i (rev (gives R S O j l) ++ tr) = stores i tr.
Proof.
  revert j tr. induction l as [|x l IH]; intros j tr; cbn [gives rev app]; auto. rewrite <- app_assoc, IH. reflexivity.
Qed.
Lemma dropped_gives l j i tr : dropped_items i (rev (gives R S O j l) ++ tr) = dropped_items i tr.
Proof.
  revert j tr. induction l as [|x l IH]; intros j tr; cbn [gives rev app]; auto. rewrite <- app_assoc, IH. reflexivity.
Qed.

Lemma c_finish_mem w w' r : MemL w -> c_finish w = (w', r) ->
  Mem w' /\ walive w' = walive w /\ forall i, dropped_items i (wtr w') = dropped_items i (wtr w).
Proof.
  intros M. pose proof M as ((B1 & B2 & B3 & RD) & P & A). unfold Combinator.c_finish.
  destruct (Nat.eqb_spec (c_pending (wc w)) 0) as [E0|E0].
  2: { intros [= <- <-]. split; [apply MemL_Mem; exact M|]. auto. }
  destruct (debug && negb (forallb (fun b => b) (c_filled (wc w)))) eqn:Ed.
  { intros [= <- <-]. split; [apply MemL_Mem; exact M|]. auto. }
  destruct A as [A|(A & KV)].
  - pose proof A as (A1 & A2 & A3 & A4 & A5).
    assert (F : c_filled (wc w) = repeat true n). { rewrite <- B3. apply count_zero. lia. }
    destruct (all_some_ok (c_items (wc w))) as (l & El & Ll & Fl).
    { intros i Hi. rewrite A1 in Hi. destruct (A3 i true) as (Q & _).
      - rewrite F. apply nth_repeat_in; auto.
      - destruct (Q eq_refl) as (s & E & _). eauto. }
    rewrite El.
    set (w2 := mkWd R S O X _ _ _ _).
    assert (M2 : Mem w2 /\ walive w2 = walive w /\ forall i, dropped_items i (wtr w2) = dropped_items i (wtr w)).
    { split; [|split; [reflexivity|intro i; cbn; apply dropped_gives]].
      split; [|split].
      - split; [exact B1|]. split; [exact B2|]. split; [cbn; rewrite repeat_length; exact B3|]. exact RD.
      - destruct P as (P1 & P2 & P3). cbn. split; [|split].
        + rewrite in_app_iff, <- in_rev. intros [H|H]; auto. apply gives_only in H as (? & ? & H). discriminate H.
        + intros i s H. rewrite !in_app_iff, <- !in_rev in *. right. destruct H as [[H|H]|[H|H]].
          * apply gives_in in H as (_ & H). rewrite Nat.sub_0_r in H. apply Fl in H.
            assert (i < n) as Hi. { rewrite <- A1. apply nth_error_Some. congruence. }
            destruct (A3 i true) as (Q & _). { rewrite F. apply nth_repeat_in; auto. }
            destruct (Q eq_refl) as (s' & E' & I'). congruence.
          * apply P2; auto.
          * apply gives_only in H as (? & ? & H). discriminate H.
          * apply P2; auto.
        + intros i s H. rewrite in_app_iff, <- in_rev in H. destruct H as [H|H].
          * apply gives_only in H as (? & ? & H). discriminate H.
          * destruct (P3 _ _ H) as (v & Hv & Em). exists v. rewrite in_app_iff. auto.
      - assert (ST : forall i, stores i (wtr w) = if i <? n then 1 else 0).
        { intro i. destruct (Nat.ltb_spec i n) as [Hi|Hi]; [|apply A4; auto].
          destruct (A3 i true) as (_ & Q); [rewrite F; apply nth_repeat_in; auto|exact Q]. }
        assert (MV : forall i, moved i (wtr w2) = if i <? n then 1 else 0).
        { intro i. cbn [w2 Combinator.wtr]. rewrite moved_gives, A5, Ll, A1. cbn. reflexivity. }
        assert (ST2 : forall i, stores i (wtr w2) = if i <? n then 1 else 0).
        { intro i. cbn [w2 Combinator.wtr]. rewrite stores_gives. apply ST. }
        destruct (Nat.eq_dec n 0) as [N0|N0].
        + left. unfold Active. split; [|split; [|split; [|split]]].
          * cbn. destruct (c_kind (wc w)); rewrite ?repeat_length; auto.
          * cbn. rewrite B3, N0. reflexivity.
          * cbn [w2 Combinator.wc Combinator.c_filled Combinator.set_c]. intros i b Hb. apply nth_repeat_some in Hb. lia.
          * intros i Hi. rewrite ST2. destruct (Nat.ltb_spec i n); auto. lia.
          * intro i. rewrite MV. destruct (Nat.ltb_spec i n); auto. lia.
        + right. unfold Taken. split; [rewrite MV; destruct (Nat.ltb_spec 0 n); lia|]. split; [reflexivity|]. split; [cbn; rewrite B3; reflexivity|].
          split; [intro KV; cbn; rewrite B2, KV; reflexivity|].
          intro i. rewrite ST2, MV. split; auto. destruct (i <? n); auto. }
    destruct (b_when_completed B l) as [o|]; intros [= <- <-]; exact M2.
  - pose proof A as (A1 & A2 & A3 & A4 & A5). rewrite (A4 KV). cbn [all_some gives rev app].
    rewrite B2, KV.
    set (w2 := mkWd R S O X _ _ _ _).
    assert (M2 : Mem w2 /\ walive w2 = walive w /\ forall i, dropped_items i (wtr w2) = dropped_items i (wtr w)).
    { split; [|split; [reflexivity|reflexivity]].
      split; [|split].
      - split; [exact B1|]. split; [cbn; auto|]. split; [cbn; rewrite repeat_length; exact B3|]. exact RD.
      - exact P.
      - right. unfold Taken. split; [auto|]. split; [reflexivity|]. split; [cbn; rewrite B3; reflexivity|].
        split; [reflexivity|]. exact A5. }
    destruct (b_when_completed B []) as [o|]; intros [= <- <-]; exact M2.
Qed.

Lemma Mem_rd w r aw p : Mem w -> RdInv r n aw p -> Mem (set_c R S O X w (set_rd S (wc w) r)).
Proof.
  intros ((B1 & B2 & B3 & _) & P & A) RD. split; [|split; [exact P|]].
  - split; [exact B1|]. split; [exact B2|]. split; [exact B3|]. exists aw, p. exact RD.
  - destruct A as [A|A]; [left|right]; [apply (Active_same (wc w))|apply (Taken_same (wc w))]; auto.
Qed.

Hypothesis WW : will_wake_ok ww.

Lemma entry_active w : Mem w -> c_entry R S O B (wc w) = None ->
  Active (wc w) (wtr w) \/ (Taken (wc w) (wtr w) /\ k = KVec).
Proof.
  intros ((B1 & B2 & B3 & _) & P & [A|A]) E; auto. right. split; auto.
  destruct A as (A1 & A2 & A3 & A4 & A5). unfold c_entry in E. rewrite B2, A2, B1 in E. destruct k; auto.
  - destruct (Nat.eqb_spec n 0); [lia|]. cbn in E. discriminate E.
  - discriminate E.
Qed.

Lemma c_poll_mem w wk : Mem w -> Mem (c_poll wk w) /\ walive (c_poll wk w) = walive w /\
  forall i, dropped_items i (wtr (c_poll wk w)) = dropped_items i (wtr w).
Proof.
  intros M0. unfold Combinator.c_poll.
  assert (M : Mem (emit (ECall wk) w)) by (apply Mem_quiet; [exact Logic.I|exact M0]).
  set (w1 := emit (ECall wk) w) in *.
  assert (D1 : forall i, dropped_items i (wtr w1) = dropped_items i (wtr w)) by reflexivity.
  assert (L1 : walive w1 = walive w) by reflexivity. clearbody w1.
  destruct (c_entry R S O B (wc w1)) as [r|] eqn:En.
  { split; [apply Mem_quiet; [exact Logic.I|exact M]|]. auto. }
  pose proof (entry_active _ M En) as AT.
  pose proof M as ((B1 & B2 & B3 & aw & p & RD) & _).
  destruct (rd_set_parent_ok ww _ _ _ _ wk RD WW) as (p' & RD1 & _).
  rewrite (rd_awake_list_ok _ _ _ _ RD1).
  destruct (rd_clear_ok _ _ _ _ RD1) as (r2 & Ec & RD2). rewrite Ec.
  set (w2 := set_c R S O X w1 (set_rd S (wc w1) r2)).
  assert (M2 : MemL w2).
  { destruct (Mem_rd w1 r2 _ _ M RD2) as (Q1 & Q2 & _). split; [exact Q1|]. split; [exact Q2|].
    destruct AT as [A|(A & KV)]; [left; apply (Active_same (wc w1)); auto|right; split; auto; apply (Taken_same (wc w1)); auto]. }
  destruct (c_loop aw w2) as [w3 [r|]] eqn:El.
  - destruct (c_loop_mem aw w2 M2) with (w' := w3) (r := Some r) as (Q1 & Q2 & Q3); auto.
    { destruct RD as (_ & Q & _). exact Q. }
    split; [apply Mem_quiet; [exact Logic.I|apply MemL_Mem; exact Q1]|]. split; [cbn; rewrite Q2; auto|].
    intro i. cbn. rewrite Q3. apply D1.
  - destruct (c_loop_mem aw w2 M2) with (w' := w3) (r := @None (pres O)) as (Q1 & Q2 & Q3); auto.
    { destruct RD as (_ & Q & _). exact Q. }
    destruct (c_finish w3) as [w4 r] eqn:Ef.
    destruct (c_finish_mem _ _ _ Q1 Ef) as (T1 & T2 & T3).
    split; [apply Mem_quiet; [exact Logic.I|exact T1]|]. split; [cbn; rewrite T2, Q2; auto|].
    intro i. cbn. rewrite T3, Q3. apply D1.
Qed.

(** *** dropping *)
Lemma drop_items_in f : forall l j i s, In (EDropItem i s) (drop_items R S O j f l) ->
  j <= i /\ nth_error f (i - j) = Some true /\ nth_error l (i - j) = Some (Some s).
Proof.
  induction f as [|b f IH]; intros [|o l] j i s; cbn [drop_items]; try (intros []; fail).
  rewrite in_app_iff. intros [H|H].
  - destruct b; [|destruct H]. destruct H as [H|[]]. destruct o as [s'|]; [|discriminate H].
    injection H as <- <-. rewrite Nat.sub_diag. cbn. auto.
  - apply IH in H as (H1 & H2 & H3). split; [lia|].
    replace (i - j) with (Datatypes.S (i - Datatypes.S j)) by lia. auto.
Qed.
Lemma drop_items_only f : forall l j e, (forall i, nth_error f i = Some true -> exists s, nth_error l i = Some (Some s)) ->
  In e (drop_items R S O j f l) -> exists i s, e = EDropItem i s.
Proof.
  induction f as [|b f IH]; intros [|o l] j e H; cbn [drop_items]; try (intros []; fail).
  rewrite in_app_iff. intros [Q|Q].
  - destruct b; [|destruct Q]. destruct Q as [<-|[]]. destruct (H 0 eq_refl) as (s & E). cbn in E. injection E as ->. eauto.
  - apply (IH l (Datatypes.S j) e); auto. intros i Hi. apply (H (Datatypes.S i)). exact Hi.
Qed.
Lemma dropped_drop_items f : forall l j i tr, length l = length f \/ f = repeat false (length f) ->
  (forall i, nth_error f i = Some true -> exists s, nth_error l i = Some (Some s)) ->
  dropped_items i (rev (drop_items R S O j f l) ++ tr) =
  dropped_items i tr + if (j <=? i) && match nth_error f (i - j) with Some true => true | _ => false end then 1 else 0.
Proof.
  induction f as [|b f IH]; intros l j i tr HL H.
  - destruct l; cbn; destruct (j <=? i), (i - j); cbn; lia.
  - destruct l as [|o l].
    + assert (F : b :: f = repeat false (length (b :: f))). { destruct HL as [HL|HL]; [discriminate HL|exact HL]. }
      cbn [drop_items rev app]. rewrite F.
      assert (match nth_error (repeat false (length (b :: f))) (i - j) with Some true => true | _ => false end = false) as ->.
      { destruct (nth_error (repeat false (length (b :: f))) (i - j)) as [[|]|] eqn:E; auto. apply nth_repeat_some in E as (E & _). discriminate E. }
      rewrite andb_false_r. lia.
    + cbn [drop_items]. rewrite rev_app_distr, <- app_assoc.
      assert (HL' : length l = length f \/ f = repeat false (length f)).
      { destruct HL as [HL|HL]; [left; cbn in HL; lia|right; cbn in HL; injection HL; auto]. }
      rewrite IH; auto; [|intros i' Hi; apply (H (Datatypes.S i')); exact Hi].
      assert (E1 : dropped_items i (rev (if b then [match o with Some s => EDropItem j s | None => EFault end] else []) ++ tr)
                   = dropped_items i tr + if (j =? i) && b then 1 else 0).
      { destruct b; cbn; [|rewrite andb_false_r; lia]. destruct (H 0 eq_refl) as (s & E). cbn in E. injection E as ->. cbn.
        destruct (j =? i); cbn; lia. }
      rewrite E1. destruct (Nat.eqb_spec j i) as [->|Hj].
      * rewrite Nat.sub_diag. cbn [nth_error]. destruct (Nat.leb_spec (Datatypes.S i) i); [lia|]. rewrite Nat.leb_refl. destruct b; cbn; lia.
      * cbn [andb]. destruct (Nat.leb_spec j i).
        -- destruct (Nat.leb_spec (Datatypes.S j) i); [|lia].
           replace (i - j) with (Datatypes.S (i - Datatypes.S j)) by lia. cbn [nth_error]. lia.
        -- destruct (Nat.leb_spec (Datatypes.S j) i); [lia|]. cbn. lia.
Qed.
Lemma stores_drop f l j i tr : (forall i, nth_error f i = Some true -> exists s, nth_error l i = Some (Some s)) ->
  stores i (rev (drop_items R S O j f l) ++ tr) = stores i tr /\ moved i (rev (drop_items R S O j f l) ++ tr) = moved i tr.
Proof.
  intro H. assert (Q : forall e, In e (rev (drop_items R S O j f l)) -> exists i s, e = EDropItem i s).
  { intros e He. apply in_rev in He. eapply drop_items_only; eauto. }
  induction (rev (drop_items R S O j f l)) as [|e evs IH]; cbn; auto.
  destruct (Q e (or_introl eq_refl)) as (i' & s' & ->). apply IH. intros; apply Q; cbn; auto.
Qed.

(** every output is accounted for *)
Definition Acc (w : world) : Prop :=
  Mem w /\ (if walive w then forall i, dropped_items i (wtr w) = 0
            else forall i, moved i (wtr w) + dropped_items i (wtr w) = stores i (wtr w)).

Lemma c_drop_acc w : Acc w -> walive w = true -> Acc (c_drop R S O X w).
Proof.
  intros (M & D) AL. rewrite AL in D. pose proof M as ((B1 & B2 & B3 & RD) & P & A).
  assert (FS : forall i, nth_error (c_filled (wc w)) i = Some true ->
     exists s, nth_error (c_items (wc w)) i = Some (Some s) /\ In (EStore i s) (wtr w)).
  { intros i Hi. destruct A as [(_ & _ & A & _)|(_ & _ & A & _)].
    - destruct (A _ _ Hi) as (Q & _). auto.
    - rewrite A in Hi. apply nth_repeat_some in Hi as (Hi & _). discriminate Hi. }
  assert (FS' : forall i, nth_error (c_filled (wc w)) i = Some true -> exists s, nth_error (c_items (wc w)) i = Some (Some s)).
  { intros i Hi. destruct (FS i Hi) as (s & E & _). eauto. }
  assert (LEN : length (c_items (wc w)) = length (c_filled (wc w)) \/ c_filled (wc w) = repeat false (length (c_filled (wc w)))).
  { destruct A as [(A & _)|(_ & _ & A & _)]; [left; lia|right; rewrite B3; exact A]. }
  pose proof (fun i => stores_drop (c_filled (wc w)) (c_items (wc w)) 0 i (wtr w) FS') as SD.
  pose proof (fun i => dropped_drop_items (c_filled (wc w)) (c_items (wc w)) 0 i (wtr w) LEN FS') as DD.
  split.
  - split; [exact (conj B1 (conj B2 (conj B3 RD)))|]. split.
    + apply (Prov_quiet [EDrop]); [repeat constructor|]. destruct P as (P1 & P2 & P3). split; [|split].
      * rewrite in_app_iff, <- in_rev. intros [H|H]; auto. apply drop_items_only in H as (? & ? & H); auto. discriminate H.
      * intros i s H. rewrite !in_app_iff, <- !in_rev in *. right. destruct H as [[H|H]|[H|H]].
        -- apply drop_items_only in H as (? & ? & H); auto. discriminate H.
        -- apply P2; auto.
        -- apply drop_items_in in H as (_ & H1 & H2). rewrite Nat.sub_0_r in *. destruct (FS _ H1) as (s' & E & I'). congruence.
        -- apply P2; auto.
      * intros i s H. rewrite in_app_iff, <- in_rev in H. destruct H as [H|H].
        -- apply drop_items_only in H as (? & ? & H); auto. discriminate H.
        -- destruct (P3 _ _ H) as (v & Hv & Em). exists v. rewrite in_app_iff. auto.
    + destruct A as [(A1 & A2 & A3 & A4 & A5)|(A1 & A2 & A3 & A4 & A5)]; [left|right].
      * unfold Active. cbn. split; [auto|]. split; [auto|]. split; [|split].
        -- intros i b Hb. destruct (SD i) as (-> & _). destruct (A3 _ _ Hb) as (Q1 & Q2). split; auto.
           intro Hb'. destruct (Q1 Hb') as (s & E & I'). exists s. split; auto. right. rewrite in_app_iff. auto.
        -- intros i Hi. destruct (SD i) as (-> & _). auto.
        -- intros i. destruct (SD i) as (_ & ->). auto.
      * unfold Taken. cbn. split; [destruct (SD 0) as (_ & ->); auto|]. split; [auto|]. split; [auto|]. split; [auto|].
        intro i. destruct (SD i) as (-> & ->). auto.
  - cbn. intro i. rewrite DD. destruct (SD i) as (-> & ->). rewrite D, Nat.sub_0_r. cbn.
    destruct A as [(A1 & A2 & A3 & A4 & A5)|(A1 & A2 & A3 & A4 & A5)].
    + rewrite A5. destruct (nth_error (c_filled (wc w)) i) as [b|] eqn:E.
      * destruct (A3 _ _ E) as (_ & ->). destruct b; auto.
      * apply nth_error_None in E. rewrite A4 by lia. auto.
    + rewrite A3. destruct (nth_error (repeat false n) i) as [b|] eqn:E.
      * apply nth_repeat_some in E as (<- & _). destruct (A5 i) as (-> & _). lia.
      * destruct (A5 i) as (-> & _). lia.
Qed.

Lemma start_acc : Acc (start R S O X k n x0).
Proof.
  split; [|intro i; reflexivity]. split; [|split].
  - split; [reflexivity|]. split; [reflexivity|]. split; [cbn; apply repeat_length|]. exists (seq 0 n), dummy_waker. apply rd_new_ok.
  - split; [intros []|]. split; [intros i s [[]|[]]|intros i s []].
  - left. split; [cbn; apply repeat_length|]. split; [cbn; symmetry; apply count_repeat|]. split; [|auto].
    cbn. intros i b H. apply nth_repeat_some in H as (<- & _). split; [discriminate|auto].
Qed.

Lemma exec_acc w e : Acc w -> Acc (exec w e).
Proof.
  intro H. pose proof H as (M & D). destruct e as [wk|i|f|]; cbn.
  - destruct (walive w) eqn:AL; auto. destruct (c_poll_mem w wk M) as (M' & A' & D').
    split; auto. rewrite A', AL. intro i. rewrite D'. auto.
  - destruct (Mem_wakes [i] w M) as (M' & A' & D'). cbn [fold_left] in *. split; auto. rewrite A'.
    pose proof M as ((B1 & B2 & B3 & aw & p & RD) & _).
    destruct (do_wake_ok w i aw p B1 RD) as (evs & aw' & E & F & _). apply wakeish_quiet in F.
    destruct (walive w); intro j; [rewrite D'; auto|]. rewrite E, moved_quiet, dropped_quiet, stores_quiet by auto. auto.
  - exact H.
  - destruct (walive w) eqn:AL; auto. apply c_drop_acc; auto.
Qed.

Lemma fold_acc evs : forall w, Acc w -> Acc (fold_left exec evs w).
Proof. induction evs as [|e evs IH]; cbn; intros w H; auto. apply IH, exec_acc, H. Qed.
Lemma run_acc evs : Acc (run evs).
Proof. apply fold_acc, start_acc. Qed.
(** the combinator is there until it is dropped *)
Lemma run_alive evs : walive (run evs) = true <-> ~ In (SDrop X) evs.
Proof.
  assert (A : forall evs w, Acc w -> (walive (fold_left exec evs w) = true <-> walive w = true /\ ~ In (SDrop X) evs)).
  { clear evs. induction evs as [|e evs IH]; intros w H; cbn [fold_left]; [cbn; tauto|].
    rewrite (IH _ (exec_acc w e H)). cbn [In]. destruct H as (M & _).
    assert (K : walive (exec w e) = true <-> walive w = true /\ e <> SDrop X).
    { destruct e as [wk|i|f|]; cbn [Combinator.exec].
      - destruct (walive w) eqn:AL; [|rewrite AL; intuition discriminate]. destruct (c_poll_mem w wk M) as (_ & A' & _). rewrite A', AL. intuition discriminate.
      - destruct (Mem_wakes [i] w M) as (_ & A' & _). cbn [fold_left] in A'. rewrite A'. intuition discriminate.
      - cbn. intuition discriminate.
      - destruct (walive w) eqn:AL; cbn; [|rewrite AL]; intuition discriminate. }
    rewrite K. intuition congruence. }
  unfold Combinator.run. rewrite (A _ _ (start_acc)). cbn. intuition.
Qed.

(** ** Schedules that respect the contract of Future *)
Definition no_break (tr : list ev) : Prop :=
  forall i v, output i tr = Some v -> i < n /\ exists s, b_maybe_return B i v = inr s.
Definition collected (tr : list ev) (l : list S) : Prop :=
  length l = n /\ (n = 0 -> b_pend_if_empty B = false) /\
  forall i, i < n -> exists v s, output i tr = Some v /\ b_maybe_return B i v = inr s /\ nth_error l i = Some s.
(** what a return value says *)
Definition ret_ok (tr : list ev) : Prop :=
  match tr with
  | ERet PPending :: t => no_break t /\ ((n = 0 /\ b_pend_if_empty B = true) \/ exists i, i < n /\ done i t = false)
  | ERet (PReady o) :: t =>
      (exists i v t', t = EDone i v :: t' /\ i < n /\ b_maybe_return B i v = inl o /\ no_break t') \/
      (no_break t /\ exists l, collected t l /\ b_when_completed B l = Some o)
  | ERet PPanic :: t =>
      (exists i t', t = EChildPanic i :: t') \/
      (no_break t /\ exists l, collected t l /\ b_when_completed B l = None)
  | _ => True
  end.
Definition P (tr : list ev) : Prop :=
  proper tr = true -> polls_due n tr /\ child_ok n tr /\ pending_ok n tr /\ ret_ok tr.

Lemma everywhere_head (Q : list ev -> Prop) tr : everywhere Q tr -> Q tr.
Proof. destruct tr; cbn; tauto. Qed.
Lemma proper_tail e (t : list ev) : proper (e :: t) = true -> proper t = true.
Proof. destruct e; cbn; auto. rewrite andb_true_iff. tauto. Qed.

(** events that change nothing but the wake-up bookkeeping *)
Definition neutral (e : ev) : Prop :=
  match e with ECall _ | EChild _ | EDone _ _ | ERet _ => False | _ => True end.
Lemma neutral_tr evs tr : Forall neutral evs ->
  polled (evs ++ tr) = polled tr /\ due n (evs ++ tr) = due n tr /\ over (evs ++ tr) = over tr /\
  proper (evs ++ tr) = proper tr /\ (forall i, output i (evs ++ tr) = output i tr) /\ last_call (evs ++ tr) = last_call tr.
Proof.
  induction 1 as [|e evs N _ (IH1 & IH2 & IH3 & IH4 & IH5 & IH6)]; [cbn; auto 10|].
  destruct e; try contradiction; cbn; auto 10.
Qed.
Lemma neutral_everywhere evs tr : Forall neutral evs -> everywhere P tr -> everywhere P (evs ++ tr).
Proof.
  induction 1 as [|e evs N F IH]; intro H; [exact H|]. specialize (IH H).
  cbn [app everywhere]. split; [|exact IH]. apply everywhere_head in IH.
  intro PR'. destruct (IH (proper_tail _ _ PR')) as (Q1 & _).
  destruct e; try contradiction; cbn; repeat split; auto; exact Q1.
Qed.
Lemma wakeish_neutral evs : Forall wakeish evs -> Forall neutral evs.
Proof. apply Forall_impl. intros []; cbn; auto. Qed.

(** events that do not concern wake-ups *)
Definition nowake (e : ev) : Prop := match e with ECall _ | EWake _ | EParent _ => False | _ => True end.
Lemma nowake_tr evs tr : Forall nowake evs ->
  woken n (evs ++ tr) = woken n tr /\ parents (evs ++ tr) = parents tr /\ last_call (evs ++ tr) = last_call tr.
Proof.
  induction 1 as [|e evs N _ (IH1 & IH2 & IH3)]; [cbn; auto|]. destruct e; try contradiction; cbn; auto.
Qed.
Lemma PR_nowake c evs tr : Forall nowake evs -> PR c tr -> PR c (evs ++ tr).
Proof. intros F (p & H). destruct (nowake_tr evs tr F) as (E1 & E2 & E3). exists p. rewrite E1, E2, E3. exact H. Qed.
Lemma PR_same c c' tr : c_rd c' = c_rd c -> PR c tr -> PR c' tr.
Proof. intros E (p & H). exists p. rewrite E. exact H. Qed.

(** the slots agree with the outputs in the trace *)
Definition AI (c : comb) (tr : list ev) : Prop :=
  (forall i, i < n -> nth_error (c_filled c) i = Some (done i tr)) /\ no_break tr /\
  (forall i v s, output i tr = Some v -> b_maybe_return B i v = inr s -> nth_error (c_items c) i = Some (Some s)).
Lemma AI_out c c' tr tr' : c_filled c' = c_filled c -> c_items c' = c_items c ->
  (forall i, output i tr' = output i tr) -> AI c tr -> AI c' tr'.
Proof.
  intros E1 E2 H (A1 & A2 & A3). split; [|split].
  - intros i Hi. unfold done. rewrite E1, H. apply A1; auto.
  - intros i v. rewrite H. apply A2.
  - intros i v s'. rewrite E2, H. apply A3.
Qed.

(** every output that is kept has been stored *)
Definition Kept (tr : list ev) : Prop :=
  forall i v s, In (EDone i v) tr -> b_maybe_return B i v = inr s -> In (EStore i s) tr.
Definition nodone (e : ev) : Prop := match e with EDone _ _ => False | _ => True end.
Lemma Kept_app evs tr : Forall nodone evs -> Kept tr -> Kept (evs ++ tr).
Proof.
  intros F H i v s I' E. apply in_app_iff in I' as [I'|I'].
  - rewrite Forall_forall in F. destruct (F _ I').
  - apply in_app_iff. right. eapply H; eauto.
Qed.
Lemma neutral_nodone evs : Forall neutral evs -> Forall nodone evs.
Proof. apply Forall_impl. intros []; cbn; auto. Qed.

Record LI (w : world) (l : list nat) : Prop := {
  li_mem : MemL w; li_act : Active (wc w) (wtr w); li_pr : PR (wc w) (wtr w); li_ai : AI (wc w) (wtr w);
  li_due : due n (wtr w) = polled (wtr w) ++ filter (fun i => negb (done i (wtr w))) l;
  li_nd : NoDup l; li_lt : forall i, In i l -> i < n; li_new : forall i, In i l -> ~ In i (polled (wtr w));
  li_over : over (wtr w) = false; li_proper : proper (wtr w) = true; li_P : everywhere P (wtr w); li_K : Kept (wtr w) }.

Lemma filter_ext_in {A} (f g : A -> bool) l : (forall a, In a l -> f a = g a) -> filter f l = filter g l.
Proof. induction l as [|a l IH]; cbn; intro H; auto. rewrite (H a), IH; auto. Qed.

Lemma MemL_active w : MemL w -> Active (wc w) (wtr w) \/ Taken (wc w) (wtr w).
Proof. intros (_ & _ & [H|(H & _)]); auto. Qed.
Lemma active_not_taken c tr : Active c tr -> Taken c tr -> False.
Proof.
  intros (A1 & A2 & _) (T1 & T2 & T3 & _). rewrite T2, T3, count_repeat in A2. lia.
Qed.

Lemma wakes_LI l wakes w : LI w l -> LI (fold_left do_wake wakes w) l /\
  c_filled (wc (fold_left do_wake wakes w)) = c_filled (wc w) /\ c_items (wc (fold_left do_wake wakes w)) = c_items (wc w) /\
  c_pending (wc (fold_left do_wake wakes w)) = c_pending (wc w) /\
  (forall i, output i (wtr (fold_left do_wake wakes w)) = output i (wtr w)) /\
  polled (wtr (fold_left do_wake wakes w)) = polled (wtr w) /\
  exists evs, wtr (fold_left do_wake wakes w) = evs ++ wtr w.
Proof.
  intros []. pose proof li_mem0 as ((B1 & B2 & B3 & aw & p & RD) & _).
  destruct (wakes_ok wakes w aw p B1 RD) as (evs & aw' & E & F & C & _ & RD').
  destruct (MemL_wakes wakes w li_mem0) as (M2 & _).
  pose proof (wakes_PR wakes w B1 li_pr0) as PR2.
  destruct (neutral_tr evs (wtr w) (wakeish_neutral _ F)) as (N1 & N2 & N3 & N4 & N5 & N6).
  destruct C as [C1 C2 C3 C4 C5 C6].
  split; [|repeat split; auto; [intro i; rewrite E; apply N5|rewrite E; exact N1|eauto]].
  constructor; auto.
  - rewrite E. apply Active_quiet; [apply wakeish_quiet; auto|]. apply (Active_same (wc w)); auto.
  - apply (AI_out (wc w) _ (wtr w)); auto. intro i. rewrite E. apply N5.
  - rewrite E, N1, N2, li_due0. f_equal. apply filter_ext_in. intros a _. unfold done. rewrite N5. reflexivity.
  - intros i Hi. rewrite E, N1. auto.
  - rewrite E, N3. auto.
  - rewrite E, N4. auto.
  - rewrite E. apply neutral_everywhere; [apply wakeish_neutral|]; auto.
  - rewrite E. apply Kept_app; [apply neutral_nodone, wakeish_neutral|]; auto.
Qed.

(** the loop *)
Definition loop_result (w : world) (r : option (pres O)) : Prop :=
  PR (wc w) (wtr w) /\ everywhere P (wtr w) /\ proper (wtr w) = true /\ Kept (wtr w) /\
  match r with
  | None => LI w []
  | Some (PReady o) => exists i v t', wtr w = EDone i v :: t' /\ i < n /\ b_maybe_return B i v = inl o /\ no_break t'
  | Some PPanic => exists i t', wtr w = EChildPanic i :: t'
  | Some PPending => False
  end.

Lemma c_loop_LI l : forall w, LI w l -> forall w' r, c_loop l w = (w', r) -> loop_result w' r.
Proof.
  induction l as [|i l IH]; intros w L w' r; cbn [Combinator.c_loop].
  - intros [= <- <-]. destruct L. split; [auto|]. split; [auto|]. split; [auto|]. split; [auto|]. constructor; auto.
  - pose proof L as [M A PR0 AI0 DUE ND LT NEW OV PP EP KP].
    pose proof AI0 as (A1 & A2 & A3).
    assert (Hi : i < n) by (apply LT; cbn; auto).
    rewrite (A1 i Hi). destruct (done i (wtr w)) eqn:Ed.
    + apply IH. constructor; auto.
      * rewrite DUE. cbn [filter]. rewrite Ed. reflexivity.
      * inversion ND; auto.
      * intros; apply LT; cbn; auto.
      * intros; apply NEW; cbn; auto.
    + destruct (child (wx (emit (EChild i) w)) i) as [[x' wakes] cr] eqn:Ec.
      set (w1 := set_x R S O X (emit (EChild i) w) x').
      assert (NI : ~ In i l) by (inversion ND; auto).
      assert (DUE1 : due n (wtr w) = (polled (wtr w) ++ [i]) ++ filter (fun j => negb (done j (wtr w))) l).
      { rewrite DUE. cbn [filter]. rewrite Ed. cbn. rewrite <- app_assoc. reflexivity. }
      assert (L1 : LI w1 l).
      { constructor.
        - apply (MemL_quiet w (EChild i)) in M; [exact M|exact Logic.I].
        - apply (Active_quiet (wc w) [EChild i]); [repeat constructor|exact A].
        - apply (PR_nowake (wc w) [EChild i]); [repeat constructor|exact PR0].
        - apply (AI_out (wc w) _ (wtr w)); auto.
        - exact DUE1.
        - inversion ND; auto.
        - intros; apply LT; cbn; auto.
        - intros j Hj. cbn. rewrite in_app_iff. intros [Q|[<-|[]]]; [|auto]. revert Q. apply NEW. cbn; auto.
        - exact OV.
        - exact PP.
        - cbn. split; [|exact EP]. intros _. split; [|split; [|split; exact Logic.I]].
          + exists (filter (fun j => negb (done j (wtr w))) l). exact DUE1.
          + cbn. split; [auto|]. split; [auto|]. split; [auto|]. split; [|apply NEW; cbn; auto].
            rewrite DUE1. rewrite !in_app_iff. cbn. auto.
        - apply (Kept_app [EChild i]); [repeat constructor|exact KP]. }
      destruct (wakes_LI l wakes w1 L1) as (L2 & F2 & I2 & _ & O2 & Q2 & _).
      set (w2 := fold_left do_wake wakes w1) in *.
      destruct cr as [|v|].
      * (* Pending *)
        intro E. apply (IH (emit (EPend i) w2)) in E; [exact E|].
        destruct L2. constructor; auto.
        -- apply MemL_quiet; [exact Logic.I|auto].
        -- apply (Active_quiet _ [EPend i]); [repeat constructor|auto].
        -- apply (neutral_everywhere [EPend i]); [repeat constructor|auto].
        -- apply (Kept_app [EPend i]); [repeat constructor|auto].
      * (* Ready *)
        assert (P3 : everywhere P (EDone i v :: wtr w2)).
        { destruct L2. cbn. split; [|auto]. intros _. apply everywhere_head in li_P0. destruct (li_P0 li_proper0) as (X1 & _).
          split; [exact X1|]. split; [exact Logic.I|]. split; exact Logic.I. }
        assert (M3 : MemL (emit (EDone i v) w2)) by (apply MemL_quiet; [exact Logic.I|apply L2]).
        assert (PR3 : PR (wc w2) (EDone i v :: wtr w2)).
        { apply (PR_nowake _ [EDone i v]); [repeat constructor|apply L2]. }
        destruct (b_maybe_return B i v) as [o|s] eqn:Em.
        -- intros [= <- <-]. split; [exact PR3|]. split; [exact P3|]. split; [cbn; apply L2|].
           split; [intros j u t [Q|Q] E'; [injection Q as <- <-; congruence|right; destruct L2; eapply li_K0; eauto]|].
           exists i, v, (wtr w2). split; [reflexivity|]. split; [auto|]. split; [auto|]. apply L2.
        -- pose proof (c_store_mem (emit (EDone i v) w2) i s v M3) as ST.
           assert (FF : nth_error (c_filled (wc w2)) i = Some false).
           { destruct L2. destruct li_ai0 as (Z1 & _). rewrite Z1 by auto. unfold done. rewrite O2. cbn. 
             unfold done in Ed. destruct (output i (wtr w)); auto; discriminate Ed. }
           specialize (ST FF ltac:(cbn; auto) Em).
           assert (ACT3 : Active (wc w2) (EDone i v :: wtr w2)).
           { apply (Active_quiet _ [EDone i v]); [repeat constructor|apply L2]. }
           destruct (c_store R S O X (emit (EDone i v) w2) i s) as [w4|] eqn:Es.
           2: { exfalso. exact (active_not_taken _ _ ACT3 ST). }
           destruct ST as (_ & M4 & AL4 & T4 & C4 & PD4 & X4). cbn in T4.
           intro E. apply (IH w4) in E; [exact E|].
           destruct L2. destruct li_ai0 as (Z1 & Z2 & Z3).
           assert (LI2 : length (c_items (wc w2)) = n) by apply li_act0.
           assert (LF2 : length (c_filled (wc w2)) = n) by apply li_mem0.
           assert (DN : forall j, j <> i -> done j (wtr w4) = done j (wtr w2)).
           { intros j Hj. rewrite T4. unfold done. cbn. destruct (Nat.eqb_spec i j); [congruence|reflexivity]. }
           constructor; auto.
           ++ destruct (MemL_active _ M4) as [Q|Q]; [exact Q|]. exfalso.
              destruct Q as (_ & _ & Q & _). rewrite C4 in Q. cbn in Q.
              assert (nth_error (repeat false n) i = Some true) as X'.
              { rewrite <- Q, lset_nth by lia. rewrite Nat.eqb_refl. reflexivity. }
              apply nth_repeat_some in X' as (X' & _). discriminate X'.
           ++ rewrite T4. apply (PR_nowake _ [EStore i s]); [repeat constructor|]. apply (PR_same (wc w2)); [rewrite C4; reflexivity|exact PR3].
           ++ rewrite C4, T4. split; [|split]; cbn [Combinator.c_filled Combinator.c_items Combinator.wc Combinator.emit].
              ** intros j Hj. rewrite lset_nth by lia. unfold done. cbn. rewrite (Nat.eqb_sym i j).
                 destruct (Nat.eqb_spec j i) as [->|Hne]; [reflexivity|]. apply Z1; auto.
              ** intros j u. cbn. destruct (Nat.eqb_spec i j) as [->|Hne]; [|apply Z2].
                 intros [= <-]. split; eauto.
              ** intros j u t. cbn. rewrite lset_nth by lia. rewrite (Nat.eqb_sym i j).
                 destruct (Nat.eqb_spec j i) as [->|Hne]; [|apply Z3].
                 intros [= <-] E'. congruence.
           ++ rewrite T4. cbn [due polled]. rewrite li_due0. f_equal. apply filter_ext_in. intros j Hj.
              rewrite <- T4, DN; auto. intros ->. auto.
           ++ rewrite T4. exact li_new0.
           ++ rewrite T4. exact li_over0.
           ++ rewrite T4. exact li_proper0.
           ++ rewrite T4. apply (neutral_everywhere [EStore i s]); [repeat constructor|exact P3].
           ++ rewrite T4. intros j u t [Q|[Q|Q]] E'; [discriminate Q|injection Q as <- <-; left; congruence|right; right; eapply li_K0; eauto].
      * (* the child panics *)
        intros [= <- <-]. destruct L2. split; [apply (PR_nowake _ [EChildPanic i]); [repeat constructor|auto]|].
        split; [apply (neutral_everywhere [EChildPanic i]); [repeat constructor|auto]|]. split; [exact li_proper0|].
        split; [apply (Kept_app [EChildPanic i]); [repeat constructor|auto]|].
        exists i, (wtr w2). reflexivity.
Qed.

Lemma gives_neutral l j : Forall neutral (rev (gives R S O j l)).
Proof. apply Forall_forall. intros e H. apply in_rev in H. apply gives_only in H as (i & s & ->). exact Logic.I. Qed.
Lemma gives_nowake l j : Forall nowake (rev (gives R S O j l)).
Proof. apply Forall_forall. intros e H. apply in_rev in H. apply gives_only in H as (i & s & ->). exact Logic.I. Qed.

Definition P_ret r t := proper t = true -> polls_due n t -> pending_ok n (ERet r :: t) /\ ret_ok (ERet r :: t).
Lemma everywhere_ret r t : everywhere P t -> P_ret r t -> everywhere P (ERet r :: t).
Proof.
  intros H HR. cbn. split; [|exact H]. intro PP. cbn in PP. apply everywhere_head in H. destruct (H PP) as (Q & _).
  destruct (HR PP Q) as (X1 & X2). split; [exact Q|]. split; [exact Logic.I|]. auto.
Qed.

Lemma c_finish_LI w w' r : LI w [] -> (n = 0 -> b_pend_if_empty B = false) -> c_finish w = (w', r) ->
  PR (wc w') (wtr w') /\ everywhere P (ERet r :: wtr w') /\ proper (wtr w') = true /\ Kept (wtr w') /\
  (r = PPending -> wc w' = wc w /\ wtr w' = wtr w /\ c_pending (wc w) > 0).
Proof.
  intros L NP. pose proof L as [M A PR0 AI0 DUE ND LT NEW OV PP EP KP].
  pose proof M as ((B1 & B2 & B3 & RD) & _). pose proof A as (Q1 & Q2 & Q3 & Q4 & Q5). pose proof AI0 as (A1 & A2 & A3).
  unfold Combinator.c_finish. destruct (Nat.eqb_spec (c_pending (wc w)) 0) as [E0|E0].
  - assert (F : c_filled (wc w) = repeat true n). { rewrite <- B3. apply count_zero. lia. }
    rewrite F, forallb_repeat_true. cbn [negb]. rewrite andb_false_r.
    assert (DN : forall i, i < n -> done i (wtr w) = true).
    { intros i Hi. specialize (A1 i Hi). rewrite F, nth_repeat_in in A1 by auto. congruence. }
    destruct (all_some_ok (c_items (wc w))) as (l & El & Ll & Fl).
    { intros i Hi. rewrite Q1 in Hi. destruct (Q3 i true) as (Q & _).
      - rewrite F. apply nth_repeat_in; auto.
      - destruct (Q eq_refl) as (s & E & _). eauto. }
    rewrite El.
    set (t := rev (gives R S O 0 l) ++ wtr w).
    destruct (neutral_tr _ (wtr w) (gives_neutral l 0)) as (N1 & N2 & N3 & N4 & N5 & N6). fold t in N1, N2, N3, N4, N5, N6.
    assert (PR2 : PR (wc w) t) by (apply PR_nowake; [apply gives_nowake|exact PR0]).
    assert (EP2 : everywhere P t) by (apply neutral_everywhere; [apply gives_neutral|exact EP]).
    assert (NB : no_break t) by (intros i v; rewrite N5; apply A2).
    assert (COL : collected t l).
    { split; [lia|]. split; [exact NP|]. intros i Hi. specialize (DN i Hi). unfold done in DN. rewrite N5.
      destruct (output i (wtr w)) as [v|] eqn:Eo; [|discriminate DN].
      destruct (A2 _ _ Eo) as (_ & s & Es). exists v, s. split; [auto|]. split; [auto|]. apply Fl. eapply A3; eauto. }
    destruct (b_when_completed B l) as [o|] eqn:Ew; intros [= <- <-]; cbn [Combinator.wc Combinator.wtr Combinator.set_c];
      fold t; (split; [apply (PR_same (wc w)); [reflexivity|exact PR2]|]); (split; [|split; [rewrite N4; exact PP|split; [apply Kept_app; [apply neutral_nodone, gives_neutral|exact KP]|intro Z; discriminate Z]]]);
      apply everywhere_ret; auto; intros _ _; (split; [exact Logic.I|]); cbn; right; eauto.
  - intros [= <- <-]. split; [auto|]. split; [|split; [auto|split; [auto|intros _; repeat split; lia]]].
    apply everywhere_ret; auto. intros _ _. split.
    + cbn. rewrite DUE. cbn. rewrite app_nil_r. reflexivity.
    + cbn. split; [exact A2|]. right.
      assert (exists i, nth_error (c_filled (wc w)) i = Some false) as (i & Ei).
      { rewrite Q2 in E0. clear - E0. induction (c_filled (wc w)) as [|b f IH]; cbn in E0; [congruence|].
        destruct b; [|exists 0; reflexivity]. destruct IH as (i & E); [exact E0|]. exists (Datatypes.S i). exact E. }
      assert (i < n) as Hi. { rewrite <- B3. apply nth_error_Some. congruence. }
      exists i. split; auto. specialize (A1 i Hi). congruence.
Qed.

Hypothesis KT : k = KTuple -> n > 0.

Definition RI (w : world) : Prop :=
  Acc w /\ everywhere P (wtr w) /\
  (proper (wtr w) = true -> PR (wc w) (wtr w) /\ Kept (wtr w) /\
    (over (wtr w) = false -> walive w = true -> AI (wc w) (wtr w) /\ (n > 0 -> c_pending (wc w) > 0))).

(** a trace only grows, and only by events other than calls and returns *)
Definition nocall (e : ev) : Prop := match e with ECall _ | ERet _ => False | _ => True end.
Definition ext (t t' : list ev) : Prop := exists evs, Forall nocall evs /\ t' = evs ++ t.
Lemma ext_refl t : ext t t. Proof. exists []. split; [constructor|reflexivity]. Qed.
Lemma ext_cons t t' e : nocall e -> ext t t' -> ext t (e :: t').
Proof. intros N (evs & F & ->). exists (e :: evs). split; [constructor; auto|reflexivity]. Qed.
Lemma ext_trans t t' t'' : ext t t' -> ext t' t'' -> ext t t''.
Proof. intros (e & F & ->) (e' & F' & ->). exists (e' ++ e). split; [apply Forall_app; auto|]. now rewrite app_assoc. Qed.
Lemma ext_one t e : nocall e -> ext t (e :: t). Proof. intro N. apply ext_cons; [exact N|apply ext_refl]. Qed.

Lemma ext_wake w i : ext (wtr w) (wtr (do_wake w i)).
Proof.
  unfold Combinator.do_wake. destruct (i <? c_n (wc w)); [|apply ext_refl].
  destruct (rd_wake _ i) as [[r [p|]]|]; cbn; repeat (apply ext_cons; [exact Logic.I|]); apply ext_refl.
Qed.
Lemma ext_wakes l : forall w, ext (wtr w) (wtr (fold_left do_wake l w)).
Proof.
  induction l as [|i l IH]; intro w; cbn [fold_left]; [apply ext_refl|].
  eapply ext_trans; [apply ext_wake|apply IH].
Qed.
Lemma ext_loop l : forall w w' r, c_loop l w = (w', r) -> ext (wtr w) (wtr w').
Proof.
  induction l as [|i l IH]; intros w w' r; cbn [Combinator.c_loop].
  - intros [= <- _]. apply ext_refl.
  - destruct (nth_error (c_filled (wc w)) i) as [[|]|].
    + apply IH.
    + destruct (child (wx (emit (EChild i) w)) i) as [[x' wakes] cr].
      pose proof (ext_wakes wakes (set_x R S O X (emit (EChild i) w) x')) as E1.
      set (w2 := fold_left do_wake wakes _) in *. cbn in E1.
      assert (E2 : ext (wtr w) (wtr w2)). { eapply ext_trans; [|exact E1]. apply ext_one. exact Logic.I. }
      destruct cr as [|v|].
      * intro E. eapply ext_trans; [|apply (IH _ _ _ E)]. apply ext_cons; [exact Logic.I|exact E2].
      * assert (E3 : ext (wtr w) (EDone i v :: wtr w2)) by (apply ext_cons; [exact Logic.I|exact E2]).
        destruct (b_maybe_return B i v) as [o|s].
        -- intros [= <- _]. exact E3.
        -- unfold c_store. destruct (nth_error (c_items (wc (emit (EDone i v) w2))) i).
           ++ destruct (c_pending (wc (emit (EDone i v) w2)));
                intro E; (eapply ext_trans; [|apply (IH _ _ _ E)]); (apply ext_cons; [exact Logic.I|exact E3]).
           ++ intros [= <- _]. exact E3.
      * intros [= <- _]. apply ext_cons; [exact Logic.I|exact E2].
    + intros [= <- _]. apply ext_one. exact Logic.I.
Qed.
Lemma ext_finish w w' r : c_finish w = (w', r) -> ext (wtr w) (wtr w').
Proof.
  unfold Combinator.c_finish. destruct (c_pending (wc w) =? 0); [|intros [= <- _]; apply ext_refl].
  destruct (debug && _); [intros [= <- _]; apply ext_refl|].
  destruct (all_some _) as [l|]; [|intros [= <- _]; apply ext_one; exact Logic.I].
  assert (G : ext (wtr w) (rev (gives R S O 0 l) ++ wtr w)).
  { exists (rev (gives R S O 0 l)). split; [|reflexivity]. apply Forall_forall. intros e H. apply in_rev in H.
    apply gives_only in H as (i & s & ->). exact Logic.I. }
  destruct (b_when_completed B l); intros [= <- _]; exact G.
Qed.
Lemma entry_not_ready c o : c_entry R S O B c <> Some (PReady o).
Proof.
  unfold c_entry. destruct (c_kind c).
  - destruct ((c_n c =? 0) && b_pend_if_empty B); [discriminate|]. destruct ((c_n c =? 0) || (0 <? c_pending c)); discriminate.
  - destruct (0 <? c_pending c); discriminate.
  - destruct (c_pending c =? 0); [|discriminate]. destruct (c_items c); [|discriminate]. destruct (b_pend_if_empty B); discriminate.
Qed.
Lemma ext_poll w wk : exists r t, ext (ECall wk :: wtr w) t /\
  (wtr (c_poll wk w) = ERet r :: t \/ wtr (c_poll wk w) = t) /\
  forall o, wtr (c_poll wk w) = ERet (PReady o) :: t ->
    (exists i v, b_maybe_return B i v = inl o) \/ c_entry R S O B (wc w) = None /\
     exists w', (exists l w0, c_loop l w0 = (w', None) /\
         w0 = set_c R S O X (emit (ECall wk) w) (set_rd S (wc w) (c_rd (wc w0)))
         /\ rd_clear (rd_set_parent ww (c_rd (wc w)) wk) = Some (c_rd (wc w0)) /\ l = rd_awake_list (rd_set_parent ww (c_rd (wc w)) wk))
       /\ exists w'', c_finish w' = (w'', PReady o) /\ t = wtr w''.
Proof.
  unfold Combinator.c_poll. destruct (c_entry R S O B _) as [r|] eqn:En.
  { exists r, (ECall wk :: wtr w). split; [apply ext_refl|]. split; [left; reflexivity|].
    intros o E. cbn in E. injection E as ->. exfalso. revert En. apply entry_not_ready. }
  destruct (rd_clear _) as [r2|] eqn:Ec.
  2: { exists PPanic, (EFault :: ECall wk :: wtr w). split; [apply ext_one; exact Logic.I|]. split; [right; reflexivity|].
       intros o E. discriminate E. }
  destruct (c_loop _ _) as [w3 [r|]] eqn:E.
  - pose proof (ext_loop _ _ _ _ E) as X1. cbn in X1. exists r, (wtr w3). split; [exact X1|]. split; [left; reflexivity|].
    intros o E'. left. cbn in E'. injection E' as ->. revert E. generalize (set_c R S O X (emit (ECall wk) w) (set_rd S (wc (emit (ECall wk) w)) r2)).
    generalize (rd_awake_list (rd_set_parent ww (c_rd (wc (emit (ECall wk) w))) wk)). clear.
    induction l as [|i l IH]; intros w1; cbn [Combinator.c_loop]; [intro E; discriminate E|].
    destruct (nth_error (c_filled (wc w1)) i) as [[|]|]; [apply IH| |intro E; discriminate E].
    destruct (child _ i) as [[x' wakes] cr]. destruct cr as [|v|]; [apply IH| |intro E; discriminate E].
    destruct (b_maybe_return B i v) as [o'|s] eqn:Em; [intros [= _ ->]; eauto|].
    destruct (c_store _ _ _ _ _ _ _); [apply IH|intro E; discriminate E].
  - pose proof (ext_loop _ _ _ _ E) as X1. cbn in X1. destruct (c_finish w3) as [w4 r] eqn:Ef.
    exists r, (wtr w4). split; [eapply ext_trans; [exact X1|eapply ext_finish; exact Ef]|]. split; [left; reflexivity|].
    intros o E'. right. cbn in E'. injection E' as ->. split; [reflexivity|]. exists w3. split; [|eauto].
    exists (rd_awake_list (rd_set_parent ww (c_rd (wc w)) wk)), (set_c R S O X (emit (ECall wk) w) (set_rd S (wc (emit (ECall wk) w)) r2)).
    split; [exact E|]. split; [reflexivity|]. split; [reflexivity|reflexivity].
Qed.
Lemma nocall_due evs t : Forall nocall evs -> due n (evs ++ t) = due n t.
Proof. induction 1 as [|e evs N _ IH]; [reflexivity|]. destruct e; try contradiction; exact IH. Qed.

Lemma proper_app evs (t : list ev) : proper (evs ++ t) = true -> proper t = true.
Proof. induction evs; cbn [app]; auto. intro H. apply proper_tail in H. auto. Qed.

Lemma improper_everywhere evs t : proper t = false -> everywhere P t -> everywhere P (evs ++ t).
Proof.
  intros H0 H. induction evs as [|e evs IH]; [exact H|]. cbn [app everywhere]. split; [|exact IH].
  intro PP. exfalso. apply (proper_app (e :: evs)) in PP. congruence.
Qed.

Lemma woken_zero c tr : n = 0 -> PR c tr -> woken n tr = [].
Proof. intros N0 (p & (_ & H & _) & _). destruct (woken n tr) as [|a l]; auto. specialize (H a ltac:(cbn; auto)). lia. Qed.

Lemma c_poll_RI w wk : RI w -> walive w = true -> RI (c_poll wk w).
Proof.
  intros (ACC & EP & RR) AL. 
  assert (ACC' : Acc (c_poll wk w)).
  { pose proof (exec_acc w (SPoll X wk) ACC) as Q. cbn in Q. rewrite AL in Q. exact Q. }
  destruct (proper (ECall wk :: wtr w)) eqn:PP.
  2: { destruct (ext_poll w wk) as (r & t & (evs0 & _ & ->) & E & _). split; [exact ACC'|].
       assert (exists evs, wtr (c_poll wk w) = evs ++ ECall wk :: wtr w) as (evs & E').
       { destruct E as [E|E]; rewrite E; [exists (ERet r :: evs0)|exists evs0]; reflexivity. }
       rewrite E'. split.
       - apply improper_everywhere; [exact PP|]. cbn. split; [|exact EP]. intro Q. cbn in PP. cbn in Q. congruence.
       - intro Q. apply proper_app in Q. congruence. }
  pose proof PP as PP'. cbn in PP'. apply andb_true_iff in PP' as (OV & PP'). apply negb_true_iff in OV.
  destruct (RR PP') as (PR0 & KP & RR'). destruct (RR' OV AL) as (AI0 & PD). clear RR RR'.
  assert (ALIVE' : walive (c_poll wk w) = true). { destruct (c_poll_mem w wk (proj1 ACC)) as (_ & -> & _). exact AL. }
  assert (ACT : Active (wc w) (wtr w)).
  { destruct (proj1 ACC) as (_ & _ & [Q|Q]); [exact Q|]. destruct Q as ((Q1 & _) & Q2 & _). specialize (PD Q1). lia. }
  pose proof (proj1 ACC) as ((B1 & B2 & B3 & RD0) & PROV & _).
  set (w1 := emit (ECall wk) w).
  assert (EP1 : everywhere P (ECall wk :: wtr w)).
  { cbn [everywhere]. split; [|exact EP]. intros _. split; [|repeat split; exact Logic.I]. eexists. reflexivity. }
  assert (SPLIT : RI (c_poll wk w) \/ (exists r, c_entry R S O B (wc w1) = Some r) \/ c_entry R S O B (wc w1) = None).
  { right. destruct (c_entry R S O B (wc w1)); eauto. }
  destruct SPLIT as [Q|[(r & En)|En]]; [exact Q| |].
  - (* returns at once *)
    split; [exact ACC'|]. unfold Combinator.c_poll. fold w1. rewrite En.
    assert (n = 0 /\ b_pend_if_empty B = true /\ r = PPending) as (N0 & PI & ->).
    { unfold c_entry in En. cbn [w1 Combinator.emit Combinator.wc] in En. rewrite B1, B2 in En.
      destruct k.
      - destruct (Nat.eqb_spec n 0) as [N0|N0]; cbn [andb orb] in En.
        + destruct (b_pend_if_empty B); [injection En as <-; auto|discriminate En].
        + destruct (Nat.ltb_spec 0 (c_pending (wc w))); [discriminate En|]. lia.
      - destruct (Nat.ltb_spec 0 (c_pending (wc w))); [discriminate En|]. specialize (KT eq_refl). lia.
      - destruct (Nat.eqb_spec (c_pending (wc w)) 0) as [E0|E0]; [|discriminate En].
        assert (n = 0) by lia. destruct ACT as (Q1 & _). rewrite H in Q1. destruct (c_items (wc w)); [|discriminate Q1].
        destruct (b_pend_if_empty B); [injection En as <-; auto|discriminate En]. }
    cbn [Combinator.emit Combinator.wtr Combinator.wc w1]. split.
    + apply everywhere_ret; [exact EP1|]. intros _ _. split.
      * cbn. rewrite (woken_zero _ _ N0 PR0). reflexivity.
      * cbn. split; [|auto]. intros i v. cbn. apply AI0.
    + intros _. split.
      * apply (PR_nowake _ [ERet PPending]); [repeat constructor|].
        pose proof (woken_zero _ _ N0 PR0) as WZ. destruct PR0 as (p & RD & _). rewrite WZ in RD. exists p.
        split; [exact RD|]. cbn. split; [lia|reflexivity].
      * split; [apply (Kept_app [ERet PPending; ECall wk]); [repeat constructor|exact KP]|].
        intros _ _. split; [exact AI0|lia].
  - (* runs the loop *)
    destruct PR0 as (p & RD & _).
    destruct (rd_set_parent_ok ww _ _ _ _ wk RD WW) as (p' & RD1 & ST).
    destruct (rd_clear_ok _ _ _ _ RD1) as (r2 & Ec & RD2).
    set (w2 := set_c R S O X w1 (set_rd S (wc w1) r2)).
    assert (PE : c_poll wk w = match c_loop (woken n (wtr w)) w2 with
                | (w', Some r) => emit (ERet r) w'
                | (w', None) => let '(w'', r) := c_finish w' in emit (ERet r) w'' end).
    { unfold Combinator.c_poll. fold w1. rewrite En. change (c_rd (wc w1)) with (c_rd (wc w)).
      rewrite (rd_awake_list_ok _ _ _ _ RD1), Ec. reflexivity. }
    assert (L2 : LI w2 (woken n (wtr w))).
    { constructor.
      - assert (M1 : Mem w1) by (apply Mem_quiet; [exact Logic.I|apply ACC]).
        destruct (Mem_rd w1 r2 _ _ M1 RD2) as (Q1 & Q2 & _). split; [exact Q1|]. split; [exact Q2|].
        left. apply (Active_quiet _ [ECall wk]); [repeat constructor|]. apply (Active_same (wc w)); auto.
      - apply (Active_quiet _ [ECall wk]); [repeat constructor|]. apply (Active_same (wc w)); auto.
      - exists p'. split; [exact RD2|]. cbn. split; [auto|reflexivity].
      - apply (AI_out (wc w) _ (wtr w)); auto.
      - reflexivity.
      - apply RD.
      - apply RD.
      - intros i _ [].
      - exact OV.
      - exact PP.
      - exact EP1.
      - apply (Kept_app [ECall wk]); [repeat constructor|exact KP]. }
    assert (NP : n = 0 -> b_pend_if_empty B = false).
    { intro N0. unfold c_entry in En. cbn [w1 Combinator.emit Combinator.wc] in En. rewrite B1, B2, N0 in En.
      destruct ACT as (Q1 & Q2 & _). rewrite N0 in B3, Q1. destruct (c_filled (wc w)); [|discriminate B3].
      destruct (c_items (wc w)); [|discriminate Q1]. cbn in Q2. rewrite Q2 in En. 
      destruct k; cbn in En; destruct (b_pend_if_empty B); auto; discriminate En. }
    rewrite PE in *. destruct (c_loop (woken n (wtr w)) w2) as [w3 [r|]] eqn:El.
    + apply c_loop_LI in El; [|exact L2]. destruct El as (PR3 & EP3 & PP3 & KP3 & RES).
      split; [exact ACC'|]. cbn [Combinator.emit Combinator.wtr Combinator.wc]. split.
      * apply everywhere_ret; [exact EP3|]. intros _ _. destruct r as [|o|]; [destruct RES| |].
        -- split; [exact Logic.I|]. cbn. left. exact RES.
        -- split; [exact Logic.I|]. cbn. left. exact RES.
      * intros _. split; [apply (PR_nowake _ [ERet r]); [repeat constructor|exact PR3]|].
        split; [apply (Kept_app [ERet r]); [repeat constructor|exact KP3]|].
        destruct r as [|o|]; [destruct RES| |]; cbn; intro Q; discriminate Q.
    + apply c_loop_LI in El; [|exact L2]. destruct El as (_ & _ & _ & _ & L3).
      destruct (c_finish w3) as [w4 r] eqn:Ef.
      destruct (c_finish_LI _ _ _ L3 NP Ef) as (PR4 & EP4 & PP4 & KP4 & RES).
      split; [exact ACC'|]. cbn [Combinator.emit Combinator.wtr Combinator.wc]. split; [exact EP4|].
      intros _. split; [apply (PR_nowake _ [ERet r]); [repeat constructor|exact PR4]|].
      split; [apply (Kept_app [ERet r]); [repeat constructor|exact KP4]|].
      destruct r as [|o|]; cbn; intro Q; try discriminate Q.
      destruct (RES eq_refl) as (-> & -> & PD4). intros _. split; [|lia].
      apply (AI_out (wc w3) _ (wtr w3)); auto. apply L3.
Qed.

Lemma start_RI : RI (start R S O X k n x0).
Proof.
  split; [apply start_acc|]. split.
  - cbn. intros _. split; [exists []; reflexivity|]. split; [exact Logic.I|]. split; exact Logic.I.
  - intros _. split.
    + exists dummy_waker. split; [apply rd_new_ok|exact Logic.I].
    + split; [intros i v s []|]. intros _ _. split; [|cbn; auto]. split; [|split].
      * intros i Hi. cbn. apply nth_repeat_in. auto.
      * intros i v Q. discriminate Q.
      * intros i v s Q. discriminate Q.
Qed.

Lemma exec_RI w e : RI w -> RI (exec w e).
Proof.
  intro H. pose proof (exec_acc w e (proj1 H)) as ACC'. destruct e as [wk|i|f|]; cbn in *.
  - destruct (walive w) eqn:AL; [apply c_poll_RI; auto|exact H].
  - destruct H as (ACC & EP & RR). split; [exact ACC'|].
    pose proof (proj1 ACC) as ((B1 & B2 & B3 & aw & p & RD) & _).
    destruct (do_wake_ok w i aw p B1 RD) as (evs & aw' & E & F & C & _).
    destruct (neutral_tr evs (wtr w) (wakeish_neutral _ F)) as (N1 & N2 & N3 & N4 & N5 & N6). destruct C as [C1 C2 C3 C4 C5 C6].
    rewrite E. split; [apply neutral_everywhere; [apply wakeish_neutral|]; auto|].
    rewrite N4, N3, C6. intro PP. destruct (RR PP) as (Q1 & KP & Q2). split; [|split].
    + rewrite <- E. apply do_wake_PR; auto.
    + apply Kept_app; [apply neutral_nodone, wakeish_neutral|]; auto.
    + intros OV AL. destruct (Q2 OV AL) as (Q3 & Q4). rewrite C3. split; [|exact Q4].
      apply (AI_out (wc w) _ (wtr w)); auto.
  - destruct H as (ACC & EP & RR). split; [exact ACC'|]. split; [exact EP|exact RR].
  - destruct (walive w) eqn:AL; [|exact H]. destruct H as (ACC & EP & RR). split; [exact ACC'|].
    pose proof (proj1 ACC) as ((B1 & B2 & B3 & RD) & _ & A).
    assert (FS' : forall i, nth_error (c_filled (wc w)) i = Some true -> exists s, nth_error (c_items (wc w)) i = Some (Some s)).
    { intros i Hi. destruct A as [(_ & _ & A & _)|(_ & _ & A & _)].
      - destruct (A _ _ Hi) as (Q & _). destruct (Q eq_refl) as (s & E & _). eauto.
      - rewrite A in Hi. apply nth_repeat_some in Hi as (Hi & _). discriminate Hi. }
    set (d := rev (drop_items R S O 0 (c_filled (wc w)) (c_items (wc w)))).
    assert (ND : Forall neutral (EDrop :: d)).
    { constructor; [exact Logic.I|]. apply Forall_forall. intros e He. apply in_rev in He. apply drop_items_only in He as (? & ? & ->); auto. exact Logic.I. }
    assert (NW : Forall nowake (EDrop :: d)).
    { constructor; [exact Logic.I|]. apply Forall_forall. intros e He. apply in_rev in He. apply drop_items_only in He as (? & ? & ->); auto. exact Logic.I. }
    unfold c_drop. cbn [Combinator.wtr Combinator.wc Combinator.walive]. fold d.
    change (EDrop :: d ++ wtr w) with ((EDrop :: d) ++ wtr w).
    destruct (neutral_tr _ (wtr w) ND) as (N1 & N2 & N3 & N4 & N5 & N6).
    split; [apply neutral_everywhere; auto|]. rewrite N4. intro PP. destruct (RR PP) as (Q1 & KP & Q2). split; [|split].
    + apply PR_nowake; auto.
    + apply Kept_app; [apply neutral_nodone|]; auto.
    + intros _ Q. discriminate Q.
Qed.
Lemma run_RI evs : RI (run evs).
Proof.
  unfold Combinator.run. assert (G : forall w, RI w -> RI (fold_left exec evs w)).
  { induction evs as [|e l IH]; intros w H; cbn [fold_left]; auto. apply IH, exec_RI, H. }
  apply G, start_RI.
Qed.

Lemma run_snoc evs e : run (evs ++ [e]) = exec (run evs) e.
Proof. unfold Combinator.run. rewrite fold_left_app. reflexivity. Qed.

(** the children a poll that returns Pending has polled *)
Lemma polled_pending evs wk t : walive (run evs) = true -> wtr (run (evs ++ [SPoll X wk])) = ERet PPending :: t ->
  proper t = true ->
  polled t = filter (fun i => negb (done i (wtr (run evs)))) (woken n (wtr (run evs))) /\ NoDup (polled t).
Proof.
  intros AL E PP. destruct (run_RI (evs ++ [SPoll X wk])) as (_ & EP & _). rewrite E in EP.
  apply everywhere_head in EP. destruct (EP PP) as (_ & _ & Q & _). cbn in Q.
  rewrite run_snoc in E. cbn in E. rewrite AL in E.
  destruct (ext_poll (run evs) wk) as (r & t0 & (e & F & ->) & E' & _). rewrite E in E'.
  assert (E2 : t = e ++ ECall wk :: wtr (run evs)).
  { destruct E' as [E'|E']; [injection E' as _ ->; reflexivity|]. exfalso. destruct e as [|a e]; [discriminate E'|].
    injection E' as <- _. inversion F. contradiction. }
  assert (D : due n t = due n (ECall wk :: wtr (run evs))) by (rewrite E2; apply nocall_due; auto).
  cbn in D. rewrite Q, D. split; [reflexivity|]. apply NoDup_filter.
  destruct (run_RI evs) as (_ & _ & RR). destruct RR as ((p & RD & _) & _); [|apply RD].
  assert (PP' : proper (e ++ ECall wk :: wtr (run evs)) = true) by (rewrite <- E2; exact PP).
  apply proper_app in PP'. apply proper_tail in PP'. exact PP'.
Qed.
Lemma run_parent evs : proper (wtr (run evs)) = true -> parent_woken n (wtr (run evs)).
Proof.
  intros PP w0 LC. destruct (run_RI evs) as (_ & _ & RR). destruct (RR PP) as ((p & RD & Q) & _).
  rewrite LC in Q. destruct Q as (Q1 & Q2). split; intro H.
  - rewrite H in Q2. exact Q2.
  - exists p. destruct (woken n (wtr (run evs))) as [|a l] eqn:W; [congruence|]. split; [exact Q2|].
    apply Q1. destruct RD as (_ & RD & _). specialize (RD a ltac:(cbn; auto)). lia.
Qed.
Lemma everywhere_impl (Q Q' : list ev -> Prop) tr : proper tr = true ->
  (forall t, proper t = true -> Q t -> Q' t) -> everywhere Q tr -> everywhere Q' tr.
Proof.
  intros PP H. induction tr as [|e tr IH]; cbn; [apply H; reflexivity|]. intros (H1 & H2).
  split; [apply H; auto|]. apply IH; auto. exact (proper_tail _ _ PP).
Qed.

Lemma run_kept evs : proper (wtr (run evs)) = true -> Kept (wtr (run evs)).
Proof. intro PP. destruct (run_RI evs) as (_ & _ & RR). apply RR. exact PP. Qed.

(** polling an array or tuple combinator whose outputs are gone *)
Lemma taken_panics w wk : Mem w -> (exists i, moved i (wtr w) > 0) -> k <> KVec ->
  wtr (c_poll wk w) = ERet PPanic :: ECall wk :: wtr w.
Proof.
  intros ((B1 & B2 & B3 & RD) & PV & A) (i & Hi) NK. unfold Combinator.c_poll.
  assert (T : Taken (wc w) (wtr w)).
  { destruct A as [A|A]; [|exact A]. destruct A as (_ & _ & _ & _ & A). rewrite A in Hi. lia. }
  destruct T as (T1 & T2 & _). unfold c_entry. cbn [Combinator.emit Combinator.wc]. rewrite B2, T2, B1.
  destruct k; [|reflexivity|congruence]. destruct (Nat.eqb_spec n 0); [lia|]. reflexivity.
Qed.
(** a combinator that never returns early has moved all outputs when it returns *)
Lemma stores_in i s (tr : list ev) : In (EStore i s) tr -> stores i tr > 0.
Proof.
  induction tr as [|e tr IH]; [intros []|]. intros [->|H]; cbn; [rewrite Nat.eqb_refl; lia|].
  specialize (IH H). destruct e; lia.
Qed.

Lemma moved_app i (evs t : list ev) : moved i t <= moved i (evs ++ t).
Proof. induction evs as [|e evs IH]; [auto|]. cbn [app moved]. destruct e; lia. Qed.

Definition JI (o : O) (w : world) : Prop :=
  Acc w /\ (In (ERet (PReady o)) (wtr w) -> n > 0 -> exists i, moved i (wtr w) > 0).
Lemma JI_ext o w w' : JI o w -> Acc w' -> ext (wtr w) (wtr w') -> JI o w'.
Proof.
  intros (_ & H) A (evs & F & E). split; [exact A|]. rewrite E. intros H' N0. apply in_app_iff in H' as [H'|H'].
  - rewrite Forall_forall in F. destruct (F _ H').
  - destruct (H H' N0) as (i & Hi). exists i. pose proof (moved_app i evs (wtr w)). lia.
Qed.
Lemma finish_moved w w' o : MemL w -> c_finish w = (w', PReady o) -> n > 0 -> exists i, moved i (wtr w') > 0.
Proof.
  intros M E N0. destruct (c_finish_mem _ _ _ M E) as (((B1 & B2 & B3 & _) & _ & [A|A]) & _).
  - exfalso. pose proof M as ((Z1 & Z2 & Z3 & _) & _). unfold Combinator.c_finish in E. destruct A as (_ & A & _).
    destruct (Nat.eqb_spec (c_pending (wc w)) 0); [|discriminate E].
    destruct (debug && _); [discriminate E|]. destruct (all_some _); [|discriminate E].
    destruct (b_when_completed B _); [|discriminate E]. injection E as <- _. cbn in A. rewrite count_repeat in A. lia.
  - exists 0. destruct A as ((_ & A) & _). exact A.
Qed.
Lemma exec_JI o w e : (forall i v, b_maybe_return B i v <> inl o) -> JI o w -> JI o (exec w e).
Proof.
  intros NB H. pose proof (exec_acc w e (proj1 H)) as ACC'. destruct e as [wk|i|f|]; cbn in *.
  - destruct (walive w) eqn:AL; [|exact H]. split; [exact ACC'|]. intros I' N0.
    destruct (ext_poll w wk) as (r & t & (evs & F & ET) & E & ER).
    assert (HT : In (ERet (PReady o)) t -> exists i, moved i t > 0).
    { intros Q. rewrite ET in Q |- *. apply in_app_iff in Q as [Q|[Q|Q]].
      - rewrite Forall_forall in F. destruct (F _ Q).
      - discriminate Q.
      - destruct (proj2 H Q N0) as (i & Hi). exists i. pose proof (moved_app i evs (ECall wk :: wtr w)). cbn in *. lia. }
    destruct E as [E|E]; rewrite E in *; [|apply (HT I')].
    destruct I' as [I'|I']; [|apply (HT I')]. injection I' as I'; rewrite I' in *.
    destruct (ER o eq_refl) as [(i & v & Q)|(En & w' & (l & w0 & El & E0 & Ec & EL) & w'' & Ef & ->)]; [destruct (NB _ _ Q)|].
    pose proof (proj1 (proj1 H)) as M.
    assert (M1 : Mem (emit (ECall wk) w)) by (apply Mem_quiet; [exact Logic.I|exact M]).
    pose proof M as ((B1 & B2 & B3 & aw & p & RD) & _).
    destruct (rd_set_parent_ok ww _ _ _ _ wk RD WW) as (p' & RD1 & _).
    rewrite (rd_awake_list_ok _ _ _ _ RD1) in EL. subst l.
    destruct (rd_clear_ok _ _ _ _ RD1) as (r2 & Ec' & RD2). rewrite Ec in Ec'. injection Ec' as Ec'.
    assert (ML : MemL w0).
    { rewrite <- Ec' in RD2. rewrite E0. destruct (Mem_rd (emit (ECall wk) w) _ _ _ M1 RD2) as (Q1 & Q2 & _).
      split; [exact Q1|]. split; [exact Q2|].
      destruct (entry_active _ M1 En) as [A|(A & KV)]; [left; apply (Active_same (wc w)); auto|right; split; auto; apply (Taken_same (wc w)); auto]. }
    assert (BD : forall i, In i aw -> i < n) by apply RD.
    destruct (c_loop_mem aw w0 ML BD _ _ El) as (ML' & _).
    exact (finish_moved _ _ _ ML' Ef N0).
  - apply (JI_ext o w); auto. apply ext_wake.
  - exact H.
  - destruct (walive w) eqn:AL; [|exact H]. apply (JI_ext o w); auto. unfold c_drop. cbn. apply ext_cons; [exact Logic.I|].
    eexists. split; [|reflexivity]. apply Forall_forall. intros e He. apply in_rev in He.
    revert He. generalize (c_items (wc w)) 0. induction (c_filled (wc w)) as [|b f IH]; intros [|oo l] j; cbn [drop_items]; try (intros []; fail).
    rewrite in_app_iff. intros [He|He]; [|exact (IH _ _ He)]. destruct b; [|destruct He]. destruct He as [<-|[]]. destruct oo; exact Logic.I.
Qed.
Lemma run_JI o evs : (forall i v, b_maybe_return B i v <> inl o) -> JI o (run evs).
Proof.
  intro NB. unfold Combinator.run. assert (G : forall w, JI o w -> JI o (fold_left exec evs w)).
  { induction evs as [|e l IH]; intros w H; cbn [fold_left]; auto. apply IH, exec_JI, H. exact NB. }
  apply G. split; [apply start_acc|]. intros [].
Qed.

(** every poll returns *)
Lemma poll_returns w wk : Mem w -> exists r t, wtr (c_poll wk w) = ERet r :: t.
Proof.
  intros ((B1 & B2 & B3 & aw & p & RD) & _). unfold Combinator.c_poll.
  destruct (c_entry R S O B _) as [r|]; [cbn; eauto|].
  cbn [Combinator.emit Combinator.wc].
  destruct (rd_set_parent_ok ww _ _ _ _ wk RD WW) as (p' & RD1 & _).
  destruct (rd_clear_ok _ _ _ _ RD1) as (r2 & -> & RD2).
  destruct (c_loop _ _) as [w' [r|]]; [cbn; eauto|]. destruct (c_finish w') as [w'' r]. cbn; eauto.
Qed.

(** a child that never completes *)
Lemma wake_done j v w i : In (EDone j v) (wtr (Combinator.do_wake R S O X w i)) -> In (EDone j v) (wtr w).
Proof.
  unfold Combinator.do_wake. destruct (i <? _); [|auto].
  destruct (rd_wake _ i) as [[r' [p|]]|]; cbn; intros; repeat match goal with H : _ \/ _ |- _ => destruct H; try discriminate end; auto.
Qed.
Lemma wakes_done j v l w : In (EDone j v) (wtr (fold_left (Combinator.do_wake R S O X) l w)) -> In (EDone j v) (wtr w).
Proof. revert w. induction l as [|i l IH]; cbn; auto. intros w H. apply IH in H. eapply wake_done; eauto. Qed.
Lemma loop_done j v : (forall x, snd (child x j) <> CReady v) -> forall l w w' r, c_loop l w = (w', r) ->
  In (EDone j v) (wtr w') -> In (EDone j v) (wtr w).
Proof.
  intros NC. induction l as [|i l IH]; intros w w' r; cbn [Combinator.c_loop]; [intros [= <- _]; auto|].
  destruct (nth_error (c_filled (wc w)) i) as [[|]|].
  - apply IH.
  - destruct (child _ i) as [[x' wakes] cr] eqn:EC.
    set (w2 := fold_left _ wakes _).
    assert (Q2 : In (EDone j v) (wtr w2) -> In (EDone j v) (wtr w)).
    { intro H. apply wakes_done in H. cbn in H. destruct H; [discriminate|auto]. }
    destruct cr as [|v'|].
    + intros E H. apply (IH _ _ _ E) in H. cbn in H. destruct H; [discriminate|auto].
    + assert (Q3 : In (EDone j v) (wtr (emit (EDone i v') w2)) -> In (EDone j v) (wtr w)).
      { cbn. intros [H|H]; [|auto]. injection H as -> ->. exfalso. apply (NC (wx (emit (EChild j) w))). rewrite EC. reflexivity. }
      destruct (b_maybe_return B i v').
      * intros [= <- _]. exact Q3.
      * destruct (c_store _ _ _ _ _ _ _) as [w4|] eqn:Es; [|intros [= <- _]; exact Q3].
        intros E H. apply (IH _ _ _ E) in H. apply Q3. revert Es H. unfold c_store.
        destruct (nth_error _ i); [|discriminate]. destruct (c_pending _); intros [= <-]; cbn; intros [H|H]; try discriminate; auto.
    + intros [= <- _]. cbn. intros [H|H]; [discriminate|auto].
  - intros [= <- _]. cbn. intros [H|H]; [discriminate|auto].
Qed.
Lemma finish_done j v w w' r : c_finish w = (w', r) -> In (EDone j v) (wtr w') -> In (EDone j v) (wtr w).
Proof.
  unfold Combinator.c_finish. destruct (c_pending (wc w) =? 0); [|intros [= <- _]; auto].
  destruct (debug && _); [intros [= <- _]; auto|].
  destruct (all_some _) as [l|]; [|intros [= <- _]; cbn; intros [H|H]; [discriminate|auto]].
  assert (G : In (EDone j v) (rev (gives R S O 0 l) ++ wtr w) -> In (EDone j v) (wtr w)).
  { intro H. apply in_app_iff in H as [H|H]; auto. apply in_rev in H. apply gives_only in H as (i & s & H). discriminate H. }
  destruct (b_when_completed B l); intros [= <- _]; exact G.
Qed.
Lemma run_nodone j v evs : (forall x, snd (child x j) <> CReady v) -> ~ In (EDone j v) (wtr (run evs)).
Proof.
  intro NC. unfold Combinator.run.
  assert (G : forall w, ~ In (EDone j v) (wtr w) -> ~ In (EDone j v) (wtr (fold_left exec evs w))).
  { induction evs as [|e l IH]; intros w H; cbn [fold_left]; auto. apply IH. intro H'. apply H. clear IH H. revert H'.
    destruct e as [wk|i|f|]; cbn [Combinator.exec].
    - destruct (walive w); [|auto]. unfold Combinator.c_poll.
      destruct (c_entry R S O B _) as [r|]; [cbn; intros [H|[H|H]]; try discriminate; auto|].
      destruct (rd_clear _) as [r2|]; [|cbn; intros [H|[H|H]]; try discriminate; auto].
      destruct (c_loop _ _) as [w' [r|]] eqn:E.
      + cbn. intros [H|H]; [discriminate|]. apply (loop_done _ _ NC _ _ _ _ E) in H. cbn in H. destruct H; [discriminate|auto].
      + destruct (c_finish w') as [w'' r] eqn:Ef. cbn. intros [H|H]; [discriminate|]. apply (finish_done _ _ _ _ _ Ef) in H.
        apply (loop_done _ _ NC _ _ _ _ E) in H. cbn in H. destruct H; [discriminate|auto].
    - apply wake_done.
    - auto.
    - destruct (walive w); [|auto]. cbn. intros [H|H]; [discriminate|]. apply in_app_iff in H as [H|H]; auto. exfalso.
      apply in_rev in H. revert H. generalize (c_items (wc w)) 0. induction (c_filled (wc w)) as [|b f IH]; intros [|o l'] q; cbn [drop_items]; try (intros []; fail).
      rewrite in_app_iff. intros [He|He]; [|exact (IH _ _ He)]. destruct b; [|destruct He]. destruct He as [He|[]]. destruct o; discriminate He. }
  apply G. intros [].
Qed.

(** ** State of the children *)
Lemma x_wake w i : wx (do_wake w i) = wx w.
Proof.
  unfold Combinator.do_wake. destruct (i <? c_n (wc w)); [|reflexivity]. destruct (rd_wake _ i) as [[r [p|]]|]; reflexivity.
Qed.
Lemma x_wakes l : forall w, wx (fold_left do_wake l w) = wx w.
Proof. induction l as [|i l IH]; intro w; cbn [fold_left]; [reflexivity|]. rewrite IH. apply x_wake. Qed.
Section Xinv.
Variable I : X -> Prop.
Hypothesis IC : forall x i x' ws r, I x -> child x i = (x', ws, r) -> I x'.
Lemma x_loop l : forall w w' r, c_loop l w = (w', r) -> I (wx w) -> I (wx w').
Proof.
  induction l as [|i l IH]; intros w w' r; cbn [Combinator.c_loop].
  - intros [= <- _]. auto.
  - destruct (nth_error (c_filled (wc w)) i) as [[|]|].
    + apply IH.
    + destruct (child (wx (emit (EChild i) w)) i) as [[x' wakes] cr] eqn:Ec. intros E HI.
      pose proof (IC _ _ _ _ _ HI Ec) as HI'.
      assert (HW : I (wx (fold_left do_wake wakes (set_x R S O X (emit (EChild i) w) x')))) by (rewrite x_wakes; exact HI').
      set (w2 := fold_left do_wake wakes _) in *. revert E.
      destruct cr as [|v|].
      * intro E. eapply IH; [exact E|exact HW].
      * destruct (b_maybe_return B i v) as [o|s].
        -- intros [= <- _]. exact HW.
        -- unfold c_store. destruct (nth_error (c_items (wc (emit (EDone i v) w2))) i).
           ++ destruct (c_pending (wc (emit (EDone i v) w2))); intro E; (eapply IH; [exact E|exact HW]).
           ++ intros [= <- _]. exact HW.
      * intros [= <- _]. exact HW.
    + intros [= <- _]. auto.
Qed.
Lemma x_finish w w' r : c_finish w = (w', r) -> wx w' = wx w.
Proof.
  unfold Combinator.c_finish. destruct (c_pending (wc w) =? 0); [|intros [= <- _]; reflexivity].
  destruct (debug && _); [intros [= <- _]; reflexivity|].
  destruct (all_some _) as [l|]; [|intros [= <- _]; reflexivity].
  destruct (b_when_completed B l); intros [= <- _]; reflexivity.
Qed.
Lemma x_poll w wk : I (wx w) -> I (wx (c_poll wk w)).
Proof.
  intro HI. unfold Combinator.c_poll. destruct (c_entry R S O B _) as [r|]; [exact HI|].
  destruct (rd_clear _) as [r2|]; [|exact HI].
  destruct (c_loop _ _) as [w3 [r|]] eqn:E.
  - apply x_loop in E; [exact E|exact HI].
  - apply x_loop in E; [|exact HI]. destruct (c_finish w3) as [w4 r] eqn:Ef. apply x_finish in Ef. cbn. rewrite Ef. exact E.
Qed.
Lemma x_run evs : (forall f, In (SEnv X f) evs -> forall x, I x -> I (f x)) -> I x0 -> I (wx (run evs)).
Proof.
  intros HE H0. unfold Combinator.run.
  assert (G : forall w, I (wx w) -> I (wx (fold_left exec evs w))).
  { induction evs as [|e l IH]; intros w H; cbn [fold_left]; auto. apply IH; [intros; eapply HE; cbn; eauto|].
    destruct e as [wk|i|f|]; cbn.
    - destruct (walive w); [apply x_poll|]; auto.
    - rewrite x_wake. auto.
    - apply (HE f); cbn; auto.
    - destruct (walive w); auto. }
  apply G. exact H0.
Qed.
End Xinv.
End Proofs.
