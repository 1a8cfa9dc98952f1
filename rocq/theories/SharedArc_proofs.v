(** Proofs for C21. *)
From Coq Require Import List Arith Bool Lia.
From Verif Require Import Util Arena SharedArc Spec_shared.
Import ListNotations.

Definition shape (h : heap) (id raw sl n : nat) : Prop := exists st, h_arcs h raw = Some (mkArc id st sl n).

Record Inv (h : heap) (cnt : nat -> nat) : Prop := {
  inv_arc : forall raw a, h_arcs h raw = Some a ->
    a_strong a = cnt (a_id a) /\ cnt (a_id a) > 0 /\
    forall p, a_slice a <= p < a_slice a + a_size a -> h_mem h p = Some raw;
  inv_inj : forall raw raw' a a', h_arcs h raw = Some a -> h_arcs h raw' = Some a' -> a_id a = a_id a' -> raw = raw';
  inv_all : forall id, cnt id > 0 -> exists raw a, h_arcs h raw = Some a /\ a_id a = id }.

Lemma Inv_ext h c c' : (forall i, c i = c' i) -> Inv h c -> Inv h c'.
Proof.
  intros E [A B C]. split; auto.
  - intros raw a H. rewrite <- E. auto.
  - intros id H. apply C. rewrite E. exact H.
Qed.
Lemma fupd_eq {A} (f : nat -> A) i v : fupd f i v i = v.
Proof. unfold fupd. rewrite Nat.eqb_refl. reflexivity. Qed.
Lemma fupd_neq {A} (f : nat -> A) i v j : j <> i -> fupd f i v j = f j.
Proof. unfold fupd. intro. destruct (Nat.eqb_spec j i); congruence. Qed.

Lemma slot_mem h c id raw sl n i : Inv h c -> shape h id raw sl n -> i < n -> h_mem h (sl + i) = Some raw.
Proof. intros I (st & E) L. destruct (inv_arc _ _ I _ _ E) as (_ & _ & M). apply M. cbn. lia. Qed.

Lemma shape_cnt h c id raw sl n : Inv h c -> shape h id raw sl n -> c id > 0.
Proof. intros I (st & E). apply (inv_arc _ _ I _ _ E). Qed.

Lemma inc_ok h c id raw sl n : Inv h c -> shape h id raw sl n ->
  exists h', arc_inc h raw = Some h' /\ Inv h' (fupd c id (S (c id))) /\
    (forall id' raw' sl' n', shape h id' raw' sl' n' -> shape h' id' raw' sl' n') /\
    h_woken h' = h_woken h /\ h_freed h' = h_freed h.
Proof.
  intros I (st & E). unfold arc_inc. rewrite E. eexists. split; [reflexivity|]. split; [|split; [|split; reflexivity]].
  - split; cbn [set_arc h_arcs h_mem a_id a_strong a_slice a_size].
    + intros r a H. destruct (Nat.eq_dec r raw) as [->|N].
      * rewrite fupd_eq in H. injection H as <-. cbn. rewrite fupd_eq.
        destruct (inv_arc _ _ I _ _ E) as (A & B & C). cbn in *. split; [lia|]. split; [lia|]. exact C.
      * rewrite fupd_neq in H by auto. destruct (inv_arc _ _ I _ _ H) as (A & B & C).
        rewrite fupd_neq; [auto|]. intro Q. apply N. eapply (inv_inj _ _ I); [exact H|exact E|exact Q].
    + intros r r' a a' H H' Q.
      assert (G : forall r a, fupd (h_arcs h) raw (Some (mkArc id (S st) sl n)) r = Some a ->
         exists b, h_arcs h r = Some b /\ a_id b = a_id a).
      { intros r0 a0 H0. destruct (Nat.eq_dec r0 raw) as [->|N0].
        - rewrite fupd_eq in H0. injection H0 as <-. eauto.
        - rewrite fupd_neq in H0 by auto. eauto. }
      destruct (G _ _ H) as (b & Hb & Eb). destruct (G _ _ H') as (b' & Hb' & Eb').
      eapply (inv_inj _ _ I); eauto. congruence.
    + intros id' H. destruct (Nat.eq_dec id' id) as [->|N].
      * exists raw. eexists. rewrite fupd_eq. split; reflexivity.
      * rewrite fupd_neq in H by auto. destruct (inv_all _ _ I _ H) as (r & a & H1 & H2). exists r.
        destruct (Nat.eq_dec r raw) as [->|N']; [rewrite E in H1; injection H1 as <-; cbn in H2; congruence|].
        rewrite fupd_neq by auto. eauto.
  - intros id' raw' sl' n' (st' & E'). unfold shape. cbn. destruct (Nat.eq_dec raw' raw) as [->|N].
    + rewrite fupd_eq. rewrite E in E'. injection E' as -> -> -> ->. eauto.
    + rewrite fupd_neq by auto. eauto.
Qed.

Lemma dec_ok h c id raw sl n : Inv h c -> shape h id raw sl n ->
  exists h', arc_dec h raw = Some h' /\ Inv h' (fupd c id (c id - 1)) /\
    (forall id' raw' sl' n', fupd c id (c id - 1) id' > 0 -> shape h id' raw' sl' n' -> shape h' id' raw' sl' n') /\
    (forall r a, h_arcs h' r = Some a -> exists b, h_arcs h r = Some b /\ a_id b = a_id a) /\
    h_woken h' = h_woken h /\ h_freed h' = (if c id =? 1 then [id] else []) ++ h_freed h.
Proof.
  intros I (st & E). destruct (inv_arc _ _ I _ _ E) as (A & B & C). cbn in A, B, C. unfold arc_dec. rewrite E. cbn [a_strong].
  destruct (Nat.eq_dec (c id) 1) as [C1|C1].
  - replace st with 1 by lia. rewrite C1. cbn [Nat.eqb app Nat.sub]. eexists. split; [reflexivity|]. split; [|split; [|split; [|split; reflexivity]]].
    + split; cbn [h_arcs h_mem].
      * intros r a H. destruct (Nat.eq_dec r raw) as [->|N]; [rewrite fupd_eq in H; discriminate H|].
        rewrite fupd_neq in H by auto. destruct (inv_arc _ _ I _ _ H) as (A' & B' & C').
        assert (a_id a <> id). { intro Q. apply N. eapply (inv_inj _ _ I); [exact H|exact E|exact Q]. }
        rewrite fupd_neq by auto. split; [auto|]. split; [auto|]. intros p Hp. pose proof (C' p Hp) as M.
        cbn. unfold in_slice. destruct (Nat.leb_spec sl p), (Nat.ltb_spec p (sl + n)); cbn; auto.
        rewrite (C p) in M by lia. congruence.
      * intros r r' a a' H H' Q. unfold fupd in H, H'. destruct (r =? raw); [discriminate|]. destruct (r' =? raw); [discriminate|].
        eapply (inv_inj _ _ I); eauto.
      * intros id' H. destruct (Nat.eq_dec id' id) as [->|N]; [rewrite fupd_eq in H; lia|].
        rewrite fupd_neq in H by auto. destruct (inv_all _ _ I _ H) as (r & a & H1 & H2). exists r.
        destruct (Nat.eq_dec r raw) as [->|N']; [rewrite E in H1; injection H1 as <-; cbn in H2; congruence|].
        rewrite fupd_neq by auto. eauto.
    + intros id' raw' sl' n' H (st' & E'). destruct (Nat.eq_dec id' id) as [->|N]; [rewrite fupd_eq in H; lia|].
      unfold shape. cbn. destruct (Nat.eq_dec raw' raw) as [->|N']; [rewrite E in E'; congruence|]. rewrite fupd_neq by auto. eauto.
    + cbn. intros r a H. unfold fupd in H. destruct (r =? raw); [discriminate|]. eauto.
  - destruct (Nat.eqb_spec (c id) 1) as [|_]; [congruence|]. cbn [app].
    destruct st as [|[|m]]; [lia|lia|]. eexists. split; [reflexivity|].
    split; [|split; [|split; [|split; reflexivity]]].
    + split; cbn [set_arc h_arcs h_mem].
      * intros r a H. destruct (Nat.eq_dec r raw) as [->|N].
        -- rewrite fupd_eq in H. injection H as <-. cbn. rewrite fupd_eq. split; [lia|]. split; [lia|]. exact C.
        -- rewrite fupd_neq in H by auto. destruct (inv_arc _ _ I _ _ H) as (A' & B' & C').
           rewrite fupd_neq; [auto|]. intro Q. apply N. eapply (inv_inj _ _ I); [exact H|exact E|exact Q].
      * intros r r' a a' H H' Q.
        assert (G : forall r a, fupd (h_arcs h) raw (Some (mkArc id (S m) sl n)) r = Some a ->
           exists b, h_arcs h r = Some b /\ a_id b = a_id a).
        { intros r0 a0 H0. destruct (Nat.eq_dec r0 raw) as [->|N0].
          - rewrite fupd_eq in H0. injection H0 as <-. eauto.
          - rewrite fupd_neq in H0 by auto. eauto. }
        destruct (G _ _ H) as (b & Hb & Eb). destruct (G _ _ H') as (b' & Hb' & Eb').
        eapply (inv_inj _ _ I); eauto. congruence.
      * intros id' H. destruct (Nat.eq_dec id' id) as [->|N].
        -- exists raw. eexists. rewrite fupd_eq. split; reflexivity.
        -- rewrite fupd_neq in H by auto. destruct (inv_all _ _ I _ H) as (r & a & H1 & H2). exists r.
           destruct (Nat.eq_dec r raw) as [->|N']; [rewrite E in H1; injection H1 as <-; cbn in H2; congruence|].
           rewrite fupd_neq by auto. eauto.
    + intros id' raw' sl' n' _ (st' & E'). unfold shape. cbn. destruct (Nat.eq_dec raw' raw) as [->|N'].
      * rewrite fupd_eq. rewrite E in E'. injection E' as <- _ <- <-. eauto.
      * rewrite fupd_neq by auto. eauto.
    + cbn. intros r a H. destruct (Nat.eq_dec r raw) as [->|N].
      * rewrite fupd_eq in H. injection H as <-. eauto.
      * rewrite fupd_neq in H by auto. eauto.
Qed.

Lemma make_ok raw id sl n : forall is h c, Inv h c -> shape h id raw sl n ->
  exists h', make_wakers h raw is = Some (h', map (Nat.add sl) is) /\ Inv h' (fupd c id (length is + c id)) /\
    (forall id' raw' sl' n', shape h id' raw' sl' n' -> shape h' id' raw' sl' n') /\
    h_woken h' = h_woken h /\ h_freed h' = h_freed h.
Proof.
  induction is as [|i is IH]; intros h c I SH; cbn [make_wakers].
  - exists h. split; [reflexivity|]. split; [|auto]. apply (Inv_ext _ c); auto. intro j. unfold fupd.
    destruct (Nat.eqb_spec j id); subst; auto.
  - destruct (inc_ok _ _ _ _ _ _ I SH) as (h1 & E1 & I1 & S1 & W1 & F1). unfold make_waker. rewrite E1.
    destruct (S1 _ _ _ _ SH) as (st & E2). rewrite E2. cbn [a_slice fst snd].
    destruct (IH h1 _ I1 (S1 _ _ _ _ SH)) as (h2 & E3 & I2 & S2 & W2 & F2). rewrite E3. cbn [fst snd].
    exists h2. split; [reflexivity|]. split; [|split; [auto|split; congruence]].
    eapply Inv_ext; [|exact I2]. intro j. cbn [length]. unfold fupd. rewrite Nat.eqb_refl. destruct (Nat.eqb_spec j id); subst; lia.
Qed.

(** dropping several wakers of one combinator, whose storage stays in use *)
Lemma drops_ok raw id sl n : forall is h c, Inv h c -> shape h id raw sl n -> (forall i, In i is -> i < n) -> c id > length is ->
  exists h', drop_wakers h (map (Nat.add sl) is) = Some h' /\ Inv h' (fupd c id (c id - length is)) /\
    (forall id' raw' sl' n', shape h id' raw' sl' n' -> shape h' id' raw' sl' n') /\
    (forall r a, h_arcs h' r = Some a -> exists b, h_arcs h r = Some b /\ a_id b = a_id a) /\
    h_woken h' = h_woken h /\ h_freed h' = h_freed h.
Proof.
  induction is as [|i is IH]; intros h c I SH BD L; cbn [map drop_wakers].
  - exists h. split; [reflexivity|]. split; [|split; [|split; [|split]]]; eauto. apply (Inv_ext _ c); auto. intro j. unfold fupd. cbn.
    destruct (Nat.eqb_spec j id); subst; lia.
  - cbn [length] in L. unfold drop_waker. rewrite (slot_mem _ _ _ _ _ _ i I SH) by (apply BD; cbn; auto).
    destruct (dec_ok _ _ _ _ _ _ I SH) as (h1 & E1 & I1 & S1 & A1 & W1 & F1). rewrite E1.
    assert (S1' : forall id' raw' sl' n', shape h id' raw' sl' n' -> shape h1 id' raw' sl' n').
    { intros id' raw' sl' n' Q. apply S1; [|exact Q]. pose proof (shape_cnt _ _ _ _ _ _ I Q). unfold fupd.
      destruct (Nat.eqb_spec id' id); subst; lia. }
    destruct (IH h1 _ I1 (S1' _ _ _ _ SH)) as (h2 & E3 & I2 & S2 & A2 & W2 & F2).
    { intros; apply BD; cbn; auto. }
    { rewrite fupd_eq. lia. }
    rewrite E3. exists h2. split; [reflexivity|]. split; [|split; [auto|split; [|split]]].
    + eapply Inv_ext; [|exact I2]. intro j. cbn [length]. unfold fupd. rewrite Nat.eqb_refl. destruct (Nat.eqb_spec j id); subst; lia.
    + intros r a H. destruct (A2 _ _ H) as (b & Hb & Eb). destruct (A1 _ _ Hb) as (b' & Hb' & Eb'). exists b'. split; congruence.
    + congruence.
    + rewrite F2, F1. destruct (Nat.eqb_spec (c id) 1); [lia|reflexivity].
Qed.

(** ** States *)
Definition b2n (b : bool) : nat := if b then 1 else 0.
Fixpoint cnt_sets (l : list wset) (id : nat) : nat :=
  match l with [] => 0 | w :: t => (if ws_id w =? id then S (length (ws_wakers w)) else 0) + cnt_sets t id end.
Fixpoint cnt_held (l : list held) (id : nat) : nat :=
  match l with [] => 0 | w :: t => b2n (k_id w =? id) + cnt_held t id end.
Definition cnt (s : state) (id : nat) : nat := cnt_sets (st_sets s) id + cnt_held (st_held s) id.

Definition set_ok (h : heap) (w : wset) : Prop :=
  exists sl n, shape h (ws_id w) (ws_raw w) sl n /\ ws_wakers w = map (Nat.add sl) (seq 0 n).
Definition held_ok (h : heap) (w : held) : Prop :=
  exists raw sl n, shape h (k_id w) raw sl n /\ k_index w < n /\ k_ptr w = sl + k_index w.

Record SI (s : state) : Prop := {
  si_inv : Inv (st_heap s) (cnt s);
  si_sets : forall w, In w (st_sets s) -> set_ok (st_heap s) w;
  si_held : forall w, In w (st_held s) -> held_ok (st_heap s) w;
  si_next : forall id, cnt s id > 0 -> id < st_next s;
  si_freed : forall id, In id (h_freed (st_heap s)) <-> id < st_next s /\ cnt s id = 0;
  si_nodup : NoDup (h_freed (st_heap s)) }.

Lemma cnt_sets_without l c w id : nth_error l c = Some w ->
  cnt_sets l id = (if ws_id w =? id then S (length (ws_wakers w)) else 0) + cnt_sets (without l c) id.
Proof.
  revert c. induction l as [|x l IH]; intros [|c]; cbn; try discriminate; [intros [= ->]; reflexivity|].
  intro H. rewrite (IH _ H). lia.
Qed.
Lemma cnt_held_without l c w id : nth_error l c = Some w ->
  cnt_held l id = b2n (k_id w =? id) + cnt_held (without l c) id.
Proof.
  revert c. induction l as [|x l IH]; intros [|c]; cbn; try discriminate; [intros [= ->]; reflexivity|].
  intro H. rewrite (IH _ H). lia.
Qed.
Lemma in_without {A} (l : list A) c x : In x (without l c) -> In x l.
Proof. revert c. induction l as [|y l IH]; intros [|c]; cbn; auto. intros [H|H]; auto. right. eauto. Qed.
Lemma cnt_held_in l w : In w l -> cnt_held l (k_id w) > 0.
Proof. induction l as [|x l IH]; cbn; [intros []|]. intros [->|H]; [rewrite Nat.eqb_refl; cbn; lia|]. specialize (IH H). lia. Qed.
Lemma cnt_sets_in l w : In w l -> cnt_sets l (ws_id w) > 0.
Proof. induction l as [|x l IH]; cbn; [intros []|]. intros [->|H]; [rewrite Nat.eqb_refl; cbn; lia|]. specialize (IH H). lia. Qed.
Lemma cnt_held_pos l id : cnt_held l id > 0 <-> In id (map k_id l).
Proof.
  induction l as [|x l IH]; cbn; [lia|]. destruct (Nat.eqb_spec (k_id x) id); cbn.
  - split; auto. lia.
  - rewrite IH. split; auto. intros [|]; [contradiction|auto].
Qed.
Lemma cnt_sets_pos l id : cnt_sets l id > 0 <-> In id (map ws_id l).
Proof.
  induction l as [|x l IH]; cbn; [lia|]. destruct (Nat.eqb_spec (ws_id x) id); cbn.
  - split; auto. lia.
  - rewrite IH. split; auto. intros [|]; [contradiction|auto].
Qed.

(** one more reference *)
Lemma grow_held s w h' raw sl n : SI s -> shape (st_heap s) (k_id w) raw sl n -> k_index w < n -> k_ptr w = sl + k_index w ->
  clone_waker (st_heap s) (k_ptr w) = Some h' -> SI (mkSt h' (st_next s) (st_sets s) (w :: st_held s)) /\ h_woken h' = h_woken (st_heap s).
Proof.
  intros I SH L EP E. unfold clone_waker in E. rewrite EP, (slot_mem _ _ _ _ _ _ _ (si_inv _ I) SH L) in E.
  destruct (inc_ok _ _ _ _ _ _ (si_inv _ I) SH) as (h1 & E1 & I1 & S1 & W1 & F1). rewrite E1 in E. injection E as <-.
  assert (CN : forall id, cnt (mkSt h1 (st_next s) (st_sets s) (w :: st_held s)) id = fupd (cnt s) (k_id w) (S (cnt s (k_id w))) id).
  { intro id. unfold cnt, fupd. cbn. rewrite (Nat.eqb_sym id). destruct (Nat.eqb_spec (k_id w) id); subst; cbn; lia. }
  assert (P0 := shape_cnt _ _ _ _ _ _ (si_inv _ I) SH).
  split; [|exact W1]. split; cbn [st_heap st_next st_sets st_held].
  - eapply Inv_ext; [|exact I1]. intro. symmetry. apply CN.
  - intros v Hv. destruct (si_sets _ I _ Hv) as (sl' & n' & Q & Q'). exists sl', n'. auto.
  - intros v Hv. cbn in Hv. assert (held_ok (st_heap s) v) as (r' & sl' & n' & Q & Q').
    { destruct Hv as [<-|Hv]; [exists raw, sl, n; auto|exact (si_held _ I _ Hv)]. }
    exists r', sl', n'. auto.
  - intros id. rewrite CN. unfold fupd. destruct (Nat.eqb_spec id (k_id w)) as [->|]; [intros _|]; apply (si_next _ I); auto.
  - intros id. rewrite CN, F1. rewrite (si_freed _ I). unfold fupd. destruct (Nat.eqb_spec id (k_id w)) as [->|]; [lia|reflexivity].
  - rewrite F1. apply (si_nodup _ I).
Qed.

(** one reference less *)
Lemma shrink_held s k w h0 h' : SI s -> nth_error (st_held s) k = Some w ->
  h_mem h0 = h_mem (st_heap s) -> h_arcs h0 = h_arcs (st_heap s) -> h_freed h0 = h_freed (st_heap s) ->
  drop_waker h0 (k_ptr w) = Some h' -> SI (mkSt h' (st_next s) (st_sets s) (without (st_held s) k)) /\ h_woken h' = h_woken h0.
Proof.
  intros I NE M0 A0 F0 E.
  destruct (si_held _ I w) as (raw & sl & n & SH0 & L & EP); [eapply nth_error_In; eauto|].
  assert (I0 : Inv h0 (cnt s)). { destruct (si_inv _ I) as [Q1 Q2 Q3]. split; rewrite ?A0, ?M0; auto. }
  assert (SS : forall a b c d, shape (st_heap s) a b c d -> shape h0 a b c d) by (intros a b c d; unfold shape; rewrite A0; auto).
  assert (SH := SS _ _ _ _ SH0). unfold drop_waker in E. rewrite EP, (slot_mem _ _ _ _ _ _ _ I0 SH L) in E.
  destruct (dec_ok _ _ _ _ _ _ I0 SH) as (h1 & E1 & I1 & S1 & A1 & W1 & F1). rewrite E1 in E. injection E as <-.
  set (s' := mkSt h1 (st_next s) (st_sets s) (without (st_held s) k)).
  assert (P0 := shape_cnt _ _ _ _ _ _ I0 SH).
  assert (CN : forall id, cnt s' id = fupd (cnt s) (k_id w) (cnt s (k_id w) - 1) id).
  { intro id. unfold cnt, s', fupd. cbn. pose proof (cnt_held_without _ _ _ id NE) as Z1. pose proof (cnt_held_without _ _ _ (k_id w) NE) as Z2. rewrite Nat.eqb_refl in Z2.
    rewrite (Nat.eqb_sym id). destruct (Nat.eqb_spec (k_id w) id); subst; cbn in *; lia. }
  split; [|exact W1]. split; try change (st_heap s') with h1; try change (st_next s') with (st_next s).
  - eapply Inv_ext; [|exact I1]. intro. symmetry. apply CN.
  - intros v Hv. destruct (si_sets _ I _ Hv) as (sl' & n' & Q & Q'). exists sl', n'. split; [|exact Q']. apply S1; auto.
    rewrite <- CN. unfold cnt, s'. cbn. pose proof (cnt_sets_in _ _ Hv) as Z; cbn in Z. lia.
  - intros v Hv. destruct (si_held _ I v (in_without _ _ _ Hv)) as (r' & sl' & n' & Q & Q'). exists r', sl', n'. split; [|exact Q'].
    apply S1; auto. rewrite <- CN. unfold cnt, s'. cbn. pose proof (cnt_held_in _ _ Hv) as Z; cbn in Z. lia.
  - intros id. rewrite CN. unfold fupd. destruct (Nat.eqb_spec id (k_id w)) as [->|]; [intros _|]; apply (si_next _ I); auto.
  - intros id. rewrite CN, F1, F0. rewrite in_app_iff, (si_freed _ I). unfold fupd. pose proof (si_next _ I (k_id w) P0).
    destruct (Nat.eqb_spec (cnt s (k_id w)) 1) as [C1|C1], (Nat.eqb_spec id (k_id w)) as [->|N]; cbn; try lia.
  - rewrite F1, F0. destruct (Nat.eqb_spec (cnt s (k_id w)) 1) as [C1|C1]; cbn; [|apply (si_nodup _ I)].
    constructor; [|apply (si_nodup _ I)]. rewrite (si_freed _ I). lia.
Qed.

Lemma wake_ok s raw sl n id i p : SI s -> shape (st_heap s) id raw sl n -> i < n -> p = sl + i ->
  wake_by_ref (st_heap s) p =
    Some (mkHeap (h_mem (st_heap s)) (h_arcs (st_heap s)) ((id, i) :: h_woken (st_heap s)) (h_freed (st_heap s))).
Proof.
  intros I SH L ->. unfold wake_by_ref. rewrite (slot_mem _ _ _ _ _ _ _ (si_inv _ I) SH L).
  destruct SH as (st & ->). cbn [a_slice a_id]. destruct (Nat.ltb_spec (sl + i) sl); [lia|]. replace (sl + i - sl) with i by lia. reflexivity.
Qed.
Lemma woken_SI s l : SI s ->
  SI (mkSt (mkHeap (h_mem (st_heap s)) (h_arcs (st_heap s)) l (h_freed (st_heap s))) (st_next s) (st_sets s) (st_held s)).
Proof. intros [A B C D E F]. split; auto. destruct A as [A1 A2 A3]. split; auto. Qed.

Lemma init_SI : SI init.
Proof.
  split.
  - split; cbn; try discriminate. intros id H. lia.
  - intros w [].
  - intros w [].
  - intros id H. cbn in H. lia.
  - intro id. cbn. lia.
  - constructor.
Qed.

Lemma map_add_nth sl n i p : nth_error (map (Nat.add sl) (seq 0 n)) i = Some p -> i < n /\ p = sl + i.
Proof.
  intro H. assert (L : i < n). { rewrite <- (seq_length n 0), <- (map_length (Nat.add sl)). apply nth_error_Some. congruence. }
  split; auto. rewrite (map_nth_error (Nat.add sl) i (seq 0 n) (d := i)) in H; [injection H as <-; reflexivity|].
  rewrite (nth_error_nth' _ 0) by (rewrite seq_length; auto). rewrite seq_nth by auto. reflexivity.
Qed.

Lemma new_ok s n raw slice : SI s -> can_alloc (st_heap s) n raw slice ->
  exists s', exec s (New n raw slice) = Some s' /\ SI s' /\ h_woken (st_heap s') = h_woken (st_heap s).
Proof.
  intros I (NA & NM). cbn [exec]. unfold ws_new. set (h := st_heap s) in *. set (id := st_next s).
  set (h1 := mkHeap _ _ _ _).
  assert (C0 : cnt s id = 0). { destruct (cnt s id) eqn:C; auto. pose proof (si_next _ I id ltac:(lia)). unfold id in *. lia. }
  assert (S0 : forall id' raw' sl' n', shape h id' raw' sl' n' -> shape h1 id' raw' sl' n').
  { intros id' raw' sl' n' (st & Q). exists st. cbn. rewrite fupd_neq; auto. intros ->. congruence. }
  assert (I1 : Inv h1 (fupd (cnt s) id 1)).
  { destruct (si_inv _ I) as [Q1 Q2 Q3]. fold h in Q1, Q2, Q3.
    assert (NID : forall r a, h_arcs h r = Some a -> a_id a <> id).
    { intros r a H Q. destruct (Q1 _ _ H) as (_ & Q0 & _). rewrite Q, C0 in Q0. lia. }
    split; cbn [h1 h_arcs h_mem].
    - intros r a H. destruct (Nat.eq_dec r raw) as [->|N].
      + rewrite fupd_eq in H. injection H as <-. cbn. rewrite fupd_eq. split; [auto|]. split; [auto|].
        intros p Hp. unfold in_slice. destruct (Nat.leb_spec slice p), (Nat.ltb_spec p (slice + n)); cbn; auto; lia.
      + rewrite fupd_neq in H by auto. destruct (Q1 _ _ H) as (A & B & C). rewrite fupd_neq by eauto. split; [auto|]. split; [auto|].
        intros p Hp. unfold in_slice. pose proof (C p Hp) as M. destruct (Nat.leb_spec slice p), (Nat.ltb_spec p (slice + n)); cbn; auto.
        rewrite NM in M by lia. discriminate M.
    - intros r r' a a' H H' Q. destruct (Nat.eq_dec r raw) as [->|N], (Nat.eq_dec r' raw) as [->|N'].
      + reflexivity.
      + rewrite fupd_eq in H. rewrite fupd_neq in H' by auto. injection H as <-. cbn in Q. exfalso. eapply NID; eauto.
      + rewrite fupd_neq in H by auto. rewrite fupd_eq in H'. injection H' as <-. cbn in Q. exfalso. eapply NID; eauto.
      + rewrite fupd_neq in H by auto. rewrite fupd_neq in H' by auto. eauto.
    - intros id' H. destruct (Nat.eq_dec id' id) as [->|N].
      + exists raw. rewrite fupd_eq. eauto.
      + rewrite fupd_neq in H by auto. destruct (Q3 _ H) as (r & a & H1 & H2). exists r, a. split; auto.
        rewrite fupd_neq; auto. intros ->. congruence. }
  assert (SH1 : shape h1 id raw slice n) by (exists 1; cbn; apply fupd_eq).
  destruct (make_ok raw id slice n (seq 0 n) h1 _ I1 SH1) as (h2 & E & I2 & S2 & W2 & F2). rewrite E. cbn [fst snd].
  eexists. split; [reflexivity|]. split; [|cbn; rewrite W2; reflexivity].
  set (w := mkWset id raw (map (Nat.add slice) (seq 0 n))).
  assert (CN : forall j, cnt (mkSt h2 (S (st_next s)) (w :: st_sets s) (st_held s)) j = fupd (fupd (cnt s) id 1) id (length (seq 0 n) + fupd (cnt s) id 1 id) j).
  { intro j. unfold fupd at 1 2 3. rewrite Nat.eqb_refl. unfold cnt. cbn. rewrite map_length, (Nat.eqb_sym j).
    destruct (Nat.eqb_spec id j); subst; [|reflexivity]. unfold cnt in C0. rewrite seq_length. lia. }
  split; cbn [st_heap st_next st_sets st_held].
  - eapply Inv_ext; [|exact I2]. intro. symmetry. apply CN.
  - intros v [<-|Hv].
    + exists slice, n. split; [apply S2, SH1|reflexivity].
    + destruct (si_sets _ I _ Hv) as (sl' & n' & Q & Q'). exists sl', n'. split; [apply S2, S0, Q|exact Q'].
  - intros v Hv. destruct (si_held _ I _ Hv) as (r' & sl' & n' & Q & Q'). exists r', sl', n'. split; [apply S2, S0, Q|exact Q'].
  - intros j. rewrite CN. unfold fupd. rewrite Nat.eqb_refl. destruct (Nat.eqb_spec j id) as [->|]; [unfold id; lia|].
    intro H. pose proof (si_next _ I _ H). lia.
  - intros j. rewrite CN, F2. change (h_freed h1) with (h_freed (st_heap s)). rewrite (si_freed _ I). unfold fupd. rewrite Nat.eqb_refl, seq_length. unfold id.
    destruct (Nat.eqb_spec j (st_next s)) as [->|]; lia.
  - rewrite F2. apply (si_nodup _ I).
Qed.

Lemma dropset_ok s c w : SI s -> nth_error (st_sets s) c = Some w ->
  exists h', ws_drop (st_heap s) w = Some h' /\ SI (mkSt h' (st_next s) (without (st_sets s) c) (st_held s)) /\
    h_woken h' = h_woken (st_heap s).
Proof.
  intros I NE. destruct (si_sets _ I w) as (sl & n & SH & EW); [eapply nth_error_In; eauto|]. unfold ws_drop. rewrite EW.
  assert (LW : length (ws_wakers w) = n) by (rewrite EW, map_length, seq_length; reflexivity).
  assert (CW : cnt s (ws_id w) >= S n).
  { unfold cnt. rewrite (cnt_sets_without _ _ _ (ws_id w) NE), Nat.eqb_refl, LW. lia. }
  destruct (drops_ok (ws_raw w) (ws_id w) sl n (seq 0 n) _ _ (si_inv _ I) SH) as (h1 & E1 & I1 & S1 & A1 & W1 & F1).
  { intros i Hi. apply in_seq in Hi. lia. }
  { rewrite seq_length. lia. }
  rewrite E1. destruct (dec_ok _ _ _ _ _ _ I1 (S1 _ _ _ _ SH)) as (h2 & E2 & I2 & S2 & A2 & W2 & F2). rewrite E2.
  exists h2. split; [reflexivity|]. split; [|congruence].
  rewrite fupd_eq, seq_length in F2, I2, S2.
  set (s' := mkSt h2 (st_next s) (without (st_sets s) c) (st_held s)).
  assert (CN : forall id, cnt s' id = fupd (cnt s) (ws_id w) (cnt s (ws_id w) - S n) id).
  { intro id. unfold cnt, s', fupd. cbn. pose proof (cnt_sets_without _ _ _ id NE) as Z1. pose proof (cnt_sets_without _ _ _ (ws_id w) NE) as Z2. rewrite Nat.eqb_refl in Z2.
    rewrite (Nat.eqb_sym id). destruct (Nat.eqb_spec (ws_id w) id); subst; cbn in *; lia. }
  assert (CF : forall id, fupd (fupd (cnt s) (ws_id w) (cnt s (ws_id w) - n)) (ws_id w) (cnt s (ws_id w) - n - 1) id = cnt s' id).
  { intro id. rewrite CN. unfold fupd. destruct (id =? ws_id w); lia. }
  split; try change (st_heap s') with h2; try change (st_next s') with (st_next s).
  - eapply Inv_ext; [|exact I2]. exact CF.
  - intros v Hv. destruct (si_sets _ I v (in_without _ _ _ Hv)) as (sl' & n' & Q & Q'). exists sl', n'. split; [|exact Q'].
    apply S2; auto. rewrite CF. unfold cnt, s'. cbn. pose proof (cnt_sets_in _ _ Hv) as Z; cbn in Z. lia.
  - intros v Hv. destruct (si_held _ I v Hv) as (r' & sl' & n' & Q & Q'). exists r', sl', n'. split; [|exact Q'].
    apply S2; auto. rewrite CF. unfold cnt, s'. cbn. pose proof (cnt_held_in _ _ Hv) as Z; cbn in Z. lia.
  - intros id. rewrite CN. unfold fupd. destruct (Nat.eqb_spec id (ws_id w)) as [->|]; [intros _|]; apply (si_next _ I); lia.
  - intros id. rewrite CN, F2, F1. rewrite in_app_iff, (si_freed _ I). unfold fupd. pose proof (si_next _ I (ws_id w) ltac:(lia)).
    destruct (Nat.eqb_spec (cnt s (ws_id w) - n) 1) as [C1|C1], (Nat.eqb_spec id (ws_id w)) as [->|N]; cbn; try lia.
  - rewrite F2, F1. destruct (Nat.eqb_spec (cnt s (ws_id w) - n) 1) as [C1|C1]; cbn; [|apply (si_nodup _ I)].
    constructor; [|apply (si_nodup _ I)]. rewrite (si_freed _ I). lia.
Qed.

Lemma exec_ok s o : SI s -> allowed s o ->
  exists s', exec s o = Some s' /\ SI s' /\ h_woken (st_heap s') = wakes s o ++ h_woken (st_heap s).
Proof.
  intros I AL. destruct o as [n raw slice|c i|c i|k|k|k|k|c]; cbn [wakes app].
  - apply new_ok; auto.
  - cbn [exec]. destruct (nth_error (st_sets s) c) as [w|] eqn:E; [|eauto].
    destruct (nth_error (ws_wakers w) i) as [p|] eqn:E'; [|eauto].
    destruct (si_sets _ I w) as (sl & n & SH & EW); [eapply nth_error_In; eauto|]. rewrite EW in E'. apply map_add_nth in E' as (L & ->).
    assert (exists h1, clone_waker (st_heap s) (sl + i) = Some h1) as (h1 & Eh).
    { unfold clone_waker. rewrite (slot_mem _ _ _ _ _ _ _ (si_inv _ I) SH L). destruct (inc_ok _ _ _ _ _ _ (si_inv _ I) SH) as (h1 & Q & _). eauto. }
    rewrite Eh. destruct (grow_held s (mkHeld (ws_id w) i (sl + i)) h1 _ _ _ I SH L eq_refl Eh) as (Q1 & Q2). eauto.
  - cbn [exec]. destruct (nth_error (st_sets s) c) as [w|] eqn:E; [|eauto].
    destruct (nth_error (ws_wakers w) i) as [p|] eqn:E'; [|eauto].
    destruct (si_sets _ I w) as (sl & n & SH & EW); [eapply nth_error_In; eauto|]. rewrite EW in E'. apply map_add_nth in E' as (L & ->).
    rewrite (wake_ok s _ _ _ _ i _ I SH L eq_refl). eexists. split; [reflexivity|]. split; [apply woken_SI; auto|reflexivity].
  - cbn [exec]. destruct (nth_error (st_held s) k) as [w|] eqn:E; [|eauto].
    destruct (si_held _ I w) as (raw & sl & n & SH & L & EP); [eapply nth_error_In; eauto|].
    assert (exists h1, clone_waker (st_heap s) (k_ptr w) = Some h1) as (h1 & Eh).
    { unfold clone_waker. rewrite EP, (slot_mem _ _ _ _ _ _ _ (si_inv _ I) SH L). destruct (inc_ok _ _ _ _ _ _ (si_inv _ I) SH) as (h1 & Q & _). eauto. }
    rewrite Eh. destruct (grow_held s w h1 _ _ _ I SH L EP Eh) as (Q1 & Q2). eauto.
  - cbn [exec]. destruct (nth_error (st_held s) k) as [w|] eqn:E; [|eauto].
    destruct (si_held _ I w) as (raw & sl & n & SH & L & EP); [eapply nth_error_In; eauto|].
    rewrite (wake_ok s _ _ _ _ _ _ I SH L EP). eexists. split; [reflexivity|]. split; [apply woken_SI; auto|reflexivity].
  - cbn [exec]. destruct (nth_error (st_held s) k) as [w|] eqn:E; [|eauto].
    destruct (si_held _ I w) as (raw & sl & n & SH & L & EP); [eapply nth_error_In; eauto|].
    unfold wake. rewrite (wake_ok s _ _ _ _ _ _ I SH L EP).
    set (h0 := mkHeap _ _ _ _).
    assert (exists h1, drop_waker h0 (k_ptr w) = Some h1) as (h1 & Eh).
    { unfold drop_waker. cbn [h0 h_mem]. rewrite EP, (slot_mem _ _ _ _ _ _ _ (si_inv _ I) SH L).
      assert (I0 : Inv h0 (cnt s)) by (destruct (si_inv _ I) as [Q1 Q2 Q3]; split; auto).
      destruct (dec_ok h0 _ _ _ _ _ I0 SH) as (h1 & Q & _). eauto. }
    rewrite Eh. destruct (shrink_held s k w h0 h1 I E eq_refl eq_refl eq_refl Eh) as (Q1 & Q2). eexists. split; [reflexivity|]. split; [exact Q1|].
    cbn [st_heap]. rewrite Q2. reflexivity.
  - cbn [exec]. destruct (nth_error (st_held s) k) as [w|] eqn:E; [|eauto].
    destruct (si_held _ I w) as (raw & sl & n & SH & L & EP); [eapply nth_error_In; eauto|].
    assert (exists h1, drop_waker (st_heap s) (k_ptr w) = Some h1) as (h1 & Eh).
    { unfold drop_waker. rewrite EP, (slot_mem _ _ _ _ _ _ _ (si_inv _ I) SH L).
      destruct (dec_ok _ _ _ _ _ _ (si_inv _ I) SH) as (h1 & Q & _). eauto. }
    rewrite Eh. destruct (shrink_held s k w (st_heap s) h1 I E eq_refl eq_refl eq_refl Eh) as (Q1 & Q2). eauto.
  - cbn [exec]. destruct (nth_error (st_sets s) c) as [w|] eqn:E; [|eauto].
    destruct (dropset_ok s c w I E) as (h' & -> & Q1 & Q2). eauto.
Qed.

Lemma reach_SI s : reach s -> SI s.
Proof.
  induction 1 as [|s o s' R IH A E]; [apply init_SI|]. destruct (exec_ok s o IH A) as (s1 & E1 & I1 & _). congruence.
Qed.
