(** Replacing a contiguous block in nested contents. *)
From Coq Require Import List Arith NArith Bool Lia Permutation.
From Verif Require Import Dom Context DynList DynList_proofs.
Import ListNotations.

(** ** replacing the block that starts with [s] (of length [len]) by [b'] *)
Fixpoint repl (s : node) (len : nat) (b' L : list node) : list node :=
  match L with
  | [] => []
  | x :: t => if Nat.eqb x s then b' ++ skipn len (x :: t) else x :: repl s len b' t
  end.

Lemma repl_notin s len b' L : ~ In s L -> repl s len b' L = L.
Proof.
  induction L as [|x t IH]; simpl; intro H; auto.
  destruct (Nat.eqb_spec x s); [subst; exfalso; auto|]. f_equal; auto.
Qed.
Lemma skipn_length_app {A} (b C : list A) : skipn (length b) (b ++ C) = C.
Proof. induction b; simpl; auto. Qed.
Lemma repl_at s b b' A C : hd_error b = Some s -> ~ In s A ->
  repl s (length b) b' (A ++ b ++ C) = A ++ b' ++ C.
Proof.
  intros HB NA. induction A as [|x A IH].
  - destruct b as [|y b]; [discriminate|]. simpl in HB. inversion HB; subst y.
    simpl. rewrite Nat.eqb_refl. f_equal. apply skipn_length_app.
  - simpl. destruct (Nat.eqb_spec x s); [subst; exfalso; apply NA; simpl; auto|].
    f_equal. apply IH. intro; apply NA; simpl; auto.
Qed.
Lemma repl_app_l s len b' A L : ~ In s A -> repl s len b' (A ++ L) = A ++ repl s len b' L.
Proof.
  intro NA. induction A as [|x A IH]; auto. simpl.
  destruct (Nat.eqb_spec x s); [subst; exfalso; apply NA; simpl; auto|].
  f_equal. apply IH. intro; apply NA; simpl; auto.
Qed.

Section Flat.
  Context {X : Type}.
  Variables (s : node) (b b' : list node) (h h' : X -> list node).
  Hypothesis HB : hd_error b = Some s.
  Lemma repl_flat xs : NoDup (flat_map h xs) ->
    (forall x, In x xs -> In s (h x) -> exists A C, h x = A ++ b ++ C /\ h' x = A ++ b' ++ C) ->
    (forall x, In x xs -> ~ In s (h x) -> h' x = h x) ->
    repl s (length b) b' (flat_map h xs) = flat_map h' xs.
  Proof.
    induction xs as [|x xs IH]; simpl; intros ND H1 H2; auto.
    destruct (in_dec Nat.eq_dec s (h x)) as [IN|NI].
    - destruct (H1 x (or_introl eq_refl) IN) as (A & C & E & E').
      assert (NR : forall y, In y xs -> ~ In s (h y)).
      { intros y Hy Hs. apply in_split in IN as (u & v & EQ). rewrite EQ in ND.
        rewrite <- app_assoc in ND. simpl in ND. apply NoDup_remove_2 in ND. apply ND.
        rewrite !in_app_iff. right; right. apply in_flat_map. eauto. }
      assert (ER : flat_map h' xs = flat_map h xs).
      { clear - NR H2. induction xs as [|y xs IH]; simpl; auto. rewrite IH, (H2 y); simpl; auto.
        - apply NR; simpl; auto.
        - intros z Hz; apply H2; simpl in *; tauto.
        - intros z Hz; apply NR; simpl; auto. }
      rewrite ER, E', E, <- !app_assoc. apply repl_at; auto.
      intro HA. rewrite E in ND. destruct b as [|y b0]; [discriminate|]. simpl in HB. inversion HB; subst y.
      rewrite <- !app_assoc in ND. apply in_split in HA as (u & v & ->).
      rewrite <- app_assoc in ND. simpl in ND. apply NoDup_remove_2 in ND. apply ND.
      rewrite !in_app_iff. simpl. auto.
    - rewrite repl_app_l by auto. rewrite (H2 x) by (simpl; auto). f_equal. apply IH.
      + clear - ND. induction (h x); simpl in *; auto. inversion ND; auto.
      + intros y Hy. apply H1; simpl; auto.
      + intros y Hy. apply H2; simpl; auto.
  Qed.
End Flat.

Lemma flat_ext_in {A B} (f g : A -> list B) l : (forall x, In x l -> f x = g x) -> flat_map f l = flat_map g l.
Proof.
  induction l as [|x l IH]; simpl; intro H; auto. rewrite H, IH; auto.
Qed.

(** ** nested contents *)
Notation lid := nat (only parsing).
Definition hpart (blk : lid -> list node) (x : node + lid) : list node :=
  match x with inl n => [n] | inr l => blk l end.
Definition flatn (blk : lid -> list node) (xs : list (node + lid)) : list node := flat_map (hpart blk) xs.
Definition segn (cnt : gid -> list node) (x : seg) : list node :=
  match x with
  | SItem _ st => st_s st :: cnt (st_g st) ++ [st_e st]
  | SDead st => cnt (st_g st)
  end.
Definition mids (cnt : gid -> list node) (segs : list seg) : list node := flat_map (segn cnt) segs.

Lemma flatn_app blk a b : flatn blk (a ++ b) = flatn blk a ++ flatn blk b.
Proof. apply flat_map_app. Qed.
Lemma mids_app c a b : mids c (a ++ b) = mids c a ++ mids c b.
Proof. apply flat_map_app. Qed.

(** the contents of a list's block *)
Definition whole (cnt : gid -> list node) (s e : node) (o : list seg) : list node := s :: mids cnt o ++ [e].

(** a world of lists and places whose contents are given by arrangements *)
Record EQS (PL : gid -> Prop) (LS : lid -> node -> node -> Prop)
  (arr : gid -> list (node + lid)) (cnt : gid -> list node) (blk : lid -> list node)
  (ord : lid -> list seg) : Prop := {
  eq_cnt : forall g, PL g -> cnt g = flatn blk (arr g);
  eq_blk : forall l s e, LS l s e -> blk l = whole cnt s e (ord l);
  eq_arrl : forall g l, PL g -> In (inr l) (arr g) -> exists s e, LS l s e;
  eq_ordg : forall l s e x, LS l s e -> In x (ord l) -> PL (sgid x)
}.

(** a node of a list's block sits in the blocks of the enclosing lists together with
    the whole block *)
Section Inside.
  Variables (PL : gid -> Prop) (LS : lid -> node -> node -> Prop)
    (arr : gid -> list (node + lid)) (cnt : gid -> list node) (blk : lid -> list node)
    (ord : lid -> list seg).
  Hypothesis E : EQS PL LS arr cnt blk ord.
  Variables (l0 : lid) (s0 : node).
  (** [s0] is only the start marker of [l0] *)
  Hypothesis H1 : forall g, PL g -> ~ In (inl s0) (arr g).
  Hypothesis H2 : forall l s e, LS l s e -> l <> l0 -> s <> s0 /\ e <> s0.
  Hypothesis H3 : forall l s e k st, LS l s e -> l <> l0 -> In (SItem k st) (ord l) -> st_s st <> s0 /\ st_e st <> s0.

  Lemma start_inside : forall n,
    (forall g, PL g -> length (cnt g) <= n -> In s0 (cnt g) -> exists A C, cnt g = A ++ blk l0 ++ C) /\
    (forall l s e, LS l s e -> l <> l0 -> length (blk l) <= n -> In s0 (blk l) ->
       exists A C, blk l = A ++ blk l0 ++ C).
  Proof.
    induction n as [n IH] using lt_wf_ind.
    assert (PB : forall l s e, LS l s e -> l <> l0 -> length (blk l) <= n -> In s0 (blk l) ->
      exists A C, blk l = A ++ blk l0 ++ C).
    { intros l s e L N LE HI. destruct (H2 _ _ _ L N) as [NS NE].
      assert (EB := eq_blk _ _ _ _ _ _ E _ _ _ L). unfold whole in EB.
      rewrite EB in HI. destruct HI as [HI|HI]; [congruence|].
      apply in_app_iff in HI as [HI|[HI|[]]]; [|congruence].
      unfold mids in HI. apply in_flat_map in HI as (x & HX & HI).
      assert (PX := eq_ordg _ _ _ _ _ _ E _ _ _ _ L HX).
      apply in_split in HX as (o1 & o2 & EO).
      assert (HC : In s0 (cnt (sgid x))).
      { destruct x as [k st|st]; simpl in HI |- *; auto.
        destruct (H3 l s e k st L N) as [M1 M2]; [rewrite EO; apply in_app_iff; simpl; auto|].
        destruct HI as [HI|HI]; [congruence|]. apply in_app_iff in HI as [HI|[HI|[]]]; auto. congruence. }
      rewrite EB, EO, mids_app in LE. simpl in LE.
      assert (LC : length (cnt (sgid x)) < n).
      { repeat (rewrite app_length in LE; simpl in LE). destruct x; simpl in *;
          repeat (rewrite app_length in LE; simpl in LE); unfold sgid in *; simpl in *; lia. }
      destruct (proj1 (IH _ LC) (sgid x) PX (le_n _) HC) as (A & C & EC).
      rewrite EB, EO, mids_app. unfold mids; simpl. destruct x as [k st|st]; unfold sgid in EC; simpl in EC |- *; rewrite EC.
      - exists (s :: flat_map (segn cnt) o1 ++ st_s st :: A), (C ++ [st_e st] ++ flat_map (segn cnt) o2 ++ [e]).
        simpl. repeat (rewrite <- app_assoc; simpl). auto.
      - exists (s :: flat_map (segn cnt) o1 ++ A), (C ++ flat_map (segn cnt) o2 ++ [e]).
        simpl. repeat (rewrite <- app_assoc; simpl). auto. }
    split; auto.
    intros g P LE HI. assert (EC := eq_cnt _ _ _ _ _ _ E _ P).
    rewrite EC in HI. unfold flatn in HI. apply in_flat_map in HI as (x & HX & HI).
    assert (HX' := HX). apply in_split in HX as (a1 & a2 & EA).
    destruct x as [m|l].
    { simpl in HI. destruct HI as [HI|[]]. subst m. exfalso. apply (H1 g P). auto. }
    simpl in HI. destruct (Nat.eq_dec l l0) as [EQ|N].
    - subst l. exists (flatn blk a1), (flatn blk a2). rewrite EC, EA, flatn_app. auto.
    - destruct (eq_arrl _ _ _ _ _ _ E _ _ P HX') as (s & e & L).
      assert (LB : length (blk l) <= n).
      { rewrite EC, EA, flatn_app in LE. simpl in LE. rewrite !app_length in LE. lia. }
      destruct (PB _ _ _ L N LB HI) as (A & C & EB).
      exists (flatn blk a1 ++ A), (C ++ flatn blk a2).
      rewrite EC, EA, flatn_app. unfold flatn; simpl. rewrite EB, <- !app_assoc. auto.
  Qed.
  Lemma start_in_cnt g : PL g -> In s0 (cnt g) -> exists A C, cnt g = A ++ blk l0 ++ C.
  Proof. intros P HI. exact (proj1 (start_inside _) g P (le_n _) HI). Qed.
  Lemma start_in_blk l s e : LS l s e -> l <> l0 -> In s0 (blk l) -> exists A C, blk l = A ++ blk l0 ++ C.
  Proof. intros L N HI. exact (proj2 (start_inside _) l s e L N (le_n _) HI). Qed.
End Inside.

(** ** changing one list (its items, and possibly the content of one of its places) *)
Section Change.
  Variables (PL : gid -> Prop) (LS : lid -> node -> node -> Prop)
    (arr : gid -> list (node + lid)) (cnt : gid -> list node) (blk : lid -> list node)
    (ord : lid -> list seg).
  Hypothesis E : EQS PL LS arr cnt blk ord.
  Variables (l0 : lid) (s0 e0 : node).
  Hypothesis L0 : LS l0 s0 e0.
  Hypothesis H1 : forall g, PL g -> ~ In (inl s0) (arr g).
  Hypothesis H2 : forall l s e, LS l s e -> l <> l0 -> s <> s0 /\ e <> s0.
  Hypothesis H3 : forall l s e k st, LS l s e -> l <> l0 -> In (SItem k st) (ord l) -> st_s st <> s0 /\ st_e st <> s0.
  Hypothesis LSU : forall l s e s' e', LS l s e -> LS l s' e' -> s = s' /\ e = e'.
  Hypothesis NDc : forall g, PL g -> NoDup (cnt g).
  Hypothesis NDb : forall l s e, LS l s e -> NoDup (blk l).

  (** the new arrangement: the place [gs] becomes [a1], the list's items [o1] *)
  Variables (gs : gid) (a1 : list (node + lid)) (o1 : list seg).
  Definition c1 := flatn blk a1.
  Definition cnt1 := upd cnt gs c1.
  Definition b1 := whole cnt1 s0 e0 o1.
  Definition rho := repl s0 (length (blk l0)) b1.
  Definition cnt' (g : gid) := if Nat.eqb g gs then c1 else rho (cnt g).
  Definition blk' (l : lid) := if Nat.eqb l l0 then b1 else rho (blk l).
  Definition arr' := upd arr gs a1.
  Definition ord' := upd ord l0 o1.

  Hypothesis G1 : ~ In s0 c1.
  Hypothesis G2 : ~ In (inr l0) a1.
  Hypothesis G3 : forall x, In x o1 -> PL (sgid x) \/ sgid x = gs.
  Hypothesis G4 : forall x, In x o1 -> sgid x <> gs -> ~ In s0 (cnt (sgid x)).
  Hypothesis G5 : forall l s e x, LS l s e -> l <> l0 -> In x (ord l) -> sgid x <> gs.
  Hypothesis G6 : forall l, In (inr l) a1 -> exists s e, LS l s e.

  Lemma blk_hd : hd_error (blk l0) = Some s0.
  Proof. rewrite (eq_blk _ _ _ _ _ _ E _ _ _ L0). auto. Qed.

  Lemma hpart_new xs : NoDup (flatn blk xs) -> (forall l, In (inr l) xs -> exists s e, LS l s e) ->
    ~ In (inl s0) xs -> rho (flatn blk xs) = flatn blk' xs.
  Proof.
    intros ND HL HN. apply repl_flat; auto using blk_hd.
    - intros [m|l] Hx Hs.
      + simpl in Hs. destruct Hs as [Hs|[]]. subst. contradiction.
      + simpl in Hs |- *. unfold blk'. destruct (Nat.eqb_spec l l0) as [->|N].
        * exists [], []. simpl. rewrite !app_nil_r. auto.
        * destruct (HL l Hx) as (s & e & L).
          destruct (start_in_blk _ _ _ _ _ _ E l0 s0 H1 H2 H3 l s e L N Hs) as (A & C & EB).
          exists A, C. split; auto. rewrite EB. apply repl_at; auto using blk_hd.
          intro HA. assert (NB := NDb _ _ _ L). rewrite EB in NB.
          apply in_split in HA as (u & v & ->). rewrite <- app_assoc in NB. simpl in NB.
          apply NoDup_remove_2 in NB. apply NB. rewrite !in_app_iff.
          right; right; left. assert (B0 := blk_hd). destruct (blk l0); inversion B0. simpl; auto.
    - intros [m|l] Hx Hs; auto. simpl in *. unfold blk'. destruct (Nat.eqb_spec l l0) as [->|N].
      + exfalso. apply Hs. assert (B0 := blk_hd). destruct (blk l0); inversion B0. simpl; auto.
      + apply repl_notin; auto.
  Qed.

  Lemma rho_cnt_in_l0 x : In x o1 -> cnt' (sgid x) = cnt1 (sgid x).
  Proof.
    intro Hx. unfold cnt', cnt1, upd. destruct (Nat.eqb_spec (sgid x) gs) as [EQ|N]; auto.
    apply repl_notin. apply G4; auto.
  Qed.

  Lemma mids_ext c c' o : (forall x, In x o -> c (sgid x) = c' (sgid x)) -> mids c o = mids c' o.
  Proof.
    intro H. induction o as [|x o IH]; simpl; auto. unfold mids in *. simpl.
    rewrite IH by (intros; apply H; simpl; auto). f_equal.
    assert (HX := H x (or_introl eq_refl)). unfold sgid in HX.
    destruct x; simpl in *; rewrite HX; auto.
  Qed.

  Lemma change : EQS (fun g => PL g \/ g = gs) LS arr' cnt' blk' ord'.
  Proof.
    constructor.
    - intros g P. unfold cnt', arr', upd. destruct (Nat.eqb_spec g gs) as [EQ|N].
      + unfold c1. apply flat_ext_in. intros [m|l] Hx; auto. simpl. unfold blk'.
        destruct (Nat.eqb_spec l l0) as [->|N]; [contradiction|]. symmetry. apply repl_notin.
        intro HI. apply G1. unfold c1, flatn. apply in_flat_map. exists (inr l); auto.
      + destruct P as [P|P]; [|contradiction].
        rewrite (eq_cnt _ _ _ _ _ _ E _ P). apply hpart_new; auto.
        * rewrite <- (eq_cnt _ _ _ _ _ _ E _ P); auto.
        * intros l Hl. apply (eq_arrl _ _ _ _ _ _ E g l P Hl).
    - intros l s e L. unfold blk', ord', upd. destruct (Nat.eqb_spec l l0) as [->|N].
      + destruct (LSU _ _ _ _ _ L L0) as [-> ->]. unfold b1, whole. f_equal. f_equal.
        symmetry. apply mids_ext. intros. apply rho_cnt_in_l0; auto.
      + assert (EB := eq_blk _ _ _ _ _ _ E _ _ _ L).
        destruct (H2 _ _ _ L N) as [NS NE]. rewrite EB. unfold whole at 2.
        unfold whole at 1. unfold rho. simpl. destruct (Nat.eqb_spec s s0); [contradiction|].
        f_equal. change (mids cnt (ord l) ++ [e]) with (mids cnt (ord l) ++ [e]).
        assert (NB := NDb _ _ _ L). rewrite EB in NB. unfold whole in NB.
        assert (NM : NoDup (mids cnt (ord l))).
        { inversion NB; subst. clear - H5. induction (mids cnt (ord l)); simpl in *; [constructor|].
          inversion H5; subst. constructor; auto. rewrite in_app_iff in H1. tauto. }
        assert (RM : rho (mids cnt (ord l)) = mids cnt' (ord l)).
        { unfold mids. apply repl_flat; auto using blk_hd.
          - intros x Hx Hs. assert (PX := eq_ordg _ _ _ _ _ _ E _ _ _ _ L Hx).
            assert (NG := G5 _ _ _ _ L N Hx).
            assert (HC : In s0 (cnt (sgid x))).
            { destruct x as [k st|st]; simpl in Hs |- *; auto.
              destruct (H3 l s e k st L N Hx) as [M1 M2].
              destruct Hs as [Hs|Hs]; [congruence|]. apply in_app_iff in Hs as [Hs|[Hs|[]]]; auto. congruence. }
            destruct (start_in_cnt _ _ _ _ _ _ E l0 s0 H1 H2 H3 _ PX HC) as (A & C & EC).
            assert (RC : rho (cnt (sgid x)) = A ++ b1 ++ C).
            { rewrite EC. apply repl_at; auto using blk_hd.
              intro HA. assert (NC := NDc _ PX). rewrite EC in NC.
              apply in_split in HA as (u & v & ->). rewrite <- app_assoc in NC. simpl in NC.
              apply NoDup_remove_2 in NC. apply NC. rewrite !in_app_iff.
              right; right; left. assert (B0 := blk_hd). destruct (blk l0); inversion B0. simpl; auto. }
            destruct x as [k st|st]; unfold sgid in *; simpl in *; unfold cnt';
              (destruct (Nat.eqb_spec (st_g st) gs); [contradiction|]); rewrite RC, EC;
              [exists (st_s st :: A), (C ++ [st_e st]); split; simpl; repeat (rewrite <- app_assoc; simpl); auto|exists A, C; auto].
          - intros x Hx Hs. assert (NG := G5 _ _ _ _ L N Hx).
            assert (HC : rho (cnt (sgid x)) = cnt (sgid x)).
            { apply repl_notin. intro HI. apply Hs. destruct x; unfold sgid in HI; simpl in *; auto.
              right. apply in_app_iff; auto. }
            destruct x as [k st|st]; unfold sgid in *; simpl in *; unfold cnt';
              (destruct (Nat.eqb_spec (st_g st) gs); [contradiction|]); rewrite HC; auto. }
        destruct (in_dec Nat.eq_dec s0 (mids cnt (ord l))) as [HI|HN].
        * rewrite <- RM. unfold rho.
          assert (exists A C, mids cnt (ord l) = A ++ blk l0 ++ C) as (A & C & EM).
          { assert (SB : In s0 (blk l)) by (rewrite EB; right; apply in_app_iff; auto).
            unfold mids in HI. apply in_flat_map in HI as (x & HX & HI).
            assert (PX := eq_ordg _ _ _ _ _ _ E _ _ _ _ L HX).
            assert (HC : In s0 (cnt (sgid x))).
            { destruct x as [k st|st]; simpl in HI |- *; auto.
              destruct (H3 l s e k st L N HX) as [M1 M2].
              destruct HI as [Hs|Hs]; [congruence|]. apply in_app_iff in Hs as [Hs|[Hs|[]]]; auto. congruence. }
            destruct (start_in_cnt _ _ _ _ _ _ E l0 s0 H1 H2 H3 _ PX HC) as (A & C & EC).
            apply in_split in HX as (u & v & EO). rewrite EO, mids_app.
            unfold mids; simpl. destruct x as [k st|st]; unfold sgid in EC; simpl in EC |- *; rewrite EC.
            - exists (flat_map (segn cnt) u ++ st_s st :: A), (C ++ [st_e st] ++ flat_map (segn cnt) v).
              simpl. repeat (rewrite <- app_assoc; simpl). auto.
            - exists (flat_map (segn cnt) u ++ A), (C ++ flat_map (segn cnt) v).
              simpl. repeat (rewrite <- app_assoc; simpl). auto. }
          assert (NA : ~ In s0 A).
          { intro HA. rewrite EM in NM. apply in_split in HA as (u & v & ->).
            rewrite <- app_assoc in NM. simpl in NM. apply NoDup_remove_2 in NM. apply NM.
            rewrite !in_app_iff. right; right; left. assert (B0 := blk_hd).
            destruct (blk l0); inversion B0. simpl; auto. }
          rewrite EM, <- !app_assoc, !repl_at; auto using blk_hd. rewrite <- !app_assoc; auto.
        * rewrite <- RM. unfold rho. rewrite (repl_notin _ _ _ (mids cnt (ord l))) by auto.
          apply repl_notin. rewrite in_app_iff. simpl. intuition congruence.
    - intros g l [P|P] HI; unfold arr', upd in HI.
      + destruct (Nat.eqb_spec g gs); [apply G6; auto|]. eapply eq_arrl; eauto.
      + subst. rewrite Nat.eqb_refl in HI. apply G6; auto.
    - intros l s e x L Hx. unfold ord', upd in Hx. destruct (Nat.eqb_spec l l0) as [->|N].
      + apply G3; auto.
      + left. eapply eq_ordg; eauto.
  Qed.

  (** hosts: what contains a place or a block is changed by [rho] as well *)
  Lemma rho_host B g : PL g -> g <> gs -> ~ In s0 B -> NoDup (B ++ cnt g) ->
    rho (B ++ cnt g) = B ++ cnt' g.
  Proof.
    intros P N NB ND. unfold rho. rewrite repl_app_l by auto. f_equal.
    unfold cnt'. destruct (Nat.eqb_spec g gs); [contradiction|]. auto.
  Qed.
End Change.
