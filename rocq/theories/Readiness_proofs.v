(** The two readiness sets are the same abstract thing: a list without repetitions
    of the awake children, in order of wake-up. *)
From Coq Require Import List Arith Bool Lia.
From Verif Require Import Arena Spec_arena Readiness Combinator Spec_comb Util.
Import ListNotations.

Lemma mem_true i l : mem i l = true <-> In i l.
Proof.
  unfold mem. rewrite existsb_exists. split.
  - intros (x & H & E). apply Nat.eqb_eq in E. now subst.
  - intro H. exists i. split; auto. apply Nat.eqb_refl.
Qed.
Lemma mem_false i l : mem i l = false <-> ~ In i l.
Proof. rewrite <- mem_true. destruct (mem i l); intuition congruence. Qed.
Lemma mem_app i l1 l2 : mem i (l1 ++ l2) = mem i l1 || mem i l2.
Proof. unfold mem. apply existsb_app. Qed.

Definition RaInv (r : ra) (n : nat) (aw : list nat) (p : waker) : Prop :=
  ra_n r = n /\ ra_awake_list r = aw /\ ra_parent r = p /\
  (forall i, i < n -> ra_set r i = mem i aw) /\ (forall i, i < n -> ra_list r i < n).
Definition RvInv (r : rv) (n : nat) (aw : list nat) (p : waker) : Prop :=
  rv_n r = n /\ rv_awake_list r = aw /\ rv_parent r = p /\ (forall i, i < n -> rv_set r i = mem i aw).
Definition RdInv (r : rd) (n : nat) (aw : list nat) (p : waker) : Prop :=
  NoDup aw /\ (forall i, In i aw -> i < n) /\
  match r with RA a => RaInv a n aw p | RV v => RvInv v n aw p end.

Lemma nodup_bound n (aw : list nat) : NoDup aw -> (forall i, In i aw -> i < n) -> length aw <= n.
Proof.
  intros N H. rewrite <- (seq_length n 0). apply NoDup_incl_length; auto.
  intros x Hx. apply in_seq. split; [lia|]. cbn. apply H; auto.
Qed.

Lemma ra_len_aw r n aw p : RaInv r n aw p -> ra_len r = length aw.
Proof. intros (_ & <- & _). unfold ra_awake_list. now rewrite map_length, seq_length. Qed.

Lemma nodup_snoc (l : list nat) i : NoDup l -> ~ In i l -> NoDup (l ++ [i]).
Proof.
  intros N H. apply nodup_app_intro; auto. repeat constructor; auto.
  intros x Hx [<-|[]]. auto.
Qed.

Lemma rd_new_ok k n : RdInv (match k with KVec => RV (rv_new n) | _ => RA (ra_new n) end) n (seq 0 n) dummy_waker.
Proof.
  assert (M : forall i, i < n -> true = mem i (seq 0 n)).
  { intros i Hi. symmetry. apply mem_true, in_seq. lia. }
  split; [apply seq_NoDup|split; [intros i Hi; apply in_seq in Hi; lia|]].
  destruct k; unfold RaInv, RvInv, ra_awake_list; cbn; rewrite ?map_id; auto.
Qed.

Lemma rd_set_parent_ok ww r n aw p w : RdInv r n aw p -> will_wake_ok ww ->
  exists p', RdInv (rd_set_parent ww r w) n aw p' /\ same_task p' w.
Proof.
  intros (N & B & H) WW. destruct r as [a|v]; cbn.
  - unfold ra_set_parent. destruct H as (H1 & H2 & H3 & H4 & H5). destruct (ww (ra_parent a) w) eqn:E.
    + exists p. split; [|rewrite <- H3; apply WW; auto]. split; [auto|split; [auto|]]. cbn. unfold RaInv. auto.
    + exists w. split; [|reflexivity]. split; [auto|split; [auto|]]. cbn. unfold RaInv. cbn. auto.
  - unfold rv_set_parent. destruct H as (H1 & H2 & H3 & H4). destruct (ww (rv_parent v) w) eqn:E.
    + exists p. split; [|rewrite <- H3; apply WW; auto]. split; [auto|split; [auto|]]. cbn. unfold RvInv. auto.
    + exists w. split; [|reflexivity]. split; [auto|split; [auto|]]. cbn. unfold RvInv. cbn. auto.
Qed.

Lemma rd_awake_list_ok r n aw p : RdInv r n aw p -> rd_awake_list r = aw.
Proof. intros (_ & _ & H). destruct r; destruct H as (_ & H & _); exact H. Qed.

Lemma mem_snoc_eq i x aw : mem x (aw ++ [i]) = if Nat.eqb x i then true else mem x aw.
Proof. rewrite mem_app. cbn. destruct (Nat.eqb x i); rewrite ?orb_true_r, ?orb_false_r; auto. Qed.

Lemma len_one {A} (l : list A) x : (length (l ++ [x]) =? 1) = match l with [] => true | _ => false end.
Proof. rewrite app_length. destruct l; cbn; auto. rewrite Nat.add_comm. cbn. reflexivity. Qed.

(** waking child [i] *)
Lemma rd_wake_ok r n aw p i : RdInv r n aw p -> i < n ->
  exists r', rd_wake r i = Some (r', if mem i aw then None else match aw with [] => Some p | _ => None end)
          /\ RdInv r' n (if mem i aw then aw else aw ++ [i]) p.
Proof.
  intros (N & B & H) Hi. destruct r as [a|v]; cbn.
  - pose proof (ra_len_aw _ _ _ _ H) as L. destruct H as (H1 & H2 & H3 & H4 & H5).
    unfold ra_wake, ra_set_woken. rewrite H1. apply Nat.ltb_lt in Hi as Hi'. rewrite Hi', H4 by auto.
    destruct (mem i aw) eqn:M.
    + exists (RA a). cbn. split; auto. split; [auto|split; [auto|]]. unfold RaInv; auto.
    + apply mem_false in M.
      assert (LT : length aw < n).
      { pose proof (nodup_bound n (aw ++ [i]) (nodup_snoc _ _ N M)) as X. rewrite app_length in X. cbn in X.
        assert (length aw + 1 <= n); [|lia]. apply X. intros x Hx. apply in_app_iff in Hx as [Hx|[<-|[]]]; auto. }
      rewrite L. apply Nat.ltb_lt in LT as LT'. rewrite LT'.
      set (a' := mkRA n (fupd (ra_set a) i true) (fupd (ra_list a) (length aw) i) (S (length aw)) (ra_parent a)).
      exists (RA a'). cbn [negb andb ra_len a'].
      split.
      * cbn. rewrite H3. destruct aw; reflexivity.
      * split; [apply nodup_snoc; auto|split].
        { intros x Hx. apply in_app_iff in Hx as [Hx|[<-|[]]]; auto. }
        unfold RaInv, a'. cbn [ra_n ra_parent ra_set ra_list]. split; [auto|]. split.
        { unfold ra_awake_list. cbn [ra_list ra_len]. rewrite seq_S, map_app. cbn [map]. f_equal.
          - transitivity (ra_awake_list a); [|exact H2]. unfold ra_awake_list. rewrite L. apply map_ext_in. intros x Hx. apply in_seq in Hx.
            unfold fupd. destruct (Nat.eqb_spec x (length aw)); auto. lia.
          - unfold fupd. now rewrite Nat.add_0_l, Nat.eqb_refl. }
        split; [auto|]. split.
        { intros x Hx. unfold fupd. rewrite mem_snoc_eq. destruct (Nat.eqb x i); auto. }
        { intros x Hx. unfold fupd. destruct (Nat.eqb x (length aw)); auto. }
  - destruct H as (H1 & H2 & H3 & H4). unfold rv_awake_list in H2.
    unfold rv_wake, rv_set_woken. rewrite H1. apply Nat.ltb_lt in Hi as Hi'. rewrite Hi', H4 by auto.
    destruct (mem i aw) eqn:M.
    + exists (RV v). cbn. split; auto. split; [auto|split; [auto|]]. unfold RvInv; auto.
    + apply mem_false in M. rewrite H2.
      set (v' := mkRV n (fupd (rv_set v) i true) (aw ++ [i]) (rv_parent v)).
      exists (RV v'). cbn [negb andb rv_list v']. rewrite len_one. split.
      * cbn. rewrite H3. destruct aw; reflexivity.
      * split; [apply nodup_snoc; auto|split].
        { intros x Hx. apply in_app_iff in Hx as [Hx|[<-|[]]]; auto. }
        unfold RvInv, v'. cbn. split; [auto|]. split; [reflexivity|]. split; [auto|].
        intros x Hx. unfold fupd. rewrite mem_snoc_eq. destruct (Nat.eqb x i); auto.
Qed.

Lemma unset_all_ok n l : forall s, (forall i, In i l -> i < n) ->
  exists s', unset_all n s l = Some s' /\ forall i, s' i = if mem i l then false else s i.
Proof.
  induction l as [|x l IH]; cbn [unset_all In]; intros s H.
  - exists s. auto.
  - assert (x < n) as Hx by auto. apply Nat.ltb_lt in Hx. rewrite Hx.
    destruct (IH (fupd s x false)) as (s' & E & F); auto.
    exists s'. split; auto. intro i. rewrite F. unfold fupd.
    change (mem i (x :: l)) with (Nat.eqb i x || mem i l).
    destruct (Nat.eqb i x), (mem i l); reflexivity.
Qed.

Lemma rd_clear_ok r n aw p : RdInv r n aw p -> exists r', rd_clear r = Some r' /\ RdInv r' n [] p.
Proof.
  intros (N & B & H). destruct r as [a|v]; cbn.
  - pose proof (ra_len_aw _ _ _ _ H) as L. destruct H as (H1 & H2 & H3 & H4 & H5).
    assert (exists a', ra_clear a = Some a' /\ RaInv a' n [] p) as (a' & E & F).
    { unfold ra_clear. rewrite H1, L. destruct (length aw <? n / 64).
      - eexists. split; [reflexivity|]. unfold RaInv. cbn. auto.
      - destruct (unset_all_ok n (map (ra_list a) (seq 0 n)) (ra_set a)) as (s & E & F).
        { intros i Hi. apply in_map_iff in Hi as (j & <- & Hj). apply in_seq in Hj. apply H5. lia. }
        rewrite E. eexists. split; [reflexivity|]. unfold RaInv. cbn. repeat (split; [auto; fail|]).
        split; [|auto]. intros i Hi. rewrite F. destruct (mem i (map (ra_list a) (seq 0 n))) eqn:M; auto.
        rewrite H4 by auto. apply mem_false. apply mem_false in M. intro X. apply M. rewrite <- H2 in X.
        unfold ra_awake_list in X. apply in_map_iff in X as (j & Ej & Hj). apply in_map_iff. exists j. split; auto.
        apply in_seq in Hj. apply in_seq. pose proof (nodup_bound n aw N B). lia. }
    rewrite E. cbn. eexists. split; [reflexivity|]. split; [constructor|split; [intros i []|exact F]].
  - destruct H as (H1 & H2 & H3 & H4). unfold rv_awake_list in H2.
    assert (exists a', rv_clear v = Some a' /\ RvInv a' n [] p) as (a' & E & F).
    { unfold rv_clear. rewrite H1, H2. destruct (length aw * 64 <? n).
      - destruct (unset_all_ok n aw (rv_set v)) as (s & E & F); auto.
        rewrite E. eexists. split; [reflexivity|]. unfold RvInv. cbn. repeat (split; [auto; fail|]).
        intros i Hi. rewrite F, H4 by auto. destruct (mem i aw); auto.
      - eexists. split; [reflexivity|]. unfold RvInv. cbn. auto. }
    rewrite E. cbn. eexists. split; [reflexivity|]. split; [constructor|split; [intros i []|exact F]].
Qed.
