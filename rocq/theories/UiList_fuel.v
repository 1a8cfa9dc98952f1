(** Enough fuel exists for every poll: the nesting of lists inside items is finite,
    and a drop visits each stored future once. *)
From Coq Require Import List Arith NArith Bool Lia.
From Verif Require Import Util Position Dom Context Render_history Ui DynList UiList UiList_inv UiList_poll.
Import ListNotations.

(** from some amount of fuel on the result is the same, and it is not [NoFuel] *)
Definition settles {A} (F : nat -> res A) (Q : A -> Prop) : Prop :=
  exists N r, r <> NoFuel /\ (forall n, N <= n -> F n = r) /\ forall x, r = Ok x -> Q x.

Lemma settles_const {A} (r : res A) (Q : A -> Prop) : r <> NoFuel -> (forall x, r = Ok x -> Q x) -> settles (fun _ => r) Q.
Proof. intros N K. exists 0, r. auto. Qed.
Lemma settles_ok {A} (x : A) (Q : A -> Prop) : Q x -> settles (fun _ => Ok x) Q.
Proof. intro K. apply settles_const; [discriminate|]. intros y E. injection E as <-. auto. Qed.
Lemma settles_bind {A B} (F : nat -> res A) (G : nat -> A -> res B) (Q : A -> Prop) (Q' : B -> Prop) :
  settles F Q -> (forall x, Q x -> settles (fun n => G n x) Q') -> settles (fun n => rbind (F n) (G n)) Q'.
Proof.
  intros (N & r & NF & E & K) H. destruct r as [x| |m|].
  - destruct (H x (K x eq_refl)) as (N' & r' & NF' & E' & K'). exists (N + N'), r'. repeat split; auto.
    intros n L. rewrite E by lia. simpl. apply E'. lia.
  - exists N, Panic. repeat split; [discriminate| |discriminate]. intros n L. rewrite E; auto.
  - exists N, (Bad m). repeat split; [discriminate| |discriminate]. intros n L. rewrite E; auto.
  - congruence.
Qed.
Lemma settles_S {A} (F G : nat -> res A) Q : (forall n, G (S n) = F n) -> settles F Q -> settles G Q.
Proof.
  intros H (N & r & NF & E & K). exists (S N), r. repeat split; auto. intros n L. destruct n as [|n]; [lia|].
  rewrite H. apply E. lia.
Qed.
Lemma settles_ext {A} (F G : nat -> res A) Q : (forall n, G n = F n) -> settles F Q -> settles G Q.
Proof. intros H (N & r & NF & E & K). exists N, r. repeat split; auto. intros n L. rewrite H. auto. Qed.
Lemma settles_imp {A} (F : nat -> res A) (Q Q' : A -> Prop) : (forall x, Q x -> Q' x) -> settles F Q -> settles F Q'.
Proof. intros H (N & r & NF & E & K). exists N, r. repeat split; auto. Qed.

(** ** sizes *)
Fixpoint fsz (f : ufut) : nat :=
  match f with
  | ULeaf | UList _ _ => 1
  | UElem _ _ _ _ c => S (fsz c)
  | UComb _ cs => S (fold_right (fun c n => fsz c + n) 0 cs)
  | UBlock c => S (fsz c)
  | UOwn _ _ c => S (fsz c)
  end.
Definition fssz (fs : list sib) : nat := fold_right (fun s n => fsz (sb_f s) + n) 0 fs.
Definition lssz (ls : store) : nat := fold_right (fun e n => fssz (lo_futs (snd e)) + n) 0 ls.

Lemma lssz_set l o' : forall ls, NoDup (map fst ls) -> forall o, get_l l ls = Some o ->
  lssz (set_l l o' ls) + fssz (lo_futs o) = lssz ls + fssz (lo_futs o').
Proof.
  induction ls as [|[k o1] ls IH]; intros ND o G; [discriminate|]. simpl in ND. apply NoDup_cons_iff in ND as [N1 N2].
  simpl in *. destruct (Nat.eqb_spec k l) as [->|NE].
  - injection G as ->. simpl. fold (set_l l o' ls).
    assert (E : set_l l o' ls = ls).
    { unfold set_l. rewrite <- (map_id ls) at 2. apply map_ext_in. intros [k2 o2] Q. simpl. destruct (Nat.eqb_spec k2 l) as [->|]; auto.
      exfalso. apply N1. apply in_map_iff. exists (l, o2). auto. }
    rewrite E. lia.
  - cbn [snd]. specialize (IH N2 o G). lia.
Qed.
Lemma keys_set l o : forall ls : store, map fst (set_l l o ls) = map fst ls.
Proof. induction ls as [|[k o1] ls IH]; simpl; auto. destruct (Nat.eqb_spec k l) as [->|]; simpl; congruence. Qed.
Lemma keys_del l (ls : store) : NoDup (map fst ls) -> NoDup (map fst (del_l l ls)).
Proof.
  induction ls as [|[k o] ls IH]; simpl; auto. intro ND. apply NoDup_cons_iff in ND as [N1 N2].
  destruct (Nat.eqb k l); simpl; auto. constructor; auto. intro Q. apply N1.
  apply in_map_iff in Q as (x & E & Q). apply filter_In in Q as [Q _]. apply in_map_iff. eauto.
Qed.
Lemma lssz_del l : forall ls, lssz (del_l l ls) <= lssz ls.
Proof. induction ls as [|[k o] ls IH]; simpl; auto. destruct (Nat.eqb k l); simpl; lia. Qed.

(** the table keeps its keys distinct, and holds at most [m] *)
Definition small (m : nat) (w : uworld) : Prop := NoDup (map fst (u_ls w)) /\ lssz (u_ls w) <= m.

Lemma small_unblock m b w : small m w -> small m (uunblock b w).
Proof. unfold uunblock. destruct (u_drop w) as [[g a]|]; auto. destruct (_ && _); auto. Qed.
Lemma small_block m b w : small m w -> small m (snd (ublock b w)).
Proof. unfold ublock. destruct (u_drop w) as [[g a]|]; auto. Qed.
Lemma settle_detach m c w : small m w -> settles (fun _ => udetach c w) (small m).
Proof.
  intro S. unfold udetach. destruct c as [c|]; [|apply settles_const; discriminate].
  destruct (remove_child_ctx c pos_default (u_r w)); simpl; [apply settles_ok; exact S|apply settles_const; discriminate].
Qed.
Lemma settle_seq {A} (F : nat -> A -> uworld -> res uworld) (P : uworld -> Prop) : forall l w, P w ->
  (forall x w, In x l -> P w -> settles (fun n => F n x w) P) -> settles (fun n => drop_seq (F n) l w) P.
Proof.
  induction l as [|x l IH]; intros w S K; [apply settles_ok; auto|].
  simpl. apply (settles_bind (fun n => F n x w) (fun n => drop_seq (F n) l) P P); [apply K; simpl; auto|].
  intros w' S'. apply IH; auto. intros; apply K; simpl; auto.
Qed.
Lemma settle_sib m c s (D : nat -> ufut -> uworld -> res uworld) w : small m w ->
  (forall w, small m w -> settles (fun n => D n (sb_f s) w) (small m)) ->
  settles (fun n => drop_sib (D n) c s w) (small m).
Proof.
  intros S K. unfold drop_sib. pose proof (small_block m (sb_g s, sb_a s) w S) as S1.
  destruct (ublock (sb_g s, sb_a s) w) as [b w1]. simpl in S1.
  apply (settles_bind (fun _ => if b then Ok w1 else _) (fun n w2 => rbind (D n (sb_f s) w2) _) (small m)).
  - destruct b; [apply settles_ok; auto|]. destruct c as [cx|]; [|apply settles_const; discriminate].
    destruct (remove_child_ctx _ pos_default (u_r w1)); simpl; [apply settles_ok; exact S1|apply settles_const; discriminate].
  - intros w2 S2. apply (settles_bind (fun n => D n (sb_f s) w2) (fun _ w3 => Ok (uunblock (sb_g s, sb_a s) w3)) (small m)); auto.
    intros w3 S3. apply settles_ok, small_unblock; auto.
Qed.

Lemma drop_settles : forall m f h c k w, fsz f + k <= m -> small k w ->
  settles (fun n => udrop_fut n h f c w) (small k).
Proof.
  induction m as [|m IH]; intros f h c k w L S; [destruct f; simpl in L; lia|].
  destruct f as [|n g a md ch|a cs|cur|l r|l a f].
  - apply (settles_S (fun _ => Ok w)); auto. apply settles_ok; auto.
  - simpl in L. eapply settles_S; [intro; reflexivity|]. cbn beta iota. cbn [udrop_fut].
    apply (settles_bind (fun _ => match md with Added => _ | _ => _ end) (fun n w2 => rbind (udrop_fut n h ch c w2) _) (small k)).
    + destruct md; [apply settle_detach; auto|apply settle_detach; auto|].
      pose proof (small_block k (h, a) w S) as S1. destruct (ublock (h, a) w) as [b w1]. simpl in S1.
      destruct b; [apply settles_ok; auto|apply settle_detach; auto].
    + intros w2 S2. apply (settles_bind (fun n => udrop_fut n h ch c w2) (fun _ w3 => Ok (uunblock (h, a) w3)) (small k)).
      * apply (IH ch); auto. lia.
      * intros w3 S3. apply settles_ok, small_unblock; auto.
  - simpl in L. eapply settles_S; [intro; reflexivity|]. cbn beta iota. cbn [udrop_fut].
    pose proof (small_block k (h, a) w S) as S1. destruct (ublock (h, a) w) as [b w1]. simpl in S1.
    apply (settles_bind (fun _ => if b then Ok w1 else udetach c w1) (fun n w2 => rbind (drop_seq (fun f => udrop_fut n h f c) cs w2) _) (small k)).
    + destruct b; [apply settles_ok; auto|apply settle_detach; auto].
    + intros w2 S2. apply (settles_bind (fun n => drop_seq (fun f => udrop_fut n h f c) cs w2) (fun _ w3 => Ok (uunblock (h, a) w3)) (small k)).
      * apply (settle_seq (fun n f => udrop_fut n h f c)); auto. intros f w' Q S'. apply (IH f); auto.
        assert (fsz f <= fold_right (fun c n => fsz c + n) 0 cs); [|lia].
        clear - Q. induction cs as [|x cs IHc]; [destruct Q|]. simpl. destruct Q as [->|Q]; [lia|]. specialize (IHc Q). lia.
      * intros w3 S3. apply settles_ok, small_unblock; auto.
  - simpl in L. eapply settles_S; [intro; reflexivity|]. cbn beta iota. cbn [udrop_fut]. apply (IH cur); auto. lia.
  - apply (settles_S (fun _ => if r then u_unrender l w else Ok w)); auto. destruct r; [|apply settles_ok; auto].
    unfold u_unrender. destruct (get_l l (u_ls w)) as [o|] eqn:G; [|apply settles_const; discriminate].
    destruct (move_nodes _ _ _ _ _ _) as [d'|]; simpl; [|apply settles_const; discriminate]. apply settles_ok.
    destruct S as [S1 S2]. split; simpl; [rewrite keys_set; auto|].
    match goal with |- lssz (set_l l ?o' _) <= _ => pose proof (lssz_set l o' _ S1 _ G) as E end. simpl in E. lia.
  - simpl in L. eapply settles_S; [intro; reflexivity|]. cbn beta iota. cbn [udrop_fut].
    apply (settles_bind (fun n => udrop_fut n h f c w) (fun n w1 => match get_l l (u_ls w1) with None => _ | Some o => _ end) (small k)); [apply (IH f); auto; lia|].
    intros w1 S1. destruct (get_l l (u_ls w1)) as [o|] eqn:G; [|apply settles_const; discriminate].
    destruct (dl_cont (lo_l o)); [apply settles_const; discriminate|].
    pose proof (small_block k (h, a) w1 S1) as S2.
    assert (EL : u_ls (snd (ublock (h, a) w1)) = u_ls w1) by (unfold ublock; destruct (u_drop w1); auto).
    destruct (ublock (h, a) w1) as [b w2]. simpl in S2, EL. rewrite <- EL in G.
    set (w2' := w_ls w2 (set_l l (mkLO (lo_l o) (lo_keys o) []) (u_ls w2))).
    assert (S3 : small (k - fssz (lo_futs o)) w2').
    { destruct S2 as [S2 S2']. split; simpl; [rewrite keys_set; auto|].
      pose proof (lssz_set l (mkLO (lo_l o) (lo_keys o) []) _ S2 _ G) as E. simpl in E. lia. }
    assert (KK : fssz (lo_futs o) <= k).
    { destruct S2 as [S2 S2']. pose proof (lssz_set l (mkLO (lo_l o) (lo_keys o) []) _ S2 _ G) as E. simpl in E. lia. }
    apply (settles_bind (fun n => drop_seq (fun s => drop_sib (fun f w => udrop_fut n (sb_g s) f c w) c s) (lo_futs o) w2')
             (fun _ w3 => Ok (uunblock (h, a) (w_ls w3 (del_l l (u_ls w3))))) (small (k - fssz (lo_futs o)))).
    + apply (settle_seq (fun n s => drop_sib (fun f w => udrop_fut n (sb_g s) f c w) c s)); auto.
      intros s w' Q S'. apply (settle_sib _ c s (fun n f w => udrop_fut n (sb_g s) f c w)); auto.
      intros w'' S''. apply (IH (sb_f s)); auto.
      assert (fsz (sb_f s) <= fssz (lo_futs o)); [|lia].
      clear - Q. induction (lo_futs o) as [|x cs IHc]; [destruct Q|]. simpl. destruct Q as [->|Q]; [lia|]. specialize (IHc Q). lia.
    + intros w3 S3'. apply settles_ok, small_unblock. destruct S3' as [A B]. split; simpl; [apply keys_del; auto|].
      pose proof (lssz_del l (u_ls w3)). lia.
Qed.

(** ** polls *)
Definition dk (w : uworld) : Prop := NoDup (map fst (u_ls w)).
Lemma drop_dk h f c w : dk w -> settles (fun n => udrop_fut n h f c w) dk.
Proof.
  intro D. apply (settles_imp _ (small (lssz (u_ls w)))); [intros x S; apply S|].
  apply (drop_settles (fsz f + lssz (u_ls w))); auto. split; auto.
Qed.
Lemma sib_dk c s w : dk w -> settles (fun n => drop_sib (fun f w => udrop_fut n (sb_g s) f c w) c s w) dk.
Proof.
  intro D. apply (settles_imp _ (small (lssz (u_ls w)))); [intros x S; apply S|].
  apply (settle_sib _ c s (fun n f w => udrop_fut n (sb_g s) f c w)); [split; auto|].
  intros w' S. apply (drop_settles (fsz (sb_f s) + lssz (u_ls w))); auto.
Qed.
Lemma get_none l : forall ls : store, get_l l ls = None -> ~ In l (map fst ls).
Proof.
  induction ls as [|[k o] ls IH]; simpl; auto. destruct (Nat.eqb_spec k l); [discriminate|]. intros G [Q|Q]; auto. apply IH; auto.
Qed.

Lemma poll_settles : forall s h f c w, dk w -> settles (fun n => upoll n s h f c w) (fun x => dk (snd x)).
Proof.
  induction s as [|s IH|l IH|l IH|l IH|s IH] using sched_ind'; intros h f c w D.
  - apply settles_ok; auto.
  - destruct f as [|n g a m ch| | | | ]; try (apply settles_ok; exact D). cbn [upoll].
    apply (settles_bind (fun _ => uadd_self n m c w) (fun k '(m', w1) => rbind (upoll k s h ch (Some (CContainer g n)) w1) _) (fun x => dk (snd x))).
    + unfold uadd_self. destruct m; try (apply settles_ok; exact D). destruct c as [c|]; [|apply settles_const; discriminate].
      destruct (lost_ref _ _ _); [apply settles_const; discriminate|].
      destruct (add_child _ _ _ _); simpl; [apply settles_ok; exact D|apply settles_const; discriminate].
    + intros [m' w1] D1. apply (settles_bind (fun k => upoll k s h ch (Some (CContainer g n)) w1) (fun _ '(ch', w2) => Ok (UElem n g a m' ch', w2)) (fun x => dk (snd x))); [apply IH; auto|].
      intros [ch' w2] D2. apply settles_ok. auto.
  - destruct f as [| |a cs| | | ]; try (apply settles_ok; exact D).
    eapply settles_ext; [intro; apply upoll_comb|].
    apply (settles_bind (fun n => comb_go n h c l cs w) (fun _ '(cs', w') => Ok (UComb a cs', w')) (fun x => dk (snd x))).
    + revert cs w D. induction IH as [|[i s] l Hs Hl IHl]; intros cs w D; [apply settles_ok; auto|]. simpl.
      destruct (nth_error cs i) as [ch|] eqn:E; [|apply IHl; auto].
      destruct c as [cx|]; [|apply settles_const; discriminate].
      apply (settles_bind (fun n => upoll n s h ch (Some (CChild cx (N.of_nat i))) w) (fun n '(ch', w') => comb_go n h (Some cx) l (set_nth i ch' cs) w') (fun x => dk (snd x))); [apply Hs; auto|].
      intros [ch' w'] D'. apply IHl; auto.
    + intros [cs' w'] D'. apply settles_ok; auto.
  - destruct f as [| | |cur| | ]; try (apply settles_ok; exact D).
    eapply settles_ext; [intro; apply upoll_block|].
    apply (settles_bind (fun n => block_go n h c l cur w) (fun _ '(cur', w') => Ok (UBlock cur', w')) (fun x => dk (snd x))).
    + revert cur w D. induction IH as [|act l Hs Hl IHl]; intros cur w D; [apply settles_ok; auto|].
      destruct act as [s|f'|l' a s e fr f'|l' o]; simpl.
      * apply (settles_bind (fun n => upoll n s h cur c w) (fun n '(cur', w') => block_go n h c l cur' w') (fun x => dk (snd x))); [apply Hs; auto|].
        intros [cur' w'] D'. apply IHl; auto.
      * apply (settles_bind (fun n => udrop_fut n h cur c w) (fun n w' => block_go n h c l f' w') dk); [apply drop_dk; auto|].
        intros w' D'. apply IHl; auto.
      * apply (settles_bind (fun n => udrop_fut n h cur c w) (fun n w1 => rbind (list_new l' s e fr w1) (fun w2 => block_go n h c l (UOwn l' a f') w2)) dk); [apply drop_dk; auto|].
        intros w1 D1. apply (settles_bind (fun _ => list_new l' s e fr w1) (fun n w2 => block_go n h c l (UOwn l' a f') w2) dk); [|intros; apply IHl; auto].
        unfold list_new. destruct (get_l l' (u_ls w1)) eqn:G; [apply settles_const; discriminate|].
        destruct (dl_new _ _ _ _); simpl; [|apply settles_const; discriminate]. apply settles_ok. constructor; auto. apply get_none; auto.
      * apply (settles_bind (fun _ => list_call l' o w) (fun n w' => block_go n h c l cur w') dk); [|intros; apply IHl; auto].
        unfold list_call. destruct (get_l l' (u_ls w)) eqn:G; [|apply settles_const; discriminate].
        destruct (in_place _ _); [|apply settles_const; discriminate]. destruct (op_bad _ _); [apply settles_const; discriminate|].
        destruct (op_run _ _); simpl; [|apply settles_const; discriminate]. apply settles_ok. unfold dk. simpl. rewrite keys_set. auto.
    + intros [cs' w'] D'. apply settles_ok; auto.
  - destruct f as [| | | |l' r| ]; try (apply settles_ok; exact D).
    destruct c as [cx|]; [|apply (settles_const (@Panic (ufut * uworld))); discriminate].
    eapply settles_ext; [intro; apply upoll_list|].
    apply (settles_bind (fun _ => if r then Ok w else list_render l' cx w) (fun n w0 => rbind (list_go n l' cx l w0) _) dk).
    + destruct r; [apply settles_ok; auto|]. unfold list_render. destruct (get_l l' (u_ls w)) eqn:G; [|apply settles_const; discriminate].
      destruct (dl_cont _); [apply settles_const; discriminate|]. destruct (lost_ref _ _ _); [apply settles_const; discriminate|].
      destruct (dl_render _ _); simpl; [|apply settles_const; discriminate]. apply settles_ok. unfold dk. simpl. rewrite keys_set. auto.
    + intros w0 D0. apply (settles_bind (fun n => list_go n l' cx l w0) (fun _ w' => Ok (UList l' true, w')) dk); [|intros; apply settles_ok; auto].
      clear w D. revert w0 D0. induction IH as [|act l Hs Hl IHl]; intros w D; [apply settles_ok; auto|].
      simpl. apply (settles_bind (fun n => list_step n l' cx act w) (fun n => list_go n l' cx l) dk); [|intros; apply IHl; auto].
      unfold list_step. destruct (get_l l' (u_ls w)) as [o|] eqn:G; [|apply settles_const; discriminate].
      assert (PUT : forall s w', dk w' -> settles (fun _ => put_sib l' s w') dk).
      { intros s w' D'. unfold put_sib. destruct (get_l l' (u_ls w')); [|apply settles_const; discriminate].
        apply settles_ok. unfold dk. simpl. rewrite keys_set. auto. }
      assert (TAKE : forall g, dk (take_sib l' o g w)) by (intro; unfold dk; simpl; rewrite keys_set; auto).
      destruct act as [k s|k|i].
      * destruct (hm_get k _) as [st|]; [|apply settles_ok; auto]. destruct (get_sib _ _) as [sb|]; [|apply settles_ok; auto].
        apply (settles_bind (fun n => upoll n s (sb_g sb) (sb_f sb) _ _) (fun n '(f', w') => put_sib l' _ w') (fun x => dk (snd x))); [apply Hs; auto|].
        intros [f' w'] D'. apply PUT; auto.
      * destruct (hm_get k _) as [st|]; [|apply settles_ok; auto]. destruct (get_sib _ _) as [sb|]; [|apply settles_ok; auto].
        apply (settles_bind (fun n => drop_sib (fun f w => udrop_fut n (sb_g sb) f (Some cx) w) (Some cx) sb (take_sib l' o (sb_g sb) w)) (fun n w' => put_sib l' _ w') dk); [apply sib_dk; auto|].
        intros w' D'. apply PUT; auto.
      * destruct (nth_error _ i) as [st|]; [|apply settles_ok; auto]. destruct (get_sib _ _) as [sb|]; [|apply settles_ok; auto].
        apply (settles_bind (fun n => drop_sib (fun f w => udrop_fut n (sb_g sb) f (Some cx) w) (Some cx) sb (take_sib l' o (sb_g sb) w)) (fun n w' => rm_dead l' _ w') dk); [apply sib_dk; auto|].
        intros w' D'. unfold rm_dead. destruct (get_l l' (u_ls w')); [|apply settles_const; discriminate].
        apply settles_ok. unfold dk. simpl. rewrite keys_set. auto.
  - destruct f as [| | | | |l a f']; try (apply settles_ok; exact D). cbn [upoll].
    apply (settles_bind (fun n => upoll n s h f' c w) (fun _ '(f'', w') => Ok (UOwn l a f'', w')) (fun x => dk (snd x))); [apply IH; auto|].
    intros [f'' w'] D'. apply settles_ok; auto.
Qed.

Lemma run_settles : forall l h f w, dk w -> settles (fun n => upoll_root n h l f w) (fun _ => True).
Proof.
  induction l as [|s l IH]; intros h f w D; [apply settles_ok; auto|]. simpl.
  apply (settles_bind (fun n => upoll n s h f None w) (fun n '(f', w') => upoll_root n h l f' w') (fun x => dk (snd x))); [apply poll_settles; auto|].
  intros [f' w'] D'. apply IH; auto.
Qed.
