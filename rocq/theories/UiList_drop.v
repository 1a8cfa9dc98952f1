(** Dropping futures in UI trees with lists. *)
From Coq Require Import List Arith NArith Bool Lia Permutation Sorting.Sorted.
From Verif Require Import Util Position Dom Context Spec_path Spec_list Render_history
  Position_proofs Dom_proofs Context_proofs Render_history_proofs Ui DynList DynList_proofs DynList_run_proofs
  UiList Spec_uilist UiList_core UiList_inv UiList_shape UiList_ops UiList_add UiList_del UiList_ren UiList_call UiList_mem.
Import ListNotations.

(** ** permutations of appended lists *)
Lemma pf_app {A} (y r x rest : list A) : Permutation r (x ++ rest) -> Permutation (y ++ r) (x ++ y ++ rest).
Proof. intro P. rewrite P, !app_assoc. apply Permutation_app_tail, Permutation_app_comm. Qed.
Lemma pf_cons {A} (y : A) r x rest : Permutation r (x ++ rest) -> Permutation (y :: r) (x ++ y :: rest).
Proof. intro P. rewrite P. apply Permutation_middle. Qed.
Lemma pf_last {A} (x : list A) : Permutation x (x ++ []).
Proof. rewrite app_nil_r. auto. Qed.
Lemma pe_app {A} (y r : list A) x rest : Permutation r (x :: rest) -> Permutation (y ++ r) (x :: y ++ rest).
Proof. intro P. rewrite P. symmetry. apply Permutation_middle. Qed.
Lemma pe_cons {A} (y : A) r x rest : Permutation r (x :: rest) -> Permutation (y :: r) (x :: y :: rest).
Proof. intro P. rewrite P. constructor. Qed.
Lemma ps_app {A} (x l r rest : list A) : Permutation r (x ++ rest) -> Permutation l rest -> Permutation (x ++ l) r.
Proof. intros P Q. rewrite P, Q. auto. Qed.
Lemma ps_cons {A} (x : A) l r rest : Permutation r (x :: rest) -> Permutation l rest -> Permutation (x :: l) r.
Proof. intros P Q. rewrite P, Q. auto. Qed.
Ltac pfront := first [apply Permutation_refl | apply pf_last | apply pe_cons; pfront | apply pe_app; pfront
                     | apply pf_cons; pfront | apply pf_app; pfront].
Ltac pperm := cbn [app]; rewrite <- ?app_assoc, ?app_nil_r; cbn [app]; rewrite <- ?app_assoc; cbn [app];
  repeat first [apply Permutation_refl
               | eapply ps_cons; [solve [pfront]|] | eapply ps_app; [solve [pfront]|]].

Lemma keepl_same w w' : u_ls w' = u_ls w -> keepl w w'.
Proof. intros E l o Q. rewrite E in Q. eauto. Qed.

(** lists that are owned stay, and stay unrendered *)
Definition is_fake (o : lobj) : Prop := exists f, dl_cont (lo_l o) = Fake f.
Definition keepo (R : list fact) (w w' : uworld) : Prop :=
  forall k o, In (Own k) R -> get_l k (u_ls w) = Some o ->
  exists o', get_l k (u_ls w') = Some o' /\ lo_futs o' = lo_futs o /\ (is_fake o -> is_fake o').
Lemma keepo_same R w w' : u_ls w' = u_ls w -> keepo R w w'.
Proof. intros E k o _ Q. exists o. rewrite E. auto. Qed.
Lemma keepo_trans R a b c : keepo R a b -> keepo R b c -> keepo R a c.
Proof.
  intros A B k o X E. destruct (A k o X E) as (o1 & E1 & Q1 & Q2). destruct (B k o1 X E1) as (o2 & E2 & Q3 & Q4).
  exists o2. split; auto. split; [congruence|auto].
Qed.
Lemma keepo_mono R R' w w' : incl R R' -> keepo R' w w' -> keepo R w w'.
Proof. intros I K k o X. apply K. apply I; auto. Qed.

Lemma unrender_keepo R l w w' : u_unrender l w = Ok w' -> keepo R w w'.
Proof.
  unfold u_unrender. destruct (get_l l (u_ls w)) as [o|] eqn:E; [|discriminate].
  destruct (move_nodes _ _ _ _ _ _); [|discriminate]. simpl. intro Q. inversion Q; subst w'. clear Q.
  intros k ob _ G. simpl. rewrite get_set. destruct (Nat.eqb_spec k l) as [->|N].
  - rewrite G. replace ob with o by congruence. eexists. split; [reflexivity|]. simpl. split; auto.
    intros _. exists (dl_frag (lo_l o)). reflexivity.
  - eauto.
Qed.

(** ** what a future that is being dropped still has *)
Fixpoint fx (det : bool) (g : gid) (p : path) (f : ufut) : list fact :=
  match f with
  | ULeaf => []
  | UElem n g' _ m ch =>
      match m with
      | Added => (if det then [] else [Ent g p n]) ++ [Con n g']
      | ShouldNotAdd => [Rt n; Con n g']
      | ShouldAdd => [FN n; FG g']
      end ++ facts g' [] ch
  | UComb _ cs =>
      (fix go (k : nat) (l : list ufut) : list fact :=
         match l with
         | [] => []
         | f :: t => fx det g (p ++ [N.of_nat k]) f ++ go (S k) t
         end) 0 cs
  | UBlock c => fx det g p c
  | UOwn l _ c => Own l :: fx det g p c
  | UList l r => if r then [Ren g l] else []
  end.
Definition fx_list (det : bool) (g : gid) (p : path) : nat -> list ufut -> list fact :=
  fix go (k : nat) (l : list ufut) : list fact :=
    match l with
    | [] => []
    | f :: t => fx det g (p ++ [N.of_nat k]) f ++ go (S k) t
    end.
Lemma fx_comb det g p a cs : fx det g p (UComb a cs) = fx_list det g p 0 cs.
Proof. reflexivity. Qed.

Lemma fx_false f : forall g p, fx false g p f = facts g p f.
Proof.
  induction f as [|n g' a m ch IH|a cs IH|c IH|l r|l a f IH] using fut_ind'; intros g p; simpl; auto.
  - generalize 0. induction cs as [|f cs IHc]; intro k; auto. inversion IH; subst.
    rewrite H1. f_equal. apply IHc; auto.
  - f_equal; auto.
Qed.

(** the facts that are left: the entries of the place itself may be gone *)
Lemma fx_facts det f : forall g p x, In x (facts g p f) <-> In x (fx det g p f) \/ (det = true /\ In x (facts g p f) /\ exists q n, x = Ent g q n /\ under p q).
Proof.
  induction f as [|n g' a m ch IH|a cs IH|c IH|l r|l a f IH] using fut_ind'; intros g p x.
  - simpl. tauto.
  - destruct m, det; simpl; try tauto; try (split; [tauto|intros [Z|Z]; tauto]).
    split; [|tauto]. intros [<-|Z]; auto. right. split; auto. split; auto. exists p, n. split; auto. apply under_refl.
  - rewrite facts_comb, fx_comb.
    assert (Q : forall k, In x (facts_list g p k cs) <-> In x (fx_list det g p k cs) \/
              (det = true /\ In x (facts_list g p k cs) /\ exists q n, x = Ent g q n /\ under p q)).
    { induction cs as [|f cs IHc]; intro k; [simpl; tauto|]. inversion IH; subst. cbn [facts_list fx_list].
      rewrite !in_app_iff. specialize (IHc H2 (S k)). specialize (H1 g (p ++ [N.of_nat k]) x).
      split.
      - intros [Z|Z].
        + apply H1 in Z as [Z|(D & Z & q & n & E & Hu)]; auto. right. split; auto. split; auto.
          exists q, n. split; auto. eapply under_snoc; eauto.
        + apply IHc in Z as [Z|(D & Z & E)]; auto.
      - intros [[Z|Z]|(D & Z & E)]; auto; [left; apply H1|right; apply IHc]; auto. }
    apply Q.
  - simpl. apply IH.
  - simpl. tauto.
  - simpl. rewrite (IH g p x). split; [intros [Z|[Z|Z]]; tauto|]. intros [[Z|Z]|(D & [Z|Z] & E)]; auto.
Qed.
Lemma fx_in det f g p x : In x (fx det g p f) -> In x (facts g p f).
Proof. intro Q. apply (fx_facts det). auto. Qed.
Lemma fx_con det f g p n g' : In (Con n g') (facts g p f) -> In (Con n g') (fx det g p f).
Proof. intro Q. apply (fx_facts det) in Q as [Q|(_ & _ & q & m & E & _)]; auto. discriminate. Qed.

Definition nr (x : fact) : bool := match x with Ent _ _ _ | Con _ _ | FN _ | FG _ => true | _ => false end.
Definition noren (F : list fact) : list fact := filter nr F.
Lemma noren_app a b : noren (a ++ b) = noren a ++ noren b.
Proof. apply filter_app. Qed.
Lemma noren_in F x : In x (noren F) <-> In x F /\ nr x = true.
Proof. apply filter_In. Qed.

(** ** places are used by one owner *)
Definition closed (H : list fact) : Prop := forall y g, In y H -> shows y g -> held H g.
Definition BR (R : list fact) : Prop :=
  forall l g e, In (Busy l g e) R -> In (Own l) R \/ exists g', In (Ren g' l) R.

Lemma shows_or y g : shows y g <-> (exists q n, y = Ent g q n) \/ (exists l, y = Ren g l).
Proof.
  split.
  - destruct y; simpl; try tauto; intros ->; [left|right]; eauto.
  - intros [(q & n & ->)|(l & ->)]; reflexivity.
Qed.

Lemma held_app a b g : held (a ++ b) g <-> held a g \/ held b g.
Proof.
  split.
  - intros [(n & Q)|(l & e & Q)]; apply in_app_iff in Q as [Q|Q]; [left|right|left|right]; [left|left|right|right]; eauto.
  - intros [[(n & Q)|(l & e & Q)]|[(n & Q)|(l & e & Q)]]; [left|right|left|right]; repeat eexists; apply in_app_iff; eauto.
Qed.
Lemma held_cons x b g : held (x :: b) g <-> held [x] g \/ held b g.
Proof. apply (held_app [x]). Qed.

Lemma held_twice F R ls g : OWN (F ++ R) ls -> held F g -> held R g -> False.
Proof.
  intros OW HF HR.
  assert (AE : all (F ++ R) ls = F ++ R ++ stored_facts ls) by (unfold all; rewrite app_assoc; auto).
  assert (CB : forall n l e, In (Con n g) (F ++ R) -> In (Busy l g e) (F ++ R) -> False).
  { intros n l e C B. apply (con_not_item OW n g l e).
    - unfold all. apply in_app_iff; auto.
    - apply (ow_busy OW). unfold all. apply in_app_iff; auto. }
  destruct HF as [(n & QF)|(l & e & QF)], HR as [(m & QR)|(k & e' & QR)].
  - pose proof (ow_g OW g) as Q. rewrite AE, !flat_map_app, !occ_app in Q.
    assert (X := occ_flat_in f_g F (Con n g) g QF (or_introl eq_refl)).
    assert (Y := occ_flat_in f_g R (Con m g) g QR (or_introl eq_refl)). olia.
  - apply (CB n k e'); apply in_app_iff; auto.
  - apply (CB m l e); apply in_app_iff; auto.
  - pose proof (ow_b OW g) as Q. rewrite AE, !flat_map_app, !occ_app in Q.
    assert (X := occ_flat_in f_b F (Busy l g e) g QF (or_introl eq_refl)).
    assert (Y := occ_flat_in f_b R (Busy k g e') g QR (or_introl eq_refl)). olia.
Qed.

Lemma closed_app a b : closed a -> closed b -> closed (a ++ b).
Proof. intros A B y g Q S. apply held_app. apply in_app_iff in Q as [Q|Q]; [left; apply (A y)|right; apply (B y)]; auto. Qed.
Lemma closed_over a R : closed R -> (forall y g, In y a -> shows y g -> held (a ++ R) g) -> closed (a ++ R).
Proof. intros B A y g Q S. apply in_app_iff in Q as [Q|Q]; eauto. apply held_app. right. eauto. Qed.
Lemma closed_cons x R : closed R -> (forall g, shows x g -> held (x :: R) g) -> closed (x :: R).
Proof. intros B A. apply (closed_over [x]); auto. intros y g [<-|[]] S. apply A; auto. Qed.
Lemma closed_perm a b : Permutation a b -> closed a -> closed b.
Proof.
  intros P A y g Q S. apply (held_mono a); [intros x Z; eapply Permutation_in; eauto|].
  apply (A y); auto. eapply Permutation_in; [symmetry; eauto|auto].
Qed.
Lemma BR_perm a b : Permutation a b -> BR a -> BR b.
Proof.
  intros P A l g e Q. destruct (A l g e) as [Z|(g' & Z)].
  - eapply Permutation_in; [symmetry; eauto|auto].
  - left. eapply Permutation_in; eauto.
  - right. exists g'. eapply Permutation_in; eauto.
Qed.
Lemma BR_over a R : (forall l g e, In (Busy l g e) a -> In (Own l) (a ++ R) \/ exists g', In (Ren g' l) (a ++ R)) ->
  BR R -> BR (a ++ R).
Proof.
  intros A B l g e Q. apply in_app_iff in Q as [Q|Q]; [eauto|]. destruct (B l g e Q) as [Z|(g' & Z)].
  - left. apply in_app_iff; auto.
  - right. exists g'. apply in_app_iff; auto.
Qed.

Lemma fx_place det f g p y g0 : okf f -> In y (fx det g p f) -> shows y g0 ->
  g0 = g \/ exists n, In (Con n g0) (fx det g p f).
Proof.
  intros OK Q S. destruct (facts_place f OK g p g0 y (fx_in _ _ _ _ _ Q)) as [[E _]|(n & C)]; auto.
  - apply shows_or; auto.
  - right. exists n. apply fx_con; auto.
Qed.
Lemma fx_no_busy det f g p l k e : okf f -> ~ In (Busy l k e) (fx det g p f).
Proof. intros OK Q. apply fx_in in Q. revert Q. apply no_busy; auto. Qed.

Lemma closed_fx det f g p R : okf f -> closed R -> held R g -> closed (fx det g p f ++ R).
Proof.
  intros OK CR HR. apply closed_over; auto. intros y g0 Q S.
  destruct (fx_place det f g p y g0 OK Q S) as [->|(n & C)]; apply held_app; auto. left. left. eauto.
Qed.
Lemma closed_noren det f g p R : okf f -> closed R -> held R g -> closed (noren (fx det g p f) ++ R).
Proof.
  intros OK CR HR. apply closed_over; auto. intros y g0 Q S. apply noren_in in Q as [Q _].
  destruct (fx_place det f g p y g0 OK Q S) as [->|(n & C)]; apply held_app; auto. left. left. exists n. apply noren_in; auto.
Qed.
Lemma noren_no_busy F l g e : ~ In (Busy l g e) (noren F).
Proof. intro Q. apply noren_in in Q as [_ Q]. discriminate. Qed.

(** ** IS_DROPPING during a drop *)
Lemma upd_id {A} (f : nat -> A) k x : f k = x -> forall y, upd f k x y = f y.
Proof. intros E y. destruct (Nat.eq_dec k y) as [->|N]; [rewrite upd_same; auto|rewrite upd_other; auto]. Qed.

Section Drop.
Variable base0 : node -> list node.
Variable U : list node.
Local Notation INV := (INV base0 U).

Lemma inv_same w w' H : u_r w' = u_r w -> u_ls w' = u_ls w -> INV w H -> INV w' H.
Proof. unfold UiList_inv.INV. intros -> ->. auto. Qed.
Lemma inv_unblock b w H : INV w H -> INV (uunblock b w) H.
Proof.
  apply inv_same; unfold uunblock; destruct (u_drop w) as [[x y]|]; auto; destruct (_ && _); auto.
Qed.
Lemma ls_unblock b w : u_ls (uunblock b w) = u_ls w.
Proof. unfold uunblock; destruct (u_drop w) as [[x y]|]; auto; destruct (_ && _); auto. Qed.

Lemma forget_ok w F R : INV w (F ++ R) -> closed R ->
  (forall x, In x F -> match x with Ren _ _ | Rt _ | Busy _ _ _ => False | _ => True end) ->
  (forall g p n, In (Ent g p n) F -> exists m, In (Con m g) F) -> INV w R.
Proof.
  intros IV CR K KE. assert (OW := proj1 IV). apply (forget base0 U w F R IV).
  assert (AE : forall x, In x (all R (u_ls w)) -> In x (all (F ++ R) (u_ls w))).
  { intros x Q. unfold all in *. rewrite in_app_iff in *. rewrite in_app_iff. tauto. }
  intros x Q. specialize (K x Q). destruct x as [g p n|n g| | | | | | |]; auto.
  - destruct (KE _ _ _ Q) as (m & C). intros [(n' & P)|(l & e & P)].
    + unfold all in P. apply in_app_iff in P as [P|P].
      * apply (held_twice F R _ g OW); left; eauto.
      * pose proof (ow_g OW g) as Z. unfold all in Z. rewrite !flat_map_app, !occ_app in Z.
        assert (X := occ_flat_in f_g F (Con m g) g C (or_introl eq_refl)).
        assert (Y := occ_flat_in f_g _ (Con n' g) g P (or_introl eq_refl)). olia.
    + apply (con_not_item OW m g l e); auto. unfold all. rewrite !in_app_iff. auto.
  - intros y Y S. unfold all in Y. apply in_app_iff in Y as [Y|Y].
    + apply (held_twice F R _ g OW); [left; eauto|]. apply (CR y); auto.
    + apply (held_stored _ _ g y OW); auto; [|apply shows_or; auto]. left. exists n. apply in_app_iff; auto.
Qed.

Lemma del_ok w F R l o f : INV w (F ++ R) -> closed R -> get_l l (u_ls w) = Some o -> lo_futs o = [] ->
  dl_cont (lo_l o) = Fake f -> (forall g e, ~ In (Busy l g e) R) ->
  (forall x, In x F -> match x with Ren _ _ | Rt _ => False | Busy k _ _ => k = l | _ => True end) ->
  (forall g p n, In (Ent g p n) F -> held F g) ->
  INV (w_ls w (del_l l (u_ls w))) R.
Proof.
  intros IV CR GL EF EC NB K KE. assert (OW := proj1 IV).
  assert (AE : forall x, In x (all R (u_ls w)) -> In x (all (F ++ R) (u_ls w))).
  { intros x Q. unfold all in *. rewrite in_app_iff in *. rewrite in_app_iff. tauto. }
  assert (NS : forall g y, held F g -> In y (all R (u_ls w)) -> ~ shows y g).
  { intros g y HF Y S. unfold all in Y. apply in_app_iff in Y as [Y|Y].
    + apply (held_twice F R _ g OW); auto. apply (CR y); auto.
    + apply (held_stored _ _ g y OW); auto; [|apply shows_or; auto]. apply held_app; auto. }
  apply (del_inv base0 U w F R l o f IV); auto.
  - intros g e (o' & st & L & X & E1 & E2) y Y. apply NS; auto.
    assert (o' = o) by (apply (ow_uniq _ _ _ _ _ OW L (get_in _ _ _ GL))). subst o'.
    destruct (ow_item OW _ _ _ L X) as [(sb & SB & _)|B]; [rewrite EF in SB; destruct SB|].
    apply in_app_iff in B as [B|B]; [|destruct (NB _ _ B)]. right. exists l, (st_e st). rewrite <- E1. auto.
  - intros x Q. assert (KX := K x Q). destruct x as [g p n|n g| | | | | | |]; auto.
    + assert (HF := KE _ _ _ Q). intros [(n' & P)|(l' & e & P)].
      * unfold all in P. apply in_app_iff in P as [P|P].
        -- apply (held_twice F R _ g OW); auto. left; eauto.
        -- destruct HF as [(m & C)|(k & e & B)].
           ++ pose proof (ow_g OW g) as Z. unfold all in Z. rewrite !flat_map_app, !occ_app in Z.
              assert (X := occ_flat_in f_g F (Con m g) g C (or_introl eq_refl)).
              assert (Y := occ_flat_in f_g _ (Con n' g) g P (or_introl eq_refl)). olia.
           ++ apply (con_not_item OW n' g k e); [apply AE; apply in_app_iff; auto|].
              apply (ow_busy OW). apply in_app_iff. left. apply in_app_iff; auto.
      * destruct P as (o' & st & L & X & E1 & E2).
        assert (L' : In (l', o') (u_ls w) /\ l' <> l).
        { unfold del_l in L. apply filter_In in L as [L N]. simpl in N. split; auto.
          apply negb_true_iff, Nat.eqb_neq in N. auto. }
        destruct L' as [L' N].
        destruct HF as [(m & C)|(k & e' & B)].
        -- apply (con_not_item OW m g l' e); [apply in_app_iff; left; apply in_app_iff; auto|].
           exists o', st; auto.
        -- assert (k = l) by (apply (K _ B)). subst k.
           assert (Q2 : item_in l g e' (u_ls w)).
           { apply (ow_busy OW). apply in_app_iff. left. apply in_app_iff; auto. }
           destruct Q2 as (o2 & st2 & L2 & X2 & E3 & E4).
           apply N. destruct IV as (_ & ? & ? & ? & ? & SH).
           apply (gid_uniq OW SH l' o' l o2 st st2 L' L2 X X2). congruence.
    + intros y Y. apply NS; auto. left. eauto.
Qed.

(** [true]: some enclosing drop of another task is in progress; [false]: the ambient context
    has nothing left to detach *)
Definition mode (md : bool) (h : gid) (c : option ctx) (w : uworld) (F R : list fact) : Prop :=
  if md then exists b, u_drop w = Some b /\ fst b <> h /\ held R (fst b)
  else exists base pc gc, c = Some (ctx_at base pc) /\ cbase R base gc /\ indices_ok pc /\
       (forall q n, In (Ent gc q n) (F ++ R) -> ~ under pc q) /\ held R h /\
       (forall b, u_drop w = Some b -> held R (fst b)).
Definition after (md : bool) (w w' : uworld) : Prop :=
  if md then u_drop w' = u_drop w else u_drop w' = u_drop w \/ u_drop w' = None.
Lemma after_refl md w : after md w w.
Proof. destruct md; simpl; auto. Qed.
Lemma after_eq md w w' : u_drop w' = u_drop w -> after md w w'.
Proof. destruct md; simpl; auto. Qed.
Lemma after_trans md a b c : after md a b -> after md b c -> after md a c.
Proof. destruct md; simpl; intros; [congruence|]. intuition congruence. Qed.
Lemma mode_step md h c w w' F R F' R' : mode md h c w F R -> after md w w' -> incl R R' ->
  (forall g q n, In (Ent g q n) (F' ++ R') -> In (Ent g q n) (F ++ R)) -> mode md h c w' F' R'.
Proof.
  destruct md; simpl.
  - intros (b & E & N & HR) E' IR _. exists b. rewrite E'. split; auto. split; auto. eapply held_mono; eauto.
  - intros (base & pc & gc & EC & CB & IO & NE & HH & HU) E' IR IE. exists base, pc, gc.
    split; auto. split; [eapply cbase_mono; eauto|]. split; auto. split; [intros q n Q; apply (NE q n); auto|].
    split; [eapply held_mono; eauto|]. intros b E. destruct E' as [E'|E']; [|congruence].
    apply (held_mono R); auto. apply HU. congruence.
Qed.

Lemma cut_none g p H : (forall q n, In (Ent g q n) H -> ~ under p q) -> cut g p H = H.
Proof.
  intro K. unfold cut. apply filter_true. intros x Q. destruct x as [g' q n| | | | | | | |]; auto. simpl.
  destruct (Nat.eqb_spec g' g) as [->|N]; auto. destruct (underb p q) eqn:E; auto.
  exfalso. apply (K q n Q). apply underb_iff; auto.
Qed.

Lemma try_detach md h a c w F R : INV w (F ++ R) -> mode md h c w F R ->
  exists w2, (let (blocked, w1) := ublock (h, a) w in if blocked then Ok w1 else udetach c w1) = Ok w2 /\
   INV w2 (F ++ R) /\ u_ls w2 = u_ls w /\ mode md h c w2 F R /\
   (forall w3, after md w2 w3 -> after md w (uunblock (h, a) w3)).
Proof.
  intros IV M. unfold ublock. destruct (u_drop w) as [b|] eqn:ED.
  - exists w. split; auto. split; auto. split; auto. split; auto. intros w3 A.
    destruct md; simpl in *.
    + destruct M as (b' & E & N & HR). assert (b' = b) by congruence. subst b'.
      unfold uunblock. rewrite A, ED. destruct b as [x y]. simpl in *.
      destruct (Nat.eqb_spec x h); [congruence|]. simpl. congruence.
    + unfold uunblock. destruct A as [A|A]; rewrite A; [|auto]. rewrite ED. destruct b as [x y].
      destruct (_ && _); simpl; auto. left. congruence.
  - destruct md; simpl in M; [destruct M as (b & E & _); congruence|].
    destruct M as (base & pc & gc & EC & CB & IO & NE & HH & HU). subst c. simpl.
    destruct (detach base0 U (w_drop w (Some (h, a))) (F ++ R) base gc pc) as (r' & E & IV').
    + apply (inv_same w); auto.
    + eapply cbase_mono; [|eauto]. apply incl_appr, incl_refl.
    + auto.
    + rewrite cut_none in IV' by auto. simpl in E. rewrite E. simpl.
      eexists. split; [reflexivity|]. split; [auto|]. split; [auto|]. split.
      * exists base, pc, gc. split; auto. split; auto. split; auto. split; auto. split; auto.
        simpl. intros b Q. inversion Q; subst b. auto.
      * intros w3 A. cbn [u_drop w_r w_drop] in A. simpl. left. unfold uunblock. rewrite ED.
        destruct A as [A|A]; rewrite A; auto. simpl. rewrite !Nat.eqb_refl. auto.
Qed.

(** the container of an element that was never shown is empty *)
Lemma detach_new n g' w H : INV w (FG g' :: H) ->
  exists w2, udetach (Some (CContainer g' n)) w = Ok w2 /\ INV w2 (FG g' :: H) /\ u_ls w2 = u_ls w /\ u_drop w2 = u_drop w.
Proof.
  intros IV. assert (IV' := IV). destruct IV' as (OW & arr & cnt & blk & ord & SH).
  assert (E : rgrp (u_r w) g' = []) by (apply (sh_FG SH); left; auto).
  unfold udetach. simpl. unfold remove_here, remove_children_here. rewrite E. simpl.
  destruct (is_root pos_default) eqn:IR; [|discriminate]. simpl.
  eexists. split; [reflexivity|]. split; [|split; auto].
  split; auto. exists arr, cnt, blk, ord. simpl. set (gr' := upd _ _ _).
  assert (X : forall y, gr' y = rgrp (u_r w) y) by (intro y; apply upd_id; auto).
  destruct SH as [s1 s2 s3 s4 s5 s6 s7 s8 s9 s10 s11 s12 s13 s14 s15]. constructor; auto.
  - intros g Q. rewrite X. auto.
  - intros g P. destruct (s13 g P) as [(Q1 & Q2 & Q3 & Q4) Q5]. split; auto.
    split; [rewrite X; auto|]. split; [rewrite X; auto|]. split; auto. intros p m. rewrite X. auto.
Qed.

(** ** drops inside an element that is already detached *)
Definition dropspec (md : bool) (fuel : nat) : Prop :=
  forall f h c w det g p R, okf f -> INV w (fx det g p f ++ R) -> mode md h c w (fx det g p f) R ->
  closed R -> held R g -> BR R ->
  udrop_fut fuel h f c w <> Panic /\
  forall w', udrop_fut fuel h f c w = Ok w' ->
    INV w' (noren (fx det g p f) ++ R) /\ after md w w' /\ keepl w w' /\ keepo R w w'.

Definition bd (l : lid) (s : sib) : list fact := Busy l (sb_g s) (sb_ref s) :: noren (sfacts s).

Lemma closed_bf l fs : (forall s, In s fs -> okf (sb_f s)) -> closed (flat_map (bf l) fs).
Proof.
  intros OK y g Q S. apply in_flat_map in Q as (s & I1 & Q). 
  assert (HS : held (flat_map (bf l) fs) (sb_g s)).
  { right. exists l, (sb_ref s). apply in_flat_map. exists s. split; auto. left; auto. }
  destruct Q as [<-|Q]; [destruct S|]. unfold sfacts in Q. rewrite <- fx_false in Q.
  destruct (fx_place false (sb_f s) _ _ y g (OK s I1) Q S) as [->|(n & C)]; auto.
  left. exists n. apply in_flat_map. exists s. split; auto. right. unfold sfacts. rewrite <- fx_false. auto.
Qed.
Lemma closed_bd l s : okf (sb_f s) -> closed (bd l s).
Proof.
  intros OK y g [<-|Q] S; [destruct S|]. apply noren_in in Q as [Q _]. unfold sfacts in Q. rewrite <- fx_false in Q.
  destruct (fx_place false (sb_f s) _ _ y g OK Q S) as [->|(n & C)].
  - right. exists l, (sb_ref s). left; auto.
  - left. exists n. right. apply noren_in. split; auto. unfold sfacts. rewrite <- fx_false. auto.
Qed.

Lemma sibs_drop fuel (IH : dropspec true fuel) l b c R : In (Own l) R -> held R (fst b) ->
  forall fs w D, INV w (flat_map (bf l) fs ++ D ++ R) -> (forall s, In s fs -> okf (sb_f s)) ->
  closed (D ++ R) -> BR (D ++ R) -> u_drop w = Some b ->
  let r := drop_seq (fun s => drop_sib (fun f w => udrop_fut fuel (sb_g s) f c w) c s) fs w in
  r <> Panic /\ forall w', r = Ok w' -> INV w' (flat_map (bd l) fs ++ D ++ R) /\ u_drop w' = u_drop w /\
    keepl w w' /\ keepo R w w'.
Proof.
  intros OL HB. induction fs as [|s fs IHf]; intros w D IV OK CD BD ED; cbn zeta.
  - simpl. split; [discriminate|]. intros w' Q. inversion Q; subst w'. split; auto. split; auto.
    split; [apply keepl_refl|apply keepo_same; auto].
  - cbn [drop_seq flat_map]. unfold drop_sib at 1 3. unfold ublock. rewrite ED. cbn [rbind].
    set (R' := Busy l (sb_g s) (sb_ref s) :: flat_map (bf l) fs ++ D ++ R).
    assert (IV1 : INV w (fx false (sb_g s) [] (sb_f s) ++ R')).
    { rewrite fx_false. eapply inv_perm; [|exact IV]. unfold R', bf at 1, sfacts. cbn [flat_map]. unfold bf at 1, sfacts at 1. pperm. }
    assert (IR : incl R R').
    { unfold R'. intros x Q. right. apply in_app_iff; right; apply in_app_iff; auto. }
    assert (NB : fst b <> sb_g s).
    { intro E. apply (held_twice (fx false (sb_g s) [] (sb_f s) ++ [Busy l (sb_g s) (sb_ref s)]) (flat_map (bf l) fs ++ D ++ R) (u_ls w) (fst b)).
      - refine (own_perm _ _ _ _ (proj1 IV1)). unfold R'. pperm.
      - rewrite E. apply held_app. right. right. exists l, (sb_ref s). left; auto.
      - apply (held_mono R); auto. intros x Q. apply in_app_iff; right; apply in_app_iff; auto. }
    destruct (IH (sb_f s) (sb_g s) c w false (sb_g s) [] R') as [NP OKK].
    + apply OK. left; auto.
    + auto.
    + exists b. split; auto. split; auto. apply (held_mono R); auto.
    + unfold R'. change (closed ([Busy l (sb_g s) (sb_ref s)] ++ flat_map (bf l) fs ++ D ++ R)).
      apply closed_app; [intros y g [<-|[]] []|]. apply closed_app; auto.
      apply closed_bf. intros; apply OK; right; auto.
    + right. exists l, (sb_ref s). left; auto.
    + unfold R'. rewrite app_comm_cons. apply BR_over; auto.
      intros k g e Q. left. apply in_app_iff. right. apply in_app_iff. right.
      assert (k = l); [|subst; auto]. destruct Q as [Q|Q]; [congruence|].
      apply in_flat_map in Q as (s' & I1 & [Q|Q]); [congruence|].
      exfalso. revert Q. apply no_busy. apply OK; right; auto.
    + destruct (udrop_fut fuel (sb_g s) (sb_f s) c w) as [w1| | |] eqn:EU; cbn [rbind]; try (split; [discriminate|discriminate]).
      2: congruence.
      destruct (OKK w1 eq_refl) as (IV2 & A2 & K2 & O2). simpl in A2.
      assert (EB : uunblock (sb_g s, sb_a s) w1 = w1).
      { unfold uunblock. rewrite A2, ED. destruct b as [x y]. simpl in *. destruct (Nat.eqb_spec x (sb_g s)); [congruence|]. auto. }
      rewrite EB. 
      assert (IV3 : INV w1 (flat_map (bf l) fs ++ (bd l s ++ D) ++ R)).
      { eapply inv_perm; [|exact IV2]. unfold R', bd. rewrite fx_false. unfold sfacts. pperm. }
      destruct (IHf w1 (bd l s ++ D)) as [NP2 OK2]; auto.
      * intros; apply OK; right; auto.
      * rewrite <- app_assoc. apply closed_app; auto. apply closed_bd. apply OK; left; auto.
      * rewrite <- app_assoc. apply BR_over; auto. intros k g e [Q|Q]; [|destruct (noren_no_busy _ _ _ _ Q)].
        injection Q as <- _ _. left. rewrite !in_app_iff. auto.
      * congruence.
      * split; auto. intros w' Q. destruct (OK2 w' Q) as (IV4 & A4 & K4 & O4). split.
        { eapply inv_perm; [|exact IV4]. pperm. }
        split; [congruence|]. split; [eapply keepl_trans; eauto|].
        eapply keepo_trans; [|exact O4]. apply (keepo_mono _ R'); auto.
Qed.

Lemma own_uniq F l R ls : OWN (F ++ Own l :: R) ls -> ~ In (Own l) R.
Proof.
  intros OW Q. pose proof (ow_o OW l) as Z. unfold all in Z. rewrite !flat_map_app, !occ_app in Z. cbn [flat_map f_o app] in Z.
  rewrite occ_cons in Z. destruct (Nat.eq_dec l l); [|congruence].
  assert (X := occ_flat_in f_o R (Own l) l Q (or_introl eq_refl)). olia.
Qed.

(** the rest of dropping a list *)
Lemma own_tail fuel (IH : dropspec true fuel) w l o c R b : INV w (Own l :: R) -> closed R -> BR R ->
  get_l l (u_ls w) = Some o -> is_fake o -> u_drop w = Some b -> held R (fst b) ->
  let r := drop_seq (fun s => drop_sib (fun f w => udrop_fut fuel (sb_g s) f c w) c s) (lo_futs o)
             (w_ls w (set_l l (mkLO (lo_l o) (lo_keys o) []) (u_ls w))) in
  r <> Panic /\ forall w3, r = Ok w3 -> let w4 := w_ls w3 (del_l l (u_ls w3)) in
    INV w4 R /\ u_drop w4 = u_drop w /\ keepl w w4 /\ keepo R w w4.
Proof.
  intros IV CR BRR GL FK ED HB. cbn zeta. assert (OW := proj1 IV).
  change (mkLO (lo_l o) (lo_keys o) []) with (with_futs o []).
  set (w2 := w_ls w (set_l l (with_futs o []) (u_ls w))).
  assert (NO : ~ In (Own l) R) by (apply (own_uniq [] _ _ _ OW)).
  assert (NB : forall g e, ~ In (Busy l g e) R).
  { intros g e Q. destruct (BRR l g e Q) as [Z|(g' & Z)]; [auto|].
    destruct IV as (_ & ? & ? & ? & ? & SH). pose proof (sh_cont SH _ _ (get_in _ _ _ GL)) as K.
    destruct FK as (f & EF). rewrite EF in K. destruct K as (_ & _ & K). apply (K g').
    apply in_app_iff. left. right. auto. }
  assert (IV2 : INV w2 (flat_map (bf l) (lo_futs o) ++ [] ++ Own l :: R)).
  { apply take_inv; auto. rewrite app_nil_r; auto. }
  destruct (sibs_drop fuel IH l b c (Own l :: R)) with (fs := lo_futs o) (w := w2) (D := @nil fact) as [NP OK]; auto.
  - left; auto.
  - apply held_cons. auto.
  - intros s Q. apply (ow_sib OW _ _ _ (get_in _ _ _ GL) Q).
  - apply closed_cons; auto. intros g [].
  - apply (BR_over [Own l]); auto. intros k g e [Q|[]]; discriminate.
  - split; auto. intros w3 E3. destruct (OK w3 E3) as (IV3 & A3 & K3 & O3).
    assert (GL2 : get_l l (u_ls w2) = Some (with_futs o [])).
    { unfold w2. simpl. rewrite get_set, Nat.eqb_refl, GL. auto. }
    destruct (O3 l _ (or_introl eq_refl) GL2) as (o3 & GL3 & F3 & FK3).
    destruct FK3 as (f3 & EF3); [exact FK|].
    assert (KL2 : keepl w w2).
    { intros k ob Q. unfold w2 in Q. simpl in Q. rewrite get_set in Q. destruct (Nat.eqb_spec k l) as [->|N]; eauto.
      rewrite GL in *. inversion Q; subst ob. exists o. auto. }
    split; [|split; [|split]].
    + apply (del_ok w3 (flat_map (bd l) (lo_futs o) ++ [Own l]) R l o3 f3); auto.
      * eapply inv_perm; [|exact IV3]. pperm.
      * intros x Q. apply in_app_iff in Q as [Q|[<-|[]]]; auto.
        apply in_flat_map in Q as (s & _ & [<-|Q]); auto. apply noren_in in Q as [_ Q]. destruct x; auto; discriminate.
      * intros g p n Q. apply held_app. left. apply in_app_iff in Q as [Q|[Q|[]]]; [|discriminate].
        apply in_flat_map in Q as (s & I1 & Q).
        assert (HS := closed_bd l s (proj2 (ow_sib OW _ _ _ (get_in _ _ _ GL) I1)) _ g Q eq_refl).
        eapply held_mono; [|exact HS]. intros x Z. apply in_flat_map. eauto.
    + simpl. rewrite A3. auto.
    + apply (keepl_trans _ w2); auto. apply (keepl_trans _ w3); auto.
      intros k ob Q. simpl in Q. rewrite del_get in Q. destruct (Nat.eqb_spec k l); [discriminate|]. eauto.
    + intros k ob Q E. assert (k <> l) by (intros ->; auto).
      destruct (O3 k ob) as (o' & E' & X); [right; auto| |].
      * unfold w2. simpl. rewrite get_set. destruct (Nat.eqb_spec k l); [congruence|auto].
      * exists o'. simpl. rewrite del_get. destruct (Nat.eqb_spec k l); [congruence|auto].
Qed.

Lemma comb_drop md fuel (IH : dropspec md fuel) h c det g p R : closed R -> held R g -> BR R ->
  forall cs k w D, (forall f, In f cs -> okf f) -> closed (D ++ R) -> BR (D ++ R) ->
  INV w (fx_list det g p k cs ++ D ++ R) ->
  mode md h c w (fx_list det g p k cs ++ D) R ->
  let r := drop_seq (fun f => udrop_fut fuel h f c) cs w in
  r <> Panic /\ forall w', r = Ok w' -> INV w' (noren (fx_list det g p k cs) ++ D ++ R) /\ after md w w' /\
    keepl w w' /\ keepo R w w'.
Proof.
  intros CR HG BRR. induction cs as [|f cs IHc]; intros k w D OK CD BD IV M; cbn zeta.
  - simpl. split; [discriminate|]. intros w' Q. inversion Q; subst w'. split; auto.
    split; [apply after_refl|]. split; [apply keepl_refl|apply keepo_same; auto].
  - cbn [drop_seq fx_list]. cbn [fx_list] in IV, M.
    set (F := fx det g (p ++ [N.of_nat k]) f) in *. set (R' := fx_list det g p (S k) cs ++ D ++ R).
    assert (IR : incl R R').
    { unfold R'. intros x Q. rewrite !in_app_iff. auto. }
    assert (OKC : forall f', In f' cs -> okf f') by (intros; apply OK; right; auto).
    assert (INL : forall k x, In x (fx_list det g p k cs) -> exists i f', In f' cs /\ In x (fx det g (p ++ [i]) f') /\
              (forall y, In y (fx det g (p ++ [i]) f') -> In y (fx_list det g p k cs))).
    { clear. induction cs as [|f cs IH]; simpl; intros k x Q; [destruct Q|]. apply in_app_iff in Q as [Q|Q].
      - exists (N.of_nat k), f. split; auto. split; auto. intros; apply in_app_iff; auto.
      - destruct (IH _ _ Q) as (i & f' & A & B & C). exists i, f'. split; auto. split; auto. intros; apply in_app_iff; auto. }
    destruct (IH f h c w det g (p ++ [N.of_nat k]) R') as [NP OKK].
    + apply OK; left; auto.
    + eapply inv_perm; [|exact IV]. unfold R'. fold F. pperm.
    + eapply mode_step; [exact M|apply after_refl|auto|]. intros g0 q n. unfold R'. fold F. rewrite !in_app_iff. tauto.
    + unfold R'. apply closed_over; auto. intros y g0 Q S. destruct (INL _ _ Q) as (i & f' & A & B & C).
      destruct (fx_place det f' g (p ++ [i]) y g0 (OKC _ A) B S) as [->|(n & Z)].
      * rewrite !held_app. auto.
      * apply held_app. left. left. exists n. auto.
    + apply (held_mono R); auto.
    + unfold R'. apply BR_over; auto. intros l g0 e Q. destruct (INL _ _ Q) as (i & f' & A & B & C).
      destruct (fx_no_busy _ _ _ _ _ _ _ (OKC _ A) B).
    + destruct (udrop_fut fuel h f c w) as [w1| | |] eqn:EU; cbn [rbind]; try (split; [discriminate|discriminate]).
      2: congruence.
      destruct (OKK w1 eq_refl) as (IV2 & A2 & K2 & O2). fold F in IV2.
      assert (OKf : okf f) by (apply OK; left; auto).
      destruct (IHc (S k) w1 (noren F ++ D)) as [NP2 OK2]; auto.
      * rewrite <- app_assoc. apply closed_over; auto. intros y g0 Q S. apply noren_in in Q as [Q _].
        destruct (fx_place det f g _ y g0 OKf Q S) as [->|(n & C)]; rewrite !held_app; auto.
        left. left. exists n. apply noren_in; auto.
      * rewrite <- app_assoc. apply BR_over; auto. intros l g0 e Q. destruct (noren_no_busy _ _ _ _ Q).
      * eapply inv_perm; [|exact IV2]. unfold R'. pperm.
      * eapply mode_step; [exact M|exact A2|apply incl_refl|]. intros g0 q n. rewrite !in_app_iff, noren_in. tauto.
      * split; auto. intros w' Q. destruct (OK2 w' Q) as (IV4 & A4 & K4 & O4). split.
        { eapply inv_perm; [|exact IV4]. rewrite noren_app. pperm. }
        split; [eapply after_trans; eauto|]. split; [eapply keepl_trans; eauto|].
        eapply keepo_trans; [|exact O4]. apply (keepo_mono _ R'); auto.
Qed.

Lemma noren_list_all cs : forall k det g p x, In x (noren (fx_list det g p k cs)) -> In x (fx_list det g p k cs).
Proof. intros. apply noren_in in H. tauto. Qed.

Lemma ind2 (P : bool -> nat -> Prop) : (forall md, P md 0) ->
  (forall n, (forall md, P md n) -> forall md, P md (S n)) -> forall n md, P md n.
Proof. intros A B. induction n; auto. Qed.

Lemma dropN : forall fuel md, dropspec md fuel.
Proof.
  apply (ind2 (fun md n => dropspec md n)).
  { intros md f h c w det g p R _ _ _ _ _ _. simpl. split; discriminate. }
  intros fuel IH md f h c w det g p R OK IV M CR HG BRR.
  destruct f as [|n g' a m ch|a cs|cur|l r|l a f']; cbn [udrop_fut].
  - split; [discriminate|]. intros w' Q. inversion Q; subst w'. split; auto. split; [apply after_refl|].
    split; [apply keepl_refl|apply keepo_same; auto].
  - (* UElem *)
    destruct OK as (OK1 & OK2 & OKC).
    set (E := match m with
      | Added => (if det then [] else [Ent g p n]) ++ [Con n g']
      | ShouldNotAdd => [Rt n; Con n g']
      | ShouldAdd => [FN n; FG g'] end).
    assert (EF : fx det g p (UElem n g' a m ch) = E ++ facts g' [] ch) by reflexivity.
    rewrite EF in *. clear EF.
    assert (EN : noren E = E).
    { unfold E. destruct m; [congruence|auto|destruct det; auto]. }
    set (R' := E ++ R).
    assert (IR : incl R R') by (unfold R'; apply incl_appr, incl_refl).
    assert (ENB : forall l g e, ~ In (Busy l g e) E).
    { intros l g0 e Q. rewrite <- EN in Q. apply (noren_no_busy _ _ _ _ Q). }
    assert (HE : m = Added -> In (Con n g') E).
    { intros ->. unfold E. apply in_app_iff. right. left; auto. }
    assert (HCH : m = ShouldAdd -> facts g' [] ch = fx false (if det then g else g) [] ch).
    { intros Q. rewrite fx_false, !facts_new; auto. }
    set (gc := match m with Added => g' | _ => g end).
    assert (EFC : facts g' [] ch = fx false gc [] ch).
    { rewrite fx_false. unfold gc. destruct m; [congruence|rewrite !facts_new; auto|auto]. }
    assert (STEP : forall w1, INV w1 ((E ++ facts g' [] ch) ++ R) -> mode md h c w1 (E ++ facts g' [] ch) R ->
       udrop_fut fuel h ch c w1 <> Panic /\
       forall w2, udrop_fut fuel h ch c w1 = Ok w2 -> INV w2 (noren (E ++ facts g' [] ch) ++ R) /\ after md w1 w2 /\
         keepl w1 w2 /\ keepo R w1 w2).
    { intros w1 IV1 M1. rewrite EFC in *.
      destruct (IH md ch h c w1 false gc [] R') as [NP OKK]; auto.
      - eapply inv_perm; [|exact IV1]. unfold R'. pperm.
      - eapply mode_step; [exact M1|apply after_refl|auto|]. intros g0 q x. unfold R'. rewrite !in_app_iff. tauto.
      - unfold R'. apply closed_over; auto. intros y g0 Q S. apply held_app. right.
        unfold E in Q. destruct m; [congruence|destruct Q as [<-|[<-|[]]]; destruct S|].
        apply in_app_iff in Q as [Q|[<-|[]]]; [|destruct S]. destruct det; [destruct Q|]. destruct Q as [<-|[]]. simpl in S. subst; auto.
      - unfold gc. destruct m; [congruence|apply (held_mono R); auto|].
        left. exists n. unfold R'. apply in_app_iff. auto.
      - unfold R'. apply BR_over; auto. intros l g0 e Q. destruct (ENB _ _ _ Q).
      - split; auto. intros w2 Q. destruct (OKK w2 Q) as (IV2 & A2 & K2 & O2).
        split; [|split; [auto|split; [auto|apply (keepo_mono _ R'); auto]]].
        rewrite noren_app, EN. eapply inv_perm; [|exact IV2]. unfold R'. pperm. }
    assert (FIN : forall w1 w2, (forall w3, after md w2 w3 -> after md w (uunblock (h, a) w3)) -> 
       u_ls w1 = u_ls w -> after md w1 w2 -> True) by auto. clear FIN.
    destruct m.
    + congruence.
    + (* ShouldAdd *)
      destruct (detach_new n g' w (FN n :: facts g' [] ch ++ R)) as (w2 & -> & IV2 & L2 & D2).
      { eapply inv_perm; [|exact IV]. unfold E. pperm. }
      cbn [rbind].
      assert (A2 : after md w w2) by (apply after_eq; auto).
      assert (M2 : mode md h c w2 (E ++ facts g' [] ch) R).
      { eapply mode_step; [exact M|exact A2|apply incl_refl|auto]. }
      destruct (STEP w2) as [NP OKK]; auto.
      { eapply inv_perm; [|exact IV2]. unfold E. pperm. }
      destruct (udrop_fut fuel h ch c w2) as [w3| | |] eqn:EU; cbn [rbind]; try (split; [discriminate|discriminate]).
      2: congruence.
      split; [discriminate|]. intros w' Q. injection Q as <-. destruct (OKK w3 eq_refl) as (IV3 & A3 & K3 & O3).
      split; [apply inv_unblock; auto|]. split; [|split].
      * apply (after_trans _ _ w3); [eapply after_trans; eauto|].
        destruct md; simpl in *.
        -- destruct M as (b & E1 & N1 & _). unfold uunblock. destruct b as [x y]. rewrite A3, D2, E1. simpl in *.
           destruct (Nat.eqb_spec x h); [congruence|]. simpl. congruence.
        -- unfold uunblock. destruct (u_drop w3) as [[x y]|] eqn:ED; [|auto]. destruct (_ && _); simpl; auto.
      * eapply keepl_trans; [apply (keepl_same w w2); auto|]. eapply keepl_trans; [exact K3|]. apply keepl_same, ls_unblock.
      * eapply keepo_trans; [apply (keepo_same _ w w2); auto|]. eapply keepo_trans; [exact O3|]. apply keepo_same, ls_unblock.
    + (* Added *)
      destruct (try_detach md h a c w _ R IV M) as (w2 & EQ & IV2 & L2 & M2 & A2). rewrite EQ. cbn [rbind].
      destruct (STEP w2) as [NP OKK]; auto.
      destruct (udrop_fut fuel h ch c w2) as [w3| | |] eqn:EU; cbn [rbind]; try (split; [discriminate|discriminate]).
      2: congruence.
      split; [discriminate|]. intros w' Q. injection Q as <-. destruct (OKK w3 eq_refl) as (IV3 & A3 & K3 & O3).
      split; [apply inv_unblock; auto|]. split; [auto|split].
      * eapply keepl_trans; [apply (keepl_same w w2); auto|]. eapply keepl_trans; [exact K3|]. apply keepl_same, ls_unblock.
      * eapply keepo_trans; [apply (keepo_same _ w w2); auto|]. eapply keepo_trans; [exact O3|]. apply keepo_same, ls_unblock.
  - (* UComb *)
    destruct OK as [OK1 OK2]. rewrite fx_comb in *.
    destruct (try_detach md h a c w _ R IV M) as (w2 & EQ & IV2 & L2 & M2 & A2).
    destruct (ublock (h, a) w) as [bl w1]. rewrite EQ. cbn [rbind].
    destruct (comb_drop md fuel (IH md) h c det g p R CR HG BRR cs 0 w2 []) as [NP OKK]; auto.
    + apply okf_in; auto.
    + rewrite app_nil_r; auto.
    + destruct (drop_seq (fun f => udrop_fut fuel h f c) cs w2) as [w3| | |] eqn:EU; cbn [rbind]; try (split; [discriminate|discriminate]).
      2: congruence.
      split; [discriminate|]. intros w' Q. injection Q as <-. destruct (OKK w3 eq_refl) as (IV3 & A3 & K3 & O3).
      split; [apply inv_unblock; auto|]. split; [auto|split].
      * eapply keepl_trans; [apply (keepl_same w w2); auto|]. eapply keepl_trans; [exact K3|]. apply keepl_same, ls_unblock.
      * eapply keepo_trans; [apply (keepo_same _ w w2); auto|]. eapply keepo_trans; [exact O3|]. apply keepo_same, ls_unblock.
  - apply (IH md cur h c w det g p R); auto.
  - destruct r; cbn [fx] in *.
    + destruct (unrender_inv base0 U w R g l IV) as (w' & E & IV' & D' & K'). rewrite E. split; [discriminate|].
      intros w2 Q. injection Q as <-. split; auto. split; [apply after_eq; auto|]. split; auto.
      eapply unrender_keepo; eauto.
    + split; [discriminate|]. intros w' Q. injection Q as <-. split; auto. split; [apply after_refl|].
      split; [apply keepl_refl|apply keepo_same; auto].
  - (* UOwn *)
    cbn [fx] in *. cbn [okf] in OK. set (F := fx det g p f') in *.
    assert (IR : incl R (Own l :: R)) by (intros x Q; right; auto).
    destruct (IH md f' h c w det g p (Own l :: R)) as [NP OKK]; auto.
    { eapply inv_perm; [|exact IV]. fold F. pperm. }
    { eapply mode_step; [exact M|apply after_refl|auto|]. intros g0 q x. fold F. rewrite !in_app_iff. cbn [In]. tauto. }
    { apply closed_cons; auto. intros g0 []. }
    { apply (held_mono R); auto. }
    { apply (BR_over [Own l]); auto. intros k g0 e [Q|[]]; discriminate. }
    destruct (udrop_fut fuel h f' c w) as [w1| | |] eqn:EU; cbn [rbind]; try (split; [discriminate|discriminate]).
    2: congruence.
    destruct (OKK w1 eq_refl) as (IV1 & A1 & K1 & O1). fold F in IV1. clear OKK NP.
    destruct (get_l l (u_ls w1)) as [o|] eqn:GL; [|split; discriminate].
    destruct (dl_cont (lo_l o)) as [?|fr] eqn:EC; [split; discriminate|].
    assert (CF : closed (noren F ++ R)) by (apply closed_noren; auto).
    assert (BF : BR (noren F ++ R)).
    { apply BR_over; auto. intros k g0 e Q. destruct (noren_no_busy _ _ _ _ Q). }
    assert (W2 : exists w2 b2, ublock (h, a) w1 = (match u_drop w1 with None => false | _ => true end, w2) /\ u_drop w2 = Some b2 /\
               held R (fst b2) /\ u_r w2 = u_r w1 /\ u_ls w2 = u_ls w1 /\
               (forall w3, u_drop w3 = u_drop w2 -> after md w (uunblock (h, a) w3))).
    { unfold ublock. destruct (u_drop w1) as [b|] eqn:ED.
      - exists w1, b. split; auto. split; auto. destruct md; simpl in A1, M.
        + destruct M as (b' & E1 & N1 & H1). assert (b' = b) by congruence. subst b'. split; auto. split; auto. split; auto.
          intros w3 Q. simpl. unfold uunblock. rewrite Q, ED. destruct b as [x y]. simpl in *.
          destruct (Nat.eqb_spec x h); [congruence|]. simpl. congruence.
        + destruct M as (_ & _ & _ & _ & _ & _ & _ & HH & HU). destruct A1 as [A1|A1]; [|congruence].
          split; [apply HU; congruence|]. split; auto. split; auto. intros w3 Q. simpl. unfold uunblock. rewrite Q, ED.
          destruct b as [x y]. destruct (_ && _); simpl; auto. left. congruence.
      - exists (w_drop w1 (Some (h, a))), (h, a). split; auto. split; auto.
        destruct md; simpl in A1, M; [destruct M as (b & E1 & _); congruence|].
        destruct M as (_ & _ & _ & _ & _ & _ & _ & HH & HU). split; auto. split; auto. split; auto.
        intros w3 Q. simpl in Q. simpl. right. unfold uunblock. rewrite Q. simpl. rewrite !Nat.eqb_refl. auto. }
    destruct W2 as (w2 & b2 & EB & ED2 & HB2 & ER2 & EL2 & AF). rewrite EB.
    destruct (own_tail fuel (IH true) w2 l o c (noren F ++ R) b2) as [NP OKK]; auto.
    { apply (inv_same w1); auto. eapply inv_perm; [|exact IV1]. pperm. }
    { rewrite EL2; auto. }
    { exists fr; auto. }
    { apply (held_mono R); auto. apply incl_appr, incl_refl. }
    match goal with |- rbind ?x _ <> Panic /\ _ => destruct x as [w3| | |] eqn:E3; cbn [rbind]; try (split; [discriminate|discriminate]) end.
    2: congruence.
    split; [discriminate|]. intros w' Q. injection Q as <-. destruct (OKK w3 eq_refl) as (IV4 & A4 & K4 & O4).
    assert (NF : noren (Own l :: F) = noren F) by reflexivity. rewrite NF.
    split; [apply inv_unblock; auto|]. split; [apply AF; simpl in *; auto|]. split.
    + eapply keepl_trans; [exact K1|]. eapply keepl_trans; [apply (keepl_same w1 w2); auto|].
      eapply keepl_trans; [exact K4|]. apply keepl_same, ls_unblock.
    + eapply keepo_trans; [apply (keepo_mono _ (Own l :: R)); [auto|exact O1]|].
      eapply keepo_trans; [apply (keepo_same _ w1 w2); auto|].
      eapply keepo_trans; [apply (keepo_mono _ (noren F ++ R)); [apply incl_appr, incl_refl|exact O4]|]. apply keepo_same, ls_unblock.
Qed.

(** ** drops at the top: what is shown is detached *)
Lemma cut_facts g p f : okf f -> forall p', under p p' -> (forall n, ~ In (Con n g) (facts g p' f)) ->
  cut g p (facts g p' f) = fx true g p' f.
Proof.
  induction f as [|n g' a m ch IH|a cs IH|c IH|l r|l a f IH] using fut_ind'; intros OK p' UN NC.
  - reflexivity.
  - destruct OK as (OK1 & OK2 & OKC).
    assert (K : m = Added -> cut g p (facts g' [] ch) = facts g' [] ch).
    { intros ->. apply cut_none. intros q x Q _.
      destruct (facts_place ch OKC g' [] g (Ent g q x) Q) as [[E _]|(y & C)]; [left; eauto| |].
      - apply (NC n). simpl. subst. auto.
      - apply (NC y). simpl. auto. }
    destruct m; [congruence| |].
    + cbn [facts fx app]. rewrite facts_new; auto. unfold cut. rewrite filter_true; auto.
      intros x [<-|[<-|Q]]; auto. destruct (frees_only _ _ Q) as [(y & ->)|(y & ->)]; auto.
    + cbn [facts fx app]. unfold cut. cbn [filter isgone]. rewrite Nat.eqb_refl, (proj2 (underb_iff p p') UN). simpl.
      f_equal. apply K; auto.
  - destruct OK as [_ OK]. rewrite facts_comb, fx_comb in *.
    assert (OK' := okf_in _ OK). clear OK. revert NC. generalize 0. 
    induction cs as [|f cs IHc]; intros k NC; auto. inversion IH; subst. cbn [facts_list fx_list] in *.
    unfold cut. rewrite filter_app. f_equal.
    + apply H1; [apply OK'; left; auto| |].
      * destruct UN as (r & ->). exists (r ++ [N.of_nat k]). rewrite app_assoc. auto.
      * intros n Q. apply (NC n). apply in_app_iff; auto.
    + apply IHc; auto; [intros; apply OK'; right; auto|]. intros n Q. apply (NC n). apply in_app_iff; auto.
  - apply IH; auto.
  - simpl. destruct r; auto.
  - cbn [facts fx]. unfold cut. cbn [filter isgone negb]. f_equal. apply IH; auto. intros n Q. apply (NC n). right; auto.
Qed.

Lemma fx_anchored f g p : okf f -> (forall n, ~ In (Con n g) (facts g p f)) ->
  forall g0 q n, In (Ent g0 q n) (noren (fx true g p f)) -> exists m, In (Con m g0) (noren (fx true g p f)).
Proof.
  intros OK NC g0 q n Q. apply noren_in in Q as [Q _]. assert (Q' := fx_in _ _ _ _ _ Q).
  destruct (facts_place f OK g p g0 _ Q') as [[-> K]|(m & C)]; [left; eauto| |].
  - rewrite <- (cut_facts g p f OK p (under_refl p) NC) in Q. apply in_cut in Q as [_ Q]. simpl in Q.
    rewrite Nat.eqb_refl, (proj2 (underb_iff p q)) in Q by (apply (K q n); auto). discriminate.
  - exists m. apply noren_in. split; auto. apply fx_con; auto.
Qed.

Lemma noren_ok F x : In x (noren F) -> match x with Ren _ _ | Rt _ | Busy _ _ _ => False | _ => True end.
Proof. intro Q. apply noren_in in Q as [_ Q]. destruct x; auto; discriminate. Qed.

Definition udet_first (f : ufut) : option addr :=
  match f with UElem _ _ a Added _ => Some a | UComb a _ => Some a | _ => None end.
Lemma udrop_split fuel h f c w a : udet_first f = Some a -> u_drop w = None ->
  udrop_fut (S fuel) h f c w = rbind (udetach c (w_drop w (Some (h, a)))) (udrop_fut (S fuel) h f c).
Proof.
  intros E ED. destruct f as [|n g' a' m ch|a' cs|cur|l r|l a' f']; try discriminate.
  - destruct m; try discriminate. injection E as ->. cbn [udrop_fut]. unfold ublock. rewrite ED.
    destruct c as [cx|]; [|reflexivity]. simpl. destruct (remove_child_ctx _ _ _); simpl; auto.
  - injection E as ->. cbn [udrop_fut]. unfold ublock. rewrite ED.
    destruct c as [cx|]; [|reflexivity]. simpl. destruct (remove_child_ctx _ _ _); simpl; auto.
Qed.
Lemma udrop_last fuel h f c w a w' : udet_first f = Some a -> udrop_fut fuel h f c w = Ok w' -> u_drop w' <> Some (h, a).
Proof.
  assert (K : forall w3, u_drop (uunblock (h, a) w3) <> Some (h, a)).
  { intro w3. unfold uunblock. destruct (u_drop w3) as [[x y]|] eqn:E; [|congruence]. 
    destruct (Nat.eqb x (fst (h, a)) && Nat.eqb y (snd (h, a))) eqn:EB; simpl; [discriminate|].
    rewrite E. intro Q. inversion Q; subst. simpl in EB. rewrite !Nat.eqb_refl in EB. discriminate. }
  intros E. destruct fuel; [discriminate|].
  destruct f as [|n g' a' m ch|a' cs|cur|l r|l a' f']; try discriminate.
  - destruct m; try discriminate. injection E as ->. cbn [udrop_fut].
    match goal with |- rbind ?x _ = _ -> _ => destruct x as [w2| | |]; cbn [rbind]; try discriminate end.
    match goal with |- rbind ?x _ = _ -> _ => destruct x as [w3| | |]; cbn [rbind]; try discriminate end.
    intro Q. injection Q as <-. apply K.
  - injection E as ->. cbn [udrop_fut]. destruct (ublock (h, a) w) as [bl w1].
    match goal with |- rbind ?x _ = _ -> _ => destruct x as [w2| | |]; cbn [rbind]; try discriminate end.
    match goal with |- rbind ?x _ = _ -> _ => destruct x as [w3| | |]; cbn [rbind]; try discriminate end.
    intro Q. injection Q as <-. apply K.
Qed.

Lemma no_con_at F R ls g : OWN (F ++ R) ls -> held R g -> forall n, ~ In (Con n g) F.
Proof. intros OW HR n Q. apply (held_twice F R ls g OW); auto. left. eauto. Qed.

Lemma dropU : forall fuel f h w g p base R, okf f -> INV w (facts g p f ++ R) -> cbase R base g -> indices_ok p ->
  closed R -> BR R -> (forall q n, In (Ent g q n) R -> ~ under p q) -> held R h -> u_drop w = None ->
  udrop_fut fuel h f (Some (ctx_at base p)) w <> Panic /\
  forall w', udrop_fut fuel h f (Some (ctx_at base p)) w = Ok w' -> INV w' R /\ u_drop w' = None /\ keepl w w'.
Proof.
  induction fuel as [|fuel IH]; intros f h w g p base R OK IV CB IO CR BRR CL HH ED; [simpl; split; discriminate|].
  assert (HG := cbase_held _ _ _ CB). assert (NC := no_con_at _ _ _ g (proj1 IV) HG).
  destruct (udet_first f) as [a|] eqn:EF.
  - rewrite (udrop_split _ _ _ _ _ a EF ED). simpl udetach.
    destruct (detach base0 U (w_drop w (Some (h, a))) (facts g p f ++ R) base g p) as (r' & E & IV').
    { apply (inv_same w); auto. } { eapply cbase_mono; [|eauto]. apply incl_appr, incl_refl. } { auto. }
    simpl in E. rewrite E. cbn [rbind of_opt].
    assert (EC : cut g p (facts g p f ++ R) = fx true g p f ++ R).
    { unfold cut. rewrite filter_app. f_equal; [apply cut_facts; auto; apply under_refl|apply cut_none; auto]. }
    rewrite EC in IV'. set (w1 := w_r (w_drop w (Some (h, a))) r') in *.
    destruct (dropN (S fuel) false f h (Some (ctx_at base p)) w1 true g p R) as [NP OKK]; auto.
    { exists base, p, g. split; auto. split; auto. split; auto. split.
      - intros q n Q UN. rewrite <- EC in Q. apply in_cut in Q as [_ Q]. simpl in Q.
        rewrite Nat.eqb_refl, (proj2 (underb_iff p q) UN) in Q. discriminate.
      - split; auto. intros b Q. inversion Q; subst b. auto. }
    split; auto. intros w' Q. assert (ND := udrop_last _ _ _ _ _ a _ EF Q).
    destruct (OKK w' Q) as (IV2 & A2 & K2 & _). split; [|split].
    + apply (forget_ok w' _ R IV2); auto; [apply noren_ok|]. apply fx_anchored; auto.
    + destruct A2 as [A2|A2]; auto. simpl in A2. congruence.
    + eapply keepl_trans; [|exact K2]. apply keepl_same; auto.
  - destruct f as [|n g' a' m ch|a' cs|cur|l r|l a' f']; try discriminate.
    + simpl. split; [discriminate|]. intros w' Q. injection Q as <-. split; auto. split; auto. apply keepl_refl.
    + destruct m; [destruct OK; congruence| |discriminate].
      assert (EE : fx true g p (UElem n g' a' ShouldAdd ch) = facts g p (UElem n g' a' ShouldAdd ch)) by reflexivity.
      assert (FR : forall x, In x (facts g p (UElem n g' a' ShouldAdd ch)) -> (exists n, x = FN n) \/ (exists g, x = FG g)).
      { intros x Q. apply (frees_only (UElem n g' a' ShouldAdd ch)). rewrite <- (facts_new _ g p); auto.
        split; auto. destruct OK as (_ & Z & _). auto. }
      destruct (dropN (S fuel) false (UElem n g' a' ShouldAdd ch) h (Some (ctx_at base p)) w true g p R) as [NP OKK]; auto.
      { exists base, p, g. split; auto. split; auto. split; auto. split; [|split; auto; intros; congruence].
        intros q x Q. apply in_app_iff in Q as [Q|Q]; [|eapply CL; eauto].
        rewrite EE in Q. destruct (FR _ Q) as [(? & Z)|(? & Z)]; discriminate. }
      split; auto. intros w' Q. destruct (OKK w' Q) as (IV2 & A2 & K2 & _). split; [|split; auto].
      * apply (forget_ok w' _ R IV2); auto; [apply noren_ok|]. apply fx_anchored; auto.
      * destruct A2 as [A2|A2]; congruence.
    + cbn [udrop_fut]. apply (IH cur h w g p base R); auto.
    + cbn [udrop_fut]. destruct r; cbn [facts] in IV.
      * destruct (unrender_inv base0 U w R g l IV) as (w' & E & IV' & D' & K'). rewrite E. split; [discriminate|].
        intros w2 Q. injection Q as <-. split; auto. split; auto. congruence.
      * split; [discriminate|]. intros w' Q. injection Q as <-. split; auto. split; auto. apply keepl_refl.
    + cbn [udrop_fut]. cbn [facts] in IV. cbn [okf] in OK.
      assert (IR : incl R (Own l :: R)) by (intros x Q; right; auto).
      destruct (IH f' h w g p base (Own l :: R)) as [NP OKK]; auto.
      { eapply inv_perm; [|exact IV]. pperm. }
      { eapply cbase_mono; eauto. }
      { apply closed_cons; auto. intros g0 []. }
      { apply (BR_over [Own l]); auto. intros k g0 e [Q|[]]; discriminate. }
      { intros q n [Q|Q]; [discriminate|eauto]. }
      { apply (held_mono R); auto. }
      destruct (udrop_fut fuel h f' (Some (ctx_at base p)) w) as [w1| | |] eqn:EU; cbn [rbind]; try (split; [discriminate|discriminate]).
      2: congruence.
      destruct (OKK w1 eq_refl) as (IV1 & A1 & K1). clear OKK NP.
      destruct (get_l l (u_ls w1)) as [o|] eqn:GL; [|split; discriminate].
      destruct (dl_cont (lo_l o)) as [?|fr] eqn:EC; [split; discriminate|].
      unfold ublock. rewrite A1. set (w2 := w_drop w1 (Some (h, a'))).
      destruct (own_tail fuel (dropN fuel true) w2 l o (Some (ctx_at base p)) R (h, a')) as [NP OKK]; auto.
      { exists fr; auto. }
      match goal with |- rbind ?x _ <> Panic /\ _ => destruct x as [w3| | |] eqn:E3; cbn [rbind]; try (split; [discriminate|discriminate]) end.
      2: congruence.
      split; [discriminate|]. intros w' Q. injection Q as <-. destruct (OKK w3 eq_refl) as (IV4 & A4 & K4 & O4).
      split; [apply inv_unblock; auto|]. split.
      * unfold uunblock. simpl u_drop in A4. cbn [u_drop w_ls]. cbn [u_drop w_ls] in A4. rewrite A4. simpl. rewrite !Nat.eqb_refl. auto.
      * eapply keepl_trans; [exact K1|]. eapply keepl_trans; [apply (keepl_same w1 w2); auto|].
        eapply keepl_trans; [exact K4|]. apply keepl_same, ls_unblock.
Qed.

(** the executor drops the future of an item of a rendered list *)
Lemma sib_dropU fuel w l s g p base R : okf (sb_f s) -> INV w (bf l s ++ R) -> cbase R base g -> In (Ren g l) R -> indices_ok p ->
  closed R -> BR R -> (forall q n, In (Ent g q n) R -> ~ under p q) -> u_drop w = None ->
  let c := Some (ctx_at base p) in
  let r := drop_sib (fun f w => udrop_fut fuel (sb_g s) f c w) c s w in
  r <> Panic /\
  forall w', r = Ok w' -> INV w' (Busy l (sb_g s) (sb_ref s) :: R) /\ u_drop w' = None /\ keepl w w'.
Proof.
  intros OK IV CB RN IO CR BRR CL ED. cbn zeta. unfold drop_sib, ublock. rewrite ED.
  set (gs := sb_g s) in *. set (B := Busy l gs (sb_ref s)) in *.
  assert (IV0 : INV w (facts gs [] (sb_f s) ++ B :: R)).
  { eapply inv_perm; [|exact IV]. unfold bf, sfacts. fold gs. fold B. pperm. }
  assert (IR : incl R (B :: R)) by (intros x Q; right; auto).
  assert (HB : held (B :: R) gs) by (right; exists l, (sb_ref s); left; auto).
  assert (NC := no_con_at _ _ _ gs (proj1 IV0) HB).
  assert (NR : ~ held R gs).
  { intro Q. apply (held_twice (facts gs [] (sb_f s) ++ [B]) R (u_ls w) gs).
    - refine (own_perm _ _ _ _ (proj1 IV0)). pperm.
    - apply held_app. right. right. exists l, (sb_ref s). left; auto.
    - auto. }
  assert (CB2 : cbase (B :: R) (CSibling (ctx_at base p) gs (sb_ref s)) gs).
  { apply (cb_sib _ l gs (sb_ref s) base g p); [left; auto|right; auto|]. eapply cbase_mono; eauto. }
  destruct (detach base0 U (w_drop w (Some (gs, sb_a s))) (facts gs [] (sb_f s) ++ B :: R)
              (CSibling (ctx_at base p) gs (sb_ref s)) gs []) as (r' & E & IV').
  { apply (inv_same w); auto. } { eapply cbase_mono; [|eauto]. apply incl_appr, incl_refl. } { constructor. }
  simpl ctx_at in E. cbn [w_drop u_r] in E. cbn [w_drop u_r]. rewrite E. cbn [rbind of_opt].
  assert (EC : cut gs [] (facts gs [] (sb_f s) ++ B :: R) = fx true gs [] (sb_f s) ++ B :: R).
  { unfold cut. rewrite filter_app. f_equal; [apply cut_facts; auto; apply under_refl|]. apply (cut_none gs [] (B :: R)).
    intros q n [Q|Q] _; [discriminate|]. apply NR. apply (CR _ gs Q eq_refl). }
  rewrite EC in IV'. set (w1 := w_r (w_drop w (Some (gs, sb_a s))) r') in *.
  assert (CR' : closed (B :: R)) by (apply closed_cons; auto; intros g0 []).
  destruct (dropN fuel false (sb_f s) gs (Some (ctx_at base p)) w1 true gs [] (B :: R)) as [NP OKK]; auto.
  { exists base, p, g. split; auto. split; [eapply cbase_mono; eauto|]. split; auto. split; [|split; auto].
    - intros q n Q. apply in_app_iff in Q as [Q|[Q|Q]]; [|discriminate|eapply CL; eauto]. intros _.
      assert (HR : held R g) by (eapply cbase_held; eauto).
      destruct (fx_place true (sb_f s) gs [] _ g OK Q eq_refl) as [->|(m & C)]; [auto|].
      apply (held_twice (facts gs [] (sb_f s)) (B :: R) (u_ls w) g (proj1 IV0)).
      + left. exists m. eapply fx_in; eauto.
      + apply (held_mono R); auto.
    - intros b Q. inversion Q; subst b. auto. }
  { apply (BR_over [B]); auto. intros k g0 e [Q|[]]. injection Q as <- _ _. right. exists g. right; auto. }
  destruct (udrop_fut fuel gs (sb_f s) (Some (ctx_at base p)) w1) as [w3| | |] eqn:EU; cbn [rbind]; try (split; [discriminate|discriminate]).
  2: congruence.
  split; [discriminate|]. intros w' Q. injection Q as <-. destruct (OKK w3 eq_refl) as (IV2 & A2 & K2 & _).
  split; [|split].
  + apply inv_unblock. apply (forget_ok w3 _ (B :: R) IV2); auto; [apply noren_ok|]. apply fx_anchored; auto.
  + unfold uunblock. destruct A2 as [A2|A2]; rewrite A2; auto. simpl. rewrite !Nat.eqb_refl. auto.
  + eapply keepl_trans; [|eapply keepl_trans; [exact K2|apply keepl_same, ls_unblock]]. apply keepl_same; auto.
Qed.
End Drop.
