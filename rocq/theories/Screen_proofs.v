(** Proofs about applications with everything they render: what happens in the tree of blocks is
    what Tree.v says, and what happens to the document is what Ui.v says for some schedule. *)
From Coq Require Import List Arith NArith Bool Lia.
From Verif Require Import Arena Spec_arena Readiness Combinator Util Combinator_proofs Tree Tree_proofs Position Dom Context Ui Spec_ui Ui_proofs Screen Spec_screen.
Import ListNotations.

(** ** Schedules *)
Lemma block_loop_app c l1 : forall l2 cur st, block_loop c (l1 ++ l2) cur st =
  match block_loop c l1 cur st with None => None | Some (cur', st') => block_loop c l2 cur' st' end.
Proof.
  induction l1 as [|[s|f] l1 IH]; intros l2 cur st; cbn [app block_loop]; auto; fold (block_loop c).
  - destruct (poll s cur c st) as [(cur', st')|]; auto.
  - destruct (drop_fut cur c st) as [st'|]; auto.
Qed.
Lemma bcreated_app l1 l2 : bcreated (l1 ++ l2) = bcreated l1 ++ bcreated l2.
Proof.
  induction l1 as [|[s|f] l1 IH]; cbn [app bcreated]; auto; fold bcreated; rewrite IH; auto. now rewrite app_assoc.
Qed.
Lemma comb_loop_app c l1 : forall l2 cs st, comb_loop c (l1 ++ l2) cs st =
  match comb_loop c l1 cs st with None => None | Some (cs', st') => comb_loop c l2 cs' st' end.
Proof.
  induction l1 as [|(i, s) l1 IH]; intros l2 cs st; cbn [app comb_loop]; auto; fold (comb_loop c).
  destruct (nth_error cs i) as [ch|]; auto. destruct c as [cx|]; auto.
  destruct (poll s ch _ st) as [(ch', st')|]; auto.
Qed.
Lemma lcreated_app l1 l2 : lcreated (l1 ++ l2) = lcreated l1 ++ lcreated l2.
Proof. induction l1 as [|(i, s) l1 IH]; cbn [app lcreated]; auto; fold lcreated; rewrite IH. now rewrite app_assoc. Qed.
Lemma created_block l : created (SBlock l) = bcreated l.
Proof. reflexivity. Qed.
Lemma created_comb l : created (SComb l) = lcreated l.
Proof. reflexivity. Qed.

Lemma poll_elem_eq s n g a m ch c st : poll (SElem s) (FElem n g a m ch) c st =
  match add_self n m c st with
  | None => None
  | Some (m', st1) => match poll s ch (Some (CContainer g n)) st1 with
                      | None => None
                      | Some (ch', st2) => Some (FElem n g a m' ch', st2)
                      end
  end.
Proof. reflexivity. Qed.

Section Proofs.
Variables V X : Type.
Variable ww : waker -> waker -> bool.
Variable debug : bool.
Variables (elem : nat -> Dom.node) (grp : nat -> gid) (adr_e adr_c : nat -> addr).
Variable code : X -> place -> option V -> X * list place * list uact * next V.
Hypothesis SMALL : few code.

Notation ecode := (plain code).

Notation world := (Tree.world V X). Notation hp := (w_hp V X). Notation tr := (w_tr V X). Notation sub := (w_sub V X).
Notation inner := (inner elem grp). Notation wrap := (wrap elem grp adr_e). Notation cur_of := (cur_of elem grp adr_e adr_c).
Notation screen := (screen V X). Notation mkS := (mkS V X).
Notation do_uact := (do_uact V X elem grp adr_e). Notation do_uacts := (do_uacts V X elem grp adr_e).
Notation sblock := (Screen.poll_block V X ww debug elem grp adr_e adr_c code).
Notation scode := (Screen.run_code V X ww debug elem grp adr_e adr_c code).
Notation sawait := (Screen.await V X ww debug elem grp adr_e adr_c code).
Notation scomb := (Screen.poll_comb V X ww debug elem grp adr_e adr_c code).
Notation sloop := (Screen.loop V X ww debug elem grp adr_e adr_c code).
Notation tblock := (Tree.poll_block V X ww debug ecode).
Notation tcode := (Tree.run_code V X ww debug ecode).
Notation tawait := (Tree.await V X ww debug ecode).
Notation tcomb := (Tree.poll_comb V X ww debug ecode).
Notation tloop := (Tree.loop V X ww debug ecode).

Lemma wrap_app a b x : wrap (a ++ b) x = wrap a (wrap b x).
Proof. induction a; cbn; congruence. Qed.
Lemma inner_app a : forall c b, inner c (a ++ b) = inner (inner c a) b.
Proof. induction a; cbn; auto. Qed.

Fixpoint at_depth (fr : list nat) (l : list baction) : list baction :=
  match fr with [] => l | _ :: t => [BPoll (SElem (SBlock (at_depth t l)))] end.
Lemma at_depth_created fr l : bcreated (at_depth fr l) = bcreated l.
Proof. induction fr; cbn [at_depth bcreated]; auto. fold bcreated. cbn [created]. fold bcreated. now rewrite app_nil_r. Qed.
Lemma at_depth_ok fr : forall l c x st, block_loop (Some c) (at_depth fr l) (wrap fr x) st =
  match block_loop (Some (inner c fr)) l x st with None => None | Some (x', st') => Some (wrap fr x', st') end.
Proof.
  induction fr as [|k fr IH]; intros l c x st; cbn [at_depth Screen.wrap Screen.inner].
  - destruct (block_loop (Some c) l x st) as [(x', st')|]; auto.
  - cbn [block_loop]. fold (block_loop (Some c)). rewrite poll_elem_eq. cbn [add_self]. rewrite poll_block_eq, IH.
    destruct (block_loop _ l x st) as [(x', st')|]; auto.
Qed.

(** what the schedule creates: the elements made meanwhile, in order *)
Definition makes (nx nx' : nat) (fs : list fut) : Prop :=
  nx <= nx' /\ flat_map nodes fs = map elem (seq nx (nx' - nx)) /\ flat_map gids fs = map grp (seq nx (nx' - nx)) /\
  Forall unpolled fs.
Lemma makes_nil nx : makes nx nx [].
Proof. unfold makes. rewrite Nat.sub_diag. cbn. auto. Qed.
Lemma makes_app a b c f1 f2 : makes a b f1 -> makes b c f2 -> makes a c (f1 ++ f2).
Proof.
  intros (L1 & N1 & G1 & U1) (L2 & N2 & G2 & U2). split; [lia|]. rewrite !flat_map_app, N1, N2, G1, G2.
  replace (c - a) with ((b - a) + (c - b)) by lia. rewrite seq_app, !map_app.
  replace (a + (b - a)) with b by lia. split; [reflexivity|]. split; [reflexivity|]. apply Forall_app; auto.
Qed.
Lemma makes_none nx fs : flat_map nodes fs = [] -> flat_map gids fs = [] -> Forall unpolled fs -> makes nx nx fs.
Proof. intros A B C. unfold makes. rewrite Nat.sub_diag, A, B. cbn. auto. Qed.

(** ** Rendering done by the code *)
Lemma uact_ok p a fr nx lg : exists l nx' lg' fr', makes nx nx' (bcreated l) /\
  (forall w c st, do_uact p c a fr (mkS w st nx lg) =
     match block_loop (Some c) l (wrap fr FLeaf) st with None => Fault | Some (_, st') => Done (fr', mkS w st' nx' lg') end) /\
  (forall c st cu st', block_loop (Some c) l (wrap fr FLeaf) st = Some (cu, st') -> cu = wrap fr' FLeaf) /\
  (opens p lg = fr -> opens p lg' = fr') /\ (forall q, q <> p -> opens q lg' = opens q lg).
Proof.
  destruct a.
  - exists (at_depth fr [BReplace (FElem (elem nx) (grp nx) (adr_e nx) ShouldAdd (FBlock FLeaf)); BPoll (SElem SNone)]), (S nx), (DEnter p nx :: lg), (fr ++ [nx]).
    split; [|split; [|split; [|split]]].
    + rewrite at_depth_created. cbn. unfold makes. replace (S nx - nx) with 1 by lia. cbn. repeat split; auto.
      repeat constructor.
    + intros w c st. rewrite at_depth_ok. cbn [block_loop drop_fut poll]. cbn [Screen.do_uact s_next s_u s_w s_log].
      destruct (add_self (elem nx) ShouldAdd (Some (inner c fr)) st) as [(m, st1)|] eqn:E; cbn [get bind]; auto.
    + intros c st cu st'. rewrite at_depth_ok. cbn [block_loop drop_fut poll].
      destruct (add_self (elem nx) ShouldAdd (Some (inner c fr)) st) as [(m, st1)|] eqn:E; [|discriminate].
      assert (m = Added) as -> by (cbn in E; destruct (add_child _ _ _ _); [injection E as <- <-; reflexivity|discriminate]).
      intro H. injection H as <- <-. rewrite wrap_app. reflexivity.
    + intro H. cbn. rewrite place_eqb_refl, H. reflexivity.
    + intros q N. cbn. rewrite place_eqb_neq by congruence. reflexivity.
  - destruct (rev fr) as [|k r] eqn:R.
    + exists [], nx, (DLeave p :: lg), fr. split; [apply makes_nil|]. split; [|split; [|split]]; auto.
      * intros w c st. cbn [Screen.do_uact]. rewrite R. reflexivity.
      * intros c st cu st' H. cbn in H. injection H as <- <-. reflexivity.
      * intro H. cbn. rewrite place_eqb_refl, H. rewrite <- (rev_involutive fr), R. reflexivity.
      * intros q N. cbn. rewrite place_eqb_neq by congruence. reflexivity.
    + assert (FR : fr = rev r ++ [k]) by (rewrite <- (rev_involutive fr), R; reflexivity).
      exists (at_depth (rev r) [BReplace FLeaf]), nx, (DLeave p :: lg), (rev r).
      split; [|split; [|split; [|split]]].
      * rewrite at_depth_created. apply makes_none; auto. repeat constructor.
      * intros w c st. cbn [Screen.do_uact]. rewrite R, FR at 1. rewrite wrap_app, at_depth_ok. cbn [Screen.wrap block_loop s_u s_w s_next s_log].
        destruct (drop_fut _ _ st) as [st1|]; cbn [get bind]; auto.
      * intros c st cu st'. rewrite FR, wrap_app, at_depth_ok. cbn [Screen.wrap block_loop].
        destruct (drop_fut _ _ st) as [st1|]; [|discriminate]. intro H. injection H as <- <-. reflexivity.
      * intro H. cbn. rewrite place_eqb_refl, H, FR. apply removelast_last.
      * intros q N. cbn. rewrite place_eqb_neq by congruence. reflexivity.
Qed.
Lemma uacts_ok p acts : forall fr nx lg, exists l nx' lg' fr', makes nx nx' (bcreated l) /\
  (forall w c st, do_uacts p c acts fr (mkS w st nx lg) =
     match block_loop (Some c) l (wrap fr FLeaf) st with None => Fault | Some (_, st') => Done (fr', mkS w st' nx' lg') end) /\
  (forall c st cu st', block_loop (Some c) l (wrap fr FLeaf) st = Some (cu, st') -> cu = wrap fr' FLeaf) /\
  (opens p lg = fr -> opens p lg' = fr') /\ (forall q, q <> p -> opens q lg' = opens q lg).
Proof.
  induction acts as [|a acts IH]; intros fr nx lg.
  - exists [], nx, lg, fr. split; [apply makes_nil|]. split; [reflexivity|]. split; [|auto].
    intros c st cu st' H. cbn in H. injection H as <- <-. reflexivity.
  - destruct (uact_ok p a fr nx lg) as (l1 & nx1 & lg1 & fr1 & M1 & E1 & C1 & O1 & Q1).
    destruct (IH fr1 nx1 lg1) as (l2 & nx2 & lg2 & fr2 & M2 & E2 & C2 & O2 & Q2).
    exists (l1 ++ l2), nx2, lg2, fr2. split; [rewrite bcreated_app; eapply makes_app; eauto|]. split; [|split; [|split]].
    + intros w c st. cbn [Screen.do_uacts]. rewrite E1, block_loop_app.
      destruct (block_loop (Some c) l1 _ st) as [(cu, st1)|] eqn:B; [|reflexivity]. cbn [bind].
      rewrite (C1 _ _ _ _ B). apply E2.
    + intros c st cu st'. rewrite block_loop_app. destruct (block_loop (Some c) l1 _ st) as [(cu1, st1)|] eqn:B; [|discriminate].
      rewrite (C1 _ _ _ _ B). apply C2.
    + auto.
    + intros q N. rewrite Q2, Q1; auto.
Qed.

(** ** Waking does not change what blocks await *)
Definition grows (w w' : world) : Prop :=
  length (hp w) <= length (hp w') /\
  forall n nd, nth_error (hp w) n = Some nd -> exists nd', nth_error (hp w') n = Some nd' /\
    nd_owner V nd' = nd_owner V nd /\ length (c_filled V (nd_c V nd')) = length (c_filled V (nd_c V nd)).
Lemma grows_refl w : grows w w.
Proof. split; auto. intros n nd H. eauto. Qed.
Lemma grows_trans a b c : grows a b -> grows b c -> grows a c.
Proof.
  intros (L1 & G1) (L2 & G2). split; [lia|]. intros n nd H. destruct (G1 n nd H) as (nd1 & H1 & O1 & F1).
  destruct (G2 n nd1 H1) as (nd2 & H2 & O2 & F2). exists nd2. split; auto. split; congruence.
Qed.
Lemma grows_emit e w : grows w (emit V X e w).
Proof. split; auto. intros n nd H. eauto. Qed.
Lemma grows_set_sub p o w : grows w (set_sub V X p o w).
Proof. split; auto. intros n nd H. eauto. Qed.
Lemma grows_set_x x w : grows w (set_x V X x w).
Proof. split; auto. intros n nd H. eauto. Qed.
Lemma grows_set_node n c w : (forall nd, nth_error (hp w) n = Some nd -> length (c_filled V c) = length (c_filled V (nd_c V nd))) ->
  grows w (set_node V X n c w).
Proof.
  intro H. unfold set_node. destruct (nth_error (hp w) n) as [nd|] eqn:E; [|apply grows_refl]. specialize (H nd eq_refl).
  assert (L : n < length (hp w)) by (apply nth_error_Some; congruence).
  split; cbn [w_hp]; [rewrite lset_length; auto|]. intros m nd' M. destruct (Nat.eq_dec m n) as [->|N].
  - rewrite lset_nth, Nat.eqb_refl by auto. eexists. split; [reflexivity|]. cbn. rewrite E in M. injection M as <-. auto.
  - rewrite lset_nth by auto. destruct (Nat.eqb_spec m n); [contradiction|]. eauto.
Qed.

(** [mild]: nothing of what blocks await has changed *)
Definition mild (w w' : world) : Prop :=
  grows w w' /\ length (hp w') = length (hp w) /\ (forall q, sub w' q = sub w q) /\ (forall q, awaits q (tr w') = awaits q (tr w)).
Lemma mild_refl w : mild w w.
Proof. split; [apply grows_refl|auto]. Qed.
Lemma mild_trans a b c : mild a b -> mild b c -> mild a c.
Proof.
  intros (G1 & L1 & S1 & A1) (G2 & L2 & S2 & A2). split; [eapply grows_trans; eauto|]. split; [congruence|].
  split; intro q; congruence.
Qed.
Lemma mild_emit e w : (forall q t, awaits q (e :: t) = awaits q t) -> mild w (emit V X e w).
Proof. intro H. split; [apply grows_emit|]. repeat split; auto. intro q. apply H. Qed.
Lemma mild_set_node n c w : (forall nd, nth_error (hp w) n = Some nd -> length (c_filled V c) = length (c_filled V (nd_c V nd))) ->
  mild w (set_node V X n c w).
Proof.
  intro H. split; [apply grows_set_node; auto|]. unfold set_node. destruct (nth_error (hp w) n); [|auto].
  cbn. rewrite lset_length. auto.
Qed.
Lemma mild_set_x x w : mild w (set_x V X x w).
Proof. split; [apply grows_set_x|auto]. Qed.
Lemma wake_mild fuel : forall locked t w w', wake V X fuel locked t w = Done w' -> mild w w'.
Proof.
  induction fuel as [|fuel IH]; intros locked t w w' H; cbn [wake] in H.
  - destruct (w_task t) as [c|]; [|injection H as <-; apply mild_refl].
    destruct (place_of c); [injection H as <-; apply mild_emit; reflexivity|discriminate].
  - destruct (w_task t) as [c|]; [|injection H as <-; apply mild_refl].
    destruct (place_of c) as [|n i]; [injection H as <-; apply mild_emit; reflexivity|].
    destruct (existsb _ locked); [discriminate|].
    destruct (nth_error (hp w) n) as [nd|] eqn:E; [|discriminate]. cbn [get bind] in H.
    destruct (rd_wake _ i) as [(r, o)|]; [|discriminate]. cbn [get bind] in H.
    assert (M : mild w (set_node V X n (set_rd V (nd_c V nd) r) (emit V X (EWake (Kid n i)) w))).
    { apply mild_trans with (emit V X (EWake (Kid n i)) w); [apply mild_emit; reflexivity|]. apply mild_set_node. cbn. rewrite E. intros nd' [= <-]. reflexivity. }
    destruct o as [p|]; [|injection H as <-; exact M].
    eapply mild_trans; [exact M|]. eapply IH; eauto.
Qed.
Lemma wake_place_mild p w w' : wake_place V X w p = Done w' -> mild w w'.
Proof.
  unfold wake_place. destruct (Tree.exists_place V X w p); [apply wake_mild|]. intros [= <-]. apply mild_refl.
Qed.
Lemma wake_all_mild l : forall w w', wake_all V X l w = Done w' -> mild w w'.
Proof.
  induction l as [|p l IH]; intros w w' H; cbn [wake_all] in H; [injection H as <-; apply mild_refl|].
  destruct (wake_place V X w p) as [w1| | |] eqn:E; try discriminate. cbn [bind] in H.
  eapply mild_trans; [eapply wake_place_mild; eauto|]. auto.
Qed.

(** ** The futures fit what the blocks await *)
Fixpoint ids (u : ufut) : list nat :=
  match u with U _ None => [] | U _ (Some (n, us)) => n :: flat_map ids us end.
Inductive fits (w : world) (lg : list dev) : place -> ufut -> Prop :=
| fits_none p fr : opens p lg = fr -> sub w p = None -> awaits p (tr w) = None -> fits w lg p (U fr None)
| fits_some p fr n us : opens p lg = fr -> sub w p = Some n -> awaits p (tr w) = Some (n, length us) ->
    kfits w lg n us -> fits w lg p (U fr (Some (n, us)))
with kfits (w : world) (lg : list dev) : nat -> list ufut -> Prop :=
| kfits_all n us nd : nth_error (hp w) n = Some nd -> length (c_filled V (nd_c V nd)) = length us ->
    (forall i u, nth_error us i = Some u -> fits w lg (Kid n i) u) -> kfits w lg n us.

(** nothing changes for block [q] *)
Definition same (w : world) (lg : list dev) (w' : world) (lg' : list dev) (q : place) : Prop :=
  sub w' q = sub w q /\ awaits q (tr w') = awaits q (tr w) /\ opens q lg' = opens q lg.
Definition inn (I : list nat) (q : place) : Prop := exists m j, q = Kid m j /\ In m I.
Section Ind.
Variable P : ufut -> Prop.
Hypothesis H0 : forall fr, P (U fr None).
Hypothesis H1 : forall fr n us, Forall P us -> P (U fr (Some (n, us))).
Fixpoint ufut_ind' (u : ufut) : P u :=
  match u with
  | U fr None => H0 fr
  | U fr (Some (n, us)) =>
      H1 fr n us ((fix go l : Forall P l := match l with [] => Forall_nil _ | x :: t => Forall_cons _ (ufut_ind' x) (go t) end) us)
  end.
End Ind.
Lemma fits_keep w lg w' lg' : grows w w' -> forall u p, fits w lg p u ->
  (forall q, q = p \/ inn (ids u) q -> same w lg w' lg' q) -> fits w' lg' p u.
Proof.
  intros G. induction u as [fr|fr n us IH] using ufut_ind'; intros p F S; inversion F; subst.
  - destruct (S p (or_introl eq_refl)) as (A & B & C). constructor; congruence.
  - destruct (S p (or_introl eq_refl)) as (A & B & C). constructor; try congruence.
    match goal with K : kfits _ _ _ _ |- _ => inversion K as [n0 us0 nd E L FS]; subst end.
    destruct G as (GL & G). destruct (G _ _ E) as (nd' & E' & _ & L').
    apply kfits_all with nd'; [auto|congruence|]. intros i u U. rewrite Forall_forall in IH.
    apply IH; [eapply nth_error_In; eauto|auto|].
    intros q [->|(m & j & -> & M)]; apply S; right.
    + exists n, i. split; auto. left; auto.
    + exists m, j. split; auto. right. apply in_flat_map. exists u. split; auto. eapply nth_error_In; eauto.
Qed.
Lemma kfits_keep w lg w' lg' : grows w w' -> forall n us, kfits w lg n us ->
  (forall q, inn (n :: flat_map ids us) q -> same w lg w' lg' q) -> kfits w' lg' n us.
Proof.
  intros G n us K S. inversion K as [n0 us0 nd E L FS]; subst.
  destruct (proj2 G _ _ E) as (nd' & E' & _ & L'). apply kfits_all with nd'; [auto|congruence|].
  intros i u U. apply fits_keep with w lg; auto. intros q [->|(m & j & -> & M)]; apply S.
  - exists n, i. split; auto. left; auto.
  - exists m, j. split; auto. right. apply in_flat_map. exists u. split; auto. eapply nth_error_In; eauto.
Qed.

(** blocks that do not exist yet have done nothing; a combinator is awaited by its owner only *)
Definition sane (w : world) (lg : list dev) : Prop :=
  (forall m j, length (hp w) <= m -> sub w (Kid m j) = None /\ awaits (Kid m j) (tr w) = None /\ opens (Kid m j) lg = []) /\
  (forall q n k, awaits q (tr w) = Some (n, k) -> exists nd, nth_error (hp w) n = Some nd /\ nd_owner V nd = q).
(** only the blocks in [D], and new ones, are changed *)
Definition chg (D : place -> Prop) (w : world) (lg : list dev) (w' : world) (lg' : list dev) : Prop :=
  grows w w' /\ forall q, ~ D q -> (forall m j, q = Kid m j -> m < length (hp w)) -> same w lg w' lg' q.
Definition old (w : world) (p : place) : Prop := forall m j, p = Kid m j -> m < length (hp w).
Lemma chg_trans (D E : place -> Prop) a la b lb c lc : chg D a la b lb -> chg E b lb c lc ->
  (forall q, old a q -> E q -> D q) -> chg D a la c lc.
Proof.
  intros (G1 & C1) (G2 & C2) H. split; [eapply grows_trans; eauto|]. intros q N O.
  destruct (C1 q N O) as (A1 & A2 & A3).
  destruct (C2 q) as (B1 & B2 & B3).
  - intro Q. apply N. apply H; auto.
  - intros m j Q. specialize (O m j Q). destruct G1. lia.
  - unfold same. split; [congruence|]. split; congruence.
Qed.
Lemma mild_chg D w w' lg : mild w w' -> chg D w lg w' lg.
Proof. intros (G & L & S & A). split; auto. intros q _ _. unfold same. auto. Qed.
Lemma mild_sane w w' lg : mild w w' -> sane w lg -> sane w' lg.
Proof.
  intros (G & L & S & A) (S1 & S2). split.
  - intros m j M. rewrite S, A. apply S1. lia.
  - intros q n k H. rewrite A in H. destruct (S2 q n k H) as (nd & E & O). destruct (proj2 G _ _ E) as (nd' & E' & O' & _).
    exists nd'. split; congruence.
Qed.
Lemma mild_fits w w' lg p u : mild w w' -> fits w lg p u -> fits w' lg p u.
Proof. intros (G & L & S & A) F. eapply fits_keep; eauto. intros q _. unfold same. auto. Qed.
Lemma mild_kfits w w' lg n us : mild w w' -> kfits w lg n us -> kfits w' lg n us.
Proof. intros (G & L & S & A) F. eapply kfits_keep; eauto. intros q _. unfold same. auto. Qed.
Lemma mild_old w w' p : mild w w' -> old w p -> old w' p.
Proof. intros (G & L & S & A) O m j E. specialize (O m j E). lia. Qed.
Lemma grows_old w w' p : grows w w' -> old w p -> old w' p.
Proof. intros (L & _) O m j E. specialize (O m j E). lia. Qed.

(** the combinators in a future after a step: those before, and new ones *)
Definition newids (w w' : world) (I I' : list nat) : Prop :=
  NoDup I' /\ forall m, In m I' -> In m I \/ length (hp w) <= m < length (hp w').
Definition lows (w : world) (I : list nat) : Prop := NoDup I /\ forall m, In m I -> m < length (hp w).

(** outcome of a step: the tree's, with the document's *)
Definition outcome {A} (T : res (world * option V)) (o : option (A * ustate)) (nx : nat) (lg : list dev) {B} (u : B) : res (screen * B * option V) :=
  match o with
  | None => Fault
  | Some (_, st) => match T with Done (w, v) => Done (mkS w st nx lg, u, v) | Panic => Panic | Fault => Fault | NoFuel => NoFuel end
  end.
Definition POST (p : place) (u : ufut) (w : world) (nx : nat) (lg : list dev) (T : res (world * option V))
  (F : ctx -> ustate -> res (screen * ufut * option V)) : Prop :=
  exists l nx' lg' u', makes nx nx' (bcreated l) /\
  (forall c st, F c st = outcome T (block_loop (Some c) l (cur_of u) st) nx' lg' u') /\
  (forall w' v, T = Done (w', v) -> sane w' lg' /\ fits w' lg' p u' /\ chg (fun q => q = p \/ inn (ids u) q) w lg w' lg' /\
     newids w w' (ids u) (ids u') /\
     forall c st cu st', block_loop (Some c) l (cur_of u) st = Some (cu, st') -> cu = cur_of u').
Notation kids_of us := (map (fun u => FBlock (cur_of u)) us).
Definition KPOST (n : nat) (us : list ufut) (w : world) (nx : nat) (lg : list dev) (T : res (world * option V))
  (F : ctx -> ustate -> res (screen * list ufut * option V)) : Prop :=
  exists l nx' lg' us', makes nx nx' (lcreated l) /\
  (forall c st, F c st = outcome T (comb_loop (Some c) l (kids_of us) st) nx' lg' us') /\
  (forall w' v, T = Done (w', v) -> sane w' lg' /\ kfits w' lg' n us' /\ length us' = length us /\
     chg (inn (n :: flat_map ids us)) w lg w' lg' /\
     newids w w' (n :: flat_map ids us) (n :: flat_map ids us') /\
     forall c st cs st', comb_loop (Some c) l (kids_of us) st = Some (cs, st') -> cs = kids_of us').

(** ** The five functions *)
Definition SB f := forall p wk u w nx lg, sane w lg -> fits w lg p u -> old w p -> lows w (ids u) -> ~ inn (ids u) p ->
  POST p u w nx lg (tblock f p wk w) (fun c st => sblock f p wk c u (mkS w st nx lg)).
Definition SR f := forall p wk fr got w nx lg, sane w lg -> fits w lg p (U fr None) -> old w p ->
  POST p (U fr None) w nx lg (tcode f p wk got w) (fun c st => scode f p wk c fr got (mkS w st nx lg)).
Definition SA f := forall p wk fr n us w nx lg, sane w lg -> fits w lg p (U fr (Some (n, us))) -> old w p ->
  lows w (n :: flat_map ids us) -> ~ inn (n :: flat_map ids us) p ->
  POST p (U fr (Some (n, us))) w nx lg (tawait f p wk n w) (fun c st => sawait f p wk c fr n us (mkS w st nx lg)).
Definition SC f := forall n wk us w nx lg, sane w lg -> kfits w lg n us -> lows w (n :: flat_map ids us) ->
  KPOST n us w nx lg (tcomb f n wk w) (fun c st => scomb f n wk c us (mkS w st nx lg)).
Definition SL f := forall n l us w nx lg, sane w lg -> kfits w lg n us -> lows w (n :: flat_map ids us) ->
  KPOST n us w nx lg (tloop f n l w) (fun c st => sloop f n l c us (mkS w st nx lg)).

(** a step that does not do anything to the document, in front *)
Lemma POST_mild p u w w1 nx lg T F : mild w w1 -> POST p u w1 nx lg T F -> POST p u w nx lg T F.
Proof.
  intros M (l & nx' & lg' & u' & MK & E & R). exists l, nx', lg', u'. split; auto. split; auto.
  intros w' v H. destruct (R w' v H) as (S & FI & C & N & CU). split; auto. split; auto. split; [|split; auto].
  - eapply chg_trans; [apply mild_chg; exact M|exact C|auto].
  - destruct N as (N1 & N2). split; auto. intros m I. destruct (N2 m I); auto. right. destruct M as (_ & L & _). lia.
Qed.
Lemma KPOST_mild n us w w1 nx lg T F : mild w w1 -> KPOST n us w1 nx lg T F -> KPOST n us w nx lg T F.
Proof.
  intros M (l & nx' & lg' & u' & MK & E & R). exists l, nx', lg', u'. split; auto. split; auto.
  intros w' v H. destruct (R w' v H) as (S & FI & LE & C & N & CU). split; auto. split; auto. split; auto. split; [|split; auto].
  - eapply chg_trans; [apply mild_chg; exact M|exact C|auto].
  - destruct N as (N1 & N2). split; auto. intros m I. destruct (N2 m I); auto. right. destruct M as (_ & L & _). lia.
Qed.
(** nothing is done *)
Lemma POST_fail p u w nx lg T : (forall r, T <> Done r) ->
  POST p u w nx lg T (fun c st => match T with Panic => Panic | Fault => Fault | _ => NoFuel end).
Proof.
  intro H. exists [], nx, lg, u. split; [apply makes_nil|]. split.
  - intros c st. cbn. destruct T; auto. exfalso; eapply H; eauto.
  - intros w' v E. exfalso. eapply H; eauto.
Qed.
Lemma KPOST_fail n us w nx lg T : (forall r, T <> Done r) ->
  KPOST n us w nx lg T (fun c st => match T with Panic => Panic | Fault => Fault | _ => NoFuel end).
Proof.
  intro H. exists [], nx, lg, us. split; [apply makes_nil|]. split.
  - intros c st. cbn. destruct T; auto. exfalso; eapply H; eauto.
  - intros w' v E. exfalso. eapply H; eauto.
Qed.
Lemma KPOST_done n us w nx lg v : sane w lg -> kfits w lg n us -> lows w (n :: flat_map ids us) ->
  KPOST n us w nx lg (Done (w, v)) (fun c st => Done (mkS w st nx lg, us, v)).
Proof.
  intros S K (L1 & L2). exists [], nx, lg, us. split; [apply makes_nil|]. split; [reflexivity|].
  intros w' v' E. injection E as <- <-. split; auto. split; auto. split; auto. split.
  - split; [apply grows_refl|]. intros q _ _. unfold same. auto.
  - split; [split; auto|]. intros c st cs st' H. cbn in H. injection H as <- <-. reflexivity.
Qed.
Lemma POST_ext p u w nx lg T F F' : (forall c st, F c st = F' c st) -> POST p u w nx lg T F -> POST p u w nx lg T F'.
Proof. intros H (l & nx' & lg' & u' & A & B & C). exists l, nx', lg', u'. split; auto. split; auto. intros. rewrite <- H. auto. Qed.
Lemma KPOST_ext p u w nx lg T F F' : (forall c st, F c st = F' c st) -> KPOST p u w nx lg T F -> KPOST p u w nx lg T F'.
Proof. intros H (l & nx' & lg' & u' & A & B & C). exists l, nx', lg', u'. split; auto. split; auto. intros. rewrite <- H. auto. Qed.
Lemma POST_seq p u u1 w w1 nx nx1 lg lg1 l1 T F F1 :
  makes nx nx1 (bcreated l1) ->
  (forall c st cu st', block_loop (Some c) l1 (cur_of u) st = Some (cu, st') -> cu = cur_of u1) ->
  (forall c st, F c st = match block_loop (Some c) l1 (cur_of u) st with None => Fault | Some (_, st1) => F1 c st1 end) ->
  chg (fun q => q = p \/ inn (ids u) q) w lg w1 lg1 ->
  (forall m, In m (ids u1) -> In m (ids u) \/ length (hp w) <= m < length (hp w1)) ->
  POST p u1 w1 nx1 lg1 T F1 -> POST p u w nx lg T F.
Proof.
  intros MK CU EF CH ID (l2 & nx2 & lg2 & u2 & MK2 & E2 & R2).
  exists (l1 ++ l2), nx2, lg2, u2. split; [rewrite bcreated_app; eapply makes_app; eauto|]. split.
  - intros c st. rewrite EF, block_loop_app. destruct (block_loop (Some c) l1 _ st) as [(cu, st1)|] eqn:B; [|reflexivity].
    rewrite (CU _ _ _ _ B). apply E2.
  - intros w' v H. destruct (R2 w' v H) as (S & FI & C & (N1 & N2) & CU2). split; auto. split; auto. split; [|split].
    + eapply chg_trans; [exact CH|exact C|]. intros q O [->|(m & j & -> & M)]; auto.
      destruct (ID m M) as [I|I]; [right; exists m, j; auto|]. specialize (O m j eq_refl). lia.
    + split; auto. intros m M. destruct (N2 m M) as [I|I].
      * destruct (ID m I) as [I'|I']; auto. right. destruct C as ((GL & _) & _). lia.
      * right. destruct CH as ((GL & _) & _). lia.
    + intros c st cu st'. rewrite block_loop_app. destruct (block_loop (Some c) l1 _ st) as [(cu1, st1)|] eqn:B; [|discriminate].
      rewrite (CU _ _ _ _ B). apply CU2.
Qed.
Lemma KPOST_seq n us us1 w w1 nx nx1 lg lg1 l1 T F F1 :
  makes nx nx1 (lcreated l1) -> length us1 = length us ->
  (forall c st cu st', comb_loop (Some c) l1 (kids_of us) st = Some (cu, st') -> cu = kids_of us1) ->
  (forall c st, F c st = match comb_loop (Some c) l1 (kids_of us) st with None => Fault | Some (_, st1) => F1 c st1 end) ->
  chg (inn (n :: flat_map ids us)) w lg w1 lg1 ->
  (forall m, In m (n :: flat_map ids us1) -> In m (n :: flat_map ids us) \/ length (hp w) <= m < length (hp w1)) ->
  KPOST n us1 w1 nx1 lg1 T F1 -> KPOST n us w nx lg T F.
Proof.
  intros MK LE CU EF CH ID (l2 & nx2 & lg2 & u2 & MK2 & E2 & R2).
  exists (l1 ++ l2), nx2, lg2, u2. split; [rewrite lcreated_app; eapply makes_app; eauto|]. split.
  - intros c st. rewrite EF, comb_loop_app. destruct (comb_loop (Some c) l1 _ st) as [(cu, st1)|] eqn:B; [|reflexivity].
    rewrite (CU _ _ _ _ B). apply E2.
  - intros w' v H. destruct (R2 w' v H) as (S & FI & LE2 & C & (N1 & N2) & CU2). split; auto. split; auto. split; [congruence|]. split; [|split].
    + eapply chg_trans; [exact CH|exact C|]. intros q O (m & j & -> & M).
      destruct (ID m M) as [I|I]; [exists m, j; auto|]. specialize (O m j eq_refl). lia.
    + split; auto. intros m M. destruct (N2 m M) as [I|I].
      * destruct (ID m I) as [I'|I']; auto. right. destruct C as ((GL & _) & _). lia.
      * right. destruct CH as ((GL & _) & _). lia.
    + intros c st cu st'. rewrite comb_loop_app. destruct (comb_loop (Some c) l1 _ st) as [(cu1, st1)|] eqn:B; [|discriminate].
      rewrite (CU _ _ _ _ B). apply CU2.
Qed.

(** only block [p] renders something *)
Lemma opens_sane w lg lg1 p : sane w lg -> old w p -> (forall q, q <> p -> opens q lg1 = opens q lg) -> sane w lg1.
Proof.
  intros (S1 & S2) O Q. split; auto. intros m j M. destruct (S1 m j M) as (A & B & C). split; auto. split; auto.
  rewrite Q; auto. intros <-. specialize (O m j eq_refl). lia.
Qed.
Lemma code_ok_S f : SA f -> SR (S f).
Proof.
  intros IA p wk fr got w nx lg SN F O.
  destruct (code (w_x V X w) p got) as (((x, ws), acts), nxt) eqn:CD.
  assert (TE : tcode (S f) p wk got w = (try w1 <- wake_all V X ws (Tree.set_x V X x (emit V X (ERun p got) w));
     match nxt with
     | NPanic => Panic | NPend => Done (w1, None) | NRet v => Done (w1, Some v)
     | NAwait k b n => tawait f p wk (length (hp w1)) (set_sub V X p (Some (length (hp w1)))
              (mkT V X (hp w1 ++ [mkN V (c_new V k n) b p]) (sub w1) (w_x V X w1) (w_over V X w1) (ENew (length (hp w1)) n b p :: tr w1)))
     end)).
  { rewrite run_code_S. unfold plain at 1. rewrite CD. reflexivity. }
  assert (FE : forall c st, scode (S f) p wk c fr got (mkS w st nx lg) =
     (try w1 <- wake_all V X ws (Tree.set_x V X x (emit V X (ERun p got) w));
      try (fr1, s1) <- do_uacts p c acts fr (mkS w1 st nx lg);
      match nxt with
      | NPanic => Panic
      | NPend => Done (s1, U fr1 None, None)
      | NRet v => Done (s1, U fr1 None, Some v)
      | NAwait k b n =>
          sawait f p wk c fr1 (length (hp w1)) (repeat u0 n)
            (with_w V X (set_sub V X p (Some (length (hp w1)))
              (mkT V X (hp w1 ++ [mkN V (c_new V k n) b p]) (sub w1) (w_x V X w1) (w_over V X w1) (ENew (length (hp w1)) n b p :: tr w1))) s1)
      end)).
  { intros c st. cbn [Screen.run_code s_w]. change (w_x V X (emit V X (ERun p got) w)) with (w_x V X w). rewrite CD. reflexivity. }
  rewrite TE. clear TE. eapply POST_ext; [intros c st; symmetry; apply FE|]. clear FE. cbv beta.
  destruct (wake_all V X ws _) as [w1| | |] eqn:WA; cbn [bind];
    [|apply (POST_fail p _ w nx lg Panic); discriminate|apply (POST_fail p _ w nx lg Fault); discriminate|apply (POST_fail p _ w nx lg NoFuel); discriminate].
  assert (M : mild w w1).
  { eapply mild_trans; [|eapply wake_all_mild; exact WA].
    apply mild_trans with (emit V X (ERun p got) w); [apply mild_emit; reflexivity|apply mild_set_x]. }
  apply (POST_mild _ _ _ w1); auto.
  assert (S1 : sane w1 lg) by (eapply mild_sane; eauto). assert (O1 : old w1 p) by (eapply mild_old; eauto).
  assert (F1 : fits w1 lg p (U fr None)) by (eapply mild_fits; eauto).
  assert (SML : forall k b n, nxt = NAwait k b n -> (N.of_nat n <= 4294967295)%N) by (intros k b n ->; eapply SMALL; eauto).
  clear CD M WA SN F O w. rename w1 into w.
  destruct (uacts_ok p acts fr nx lg) as (l1 & nx1 & lg1 & fr1 & MK & EA & CU & OP & OQ).
  inversion F1 as [p0 fr0 H1 H2 H3|]; subst p0 fr0.
  assert (S2 : sane w lg1) by (eapply opens_sane; eauto).
  assert (F2 : fits w lg1 p (U fr1 None)) by (constructor; auto).
  assert (CH : chg (fun q => q = p \/ inn (ids (U fr None)) q) w lg w lg1).
  { split; [apply grows_refl|]. intros q N _. unfold same. rewrite OQ; auto. }
  destruct nxt as [|v| |k b n].
  - exists l1, nx1, lg1, (U fr1 None). split; auto. split.
    + intros c st. rewrite EA. cbn [Screen.cur_of]. unfold outcome. destruct (block_loop (Some c) l1 _ st) as [(cu, st1)|]; reflexivity.
    + intros w' v' E. injection E as <- <-. split; auto. split; auto. split; auto. split; [split; [constructor|intros m []]|]. exact CU.
  - exists l1, nx1, lg1, (U fr1 None). split; auto. split.
    + intros c st. rewrite EA. cbn [Screen.cur_of]. unfold outcome. destruct (block_loop (Some c) l1 _ st) as [(cu, st1)|]; reflexivity.
    + intros w' v' E. injection E as <- <-. split; auto. split; auto. split; auto. split; [split; [constructor|intros m []]|]. exact CU.
  - exists l1, nx1, lg1, (U fr1 None). split; auto. split.
    + intros c st. rewrite EA. cbn [Screen.cur_of]. unfold outcome. destruct (block_loop (Some c) l1 _ st) as [(cu, st1)|]; reflexivity.
    + intros w' v' E. discriminate E.
  - set (id := length (hp w)).
    set (w2 := set_sub V X p (Some id) (mkT V X (hp w ++ [mkN V (c_new V k n) b p]) (sub w) (w_x V X w) (w_over V X w) (ENew id n b p :: tr w))).
    assert (LH : length (hp w2) = S id) by (unfold w2; cbn; rewrite app_length; cbn; unfold id; lia).
    assert (G2 : grows w w2).
    { split; [lia|]. intros m nd E. exists nd. unfold w2. cbn. rewrite nth_error_app1 by (apply nth_error_Some; congruence). auto. }
    assert (NP : forall j, Kid id j <> p) by (intros j <-; specialize (O1 id j eq_refl); unfold id in O1; lia).
    assert (NEWS : forall j, sub w2 (Kid id j) = None /\ awaits (Kid id j) (tr w2) = None /\ opens (Kid id j) lg1 = []).
    { intro j. destruct S2 as (S2 & _). destruct (S2 id j (le_n _)) as (A & B & C). unfold w2. cbn [w_sub w_tr w_hp Tree.set_sub awaits].
      rewrite !place_eqb_neq by auto. auto. }
    assert (S3 : sane w2 lg1).
    { destruct S2 as (S21 & S22). split.
      - intros m j Hm. rewrite LH in Hm. assert (Kid m j <> p) by (intros <-; specialize (O1 m j eq_refl); unfold id in Hm; lia).
        unfold w2. cbn [w_sub w_tr w_hp Tree.set_sub awaits]. rewrite !place_eqb_neq by auto. apply S21. unfold id in Hm. lia.
      - intros q m k' Hq. unfold w2 in *. cbn [w_sub w_tr w_hp Tree.set_sub awaits] in *. destruct (place_eqb_spec p q) as [<-|Nq].
        + injection Hq as <- <-. exists (mkN V (c_new V k n) b p). rewrite nth_error_app2, Nat.sub_diag by (unfold id; lia). auto.
        + destruct (S22 q m k' Hq) as (nd & E & Ow). exists nd. rewrite nth_error_app1 by (apply nth_error_Some; congruence). auto. }
    assert (F3 : fits w2 lg1 p (U fr1 (Some (id, repeat u0 n)))).
    { constructor; auto.
      - unfold w2. cbn [w_sub w_tr w_hp Tree.set_sub awaits]. now rewrite place_eqb_refl.
      - unfold w2. cbn [w_sub w_tr w_hp Tree.set_sub awaits]. rewrite place_eqb_refl, repeat_length. reflexivity.
      - apply kfits_all with (mkN V (c_new V k n) b p).
        + unfold w2. cbn. rewrite nth_error_app2, Nat.sub_diag by (unfold id; lia). reflexivity.
        + cbn. now rewrite !repeat_length.
        + intros i u Hu. apply nth_error_In, repeat_spec in Hu. subst u. destruct (NEWS i) as (A & B & C). constructor; auto. }
    assert (IDN : flat_map ids (repeat u0 n) = []) by (clear; induction n; cbn; auto).
    specialize (IA p wk fr1 id (repeat u0 n) w2 nx1 lg1 S3 F3).
    assert (O2 : old w2 p) by (eapply grows_old; eauto).
    rewrite IDN in IA. specialize (IA O2).
    assert (L : lows w2 [id]) by (split; [constructor; [intros []|constructor]|intros m [<-|[]]; lia]). specialize (IA L).
    assert (NI : ~ inn [id] p) by (intros (m & j & -> & [<-|[]]); eapply NP; eauto). specialize (IA NI).
    eapply (POST_seq p (U fr None) (U fr1 (Some (id, repeat u0 n))) w w2 nx nx1 lg lg1
      (l1 ++ at_depth fr1 [BReplace (FComb (adr_c id) (kids_of (repeat u0 n)))])); [| | | | |exact IA].
    + rewrite bcreated_app, at_depth_created. eapply makes_app; [exact MK|].
      assert (ML : map (fun u => FBlock (cur_of u)) (repeat u0 n) = repeat (FBlock FLeaf) n) by (clear; induction n; cbn; congruence).
      cbn [bcreated]. rewrite ML. apply makes_none.
      * cbn. rewrite app_nil_r. clear; induction n; cbn; auto.
      * cbn. rewrite app_nil_r. clear; induction n; cbn; auto.
      * constructor; [|constructor]. cbn [unpolled]. split; [rewrite repeat_length; eapply SML; eauto|].
        apply unpolled_all. apply Forall_forall. intros y Hy. apply repeat_spec in Hy. subst y. exact I.
    + intros c st cu st'. rewrite block_loop_app. cbn [Screen.cur_of]. destruct (block_loop (Some c) l1 _ st) as [(cu1, st1)|] eqn:B; [|discriminate].
      rewrite (CU _ _ _ _ B), at_depth_ok. cbn [block_loop drop_fut]. intro H. injection H as <- <-. reflexivity.
    + intros c st. rewrite EA, block_loop_app. cbn [Screen.cur_of]. destruct (block_loop (Some c) l1 _ st) as [(cu1, st1)|] eqn:B; [|reflexivity].
      cbn [bind]. rewrite (CU _ _ _ _ B), at_depth_ok. cbn [block_loop drop_fut]. reflexivity.
    + split; auto. intros q Nq Oq. unfold same. assert (Nqp : q <> p) by tauto. rewrite OQ by auto. unfold w2. cbn [w_sub w_tr w_hp Tree.set_sub awaits].
      rewrite !place_eqb_neq by auto. auto.
    + cbn [ids]. rewrite IDN. intros m [<-|[]]. right. lia.
Qed.

Lemma await_ok_S f : SC f -> SR f -> SA (S f).
Proof.
  intros IC IR p wk fr n us w nx lg SN F O LW NI.
  inversion F as [|p0 fr0 n0 us0 H1 H2 H3 KF]; subst p0 fr0 n0 us0.
  destruct (IC n wk us w nx lg SN KF LW) as (l1 & nx1 & lg1 & us1 & MK & EF & R).
  rewrite await_S.
  assert (FE : forall c st, sawait (S f) p wk c fr n us (mkS w st nx lg) =
    (try (s1, us1, r) <- scomb f n wk (inner c fr) us (mkS w st nx lg);
     match r with
     | None => Done (s1, U fr (Some (n, us1)), None)
     | Some v =>
          try st1 <- get (drop_fut (FComb (adr_c n) (kids_of us1)) (Some (inner c fr)) (s_u V X s1));
          scode f p wk c fr (Some v) (with_u V X st1 (with_w V X (emit V X (EGone n v) (set_sub V X p None (s_w V X s1))) s1))
     end)) by reflexivity.
  eapply POST_ext; [intros c st; symmetry; apply FE|]. clear FE. cbv beta.
  assert (BL : forall c st, block_loop (Some c) (at_depth fr [BPoll (SComb l1)]) (cur_of (U fr (Some (n, us)))) st =
     match comb_loop (Some (inner c fr)) l1 (kids_of us) st with None => None | Some (cs, st') => Some (wrap fr (FComb (adr_c n) cs), st') end).
  { intros c st. cbn [Screen.cur_of]. rewrite at_depth_ok. cbn [block_loop]. rewrite poll_comb_eq.
    destruct (comb_loop _ l1 _ st) as [(cs, st')|]; reflexivity. }
  assert (MK' : makes nx nx1 (bcreated (at_depth fr [BPoll (SComb l1)]))).
  { rewrite at_depth_created. cbn [bcreated]. rewrite app_nil_r. exact MK. }
  destruct (tcomb f n wk w) as [(w1, [v|])| | |] eqn:T; cbn [bind].
  2:{ destruct (R w1 None eq_refl) as (S1 & K1 & LE & C1 & (N1 & N2) & CU).
      exists (at_depth fr [BPoll (SComb l1)]), nx1, lg1, (U fr (Some (n, us1))). split; auto. split.
      - intros c st. rewrite EF, BL. unfold outcome. destruct (comb_loop _ l1 _ st) as [(cs, st')|]; reflexivity.
      - intros w' v' E. injection E as <- <-. destruct C1 as (G1 & C1). destruct (C1 p NI O) as (A1 & A2 & A3).
        split; auto. split; [constructor; [congruence|congruence|congruence|exact K1]|]. split; [|split].
        + split; [auto|]. intros q Nq Oq. apply C1; [intro Q; apply Nq; right; exact Q|auto].
        + split; auto.
        + intros c st cu st'. rewrite BL. destruct (comb_loop _ l1 _ st) as [(cs, st1)|] eqn:B; [|discriminate].
          rewrite (CU _ _ _ _ B). intro H. injection H as <- <-. reflexivity. }
  2,3,4: exists (at_depth fr [BPoll (SComb l1)]), nx1, lg1, (U fr (Some (n, us1))); split; [auto|]; split; [|discriminate];
      intros c st; rewrite EF, BL; unfold outcome; destruct (comb_loop _ l1 _ st) as [(cs, st')|]; reflexivity.
  destruct (R w1 (Some v) eq_refl) as (S1 & K1 & LE & C1 & (N1 & N2) & CU). destruct C1 as (G1 & C1). destruct (C1 p NI O) as (A1 & A2 & A3).
  set (w2 := emit V X (EGone n v) (set_sub V X p None w1)).
  assert (AP : awaits p (tr w1) = Some (n, length us)) by congruence.
  assert (OWN : forall q k, awaits q (tr w1) = Some (n, k) -> q = p).
  { intros q k Q. destruct (proj2 S1 q n k Q) as (nd & E & <-). destruct (proj2 S1 p n _ AP) as (nd' & E' & <-). congruence. }
  assert (AQ : forall q, q <> p -> awaits q (tr w2) = awaits q (tr w1)).
  { intros q Nq. unfold w2. cbn [w_tr Tree.emit Tree.set_sub awaits]. destruct (awaits q (tr w1)) as [(m, k)|] eqn:Q; auto.
    destruct (Nat.eqb_spec m n) as [->|]; auto. exfalso. eauto. }
  assert (GG : grows w1 w2) by (unfold w2; eapply grows_trans; [apply grows_set_sub|apply grows_emit]).
  assert (O1 : old w1 p) by (exact (grows_old _ _ _ G1 O)).
  assert (S2 : sane w2 lg1).
  { split.
    - intros m j M. assert (Kid m j <> p) by (intros <-; specialize (O1 m j eq_refl); unfold w2 in M; cbn in M; lia).
      rewrite AQ by auto. unfold w2. cbn [w_sub w_tr Tree.emit Tree.set_sub]. rewrite place_eqb_neq by auto.
      apply S1. exact M.
    - intros q m k Q. destruct (place_eqb_spec q p) as [->|Nq].
      + unfold w2 in Q. cbn [w_tr Tree.emit Tree.set_sub awaits] in Q. rewrite AP, Nat.eqb_refl in Q. discriminate.
      + rewrite AQ in Q by auto. destruct (proj2 S1 q m k Q) as (nd & E & Ow). exists nd. auto. }
  assert (F2 : fits w2 lg1 p (U fr None)).
  { constructor; [congruence| |].
    - unfold w2. cbn [w_sub w_tr Tree.emit Tree.set_sub]. now rewrite place_eqb_refl.
    - unfold w2. cbn [w_tr Tree.emit Tree.set_sub awaits]. now rewrite AP, Nat.eqb_refl. }
  specialize (IR p wk fr (Some v) w2 nx1 lg1 S2 F2 (grows_old _ _ _ GG O1)).
  eapply (POST_seq p _ (U fr None) w w2 nx nx1 lg lg1 (at_depth fr [BPoll (SComb l1)] ++ at_depth fr [BReplace FLeaf])); [| | | | |exact IR].
  - rewrite bcreated_app. eapply makes_app; [exact MK'|]. rewrite at_depth_created. apply makes_none; auto. repeat constructor.
  - intros c st cu st'. rewrite block_loop_app, BL. destruct (comb_loop _ l1 _ st) as [(cs, st1)|] eqn:B; [|discriminate].
    rewrite at_depth_ok. cbn [block_loop]. destruct (drop_fut _ _ st1); [|discriminate]. intro H. injection H as <- <-. reflexivity.
  - intros c st. rewrite EF, block_loop_app, BL. unfold outcome. destruct (comb_loop _ l1 _ st) as [(cs, st1)|] eqn:B; [|reflexivity].
    cbn [bind s_u s_w]. rewrite at_depth_ok. cbn [block_loop]. rewrite (CU _ _ _ _ B).
    destruct (drop_fut _ _ st1); reflexivity.
  - split; [eapply grows_trans; eauto|]. intros q Nq Oq. destruct (C1 q) as (B1 & B2 & B3); [intro Q; apply Nq; right; exact Q|auto|].
    assert (Nqp : q <> p) by tauto. unfold same. rewrite AQ by auto. unfold w2. cbn [w_sub Tree.emit Tree.set_sub].
    rewrite place_eqb_neq by auto. auto.
  - intros m [].
Qed.
Lemma comb_ok_S f : SL f -> SC (S f).
Proof.
  intros IL n wk us w nx lg SN KF LW. pose proof KF as KF'. inversion KF' as [n0 us0 nd E L FS]; subst n0 us0.
  rewrite poll_comb_S, E. cbn [get bind].
  assert (FE : forall c st, scomb (S f) n wk c us (mkS w st nx lg) =
      match c_entry V V V (nd_b V nd) (nd_c V nd) with
      | Some PPending => Done (mkS w st nx lg, us, None)
      | Some _ => Fault
      | None =>
          let r1 := rd_set_parent ww (c_rd V (nd_c V nd)) wk in
          try r2 <- get (rd_clear r1);
          sloop f n (rd_awake_list r1) c us (mkS (set_node V X n (set_rd V (nd_c V nd) r2) w) st nx lg)
      end) by (intros c st; cbn [Screen.poll_comb s_w]; rewrite E; reflexivity).
  eapply KPOST_ext; [intros c st; symmetry; apply FE|]. clear FE. cbv beta zeta.
  destruct (c_entry V V V (nd_b V nd) (nd_c V nd)) as [[]|]; try (apply (KPOST_fail n us w nx lg Fault); discriminate).
  - apply KPOST_done; auto.
  - destruct (rd_clear _) as [r2|]; cbn [get bind]; [|apply (KPOST_fail n us w nx lg Fault); discriminate].
    set (w1 := set_node V X n (set_rd V (nd_c V nd) r2) w).
    assert (M : mild w w1) by (apply mild_set_node; rewrite E; intros nd' [= <-]; reflexivity).
    apply (KPOST_mild _ _ _ w1); auto. apply IL; [eapply mild_sane; eauto|eapply mild_kfits; eauto|].
    destruct LW as (L1 & L2). split; auto. intros m I. destruct M as (_ & ML & _). rewrite ML. auto.
Qed.
Lemma inn_app I J q : inn (I ++ J) q <-> inn I q \/ inn J q.
Proof.
  split.
  - intros (m & j & E & H). apply in_app_iff in H. destruct H; [left|right]; exists m, j; auto.
  - intros [(m & j & E & H)|(m & j & E & H)]; exists m, j; (split; [auto|apply in_app_iff; auto]).
Qed.
Lemma loop_ok_S f : SB f -> SL f -> SL (S f).
Proof.
  intros IB IL n l us w nx lg SN KF LW. pose proof KF as KF'. inversion KF' as [n0 us0 nd E L FS]; subst n0 us0.
  rewrite loop_S, E. cbn [get bind].
  assert (FE : forall c st, sloop (S f) n l c us (mkS w st nx lg) =
      match l with
      | [] => try o <- finish V debug (nd_b V nd) (nd_c V nd); Done (mkS w st nx lg, us, o)
      | i :: l' =>
          try filled <- get (nth_error (c_filled V (nd_c V nd)) i);
          if (filled : bool) then sloop f n l' c us (mkS w st nx lg)
          else
            try u <- get (nth_error us i);
            try (s1, u1, r) <- sblock f (Kid n i) (waker_of (Kid n i)) (CChild c (N.of_nat i)) u (mkS w st nx lg);
            let us1 := set_nth i u1 us in
            match r with
            | None => sloop f n l' c us1 (with_w V X (emit V X (EPend (Kid n i)) (s_w V X s1)) s1)
            | Some v =>
                let s2 := with_w V X (emit V X (EDone (Kid n i) v) (s_w V X s1)) s1 in
                match b_maybe_return (nd_b V nd) i v with
                | inl o => Done (s2, us1, Some o)
                | inr st =>
                    try nd2 <- get (nth_error (hp (s_w V X s2)) n);
                    try cb <- store V (nd_c V nd2) i st;
                    sloop f n l' c us1 (with_w V X (set_node V X n cb (s_w V X s2)) s2)
                end
            end
      end) by (intros c st; cbn [Screen.loop s_w]; rewrite E; reflexivity).
  eapply KPOST_ext; [intros c st; symmetry; apply FE|]. clear FE. cbv beta.
  destruct l as [|i l'].
  { destruct (finish V debug _ _) as [o| | |]; cbn [bind].
    - apply KPOST_done; auto.
    - apply (KPOST_fail n us w nx lg Panic); discriminate.
    - apply (KPOST_fail n us w nx lg Fault); discriminate.
    - apply (KPOST_fail n us w nx lg NoFuel); discriminate. }
  destruct (nth_error (c_filled V (nd_c V nd)) i) as [fl|] eqn:EFL; cbn [get bind]; [|apply (KPOST_fail n us w nx lg Fault); discriminate].
  destruct fl; [apply IL; auto|].
  destruct (nth_error us i) as [u|] eqn:EU; [|apply nth_error_None in EU; assert (i < length us) by (rewrite <- L; apply nth_error_Some; congruence); lia].
  cbn [get bind].
  destruct (nth_error_split us i EU) as (a & b & US & LA).
  assert (FI : flat_map ids us = flat_map ids a ++ ids u ++ flat_map ids b) by (rewrite US, flat_map_app; reflexivity).
  destruct LW as (ND & LO). pose proof ND as ND'. rewrite FI in ND'. inversion ND' as [|n1 x1 NIN ND2]; subst n1 x1.
  assert (NDU : NoDup (ids u)) by (apply nodup_app_r in ND2; apply nodup_app_l in ND2; exact ND2).
  assert (INU : forall m, In m (ids u) -> In m (flat_map ids us)) by (intros m M; rewrite FI, !in_app_iff; auto).
  assert (KN : ~ inn (ids u) (Kid n i)).
  { intros (m & j & [= <- <-] & M). apply NIN. rewrite !in_app_iff. auto. }
  destruct (IB (Kid n i) (waker_of (Kid n i)) u w nx lg SN (FS i u EU)) as (lb & nx1 & lg1 & u1 & MK & EF & R); auto.
  { intros m j [= <- <-]. apply LO. left; auto. }
  { split; auto. intros m M. apply LO. right. auto. }
  assert (NK : nth_error (kids_of us) i = Some (FBlock (cur_of u))) by (rewrite nth_error_map, EU; reflexivity).
  assert (BL : forall c st, comb_loop (Some c) [(i, SBlock lb)] (kids_of us) st =
     match block_loop (Some (CChild c (N.of_nat i))) lb (cur_of u) st with None => None
     | Some (cu, st') => Some (set_nth i (FBlock cu) (kids_of us), st') end).
  { intros c st. cbn [comb_loop]. rewrite NK, poll_block_eq.
    destruct (block_loop _ lb _ st) as [(cu, st')|]; reflexivity. }
  assert (MK' : makes nx nx1 (lcreated [(i, SBlock lb)])) by (cbn [lcreated]; rewrite app_nil_r; exact MK).
  destruct (tblock f (Kid n i) (waker_of (Kid n i)) w) as [(w1, r)| | |] eqn:T; cbn [bind].
  2,3,4: exists [(i, SBlock lb)], nx1, lg1, us; split; [auto|]; split; [|discriminate];
      intros c st; rewrite EF, BL; unfold outcome; destruct (block_loop _ lb _ st) as [(cs, st')|]; reflexivity.
  destruct (R w1 r eq_refl) as (S1 & F1 & (G1 & C1) & (N1 & N2) & CU).
  set (us1 := set_nth i u1 us).
  assert (US1 : us1 = a ++ u1 :: b) by (unfold us1; rewrite US, <- LA; apply set_nth_split).
  assert (LE : length us1 = length us) by (rewrite US1, US, !app_length; reflexivity).
  assert (FI1 : flat_map ids us1 = flat_map ids a ++ ids u1 ++ flat_map ids b) by (rewrite US1, flat_map_app; reflexivity).
  assert (SK : forall cu, cu = cur_of u1 -> set_nth i (FBlock cu) (kids_of us) = kids_of us1).
  { intros cu ->. rewrite US1, US, !map_app. cbn [map]. rewrite <- LA, <- (map_length (fun u => FBlock (cur_of u)) a). apply set_nth_split. }
  assert (ID1 : forall m, In m (n :: flat_map ids us1) -> In m (n :: flat_map ids us) \/ length (hp w) <= m < length (hp w1)).
  { intros m [<-|M]; [left; left; auto|]. rewrite FI1, !in_app_iff in M. rewrite FI. cbn [In]. rewrite !in_app_iff.
    destruct M as [M|[M|M]]; auto. destruct (N2 m M); auto. }
  assert (ND1 : NoDup (n :: flat_map ids us1)).
  { rewrite FI1. assert (LT : forall m, In m (flat_map ids us) -> m < length (hp w)) by (intros m M; apply LO; right; auto).
    constructor.
    - rewrite !in_app_iff. intros [M|[M|M]].
      + apply NIN. rewrite !in_app_iff. auto.
      + destruct (N2 n M) as [M'|M']; [apply NIN; rewrite !in_app_iff; auto|]. specialize (LO n (or_introl eq_refl)). lia.
      + apply NIN. rewrite !in_app_iff. auto.
    - assert (NEW : forall m, In m (ids u1) -> In m (flat_map ids a) \/ In m (flat_map ids b) -> False).
      { intros m M1 M2. destruct (N2 m M1) as [M'|M'].
        - destruct M2 as [M2|M2].
          + apply (nodup_app_disj _ _ m ND2 M2). rewrite in_app_iff. auto.
          + apply nodup_app_r in ND2. apply (nodup_app_disj _ _ m ND2 M' M2).
        - assert (m < length (hp w)) by (apply LT; rewrite FI, !in_app_iff; tauto). lia. }
      pose proof (nodup_app_r _ _ ND2) as NB. 
      apply nodup_app_intro; [apply (nodup_app_l _ _ ND2)|apply nodup_app_intro; [auto|apply (nodup_app_r _ _ NB)|]|].
      + intros m M1 M2. eapply NEW; eauto.
      + intros m M1 M2. apply in_app_iff in M2. destruct M2 as [M2|M2]; [eapply NEW; eauto|].
        apply (nodup_app_disj _ _ m ND2 M1). rewrite in_app_iff. auto. }
  assert (CH : chg (inn (n :: flat_map ids us)) w lg w1 lg1).
  { split; auto. intros q Nq Oq. apply C1; auto. intros [->|(m & j & -> & M)]; apply Nq.
    - exists n, i. split; auto. left; auto.
    - exists m, j. split; auto. right; auto. }
  assert (LO1 : lows w1 (n :: flat_map ids us1)).
  { split; auto. intros m M. destruct (ID1 m M) as [M'|M']; [|lia]. specialize (LO m M'). destruct G1. lia. }
  assert (KF1 : kfits w1 lg1 n us1).
  { destruct (proj2 G1 _ _ E) as (nd' & E' & _ & L'). apply kfits_all with nd'; [auto|congruence|].
    intros j v Hv. destruct (Nat.eq_dec j i) as [->|NJ].
    - rewrite US1, <- LA, nth_error_app2, Nat.sub_diag in Hv by lia. cbn in Hv. injection Hv as <-. exact F1.
    - assert (Hv' : nth_error us j = Some v).
      { rewrite US1 in Hv. rewrite US. rewrite (nth_error_other a b u u1 j) by congruence. exact Hv. }
      assert (IV : forall m, In m (ids v) -> In m (flat_map ids a) \/ In m (flat_map ids b)).
      { intros m M. rewrite US in Hv'. destruct (Nat.lt_ge_cases j (length a)) as [J|J].
        - rewrite nth_error_app1 in Hv' by auto. left. apply in_flat_map. exists v. split; auto. eapply nth_error_In; eauto.
        - rewrite nth_error_app2 in Hv' by auto. destruct (j - length a) as [|z] eqn:Z; [lia|]. cbn in Hv'. right.
          apply in_flat_map. exists v. split; auto. eapply nth_error_In; eauto. }
      apply fits_keep with w lg; auto. intros q Q. apply C1.
      + destruct Q as [->|(m & k & -> & M)]; intros [Q|(m' & k' & Q & M')].
        * injection Q as Q. congruence.
        * injection Q as <- <-. apply NIN. rewrite !in_app_iff. auto.
        * injection Q as -> ->. apply NIN. destruct (IV n M); rewrite !in_app_iff; auto.
        * injection Q as <- <-. destruct (IV m M) as [I|I].
          -- apply (nodup_app_disj _ _ m ND2 I). rewrite in_app_iff. auto.
          -- apply nodup_app_r in ND2. apply (nodup_app_disj _ _ m ND2 M' I).
      + intros m k Q'. apply LO. destruct Q as [->|(m' & k' & -> & M)]; injection Q' as <- <-; [left; auto|right].
        rewrite FI, !in_app_iff. destruct (IV m' M); auto. }
  assert (SEQ : forall w2 T2 F2, mild w1 w2 -> KPOST n us1 w2 nx1 lg1 T2 (fun c st => F2 c (mkS w2 st nx1 lg1)) ->
    KPOST n us w nx lg T2 (fun c st => match block_loop (Some (CChild c (N.of_nat i))) lb (cur_of u) st with
       None => Fault | Some (_, st1) => F2 c (mkS w2 st1 nx1 lg1) end)).
  { intros w2 T2 F2 M KP. apply (KPOST_mild _ _ w1 w2) in KP; auto.
    eapply (KPOST_seq n us us1 w w1 nx nx1 lg lg1 [(i, SBlock lb)]); [exact MK'|exact LE| | |exact CH|exact ID1|exact KP].
    - intros c st cs st'. rewrite BL. destruct (block_loop _ lb _ st) as [(cu, st1)|] eqn:B; [|discriminate].
      intro H. injection H as <- <-. apply SK. eapply CU; eauto.
    - intros c st. cbv beta. rewrite BL. destruct (block_loop _ lb _ st) as [(cu, st1)|]; reflexivity. }
  destruct r as [v|].
  - destruct (b_maybe_return (nd_b V nd) i v) as [o|sv] eqn:MR.
    + set (w2 := emit V X (EDone (Kid n i) v) w1). assert (M : mild w1 w2) by (apply mild_emit; reflexivity).
      eapply KPOST_ext; [|apply (SEQ w2 (Done (w2, Some o)) (fun c s => Done (s, us1, Some o)) M)].
      * intros c st. cbv beta. rewrite EF. unfold outcome. destruct (block_loop _ lb _ st) as [(cu, st1)|]; [|reflexivity].
        cbn [bind]. rewrite MR. reflexivity.
      * apply KPOST_done; [eapply mild_sane; eauto|eapply mild_kfits; eauto|].
        destruct LO1 as (A & B). split; auto.
    + set (w2 := emit V X (EDone (Kid n i) v) w1). assert (M : mild w1 w2) by (apply mild_emit; reflexivity).
      destruct (proj2 G1 _ _ E) as (nd' & E' & _ & L').
      change (hp w2) with (hp w1). rewrite E'. cbn [get bind].
      destruct (store V (nd_c V nd') i sv) as [cb| | |] eqn:ST; cbn [bind].
      2,3,4: (eapply KPOST_ext; [|match goal with |- KPOST _ _ _ _ _ ?T _ => apply (SEQ w2 T (fun c s => match T with Panic => Panic | Fault => Fault | _ => NoFuel end) M) end];
        [intros c st; cbv beta; rewrite EF; unfold outcome; destruct (block_loop _ lb _ st) as [(cu, st1)|]; [|reflexivity];
         cbn [bind]; rewrite MR; change (hp (s_w V X (with_w V X (emit V X (EDone (Kid n i) v) (s_w V X (mkS w1 st1 nx1 lg1))) (mkS w1 st1 nx1 lg1)))) with (hp w1);
         rewrite E'; cbn [get bind]; rewrite ST; reflexivity|apply KPOST_fail; discriminate]).
      assert (LC : length (c_filled V cb) = length (c_filled V (nd_c V nd'))).
      { unfold store in ST. destruct (nth_error (c_items V (nd_c V nd')) i) as [it|]; [|discriminate ST].
        destruct (c_pending V (nd_c V nd')) as [|pd]; [discriminate ST|]. injection ST as <-. cbn. apply lset_length. }
      set (w3 := set_node V X n cb w2).
      assert (M3 : mild w1 w3) by (eapply mild_trans; [exact M|apply mild_set_node; cbn; rewrite E'; intros nd2 [= <-]; exact LC]).
      eapply KPOST_ext; [|apply (SEQ w3 (tloop f n l' w3) (fun c s => sloop f n l' c us1 s) M3)].
      * intros c st. cbv beta. rewrite EF. unfold outcome. destruct (block_loop _ lb _ st) as [(cu, st1)|]; [|reflexivity].
        cbn [bind]. rewrite MR. change (hp (s_w V X (with_w V X (emit V X (EDone (Kid n i) v) (s_w V X (mkS w1 st1 nx1 lg1))) (mkS w1 st1 nx1 lg1)))) with (hp w1).
        rewrite E'. cbn [get bind]. rewrite ST. reflexivity.
      * apply IL; [eapply mild_sane; eauto|eapply mild_kfits; eauto|].
        destruct LO1 as (A & B). split; auto. intros m HM. destruct M3 as (_ & ML & _). rewrite ML. auto.
  - set (w2 := emit V X (EPend (Kid n i)) w1). assert (M : mild w1 w2) by (apply mild_emit; reflexivity).
    eapply KPOST_ext; [|apply (SEQ w2 (tloop f n l' w2) (fun c s => sloop f n l' c us1 s) M)].
    + intros c st. cbv beta. rewrite EF. unfold outcome. destruct (block_loop _ lb _ st) as [(cu, st1)|]; reflexivity.
    + apply IL; [eapply mild_sane; eauto|eapply mild_kfits; eauto|]. destruct LO1 as (A & B). split; auto.
Qed.
Lemma block_ok_S f : SR f -> SA f -> SB (S f).
Proof.
  intros IR IA p wk u w nx lg SN F O LW NI. rewrite poll_block_S.
  assert (M : mild w (emit V X (EPoll p) w)) by (apply mild_emit; reflexivity).
  destruct u as [fr [(n, us)|]]; inversion F; subst.
  - match goal with H : sub w p = _ |- _ => rewrite H end. apply (POST_mild _ _ _ (emit V X (EPoll p) w)); auto.
    apply IA; auto; solve [eapply mild_sane; eauto|eapply mild_fits; eauto].
  - match goal with H : sub w p = _ |- _ => rewrite H end. apply (POST_mild _ _ _ (emit V X (EPoll p) w)); auto.
    apply IR; auto; solve [eapply mild_sane; eauto|eapply mild_fits; eauto].
Qed.
Theorem all_ok f : SB f /\ SR f /\ SA f /\ SC f /\ SL f.
Proof.
  induction f as [|f (IB & IR & IA & IC & IL)].
  - split; [|split; [|split; [|split]]]; red; intros.
    1,2,3: apply (POST_fail _ _ _ _ _ NoFuel); discriminate.
    1,2: apply (KPOST_fail _ _ _ _ _ NoFuel); discriminate.
  - split; [apply block_ok_S; auto|]. split; [apply code_ok_S; auto|]. split; [apply await_ok_S; auto|].
    split; [apply comb_ok_S; auto|apply loop_ok_S; auto].
Qed.

(** ** Whole histories *)
Section Run.
Variables (root : Dom.node) (g : gid) (a0 : addr).
Notation srun_from := (Screen.run_from V X ww debug elem grp adr_e adr_c code root g).
Notation sexec := (Screen.exec V X ww debug elem grp adr_e adr_c code root g).
Notation mapp u := (mount root g a0 (FBlock (cur_of u))).
Definition INV (u : ufut) (w : world) (lg : list dev) : Prop :=
  sane w lg /\ fits w lg Root u /\ lows w (ids u).
Lemma not_inn_root I : ~ inn I Root.
Proof. intros (m & j & E & _). discriminate E. Qed.
Lemma old_root w : old w Root.
Proof. intros m j E. discriminate E. Qed.
Lemma mild_INV u w w' lg : mild w w' -> INV u w lg -> INV u w' lg.
Proof.
  intros M (A & B & (C1 & C2)). split; [eapply mild_sane; eauto|]. split; [eapply mild_fits; eauto|].
  split; auto. intros m I. destruct M as (_ & L & _). rewrite L. auto.
Qed.
Lemma poll_root_one l u st : poll_root [SElem (SBlock l)] (mapp u) st =
  match block_loop (Some (CContainer g root)) l (cur_of u) st with None => None
  | Some (cu, st') => Some (mount root g a0 (FBlock cu), st') end.
Proof.
  cbn [poll_root]. unfold mount. rewrite poll_elem_eq. cbn [add_self]. rewrite poll_block_eq.
  destruct (block_loop _ l _ st) as [(cu, st')|]; reflexivity.
Qed.
Definition whole {A} (T : res world) (o : option (A * ustate)) (nx : nat) (lg : list dev) (u : ufut) : res (ufut * screen) :=
  match o with
  | None => Fault
  | Some (_, st) => match T with Done w => Done (u, mkS w st nx lg) | Panic => Panic | Fault => Fault | NoFuel => NoFuel end
  end.
Lemma exec_ok e u w nx lg : INV u w lg -> exists sl nx' lg' u', makes nx nx' (flat_map created sl) /\
  (forall st, sexec e (u, mkS w st nx lg) = whole (Tree.exec V X ww debug ecode w e) (poll_root sl (mapp u) st) nx' lg' u') /\
  (forall w', Tree.exec V X ww debug ecode w e = Done w' -> INV u' w' lg' /\
     forall st f' st', poll_root sl (mapp u) st = Some (f', st') -> f' = mapp u').
Proof.
  intros I. destruct e as [fuel tag|p|f].
  - cbn [Screen.exec Tree.exec s_w]. destruct (w_over V X w) eqn:OV.
    { exists [], nx, lg, u. split; [apply makes_nil|]. split; [reflexivity|]. intros w' [= <-]. split; auto.
      intros st f' st' H. cbn in H. injection H as <- <-. reflexivity. }
    destruct I as (S & F & L). destruct (proj1 (all_ok fuel) Root (mkW (Some (task_of Root)) tag) u w nx lg S F (old_root w) L (not_inn_root _))
      as (l & nx' & lg' & u' & MK & E & R).
    exists [SElem (SBlock l)], nx', lg', u'. split; [cbn [flat_map created]; rewrite app_nil_r; exact MK|]. split.
    + intro st. rewrite poll_root_one. specialize (E (CContainer g root) st). cbn beta in E. rewrite E. unfold outcome, whole.
      destruct (block_loop _ l _ st) as [(cu, st')|]; [|reflexivity].
      destruct (tblock fuel Root _ w) as [(w1, [v|])| | |]; reflexivity.
    + intros w' H. destruct (tblock fuel Root _ w) as [(w1, r)| | |] eqn:T; try discriminate H. cbn [bind] in H.
      destruct (R w1 r eq_refl) as (S1 & F1 & C1 & (N1 & N2) & CU). split.
      * assert (I1 : INV u' w1 lg').
        { split; auto. split; auto. split; auto. intros m M. destruct (N2 m M) as [M'|]; [|lia]. destruct C1 as ((GL & _) & _).
          destruct L as (_ & L). specialize (L m M'). lia. }
        destruct r as [v|]; injection H as <-; (eapply mild_INV; [|exact I1]).
        -- apply mild_trans with (emit V X (EDone Root v) w1); [apply mild_emit; reflexivity|].
           split; [split; [auto|intros n nd E'; exists nd; auto]|auto].
        -- apply mild_emit; reflexivity.
      * intros st f' st'. rewrite poll_root_one. destruct (block_loop _ l _ st) as [(cu, st1)|] eqn:B; [|discriminate].
        intro H'. injection H' as <- <-. rewrite (CU _ _ _ _ B). reflexivity.
  - cbn [Screen.exec Tree.exec s_w]. exists [], nx, lg, u. split; [apply makes_nil|]. split.
    + intro st. cbn [poll_root]. unfold whole. destruct (wake_place V X w p); reflexivity.
    + intros w' H. split; [eapply mild_INV; [eapply wake_place_mild; eauto|auto]|].
      intros st f' st' H'. cbn in H'. injection H' as <- <-. reflexivity.
  - cbn [Screen.exec Tree.exec s_w]. exists [], nx, lg, u. split; [apply makes_nil|]. split; [reflexivity|].
    intros w' [= <-]. split; [eapply mild_INV; [apply mild_set_x|auto]|].
    intros st f' st' H'. cbn in H'. injection H' as <- <-. reflexivity.
Qed.
Lemma poll_root_app l1 : forall l2 f st, poll_root (l1 ++ l2) f st =
  match poll_root l1 f st with None => None | Some (f', st') => poll_root l2 f' st' end.
Proof.
  induction l1 as [|s l1 IH]; intros l2 f st; cbn [app poll_root]; auto.
  destruct (poll s f None st) as [(f', st')|]; auto.
Qed.
Lemma run_ok evs : forall u w nx lg, INV u w lg -> exists sl nx' lg' u', makes nx nx' (flat_map created sl) /\
  (forall st, srun_from (u, mkS w st nx lg) evs = whole (Tree.run_from V X ww debug ecode w evs) (poll_root sl (mapp u) st) nx' lg' u') /\
  (forall w', Tree.run_from V X ww debug ecode w evs = Done w' -> INV u' w' lg' /\
     forall st f' st', poll_root sl (mapp u) st = Some (f', st') -> f' = mapp u').
Proof.
  induction evs as [|e evs IH]; intros u w nx lg I.
  - exists [], nx, lg, u. split; [apply makes_nil|]. split; [reflexivity|]. intros w' [= <-]. split; auto.
    intros st f' st' H. cbn in H. injection H as <- <-. reflexivity.
  - destruct (exec_ok e u w nx lg I) as (sl & nx1 & lg1 & u1 & MK & E & R). cbn [Tree.run_from].
    destruct (Tree.exec V X ww debug ecode w e) as [w1| | |] eqn:T; cbn [bind].
    2,3,4: exists sl, nx1, lg1, u1; split; [auto|]; split; [|discriminate]; intro st; cbn [Screen.run_from]; rewrite E; unfold whole;
      destruct (poll_root sl _ st) as [(f', st')|]; reflexivity.
    destruct (R w1 eq_refl) as (I1 & C1). destruct (IH u1 w1 nx1 lg1 I1) as (sl2 & nx2 & lg2 & u2 & MK2 & E2 & R2).
    exists (sl ++ sl2), nx2, lg2, u2. split; [rewrite flat_map_app; eapply makes_app; eauto|]. split.
    + intro st. cbn [Screen.run_from]. rewrite E, poll_root_app. unfold whole at 1.
      destruct (poll_root sl _ st) as [(f', st')|] eqn:P; [|reflexivity]. cbn [bind]. rewrite (C1 _ _ _ P). apply E2.
    + intros w' H. destruct (R2 w' H) as (I2 & C2). split; auto. intros st f' st'. rewrite poll_root_app.
      destruct (poll_root sl _ st) as [(f1, st1)|] eqn:P; [|discriminate]. rewrite (C1 _ _ _ P). apply C2.
Qed.
Lemma start_INV x : INV u0 (Tree.start V X x) [].
Proof.
  split; [split|split].
  - intros m j _. auto.
  - intros q n k H. discriminate H.
  - constructor; reflexivity.
  - split; [constructor|intros m []].
Qed.
End Run.

(** ** What is shown *)
Fixpoint outs (u : ufut) : list nat :=
  match u with
  | U (e :: _) _ => [e]
  | U [] None => []
  | U [] (Some (n, us)) => flat_map outs us
  end.
Definition belows (u : ufut) : list nat := match u with U _ None => [] | U _ (Some (n, us)) => flat_map outs us end.
Lemma out_wrap fr x : out (wrap fr x) = match fr with e :: _ => [elem e] | [] => out x end.
Proof. destruct fr; reflexivity. Qed.
Lemma out_cur u : out (cur_of u) = map elem (outs u).
Proof.
  induction u as [fr|fr n us IH] using ufut_ind'; cbn [Screen.cur_of]; rewrite out_wrap; destruct fr; try reflexivity.
  cbn [out outs]. clear n. induction IH as [|u us U US IH']; cbn; auto. rewrite map_app. congruence.
Qed.
Lemma out_below u : forall fr sub, u = U fr sub -> out (match sub with None => FLeaf | Some (n, us) => FComb (adr_c n) (map (fun u => FBlock (cur_of u)) us) end)
  = map elem (belows u).
Proof.
  intros fr [(n, us)|] ->; [|reflexivity]. cbn [out belows]. induction us as [|u us IH]; cbn; auto.
  rewrite map_app, IH, out_cur. reflexivity.
Qed.
Lemma fits_shows w lg u : forall p, fits w lg p u -> shows (tr w) lg p (outs u) /\ below (tr w) lg p (belows u).
Proof.
  induction u as [fr|fr n us IH] using ufut_ind'; intros p F; inversion F as [p0 fr0 H1 H2 H3|p0 fr0 n0 us0 H1 H2 H3 KF]; subst.
  - assert (B : below (tr w) lg p []) by (constructor; auto). split; auto.
    cbn [outs]. destruct (opens p lg) as [|e t] eqn:O; [apply shows_bare; auto|eapply shows_elem; eauto].
  - assert (B : below (tr w) lg p (flat_map outs us)).
    { rewrite flat_map_concat_map. apply below_children with n (length us); auto; [apply map_length|].
      intros i l H. rewrite nth_error_map in H. destruct (nth_error us i) as [u|] eqn:U; [|discriminate]. injection H as <-.
      inversion KF as [n0 us0 nd E L FS]; subst. rewrite Forall_forall in IH. apply (IH u (nth_error_In _ _ U)). apply FS; auto. }
    split; auto. cbn [outs]. destruct (opens p lg) as [|e t] eqn:O; [apply shows_bare; auto|eapply shows_elem; eauto].
Qed.
Lemma containers_wrap_in fr x n ch : In (n, ch) (containers x) -> In (n, ch) (containers (wrap fr x)).
Proof. induction fr as [|k fr IH]; cbn; auto. Qed.
Lemma containers_wrap pre e inn x : In (elem e, FBlock (wrap inn x)) (containers (wrap (pre ++ e :: inn) x)).
Proof. rewrite wrap_app. apply containers_wrap_in. cbn. auto. Qed.
Lemma containers_cur u pre e inn sub : u = U (pre ++ e :: inn) sub -> exists ch, In (elem e, ch) (containers (cur_of u)) /\
  out ch = map elem (match inn with e' :: _ => [e'] | [] => belows u end).
Proof.
  intros ->. cbn [Screen.cur_of]. eexists. split; [apply containers_wrap|]. cbn [out]. rewrite out_wrap. destruct inn; [|reflexivity].
  eapply out_below; reflexivity.
Qed.
Lemma present_fits w lg u : fits w lg Root u -> forall p, present (tr w) p -> exists v, fits w lg p v /\ incl (containers (cur_of v)) (containers (cur_of u)).
Proof.
  intros F p P. induction P as [|p n k i P (v & FV & IV) A L].
  - exists u. split; auto. apply incl_refl.
  - inversion FV as [p0 fr0 H1 H2 H3|p0 fr0 n0 us0 H1 H2 H3 KF]; subst; [congruence|].
    assert (n0 = n /\ length us0 = k) as (-> & <-) by (rewrite A in H3; injection H3; auto).
    destruct (nth_error us0 i) as [u'|] eqn:U; [|apply nth_error_None in U; lia].
    inversion KF as [n1 us1 nd E LL FS]; subst. exists u'. split; [apply FS; auto|].
    intros (m, ch) M. apply IV. cbn [Screen.cur_of]. apply containers_wrap_in. cbn [containers]. apply in_flat_map.
    exists (FBlock (cur_of u')). split; [|exact M]. apply in_map_iff. exists u'. split; auto. eapply nth_error_In; eauto.
Qed.
End Proofs.
(** ** The record of what is rendered *)
Section Record.
Variables V X : Type.
Variable ww : waker -> waker -> bool.
Variable debug : bool.
Variables (elem : nat -> Dom.node) (grp : nat -> gid) (adr_e adr_c : nat -> addr).
Variable code : X -> place -> option V -> X * list place * list uact * next V.
Variable rec : X -> list dev.
Hypothesis REC : records code rec.
(** and what else all code keeps *)
Variable P : X -> Prop.
Hypothesis KEEP : forall x p got, P x -> P (fst (fst (fst (code x p got)))).
Definition told (s : Screen.screen V X) : Prop := s_log V X s = rec (w_x V X (s_w V X s)) /\ s_next V X s = made (s_log V X s) /\ P (w_x V X (s_w V X s)).
Lemma x_set_node n c w : w_x V X (set_node V X n c w) = w_x V X w.
Proof. unfold set_node. destruct (nth_error _ _); reflexivity. Qed.
Lemma x_wake fuel : forall locked t w w', wake V X fuel locked t w = Done w' -> w_x V X w' = w_x V X w.
Proof.
  induction fuel as [|fuel IH]; intros locked t w w'; cbn [wake]; destruct (w_task t) as [c|]; try (intros [= <-]; reflexivity);
    destruct (place_of c) as [|n i]; try discriminate; try (intros [= <-]; reflexivity).
  destruct (existsb _ _); [discriminate|]. destruct (nth_error _ n) as [nd|]; [|discriminate]. cbn [get bind].
  destruct (rd_wake _ i) as [(r, o)|]; [|discriminate]. cbn [get bind]. destruct o as [q|].
  - intro H. apply IH in H. rewrite H, x_set_node. reflexivity.
  - intros [= <-]. rewrite x_set_node. reflexivity.
Qed.
Lemma x_wake_place w p w' : wake_place V X w p = Done w' -> w_x V X w' = w_x V X w.
Proof. unfold wake_place. destruct (exists_place V X w p); [apply x_wake|intros [= <-]; reflexivity]. Qed.
Lemma x_wake_all l : forall w w', wake_all V X l w = Done w' -> w_x V X w' = w_x V X w.
Proof.
  induction l as [|p l IH]; intros w w'; cbn [wake_all]; [intros [= <-]; reflexivity|].
  destruct (wake_place V X w p) as [w1| | |] eqn:E; try discriminate. cbn [bind]. intro H.
  rewrite (IH _ _ H). eapply x_wake_place; eauto.
Qed.
Lemma told_w s w : told s -> w_x V X w = w_x V X (s_w V X s) -> told (with_w V X w s).
Proof. intros (A & B & C) E. split; [|split]; cbn; rewrite ?E; assumption. Qed.
Lemma uacts_x p c acts : forall fr s fr' s', do_uacts V X elem grp adr_e p c acts fr s = Done (fr', s') -> s_w V X s' = s_w V X s.
Proof.
  induction acts as [|a acts IH]; intros fr s fr' s'; cbn [do_uacts]; [intros [= <- <-]; auto|].
  destruct (do_uact V X elem grp adr_e p c a fr s) as [(fr1, s1)| | |] eqn:E; try discriminate. cbn [bind]. intros H.
  rewrite (IH _ _ _ _ H). destruct a; cbn [do_uact] in E.
  - destruct (add_self _ _ _ _) as [(m, st)|]; [|discriminate]. cbn [get bind] in E. injection E as <- <-. reflexivity.
  - destruct (rev fr) as [|k r]; [injection E as <- <-; reflexivity|].
    destruct (drop_fut _ _ _) as [st|]; [|discriminate]. cbn [get bind] in E. injection E as <- <-. reflexivity.
Qed.
Lemma uacts_told p c acts : forall fr s fr' s', do_uacts V X elem grp adr_e p c acts fr s = Done (fr', s') ->
  s_next V X s = made (s_log V X s) ->
  s_log V X s' = fold_left (tell p) acts (s_log V X s) /\ s_next V X s' = made (s_log V X s') /\ s_w V X s' = s_w V X s.
Proof.
  induction acts as [|a acts IH]; intros fr s fr' s'; cbn [do_uacts fold_left]; [intros [= <- <-]; auto|].
  destruct (do_uact V X elem grp adr_e p c a fr s) as [(fr1, s1)| | |] eqn:E; try discriminate. cbn [bind]. intros H M.
  assert (A : s_log V X s1 = tell p (s_log V X s) a /\ s_next V X s1 = made (s_log V X s1) /\ s_w V X s1 = s_w V X s).
  { destruct a; cbn [do_uact] in E.
    - destruct (add_self _ _ _ _) as [(m, st)|]; [|discriminate]. cbn [get bind] in E. injection E as <- <-. cbn. rewrite <- M. auto.
    - destruct (rev fr) as [|k r]; [injection E as <- <-; cbn; auto|].
      destruct (drop_fut _ _ _) as [st|]; [|discriminate]. cbn [get bind] in E. injection E as <- <-. cbn. auto. }
  destruct A as (A & B & C). destruct (IH _ _ _ _ H B) as (A' & B' & C'). split; [rewrite A', A; reflexivity|]. split; [exact B'|congruence].
Qed.
Notation PB := (Screen.poll_block V X ww debug elem grp adr_e adr_c code).
Notation RC := (Screen.run_code V X ww debug elem grp adr_e adr_c code).
Notation AW := (Screen.await V X ww debug elem grp adr_e adr_c code).
Notation PC := (Screen.poll_comb V X ww debug elem grp adr_e adr_c code).
Notation LP := (Screen.loop V X ww debug elem grp adr_e adr_c code).
Lemma AW_S f p wk c fr n us s : AW (S f) p wk c fr n us s =
  (try (s1, us1, r) <- PC f n wk (inner elem grp c fr) us s;
   match r with
   | None => Done (s1, U fr (Some (n, us1)), None)
   | Some v =>
       try st <- get (drop_fut (FComb (adr_c n) (map (fun u => FBlock (cur_of elem grp adr_e adr_c u)) us1)) (Some (inner elem grp c fr)) (s_u V X s1));
       RC f p wk c fr (Some v) (with_u V X st (with_w V X (emit V X (EGone n v) (set_sub V X p None (s_w V X s1))) s1))
   end).
Proof. reflexivity. Qed.
Lemma LP_S f n l c us s : LP (S f) n l c us s =
  (try nd <- get (nth_error (w_hp V X (s_w V X s)) n);
   match l with
   | [] => try o <- finish V debug (nd_b V nd) (nd_c V nd); Done (s, us, o)
   | i :: l' =>
       try filled <- get (nth_error (c_filled V (nd_c V nd)) i);
       if (filled : bool) then LP f n l' c us s
       else
         try u <- get (nth_error us i);
         try (s1, u1, r) <- PB f (Kid n i) (waker_of (Kid n i)) (CChild c (N.of_nat i)) u s;
         let us1 := set_nth i u1 us in
         match r with
         | None => LP f n l' c us1 (with_w V X (emit V X (EPend (Kid n i)) (s_w V X s1)) s1)
         | Some v =>
             let s2 := with_w V X (emit V X (EDone (Kid n i) v) (s_w V X s1)) s1 in
             match b_maybe_return (nd_b V nd) i v with
             | inl o => Done (s2, us1, Some o)
             | inr st =>
                 try nd2 <- get (nth_error (w_hp V X (s_w V X s2)) n);
                 try cb <- store V (nd_c V nd2) i st;
                 LP f n l' c us1 (with_w V X (set_node V X n cb (s_w V X s2)) s2)
             end
         end
   end).
Proof. reflexivity. Qed.
Lemma all_told f :
  (forall p wk c u s s' u' r, PB f p wk c u s = Done (s', u', r) -> told s -> told s') /\
  (forall p wk c fr got s s' u' r, RC f p wk c fr got s = Done (s', u', r) -> told s -> told s') /\
  (forall p wk c fr n us s s' u' r, AW f p wk c fr n us s = Done (s', u', r) -> told s -> told s') /\
  (forall n wk c us s s' us' r, PC f n wk c us s = Done (s', us', r) -> told s -> told s') /\
  (forall n l c us s s' us' r, LP f n l c us s = Done (s', us', r) -> told s -> told s').
Proof.
  induction f as [|f (HB & HR & HA & HC & HL)]; [repeat split; intros; discriminate|]. split; [|split; [|split; [|split]]].
  - intros p wk c [fr [(n, us)|]] s s' u' r H T; cbn [Screen.poll_block] in H; (eapply HA + eapply HR); try exact H; apply told_w; auto.
  - intros p wk c fr got s s' u' r H (T1 & T2 & T3). cbn [Screen.run_code] in H. unfold emit in H at 1. cbn [w_x] in H.
    pose proof (REC (w_x V X (s_w V X s)) p got) as R. pose proof (KEEP (w_x V X (s_w V X s)) p got T3) as K.
    destruct (code (w_x V X (s_w V X s)) p got) as (((x, wakes), acts), nx).
    destruct (wake_all _ _ _ _) as [w1| | |] eqn:W; try discriminate H. cbn [bind] in H. apply x_wake_all in W. cbn in W.
    destruct (do_uacts _ _ _ _ _ _ _ _ _ _) as [(fr1, s1)| | |] eqn:E; try discriminate H. cbn [bind] in H.
    apply uacts_told in E; [|exact T2]. destruct E as (E1 & E2 & E3). cbn in E1, E3.
    assert (T : told s1) by (split; [rewrite E1, E3, W, R, T1; reflexivity|split; [exact E2|rewrite E3, W; exact K]]).
    destruct nx; try discriminate H; try (injection H as <- <- <-; exact T).
    eapply HA; [exact H|]. apply told_w; auto. cbn. rewrite E3. reflexivity.
  - intros p wk c fr n us s s' u' r H T. rewrite AW_S in H.
    destruct (PC f n wk (inner elem grp c fr) us s) as [((s1, us1), r1)| | |] eqn:E; try discriminate H. cbn [bind] in H.
    apply HC in E; auto. destruct r1 as [v|]; [|injection H as <- <- <-; auto].
    destruct (drop_fut _ _ _) as [st|]; [|discriminate H]. cbn [get bind] in H. eapply HR; [exact H|]. exact E.
  - intros n wk c us s s' us' r H T. cbn [Screen.poll_comb] in H.
    destruct (nth_error _ n) as [nd|]; [|discriminate H]. cbn [get bind] in H.
    destruct (c_entry _ _ _ _ _) as [[]|]; try discriminate H; [injection H as <- <- <-; auto|].
    destruct (rd_clear _) as [r2|]; [|discriminate H]. cbn [get bind] in H. eapply HL; [exact H|]. apply told_w; auto. apply x_set_node.
  - intros n l c us s s' us' r H T. rewrite LP_S in H. cbv zeta in H.
    destruct (nth_error _ n) as [nd|]; [|discriminate H]. cbn [get bind] in H. destruct l as [|i l].
    { destruct (finish _ _ _ _) as [o| | |]; try discriminate H. cbn [bind] in H. injection H as <- <- <-. auto. }
    destruct (nth_error _ i) as [[]|]; [| |discriminate H]; cbn [get bind] in H; [eapply HL; eauto|].
    destruct (nth_error us i) as [u|]; [|discriminate H]. cbn [get bind] in H.
    destruct (PB f _ _ _ u s) as [((s1, u1), r1)| | |] eqn:E; try discriminate H. cbn [bind] in H. apply HB in E; auto.
    destruct r1 as [v|].
    + destruct (b_maybe_return _ i v) as [o|st].
      * injection H as <- <- <-. apply told_w; auto.
      * cbn [Screen.s_w with_w] in H. destruct (nth_error _ n) as [nd2|]; [|discriminate H]. cbn [get bind] in H.
        destruct (store _ _ _ _) as [cb| | |]; try discriminate H. cbn [bind] in H.
        eapply HL; [exact H|]. apply told_w; [apply told_w; auto|]. apply x_set_node.
    + eapply HL; [exact H|]. apply told_w; auto.
Qed.
(** only the poll of the mounted future itself finds that the application is over *)
Lemma over_set_node n c w : w_over V X (set_node V X n c w) = w_over V X w.
Proof. unfold set_node. destruct (nth_error _ _); reflexivity. Qed.
Lemma over_wake fuel : forall locked t w w', wake V X fuel locked t w = Done w' -> w_over V X w' = w_over V X w.
Proof.
  induction fuel as [|fuel IH]; intros locked t w w'; cbn [wake]; destruct (w_task t) as [c|]; try (intros [= <-]; reflexivity);
    destruct (place_of c) as [|n i]; try discriminate; try (intros [= <-]; reflexivity).
  destruct (existsb _ _); [discriminate|]. destruct (nth_error _ n) as [nd|]; [|discriminate]. cbn [get bind].
  destruct (rd_wake _ i) as [(r, o)|]; [|discriminate]. cbn [get bind]. destruct o as [q|].
  - intro H. apply IH in H. rewrite H, over_set_node. reflexivity.
  - intros [= <-]. rewrite over_set_node. reflexivity.
Qed.
Lemma over_wake_place w p w' : wake_place V X w p = Done w' -> w_over V X w' = w_over V X w.
Proof. unfold wake_place. destruct (exists_place V X w p); [apply over_wake|intros [= <-]; reflexivity]. Qed.
Lemma over_wake_all l : forall w w', wake_all V X l w = Done w' -> w_over V X w' = w_over V X w.
Proof.
  induction l as [|p l IH]; intros w w'; cbn [wake_all]; [intros [= <-]; reflexivity|].
  destruct (wake_place V X w p) as [w1| | |] eqn:E; try discriminate. cbn [bind]. intro H.
  rewrite (IH _ _ H). eapply over_wake_place; eauto.
Qed.
Notation ov s := (w_over V X (s_w V X s)).
Lemma all_over f :
  (forall p wk c u s s' u' r, PB f p wk c u s = Done (s', u', r) -> ov s' = ov s) /\
  (forall p wk c fr got s s' u' r, RC f p wk c fr got s = Done (s', u', r) -> ov s' = ov s) /\
  (forall p wk c fr n us s s' u' r, AW f p wk c fr n us s = Done (s', u', r) -> ov s' = ov s) /\
  (forall n wk c us s s' us' r, PC f n wk c us s = Done (s', us', r) -> ov s' = ov s) /\
  (forall n l c us s s' us' r, LP f n l c us s = Done (s', us', r) -> ov s' = ov s).
Proof.
  induction f as [|f (HB & HR & HA & HC & HL)]; [repeat split; intros; discriminate|]. split; [|split; [|split; [|split]]].
  - intros p wk c [fr [(n, us)|]] s s' u' r H; cbn [Screen.poll_block] in H; [apply HA in H|apply HR in H]; exact H.
  - intros p wk c fr got s s' u' r H. cbn [Screen.run_code] in H. unfold emit in H at 1. cbn [w_x] in H.
    destruct (code (w_x V X (s_w V X s)) p got) as (((x, wakes), acts), nx).
    destruct (wake_all _ _ _ _) as [w1| | |] eqn:W; try discriminate H. cbn [bind] in H. apply over_wake_all in W. cbn in W.
    destruct (do_uacts _ _ _ _ _ _ _ _ _ _) as [(fr1, s1)| | |] eqn:E; try discriminate H. cbn [bind] in H.
    apply uacts_x in E. cbn in E.
    destruct nx; try discriminate H; try (injection H as <- <- <-; rewrite E; exact W).
    apply HA in H. rewrite H. exact W.
  - intros p wk c fr n us s s' u' r H. rewrite AW_S in H.
    destruct (PC f n wk (inner elem grp c fr) us s) as [((s1, us1), r1)| | |] eqn:E; try discriminate H. cbn [bind] in H.
    apply HC in E. destruct r1 as [v|]; [|injection H as <- <- <-; auto].
    destruct (drop_fut _ _ _) as [st|]; [|discriminate H]. cbn [get bind] in H. apply HR in H. rewrite H. exact E.
  - intros n wk c us s s' us' r H. cbn [Screen.poll_comb] in H.
    destruct (nth_error _ n) as [nd|]; [|discriminate H]. cbn [get bind] in H.
    destruct (c_entry _ _ _ _ _) as [[]|]; try discriminate H; [injection H as <- <- <-; auto|].
    destruct (rd_clear _) as [r2|]; [|discriminate H]. cbn [get bind] in H. apply HL in H. rewrite H. apply over_set_node.
  - intros n l c us s s' us' r H. rewrite LP_S in H. cbv zeta in H.
    destruct (nth_error _ n) as [nd|]; [|discriminate H]. cbn [get bind] in H. destruct l as [|i l].
    { destruct (finish _ _ _ _) as [o| | |]; try discriminate H. cbn [bind] in H. injection H as <- <- <-. auto. }
    destruct (nth_error _ i) as [[]|]; [| |discriminate H]; cbn [get bind] in H; [eapply HL; eauto|].
    destruct (nth_error us i) as [u|]; [|discriminate H]. cbn [get bind] in H.
    destruct (PB f _ _ _ u s) as [((s1, u1), r1)| | |] eqn:E; try discriminate H. cbn [bind] in H. apply HB in E.
    destruct r1 as [v|].
    + destruct (b_maybe_return _ i v) as [o|st].
      * injection H as <- <- <-. exact E.
      * cbn [Screen.s_w with_w] in H. destruct (nth_error _ n) as [nd2|]; [|discriminate H]. cbn [get bind] in H.
        destruct (store _ _ _ _) as [cb| | |]; try discriminate H. cbn [bind] in H.
        apply HL in H. rewrite H. cbn [Screen.s_w with_w]. rewrite over_set_node. exact E.
    + apply HL in H. rewrite H. exact E.
Qed.
(** the last thing a block that returns has done is run its code *)
Lemma ret_code f :
  (forall p wk c u s s' u' v, PB f p wk c u s = Done (s', u', Some v) ->
     exists fr x got l acts, u' = U fr None /\ code x p got = (w_x V X (s_w V X s'), l, acts, NRet v)) /\
  (forall p wk c fr got s s' u' v, RC f p wk c fr got s = Done (s', u', Some v) ->
     exists fr x got l acts, u' = U fr None /\ code x p got = (w_x V X (s_w V X s'), l, acts, NRet v)) /\
  (forall p wk c fr n us s s' u' v, AW f p wk c fr n us s = Done (s', u', Some v) ->
     exists fr x got l acts, u' = U fr None /\ code x p got = (w_x V X (s_w V X s'), l, acts, NRet v)).
Proof.
  induction f as [|f (HB & HR & HA)]; [repeat split; intros; discriminate|]. split; [|split].
  - intros p wk c [fr [(n, us)|]] s s' u' v H; cbn [Screen.poll_block] in H; (eapply HA + eapply HR); exact H.
  - intros p wk c fr got s s' u' v H. cbn [Screen.run_code] in H. unfold emit in H at 1. cbn [w_x] in H.
    destruct (code (w_x V X (s_w V X s)) p got) as (((x, wakes), acts), nx) eqn:EC.
    destruct (wake_all _ _ _ _) as [w1| | |] eqn:W; try discriminate H. cbn [bind] in H. apply x_wake_all in W. cbn in W.
    destruct (do_uacts _ _ _ _ _ _ _ _ _ _) as [(fr1, s1)| | |] eqn:E; try discriminate H. cbn [bind] in H.
    apply uacts_x in E. cbn in E.
    destruct nx; try discriminate H; [|eapply HA; exact H].
    injection H as <- <- <-. exists fr1, (w_x V X (s_w V X s)), got, wakes, acts. split; [reflexivity|]. rewrite E, W. exact EC.
  - intros p wk c fr n us s s' u' v H. rewrite AW_S in H.
    destruct (PC f n wk (inner elem grp c fr) us s) as [((s1, us1), r1)| | |] eqn:E; try discriminate H. cbn [bind] in H.
    destruct r1 as [v1|]; [|discriminate H].
    destruct (drop_fut _ _ _) as [st|]; [|discriminate H]. cbn [get bind] in H. eapply HR. exact H.
Qed.
Lemma run_told root g evs : forall u s u' s', Forall (keeps_record rec) evs -> Forall (fun e => match e with HEnv f => forall x, P x -> P (f x) | _ => True end) evs ->
  run_from V X ww debug elem grp adr_e adr_c code root g (u, s) evs = Done (u', s') -> told s -> told s'.
Proof.
  induction evs as [|e evs IH]; intros u s u' s' K KP; cbn [run_from]; [intros [= <- <-]; auto|].
  inversion K as [|? ? K1 K2]; subst. inversion KP as [|? ? K3 K4]; subst. unfold exec.
  destruct e as [fuel tag|p|f]; cbn [keeps_record] in K1.
  - destruct (w_over V X (s_w V X s)); [cbn [bind]; intros H T; eapply IH; eauto|].
    destruct (Screen.poll_block _ _ _ _ _ _ _ _ _ _ _ _ _ _ _) as [((s1, u1), r)| | |] eqn:E; try discriminate.
    cbn [bind]. intros H T. apply (proj1 (all_told fuel)) in E; auto.
    destruct r as [v|]; cbn [bind] in H; (eapply IH; [exact K2|exact K4|exact H|]); apply told_w; auto.
  - destruct (wake_place V X (s_w V X s) p) as [w1| | |] eqn:E; try discriminate. cbn [bind]. intros H T. apply x_wake_place in E.
    eapply IH; [exact K2|exact K4|exact H|]. apply told_w; auto.
  - cbn [bind]. intros H (T1 & T2 & T3). eapply IH; [exact K2|exact K4|exact H|]. split; [|split]; cbn; auto. rewrite K1. exact T1.
Qed.
End Record.
