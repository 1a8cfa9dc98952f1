(** Property C73: what is in the document is exactly where the code is. *)
From Coq Require Import List Arith NArith Bool Lia.
From Verif Require Import Arena Spec_arena Readiness Combinator Combinator_proofs Tree Tree_proofs Position Dom Context Ui Spec_ui Ui_proofs Screen Spec_screen Screen_proofs Props_ui.
Import ListNotations.

Section Props.
Variables V X : Type.
Variable ww : waker -> waker -> bool.
Variable debug : bool.
Variables (elem : nat -> Dom.node) (grp : nat -> gid) (adr_e adr_c : nat -> addr).
Variable code : X -> place -> option V -> X * list place * list uact * next V.

(** the application mounted in [root] of document [d], after history [evs] *)
Notation shown := (Screen.run V X ww debug elem grp adr_e adr_c code).

Lemma run_doc (a : addr) root g d gr x evs : few code -> dom_wf d -> supply d gr root g elem grp ->
  exists nx lg u st, shown root g d gr x evs =
    match Tree.run V X ww debug (plain code) x evs with
    | Done w => Done (u, mkS V X w st nx lg) | Panic => Panic | Fault => Fault | NoFuel => NoFuel end /\
  forall w, Tree.run V X ww debug (plain code) x evs = Done w ->
    fits V X w lg Root u /\
    (forall n ch, In (n, ch) (containers (mount root g a (FBlock (cur_of elem grp adr_e adr_c u)))) ->
       kids (rdom (ur st)) n = kids d n ++ out ch) /\
    (forall q, q <> root -> (forall k, q <> elem k) -> kids (rdom (ur st)) q = kids d q) /\
    (unmount (mount root g a (FBlock (cur_of elem grp adr_e adr_c u))) st = None <-> touches (cur_of elem grp adr_e adr_c u) = true) /\
    (touches (cur_of elem grp adr_e adr_c u) = false -> exists st', unmount (mount root g a (FBlock (cur_of elem grp adr_e adr_c u))) st = Some st' /\
       kids (rdom (ur st')) root = kids d root).
Proof.
  intros FEW W (EI & ER & GI & GR & FR & EP & G0 & GE).
  destruct (run_ok V X ww debug elem grp adr_e adr_c code FEW root g a evs u0 (Tree.start V X x) 0 [] (start_INV V X x))
    as (sl & nx & lg & u & (_ & MN & MG & MU) & E & R).
  rewrite Nat.sub_0_r in MN, MG.
  assert (FA : fresh_app d gr root g (FBlock (cur_of elem grp adr_e adr_c u0) :: flat_map created sl)).
  { assert (ND : forall (h : nat -> nat), (forall i j, h i = h j -> i = j) -> NoDup (map h (seq 0 nx))).
    { intros h H. apply FinFun.Injective_map_NoDup; [exact H|apply seq_NoDup]. }
    unfold fresh_app. cbn [flat_map nodes gids Screen.cur_of u0 Screen.wrap app]. rewrite MN, MG.
    split; [constructor; [intro H; apply in_map_iff in H; destruct H as (k & H & _); eapply ER; eauto|apply ND; auto]|].
    split; [constructor; [intro H; apply in_map_iff in H; destruct H as (k & H & _); eapply GR; eauto|apply ND; auto]|].
    split; auto. split; [intros n H; apply in_map_iff in H; destruct H as (k & <- & _); apply EP|].
    split; [intros h [<-|H]; [exact G0|apply in_map_iff in H; destruct H as (k & <- & _); apply GE]|].
    constructor; [exact I|exact MU]. }
  destruct (app_run d gr root g a _ sl W FA) as (ch' & st & P & GD & _ & _ & _ & KQ).
  exists nx, lg, u, st. split.
  - unfold Screen.run, Screen.start, Tree.run. rewrite E, P. unfold whole. reflexivity.
  - intros w T. destruct (R w T) as ((S & F & L) & C). split; auto. specialize (C _ _ _ P). split.
    + rewrite <- C. intros n ch H. eapply good_containers; eauto.
    + split; [|split].
      * intros q N1 N2. apply KQ. cbn [flat_map nodes Screen.cur_of u0 Screen.wrap app]. rewrite MN.
        intros [H|H]; [congruence|]. apply in_map_iff in H. destruct H as (k & H & _). eapply N2; eauto.
      * rewrite C in P.
        rewrite <- (C07_unmount_panics_iff d gr root g a _ sl (FBlock (cur_of elem grp adr_e adr_c u)) st W FA P). reflexivity.
      * intros T0. rewrite C in P.
        destruct (C07_unmount_partial d gr root g a _ sl (FBlock (cur_of elem grp adr_e adr_c u)) st W FA P T0) as (st' & U & K & _).
        exists st'. split; auto.
Qed.

(** C73.  Rendering is transparent: it never fails, and what is polled, woken, awaited and
    returned, in which order, is the same as without any rendering; whether the addresses of
    the elements' futures are distinct or not. *)
Theorem C73_transparent : forall (root : Dom.node) (g : gid) (d : dom) (gr : gid -> group) (x : X) (evs : list (hev X)),
  few code -> dom_wf d -> supply d gr root g elem grp ->
  (try us <- shown root g d gr x evs; Done (s_w V X (snd us))) = Tree.run V X ww debug (plain code) x evs.
Proof.
  intros root g d gr x evs FEW W SU. destruct (run_doc 0 root g d gr x evs FEW W SU) as (nx & lg & u & st & -> & _).
  destruct (Tree.run V X ww debug (plain code) x evs); reflexivity.
Qed.

(** C73.  At any moment the root node's children are those it had before, followed by what the
    root block shows; the children of an element that a block is in are those it had before,
    followed by what the element holds; nodes that do not belong to the application keep their
    children. *)
Theorem C73_document : forall (root : Dom.node) (g : gid) (d : dom) (gr : gid -> group) (x : X) (evs : list (hev X)) u s,
  few code -> dom_wf d -> supply d gr root g elem grp ->
  shown root g d gr x evs = Done (u, s) ->
  let tr := w_tr V X (s_w V X s) in let lg := s_log V X s in let now := kids (rdom (ur (s_u V X s))) in
  (exists l, shows tr lg Root l /\ now root = kids d root ++ map elem l) /\
  (forall p out e inn, present tr p -> opens p lg = out ++ e :: inn ->
     exists l, holds tr lg p inn l /\ now (elem e) = kids d (elem e) ++ map elem l) /\
  (forall q, q <> root -> (forall k, q <> elem k) -> now q = kids d q).
Proof.
  intros root g d gr x evs u s FEW W SU H tr lg now.
  destruct (run_doc 0 root g d gr x evs FEW W SU) as (nx & lg' & u' & st & E & R). rewrite E in H.
  destruct (Tree.run V X ww debug (plain code) x evs) as [w| | |]; try discriminate H. injection H as <- <-.
  destruct (R w eq_refl) as (F & K & Q & _). subst tr lg now. cbn [s_w s_log s_u]. split; [|split; [|exact Q]].
  - exists (outs u'). split; [apply (fits_shows V X w lg' u' Root F)|]. rewrite <- (out_cur elem grp adr_e adr_c u').
    change (out (cur_of elem grp adr_e adr_c u')) with (out (FBlock (cur_of elem grp adr_e adr_c u'))). apply K. cbn. auto.
  - intros p out e inn P O. destruct (present_fits V X elem grp adr_e adr_c w lg' u' F p P) as (v & FV & IN).
    destruct v as [fr sub].
    assert (fr = opens p lg') as -> by (inversion FV; auto).
    destruct (containers_cur elem grp adr_e adr_c (U (opens p lg') sub) out e inn sub) as (ch & C1 & C2); [rewrite <- O; reflexivity|].
    eexists. split; [|rewrite <- C2; apply K; cbn; right; apply IN; exact C1].
    unfold holds. destruct inn; [|reflexivity]. apply (fits_shows V X w lg' _ p FV).
Qed.

(** which elements these are is determined by what the blocks have rendered and what they await *)
Theorem C73_determined : forall (tr : list (ev V)) (lg : list dev) p l1 l2,
  shows tr lg p l1 -> shows tr lg p l2 -> l1 = l2.
Proof.
  intros tr lg.
  fix IH 4. intros p l1 l2 H1 H2. destruct H1 as [p e t O|p l1 O B1].
  - destruct H2 as [p e' t' O'|p l2 O' _]; congruence.
  - destruct H2 as [p e' t' O'|p l2 O' B2]; [congruence|].
    destruct B1 as [p A1|p n k ls A1 L1 C1].
    + destruct B2 as [p A2|p n k ls A2 L2 C2]; congruence.
    + destruct B2 as [p A2|p n2 k2 ls2 A2 L2 C2]; [congruence|].
      assert (n2 = n /\ k2 = k) as (-> & ->) by (rewrite A1 in A2; injection A2; auto). clear A1 A2 O O'.
      f_equal. assert (Q : forall i y1 y2, nth_error ls i = Some y1 -> nth_error ls2 i = Some y2 -> y1 = y2).
      { intros i y1 y2 Y1 Y2. exact (IH (Kid n i) y1 y2 (C1 i y1 Y1) (C2 i y2 Y2)). }
      clear IH C1 C2. subst k. revert ls2 L2 Q. induction ls as [|y ls IHl]; intros [|y2 ls2] L Q; try discriminate L; auto.
      f_equal; [apply (Q 0); reflexivity|]. apply IHl; [injection L; auto|]. intros i. apply (Q (S i)).
Qed.

(** C73.  What is rendered is what the code says, in the order it runs: a record that the code
    itself keeps, in its own state, of the elements it enters and leaves, agrees with the log the
    other theorems speak about.  (Any program can keep such a record: [recording] below.) *)
Theorem C73_as_written : forall (rec : X -> list dev) (root : Dom.node) (g : gid) (d : dom) (gr : gid -> group) (x : X) (evs : list (hev X)) u s,
  records code rec -> rec x = [] -> Forall (keeps_record rec) evs ->
  shown root g d gr x evs = Done (u, s) ->
  s_log V X s = rec (w_x V X (s_w V X s)).
Proof.
  intros rec root g d gr x evs u s R R0 K H.
  apply (run_told V X ww debug elem grp adr_e adr_c code rec R (fun _ => True) (fun _ _ _ _ => Logic.I) root g evs u0 (mkS V X (Tree.start V X x) (mkU (mkR d gr) None 0) 0 []) u s K); [|exact H|].
  - apply Forall_forall. intros []; auto.
  - split; cbn; auto.
Qed.

(** every element that is shown belongs to a block whose future exists *)
Lemma shows_present (tr : list (ev V)) (lg : list dev) :
  (forall p l, shows tr lg p l -> present tr p -> forall e, In e l -> exists q, present tr q /\ In e (opens q lg)).
Proof.
  fix IH 3. intros p l H P e I. destruct H as [p e' t O|p l O B].
  - destruct I as [<-|[]]. exists p. split; auto. rewrite O. left; auto.
  - destruct B as [p A|p n k ls A L C]; [destruct I|].
    apply in_concat in I. destruct I as (y & Y & I). apply In_nth_error in Y. destruct Y as (i & Y).
    apply (IH (Kid n i) y (C i y Y)); auto. econstructor; eauto. rewrite <- L. apply nth_error_Some. congruence.
Qed.
Lemma below_present (tr : list (ev V)) (lg : list dev) p l : below tr lg p l -> present tr p ->
  forall e, In e l -> exists q, present tr q /\ In e (opens q lg).
Proof.
  intros B P e I. destruct B as [p A|p n k ls A L C]; [destruct I|].
  apply in_concat in I. destruct I as (y & Y & I). apply In_nth_error in Y. destruct Y as (i & Y).
  apply (shows_present tr lg (Kid n i) y (C i y Y)); auto. econstructor; eauto. rewrite <- L. apply nth_error_Some. congruence.
Qed.

(** when the children of the root and of the elements blocks are in are what they should be *)
Lemma exactly_of (tr : list (ev V)) (lg : list dev) (now : Dom.node -> list Dom.node) (root : Dom.node) l0 :
  shows tr lg Root l0 -> now root = map elem l0 ->
  (forall p out e inn, present tr p -> opens p lg = out ++ e :: inn -> exists l, holds tr lg p inn l /\ now (elem e) = map elem l) ->
  forall n, Spec_screen.under now root n <-> exists p e, n = elem e /\ present tr p /\ In e (opens p lg).
Proof.
  intros S0 D0 DE n. split.
  - intro U. induction U as [n I|q n U (p & e & -> & P & O) I].
    + rewrite D0 in I. apply in_map_iff in I. destruct I as (e & <- & I).
      destruct (shows_present _ _ Root l0 S0 (present_root _) e I) as (p & P & O). exists p, e. auto.
    + destruct (in_split e _ O) as (out & inn & OP). destruct (DE p out e inn P OP) as (l & HO & D). rewrite D in I.
      apply in_map_iff in I. destruct I as (e' & <- & I). destruct inn as [|e2 inn].
      * destruct (below_present _ _ p l HO P e' I) as (q & PQ & OQ). exists q, e'. auto.
      * cbn in HO. subst l. destruct I as [<-|[]]. exists p, e2. split; auto. split; auto. rewrite OP. apply in_app_iff. right. right. left. auto.
  - intros (p & e & -> & P & O).
    (** what a block that exists shows, is in, or holds, is below the root *)
    assert (STEP : forall p l, present tr p -> shows tr lg p l -> (forall e, In e l -> Spec_screen.under now root (elem e)) ->
      (forall e, In e (opens p lg) -> Spec_screen.under now root (elem e)) /\
      exists l, below tr lg p l /\ forall e, In e l -> Spec_screen.under now root (elem e)).
    { clear p e P O. intros p l P SH IN.
      assert (OPN : forall out inn, opens p lg = out ++ inn -> forall e, In e out -> Spec_screen.under now root (elem e)).
      { induction out as [|e out IH] using rev_ind; [intros inn _ e []|]. intros inn E e' I. rewrite <- app_assoc in E. cbn [app] in E.
        specialize (IH _ E). apply in_app_iff in I. destruct I as [I|[<-|[]]]; [auto|].
        destruct out as [|e0 out0] using rev_ind.
        - cbn [app] in E. assert (l = [e]) as -> by (eapply C73_determined; [exact SH|eapply shows_elem; exact E]). apply IN. left. auto.
        - clear IHout0. pose proof E as E'. rewrite <- app_assoc in E'. cbn [app] in E'.
          destruct (DE p out0 e0 (e :: inn) P E') as (l1 & HO & D). cbn in HO. subst l1.
          apply under_deep with (elem e0); [apply IH; apply in_app_iff; right; left; auto|]. rewrite D. left. auto. }
      assert (OPA : forall e, In e (opens p lg) -> Spec_screen.under now root (elem e)).
      { intros e I. apply (OPN (opens p lg) []); [symmetry; apply app_nil_r|exact I]. }
      split; [exact OPA|]. destruct (opens p lg) as [|e1 t1] eqn:O.
      - inversion SH as [p0 e0 t0 O0|p0 l1 O0 B]; subst; [congruence|]. exists l. auto.
      - assert (NE : e1 :: t1 <> []) by discriminate. destruct (exists_last NE) as (out & e & E). rewrite E in O.
        destruct (DE p out e [] P O) as (l1 & HO & D). exists l1. split; [exact HO|]. intros e' I.
        apply under_deep with (elem e); [apply OPA; rewrite E; apply in_app_iff; right; left; auto|].
        rewrite D. apply in_map. exact I. }
    assert (IN : forall p, present tr p -> exists l, shows tr lg p l /\ forall e, In e l -> Spec_screen.under now root (elem e)).
    { clear p e P O. intros p P. induction P as [|p n k i P (l & SH & IN) A L].
      - exists l0. split; auto. intros e I. apply under_kid. rewrite D0. apply in_map. exact I.
      - destruct (STEP p l P SH IN) as (_ & l1 & B & IB). inversion B as [p0 A0|p0 n0 k0 ls A0 L0 C0]; subst; [congruence|].
        assert (n0 = n /\ length ls = k) as (-> & LK) by (rewrite A in A0; injection A0; auto).
        destruct (nth_error ls i) as [y|] eqn:Y; [|apply nth_error_None in Y; lia].
        exists y. split; [apply C0; auto|]. intros e I. apply IB. apply in_concat. exists y. split; auto. eapply nth_error_In; eauto. }
    destruct (IN p P) as (l & SH & IL). apply (STEP p l P SH IL). exact O.
Qed.

(** C73.  If the root was empty and elements are made without children, then an element is in the
    document, below the root, if and only if a block whose future exists is in it. *)
Theorem C73_exactly : forall (root : Dom.node) (g : gid) (d : dom) (gr : gid -> group) (x : X) (evs : list (hev X)) u s,
  few code -> dom_wf d -> supply d gr root g elem grp ->
  kids d root = [] -> (forall k, kids d (elem k) = []) ->
  shown root g d gr x evs = Done (u, s) ->
  forall n, Spec_screen.under (kids (rdom (ur (s_u V X s)))) root n <->
    exists p e, n = elem e /\ present (w_tr V X (s_w V X s)) p /\ In e (opens p (s_log V X s)).
Proof.
  intros root g d gr x evs u s FEW W SU K0 KE H n.
  destruct (C73_document root g d gr x evs u s FEW W SU H) as ((l0 & S0 & D0) & DE & _).
  rewrite K0 in D0. apply (exactly_of _ _ _ _ l0 S0 D0). intros p out e inn P O.
  destruct (DE p out e inn P O) as (l & HO & D). exists l. rewrite KE in D. auto.
Qed.
End Props.
Section Unmount.
Variables V X : Type.
Variable ww : waker -> waker -> bool.
Variable debug : bool.
Variables (elem : nat -> Dom.node) (grp : nat -> gid) (adr_e adr_c : nat -> addr).
Variable code : X -> place -> option V -> X * list place * list uact * next V.
Lemma touches_wrap fr x : touches (wrap elem grp adr_e fr x) = match fr with [] => touches x | _ :: _ => true end.
Proof. destruct fr; reflexivity. Qed.
Lemma touches_cur w lg u : fits V X w lg Root u ->
  touches (cur_of elem grp adr_e adr_c u) = true <-> opens Root lg <> [] \/ awaits Root (w_tr V X w) <> None.
Proof.
  intro F. inversion F as [p fr O S A|p fr n us O S A K]; subst; cbn [cur_of]; rewrite touches_wrap; destruct (opens Root lg) eqn:E; cbn [touches].
  - rewrite A. split; [discriminate|]. intros [H|H]; congruence.
  - split; auto. intros _. left. discriminate.
  - rewrite A. split; auto. intros _. right. discriminate.
  - split; auto. intros _. left. discriminate.
Qed.
(** C73.  When the application's task is dropped, or it has returned and its future is dropped:
    the library panics if and only if the root block is in an element or awaits a combinator;
    otherwise the root node gets the children back that it had before. *)
Theorem C73_unmount : forall (root : Dom.node) (g : gid) (a : addr) (d : dom) (gr : gid -> group) (x : X) (evs : list (hev X)) u s,
  few code -> dom_wf d -> supply d gr root g elem grp ->
  Screen.run V X ww debug elem grp adr_e adr_c code root g d gr x evs = Done (u, s) ->
  let drop := unmount (mount root g a (FBlock (cur_of elem grp adr_e adr_c u))) (s_u V X s) in
  (drop = None <-> opens Root (s_log V X s) <> [] \/ awaits Root (w_tr V X (s_w V X s)) <> None) /\
  (opens Root (s_log V X s) = [] -> awaits Root (w_tr V X (s_w V X s)) = None ->
   exists st, drop = Some st /\ kids (rdom (ur st)) root = kids d root).
Proof.
  intros root g a d gr x evs u s FEW W SU H drop.
  destruct (run_doc V X ww debug elem grp adr_e adr_c code a root g d gr x evs FEW W SU) as (nx & lg' & u' & st & E & R). rewrite E in H.
  destruct (Tree.run V X ww debug (plain code) x evs) as [w| | |]; try discriminate H. injection H as <- <-.
  destruct (R w eq_refl) as (F & _ & _ & U1 & U2). pose proof (touches_cur w lg' u' F) as T. cbn [s_w s_log s_u] in *. subst drop. split.
  - rewrite U1. exact T.
  - intros O A. apply U2. destruct (touches _); auto. destruct (proj1 T eq_refl); congruence.
Qed.
End Unmount.
Print Assumptions C73_unmount.
Print Assumptions C73_transparent.
Print Assumptions C73_document.
Print Assumptions C73_determined.
Print Assumptions C73_as_written.
Print Assumptions C73_exactly.

(** An application: a box with the join of two blocks in it.  The first shows an element with a
    race of two elements inside; the second shows an element, replaces it, and returns.  Nodes
    10, 11, ... are the elements; 0 is the root. *)
From Verif Require Import Spec_tree Props_tree.
Definition ex_scode (x : nat) (p : place) (got : option val) : nat * list place * list uact * next val :=
  match p, got with
  | Root, None => (x, [], [Enter], NAwait KVec join_val 2)
  | Root, Some v => (x, [], [Leave; Enter], NPend)
  | Kid 0 0, None => (x, [], [Enter], NAwait KTuple race_val 2)
  | Kid 0 0, Some v => (x, [], [], NRet v)
  | Kid 0 _, _ => if x =? 0 then (x, [], [Enter], NPend) else if x =? 1 then (x, [], [Leave; Enter], NPend) else (x, [], [], NRet (VNat x))
  | _, _ => if x =? 0 then (x, [], [Enter], NPend) else (x, [], [Leave], NRet (VNat x))
  end.
Definition ex_s (evs : list (hev nat)) := Screen.run val nat ex_ww true (fun k => 10 + k) (fun k => S k) (fun _ => 0) (fun _ => 0) ex_scode 0 0 dom_empty (fun _ => []) 0 evs.
Definition ex_kids (evs : list (hev nat)) (l : list nat) : option (list (list nat)) :=
  match ex_s evs with Done (_, s) => Some (map (kids (rdom (ur (s_u val nat s)))) l) | _ => None end.
Definition ex_h1 : list (hev nat) := [HPoll 40 0].
Definition ex_h2 := ex_h1 ++ [HEnv (fun _ => 1); HWake (Kid 1 1); HPoll 40 0].
Definition ex_h3 := ex_h2 ++ [HWake (Kid 0 1); HPoll 40 0].
Definition ex_h4 := ex_h3 ++ [HEnv (fun _ => 2); HWake (Kid 0 1); HPoll 40 0].
(** first the box with two elements, the race in the first of them; when the race is over its
    elements are gone, the element of the finished block stays; then the second block's element is
    replaced; when the join is over the box is gone and something else is shown *)
Example ex_screen :
  ex_kids ex_h1 [0; 10; 11; 14] = Some [[10]; [11; 14]; [12; 13]; []] /\
  ex_kids ex_h2 [0; 10; 11; 14] = Some [[10]; [11; 14]; []; []] /\
  ex_kids ex_h3 [0; 10; 11] = Some [[10]; [11; 15]; []] /\
  ex_kids ex_h4 [0; 16] = Some [[16]; []].
Proof. vm_compute. repeat split. Qed.
Example ex_screen_hyps : few ex_scode /\ dom_wf dom_empty /\
  supply dom_empty (fun _ => []) 0 0 (fun k => 10 + k) (fun k => S k) /\
  kids dom_empty 0 = [] /\ (forall k, kids dom_empty (10 + k) = []).
Proof.
  split; [|split; [|split]].
  - intros x p got x' ws acts k b n. destruct p as [|[|m] [|i]], got; cbn;
      repeat match goal with |- context [if ?c then _ else _] => destruct c end; intros [= <- <- <- <- <- <-] || discriminate; vm_compute; discriminate.
  - split; [intro; constructor|intros; simpl; intuition congruence].
  - repeat split; intros; try reflexivity; try discriminate; try lia.
  - split; reflexivity.
Qed.
(** any program can keep a record *)
Definition recording {V X} (code : X -> place -> option V -> X * list place * list uact * next V)
  (y : X * list dev) (p : place) (got : option V) : X * list dev * list place * list uact * next V :=
  let '(x', ws, acts, nx) := code (fst y) p got in (x', fold_left (tell p) acts (snd y), ws, acts, nx).
Lemma recording_records {V X} (code : X -> place -> option V -> X * list place * list uact * next V) : records (recording code) snd.
Proof. intros (x, lg) p got. unfold recording. cbn [fst snd]. destruct (code x p got) as (((x', ws), acts), nx). reflexivity. Qed.
Example ex_screen_record :
  match Screen.run val (nat * list dev) ex_ww true (fun k => 10 + k) (fun k => S k) (fun _ => 0) (fun _ => 0) (recording ex_scode) 0 0
    dom_empty (fun _ => []) (0, []) [HPoll 40 0; HEnv (fun y => (1, snd y)); HWake (Kid 1 1); HPoll 40 0; HWake (Kid 0 1); HPoll 40 0] with
  | Done (_, s) => s_log val _ s = [DEnter (Kid 0 1) 5; DLeave (Kid 0 1); DLeave (Kid 1 1); DEnter (Kid 0 1) 4; DEnter (Kid 1 1) 3; DEnter (Kid 1 0) 2; DEnter (Kid 0 0) 1; DEnter Root 0]
  | _ => False
  end.
Proof. vm_compute. reflexivity. Qed.
(** and the specification says the same *)
Example ex_screen_shows :
  match ex_s ex_h1 with
  | Done (_, s) => shows (w_tr val nat (s_w val nat s)) (s_log val nat s) (Kid 0 0) [1] /\
      below (w_tr val nat (s_w val nat s)) (s_log val nat s) (Kid 0 0) [2; 3] /\
      present (w_tr val nat (s_w val nat s)) (Kid 1 1)
  | _ => False
  end.
Proof.
  vm_compute. split; [|split].
  - eapply shows_elem. reflexivity.
  - change [2; 3] with (concat [[2]; [3]]). eapply below_children; [reflexivity|reflexivity|].
    intros [|[|i]] l H; [injection H as <-|injection H as <-|destruct i; discriminate H]; eapply shows_elem; reflexivity.
  - eapply present_kid with (p := Kid 0 0) (k := 2); [eapply present_kid with (p := Root) (k := 2); [constructor|reflexivity|lia]|reflexivity|lia].
Qed.
