(** Proofs for C79: a view of several paths of an x-bow store. *)
From Coq Require Import List Arith Bool Lia NArith Cantor.
From Verif Require Import Util Arena Spec_arena Combinator Tree Page Xbow Spec_xbow Xbow_proofs Xbow_run_proofs XbowData XbowStore Spec_store XbowStore_proofs XbowStore_run_proofs
  Spec_view Spec_store_view View_store_proofs Spec_watch Spec_store_watch.
Import ListNotations.

Section Stores.
Variable ww : waker -> waker -> bool.
Hypothesis WW : will_wake_ok ww.
Variable K : Type.
Variable keqb : K -> K -> bool.
Hypothesis keqb_ok : forall a b, keqb a b = true <-> a = b.
Variable H : list (seg K) -> N.
Notation S_ := (seg K).
Notation sstate := (sstate K).
Notation tr s := (w_tr (seg K) (sx K s)).
Notation sexec := (sexec ww K keqb H).
Notation srun := (srun ww K keqb H).
Notation xexec := (Xbow.exec ww (seg K) H).
Notation xexecs := (Xbow.execs ww (seg K) H).
Notation world := (Xbow.world (seg K)).
Notation borrow := (path_borrow K keqb).

(** one operation of the wakers: what is new in the trace *)
Lemma exec_new_tr w A o w' : WI S_ H w A -> xexec w o = Some w' -> exists n A', WI S_ H w' A' /\ w_tr _ w' = n ++ w_tr _ w /\
  forall f p b wk q, live _ f p b (w_tr _ w) -> last_waker _ f (w_tr _ w) = Some wk -> In (TNotify _ q) n -> affects _ q p b ->
    exists wk', In (TWake _ wk') n /\ w_task wk' = w_task wk.
Proof.
  intros W E. destruct o as [q b|i wk|i|q].
  - destruct (exec_new ww S_ H _ _ q b W) as (w1 & A' & E1 & W' & T). rewrite E in E1. injection E1 as <-. exists [TNew _ (w_next _ w) q b], A'.
    split; [exact W'|]. split; [exact T|]. intros f p b0 wk q' _ _ [[=]|[]].
  - destruct (exec_poll ww WW S_ H _ _ i wk W) as (w1 & A' & E1 & W' & C). rewrite E in E1. injection E1 as <-. destruct C as [(u & r & _ & _ & T & _)| ->].
    + exists [TPoll _ i wk r], A'. split; [exact W'|]. split; [exact T|]. intros f p b0 wk0 q' _ _ [[=]|[]].
    + exists [], A. split; [exact W|]. split; [reflexivity|]. intros f p b0 wk0 q' _ _ [].
  - destruct (exec_drop ww S_ H _ _ i W) as (w1 & A' & E1 & W' & C). rewrite E in E1. injection E1 as <-. destruct C as [T| ->].
    + exists [TDrop _ i], A'. split; [exact W'|]. split; [exact T|]. intros f p b0 wk0 q' _ _ [[=]|[]].
    + exists [], A. split; [exact W|]. split; [reflexivity|]. intros f p b0 wk0 q' _ _ [].
  - destruct (exec_ok ww WW S_ H w A (ONotify _ q) W) as (w1 & A' & E1 & W'). rewrite E in E1. injection E1 as <-.
    destruct (notify_wakes ww S_ H w A q W) as (w2 & ws & E2 & T & WK & _). rewrite E in E2. injection E2 as <-.
    exists (rev (map (TWake _) ws) ++ [TNotify _ q]), A'. split; [exact W'|]. split; [rewrite <- app_assoc; exact T|].
    intros f p b wk q' L LW IN C. assert (q' = q) as ->.
    { apply in_app_iff in IN as [IN|[IN|[]]]; [|congruence]. apply in_rev, in_map_iff in IN as (? & [=] & _). }
    destruct (affects_hit S_ H q p b C) as (k & K1 & K2). destruct (WK f p b k wk L K1 K2 LW) as (wk' & IW & ST). exists wk'. split; [|exact ST].
    apply in_app_iff. left. apply -> in_rev. apply in_map, IW.
Qed.
(** a sequence of them, that does not poll stream [f] *)
Lemma execs_wakes l : forall w A w', WI S_ H w A -> xexecs w l = Some w' -> exists n, w_tr _ w' = n ++ w_tr _ w /\
  forall f p b wk, live _ f p b (w_tr _ w) -> last_waker _ f (w_tr _ w) = Some wk -> (forall wk0 r, ~ In (TPoll _ f wk0 r) n) ->
  forall q, In (TNotify _ q) n -> affects _ q p b -> In (TDrop _ f) n \/ exists wk', In (TWake _ wk') n /\ w_task wk' = w_task wk.
Proof.
  induction l as [|o l IH]; intros w A w' W E; cbn [execs] in E.
  - injection E as <-. exists []. split; [reflexivity|]. intros f p b wk _ _ _ q [].
  - destruct (xexec w o) as [w1|] eqn:E1; [|discriminate]. destruct (exec_new_tr w A o w1 W E1) as (n1 & A1 & W1 & T1 & Q1).
    destruct (IH w1 A1 w' W1 E) as (n2 & T2 & Q2). exists (n2 ++ n1). split; [rewrite T2, T1, app_assoc; reflexivity|].
    intros f p b wk L LW NP q IN C.
    assert (NP1 : forall wk0 r, ~ In (TPoll _ f wk0 r) n1) by (intros wk0 r I; apply (NP wk0 r), in_app_iff; auto).
    assert (NP2 : forall wk0 r, ~ In (TPoll _ f wk0 r) n2) by (intros wk0 r I; apply (NP wk0 r), in_app_iff; auto).
    apply in_app_iff in IN as [IN|IN].
    + destruct (existsb (fun e => match e with TDrop _ i => i =? f | _ => false end) n1) eqn:D.
      * left. apply existsb_exists in D as (e & I & Q). destruct e; try discriminate. apply Nat.eqb_eq in Q. subst. apply in_app_iff. auto.
      * assert (L1 : live _ f p b (w_tr _ w1)).
        { destruct L as (L & ND). rewrite T1. split; [apply in_app_iff; auto|]. intro I. apply in_app_iff in I as [I|I]; [|auto].
          assert (existsb (fun e => match e with TDrop _ i => i =? f | _ => false end) n1 = true); [|congruence]. apply existsb_exists. exists (TDrop _ f). split; auto. apply Nat.eqb_refl. }
        assert (LW1 : last_waker _ f (w_tr _ w1) = Some wk) by (rewrite T1; destruct (Xbow_run_proofs.since_app S_ f n1 (w_tr _ w) NP1) as (_ & ->); exact LW).
        destruct (Q2 f p b wk L1 LW1 NP2 q IN C) as [D'|(wk' & I & TK)]; [left; apply in_app_iff; auto|right; exists wk'; split; [apply in_app_iff; auto|exact TK]].
    + destruct (Q1 f p b wk q L LW IN C) as (wk' & I & TK). right. exists wk'. split; [apply in_app_iff; auto|exact TK].
Qed.

(** the data at a path that is not changed silently changes only with a notification *)
Lemma exec_data s o s' pa : INV K H s -> VIS K keqb pa s -> visible K pa o -> sexec s o = Some s' -> exists n, tr s' = n ++ tr s /\
  (borrow pa (sd K s') = borrow pa (sd K s) \/ exists q, In (TNotify _ q) n /\ contains _ q pa).
Proof.
  intros I V VO E. pose proof (i_gi _ _ _ I) as G.
  assert (SD : sd K s' = sd K s -> exists n, tr s' = n ++ tr s /\ (borrow pa (sd K s') = borrow pa (sd K s) \/ exists q, In (TNotify _ q) n /\ contains _ q pa)).
  { intro Q. destruct (ext_exec ww K keqb H s o s' E) as (n & T & _). exists n. split; [exact T|]. rewrite Q. auto. }
  destruct o as [a|o|k p|h wk e|h]; cbn [XbowStore.sexec] in E.
  - destruct (act_ok ww K keqb keqb_ok H s a G) as (s1 & t1 & E1 & _ & _ & _ & T & _ & _ & _ & _ & B). rewrite E in E1. injection E1 as <-.
    exists t1. split; [exact T|]. apply B. exact VO.
  - apply SD. destruct o as [p b|i wk|i|q].
    + destruct (xexec (sx K s) _); [|discriminate]. injection E as <-. reflexivity.
    + destruct (is_helper K i (sh K s)); [injection E as <-; reflexivity|]. destruct (xexec (sx K s) _); [|discriminate]. injection E as <-. reflexivity.
    + destruct (is_helper K i (sh K s)); [injection E as <-; reflexivity|]. destruct (xexec (sx K s) _); [|discriminate]. injection E as <-. reflexivity.
    + injection E as <-. reflexivity.
  - apply SD. destruct (xexec (sx K s) _); [|discriminate]. injection E as <-. reflexivity.
  - destruct (find_helper K h (sh K s)) as [x|] eqn:F; [|injection E as <-; apply SD; reflexivity]. apply find_helper_some in F as (Hx & ID).
    assert (G0 : GI K H (emit K s (EPoll K h wk))) by (apply gi_emit, G).
    destruct (spoll_ok ww WW K keqb keqb_ok H (emit K s (EPoll K h wk)) x wk e G0 Hx) as (s1 & E1 & (_ & _ & _ & (t1 & T & _ & _ & B) & _)).
    rewrite E in E1. injection E1 as <-. exists t1. split; [exact T|]. apply B. split; [exact VO|]. apply (v_bind _ _ _ _ V _ Hx).
  - apply SD. destruct (find_helper K h (sh K s)) as [x|]; [|injection E as <-; reflexivity]. destruct (xexec (sx K s) _); [|discriminate]. injection E as <-.
    destruct (h_fut K x); reflexivity.
Qed.

(** ** one thing: stream [f] of path [pa]; [v]: what is shown; [k]: the task of the block that polls it *)
Definition okx (f : nat) (pa : list (seg K)) (v : option (val K)) (s : sstate) : Prop :=
  In (TNew _ f pa false) (tr s) /\ (In (TDrop _ f) (tr s) \/ v = borrow pa (sd K s)).
Definition regx (k : nat) (f : nat) (pa : list (seg K)) (v : option (val K)) (s : sstate) : Prop :=
  In (TNew _ f pa false) (tr s) /\ (In (TDrop _ f) (tr s) \/
    (exists wk, last_waker _ f (tr s) = Some wk /\ w_task wk = Some k) /\ (v = borrow pa (sd K s) \/ changed K f pa (tr s))).
Variables (d : val K) (pa : nat -> list (seg K)).
Definition JX (s : sstate) : Prop := exists ops, srun d ops = Some s /\ Forall (fun o => forall i, visible K (pa i) o) ops.
Lemma jx_inv s : JX s -> INV K H s /\ forall i, VIS K keqb (pa i) s.
Proof.
  intros (ops & R & F). destruct (run_inv ww WW K keqb keqb_ok H d ops) as (s1 & R1 & I & V). rewrite R in R1. injection R1 as <-. split; [exact I|].
  intro i. apply V. eapply Forall_impl; [|exact F]. auto.
Qed.
Lemma jx_step s o s' : JX s -> (forall i, visible K (pa i) o) -> sexec s o = Some s' -> JX s'.
Proof.
  intros (ops & R & V) VO E. exists (ops ++ [o]). split; [|apply Forall_app; auto].
  unfold XbowStore.srun in *. rewrite sexecs_app, R. cbn. rewrite E. reflexivity.
Qed.
Lemma jx_uses (ok : sop K -> Prop) s l s' : (forall o, ok o -> forall i, visible K (pa i) o) -> store_uses ww K keqb H ok s l s' -> JX s -> JX s'.
Proof. intros OK. induction 1 as [|s l o s1 s' O E W U IH]; auto. intro J. apply IH. eapply jx_step; eauto. Qed.

Lemma last_since f (t : list (ev S_)) wk : last_waker S_ f t = Some wk -> exists dd, since_poll S_ f t = Some dd.
Proof.
  induction t as [|e t IH]; cbn; [discriminate|]. destruct e as [| i | | |]; try (intro Q; destruct (IH Q) as (dd & ->); eauto; fail).
  destruct (i =? f); [eauto|]. intro Q; destruct (IH Q) as (dd & ->); eauto.
Qed.
(** one call of other code *)
Lemma stepx_other s o s' l u q f i v : JX s -> (forall j, visible K (pa j) o) -> ~ polls_helper K f o -> sexec s o = Some s' -> store_wakes K s s' l ->
  regx (block_task u q) f (pa i) v s -> regx (block_task u q) f (pa i) v s' /\ (okx f (pa i) v s -> okx f (pa i) v s' \/ In (GWake u q) l).
Proof.
  intros J VO NP E (n & T & WK) (C & R). destruct (jx_inv s J) as (I & V). unfold regx, okx.
  assert (C' : In (TNew _ f (pa i) false) (tr s')) by (rewrite T; apply in_app_iff; auto).
  assert (TD : In (TDrop _ f) (tr s) -> In (TDrop _ f) (tr s')) by (intro Q; rewrite T; apply in_app_iff; auto).
  destruct R as [R|((wk & LW & TK) & R)]; [split; [auto|left; auto]|].
  assert (NN : forall wk r, ~ In (TPoll _ f wk r) n).
  { destruct (ext_exec ww K keqb H s o s' E) as (n' & T' & NPO). rewrite T in T'. apply app_inv_tail in T'. subst n'.
    intros wk0 r IN. apply NP. destruct (NPO f wk0 r IN) as [(e & ->)| ->]; [left|right]; eauto. }
  destruct (Xbow_run_proofs.since_app S_ f n (tr s) NN) as (SA & LA). rewrite <- T in SA, LA.
  destruct (exec_data s o s' (pa i) I (V i) (VO i) E) as (n' & T' & B). rewrite T in T'. apply app_inv_tail in T'. subst n'.
  destruct (last_since _ _ _ LW) as (dd & SD). rewrite SD in SA.
  split.
  - split; [exact C'|]. right. rewrite LA. split; [eauto|]. destruct B as [B|(q' & IN & CO)].
    + rewrite B. destruct R as [R|(d1 & q' & S1 & IN & CO)]; [auto|]. right. exists (n ++ dd), q'. split; [exact SA|]. split; [|exact CO]. apply in_app_iff. right. congruence.
    + right. exists (n ++ dd), q'. split; [exact SA|]. split; [|exact CO]. apply in_app_iff. auto.
  - intros (_ & [D|D]); [left; auto|]. destruct B as [B|(q' & IN & CO)]; [left; split; [exact C'|right; congruence]|].
    destruct (existsb (fun e => match e with TDrop _ j => j =? f | _ => false end) (tr s)) eqn:ED.
    + left. split; [exact C'|left]. apply TD. apply existsb_exists in ED as (e & Q1 & Q2). destruct e; try discriminate. apply Nat.eqb_eq in Q2. subst. exact Q1.
    + destruct (g_w _ _ _ (i_gi _ _ _ I)) as (A & W). destruct (ws_exec ww K keqb H _ _ _ E) as (ol & EL & _).
      destruct (execs_wakes ol (sx K s) A (sx K s') W EL) as (n' & T' & Q). rewrite T in T'. apply app_inv_tail in T'. subst n'.
      assert (L : live _ f (pa i) false (tr s)).
      { split; [exact C|]. intro Q'. assert (existsb (fun e => match e with TDrop _ j => j =? f | _ => false end) (tr s) = true); [|congruence].
        apply existsb_exists. exists (TDrop _ f). split; auto. apply Nat.eqb_refl. }
      destruct (Q f (pa i) false wk L LW NN q' IN CO) as [DR|(wk' & IW & TW)].
      * left. split; [exact C'|left]. rewrite T. apply in_app_iff. auto.
      * right. eapply WK; eauto. congruence.
Qed.
Lemma usesx_other (ok : sop K -> Prop) s l s' u q f i v : (forall o, ok o -> (forall j, visible K (pa j) o) /\ ~ polls_helper K f o) ->
  store_uses ww K keqb H ok s l s' -> JX s ->
  regx (block_task u q) f (pa i) v s -> regx (block_task u q) f (pa i) v s' /\ (okx f (pa i) v s -> okx f (pa i) v s' \/ In (GWake u q) l).
Proof.
  intros OK. induction 1 as [s l|s l o s1 s' O E W U IH]; intros J R; auto. destruct (OK o O) as (O1 & O2).
  destruct (stepx_other s o s1 l u q f i v J O1 O2 E W R) as (R1 & K1). destruct (IH (jx_step _ _ _ J O1 E) R1) as (R2 & K2).
  split; auto. intro Q. destruct (K1 Q); auto.
Qed.
(** the poll of a stream *)
Lemma pollx_data s f wk s' : sexec s (SStream K (OPoll _ f wk)) = Some s' -> sd K s' = sd K s.
Proof. cbn [XbowStore.sexec]. destruct (is_helper K f (sh K s)); [intros [= <-]; reflexivity|]. destruct (xexec (sx K s) _); [|discriminate]. intros [= <-]. reflexivity. Qed.
Lemma pollx_self s f i wk s' u q v : JX s -> sexec s (SStream K (OPoll _ f wk)) = Some s' -> tr s' = TPoll _ f wk false :: tr s -> w_task wk = Some (block_task u q) ->
  okx f (pa i) v s \/ regx (block_task u q) f (pa i) v s -> regx (block_task u q) f (pa i) v s' /\ okx f (pa i) v s'.
Proof.
  intros J E T TK OR. unfold okx, regx in *. rewrite T, (pollx_data _ _ _ _ E).
  assert (C : In (TNew _ f (pa i) false) (tr s)) by tauto.
  destruct (existsb (fun e => match e with TDrop _ j => j =? f | _ => false end) (tr s)) eqn:ED.
  { apply existsb_exists in ED as (e & Q1 & Q2). destruct e; try discriminate. apply Nat.eqb_eq in Q2. subst. split; (split; [right; exact C|left; right; exact Q1]). }
  assert (ND : ~ In (TDrop _ f) (tr s)).
  { intro Q'. assert (existsb (fun e => match e with TDrop _ j => j =? f | _ => false end) (tr s) = true); [|congruence]. apply existsb_exists. exists (TDrop _ f). split; auto. apply Nat.eqb_refl. }
  assert (V : v = borrow (pa i) (sd K s)).
  { assert (NC : ~ changed K f (pa i) (tr s)).
    { intros (dd & q' & SD & IN & CO). destruct (jx_inv s J) as (I & _). destruct (g_w _ _ _ (i_gi _ _ _ I)) as (A & W).
      destruct (poll_live ww WW S_ H (sx K s) A f (pa i) false wk W (conj C ND)) as (w' & r & E1 & T1 & R). cbn [XbowStore.sexec] in E.
      destruct (is_helper K f (sh K s)); [injection E as <-; exfalso; apply (f_equal (@length _)) in T; cbn in T; lia|]. rewrite E1 in E. injection E as <-. cbn [sx with_x] in T. rewrite T1 in T. injection T as ->.
      assert (false = true); [|discriminate]. apply R. destruct (affects_hit S_ H q' (pa i) false CO) as (k & K1 & K2). eauto 8. }
    tauto. }
  cbn. rewrite Nat.eqb_refl. split; (split; [auto|right]); auto. split; eauto.
Qed.
Lemma pollx_other s f wk s' r u q f' i v : sexec s (SStream K (OPoll _ f wk)) = Some s' -> tr s' = TPoll _ f wk r :: tr s -> f <> f' ->
  (okx f' (pa i) v s -> okx f' (pa i) v s') /\ (regx (block_task u q) f' (pa i) v s -> regx (block_task u q) f' (pa i) v s').
Proof.
  intros E T N. unfold okx, regx, changed. rewrite T, (pollx_data _ _ _ _ E). cbn [last_waker]. rewrite since_snoc by (intros ? ? [= Q _ _]; congruence).
  apply Nat.eqb_neq in N. rewrite N. split.
  - intros (C & D). split; [right; exact C|]. destruct D; [left; right; auto|auto].
  - intros (C & D). split; [right; exact C|]. destruct D as [D|(W & D)]; [left; right; auto|right]. split; [exact W|]. destruct D as [D|(dd & q' & SD & IN & CO)]; [auto|].
    right. rewrite SD. eexists. exists q'. split; [reflexivity|]. split; [right; exact IN|exact CO].
Qed.

Lemma paths_watches {V X} (st : X -> sstate) seen strm mine t p (code : nat -> X -> place -> option V -> X * list gact * next V) on_drop evs :
  paths_view ww K keqb H d st seen strm pa mine t p code on_drop evs ->
  watches (fun x => JX (st x) /\ forall i j f, strm x i = Some f -> strm x j = Some f -> i = j)
    (fun i x => exists f, strm x i = Some f /\ okx f (pa i) (seen x i) (st x))
    (fun i q x => exists f, strm x i = Some f /\ regx (block_task t q) f (pa i) (seen x i) (st x)) mine t p code on_drop evs.
Proof.
  intros (A & B & C & D & E).
  assert (O : forall x l x', (JX (st x) /\ forall i j f, strm x i = Some f -> strm x j = Some f -> i = j) ->
    store_uses ww K keqb H (fun o => (forall i, visible K (pa i) o) /\ forall i f, strm x i = Some f -> ~ polls_helper K f o) (st x) l (st x') /\
    (forall i, seen x' i = seen x i) /\ (forall i, strm x' i = strm x i) ->
    (JX (st x') /\ forall i j f, strm x' i = Some f -> strm x' j = Some f -> i = j) /\
    forall i q, (exists f, strm x i = Some f /\ regx (block_task t q) f (pa i) (seen x i) (st x)) ->
      (exists f, strm x' i = Some f /\ regx (block_task t q) f (pa i) (seen x' i) (st x')) /\
      ((exists f, strm x i = Some f /\ okx f (pa i) (seen x i) (st x)) -> (exists f, strm x' i = Some f /\ okx f (pa i) (seen x' i) (st x')) \/ In (GWake t q) l)).
  { intros x l x' (J & DI) (U & SE & SF). split.
    - split; [eapply jx_uses; [|exact U|exact J]; cbn; tauto|]. intros i j f. rewrite !SF. apply DI.
    - intros i q (f & F & R). rewrite SF, SE, F.
      destruct (usesx_other _ (st x) l (st x') t q f i (seen x i) (fun o Q => conj (proj1 Q) (proj2 Q i f F)) U J R) as (R1 & K1).
      split; [eauto|]. intros (f' & F' & K2). injection F' as <-. destruct (K1 K2); eauto. }
  split; [|split; [|split; [|split]]].
  - intros x got x' l nx J X0. destruct (A x got x' l nx J X0) as [->|(U & DI & KK)]; auto. right. split; [split; [|exact DI]; eapply jx_uses; [|exact U|exact (proj1 J)]; auto|].
    intros k b m NX i L. destruct (KK k b m NX i L) as (f & F & (CR & _) & S). exists f. split; [exact F|]. split; auto.
  - intros n i x got x' l nx M J X0. destruct (B n i x got x' l nx M J X0) as [->|(f & wk & r & F & TK & SX & TR & SE & SF & NX)]; auto. right. destruct J as (J & DI).
    split; [split; [eapply jx_step; [exact J| |exact SX]; cbn; auto|intros i' j' f'; rewrite !SF; apply DI]|split; [|split]].
    + intros k b m ->. destruct r; [destruct NX|]; discriminate.
    + intros j Q. rewrite SE, SF.
      assert (N : forall f', strm x j = Some f' -> f <> f') by (intros f' F' ->; apply Q; eapply DI; eauto). split.
      * intros (f' & F' & K1). exists f'. split; [exact F'|]. apply (pollx_other _ _ _ _ _ t p f' j (seen x j) SX TR (N f' F')). exact K1.
      * intros q (f' & F' & K1). exists f'. split; [exact F'|]. apply (pollx_other _ _ _ _ _ t q f' j (seen x j) SX TR (N f' F')). exact K1.
    + intros OR ->. destruct r; [destruct NX; discriminate|].
      rewrite SE, SF, F. destruct (pollx_self (st x) f i wk (st x') t (Kid n i) (seen x i) J SX TR TK) as (R1 & O1); [|split; [|left]; exists f; auto].
      destruct OR as [(f' & F' & Q)|(f' & F' & Q)]; rewrite F in F'; injection F' as <-; auto.
  - intros u x q got x' l nx N J X0. destruct (C u x q got x' l nx N J X0) as [->|U]; auto.
  - intros u x x' l J X0. apply O; auto. eapply D; eauto.
  - intros f x x' l IN J X0. apply O; auto. eapply E; eauto.
Qed.
End Stores.
