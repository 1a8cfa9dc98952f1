(** Proofs for C80: a view of an x-bow store that waits for changes of and inside paths. *)
From Coq Require Import List Arith Bool Lia NArith Cantor.
From Verif Require Import Util Arena Spec_arena Combinator Tree Page Xbow Spec_xbow Xbow_proofs Xbow_run_proofs XbowData XbowData_proofs XbowStore Spec_store XbowStore_proofs XbowStore_run_proofs
  Spec_view Spec_store_view View_store_proofs Spec_watch Watch_store_proofs Spec_store_listen.
Import ListNotations.

Section Stores.
Variable ww : waker -> waker -> bool.
Hypothesis WW : will_wake_ok ww.
Variable K : Type.
Variable keqb : K -> K -> bool.
Hypothesis keqb_ok : forall a b, keqb a b = true <-> a = b.
Variable H : list (seg K) -> N.
Notation S_ := (seg K).
Notation sstate := (sstate K).
Notation tr s := (w_tr (seg K) (sx K s)).
Notation sexec := (sexec ww K keqb H).
Notation sexecs := (sexecs ww K keqb H).
Notation srun := (srun ww K keqb H).
Notation xexec := (Xbow.exec ww (seg K) H).
Notation borrow := (path_borrow K keqb).

(** ** the data at a path changes only with a notification of something that contains it or is in it *)
Definition dx (p : list S_) (s s' : sstate) : Prop := exists n, tr s' = n ++ tr s /\
  (borrow p (sd K s') = borrow p (sd K s) \/ exists q, In (TNotify _ q) n /\ (contains _ q p \/ contains _ p q)).
Lemma dx_refl p s : dx p s s. Proof. exists []. auto. Qed.
Lemma dx_trans p s s1 s2 : dx p s s1 -> dx p s1 s2 -> dx p s s2.
Proof.
  intros (n1 & E1 & D1) (n2 & E2 & D2). exists (n2 ++ n1). rewrite E2, E1, app_assoc. split; auto.
  destruct D1 as [D1|(q & I & C)]; [|right; exists q; split; [apply in_app_iff; auto|auto]].
  destruct D2 as [D2|(q & I & C)]; [left; congruence|right; exists q; split; [apply in_app_iff; auto|auto]].
Qed.
Lemma dx_same p s s' : (exists n, tr s' = n ++ tr s) -> sd K s' = sd K s -> dx p s s'.
Proof. intros (n & T) E. exists n. rewrite E. auto. Qed.
Lemma x_tr (w : Xbow.world S_) o w' : xexec w o = Some w' -> exists n, w_tr _ w' = n ++ w_tr _ w /\ forall q, o = ONotify _ q -> In (TNotify _ q) n.
Proof.
  intro E. destruct o as [q b|i wk|i|q]; unfold Xbow.exec in E.
  - destruct (add_slots _ _) as [[st l]|]; [|discriminate]. injection E as <-. eexists [_]. split; [reflexivity|discriminate].
  - destruct (find_stream _ _) as [u|]; [|injection E as <-; exists []; split; [reflexivity|discriminate]].
    destruct (poll_slots _ _ _ _) as [[st v]|]; [|discriminate]. injection E as <-. eexists [_]. split; [reflexivity|discriminate].
  - destruct (find_stream _ _) as [u|]; [|injection E as <-; exists []; split; [reflexivity|discriminate]].
    destruct (remove_slots _ _) as [st|]; [|discriminate]. injection E as <-. eexists [_]. split; [reflexivity|discriminate].
  - destruct (wake_entries _ _) as [[st ws]|]; [|discriminate]. injection E as <-. exists (rev (map (TWake _) ws) ++ [TNotify _ q]). split; [rewrite <- app_assoc; reflexivity|].
    intros q' [= <-]. apply in_app_iff. cbn. auto.
Qed.
Lemma dx_act p s a s' : act_loud K p a -> do_act ww K keqb H s a = Some s' -> dx p s s'.
Proof.
  intros L E. destruct a as [q u f|q u f|q]; cbn [XbowStore.do_act] in E.
  - destruct (path_borrow_mut K keqb u q (sd K s)) as [(x, k)|] eqn:B; [|injection E as <-; apply dx_refl].
    destruct (xexec (sx K s) (ONotify _ q)) as [w|] eqn:EX; [|discriminate]. injection E as <-. destruct (x_tr _ _ _ EX) as (n & T & IN). exists n. split; [exact T|].
    specialize (IN q eq_refl). destruct (contains_dec K keqb keqb_ok q p) as [C|C]; [right; eauto|]. destruct (contains_dec K keqb keqb_ok p q) as [C'|C']; [right; eauto|].
    left. cbn. eapply mut_elsewhere; eauto.
  - destruct (path_borrow_mut K keqb u q (sd K s)) as [(x, k)|] eqn:B; [|injection E as <-; apply dx_refl]. injection E as <-.
    exists []. split; [reflexivity|]. left. cbn. destruct L. eapply mut_elsewhere; eauto.
  - destruct (xexec (sx K s) (ONotify _ q)) as [w|] eqn:EX; [|discriminate]. injection E as <-. apply dx_same; [|reflexivity]. destruct (x_tr _ _ _ EX) as (n & T & _). eauto.
Qed.
Lemma dx_acts p l : forall s s', Forall (act_loud K p) l -> do_acts ww K keqb H s l = Some s' -> dx p s s'.
Proof.
  induction l as [|a l IH]; intros s s' F; cbn [XbowStore.do_acts]; [intros [= <-]; apply dx_refl|]. inversion F; subst.
  destruct (do_act ww K keqb H s a) as [s1|] eqn:E; [|discriminate]. intro E'. eapply dx_trans; [eapply dx_act; eauto|eauto].
Qed.
Lemma dx_stream p s h wk s' r : poll_stream ww K H s h wk = Some (s', r) -> dx p s s'.
Proof.
  unfold XbowStore.poll_stream. destruct (xexec (sx K s) (OPoll _ h wk)) as [w|] eqn:E; [|discriminate]. destruct (x_tr _ _ _ E) as (n & T & _).
  destruct (w_tr _ w) as [|[| | | |]] eqn:TW; try discriminate. intros [= <- _]. apply dx_same; [|reflexivity]. exists n. cbn. congruence.
Qed.
Lemma dx_to p s s1 s' : dx p s s1 -> sx K s' = sx K s1 -> sd K s' = sd K s1 -> dx p s s'.
Proof. intros (n & T & D) EX ED. exists n. rewrite EX, ED. auto. Qed.
Lemma dx_fut p s h o e s' : Forall (act_loud K p) (e_acts K e) -> run_fut ww K keqb H s h o e = Some s' -> dx p s s'.
Proof.
  intro F. unfold run_fut. destruct o as [n|]; [|intros [= <-]; apply dx_refl]. destruct (do_acts ww K keqb H (emit K s (EFutPoll K n)) (e_acts K e)) as [s1|] eqn:E; [|discriminate].
  apply (dx_acts p) in E; auto. intro Q. destruct (e_done K e); injection Q as <-; exact E.
Qed.
Lemma dx_each p s x wk s' : poll_each ww K keqb H s x wk = Some s' -> dx p s s'.
Proof.
  unfold poll_each. destruct (poll_stream ww K H s (h_id K x) wk) as [(s1, r)|] eqn:E; [|discriminate]. apply (dx_stream p) in E. intro Q.
  destruct (_ || _)%bool; [destruct (path_borrow _ _ _ _)|]; injection Q as <-; exact E.
Qed.
Lemma dx_exec p s o s' : loud K p o -> sexec s o = Some s' -> dx p s s'.
Proof.
  intros L E. destruct o as [a|o|k q|h wk e|h]; cbn [XbowStore.sexec] in E.
  - eapply dx_act; eauto.
  - assert (GO : forall w, xexec (sx K s) o = Some w -> dx p s (with_x K s w)).
    { intros w Q. apply dx_same; [|reflexivity]. destruct (x_tr _ _ _ Q) as (n & T & _). eauto. }
    destruct o as [q b|i wk|i|q].
    + destruct (xexec (sx K s) _) as [w|] eqn:EX; [|discriminate]. injection E as <-. apply GO. reflexivity.
    + destruct (is_helper K i (sh K s)); [injection E as <-; apply dx_refl|]. destruct (xexec (sx K s) _) as [w|] eqn:EX; [|discriminate]. injection E as <-. apply GO. reflexivity.
    + destruct (is_helper K i (sh K s)); [injection E as <-; apply dx_refl|]. destruct (xexec (sx K s) _) as [w|] eqn:EX; [|discriminate]. injection E as <-. apply GO. reflexivity.
    + injection E as <-. apply dx_refl.
  - destruct (xexec (sx K s) (ONew _ q false)) as [w|] eqn:EX; [|discriminate]. injection E as <-. apply dx_same; [|reflexivity]. destruct (x_tr _ _ _ EX) as (n & T & _). eauto.
  - destruct (find_helper K h (sh K s)) as [x|] eqn:F; [|injection E as <-; apply dx_refl].
    assert (D0 : dx p s (emit K s (EPoll K h wk))) by (apply dx_same; [exists []; reflexivity|reflexivity]). eapply dx_trans; [exact D0|]. clear D0.
    cbn [loud] in L. destruct (h_kind K x) as [| |fire|].
    + eapply dx_each; eauto.
    + unfold poll_async in E. destruct (poll_stream ww K H _ (h_id K x) wk) as [(s1, r)|] eqn:E1; [|discriminate]. apply (dx_stream p) in E1. eapply dx_trans; [exact E1|].
      destruct (_ || _)%bool; [destruct (path_borrow _ _ _ _)|]; apply (dx_fut p) in E; auto. destruct (h_fut K x); exact E.
    + unfold poll_signal in E. destruct (poll_stream ww K H _ (h_id K x) wk) as [(s1, r)|] eqn:E1; [|discriminate]. apply (dx_stream p) in E1.
      destruct (_ || _)%bool; injection E as <-; exact E1.
    + unfold poll_bind in E. destruct (do_acts ww K keqb H _ (e_acts K e)) as [sa|] eqn:EA; [|discriminate]. apply (dx_acts p) in EA; auto. eapply dx_trans; [exact EA|].
      destruct (take_ok K (h_id K x) (e_items K e) sa) as (D0 & X0 & _). cbv zeta in *. set (s0 := take_items K sa (h_id K x) (e_items K e)) in *.
      assert (D1 : dx p sa s0) by (apply dx_same; [exists []; rewrite X0; reflexivity|exact D0]). eapply dx_trans; [exact D1|]. clear D1.
      destruct (e_end K e); [injection E as <-; apply dx_same; [exists []|]; reflexivity|]. destruct (last_item K (e_items K e)) as [v|]; [|apply (dx_each p s0 x wk); auto].
      destruct (path_borrow_mut K keqb (e_uniq K e) (h_path K x) (sd K s0)) as [yk|]; [|injection E as <-; apply dx_same; [exists []|]; reflexivity].
      destruct (do_act ww K keqb H s0 _) as [s1|] eqn:E1; [|discriminate]. destruct (poll_stream ww K H _ (h_id K x) wk) as [(s2, r)|] eqn:E2; [|discriminate].
      apply (dx_act p) in E1; [|exact Logic.I]. eapply dx_trans; [exact E1|]. apply (dx_stream p) in E2.
      eapply dx_trans; [|apply (dx_each p s2 x wk); exact E]. exact E2.
  - destruct (find_helper K h (sh K s)) as [x|]; [|injection E as <-; apply dx_refl]. destruct (xexec (sx K s) (ODrop _ h)) as [w|] eqn:EX; [|discriminate]. injection E as <-.
    destruct (x_tr _ _ _ EX) as (n & T & _). apply dx_same; [exists n|]; destruct (h_fut K x); auto.
Qed.
Lemma dx_execs p ops : forall s s', Forall (loud K p) ops -> sexecs s ops = Some s' -> dx p s s'.
Proof.
  induction ops as [|o ops IH]; intros s s' F E; cbn [XbowStore.sexecs] in E; [injection E as <-; apply dx_refl|]. inversion F; subst.
  destruct (sexec s o) as [s1|] eqn:E1; [|discriminate]. eapply dx_trans; [eapply dx_exec; eauto|eauto].
Qed.

(** ** one stream *)
Variable allowed : sop K -> Prop.
Definition reach (sn s : sstate) : Prop := exists ops, Forall allowed ops /\ sexecs sn ops = Some s.
Definition untold (p : list S_) (b : bool) (sn s : sstate) : Prop := exists n, tr s = n ++ tr sn /\ forall q, In (TNotify _ q) n -> ~ affects _ q p b.
Definition okl (f : nat) (p : list S_) (b : bool) (sn s : sstate) : Prop :=
  In (TNew _ f p b) (tr s) /\ (In (TDrop _ f) (tr s) \/ reach sn s /\ untold p b sn s).
Definition told (f : nat) (p : list S_) (b : bool) (s : sstate) : Prop := exists dd q, since_poll _ f (tr s) = Some dd /\ In (TNotify _ q) dd /\ affects _ q p b.
Definition regl (k f : nat) (p : list S_) (b : bool) (sn s : sstate) : Prop :=
  In (TNew _ f p b) (tr s) /\ (In (TDrop _ f) (tr s) \/
    (exists wk, last_waker _ f (tr s) = Some wk /\ w_task wk = Some k) /\ reach sn s /\ (untold p b sn s \/ told f p b s)).
Variable d : val K.
Definition JL (s : sstate) : Prop := exists ops, srun d ops = Some s.
Lemma jl_wi s : JL s -> exists A, WI S_ H (sx K s) A.
Proof. intros (ops & R). destruct (run_inv ww WW K keqb keqb_ok H d ops) as (s1 & R1 & I & _). rewrite R in R1. injection R1 as <-. apply (g_w _ _ _ (i_gi _ _ _ I)). Qed.
Lemma jl_step s o s' : JL s -> sexec s o = Some s' -> JL s'.
Proof. intros (ops & R) E. exists (ops ++ [o]). unfold XbowStore.srun in *. rewrite sexecs_app, R. cbn. rewrite E. reflexivity. Qed.
Lemma jl_uses (ok : sop K -> Prop) s l s' : store_uses ww K keqb H ok s l s' -> JL s -> JL s'.
Proof. induction 1 as [|s l o s1 s' O E W U IH]; auto. intro J. apply IH. eapply jl_step; eauto. Qed.
Lemma reach_step sn s o s' : reach sn s -> allowed o -> sexec s o = Some s' -> reach sn s'.
Proof. intros (ops & F & R) A E. exists (ops ++ [o]). split; [apply Forall_app; auto|]. rewrite sexecs_app, R. cbn. rewrite E. reflexivity. Qed.
Lemma affects_dec q p b : {affects S_ q p b} + {~ affects S_ q p b}.
Proof. destruct b; cbn; apply (contains_dec K keqb keqb_ok). Qed.
Lemma notify_dec p b (n : list (ev S_)) : (exists q, In (TNotify _ q) n /\ affects _ q p b) \/ forall q, In (TNotify _ q) n -> ~ affects _ q p b.
Proof.
  induction n as [|e n IH]; [right; intros q []|]. destruct IH as [(q & I & A)|IH]; [left; exists q; cbn; auto|]. destruct e as [| | |q|]; try (right; intros q' [[=]|I]; auto; fail).
  destruct (affects_dec q p b) as [A|A]; [left; exists q; cbn; auto|]. right. intros q' [[= <-]|I]; auto.
Qed.
Lemma drop_dec f (t : list (ev S_)) : In (TDrop _ f) t \/ ~ In (TDrop _ f) t.
Proof.
  induction t as [|e t IH]; [right; intros []|]. destruct IH as [IH|IH]; [left; right; exact IH|]. destruct e as [| |g| |]; try (right; intros [[=]|I]; auto; fail).
  destruct (Nat.eq_dec g f) as [->|N]; [left; left; reflexivity|]. right. intros [[= Q]|I]; auto.
Qed.
(** one call of other code *)
Lemma stepl_other s o s' l u q f p b sn : JL s -> allowed o -> ~ polls_helper K f o -> sexec s o = Some s' -> store_wakes K s s' l ->
  regl (block_task u q) f p b sn s -> regl (block_task u q) f p b sn s' /\ (okl f p b sn s -> okl f p b sn s' \/ In (GWake u q) l).
Proof.
  intros J AL NP E (n & T & WK) (C & R). unfold regl, okl.
  assert (C' : In (TNew _ f p b) (tr s')) by (rewrite T; apply in_app_iff; auto).
  assert (TD : In (TDrop _ f) (tr s) -> In (TDrop _ f) (tr s')) by (intro Q; rewrite T; apply in_app_iff; auto).
  destruct R as [R|((wk & LW & TK) & RE & R)]; [split; [auto|left; auto]|]. pose proof (reach_step sn s o s' RE AL E) as RE'.
  assert (NN : forall wk r, ~ In (TPoll _ f wk r) n).
  { destruct (ext_exec ww K keqb H s o s' E) as (n' & T' & NPO). rewrite T in T'. apply app_inv_tail in T'. subst n'.
    intros wk0 r IN. apply NP. destruct (NPO f wk0 r IN) as [(e & ->)| ->]; [left|right]; eauto. }
  destruct (Xbow_run_proofs.since_app S_ f n (tr s) NN) as (SA & LA). rewrite <- T in SA, LA.
  destruct (last_since K f _ _ LW) as (dd & SD). rewrite SD in SA.
  assert (UT : (forall q, In (TNotify _ q) n -> ~ affects _ q p b) -> untold p b sn s -> untold p b sn s').
  { intros N (n0 & T0 & U0). exists (n ++ n0). split; [rewrite T, T0, app_assoc; reflexivity|]. intros q' IN. apply in_app_iff in IN as [IN|IN]; auto. }
  assert (TO : told f p b s -> told f p b s').
  { intros (d1 & q' & S1 & IN & CO). exists (n ++ dd), q'. split; [exact SA|]. split; [|exact CO]. apply in_app_iff. right. congruence. }
  destruct (notify_dec p b n) as [(q' & IN & CO)|NO].
  - split.
    + split; [exact C'|]. right. rewrite LA. split; [eauto|]. split; [exact RE'|]. right. exists (n ++ dd), q'. split; [exact SA|]. split; [|exact CO]. apply in_app_iff. auto.
    + intros _. destruct (drop_dec f (tr s)) as [DR|ND]; [left; auto|].
      destruct (jl_wi s J) as (A & W). destruct (ws_exec ww K keqb H _ _ _ E) as (ol & EL & _).
      destruct (execs_wakes ww WW K H ol (sx K s) A (sx K s') W EL) as (n' & T' & Q). rewrite T in T'. apply app_inv_tail in T'. subst n'.
      destruct (Q f p b wk (conj C ND) LW NN q' IN CO) as [DR|(wk' & IW & TW)].
      * left. split; [exact C'|left]. rewrite T. apply in_app_iff. auto.
      * right. eapply WK; eauto. congruence.
  - split.
    + split; [exact C'|]. right. rewrite LA. split; [eauto|]. split; [exact RE'|]. destruct R; auto.
    + intros (_ & [D|(_ & U)]); [left; auto|]. left. split; [exact C'|]. right. auto.
Qed.
Lemma usesl_other (ok : sop K -> Prop) s l s' u q f p b sn : (forall o, ok o -> allowed o /\ ~ polls_helper K f o) ->
  store_uses ww K keqb H ok s l s' -> JL s ->
  regl (block_task u q) f p b sn s -> regl (block_task u q) f p b sn s' /\ (okl f p b sn s -> okl f p b sn s' \/ In (GWake u q) l).
Proof.
  intros OK. induction 1 as [s l|s l o s1 s' O E W U IH]; intros J R; auto. destruct (OK o O) as (O1 & O2).
  destruct (stepl_other s o s1 l u q f p b sn J O1 O2 E W R) as (R1 & K1). destruct (IH (jl_step _ _ _ J E) R1) as (R2 & K2).
  split; auto. intro Q. destruct (K1 Q); auto.
Qed.
(** the poll of a stream *)
Lemma untold_poll s f wk r s' p b sn : tr s' = TPoll _ f wk r :: tr s -> untold p b sn s -> untold p b sn s'.
Proof. intros T (n & T0 & U). exists (TPoll _ f wk r :: n). rewrite T, T0. split; [reflexivity|]. intros q [[=]|I]; auto. Qed.
Lemma polll_self s f wk s' u q p b sn : JL s -> allowed (SStream K (OPoll _ f wk)) -> sexec s (SStream K (OPoll _ f wk)) = Some s' -> tr s' = TPoll _ f wk false :: tr s ->
  w_task wk = Some (block_task u q) ->
  okl f p b sn s \/ regl (block_task u q) f p b sn s -> regl (block_task u q) f p b sn s' /\ okl f p b sn s'.
Proof.
  intros J AL E T TK OR. unfold okl, regl in *. assert (C : In (TNew _ f p b) (tr s)) by tauto. rewrite T.
  destruct (drop_dec f (tr s)) as [DR|ND]; [split; (split; [right; exact C|left; right; exact DR])|].
  assert (NC : ~ told f p b s).
  { intros (dd & q' & SD & IN & CO). destruct (jl_wi s J) as (A & W).
    destruct (poll_live ww WW S_ H (sx K s) A f p b wk W (conj C ND)) as (w' & r & E1 & T1 & R). cbn [XbowStore.sexec] in E.
    destruct (is_helper K f (sh K s)); [injection E as <-; exfalso; apply (f_equal (@length _)) in T; cbn in T; lia|]. rewrite E1 in E. injection E as <-. cbn [sx with_x] in T. rewrite T1 in T. injection T as ->.
    assert (false = true); [|discriminate]. apply R. destruct (affects_hit S_ H q' p b CO) as (k & K1 & K2). eauto 8. }
  assert (RE : reach sn s /\ untold p b sn s) by tauto. destruct RE as (RE & U). pose proof (reach_step _ _ _ _ RE AL E) as RE'. apply (untold_poll s f wk false s') in U; auto.
  cbn. rewrite Nat.eqb_refl. split; (split; [auto|right]); auto. split; eauto.
Qed.
Lemma polll_other s f wk s' r u q f' p b sn : allowed (SStream K (OPoll _ f wk)) -> sexec s (SStream K (OPoll _ f wk)) = Some s' -> tr s' = TPoll _ f wk r :: tr s -> f <> f' ->
  (okl f' p b sn s -> okl f' p b sn s') /\ (regl (block_task u q) f' p b sn s -> regl (block_task u q) f' p b sn s').
Proof.
  intros AL E T N. unfold okl, regl, told. rewrite T. cbn [last_waker]. rewrite since_snoc by (intros ? ? [= Q _ _]; congruence).
  apply Nat.eqb_neq in N. rewrite N. split.
  - intros (C & D). split; [right; exact C|]. destruct D as [D|(RE & U)]; [left; right; auto|right]. split; [eapply reach_step; eauto|eapply untold_poll; eauto].
  - intros (C & D). split; [right; exact C|]. destruct D as [D|(W & RE & D)]; [left; right; auto|right]. split; [exact W|]. split; [eapply reach_step; eauto|].
    destruct D as [D|(dd & q' & SD & IN & CO)]; [left; eapply untold_poll; eauto|].
    right. rewrite SD. eexists. exists q'. split; [reflexivity|]. split; [right; exact IN|exact CO].
Qed.

Lemma listens_watches {V X} (st snap : X -> sstate) strm pa bub mine t p (code : nat -> X -> place -> option V -> X * list gact * next V) on_drop evs :
  listens_view ww K keqb H allowed d st snap strm pa bub mine t p code on_drop evs ->
  watches (fun x => JL (st x) /\ forall i j f, strm x i = Some f -> strm x j = Some f -> i = j)
    (fun i x => exists f, strm x i = Some f /\ okl f (pa i) (bub i) (snap x) (st x))
    (fun i q x => exists f, strm x i = Some f /\ regl (block_task t q) f (pa i) (bub i) (snap x) (st x)) mine t p code on_drop evs.
Proof.
  intros (A & B & C & D & E).
  assert (O : forall x l x', (JL (st x) /\ forall i j f, strm x i = Some f -> strm x j = Some f -> i = j) ->
    store_uses ww K keqb H (fun o => allowed o /\ forall i f, strm x i = Some f -> ~ polls_helper K f o) (st x) l (st x') /\
    snap x' = snap x /\ (forall i, strm x' i = strm x i) ->
    (JL (st x') /\ forall i j f, strm x' i = Some f -> strm x' j = Some f -> i = j) /\
    forall i q, (exists f, strm x i = Some f /\ regl (block_task t q) f (pa i) (bub i) (snap x) (st x)) ->
      (exists f, strm x' i = Some f /\ regl (block_task t q) f (pa i) (bub i) (snap x') (st x')) /\
      ((exists f, strm x i = Some f /\ okl f (pa i) (bub i) (snap x) (st x)) -> (exists f, strm x' i = Some f /\ okl f (pa i) (bub i) (snap x') (st x')) \/ In (GWake t q) l)).
  { intros x l x' (J & DI) (U & SE & SF). split.
    - split; [eapply jl_uses; [exact U|exact J]|]. intros i j f. rewrite !SF. apply DI.
    - intros i q (f & F & R). rewrite SF, SE, F.
      destruct (usesl_other _ (st x) l (st x') t q f (pa i) (bub i) (snap x) (fun o Q => conj (proj1 Q) (proj2 Q i f F)) U J R) as (R1 & K1).
      split; [eauto|]. intros (f' & F' & K2). injection F' as <-. destruct (K1 K2); eauto. }
  split; [|split; [|split; [|split]]].
  - intros x got x' l nx J X0. destruct (A x got x' l nx J X0) as [->|(U & DI & KK)]; auto. right. split; [split; [|exact DI]; eapply jl_uses; [exact U|exact (proj1 J)]|].
    intros k b m NX i L. destruct (KK k b m NX) as (SN & Q). destruct (Q i L) as (f & F & (CR & _)). exists f. split; [exact F|]. split; [exact CR|right]. rewrite SN. split; [exists []; split; [constructor|reflexivity]|].
    exists []. split; [reflexivity|]. intros q [].
  - intros n i x got x' l nx M J X0. destruct (B n i x got x' l nx M J X0) as [->|(f & wk & r & F & TK & AL & SX & TR & SE & SF & NX)]; auto. right. destruct J as (J & DI).
    split; [split; [eapply jl_step; [exact J|exact SX]|intros i' j' f'; rewrite !SF; apply DI]|split; [|split]].
    + intros k b m ->. destruct r; [destruct NX|]; discriminate.
    + intros j Q. rewrite SE, SF.
      assert (N : forall f', strm x j = Some f' -> f <> f') by (intros f' F' ->; apply Q; eapply DI; eauto). split.
      * intros (f' & F' & K1). exists f'. split; [exact F'|]. apply (polll_other _ _ _ _ _ t p f' (pa j) (bub j) (snap x) AL SX TR (N f' F')). exact K1.
      * intros q (f' & F' & K1). exists f'. split; [exact F'|]. apply (polll_other _ _ _ _ _ t q f' (pa j) (bub j) (snap x) AL SX TR (N f' F')). exact K1.
    + intros OR ->. destruct r; [destruct NX; discriminate|].
      rewrite SE, SF, F. destruct (polll_self (st x) f wk (st x') t (Kid n i) (pa i) (bub i) (snap x) J AL SX TR TK) as (R1 & O1); [|split; [|left]; exists f; auto].
      destruct OR as [(f' & F' & Q)|(f' & F' & Q)]; rewrite F in F'; injection F' as <-; auto.
  - intros u x q got x' l nx N J X0. destruct (C u x q got x' l nx N J X0) as [->|U]; auto.
  - intros u x x' l J X0. apply O; auto. eapply D; eauto.
  - intros f x x' l IN J X0. apply O; auto. eapply E; eauto.
Qed.
End Stores.
