(** Proofs for C26 and C27. *)
From Coq Require Import List Arith Bool Lia.
From Verif Require Import Arena Spec_arena Slot Spec_slot.
Import ListNotations.

Section Proofs.
Variable ww : waker -> waker -> bool.
Hypothesis WW : will_wake_ok ww.
Variable X : Type.
Variable poll : X -> nat -> waker -> X * list act * bool.
Variable dropf : X -> nat -> X * list act.
Notation st := (st X).
Notation tr := (tr X). Notation msg := (msg X). Notation shown := (shown X). Notation chan := (chan X).
Notation alive := (alive X). Notation next := (next X).

Definition held (m : message) (sh : option nat) (f : nat) : bool :=
  match m with MSet g => g =? f | _ => false end || match sh with Some g => g =? f | None => false end.

Record SI (s : st) : Prop := {
  si_cur : alive s = true -> current (tr s) = match msg s with MSet f => Some f | MClear => None | MNoChange => shown s end;
  si_drops : forall f, drops f (tr s) = if f <? next s then (if held (msg s) (shown s) f then 0 else 1) else 0;
  si_msg : forall f, msg s = MSet f -> f < next s;
  si_shown : forall f, shown s = Some f -> f < next s;
  si_diff : forall f, shown s = Some f -> msg s <> MSet f;
  si_set : forall f, In (TSet f) (tr s) <-> f < next s;
  si_wk : match last_poll (tr s) with Some w => same_task (chan s) w | None => True end;
  si_owed : owed (tr s) = false;
  si_ok : always step_ok (tr s);
  si_dead : alive s = false -> shown s = None;
  si_gone : exists_slot X s = false -> alive s = false /\ msg s = MNoChange }.

Lemma init_SI x : SI (init X x).
Proof. split; cbn; try discriminate; auto. intro f; split; [contradiction|lia]. Qed.

(** what calls of set_future and clear_future leave alone *)
Definition ext (s s' : st) : Prop :=
  (exists evs, tr s' = evs ++ tr s /\ polled evs = [] /\ (forall f, In (TSet f) evs -> next s <= f)) /\ alive s' = alive s /\ shown s' = shown s /\
  next s <= next s' /\ (forall f, f < next s -> msg s' = MSet f -> msg s = MSet f) /\ exists_slot X s' = exists_slot X s.
Lemma ext_refl s : ext s s.
Proof. split; [exists []; split; auto; split; auto; contradiction|]. split; auto. Qed.
Lemma polled_app a b : polled (a ++ b) = polled a ++ polled b.
Proof. induction a as [|e a IH]; [reflexivity|]. destruct e; cbn; try rewrite IH; reflexivity. Qed.
Lemma ext_trans a b c : ext a b -> ext b c -> ext a c.
Proof.
  intros ((e1 & A1 & B1 & R1) & C1 & D1 & E1 & F1 & G1) ((e2 & A2 & B2 & R2) & C2 & D2 & E2 & F2 & G2). split.
  - exists (e2 ++ e1). rewrite A2, A1, polled_app, B1, B2. split; [rewrite app_assoc; reflexivity|]. split; [reflexivity|].
    intros f H. apply in_app_iff in H as [H|H]; [apply R2 in H; lia|auto].
  - split; [congruence|]. split; [congruence|]. split; [lia|]. split; [|congruence]. intros f L H. apply F1; [lia|]. apply F2; [lia|auto].
Qed.

Ltac nd := repeat match goal with
  | |- context [?a <? ?b] => destruct (Nat.ltb_spec a b)
  | |- context [?a <=? ?b] => destruct (Nat.leb_spec a b)
  | |- context [?a =? ?b] => destruct (Nat.eqb_spec a b)
  end; cbn [orb Nat.add]; try lia; try congruence.

Lemma act_ok s a s' : SI s -> exists_slot X s = true -> exec_act X dropf (Some s) a = Some s' -> SI s' /\ ext s s'.
Proof.
  intros I EX H. destruct I as [CU DR M SH DI SE WK OW OK DE GO]. destruct a; cbn in H.
  - unfold set_future in H. cbn [drop_msg] in H. unfold drop_msg in H. cbn [Slot.msg] in H.
    destruct (msg s) as [g| |] eqn:EM.
    + unfold drop_borrowed in H. cbn [xs] in H. destruct (dropf (xs X s) g) as [x [|a l]]; [|discriminate]. cbn in H. injection H as <-.
      split.
      * split; cbn [Slot.tr emit set_msg set_x Slot.alive Slot.msg Slot.shown Slot.chan Slot.next Slot.exists_slot xs]; try exact DE; try (rewrite EX; discriminate).
        -- reflexivity.
        -- intro f. cbn [drops]. rewrite DR. specialize (DI f). specialize (SH f). specialize (M g eq_refl).
           unfold held. destruct (shown s) as [h|]; nd; try (subst; exfalso; apply DI; reflexivity); try (subst; specialize (SH eq_refl); lia).
        -- intros f [=<-]. lia.
        -- intros f E. specialize (SH f E). lia.
        -- intros f E [=<-]. specialize (SH _ E). lia.
        -- intro f. cbn. rewrite SE. split; [intros [?|[?|[[=]|?]]]; try discriminate; lia|]. intro. destruct (Nat.eq_dec (next s) f); [subst; auto|]. do 3 right. lia.
        -- cbn. exact WK.
        -- reflexivity.
        -- cbn. unfold step_ok. cbn. rewrite OW. auto.
      * split; cbn; [exists [TWake (chan s); TDrop g; TSet (next s)]; split; [reflexivity|split; [reflexivity|intros f [Q|[Q|[Q|[]]]]; try discriminate; injection Q as <-; auto]]|].
        split; auto. split; auto. split; [lia|]. split; auto. intros f L [=<-]. lia.
    + cbn in H. injection H as <-. split.
      * split; cbn [Slot.tr emit set_msg set_x Slot.alive Slot.msg Slot.shown Slot.chan Slot.next Slot.exists_slot xs]; try exact DE; try (rewrite EX; discriminate).
        -- reflexivity.
        -- intro f. cbn [drops]. rewrite DR. specialize (SH f). 
           unfold held. destruct (shown s) as [h|]; nd; try (subst; specialize (SH eq_refl); lia).
        -- intros f [=<-]. lia.
        -- intros f E. specialize (SH f E). lia.
        -- intros f E [=<-]. specialize (SH _ E). lia.
        -- intro f. cbn. rewrite SE. split; [intros [?|[[=]|?]]; try discriminate; lia|]. intro. destruct (Nat.eq_dec (next s) f); [subst; auto|]. do 2 right. lia.
        -- cbn. exact WK.
        -- reflexivity.
        -- cbn. unfold step_ok. cbn. rewrite OW. auto.
      * split; cbn; [exists [TWake (chan s); TSet (next s)]; split; [reflexivity|split; [reflexivity|intros f [Q|[Q|[]]]; try discriminate; injection Q as <-; auto]]|].
        split; auto. split; auto. split; [lia|]. split; auto. intros f L [=<-]. lia.
    + cbn in H. injection H as <-. split.
      * split; cbn [Slot.tr emit set_msg set_x Slot.alive Slot.msg Slot.shown Slot.chan Slot.next Slot.exists_slot xs]; try exact DE; try (rewrite EX; discriminate).
        -- reflexivity.
        -- intro f. cbn [drops]. rewrite DR. specialize (SH f). 
           unfold held. destruct (shown s) as [h|]; nd; try (subst; specialize (SH eq_refl); lia).
        -- intros f [=<-]. lia.
        -- intros f E. specialize (SH f E). lia.
        -- intros f E [=<-]. specialize (SH _ E). lia.
        -- intro f. cbn. rewrite SE. split; [intros [?|[[=]|?]]; try discriminate; lia|]. intro. destruct (Nat.eq_dec (next s) f); [subst; auto|]. do 2 right. lia.
        -- cbn. exact WK.
        -- reflexivity.
        -- cbn. unfold step_ok. cbn. rewrite OW. auto.
      * split; cbn; [exists [TWake (chan s); TSet (next s)]; split; [reflexivity|split; [reflexivity|intros f [Q|[Q|[]]]; try discriminate; injection Q as <-; auto]]|].
        split; auto. split; auto. split; [lia|]. split; auto. intros f L [=<-]. lia.
  - unfold clear_future in H. unfold drop_msg in H. cbn [emit Slot.msg] in H.
    destruct (msg s) as [g| |] eqn:EM.
    + unfold drop_borrowed in H. cbn in H. destruct (dropf (xs X s) g) as [x [|a l]]; [|discriminate]. cbn in H. injection H as <-.
      split.
      * split; cbn [Slot.tr emit set_msg set_x Slot.alive Slot.msg Slot.shown Slot.chan Slot.next Slot.exists_slot xs]; try exact DE; try (rewrite EX; discriminate); try discriminate.
        -- reflexivity.
        -- intro f. cbn [drops]. rewrite DR. specialize (DI f). specialize (SH f). specialize (M g eq_refl).
           unfold held. destruct (shown s) as [h|]; nd; try (subst; exfalso; apply DI; reflexivity); try (subst; specialize (SH eq_refl); lia).
        -- intros f E. specialize (SH f E). lia.
        -- intro f. cbn. rewrite <- SE. intuition discriminate.
        -- cbn. exact WK.
        -- reflexivity.
        -- cbn. unfold step_ok. cbn. rewrite OW. auto.
      * split; cbn; [exists [TWake (chan s); TDrop g; TClear]; split; [reflexivity|split; [reflexivity|intros f [Q|[Q|[Q|[]]]]; try discriminate; injection Q as <-; auto]]|].
        split; auto. split; auto. split; [lia|]. split; auto. intros ? ? [=].
    + cbn in H. injection H as <-. split.
      * split; cbn [Slot.tr emit set_msg set_x Slot.alive Slot.msg Slot.shown Slot.chan Slot.next Slot.exists_slot xs]; try exact DE; try (rewrite EX; discriminate); try discriminate; auto.
        -- intro f. cbn. rewrite <- SE. intuition discriminate.
        -- cbn. unfold step_ok. cbn. rewrite OW. auto.
      * split; cbn; [exists [TWake (chan s); TClear]; split; [reflexivity|split; [reflexivity|intros f [Q|[Q|[]]]; try discriminate; injection Q as <-; auto]]|].
        split; auto. split; auto. split; [lia|]. split; auto. intros ? ? [=].
    + cbn in H. injection H as <-. split.
      * split; cbn [Slot.tr emit set_msg set_x Slot.alive Slot.msg Slot.shown Slot.chan Slot.next Slot.exists_slot xs]; try exact DE; try (rewrite EX; discriminate); try discriminate; auto.
        -- intro f. cbn. rewrite <- SE. intuition discriminate.
        -- cbn. unfold step_ok. cbn. rewrite OW. auto.
      * split; cbn; [exists [TWake (chan s); TClear]; split; [reflexivity|split; [reflexivity|intros f [Q|[Q|[]]]; try discriminate; injection Q as <-; auto]]|].
        split; auto. split; auto. split; [lia|]. split; auto. intros ? ? [=].
Qed.

Lemma acts_none l : fold_left (exec_act X dropf) l None = None.
Proof. induction l; auto. Qed.
Lemma acts_ok l : forall s s', SI s -> exists_slot X s = true -> fold_left (exec_act X dropf) l (Some s) = Some s' -> SI s' /\ ext s s'.
Proof.
  induction l as [|a l IH]; intros s s' I EX H; cbn [fold_left] in H.
  - injection H as <-. split; [auto|apply ext_refl].
  - destruct (exec_act X dropf (Some s) a) as [s1|] eqn:E; [|rewrite acts_none in H; discriminate].
    destruct (act_ok _ _ _ I EX E) as (I1 & X1). assert (EX1 : exists_slot X s1 = true) by (destruct X1 as (_ & _ & _ & _ & _ & ->); auto).
    destruct (IH _ _ I1 EX1 H) as (I2 & X2). split; [auto|eapply ext_trans; eauto].
Qed.

(** events that change nothing *)
Lemma emit_SI s e : SI s -> match e with TFut _ _ | TReady _ => True | _ => False end -> SI (emit X e s).
Proof.
  intros [CU DR M SH DI SE WK OW OK DE GO] E. destruct e; try contradiction;
  (split; cbn [emit Slot.tr Slot.alive Slot.msg Slot.shown Slot.chan Slot.next]; auto;
   [intro g; cbn; rewrite <- SE; intuition discriminate|cbn; unfold step_ok; rewrite OW; auto]).
Qed.
Lemma set_x_SI s x : SI s -> SI (set_x X x s).
Proof. intros [CU DR M SH DI SE WK OW OK DE GO]. split; auto. Qed.

Lemma take_ok s w s' : SI s -> alive s = true -> take_message X dropf (emit X (TPoll w) s) = Some s' ->
  let s1 := set_chan X (if ww (chan s') w then chan s' else w) s' in
  SI s1 /\ shown s1 = current (tr s) /\ msg s1 = MNoChange /\ alive s1 = true /\ next s1 = next s /\ exists_slot X s1 = exists_slot X s /\
  exists evs, tr s1 = evs ++ TPoll w :: tr s /\ polled evs = [] /\ (forall f, ~ In (TSet f) evs) /\ current (tr s1) = current (tr s).
Proof.
  intros [CU DR M SH DI SE WK OW OK DE GO] AL H.
  assert (SAME : forall c, same_task (if ww c w then c else w) w).
  { intro c. destruct (ww c w) eqn:E; [apply WW, E|reflexivity]. }
  specialize (CU AL). unfold take_message, replace_shown, drop_borrowed in H. cbn in H.
  destruct (msg s) as [f| |] eqn:EM.
  -  destruct (shown s) as [g|] eqn:ESH.
    +  destruct (dropf (xs X s) g) as [x [|a l]]; [|discriminate]. cbn in H. injection H as <-.
      cbn zeta. split; [split|]; cbn [set_chan set_msg set_shown emit set_x Slot.tr Slot.alive Slot.msg Slot.shown Slot.chan Slot.next Slot.exists_slot]; try (intros; congruence); try (intro Q; destruct (GO Q); auto; fail); try discriminate.
      * cbn. auto.
      * intro h. cbn [drops]. rewrite DR. specialize (M f eq_refl). specialize (SH g eq_refl). specialize (DI g eq_refl). unfold held. nd.
      * intros h [=<-]. auto.
      * intro h. cbn. rewrite <- SE. intuition discriminate.
      * cbn. apply SAME.
      * reflexivity.
      * cbn. unfold step_ok. rewrite OW. cbn. auto.
      * cbn. split; [auto|]. split; [auto|]. split; [auto|]. split; [auto|]. split; [auto|]. exists [TDrop g]. split; [auto|]. split; [auto|]. split; [intros h [Q|[]]; discriminate|auto].
    + cbn in H. injection H as <-.
      cbn zeta. split; [split|]; cbn [set_chan set_msg set_shown emit set_x Slot.tr Slot.alive Slot.msg Slot.shown Slot.chan Slot.next Slot.exists_slot]; try (intros; congruence); try (intro Q; destruct (GO Q); auto; fail); try discriminate.
      * cbn. auto.
      * intro h. cbn [drops]. rewrite DR. specialize (M f eq_refl). unfold held. nd.
      * intros h [=<-]. auto.
      * intro h. cbn. rewrite <- SE. intuition discriminate.
      * cbn. apply SAME.
      * reflexivity.
      * cbn. unfold step_ok. rewrite OW. cbn. auto.
      * cbn. split; [auto|]. split; [auto|]. split; [auto|]. split; [auto|]. split; [auto|]. exists []. split; [auto|]. split; [auto|]. split; [auto|auto].
  -  destruct (shown s) as [g|] eqn:ESH.
    +  destruct (dropf (xs X s) g) as [x [|a l]]; [|discriminate]. cbn in H. injection H as <-.
      cbn zeta. split; [split|]; cbn [set_chan set_msg set_shown emit set_x Slot.tr Slot.alive Slot.msg Slot.shown Slot.chan Slot.next Slot.exists_slot]; try (intros; congruence); try (intro Q; destruct (GO Q); auto; fail); try discriminate.
      * cbn. auto.
      * intro h. cbn [drops]. rewrite DR. specialize (SH g eq_refl). specialize (DI g eq_refl). unfold held. nd.
      * intro h. cbn. rewrite <- SE. intuition discriminate.
      * cbn. apply SAME.
      * reflexivity.
      * cbn. unfold step_ok. rewrite OW. cbn. auto.
      * cbn. split; [auto|]. split; [auto|]. split; [auto|]. split; [auto|]. split; [auto|]. exists [TDrop g]. split; [auto|]. split; [auto|]. split; [intros h [Q|[]]; discriminate|auto].
    + cbn in H. injection H as <-.
      cbn zeta. split; [split|]; cbn [set_chan set_msg set_shown emit set_x Slot.tr Slot.alive Slot.msg Slot.shown Slot.chan Slot.next Slot.exists_slot]; try (intros; congruence); try (intro Q; destruct (GO Q); auto; fail); try discriminate.
      * cbn. auto.
      * intro h. cbn [drops]. rewrite DR. unfold held. nd.
      * intro h. cbn. rewrite <- SE. intuition discriminate.
      * cbn. apply SAME.
      * reflexivity.
      * cbn. unfold step_ok. rewrite OW. cbn. auto.
      * cbn. split; [auto|]. split; [auto|]. split; [auto|]. split; [auto|]. split; [auto|]. exists []. split; [auto|]. split; [auto|]. split; [auto|auto].
  - injection H as <-.
    cbn zeta. split; [split|]; cbn [set_chan set_msg set_shown emit set_x Slot.tr Slot.alive Slot.msg Slot.shown Slot.chan Slot.next Slot.exists_slot]; try (intros; congruence); try (intro Q; destruct (GO Q); auto; fail); try discriminate; auto.
    + intro h. cbn. rewrite <- SE. intuition discriminate.
    + cbn. apply SAME.
    + cbn. unfold step_ok. rewrite OW. cbn. auto.
    + cbn. split; [auto|]. split; [auto|]. split; [auto|]. split; [auto|]. split; [auto|]. exists []. split; [auto|]. split; [auto|]. split; [auto|auto].
Qed.

Lemma poll_ok s w s' : SI s -> alive s = true -> render_poll ww X poll dropf w s = Some s' ->
  SI s' /\ alive s' = true /\ next s <= next s' /\ exists_slot X s' = exists_slot X s /\
  (exists evs, tr s' = evs ++ TPoll w :: tr s /\
     polled evs = match current (tr s) with Some f => [(f, w)] | None => [] end /\
     (forall f, In (TSet f) evs -> next s <= f)) /\
  (forall f, In (TSet f) (tr s) -> drops f (tr s') = if match current (tr s) with Some g => g =? f | None => false end then 0 else 1).
Proof.
  intros I AL H. unfold render_poll in H. destruct (take_message X dropf (emit X (TPoll w) s)) as [s0|] eqn:ET; [|discriminate].
  assert (EX : exists_slot X s = true). { destruct (exists_slot X s) eqn:Q; auto. destruct (si_gone _ I Q). congruence. }
  destruct (take_ok _ _ _ I AL ET) as (I1 & SH1 & M1 & A1 & N1 & X1 & e1 & T1 & P1 & Q1 & C1). set (s1 := set_chan X _ s0) in *. clearbody s1.
  assert (FIN : forall s2, SI s2 -> shown s2 = shown s1 -> next s <= next s2 -> (forall f, f < next s -> msg s2 <> MSet f) ->
    forall f, In (TSet f) (tr s) -> drops f (tr s2) = if match current (tr s) with Some g => g =? f | None => false end then 0 else 1).
  { intros s2 I2 E2 L2 M2 f Hf. apply (si_set _ I) in Hf. rewrite (si_drops _ I2), E2, SH1. unfold held.
    destruct (Nat.ltb_spec f (next s2)); [|lia]. specialize (M2 f Hf). destruct (msg s2) as [g| |]; cbn; auto.
    destruct (Nat.eqb_spec g f); [congruence|reflexivity]. }
  unfold poll_shown in H. destruct (shown s1) as [f|] eqn:ES.
  - destruct (poll (xs X s1) f w) as [[x acts] r].
    destruct (fold_left (exec_act X dropf) acts (Some (emit X (TFut f w) (set_x X x s1)))) as [s2|] eqn:EA; [|discriminate]. injection H as <-.
    destruct (acts_ok _ _ _ (emit_SI _ (TFut f w) (set_x_SI _ x I1) Logic.I) (eq_trans X1 EX) EA) as (I2 & ((e2 & T2 & P2 & R2) & A2 & SH2 & N2 & M2 & X2)). cbn in T2, A2, SH2, N2, M2, X2.
    assert (I3 : SI (if r then emit X (TReady f) s2 else s2)) by (destruct r; [apply emit_SI; auto; exact Logic.I|auto]).
    split; [exact I3|]. split; [destruct r; cbn; congruence|]. split; [destruct r; cbn; lia|]. split; [destruct r; cbn; congruence|]. split.
    + exists ((if r then [TReady f] else []) ++ e2 ++ TFut f w :: e1). split.
      * destruct r; cbn; rewrite T2, T1, <- ?app_assoc; reflexivity.
      * rewrite !polled_app. cbn. rewrite P2, P1, <- SH1. split; [destruct r; reflexivity|].
        intros g Q. rewrite !in_app_iff in Q. destruct Q as [Q|[Q|[Q|Q]]].
        -- destruct r; [destruct Q as [Q|[]]; discriminate|contradiction].
        -- rewrite <- N1. apply R2, Q.
        -- discriminate.
        -- destruct (Q1 _ Q).
    + apply FIN; auto.
      * destruct r; cbn; congruence.
      * destruct r; cbn; lia.
      * intros g L E. assert (Q : msg s1 = MSet g) by (apply M2; [rewrite N1; exact L|destruct r; exact E]). rewrite M1 in Q. discriminate.
  - injection H as <-. split; [auto|]. split; [auto|]. split; [lia|]. split; [auto|]. split.
    + exists e1. split; [auto|]. rewrite P1, <- SH1. split; [reflexivity|]. intros g Q. destruct (Q1 _ Q).
    + apply FIN; auto; [lia|]. intros g _. rewrite M1. discriminate.
Qed.

Lemma exec_ok s o s' : SI s -> exec ww X poll dropf s o = Some s' ->
  SI s' /\ next s <= next s' /\
  exists evs, tr s' = evs ++ tr s /\
    polled evs = match o with OPoll _ w => if alive s then match current (tr s) with Some f => [(f, w)] | None => [] end else [] | _ => [] end /\
    (forall f, In (TSet f) evs -> next s <= f).
Proof.
  intros I H. destruct o as [a|w| | |x]; cbn [exec] in H.
  - destruct (exists_slot X s) eqn:EX.
    + destruct (act_ok _ _ _ I EX H) as (I' & ((e & T & P & R) & _ & _ & N & _)). split; [auto|]. split; [auto|]. exists e. auto.
    + injection H as <-. split; [auto|]. split; [auto|]. exists []. split; [auto|split; [auto|contradiction]].
  - destruct (alive s) eqn:AL.
    + destruct (poll_ok _ _ _ I AL H) as (I' & _ & N & _ & (e & T & P & R) & _). split; [auto|]. split; [auto|].
      exists (e ++ [TPoll w]). rewrite T, <- app_assoc, polled_app, P. split; [reflexivity|]. cbn. split; [apply app_nil_r|].
      intros f Q. apply in_app_iff in Q as [Q|[Q|[]]]; [auto|discriminate].
    + injection H as <-. split; [auto|]. split; [auto|]. exists []. split; [auto|split; [auto|contradiction]].
  - destruct (alive s) eqn:AL.
    + destruct (shown s) as [f|] eqn:ES.
      * destruct (dropf (xs X s) f) as [x acts] eqn:ED.
        assert (I0 : SI (emit X (TDrop f) (set_x X x (mk X (xs X s) (chan s) (msg s) false None (exists_slot X s) (next s) (tr s))))).
        { destruct I as [CU DR M SH DI SE WK OW OK DE GO]. split; cbn [emit set_x Slot.tr Slot.alive Slot.msg Slot.shown Slot.chan Slot.next]; try discriminate; auto.
          - intro h. cbn [drops]. rewrite DR. specialize (SH f ES). specialize (DI f ES). rewrite ES. unfold held. destruct (msg s); nd.
          - intro h. cbn. rewrite <- SE. intuition discriminate.
          - cbn. unfold step_ok. rewrite OW. auto.
          - intro Q. destruct (GO Q). congruence. }
        assert (EX : exists_slot X s = true). { destruct (exists_slot X s) eqn:Q; auto. destruct (si_gone _ I Q). congruence. }
        destruct (acts_ok _ _ _ I0 EX H) as (I' & ((e & T & P & R) & _ & _ & N & _)). cbn in T, N. split; [auto|]. split; [auto|].
        exists (e ++ [TDrop f]). rewrite T, <- app_assoc, polled_app, P. split; [auto|]. split; [auto|].
        intros h Q. apply in_app_iff in Q as [Q|[Q|[]]]; [auto|discriminate].
      * injection H as <-. split; [|split; [auto|exists []; split; [auto|split; [auto|contradiction]]]].
        destruct I as [CU DR M SH DI SE WK OW OK DE GO]. split; cbn; try discriminate; auto.
        -- intro h. rewrite DR, ES. reflexivity.
        -- intro Q. destruct (GO Q). auto.
    + injection H as <-. split; [auto|]. split; [auto|]. exists []. split; [auto|split; [auto|contradiction]].
  - destruct (alive s || negb (exists_slot X s)) eqn:EB.
    + injection H as <-. split; [auto|]. split; [auto|]. exists []. split; [auto|split; [auto|contradiction]].
    + assert (ES : shown s = None) by (apply orb_false_iff in EB as (AL & _); apply (si_dead _ I AL)).
      assert (I0 : forall m, msg s = m -> match m with MSet _ => False | _ => True end ->
        SI (mk X (xs X s) (chan s) MNoChange false None false (next s) (tr s))).
      { intros m EM NM. destruct I as [CU DR M SH DI SE WK OW OK DE GO]. split; cbn; try discriminate; auto.
        intro h. rewrite DR, EM, ES. destruct m; try contradiction; reflexivity. }
      destruct (msg s) as [f| |] eqn:EM; injection H as <-.
      * split; [|split; [cbn; auto|exists [TDrop f]; split; [auto|split; [auto|intros h [Q|[]]; discriminate]]]].
           destruct I as [CU DR M SH DI SE WK OW OK DE GO]. split; cbn [emit set_x Slot.tr Slot.alive Slot.msg Slot.shown Slot.chan Slot.next]; try discriminate; auto.
         -- intro h. cbn [drops]. rewrite DR. specialize (M f EM). rewrite EM, ES. unfold held. nd.
         -- intro h. cbn. rewrite <- SE. intuition discriminate.
         -- cbn. unfold step_ok. rewrite OW. auto.
      * split; [|split; [cbn; auto|exists []; split; [auto|split; [auto|contradiction]]]]. eapply I0; [reflexivity|exact Logic.I]. 
      * split; [|split; [cbn; auto|exists []; split; [auto|split; [auto|contradiction]]]]. eapply I0; [reflexivity|exact Logic.I].
  - injection H as <-. split; [apply set_x_SI; auto|]. split; [cbn; auto|]. exists []. split; [auto|split; [auto|contradiction]].
Qed.

Lemma execs_ok ops : forall s s', SI s -> execs ww X poll dropf s ops = Some s' -> SI s' /\ next s <= next s' /\ exists evs, tr s' = evs ++ tr s.
Proof.
  induction ops as [|o ops IH]; intros s s' I H; cbn [execs] in H.
  - injection H as <-. split; [auto|]. split; [auto|]. exists []. reflexivity.
  - destruct (exec ww X poll dropf s o) as [s1|] eqn:E; [|discriminate]. destruct (exec_ok _ _ _ I E) as (I1 & N1 & e1 & T1 & _).
    destruct (IH _ _ I1 H) as (I2 & N2 & e2 & T2). split; [auto|]. split; [lia|]. exists (e2 ++ e1). rewrite T2, T1, app_assoc. reflexivity.
Qed.
Lemma run_SI x ops s : run ww X poll dropf x ops = Some s -> SI s.
Proof. intro H. apply (execs_ok ops _ _ (init_SI x) H). Qed.
Lemma execs_app a b s : execs ww X poll dropf s (a ++ b) = match execs ww X poll dropf s a with Some s1 => execs ww X poll dropf s1 b | None => None end.
Proof. revert s. induction a as [|o a IH]; intro s; [reflexivity|]. cbn. destruct (exec ww X poll dropf s o); cbn; auto. Qed.

(** a future that is no longer the current one is not polled again *)
Lemma current_app evs t f : current (evs ++ t) = Some f -> In (TSet f) evs \/ current t = Some f.
Proof. induction evs as [|e evs IH]; cbn; auto. destruct e; intro H; try (destruct (IH H); auto; fail); [injection H as <-; auto|discriminate]. Qed.
Lemma never_again ops : forall s s' f, SI s -> execs ww X poll dropf s ops = Some s' -> In (TSet f) (tr s) -> current (tr s) <> Some f ->
  exists evs, tr s' = evs ++ tr s /\ ~ In f (map fst (polled evs)).
Proof.
  induction ops as [|o ops IH]; intros s s' f I H HS HC; cbn [execs] in H.
  - injection H as <-. exists []. auto.
  - destruct (exec ww X poll dropf s o) as [s1|] eqn:E; [|discriminate]. destruct (exec_ok _ _ _ I E) as (I1 & N1 & e1 & T1 & P1 & R1).
    assert (HS1 : In (TSet f) (tr s1)) by (rewrite T1; apply in_app_iff; auto).
    assert (HC1 : current (tr s1) <> Some f).
    { rewrite T1. intro Q. apply current_app in Q as [Q|Q]; [|contradiction]. apply R1 in Q. apply (si_set _ I) in HS. lia. }
    destruct (IH _ _ _ I1 H HS1 HC1) as (e2 & T2 & P2). exists (e2 ++ e1). split; [rewrite T2, T1, app_assoc; reflexivity|].
    rewrite polled_app, map_app, in_app_iff, P1. intros [Q|Q]; [tauto|].
    destruct o; try contradiction. destruct (alive s); [|contradiction]. destruct (current (tr s)); [|contradiction].
    destruct Q as [<-|[]]. apply HC. reflexivity.
Qed.

Lemma exec_alive s o s' : SI s -> exec ww X poll dropf s o = Some s' -> o <> ODropRender X -> alive s = true -> alive s' = true.
Proof.
  intros I H N AL. destruct o as [a|w| | |x]; cbn [exec] in H.
  - destruct (exists_slot X s) eqn:EX; [|congruence]. destruct (act_ok _ _ _ I EX H) as (_ & (_ & A & _)). congruence.
  - rewrite AL in H. apply (poll_ok _ _ _ I AL H).
  - contradiction.
  - rewrite AL in H. cbn in H. congruence.
  - injection H as <-. exact AL.
Qed.
Lemma execs_alive ops : forall s s', SI s -> execs ww X poll dropf s ops = Some s' -> ~ In (ODropRender X) ops -> alive s = true -> alive s' = true.
Proof.
  induction ops as [|o ops IH]; intros s s' I H N AL; cbn [execs] in H; [congruence|].
  destruct (exec ww X poll dropf s o) as [s1|] eqn:E; [|discriminate]. apply (IH s1 s'); auto.
  - apply (exec_ok _ _ _ I E).
  - intro Q. apply N. right. exact Q.
  - apply (exec_alive _ _ _ I E); auto. intros ->. apply N. left. reflexivity.
Qed.

(** nothing panics unless a future calls the slot while it is being dropped *)
Hypothesis QUIET : forall x f, snd (dropf x f) = [].
Lemma drop_quiet f s : exists s', drop_borrowed X dropf f s = Some s'.
Proof. unfold drop_borrowed. specialize (QUIET (xs X s) f). destruct (dropf (xs X s) f) as [x l]. cbn in QUIET. subst. eauto. Qed.
Lemma act_quiet a s : exists s', exec_act X dropf (Some s) a = Some s'.
Proof.
  destruct a; cbn; unfold set_future, clear_future, drop_msg; cbn; destruct (msg s); cbn; eauto;
  match goal with |- context [drop_borrowed X dropf ?f ?s] => destruct (drop_quiet f s) as (s' & ->) end; cbn; eauto.
Qed.
Lemma acts_quiet l : forall s, exists s', fold_left (exec_act X dropf) l (Some s) = Some s'.
Proof. induction l as [|a l IH]; intro s; cbn [fold_left]; [eauto|]. destruct (act_quiet a s) as (s1 & ->). apply IH. Qed.
Lemma exec_quiet s o : exists s', exec ww X poll dropf s o = Some s'.
Proof.
  destruct o as [a|w| | |x]; cbn [exec].
  - destruct (exists_slot X s); eauto. apply act_quiet.
  - destruct (alive s); eauto. unfold render_poll.
    assert (T : exists s1, take_message X dropf (emit X (TPoll w) s) = Some s1).
    { unfold take_message, replace_shown. cbn. destruct (msg s); eauto; destruct (shown s); cbn; eauto;
      match goal with |- context [drop_borrowed X dropf ?f ?s] => destruct (drop_quiet f s) as (s' & ->) end; cbn; eauto. }
    destruct T as (s1 & ->). set (s2 := set_chan _ _ _). unfold poll_shown. destruct (shown s2) as [f|]; eauto.
    destruct (poll (xs X s2) f w) as [[x acts] r]. destruct (acts_quiet acts (emit X (TFut f w) (set_x X x s2))) as (s3 & ->). eauto.
  - destruct (alive s); eauto. destruct (shown s) as [f|]; eauto. destruct (dropf (xs X s) f). apply acts_quiet.
  - destruct (alive s || negb (exists_slot X s)); eauto. destruct (msg s); eauto.
  - eauto.
Qed.
Lemma run_quiet x ops : exists s, run ww X poll dropf x ops = Some s.
Proof.
  unfold run. generalize (init X x). induction ops as [|o ops IH]; intro s; cbn; eauto. destruct (exec_quiet s o) as (s1 & ->). apply IH.
Qed.
End Proofs.
