(** Proofs for C69. *)
From Coq Require Import List Arith Bool Lia.
From Verif Require Import Util Arena Spec_arena Combinator Tree Page Spec_view View_part_proofs Event Spec_event Event_proofs Spec_event_view.
Import ListNotations.

Section Events.
Variable ww : waker -> waker -> bool.
Hypothesis WW : will_wake_ok ww.
Variables (s t : nat) (p : place).
Notation tr x := (tr (pg_w x)).
Definition JE (x : Event.page) : Prop := (exists ops, Event.run ww ops = x) /\ forall wk, last_waker s (tr x) = Some wk -> w_task wk = Some (block_task t p).
Definition freshE (x : Event.page) : Prop := latest s (tr x) = None /\ last_waker s (tr x) <> None.

Lemma step_new x o : EI (pg_w x) -> exists new, tr (Event.exec ww x o) = new ++ tr x /\
  ((forall i wk r, In (TPoll i wk r) new -> o = Basic (BPoll i wk)) /\ (forall i e, ~ In (TDeliver i e) new) \/
   exists i e w, new = [TRun; TWake w; TDeliver i e]).
Proof.
  intro I. destruct o as [b|path n e b| |k now]; cbn [Event.exec].
  - destruct b as [tg n|i c|i wk|i]; cbn [pg_w exec_b].
    + exists [TNew (Event.next (pg_w x)) tg n]. split; [reflexivity|]. left. split; [intros i wk r [Q|[]]; discriminate|intros i e [Q|[]]; discriminate].
    + destruct (streams (pg_w x) i) as [st|]; [|exists []; split; [reflexivity|left; split; [intros ? ? ? []|intros ? ? []]]].
      exists [TCapture i c]. split; [reflexivity|]. left. split; [intros i' wk r [Q|[]]; discriminate|intros i' e [Q|[]]; discriminate].
    + destruct (streams (pg_w x) i) as [st|]; [|exists []; split; [reflexivity|left; split; [intros ? ? ? []|intros ? ? []]]].
      unfold poll_next. destruct (s_closure st); (eexists [_]; split; [reflexivity|]; left; split; [intros i' wk' r [Q|[]]; congruence|intros i' e [Q|[]]; discriminate]).
    + destruct (streams (pg_w x) i) as [st|]; [|exists []; split; [reflexivity|left; split; [intros ? ? ? []|intros ? ? []]]].
      exists [TDrop i]. split; [reflexivity|]. left. split; [intros i' wk r [Q|[]]; discriminate|intros i' e [Q|[]]; discriminate].
  - destruct (existsb _ _); [exists []; split; [reflexivity|left; split; [intros ? ? ? []|intros ? ? []]]|].
    exists [TBegin path n e b]. split; [reflexivity|]. left. split; [intros i' wk r [Q|[]]; discriminate|intros i' e' [Q|[]]; discriminate].
  - assert (NIL : exists new, tr x = new ++ tr x /\ ((forall i wk r, In (TPoll i wk r) new -> Next = Basic (BPoll i wk)) /\ (forall i e, ~ In (TDeliver i e) new) \/
      exists i e w, new = [TRun; TWake w; TDeliver i e])) by (exists []; split; [reflexivity|left; split; [intros ? ? ? []|intros ? ? []]]).
    destruct (pg_stack x) as [|f st]; auto. destruct (f_cur f) as [|l cur].
    + assert (END : exists new, TEnd (f_ev f) :: tr x = new ++ tr x /\ ((forall i wk r, In (TPoll i wk r) new -> Next = Basic (BPoll i wk)) /\ (forall i e, ~ In (TDeliver i e) new) \/
      exists i e w, new = [TRun; TWake w; TDeliver i e])).
      { exists [TEnd (f_ev f)]. split; [reflexivity|]. left. split; [intros i' wk r [Q|[]]; discriminate|intros i' e' [Q|[]]; discriminate]. }
      destruct (f_todo f) as [|tp todo]; auto. destruct (f_stop f); auto.
    + cbn [pg_w]. destruct (existsb _ _); auto. unfold invoke. destruct (streams (pg_w x) (l_cb l)) as [str|].
      * eexists [_; _; _]. split; [reflexivity|]. right. eauto.
      * exists [TThrow (l_cb l)]. split; [reflexivity|]. left. split; [intros i' wk r [Q|[]]; discriminate|intros i' e' [Q|[]]; discriminate].
  - destruct (nth_error _ _) as [f|]; [|exists []; split; [reflexivity|left; split; [intros ? ? ? []|intros ? ? []]]].
    exists [TStop (f_ev f)]. split; [reflexivity|]. left. split; [intros i' wk r [Q|[]]; discriminate|intros i' e' [Q|[]]; discriminate].
Qed.
Lemma reach_EI x : (exists ops, Event.run ww ops = x) -> EI (pg_w x).
Proof. intros (ops & <-). apply run_EI; auto. Qed.
Lemma reach_step x o : (exists ops, Event.run ww ops = x) -> exists ops, Event.run ww ops = Event.exec ww x o.
Proof. intros (ops & <-). exists (ops ++ [o]). unfold run. rewrite fold_left_app. reflexivity. Qed.
Lemma last_app new tr' : (forall wk r, ~ In (TPoll s wk r) new) -> last_waker s (new ++ tr') = last_waker s tr'.
Proof.
  induction new as [|e new IH]; intro N; auto. cbn [app]. assert (IH' : last_waker s (new ++ tr') = last_waker s tr') by (apply IH; intros wk r H; apply (N wk r); right; auto).
  destruct e as [| |i wk r| | | | | | | |]; cbn; auto. destruct (Nat.eqb_spec i s) as [->|]; auto. destruct (N wk r). left. reflexivity.
Qed.
Lemma last_in new tr' wk : last_waker s (new ++ tr') = Some wk -> (exists r, In (TPoll s wk r) new) \/ last_waker s tr' = Some wk.
Proof.
  induction new as [|e new IH]; intro E; auto. cbn [app] in E.
  assert (K : last_waker s (new ++ tr') = Some wk -> (exists r, In (TPoll s wk r) (e :: new)) \/ last_waker s tr' = Some wk).
  { intro Q. destruct (IH Q) as [(r & H)|H]; auto. left. exists r. right. auto. }
  destruct e as [| |i w r| | | | | | | |]; cbn in E; auto. destruct (Nat.eqb_spec i s) as [->|]; auto. injection E as ->. left. exists r. left. reflexivity.
Qed.
Lemma latest_app new tr' : (forall wk r, ~ In (TPoll s wk r) new) -> (forall e, ~ In (TDeliver s e) new) -> latest s (new ++ tr') = latest s tr'.
Proof.
  induction new as [|e new IH]; intros N M; auto. cbn [app].
  assert (IH' : latest s (new ++ tr') = latest s tr') by (apply IH; [intros wk r H; apply (N wk r); right; auto|intros e' H; apply (M e'); right; auto]).
  destruct e as [| |i wk r| | | | |i e| | |]; cbn; auto.
  - destruct r; auto. destruct (Nat.eqb_spec i s) as [->|]; auto. destruct (N wk (Some n)). left. reflexivity.
  - destruct (Nat.eqb_spec i s) as [->|]; auto. destruct (M e). left. reflexivity.
Qed.
Notation polls := (fun o => match o with Basic (BPoll i wk) => if i =? s then Some wk else None | _ => None end).
Lemma je_step x o x' : JE x -> (forall wk, polls o = Some wk -> w_task wk = Some (block_task t p)) -> x' = Event.exec ww x o -> JE x'.
Proof.
  intros (R & L) M ->. split; [apply reach_step; auto|]. intros wk E. destruct (step_new x o (reach_EI x R)) as (new & T & N). rewrite T in E.
  apply last_in in E as [(r & H)|E]; auto. destruct N as [(N & _)|(i & e & w & ->)]; [|destruct H as [H|[H|[H|[]]]]; discriminate].
  apply M. rewrite (N s wk r H). rewrite Nat.eqb_refl. reflexivity.
Qed.
Lemma fe_step x o x' l : JE x -> freshE x -> polls o = None -> x' = Event.exec ww x o -> event_tells x x' l -> freshE x' \/ In (GWake t p) l.
Proof.
  intros (R & L) (F1 & F2) PN -> (new' & T' & TE). destruct (step_new x o (reach_EI x R)) as (new & T & N).
  assert (new' = new) as -> by (rewrite T in T'; apply app_inv_tail in T'; auto).
  unfold freshE. rewrite T. destruct N as [(N & M)|(i & e & w & ->)].
  - assert (NP : forall wk r, ~ In (TPoll s wk r) new) by (intros wk r H; rewrite (N s wk r H), Nat.eqb_refl in PN; discriminate).
    left. rewrite latest_app, last_app; auto.
  - destruct (Nat.eq_dec i s) as [->|D].
    + right. pose proof (reach_EI _ (reach_step x o R)) as EI'. apply ei_wakes in EI'. rewrite T in EI'. cbn in EI'. destruct EI' as ((w' & LW & ST) & _).
      apply (TE w t p); [right; left; reflexivity|]. rewrite <- (L w' LW). exact ST.
    + left. cbn. destruct (Nat.eqb_spec i s); [contradiction|]. auto.
Qed.
Lemma fe_poll x o x' : JE x -> x' = Event.exec ww x o -> (exists wk, tr x' = TPoll s wk None :: tr x) -> freshE x'.
Proof.
  intros (R & _) -> (wk & T). pose proof (reach_EI _ (reach_step x o R)) as EI'. apply ei_polls in EI'. unfold freshE. rewrite T in *. cbn in EI' |- *.
  destruct EI' as (E & _). rewrite Nat.eqb_refl. split; [auto|discriminate].
Qed.
Lemma event_view_of {V X} (ew : X -> Event.page) on (code : nat -> X -> place -> option V -> X * list gact * Tree.next V) on_drop evs :
  event_view ww ew on s t p code on_drop evs ->
  view_of (fun x => JE (ew x)) (fun x => on x = true -> freshE (ew x)) t p code on_drop evs.
Proof.
  apply part_view_of.
  - intros x (R & _). exact R.
  - exact je_step.
  - exact fe_step.
  - intros x o x' l wk Jx _ _ ST _ PE. left. eapply fe_poll; eauto.
Qed.
(** nothing is left to return: the last event was returned by a poll *)
Lemma latest_seen x : (exists ops, Event.run ww ops = x) -> latest s (tr x) = None ->
  forall later e before, tr x = later ++ TDeliver s e :: before -> (forall e', ~ In (TDeliver s e') later) -> exists wk, In (TPoll s wk (Some e)) later.
Proof.
  intros R LN later e before E N. apply reach_EI in R. apply ei_polls in R. rewrite E in *. clear E x.
  assert (G : latest s (later ++ TDeliver s e :: before) = Some e \/ exists wk, In (TPoll s wk (Some e)) later).
  { revert R N. clear LN. induction later as [|a later IH]; intros R N.
    - left. cbn. rewrite Nat.eqb_refl. reflexivity.
    - destruct IH as [Q|(wk & Q)]; [destruct a; cbn in R; tauto|intros e' H; apply (N e'); right; auto| |right; exists wk; right; auto].
      destruct a as [| |i wk r| | | | |i e'| | |]; cbn [app latest]; auto.
      + cbn in R. destruct R as (R & _). destruct r as [r|]; auto. destruct (Nat.eqb_spec i s) as [->|]; auto. right. exists wk. left. congruence.
      + destruct (Nat.eqb_spec i s) as [->|]; auto. destruct (N e'). left. reflexivity. }
  destruct G as [G|G]; auto. congruence.
Qed.
End Events.
