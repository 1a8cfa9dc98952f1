(** Property C26: the code of the slotted futures really runs. *)
From Coq Require Import List Arith Bool Lia.
From Verif Require Import Util Arena Spec_arena Slot Spec_slot Slot_proofs Props_slot Spec_slot_code.
Import ListNotations.

Section Code.
Variable ww : waker -> waker -> bool.
Variable X : Type.
Variable poll : X -> nat -> waker -> X * list act * bool.
Variable dropf : X -> nat -> X * list act.
Notation st := (st X).
Notation code_state := (code_state X poll dropf).
Notation code_calls := (code_calls X poll dropf).
Notation code_done := (code_done X poll dropf).
Lemma state_app t : forall x t', code_state x (t ++ t') = code_state (code_state x t) t'.
Proof. induction t as [|[] t IH]; intros x t'; cbn; auto. Qed.
Lemma calls_app2 t : forall x t', code_calls x (t ++ t') = code_calls x t ++ code_calls (code_state x t) t'.
Proof. induction t as [|[] t IH]; intros x t'; cbn; auto; rewrite IH, app_assoc; reflexivity. Qed.
Lemma done_app2 t : forall x t', code_done x (t ++ t') = code_done x t ++ code_done (code_state x t) t'.
Proof. induction t as [|[] t IH]; intros x t'; cbn; auto; rewrite IH, ?app_assoc; reflexivity. Qed.
Lemma calls_app t : forall t', calls (t ++ t') = calls t ++ calls t'.
Proof. induction t as [|[] t IH]; intros t'; cbn; auto; rewrite IH; reflexivity. Qed.
Lemma done_app t : forall t', done (t ++ t') = done t ++ done t'.
Proof. induction t as [|[] t IH]; intros t'; cbn; auto; rewrite IH; reflexivity. Qed.
(** [s'] comes from [s]: calls made [c], calls the code says [d], completed [n], to complete [m] *)
Definition ext (s s' : st) (c d : list act) (n m : list nat) : Prop :=
  exists t, tr X s' = t ++ tr X s /\ xs X s' = code_state (xs X s) (rev t) /\
    calls (rev t) = c /\ code_calls (xs X s) (rev t) = d /\ done (rev t) = n /\ code_done (xs X s) (rev t) = m.
Lemma ext_trans s s1 s2 c d n m c' d' n' m' : ext s s1 c d n m -> ext s1 s2 c' d' n' m' -> ext s s2 (c ++ c') (d ++ d') (n ++ n') (m ++ m').
Proof.
  intros (t & E & S & C & D & N & M) (t' & E' & S' & C' & D' & N' & M'). exists (t' ++ t). rewrite E', E, app_assoc, rev_app_distr, state_app, calls_app, calls_app2, done_app, done_app2, <- S, C, D, N, M, C', D', N', M'.
  auto 10.
Qed.
Lemma ext_same s s' : tr X s' = tr X s -> xs X s' = xs X s -> ext s s' [] [] [] [].
Proof. intros E F. exists []. cbn. auto 10. Qed.
Lemma drop_ext f s s' : drop_borrowed X dropf f s = Some s' -> ext s s' [] [] [] [].
Proof.
  unfold drop_borrowed. destruct (dropf (xs X s) f) as [x [|a l]] eqn:E; [|discriminate]. intros [= <-]. exists [TDrop f]. cbn. rewrite E. auto 10.
Qed.
Lemma dmsg_ext s s' : drop_msg X dropf s = Some s' -> ext s s' [] [] [] [].
Proof. unfold drop_msg. destruct (msg X s); [apply drop_ext| |]; intros [= <-]; apply ext_same; reflexivity. Qed.
Lemma act_ext a s s' : exec_act X dropf (Some s) a = Some s' -> ext s s' [a] [] [] [].
Proof.
  unfold exec_act, set_future, clear_future. destruct a.
  - set (s1 := mk X _ _ _ _ _ _ _ _). destruct (drop_msg X dropf s1) as [s2|] eqn:E; [|discriminate]. intros [= <-]. apply dmsg_ext in E.
    pose proof (ext_trans s s1 s2 [ASet] [] [] [] _ _ _ _ ltac:(exists [TSet (next X s)]; cbn; auto 10) E) as T. cbn [app] in T.
    refine (ext_trans _ _ _ _ _ _ _ [] [] [] [] T _). exists [TWake (chan X s2)]. cbn. auto 10.
  - set (s1 := emit X TClear s). destruct (drop_msg X dropf s1) as [s2|] eqn:E; [|discriminate]. intros [= <-]. apply dmsg_ext in E.
    pose proof (ext_trans s s1 s2 [AClear] [] [] [] _ _ _ _ ltac:(exists [TClear]; cbn; auto 10) E) as T. cbn [app] in T.
    refine (ext_trans _ _ _ _ _ _ _ [] [] [] [] T _). exists [TWake (chan X s2)]. cbn. auto 10.
Qed.
Lemma acts_none acts : fold_left (exec_act X dropf) acts None = None.
Proof. induction acts; cbn; auto. Qed.
Lemma acts_ext acts : forall s s', fold_left (exec_act X dropf) acts (Some s) = Some s' -> ext s s' acts [] [] [].
Proof.
  induction acts as [|a acts IH]; intros s s'; cbn [fold_left]; [intros [= <-]; apply ext_same; reflexivity|].
  destruct (exec_act X dropf (Some s) a) as [s1|] eqn:E; [|rewrite acts_none; discriminate]. intro F. exact (ext_trans _ _ _ _ _ _ _ _ _ _ _ (act_ext _ _ _ E) (IH _ _ F)).
Qed.
Lemma replace_ext f s s' : replace_shown X dropf f s = Some s' -> ext s s' [] [] [] [].
Proof.
  unfold replace_shown. destruct (shown X s) as [g|].
  - destruct (drop_borrowed X dropf g s) as [s1|] eqn:E; [|discriminate]. intros [= <-]. exact (drop_ext _ _ _ E).
  - intros [= <-]. apply ext_same; reflexivity.
Qed.
Lemma take_ext s s' : take_message X dropf s = Some s' -> ext s s' [] [] [] [].
Proof. unfold take_message. destruct (msg X s) as [f| |]; [exact (replace_ext _ (set_msg X MNoChange s) s')|exact (replace_ext _ (set_msg X MNoChange s) s')|intros [= <-]; apply ext_same; reflexivity]. Qed.
Lemma shown_ext w s s' : poll_shown X poll dropf w s = Some s' -> exists c n, ext s s' c c n n.
Proof.
  unfold poll_shown. destruct (shown X s) as [f|]; [|intros [= <-]; exists [], []; apply ext_same; reflexivity].
  destruct (poll (xs X s) f w) as [[x acts] r] eqn:E. set (s1 := emit X (TFut f w) (set_x X x s)). destruct (fold_left _ acts (Some s1)) as [s2|] eqn:F; [|discriminate]. intros [= <-].
  apply acts_ext in F. assert (A : ext s s1 [] acts [] (if r then [f] else [])) by (exists [TFut f w]; cbn; rewrite E; cbn; rewrite !app_nil_r; auto 10).
  pose proof (ext_trans _ _ _ _ _ _ _ _ _ _ _ A F) as T. cbn [app] in T. rewrite app_nil_r in T. exists acts, (if r then [f] else []). destruct r; [|rewrite app_nil_r in T; exact T].
  pose proof (ext_trans _ _ (emit X (TReady f) s2) _ _ _ _ [] [] [f] [] T ltac:(exists [TReady f]; cbn; auto 10)) as T'. cbn [app] in T'. rewrite !app_nil_r in T'. exact T'.
Qed.
Lemma rpoll_ext w s s' : render_poll ww X poll dropf w s = Some s' -> exists c n, ext s s' c c n n.
Proof.
  unfold render_poll. destruct (take_message X dropf (emit X (TPoll w) s)) as [s1|] eqn:E; [|discriminate]. intro F. destruct (shown_ext _ _ _ F) as (c & n & H). exists c, n.
  pose proof (ext_trans s (emit X (TPoll w) s) s1 [] [] [] [] _ _ _ _ ltac:(exists [TPoll w]; cbn; auto 10) (take_ext _ _ E)) as T. cbn [app] in T.
  refine (ext_trans _ _ _ [] [] [] [] _ _ _ _ T _). exact H.
Qed.
End Code.

(** C26: Whatever has happened to a slot before: in each step the state changes just as the code of
    the futures which are polled and dropped says, a future completes just when its code says so,
    and set_future and clear_future are called just when the code of the futures calls them, apart
    from the call which is the step itself.  (When the slot is dropped, with the last future given
    to it, there is no slot to be called any more.) *)
Theorem C26_code :
  forall ww X poll dropf x ops o s s', run ww X poll dropf x ops = Some s -> exec ww X poll dropf s o = Some s' ->
  exists t, tr X s' = t ++ tr X s /\
  let happened := rev t in
  let code := code_calls X poll dropf (xs X s) happened in
  match o with
  | OChange _ y => t = [] /\ xs X s' = y
  | _ => xs X s' = code_state X poll dropf (xs X s) happened /\ done happened = code_done X poll dropf (xs X s) happened
  end /\
  match o with
  | OAct _ a => calls happened = (if exists_slot X s then [a] else []) ++ code
  | ODropSlot _ | OChange _ _ => calls happened = []
  | OPoll _ _ | ODropRender _ => calls happened = code
  end.
Proof.
  intros ww X poll dropf x ops o s s' _ E. destruct o as [a|w| | |y]; cbn [exec] in E.
  - destruct (exists_slot X s).
    + destruct (act_ext X poll dropf _ _ _ E) as (t & T & S & C & D & N & M). exists t. split; [exact T|]. cbn zeta. rewrite C, D, N, M, S. auto.
    + injection E as <-. exists []. cbn. auto.
  - destruct (alive X s).
    + destruct (rpoll_ext ww X poll dropf _ _ _ E) as (c & n & t & T & S & C & D & N & M). exists t. split; [exact T|]. cbn zeta. rewrite C, D, N, M, S. auto.
    + injection E as <-. exists []. cbn. auto.
  - destruct (alive X s); [|injection E as <-; exists []; cbn; auto]. destruct (shown X s) as [f|]; [|injection E as <-; exists []; cbn; auto].
    destruct (dropf (xs X s) f) as [x1 acts] eqn:ED. set (s1 := emit X (TDrop f) _) in E.
    assert (A : ext X poll dropf s s1 [] acts [] []) by (exists [TDrop f]; cbn; rewrite ED; cbn; rewrite !app_nil_r; auto 10).
    destruct (ext_trans X poll dropf _ _ _ _ _ _ _ _ _ _ _ A (acts_ext X poll dropf _ _ _ E)) as (t & T & S & C & D & N & M). exists t. split; [exact T|]. cbn zeta. rewrite C, D, N, M, S. rewrite (app_nil_r acts). auto.
  - destruct (alive X s || negb (exists_slot X s)); [injection E as <-; exists []; cbn; auto|]. destruct (msg X s) as [f| |]; injection E as <-; [exists [TDrop f]|exists []|exists []]; cbn; auto.
  - injection E as <-. exists []. cbn. auto.
Qed.
Print Assumptions C26_code.

(** Non-vacuity: future 1 replaces itself and completes; it changes the state; future 0's destructor
    also does. *)
Definition exsc_poll (x : nat) (f : nat) (w : waker) : nat * list act * bool := match f with 1 => (x + 10, [ASet], true) | _ => (x + 1, [], false) end.
Definition exsc_drop (x : nat) (f : nat) : nat * list act := (x + 100, []).
Example ex_slot_code :
  option_map (fun s => (xs _ s, rev (tr _ s))) (run (fun _ _ => false) nat exsc_poll exsc_drop 0 [OAct _ ASet; OPoll _ dummy_waker; OAct _ ASet; OPoll _ dummy_waker]) =
  Some (111, [TSet 0; TWake dummy_waker; TPoll dummy_waker; TFut 0 dummy_waker; TSet 1; TWake dummy_waker; TPoll dummy_waker; TDrop 0; TFut 1 dummy_waker; TSet 2; TWake dummy_waker; TReady 1]).
Proof. vm_compute. reflexivity. Qed.
