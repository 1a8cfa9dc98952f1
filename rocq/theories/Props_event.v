(** Properties C24 and C25: event streams.

    [run ww ops]: any sequence of creating, configuring, polling and dropping any
    number of streams and of dispatched events, where after each call of a listener the
    application does anything of that again ([reacts]); [ww] is Waker::will_wake.
    The trace [tr] is newest first. *)
From Coq Require Import List Arith Bool Lia.
From Verif Require Import Util Arena Spec_arena Event Spec_event Event_proofs.
Import ListNotations.

(** C24: each poll returns the most recent event given to the stream since it was last
    ready, if there is one, and is pending otherwise. *)
Theorem C24_polls :
  forall ww ops, will_wake_ok ww -> polls_ok (tr (pg_w (run ww ops))).
Proof. intros ww ops WW. apply (ei_polls _ (run_EI ww WW ops)). Qed.
Print Assumptions C24_polls.

(** C24: each event given to a stream at once wakes the task that polled the stream
    last, and then runs the application. *)
Theorem C24_wakes :
  forall ww ops, will_wake_ok ww -> wakes_ok (tr (pg_w (run ww ops))).
Proof. intros ww ops WW. apply (ei_wakes _ (run_EI ww WW ops)). Qed.
Print Assumptions C24_wakes.

(** C24: an event is given to a stream at most once per dispatch, *)
Theorem C24_once :
  forall ww ops s e, will_wake_ok ww -> paths_ok ops -> given s e (tr (pg_w (run ww ops))) <= 1.
Proof. intros ww ops s e WW P. apply (pi_once _ (run_PI ww WW ops P)). Qed.
Print Assumptions C24_once.

(** only to streams it is meant for, *)
Theorem C24_gifts :
  forall ww ops, will_wake_ok ww -> paths_ok ops -> gifts_ok (tr (pg_w (run ww ops))).
Proof. intros ww ops WW P. apply (pi_gifts _ (run_PI ww WW ops P)). Qed.
Print Assumptions C24_gifts.

(** and to all of them that are not dropped meanwhile, whatever the application does
    during the dispatch, further dispatches included, unless it stops the propagation. *)
Theorem C24_reaches :
  forall ww ops, will_wake_ok ww -> paths_ok ops -> ends_ok (tr (pg_w (run ww ops))).
Proof. intros ww ops WW P. apply (pi_ends _ (run_PI ww WW ops P)). Qed.
Print Assumptions C24_reaches.

(** C25, for streams whose capture option was never switched on: once the stream has
    been dropped none of its listeners is left, it is given no event any more, and its
    dropped callback is not called. *)
Theorem C25_unsubscribes_partial :
  forall ww ops s, will_wake_ok ww ->
  ~ In (TCapture s true) (tr (pg_w (run ww ops))) -> In (TDrop s) (tr (pg_w (run ww ops))) ->
  (forall l, In l (listeners (pg_w (run ww ops))) -> l_cb l <> s) /\
  ~ In (TThrow s) (tr (pg_w (run ww ops))) /\
  (forall t n, ~ listening s t n (tr (pg_w (run ww ops)))).
Proof.
  intros ww ops s WW NC D. pose proof (run_EI ww WW ops) as I. split; [|split].
  - intros l Hl <-. destruct (ei_listener _ I _ Hl) as (L1 & L2 & L3). destruct (streams (pg_w (run ww ops)) (l_cb l)) as [st|] eqn:ES.
    + destruct (ei_stream _ I _ _ ES) as (_ & _ & N & _). contradiction.
    + apply NC, L2, L3.
  - intro H. apply NC, (ei_throw _ I _ H).
  - intros t n (_ & _ & H). contradiction.
Qed.
Print Assumptions C25_unsubscribes_partial.

(** C25 is false in general (event_handling.rs:159-170 removes the listener without its
    capture flag): a stream with the capture option on leaves its listener behind, and
    the next event calls the dropped callback. *)
Theorem C25_refuted :
  exists ops s, let w := pg_w (run (fun _ _ => false) ops) in
  In (TDrop s) (tr w) /\ (exists l, In l (listeners w) /\ l_cb l = s) /\
  In (TThrow s) (tr (pg_w (run (fun _ _ => false) (ops ++ [Begin [7] 8 9 true; Next; Next])))).
Proof.
  exists [Basic (BNew 7 8); Basic (BCapture 0 true); Basic (BPoll 0 (Arena.mkW (Some 1) 0)); Basic (BDrop 0)], 0.
  cbn. split; [auto|]. split; [eauto|]. auto.
Qed.
Print Assumptions C25_refuted.

(** Target 7 lies inside 6.  Streams 0, 1 and 3 wait for the same events of 7, 6 and 6
    (stream 3 with the capture option), stream 2 for other events of 7.  Event 100 reaches
    stream 3, then stream 0; the reaction to that polls stream 0, dispatches event 101, for
    which stream 2 waits, and drops stream 1 before its turn. *)
Definition demo : list op :=
  [Basic (BNew 7 8); Basic (BNew 6 8); Basic (BNew 7 9); Basic (BNew 6 8); Basic (BCapture 3 true);
   Basic (BPoll 0 (Arena.mkW (Some 1) 0)); Basic (BPoll 1 (Arena.mkW (Some 2) 0)); Basic (BPoll 2 (Arena.mkW (Some 3) 0)); Basic (BPoll 3 (Arena.mkW (Some 4) 0));
   Begin [7; 6] 8 100 true; Next; Next; Next; Next; Next;
   Basic (BPoll 0 (Arena.mkW (Some 5) 0)); Begin [7; 6] 9 101 true; Next; Next; Next; Next; Next; Next; Basic (BDrop 1);
   Next; Next; Next].
Example demo_runs :
  tr (pg_w (run (fun _ _ => false) demo)) =
    [TEnd 100; TDrop 1; TEnd 101; TRun; TWake (Arena.mkW (Some 3) 0); TDeliver 2 101; TBegin [7; 6] 9 101 true;
     TPoll 0 (Arena.mkW (Some 5) 0) (Some 100); TRun; TWake (Arena.mkW (Some 1) 0); TDeliver 0 100;
     TRun; TWake (Arena.mkW (Some 4) 0); TDeliver 3 100; TBegin [7; 6] 8 100 true;
     TPoll 3 (Arena.mkW (Some 4) 0) None; TPoll 2 (Arena.mkW (Some 3) 0) None; TPoll 1 (Arena.mkW (Some 2) 0) None; TPoll 0 (Arena.mkW (Some 1) 0) None;
     TCapture 3 true; TNew 3 6 8; TNew 2 7 9; TNew 1 6 8; TNew 0 7 8] /\
  map l_cb (listeners (pg_w (run (fun _ _ => false) demo))) = [0; 2; 3] /\ pg_stack (run (fun _ _ => false) demo) = [].
Proof. split; [|split]; reflexivity. Qed.
Example demo_ok :
  paths_ok demo /\ listening 1 6 8 (tr (pg_w (run (fun _ _ => false) (firstn 9 demo)))) /\
  ~ In (TCapture 1 true) (tr (pg_w (run (fun _ _ => false) demo))) /\ In (TDrop 1) (tr (pg_w (run (fun _ _ => false) demo))).
Proof.
  split; [|split; [|split]].
  - intros path n e b H. unfold demo in H. repeat (destruct H as [H|H]; [first [discriminate H|injection H as <- <- <- <-; repeat constructor; cbn; intros Q; repeat (destruct Q as [Q|Q]; [discriminate Q|]); exact Q]|]). destruct H.
  - split; [vm_compute; auto 12|split; [discriminate|]].
    vm_compute.
    intros Q. repeat (destruct Q as [Q|Q]; [discriminate Q|]); exact Q.
  - destruct demo_runs as [-> _]. intros Q. repeat (destruct Q as [Q|Q]; [discriminate Q|]); exact Q.
  - destruct demo_runs as [-> _]. now right; left.
Qed.
