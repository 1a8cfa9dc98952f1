(** Property C66: the code of an application is run as written.

    Blocks: when a block goes on, its code is run on the current state; the wakers it wakes are
    woken, in this order, each wake going up towards the root; then the block waits, returns,
    or creates a combinator, as its code says; nothing else does any of this ([plays],
    Spec_obey.v).

    Tasks and pages: to compare what code does with what happens to it, the code keeps a log
    of what it does in its state (any code can be made to do so).  Everything in the log, and
    everything done by code outside the executor, is done, once; nothing else is. *)
From Coq Require Import List Arith Bool Lia.
From Verif Require Import Arena Spec_arena Readiness Combinator Tree Spec_tree Tree_proofs Props_tree Executor Spec_executor Executor_proofs
  Queue Spec_queue Queue_proofs App App_proofs Page Page_proofs Props_queue Props_page Spec_obey Obey_proofs Obey_page_proofs.
Import ListNotations.

Lemma run_PI' V X ww debug code x evs w : will_wake_ok ww -> Tree.run V X ww debug code x evs = Done w -> Obey_proofs.PI V X w.
Proof. intros WW R. eapply (Obey_proofs.run_PI V X ww debug code WW); [apply (PI_start V X x)|exact R]. Qed.

(** C66: a poll of the root runs the code of the blocks as written. *)
Theorem C66_poll :
  forall V X ww debug code x evs fuel tag w w', will_wake_ok ww -> code_ok code ->
  Tree.run V X ww debug code x evs = Done w -> ~ returned Root (w_tr V X w) ->
  Tree.run V X ww debug code x (evs ++ [HPoll fuel tag]) = Done w' ->
  exists new, w_tr V X w' = rev new ++ w_tr V X w /\ plays code (w_tr V X w) (w_x V X w) new (w_x V X w').
Proof.
  intros V X ww debug code x evs fuel tag w w' WW CO R NR R'. apply (Props_tree.run_snoc V X ww debug code _ _ _ _ _ R) in R'.
  eapply (poll_plays V X ww debug code WW fuel tag w w'); auto; [eapply run_PI'; eauto|].
  destruct (w_over V X w) eqn:O; auto. exfalso. apply NR.
  destruct (Tree_proofs.run_ok V X ww debug code WW CO x evs) as [_ I]. apply (g_over _ _ _ (g_glob _ _ _ _ _ _ (I w R))). exact O.
Qed.
Print Assumptions C66_poll.

(** C66: a wake from outside wakes this block's waker, and goes up from there; it changes
    nothing else. *)
Theorem C66_wake :
  forall V X ww debug code x evs p w w', will_wake_ok ww ->
  Tree.run V X ww debug code x evs = Done w -> Tree.run V X ww debug code x (evs ++ [HWake p]) = Done w' ->
  w_x V X w' = w_x V X w /\
  (made p (w_tr V X w) -> exists l, chain (w_tr V X w) p l /\ w_tr V X w' = rev (map Tree.EWake l) ++ w_tr V X w) /\
  (~ made p (w_tr V X w) -> w_tr V X w' = w_tr V X w).
Proof.
  intros V X ww debug code x evs p w w' WW R R'. apply (Props_tree.run_snoc V X ww debug code _ _ _ _ _ R) in R'. cbn [Tree.exec] in R'.
  destruct (wake_place_chain V X w p w' (run_PI' V X ww debug code x evs w WW R) R') as [(M & l & C & E & EX & _)|(M & ->)].
  - split; auto. split; [eauto|]. intro N. contradiction.
  - split; auto. split; [contradiction|auto].
Qed.
Print Assumptions C66_wake.

(** C66: tasks are woken, spawned and cancelled exactly as often as code says, also after a
    panic. *)
Theorem C66_tasks :
  forall X step fin log x evs s a, keeps_log log step fin evs -> log x = [] ->
  xrun X step fin x evs = Live s \/ xrun X step fin x evs = Crashed s ->
  count (q_does a) (q_tr X (xs _ s)) = count (does a) (log (q_x X (xs _ s))) + count (outside a) evs.
Proof.
  intros X step fin log x evs s a K L R. apply (tasks_counted X step fin log x evs K L). destruct R as [R|R]; rewrite R; reflexivity.
Qed.
Print Assumptions C66_tasks.

Lemma prun_pr V X ww debug bound code on_drop log x evs evs' s s' : will_wake_ok ww -> page_code_ok code -> page_log log code on_drop (evs ++ evs') ->
  (prun V X ww debug bound code on_drop x evs = Live s \/ prun V X ww debug bound code on_drop x evs = Crashed s) ->
  (prun V X ww debug bound code on_drop x (evs ++ evs') = Live s' \/ prun V X ww debug bound code on_drop x (evs ++ evs') = Crashed s') ->
  PR V X log (fun g => count (p_outside g) evs') (xs _ s) (xs _ s').
Proof.
  intros WW CO (LC & LD & LE) R R'. pose proof (prun_good V X ww debug bound code on_drop WW CO x evs) as G.
  assert (G0 : Good V X ww debug code (q_x _ (xs _ s))) by (destruct R as [R|R]; rewrite R in G; exact G). clear G.
  unfold prun in *. rewrite fold_left_app in R'.
  apply (fold_pr V X ww debug bound code on_drop log WW CO LC LD evs'
    (fold_left (pexec V X ww debug bound code on_drop) evs (Live (start _ (q_start _ (page0 V X x))))) (xs _ s) (xs _ s') G0).
  - intros f y y' l H. apply LE. apply in_app_iff. auto.
  - destruct R as [R|R]; rewrite R; reflexivity.
  - destruct R' as [R'|R']; rewrite R'; reflexivity.
Qed.

(** C66: on a page, applications are spawned and cancelled exactly as often as code says. *)
Theorem C66_page_tasks :
  forall V X ww debug bound code on_drop log x evs s, will_wake_ok ww -> page_code_ok code -> page_log log code on_drop evs -> log x = [] ->
  prun V X ww debug bound code on_drop x evs = Live s \/ prun V X ww debug bound code on_drop x evs = Crashed s ->
  count (q_does TSpawn) (q_tr _ (xs _ s)) = count (g_does GSpawn) (log (pg_x V X (q_x _ (xs _ s)))) + count (p_outside GSpawn) evs /\
  forall t, count (q_does (TCancel t)) (q_tr _ (xs _ s)) =
    count (g_does (GCancel t)) (log (pg_x V X (q_x _ (xs _ s)))) + count (p_outside (GCancel t)) evs.
Proof.
  intros V X ww debug bound code on_drop log x evs s WW CO PL L R.
  destruct (prun_pr V X ww debug bound code on_drop log x [] evs _ s WW CO PL (or_introl eq_refl) R) as (M & l & m & E & (C & _) & I & P & _).
  cbn in E. rewrite L in E. cbn in E. split; [|intro t]; rewrite C, E; cbn.
  - rewrite (rp_spawn _ _ _ _ _ _ P), I. reflexivity.
  - rewrite (rp_cancel _ _ _ _ _ _ P), I. reflexivity.
Qed.
Print Assumptions C66_page_tasks.

(** C66: and they are spawned and cancelled in the order in which code says so, whichever
    application or outside code it is: between any two moments, the trace of the tasks gains
    what the log gained (outside code keeps the log too: it spawns with [PCode]). *)
Theorem C66_page_order :
  forall V X ww debug bound code on_drop log x evs evs' s s', will_wake_ok ww -> page_code_ok code -> page_log log code on_drop (evs ++ evs') ->
  prun V X ww debug bound code on_drop x evs = Live s \/ prun V X ww debug bound code on_drop x evs = Crashed s ->
  prun V X ww debug bound code on_drop x (evs ++ evs') = Live s' \/ prun V X ww debug bound code on_drop x (evs ++ evs') = Crashed s' ->
  (forall a, ~ In (PDo a) evs') ->
  exists new, log (pg_x V X (q_x _ (xs _ s'))) = log (pg_x V X (q_x _ (xs _ s))) ++ new /\
    orders (q_tr _ (xs _ s')) = orders (q_tr _ (xs _ s)) ++ g_orders new.
Proof.
  intros V X ww debug bound code on_drop log x evs evs' s s' WW CO PL R R' N.
  destruct (prun_pr V X ww debug bound code on_drop log x evs evs' s s' WW CO PL R R') as (new & l & m & E & (_ & C) & I & P & O).
  exists new. split; auto. rewrite C, O; auto.
  - clear - N. induction evs' as [|e l IH]; auto. rewrite count_cons, IH; [|intros a H; apply (N a); right; exact H].
    destruct e as [a| | |]; auto. destruct (N a). left. reflexivity.
  - clear - N. intro t. induction evs' as [|e l IH]; auto. rewrite count_cons, IH; [|intros a H; apply (N a); right; exact H].
    destruct e as [a| | |]; auto. destruct (N a). left. reflexivity.
Qed.
Print Assumptions C66_page_order.

(** C66: the waker of an application's root block is woken exactly when its task is. *)
Theorem C66_page_roots :
  forall V X ww debug bound code on_drop x evs s t, will_wake_ok ww -> page_code_ok code ->
  prun V X ww debug bound code on_drop x evs = Live s \/ prun V X ww debug bound code on_drop x evs = Crashed s ->
  Spec_tree.wakes Root (app_tr s t) = count (q_does (TWake t)) (q_tr _ (xs _ s)).
Proof.
  intros V X ww debug bound code on_drop x evs s t WW CO R.
  assert (K : forall evs r q q', Good V X ww debug code (q_x _ q) -> qof _ r = Some q ->
    qof _ (fold_left (pexec V X ww debug bound code on_drop) evs r) = Some q' ->
    Spec_tree.wakes Root (w_tr V _ (pg_t V X (q_x _ q) t)) = count (q_does (TWake t)) (q_tr _ q) ->
    Spec_tree.wakes Root (w_tr V _ (pg_t V X (q_x _ q') t)) = count (q_does (TWake t)) (q_tr _ q')).
  { clear - WW CO. intros evs r q q' G Q Q' H. destruct (roots_counted V X ww debug bound code on_drop WW CO evs r q q' G Q Q' t) as (k & -> & ->). lia. }
  apply (K evs (Live (start _ (q_start _ (page0 V X x)))) (q_start _ (page0 V X x)) (xs _ s) (good0 V X ww debug code x) eq_refl); [|reflexivity].
  unfold prun in R. destruct R as [R|R]; rewrite R; reflexivity.
Qed.
Print Assumptions C66_page_roots.

(** C66: once a block exists, its waker is woken whenever code of any application, or outside,
    says so. *)
Theorem C66_page_wakes :
  forall V X ww debug bound code on_drop log x evs evs' s s' t p, will_wake_ok ww -> page_code_ok code -> page_log log code on_drop (evs ++ evs') ->
  prun V X ww debug bound code on_drop x evs = Live s \/ prun V X ww debug bound code on_drop x evs = Crashed s ->
  prun V X ww debug bound code on_drop x (evs ++ evs') = Live s' \/ prun V X ww debug bound code on_drop x (evs ++ evs') = Crashed s' ->
  made p (app_tr s t) ->
  exists new, log (pg_x V X (q_x _ (xs _ s'))) = log (pg_x V X (q_x _ (xs _ s))) ++ new /\
    Spec_tree.wakes p (app_tr s' t) >= Spec_tree.wakes p (app_tr s t) + count (g_does (GWake t p)) new + count (p_outside (GWake t p)) evs'.
Proof.
  intros V X ww debug bound code on_drop log x evs evs' s s' t p WW CO PL R R' M.
  destruct (prun_pr V X ww debug bound code on_drop log x evs evs' s s' WW CO PL R R') as (new & l & m & E & (C & _) & I & P & _).
  exists new. split; auto. destruct (rp_wake _ _ _ _ _ _ P t p M) as [_ W]. rewrite I in W. unfold gc in W. unfold app_tr. lia.
Qed.
Print Assumptions C66_page_wakes.

(** C66: what is run on a page is the code of the application whose block it is, block by
    block, with what the block got: if all code notes when it is run, the notes of an
    application are what its trace says. *)
Theorem C66_page_code :
  forall V X ww debug bound code on_drop note x evs s t, will_wake_ok ww -> page_code_ok code ->
  notes_runs note code on_drop evs -> note x = [] ->
  prun V X ww debug bound code on_drop x evs = Live s \/ prun V X ww debug bound code on_drop x evs = Crashed s ->
  runs (app_tr s t) = notes_of t (note (pg_x V X (q_x _ (xs _ s)))).
Proof. intros V X ww debug bound code on_drop note x evs s t WW CO N N0 R. eapply code_noted; eauto. Qed.
Print Assumptions C66_page_code.

(** C66: the drop code of an application is run exactly when the application is dropped, in
    that order. *)
Theorem C66_page_drops :
  forall V X ww debug bound code on_drop note x evs s, will_wake_ok ww -> page_code_ok code ->
  notes_drops note code on_drop evs -> note x = [] ->
  prun V X ww debug bound code on_drop x evs = Live s \/ prun V X ww debug bound code on_drop x evs = Crashed s ->
  drops (q_tr _ (xs _ s)) = note (pg_x V X (q_x _ (xs _ s))).
Proof. intros V X ww debug bound code on_drop note x evs s WW CO N N0 R. eapply drops_noted; eauto. Qed.
Print Assumptions C66_page_drops.

(** Non-vacuity: the programs of Props_tree.v and Props_page.v.  In the next poll of this one
    the second block goes on, wakes a racer and the root, and returns. *)
Example ex_obey :
  match Tree.run val nat ex_ww true ex_code 0 [HPoll 30 0; HEnv (fun _ => 1); HWake (Kid 0 1)] with
  | Done w => match Tree.exec val nat ex_ww true ex_code w (HPoll 30 1) with
    | Done w' => (firstn (length (w_tr val nat w') - length (w_tr val nat w)) (w_tr val nat w'))
    | _ => [] end
  | _ => [] end =
  rev [Tree.EPoll Root; Tree.EPoll (Kid 0 1); Tree.ERun (Kid 0 1) None; Tree.EWake (Kid 1 1); Tree.EWake (Kid 0 0); Tree.EWake Root; Tree.EWake Root;
       Tree.EDone (Kid 0 1) (VNat 7); EPend Root].
Proof. vm_compute. reflexivity. Qed.
(** the page of Props_page.v, with a log *)
Definition exl_code (t : nat) (x : nat * list gact) (p : place) (got : option val) : (nat * list gact) * list gact * next val :=
  let '(y, l, nx) := exp_code t (fst x) p got in ((y, snd x ++ l), l, nx).
Definition exl_drop (t : nat) (x : nat * list gact) : (nat * list gact) * list gact :=
  let (y, l) := exp_drop t (fst x) in ((y, snd x ++ l), l).
Definition exl_hist : list (pev (nat * list gact)) :=
  pmount ++ pmount ++ pmount ++ [PFire 9; PEnv (fun x => (1, snd x)); PDo (GWake 0 (Kid 0 1))].
Example ex_log : page_log snd exl_code exl_drop (exl_hist ++ [PFire 9]) /\ page_code_ok exl_code.
Proof.
  split; [split; [|split]|].
  - intros t x p got x' l nx. unfold exl_code. destruct (exp_code t (fst x) p got) as [[y m] k]. intros [= <- <- <-]. reflexivity.
  - intros t x x' l. unfold exl_drop. destruct (exp_drop t (fst x)) as [y m]. intros [= <- <-]. reflexivity.
  - intros f x x' l H. cbn in H. repeat destruct H as [H|H]; try discriminate H; [injection H as <-; intros [= <- <-]; rewrite app_nil_r; reflexivity|contradiction].
  - intros t x p got x' l k b n. unfold exl_code. destruct (exp_code t (fst x) p got) as [[y m] nx] eqn:E. intros [= <- <- ->]. eapply exp_code_ok; eauto.
Qed.
(** two applications wake each other's blocks; one spawns a task and cancels another *)
Example ex_log_run :
  match prun val _ ex_ww true 40 exl_code exl_drop (0, []) (exl_hist ++ [PFire 9]) with
  | Live s => (snd (pg_x val _ (q_x _ (xs _ s))), Spec_tree.wakes (Kid 0 1) (app_tr s 1), Spec_tree.wakes Root (app_tr s 0),
      count (q_does TSpawn) (q_tr _ (xs _ s)), count (q_does (TCancel 2)) (q_tr _ (xs _ s)), count (q_does (TWake 0)) (q_tr _ (xs _ s)))
  | _ => ([], 0, 0, 0, 0, 0)
  end = ([GWake 0 (Kid 1 1); GWake 0 Root; GWake 1 (Kid 0 1); GSpawn; GCancel 2; GWake 0 Root], 1, 4, 4, 1, 4).
Proof. vm_compute. reflexivity. Qed.
(** in the last turn a task is spawned and application 2 is cancelled, in this order *)
Example ex_log_order :
  match prun val _ ex_ww true 40 exl_code exl_drop (0, []) (exl_hist ++ [PFire 9]) with
  | Live s => orders (q_tr _ (xs _ s)) = [TSpawn; TSpawn; TSpawn; TSpawn; TCancel 2] /\ (forall a, ~ In (PDo a) [@PFire (nat * list gact) 9])
  | _ => False
  end.
Proof. vm_compute. split; [reflexivity|]. intros a [H|[]]. discriminate H. Qed.
(** tasks: the first one spawns a task that wakes it, and cancels the second one *)
Definition exk_step (t : nat) (x : list (option tact)) : list (option tact) * list (option tact) * outcome :=
  let l := match t with 0 => if length x <? 3 then [Some TSpawn; Some (TCancel 1); None] else [] | _ => [Some (TWake 0)] end in
  (x ++ l, l, match t with 0 => Pend | _ => Ready end).
Definition exk_fin (t : nat) (x : list (option tact)) : list (option tact) * list (option tact) :=
  let l := if t =? 1 then [Some (TWake 0)] else [] in (x ++ l, l).
Definition exk_evs : list (xev (list (option tact))) := mount_at ++ mount_at ++ [XFire 9; XDo (TWake 0); XFire 9].
Example ex_keeps_log : keeps_log (fun x => x) exk_step exk_fin exk_evs.
Proof.
  split; [|split].
  - intros t x x' l o. unfold exk_step. intros [= <- <- <-]. reflexivity.
  - intros t x x' l. unfold exk_fin. intros [= <- <-]. reflexivity.
  - intros f x H. cbn in H. repeat destruct H as [H|H]; try discriminate H. contradiction.
Qed.
Example ex_tasks :
  match xrun _ exk_step exk_fin [] exk_evs with
  | Live s => (rev (q_tr _ (xs _ s)), q_x _ (xs _ s))
  | _ => ([], [])
  end = ([QSpawn 0; QSpawn 1; QPoll 0; QSpawn 2; QCancel 1; QEnd 0; QDrop 1; QWake 0; QPoll 2; QWake 0; QEnd 2; QDrop 2; QPoll 0; QEnd 0; QWake 0; QPoll 0; QEnd 0],
         [Some TSpawn; Some (TCancel 1); None; Some (TWake 0); Some (TWake 0)]).
Proof. vm_compute. reflexivity. Qed.
(** the page of Props_page.v, with notes of what is run and dropped *)
Definition exn_state := (nat * (list (nat * (place * option val)) * list nat))%type.
Definition exn_code (t : nat) (x : exn_state) (p : place) (got : option val) : exn_state * list gact * next val :=
  let '(y, l, nx) := exp_code t (fst x) p got in ((y, (fst (snd x) ++ [(t, (p, got))], snd (snd x))), l, nx).
Definition exn_drop (t : nat) (x : exn_state) : exn_state * list gact :=
  let (y, l) := exp_drop t (fst x) in ((y, (fst (snd x), snd (snd x) ++ [t])), l).
Definition exn_hist : list (pev exn_state) :=
  pmount ++ pmount ++ pmount ++ [PFire 9; PCode (fun x => ((1, snd x), [GWake 0 (Kid 0 1); GSpawn])); PFire 9].
Example ex_notes : notes_runs (fun x => fst (snd x)) exn_code exn_drop exn_hist /\ notes_drops (fun x => snd (snd x)) exn_code exn_drop exn_hist /\ page_code_ok exn_code.
Proof.
  assert (C : forall t x p got x' l nx, exn_code t x p got = (x', l, nx) -> exists y, x' = (y, (fst (snd x) ++ [(t, (p, got))], snd (snd x)))).
  { intros t x p got x' l nx. unfold exn_code. destruct (exp_code t (fst x) p got) as [[y m] k]. intros [= <- <- <-]. eauto. }
  assert (D : forall t x x' l, exn_drop t x = (x', l) -> exists y, x' = (y, (fst (snd x), snd (snd x) ++ [t]))).
  { intros t x x' l. unfold exn_drop. destruct (exp_drop t (fst x)) as [y m]. intros [= <- <-]. eauto. }
  assert (P : forall f x x' l, In (PCode f) exn_hist -> f x = (x', l) -> snd x' = snd x).
  { intros f x x' l H. cbn in H. repeat destruct H as [H|H]; try discriminate H; [injection H as <-; intros [= <- <-]; reflexivity|contradiction]. }
  split; [|split].
  - split; [|split]; [intros t x p got x' l nx E; apply C in E as (y & ->); reflexivity|intros t x x' l E; apply D in E as (y & ->); reflexivity|].
    intros f x x' l H E. rewrite (P f x x' l H E). reflexivity.
  - split; [|split]; [intros t x p got x' l nx E; apply C in E as (y & ->); reflexivity|intros t x x' l E; apply D in E as (y & ->); reflexivity|].
    intros f x x' l H E. rewrite (P f x x' l H E). reflexivity.
  - intros t x p got x' l k b n. unfold exn_code. destruct (exp_code t (fst x) p got) as [[y m] nx] eqn:E. intros [= <- <- ->]. eapply exp_code_ok; eauto.
Qed.
Example ex_notes_run :
  match prun val _ ex_ww true 40 exn_code exn_drop (0, ([], [])) exn_hist with
  | Live s => (runs (app_tr s 0), runs (app_tr s 1), runs (app_tr s 2), runs (app_tr s 4), drops (q_tr _ (xs _ s)))
  | _ => ([], [], [], [], [])
  end = ([(Root, None); (Kid 0 0, None); (Kid 1 0, None); (Kid 1 1, None); (Kid 0 1, None); (Kid 0 1, None); (Kid 1 1, None)],
         [(Root, None); (Kid 0 0, None); (Kid 0 1, None); (Kid 0 1, None)], [(Root, None)], [(Root, None)], [2]).
Proof. vm_compute. reflexivity. Qed.
