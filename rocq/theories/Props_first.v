(** Property C78: a new combinator polls all its children before other code goes on.

    When a block awaits a new join, race, try_join or race_ok, the code of every child begins
    before any code that is not inside the combinator goes on, unless the combinator returns
    before.  So futures that take note of the state when they are polled for the first time
    take note of it as the awaiting block left it, but for what their siblings did. *)
From Coq Require Import List Arith Bool Lia.
From Verif Require Import Arena Spec_arena Readiness Combinator Tree Spec_tree Spec_first Tree_proofs First_proofs Props_tree Executor Spec_executor
  Queue Spec_queue App Page Page_proofs Props_page Spec_obey Spec_view View_proofs.
Import ListNotations.

(** C78: whenever code goes on, it is inside every combinator that has a child that has not begun. *)
Theorem C78_children_first :
  forall V X ww debug code x evs w a q got b, Tree.run V X ww debug code x evs = Done w -> w_tr V X w = a ++ Tree.ERun q got :: b ->
  forall n k c p i, In (ENew n k c p) b -> ~ gone n b -> i < k -> ~ begun (Kid n i) b -> below b n q.
Proof.
  intros V X ww debug code x evs w a q got b R E n k c p i H G L N. destruct (run_first V X ww debug code x evs w R) as [F _].
  rewrite E in F. apply always_split, always_head in F. apply (F n). exists k, c, p, i. auto.
Qed.
Print Assumptions C78_children_first.

(** C78: between polls of the application, every child of every combinator that has not
    returned has begun. *)
Theorem C78_all_begun :
  forall V X ww debug code x evs w, Tree.run V X ww debug code x evs = Done w ->
  forall n k c p i, In (ENew n k c p) (w_tr V X w) -> ~ gone n (w_tr V X w) -> i < k -> begun (Kid n i) (w_tr V X w).
Proof.
  intros V X ww debug code x evs w R n k c p i H G L. destruct (run_first V X ww debug code x evs w R) as [_ F].
  destruct (begun_dec V (Kid n i) (w_tr V X w)) as [Q|Q]; auto. destruct (F n). exists k, c, p, i. auto.
Qed.
Print Assumptions C78_all_begun.

(** C78, for the applications of a page: code of other applications, and code that runs
    outside the executor, runs between polls. *)
Theorem C78_page :
  forall V X ww debug bound code on_drop x evs s t, will_wake_ok ww -> page_code_ok code ->
  prun V X ww debug bound code on_drop x evs = Live s ->
  (forall a q got b, app_tr s t = a ++ Tree.ERun q got :: b ->
     forall n k c p i, In (ENew n k c p) b -> ~ gone n b -> i < k -> ~ begun (Kid n i) b -> below b n q) /\
  (forall n k c p i, In (ENew n k c p) (app_tr s t) -> ~ gone n (app_tr s t) -> i < k -> begun (Kid n i) (app_tr s t)).
Proof.
  intros V X ww debug bound code on_drop x evs s t WW CO R.
  destruct (prun_pi V X ww debug bound code on_drop WW CO x evs s R) as (_ & P).
  destruct (gd_prog _ _ _ _ _ _ (Page_proofs.pi_good _ _ _ _ _ _ P) t) as (z0 & tevs & TR). split.
  - intros a q got b E. eapply C78_children_first; eauto.
  - intros n k c p i. eapply C78_all_begun; eauto.
Qed.
Print Assumptions C78_page.

(** in the example of Props_tree.v a join of two blocks is made, and below it a race of two
    blocks; both blocks of the race begin before the second block of the join does *)
Definition ex_before : list (Tree.ev val) :=
  [Tree.EPoll (Kid 0 1); Tree.EPend (Kid 0 0); Tree.EPend (Kid 1 1); Tree.ERun (Kid 1 1) None; Tree.EPoll (Kid 1 1);
   Tree.EPend (Kid 1 0); Tree.ERun (Kid 1 0) None; Tree.EPoll (Kid 1 0); ENew 1 2 race_val (Kid 0 0); Tree.ERun (Kid 0 0) None; Tree.EPoll (Kid 0 0);
   ENew 0 2 join_val Root; Tree.ERun Root None; Tree.EPoll Root].
Example ex_first : match Tree.run val nat ex_ww true ex_code 0 [HPoll 30 0] with
  | Done w => w_tr val nat w = [Tree.EPend Root; Tree.EPend (Kid 0 1)] ++ Tree.ERun (Kid 0 1) None :: ex_before
  | _ => False end.
Proof. vm_compute. reflexivity. Qed.
Example ex_first_meets : In (ENew 0 2 join_val Root) ex_before /\ ~ gone 0 ex_before /\ ~ begun (Kid 0 1) ex_before /\
  begun (Kid 1 0) ex_before /\ begun (Kid 1 1) ex_before /\ below ex_before 0 (Kid 0 1).
Proof.
  split; [cbn; tauto|]. split; [intros (v & H); cbn in H; intuition discriminate|]. split; [intros (v & H); cbn in H; intuition discriminate|].
  split; [exists None; cbn; tauto|]. split; [exists None; cbn; tauto|]. constructor.
Qed.
(** code outside the join: the root's.  It goes on when all have begun. *)
Example ex_first_root : ~ below ex_before 0 Root.
Proof. intro H. inversion H. Qed.
