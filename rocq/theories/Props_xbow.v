(** C39, C40, C41 and C43: change streams of x-bow. *)
From Coq Require Import List Arith Bool NArith Lia.
From Verif Require Import Arena Spec_arena Arena_proofs Xbow Spec_xbow Xbow_proofs Xbow_run_proofs.
Import ListNotations.

(** No history of creating, polling and dropping streams and of changing data panics. *)
Theorem C43_no_panic :
  forall ww Seg H ops, will_wake_ok ww -> exists w, run ww Seg H ops = Some w.
Proof. intros ww Seg H ops WW. destruct (run_ok ww WW Seg H ops) as (w & _ & E & _). eauto. Qed.
Print Assumptions C43_no_panic.

(** C39.  Whatever the hash function and whatever happened before: if [q], which is [p]
    or contains [p], was borrowed mutably since the last poll of an until_change stream of
    [p], the next poll is ready. *)
Theorem C39_ready :
  forall ww Seg H ops w s p wk d q, will_wake_ok ww -> run ww Seg H ops = Some w ->
  live Seg s p false (w_tr Seg w) ->
  since_poll Seg s (w_tr Seg w) = Some d -> In (TNotify _ q) d -> contains Seg q p ->
  exists w', exec ww Seg H w (OPoll _ s wk) = Some w' /\ w_tr Seg w' = TPoll _ s wk true :: w_tr Seg w.
Proof.
  intros ww Seg H ops w s p wk d q WW R L S N C. destruct (run_ok ww WW Seg H ops) as (w0 & A & E & I). rewrite R in E. injection E as <-.
  destruct (poll_live ww WW Seg H w A s p false wk I L) as (w' & r & E & T & Q). exists w'. split; [exact E|]. rewrite T. f_equal. f_equal.
  apply Q. destruct (affects_hit Seg H q p false C) as (k & K1 & K2). exists d, q, k. auto.
Qed.
Print Assumptions C39_ready.

(** ... and at the moment of the borrow the task that polled the stream last is woken. *)
Theorem C39_wakes :
  forall ww Seg H ops w s p wk q, will_wake_ok ww -> run ww Seg H ops = Some w ->
  live Seg s p false (w_tr Seg w) -> last_waker Seg s (w_tr Seg w) = Some wk -> contains Seg q p ->
  exists w' ws wk', exec ww Seg H w (ONotify _ q) = Some w' /\
    w_tr Seg w' = rev (map (TWake _) ws) ++ TNotify _ q :: w_tr Seg w /\ In wk' ws /\ w_task wk' = w_task wk.
Proof.
  intros ww Seg H ops w s p wk q WW R L LW C. destruct (run_ok ww WW Seg H ops) as (w0 & A & E & I). rewrite R in E. injection E as <-.
  destruct (notify_wakes ww Seg H w A q I) as (w' & ws & E & T & Q & _). destruct (affects_hit Seg H q p false C) as (k & K1 & K2).
  destruct (Q s p false k wk L K1 K2 LW) as (wk' & W & ST). exists w', ws, wk'. auto.
Qed.
Print Assumptions C39_wakes.

(** C40.  If the keys of the paths of the history (and of the paths that contain them) do
    not collide, a poll of an until_change stream of [p] is ready exactly if [p] or a path
    that contains it was borrowed mutably since the stream was polled last; the first poll
    is pending. *)
Theorem C40_ready :
  forall ww Seg H ops w s p wk, will_wake_ok ww -> no_collision Seg H (used Seg ops) ->
  run ww Seg H ops = Some w -> live Seg s p false (w_tr Seg w) ->
  exists w' ready, exec ww Seg H w (OPoll _ s wk) = Some w' /\ w_tr Seg w' = TPoll _ s wk ready :: w_tr Seg w /\
    (ready = true <-> exists d q, since_poll Seg s (w_tr Seg w) = Some d /\ In (TNotify _ q) d /\ contains Seg q p).
Proof.
  intros ww Seg H ops w s p wk WW NC R L. destruct (run_ok ww WW Seg H ops) as (w0 & A & E & I). rewrite R in E. injection E as <-.
  destruct (poll_live ww WW Seg H w A s p false wk I L) as (w' & r & E & T & Q). exists w', r. split; [exact E|]. split; [exact T|]. rewrite Q. split.
  - intros (d & q & k & S & N & K1 & K2). exists d, q. split; [exact S|]. split; [exact N|].
    apply (hit_affects Seg H (used Seg ops) q p false k); auto.
    + intros x C. pose proof (run_tr ww Seg H ops w R _ (since_in Seg s _ _ S _ N)) as F. cbn in F. exists (ONotify _ q), q. auto.
    + intros x C. pose proof (run_tr ww Seg H ops w R _ (proj1 L)) as F. cbn in F. exists (ONew _ p false), p. auto.
  - intros (d & q & S & N & C). destruct (affects_hit Seg H q p false C) as (k & K1 & K2). exists d, q, k. auto.
Qed.
Print Assumptions C40_ready.


(** ** The keys, for any hash function *)
Lemma regular_bits h d i : (d < 256)%N ->
  N.testbit (regular_from h d) i = if (i <? 8)%N then N.testbit d i else N.testbit h i.
Proof.
  intro D. unfold regular_from. rewrite N.lor_spec, N.ldiff_spec. change 255%N with (N.ones 8).
  destruct (N.ltb_spec i 8).
  - rewrite N.ones_spec_low by auto. rewrite andb_false_r. reflexivity.
  - rewrite N.ones_spec_high by auto. rewrite andb_true_r.
    replace (N.testbit d i) with false; [apply orb_false_r|]. symmetry.
    destruct (N.eq_dec d 0) as [->|Z]; [apply N.bits_0|]. apply N.bits_above_log2.
    apply N.lt_le_trans with 8%N; auto. apply N.log2_lt_pow2; [lia|]. exact D.
Qed.
Lemma high_bits h i : N.testbit (h / 256) i = N.testbit h (i + 8).
Proof. change 256%N with (2 ^ 8)%N. apply N.div_pow2_bits. Qed.
Lemma regular_high h d : (d < 256)%N -> (regular_from h d / 256 = h / 256)%N.
Proof.
  intro D. apply N.bits_inj. intro i. rewrite !high_bits, regular_bits by auto.
  destruct (N.ltb_spec (i + 8) 8); [lia|reflexivity].
Qed.
Lemma regular_low h d : (d < 256)%N -> (regular_from h d mod 256 = d)%N.
Proof.
  intro D. change 256%N with (2 ^ 8)%N. rewrite <- N.land_ones. apply N.bits_inj. intro i.
  rewrite N.land_spec, regular_bits by auto. destruct (N.ltb_spec i 8).
  - rewrite N.ones_spec_low by auto. apply andb_true_r.
  - rewrite N.ones_spec_high by auto. rewrite andb_false_r. symmetry.
    destruct (N.eq_dec d 0) as [->|Z]; [apply N.bits_0|]. apply N.bits_above_log2.
    apply N.lt_le_trans with 8%N; auto. apply N.log2_lt_pow2; [lia|]. exact D.
Qed.

(** C40, the hypothesis of freedom of collisions, for any hash function: two until_change
    keys are equal exactly if the hashes agree above the low byte and the depths agree
    modulo 256; two until_bubbling_change keys are equal exactly if the hashes are; and the
    two kinds of key of one path always differ. *)
Theorem C40_keys :
  forall Seg (H : list Seg -> N) p q,
  (regular_key Seg H p = regular_key Seg H q <->
     (H p / 256)%N = (H q / 256)%N /\ length p mod 256 = length q mod 256) /\
  (bubbling_key Seg H p = bubbling_key Seg H q <-> H p = H q) /\
  (regular_key Seg H p = bubbling_key Seg H q ->
     (H p / 256)%N = N.lxor (H q / 256)%N (0x33b741db0040f7e / 256)%N) /\
  regular_key Seg H p <> bubbling_key Seg H p.
Proof.
  intros Seg H p q.
  assert (D : forall x : list Seg, (N.of_nat (S (length x)) mod 256 < 256)%N) by (intro; apply N.mod_lt; discriminate).
  assert (DL : forall x y : list Seg, (N.of_nat (S (length x)) mod 256 = N.of_nat (S (length y)) mod 256)%N <-> length x mod 256 = length y mod 256).
  { intros x y. change 256%N with (N.of_nat 256). rewrite <- !Nat2N.inj_mod.
    split; intro E.
    - apply Nat2N.inj in E.
      pose proof (Nat.div_mod (S (length x)) 256 ltac:(discriminate)) as E1.
      pose proof (Nat.div_mod (S (length y)) 256 ltac:(discriminate)) as E2.
      pose proof (Nat.div_mod (length x) 256 ltac:(discriminate)) as E3.
      pose proof (Nat.div_mod (length y) 256 ltac:(discriminate)) as E4.
      pose proof (Nat.mod_upper_bound (length x) 256 ltac:(discriminate)).
      pose proof (Nat.mod_upper_bound (length y) 256 ltac:(discriminate)).
      pose proof (Nat.mod_upper_bound (S (length x)) 256 ltac:(discriminate)).
      pose proof (Nat.mod_upper_bound (S (length y)) 256 ltac:(discriminate)). lia.
    - f_equal. change (S (length x)) with (1 + length x). change (S (length y)) with (1 + length y).
      rewrite <- (Nat.add_mod_idemp_r 1 (length x)), <- (Nat.add_mod_idemp_r 1 (length y)) by discriminate. rewrite E. reflexivity. }
  assert (X : forall a b : list Seg, regular_key Seg H a = bubbling_key Seg H b ->
     (H a / 256)%N = N.lxor (H b / 256)%N (0x33b741db0040f7e / 256)%N).
  { intros a b E. rewrite <- (regular_high (H a) _ (D a)). fold (regular_key Seg H a). rewrite E.
    unfold bubbling_key, bubbling_from. apply N.bits_inj. intro i. rewrite N.lxor_spec, !high_bits, N.lxor_spec. reflexivity. }
  split; [|split; [|split]].
  - unfold regular_key. split.
    + intro E. split.
      * rewrite <- (regular_high (H p) _ (D p)), E. apply regular_high, D.
      * apply DL. rewrite <- (regular_low (H p) _ (D p)), E. apply regular_low, D.
    + intros (E1 & E2). apply DL in E2. rewrite E2. apply N.bits_inj. intro i. rewrite !regular_bits by apply D.
      destruct (N.ltb_spec i 8) as [L|L]; [reflexivity|].
      replace i with (i - 8 + 8)%N by lia. rewrite <- !high_bits, E1. reflexivity.
  - unfold bubbling_key, bubbling_from. split; [|intros ->; reflexivity]. intro E.
    apply (f_equal (fun x => N.lxor x 0x33b741db0040f7e)) in E. rewrite !N.lxor_assoc, N.lxor_nilpotent, !N.lxor_0_r in E. exact E.
  - apply X.
  - intro E. apply X in E. apply (f_equal (N.lxor (H p / 256)%N)) in E.
    rewrite N.lxor_nilpotent, <- N.lxor_assoc, N.lxor_nilpotent, N.lxor_0_l in E. discriminate E.
Qed.
Print Assumptions C40_keys.

(** ... so a hash function that separates the paths of a history above the low byte, also
    from each other's bubbling mask, satisfies it. *)
Theorem C40_good_hash :
  forall Seg (H : list Seg -> N) (P : list Seg -> Prop),
  (forall p q, P p -> P q -> (H p / 256)%N = (H q / 256)%N -> p = q) ->
  (forall p q, P p -> P q -> (H p / 256)%N <> N.lxor (H q / 256)%N (0x33b741db0040f7e / 256)%N) ->
  no_collision Seg H P.
Proof.
  intros Seg H P A B p q Pp Pq. destruct (C40_keys Seg H p q) as (K1 & K2 & K3 & _). split; [|split].
  - intro E. apply A; auto. apply K1, E.
  - intro E. apply A; auto. apply K2 in E. rewrite E. reflexivity.
  - intro E. apply (B p q Pp Pq). apply K3, E.
Qed.
Print Assumptions C40_good_hash.

(** ... and a borrow of [q] wakes only tasks that polled a live stream affected by it. *)
Theorem C40_wakes :
  forall ww Seg H ops w q, will_wake_ok ww -> no_collision Seg H (used Seg (ops ++ [ONotify _ q])) ->
  run ww Seg H ops = Some w ->
  exists w' ws, exec ww Seg H w (ONotify _ q) = Some w' /\
    w_tr Seg w' = rev (map (TWake _) ws) ++ TNotify _ q :: w_tr Seg w /\
    forall wk t, In wk ws -> w_task wk = Some t ->
    exists s p b wk', live Seg s p b (w_tr Seg w) /\ affects Seg q p b /\
      last_waker Seg s (w_tr Seg w) = Some wk' /\ w_task wk' = Some t.
Proof.
  intros ww Seg H ops w q WW NC R. destruct (run_ok ww WW Seg H ops) as (w0 & A & E & I). rewrite R in E. injection E as <-.
  destruct (notify_wakes ww Seg H w A q I) as (w' & ws & E & T & _ & Q). exists w', ws. split; [exact E|]. split; [exact T|].
  intros wk t W HT. destruct (Q wk t W HT) as (s & p & b & k & wk' & L & K1 & K2 & LW & ET). exists s, p, b, wk'. split; [exact L|]. split; [|auto].
  apply (hit_affects Seg H (used Seg (ops ++ [ONotify _ q])) q p b k); auto.
  - intros x C. exists (ONotify _ q), q. split; [apply in_app_iff; cbn; auto|]. auto.
  - intros x C. pose proof (run_tr ww Seg H ops w R _ (proj1 L)) as F. cbn in F. exists (ONew _ p b), p. split; [apply in_app_iff; auto|]. auto.
Qed.
Print Assumptions C40_wakes.

(** C41.  The same for until_bubbling_change streams, which are affected by [p] and by
    everything inside [p]: no change is missed for any hash function, ... *)
Theorem C41_ready :
  forall ww Seg H ops w s p wk d q, will_wake_ok ww -> run ww Seg H ops = Some w ->
  live Seg s p true (w_tr Seg w) ->
  since_poll Seg s (w_tr Seg w) = Some d -> In (TNotify _ q) d -> contains Seg p q ->
  exists w', exec ww Seg H w (OPoll _ s wk) = Some w' /\ w_tr Seg w' = TPoll _ s wk true :: w_tr Seg w.
Proof.
  intros ww Seg H ops w s p wk d q WW R L S N C. destruct (run_ok ww WW Seg H ops) as (w0 & A & E & I). rewrite R in E. injection E as <-.
  destruct (poll_live ww WW Seg H w A s p true wk I L) as (w' & r & E & T & Q). exists w'. split; [exact E|]. rewrite T. f_equal. f_equal.
  apply Q. destruct (affects_hit Seg H q p true C) as (k & K1 & K2). exists d, q, k. auto.
Qed.
Print Assumptions C41_ready.

Theorem C41_wakes :
  forall ww Seg H ops w s p wk q, will_wake_ok ww -> run ww Seg H ops = Some w ->
  live Seg s p true (w_tr Seg w) -> last_waker Seg s (w_tr Seg w) = Some wk -> contains Seg p q ->
  exists w' ws wk', exec ww Seg H w (ONotify _ q) = Some w' /\
    w_tr Seg w' = rev (map (TWake _) ws) ++ TNotify _ q :: w_tr Seg w /\ In wk' ws /\ w_task wk' = w_task wk.
Proof.
  intros ww Seg H ops w s p wk q WW R L LW C. destruct (run_ok ww WW Seg H ops) as (w0 & A & E & I). rewrite R in E. injection E as <-.
  destruct (notify_wakes ww Seg H w A q I) as (w' & ws & E & T & Q & _). destruct (affects_hit Seg H q p true C) as (k & K1 & K2).
  destruct (Q s p true k wk L K1 K2 LW) as (wk' & W & ST). exists w', ws, wk'. auto.
Qed.
Print Assumptions C41_wakes.

(** ... and without collisions no other change makes it ready. *)
Theorem C41_only :
  forall ww Seg H ops w s p wk, will_wake_ok ww -> no_collision Seg H (used Seg ops) ->
  run ww Seg H ops = Some w -> live Seg s p true (w_tr Seg w) ->
  exists w' ready, exec ww Seg H w (OPoll _ s wk) = Some w' /\ w_tr Seg w' = TPoll _ s wk ready :: w_tr Seg w /\
    (ready = true <-> exists d q, since_poll Seg s (w_tr Seg w) = Some d /\ In (TNotify _ q) d /\ contains Seg p q).
Proof.
  intros ww Seg H ops w s p wk WW NC R L. destruct (run_ok ww WW Seg H ops) as (w0 & A & E & I). rewrite R in E. injection E as <-.
  destruct (poll_live ww WW Seg H w A s p true wk I L) as (w' & r & E & T & Q). exists w', r. split; [exact E|]. split; [exact T|]. rewrite Q. split.
  - intros (d & q & k & S & N & K1 & K2). exists d, q. split; [exact S|]. split; [exact N|].
    apply (hit_affects Seg H (used Seg ops) q p true k); auto.
    + intros x C. pose proof (run_tr ww Seg H ops w R _ (since_in Seg s _ _ S _ N)) as F. cbn in F. exists (ONotify _ q), q. auto.
    + intros x C. pose proof (run_tr ww Seg H ops w R _ (proj1 L)) as F. cbn in F. exists (ONew _ p true), p. auto.
  - intros (d & q & S & N & C). destruct (affects_hit Seg H q p true C) as (k & K1 & K2). exists d, q, k. auto.
Qed.
Print Assumptions C41_only.

(** C43.  With [ks] the keys of all live streams: the map has exactly one entry for each of
    them, the list of an entry has as many registrations as [ks] has occurrences of the key,
    and every other place of the arena is on its list of free places (list 0). *)
Theorem C43_storage :
  forall ww Seg H ops w, will_wake_ok ww -> run ww Seg H ops = Some w ->
  let ks := concat (map (fun x => listen_keys Seg H (fst (snd x)) (snd (snd x))) (alive Seg (w_tr Seg w))) in
  let st := w_store Seg w in
  (forall k, In k (map fst (st_map st)) <-> In k ks) /\ NoDup (map fst (st_map st)) /\
  (forall k e, In (k, e) (st_map st) ->
     exists ws, ar_iter (st_arena st) (e_list e) = Some ws /\ length ws = count_occ N.eq_dec ks k) /\
  (exists free, ar_iter (st_arena st) 0 = Some free /\
     a_len (st_arena st) = 1 + length free + length (st_map st) + length ks).
Proof.
  intros ww Seg H ops w WW R. destruct (run_ok ww WW Seg H ops) as (w0 & A & E & I). rewrite R in E. injection E as <-.
  apply (storage Seg H w A I (run_alive ww Seg H ops w R)).
Qed.
Print Assumptions C43_storage.

(** in particular nothing is left when no stream is *)
Theorem C43_nothing_left :
  forall ww Seg H ops w, will_wake_ok ww -> run ww Seg H ops = Some w -> alive Seg (w_tr Seg w) = [] ->
  st_map (w_store Seg w) = [] /\
  exists free, ar_iter (st_arena (w_store Seg w)) 0 = Some free /\ a_len (st_arena (w_store Seg w)) = 1 + length free.
Proof.
  intros ww Seg H ops w WW R AL. destruct (C43_storage ww Seg H ops w WW R) as (M & _ & _ & free & F & L). rewrite AL in M, L. cbn in M, L.
  assert (E : st_map (w_store Seg w) = []). { destruct (st_map (w_store Seg w)) as [|x m]; [reflexivity|]. exfalso. apply (M (fst x)). cbn. auto. }
  split; [exact E|]. exists free. split; [exact F|]. rewrite E in L. cbn in L. lia.
Qed.
Print Assumptions C43_nothing_left.

(** A hash without collisions among short paths, and a history: a stream of [1;2], one of
    its parent [1] that bubbles, one of a sibling; a change of the root, of [1;2;7] and of
    [1]. *)
Definition hash (p : list N) : N := fold_left (fun a x => a * 16 + x + 1)%N p 1%N * 256.
Definition wA := Arena.mkW (Some 1) 0.
Definition wB := Arena.mkW (Some 2) 0.
Definition wC := Arena.mkW (Some 3) 0.
Definition demo : list (op N) :=
  [ONew _ [1; 2]%N false; ONew _ [1]%N true; ONew _ [1; 3]%N false;
   OPoll _ 0 wA; OPoll _ 1 wB; OPoll _ 2 wC;
   ONotify _ []; ONotify _ [1; 2; 7]%N; OPoll _ 0 wA; OPoll _ 1 wB; OPoll _ 0 wA;
   ONotify _ [1; 2]%N; OPoll _ 0 wA; OPoll _ 2 wC; OPoll _ 2 wC; ODrop _ 0; ODrop _ 2].
Example demo_runs :
  option_map (fun w => (w_tr N w, length (st_map (w_store N w)))) (run (fun _ _ => false) N hash demo) =
  Some ([TDrop _ 2; TDrop _ 0; TPoll _ 2 wC false; TPoll _ 2 wC true; TPoll _ 0 wA true; TWake _ wA; TWake _ wB; TNotify _ [1; 2]%N;
         TPoll _ 0 wA false; TPoll _ 1 wB true; TPoll _ 0 wA true; TWake _ wB; TNotify _ [1; 2; 7]%N;
         TWake _ wC; TWake _ wA; TNotify _ []; TPoll _ 2 wC false; TPoll _ 1 wB false; TPoll _ 0 wA false;
         TNew _ 2 [1; 3]%N false; TNew _ 1 [1]%N true; TNew _ 0 [1; 2]%N false], 1).
Proof. vm_compute. reflexivity. Qed.
(** its paths do not collide *)
Definition prefixes (p : list N) : list (list N) := map (fun n => firstn n p) (seq 0 (S (length p))).
Definition demo_paths : list (list N) :=
  concat (map (fun o => match op_path N o with Some q => prefixes q | None => [] end) demo).
Fixpoint path_eqb (p q : list N) : bool :=
  match p, q with [], [] => true | x :: p, y :: q => N.eqb x y && path_eqb p q | _, _ => false end.
Lemma path_eqb_eq p : forall q, path_eqb p q = true -> p = q.
Proof. induction p as [|x p IH]; intros [|y q]; cbn; try discriminate; auto. intro E. apply andb_true_iff in E as (E1 & E2). apply N.eqb_eq in E1. apply IH in E2. congruence. Qed.
Example demo_good_hash :
  (forall p q, In p demo_paths -> In q demo_paths -> (hash p / 256)%N = (hash q / 256)%N -> p = q) /\
  (forall p q, In p demo_paths -> In q demo_paths -> (hash p / 256)%N <> N.lxor (hash q / 256)%N (0x33b741db0040f7e / 256)%N).
Proof.
  assert (C : forallb (fun p => forallb (fun q =>
     (negb (hash p / 256 =? hash q / 256)%N || path_eqb p q) &&
     negb (hash p / 256 =? N.lxor (hash q / 256) (0x33b741db0040f7e / 256))%N) demo_paths) demo_paths = true) by (vm_compute; reflexivity).
  rewrite forallb_forall in C.
  split; intros p q P Q E; pose proof (C _ P) as D; cbv beta in D; rewrite forallb_forall in D; specialize (D _ Q);
    apply andb_true_iff in D as (D1 & D2); apply N.eqb_eq in E.
  - rewrite E in D1. apply path_eqb_eq, D1.
  - rewrite E in D2. discriminate D2.
Qed.
Example demo_no_collision : no_collision N hash (used N demo).
Proof.
  assert (U : forall p, used N demo p -> In p demo_paths).
  { intros p (o & q & HO & HP & (r & ->)). unfold demo_paths. apply in_concat. exists (prefixes (p ++ r)). split; [apply in_map_iff; exists o; rewrite HP; auto|].
    apply in_map_iff. exists (length p). split; [rewrite firstn_app, firstn_all, Nat.sub_diag; cbn; apply app_nil_r|]. apply in_seq. rewrite app_length. lia. }
  assert (C : forallb (fun p => forallb (fun q =>
     (negb (regular_key N hash p =? regular_key N hash q)%N || path_eqb p q) &&
     (negb (bubbling_key N hash p =? bubbling_key N hash q)%N || path_eqb p q) &&
     negb (regular_key N hash p =? bubbling_key N hash q)%N) demo_paths) demo_paths = true) by (vm_compute; reflexivity).
  intros p q P Q. apply U in P, Q. rewrite forallb_forall in C. pose proof (C _ P) as D. cbv beta in D. rewrite forallb_forall in D. specialize (D _ Q).
  apply andb_true_iff in D as (D & D3). apply andb_true_iff in D as (D1 & D2). apply negb_true_iff, N.eqb_neq in D3. split; [|split; [|exact D3]].
  - intro E. apply N.eqb_eq in E. rewrite E in D1. cbn in D1. apply path_eqb_eq, D1.
  - intro E. apply N.eqb_eq in E. rewrite E in D2. cbn in D2. apply path_eqb_eq, D2.
Qed.
