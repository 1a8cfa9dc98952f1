(** Property C81: what DiffedList.update renders, moves and removes.
    A call of the inner DynamicList that moves an item takes its nodes out of the document and puts them
    back, which loses the focus, scroll position and so on, so it matters that there are few. *)
From Coq Require Import List Arith Bool Lia Permutation.
From Verif Require Import Spec_list DynList DynList_proofs Calls Diffed Spec_diffed List_lemmas Diffed_proofs.
Import ListNotations.

Lemma drain_nil (drain : list key -> list key) : (forall set, Permutation (drain set) set) -> drain [] = [].
Proof. intro D. apply Permutation_nil. symmetry. apply D. Qed.
Lemma memb_head k l : memb k (k :: l) = true. Proof. apply memb_iff. left. reflexivity. Qed.
Lemma loop_prefix c : forall a b, NoDup (c ++ a) -> diff_loop (c ++ a) (c ++ a) (c ++ b) = diff_loop a a b.
Proof.
  induction c as [|k c IH]; intros a b ND; [reflexivity|]. cbn [app] in *. inversion ND as [|? ? NI ND']; subst. cbn [diff_loop]. rewrite memb_head, Nat.eqb_refl.
  rewrite l_remove_cons_same, l_remove_notin by exact NI. apply IH, ND'.
Qed.
Lemma calls_prefix drain c a b : NoDup (c ++ a) -> diff_calls drain (c ++ a) (c ++ b) = diff_calls drain a b.
Proof.
  intro ND. unfold diff_calls. rewrite nodup_fixed_point by exact ND. rewrite loop_prefix by exact ND.
  rewrite nodup_fixed_point; [reflexivity|]. induction c; [exact ND|]. inversion ND; auto.
Qed.
Lemma loop_new m : forall s it b, (forall k, In k m -> ~ In k s) ->
  diff_loop s it (m ++ b) = (map (fun k => DInsert k (hd_error it) None) m ++ fst (diff_loop s it b), snd (diff_loop s it b)).
Proof.
  induction m as [|k m IH]; intros s it b N; cbn [app map diff_loop]; [apply surjective_pairing|].
  rewrite (proj2 (memb_false k s)) by (apply N; left; reflexivity). rewrite IH by (intros; apply N; right; auto). reflexivity.
Qed.
Lemma loop_set new : forall s it, snd (diff_loop s it new) = filter (fun x => negb (memb x new)) s.
Proof.
  induction new as [|k t IH]; intros s it; cbn [diff_loop].
  - cbn. induction s as [|x s IH]; cbn; congruence.
  - assert (F : memb k s = true -> filter (fun x => negb (memb x t)) (l_remove k s) = filter (fun x => negb (memb x (k :: t))) s).
    { intros _. induction s as [|x s IHs]; [reflexivity|]. unfold l_remove in *. cbn [filter]. cbn [memb existsb]. fold (memb x t).
      unfold memb in *. cbn [existsb]. destruct (x =? k) eqn:E; cbn [negb orb]; [exact IHs|]. cbn [filter]. destruct (existsb (Nat.eqb x) t); cbn [negb]; [exact IHs|]. f_equal. exact IHs. }
    assert (G : memb k s = false -> filter (fun x => negb (memb x t)) s = filter (fun x => negb (memb x (k :: t))) s).
    { intro M. apply filter_ext_in. intros x I. unfold memb. cbn [existsb]. destruct (x =? k) eqn:E; [|reflexivity]. apply Nat.eqb_eq in E. subst x. apply memb_false in M. contradiction. }
    destruct (memb k s) eqn:M.
    + rewrite <- (F eq_refl). destruct it as [|p it]; [destruct (diff_loop _ _ t) eqn:E; cbn [snd]; rewrite <- (IH _ []), E; reflexivity|].
      destruct (p =? k); [apply IH|]. destruct (diff_loop _ _ t) eqn:E; cbn [snd]. rewrite <- (IH _ (p :: it)), E. reflexivity.
    + rewrite <- (G eq_refl). destruct (diff_loop _ _ t) eqn:E; cbn [snd]. rewrite <- (IH _ it), E. reflexivity.
Qed.
Lemma times_app f a b : times f (a ++ b) = times f a + times f b.
Proof. unfold times. rewrite filter_app, app_length. reflexivity. Qed.
Lemma times_cons f c l : times f (c :: l) = (if f c then 1 else 0) + times f l.
Proof. unfold times. cbn. destruct (f c); reflexivity. Qed.
Lemma memb_l_remove k x s : memb x (l_remove k s) = memb x s && negb (x =? k).
Proof.
  destruct (memb x (l_remove k s)) eqn:E; symmetry.
  - apply memb_iff, l_remove_in in E as [I N]. apply memb_iff in I. rewrite I. cbn. apply negb_true_iff, Nat.eqb_neq, N.
  - apply memb_false in E. apply not_true_is_false. intro Q. apply andb_true_iff in Q as [I N]. apply memb_iff in I. apply negb_true_iff, Nat.eqb_neq in N. apply E, l_remove_in. auto.
Qed.
Lemma loop_times k new : forall s it,
  times (inserts k) (fst (diff_loop s it new)) = count_occ Nat.eq_dec new k - (if memb k s then 1 else 0) /\
  times (moves k) (fst (diff_loop s it new)) <= (if memb k s then if memb k new then 1 else 0 else 0) /\
  times (removes k) (fst (diff_loop s it new)) = 0 /\
  length (fst (diff_loop s it new)) <= length new.
Proof.
  induction new as [|x t IH]; intros s it; [cbn; destruct (memb k s); cbn; lia|]. cbn [diff_loop].
  assert (ST : forall c s' it', (if memb x s then inserts k c = false /\ s' = l_remove x s /\ moves k c = (x =? k) else inserts k c = (x =? k) /\ s' = s /\ moves k c = false) -> removes k c = false ->
    let l := c :: fst (diff_loop s' it' t) in
    times (inserts k) l = count_occ Nat.eq_dec (x :: t) k - (if memb k s then 1 else 0) /\ times (moves k) l <= (if memb k s then if memb k (x :: t) then 1 else 0 else 0) /\
    times (removes k) l = 0 /\ length l <= length (x :: t)).
  { intros c s' it' C CR l. unfold l. rewrite !times_cons. cbn [count_occ length]. destruct (IH s' it') as (I1 & I2 & I3 & I4). rewrite I1, I3, CR.
    assert (MM : memb k (x :: t) = (k =? x) || memb k t) by reflexivity. rewrite MM. rewrite (Nat.eqb_sym k x).
    destruct (memb x s) eqn:M.
    - destruct C as (-> & -> & ->). rewrite memb_l_remove in *. rewrite (Nat.eqb_sym k x) in *. destruct (Nat.eq_dec x k) as [->|N].
      + rewrite M, Nat.eqb_refl in *. cbn [andb negb orb] in *. repeat split; lia.
      + apply Nat.eqb_neq in N. rewrite N in *. cbn [negb orb] in *. rewrite andb_true_r in *. repeat split; try lia.
    - destruct C as (-> & -> & ->). destruct (Nat.eq_dec x k) as [->|N].
      + rewrite M, Nat.eqb_refl in *. cbn [orb] in *. repeat split; lia.
      + apply Nat.eqb_neq in N. rewrite N in *. cbn [orb] in *. repeat split; lia. }
  destruct (memb x s) eqn:M.
  - destruct it as [|p it]; [specialize (ST (DMove x None) (l_remove x s) [] (conj eq_refl (conj eq_refl eq_refl)) eq_refl); destruct (diff_loop _ _ t); exact ST|].
    destruct (p =? x) eqn:E.
    + destruct (IH (l_remove x s) it) as (I1 & I2 & I3 & I4). rewrite I1, I3. cbn [count_occ length]. assert (MM : memb k (x :: t) = (k =? x) || memb k t) by reflexivity. rewrite MM.
      rewrite memb_l_remove in *. destruct (Nat.eq_dec x k) as [->|N].
      * rewrite M, Nat.eqb_refl in *. cbn [andb negb orb] in *. repeat split; lia.
      * assert (N' : k =? x = false) by (apply Nat.eqb_neq; auto). rewrite N' in *. cbn [negb orb] in *. rewrite andb_true_r in *. repeat split; lia.
    + specialize (ST (DMove x (Some p)) (l_remove x s) (p :: it) (conj eq_refl (conj eq_refl eq_refl)) eq_refl). destruct (diff_loop _ _ t). exact ST.
  - specialize (ST (DInsert x (hd_error it) None) s it (conj eq_refl (conj eq_refl eq_refl)) eq_refl). destruct (diff_loop _ _ t). exact ST.
Qed.
Lemma times_removes k l : times (removes k) (map (fun k => DRemove k None) l) = count_occ Nat.eq_dec l k /\
  times (inserts k) (map (fun k => DRemove k None) l) = 0 /\ times (moves k) (map (fun k => DRemove k None) l) = 0.
Proof.
  induction l as [|x l (I1 & I2 & I3)]; [auto|]. cbn [map]. rewrite !times_cons, I1, I2, I3. cbn [removes inserts moves count_occ].
  destruct (Nat.eq_dec x k) as [->|N]; [rewrite Nat.eqb_refl; auto|]. apply Nat.eqb_neq in N. rewrite N. auto.
Qed.
Lemma times_0 f cs : times f cs = 0 -> forall c, In c cs -> f c = false.
Proof. induction cs as [|x cs IH]; [intros _ c []|]. rewrite times_cons. destruct (f x) eqn:E; [discriminate|]. intros Q c [<-|I]; auto. Qed.

(** C81: how often a key is rendered, moved and removed by an update, whatever the previous and the new
    keys are: it is rendered (again) once for each time it is in the new keys, less one if it was shown;
    it is moved at most once, and only if it is shown before and after; it is removed, once, only if it was
    shown and is not in the new keys. *)
Theorem C81_each_key :
  forall drain prev new k, (forall set, Permutation (drain set) set) ->
  let cs := diff_calls drain prev new in
  times (inserts k) cs = count_occ Nat.eq_dec new k - (if in_dec Nat.eq_dec k prev then 1 else 0) /\
  (times (moves k) cs <= 1 /\ (times (moves k) cs = 1 -> In k prev /\ In k new)) /\
  times (removes k) cs = (if in_dec Nat.eq_dec k prev then if in_dec Nat.eq_dec k new then 0 else 1 else 0).
Proof.
  intros drain prev new k D cs. unfold cs, diff_calls. pose proof (loop_times k new (nodup Nat.eq_dec prev) prev) as (I1 & I2 & I3 & _).
  pose proof (loop_set new (nodup Nat.eq_dec prev) prev) as R. destruct (diff_loop _ prev new) as [cs' rest]. cbn [fst snd] in *.
  rewrite !times_app. destruct (times_removes k (drain rest)) as (R1 & R2 & R3). rewrite R1, R2, R3, I1, I3.
  assert (MP : memb k (nodup Nat.eq_dec prev) = if in_dec Nat.eq_dec k prev then true else false).
  { destruct (in_dec Nat.eq_dec k prev) as [I|N]; [apply memb_iff, nodup_In, I|apply memb_false; rewrite nodup_In; exact N]. }
  rewrite MP in *. split; [destruct (in_dec Nat.eq_dec k prev); lia|]. split.
  - destruct (in_dec Nat.eq_dec k prev) as [I|N]; [|split; lia]. destruct (memb k new) eqn:MN; [|split; lia]. split; [lia|]. intros _. split; [exact I|apply memb_iff, MN].
  - assert (CO : count_occ Nat.eq_dec (drain rest) k = count_occ Nat.eq_dec rest k) by (apply Permutation_count_occ, D).
    cbn [plus]. rewrite CO, R. assert (ND : NoDup (filter (fun x => negb (memb x new)) (nodup Nat.eq_dec prev))) by (apply NoDup_filter, NoDup_nodup).
    destruct (in_dec Nat.eq_dec k prev) as [I|N]; [destruct (in_dec Nat.eq_dec k new) as [I'|N']|].
    + apply count_occ_not_In. intro Q. apply filter_In in Q as [_ Q]. apply memb_iff in I'. rewrite I' in Q. discriminate.
    + apply NoDup_count_occ'; [exact ND|]. apply filter_In. split; [apply nodup_In, I|]. apply memb_false in N'. rewrite N'. reflexivity.
    + apply count_occ_not_In. intro Q. apply filter_In in Q as [Q _]. apply nodup_In in Q. contradiction.
Qed.
Print Assumptions C81_each_key.

(** C81: the number of calls is at most the number of new keys and of previous keys. *)
Theorem C81_linear :
  forall drain prev new, (forall set, Permutation (drain set) set) -> length (diff_calls drain prev new) <= length new + length prev.
Proof.
  intros drain prev new D. unfold diff_calls. pose proof (loop_times 0 new (nodup Nat.eq_dec prev) prev) as (_ & _ & _ & I4).
  pose proof (loop_set new (nodup Nat.eq_dec prev) prev) as R. destruct (diff_loop _ prev new) as [cs rest]. cbn [fst snd] in *.
  rewrite app_length, map_length, (Permutation_length (D rest)), R.
  assert (L1 : length (filter (fun x => negb (memb x new)) (nodup Nat.eq_dec prev)) <= length (nodup Nat.eq_dec prev)).
  { generalize (nodup Nat.eq_dec prev). intro l. induction l as [|x l IH]; cbn; [lia|]. destruct (negb _); cbn; lia. }
  assert (L2 : length (nodup Nat.eq_dec prev) <= length prev) by (clear; induction prev as [|x l IH]; cbn; [lia|]; destruct (in_dec _ _ _); cbn; lia). lia.
Qed.
Print Assumptions C81_linear.

(** C81: keys at the beginning that stay the same are left alone. *)
Theorem C81_prefix_untouched :
  forall drain common prev new, (forall set, Permutation (drain set) set) -> NoDup (common ++ prev) -> NoDup (common ++ new) ->
  forall k, In k common -> untouched k (diff_calls drain (common ++ prev) (common ++ new)).
Proof.
  intros drain common prev new D N1 N2 k I. rewrite calls_prefix by exact N1.
  assert (NI : forall l, NoDup (common ++ l) -> ~ In k l).
  { clear -I. induction common as [|x c IH]; [contradiction|]. cbn. intros l N IL. inversion N as [|? ? NX NR]; subst. destruct I as [->|I]; [apply NX, in_or_app; auto|]. exact (IH I l NR IL). }
  destruct (C81_each_key drain prev new k D) as (Q1 & (Q2 & Q3) & Q4). pose proof (NI _ N1) as A. pose proof (NI _ N2) as B.
  destruct (in_dec Nat.eq_dec k prev) as [?|_]; [contradiction|]. rewrite (proj1 (count_occ_not_In Nat.eq_dec new k) B) in Q1.
  assert (Q2' : times (moves k) (diff_calls drain prev new) = 0).
  { destruct (times (moves k) (diff_calls drain prev new)) as [|[|q]]; [reflexivity|destruct (Q3 eq_refl); contradiction|lia]. }
  intros c IC. split; [exact (times_0 _ _ Q1 c IC)|split; [exact (times_0 _ _ Q2' c IC)|exact (times_0 _ _ Q4 c IC)]].
Qed.
Print Assumptions C81_prefix_untouched.

(** C81: an update that only adds keys, at one place, makes the insertions and nothing else; one with the
    same keys as before (no key added) makes no call. *)
Theorem C81_only_insertions :
  forall drain before added after, (forall set, Permutation (drain set) set) -> NoDup (before ++ added ++ after) ->
  diff_calls drain (before ++ after) (before ++ added ++ after) = map (fun k => DInsert k (hd_error after) None) added.
Proof.
  intros drain b m a D ND.
  assert (N2 : NoDup (b ++ a)).
  { clear -ND. induction b as [|x b IH]; cbn in *; [induction m; [exact ND|inversion ND; auto]|]. inversion ND as [|? ? NI ND']; subst. constructor; [|auto]. rewrite !in_app_iff in *. tauto. }
  rewrite calls_prefix by exact N2.
  assert (N3 : NoDup (m ++ a)) by (clear -ND; induction b; [exact ND|]; inversion ND; auto).
  assert (N4 : NoDup a) by (clear -N3; induction m; [exact N3|]; inversion N3; auto).
  unfold diff_calls. rewrite nodup_fixed_point by exact N4. rewrite loop_new.
  - pose proof (loop_prefix a [] []) as P. rewrite !app_nil_r in P. rewrite P by exact N4. cbn [diff_loop fst snd]. rewrite (drain_nil drain D). cbn [map]. rewrite !app_nil_r. reflexivity.
  - intros k I J. clear -N3 I J. induction m as [|x m IH]; [contradiction|]. inversion N3 as [|? ? NI ND]; subst. destruct I as [->|I]; [apply NI, in_or_app; auto|auto].
Qed.
Print Assumptions C81_only_insertions.

(** C81: an update that only takes keys away from the end removes them and does nothing else. *)
Theorem C81_only_removals_at_the_end :
  forall drain kept gone, (forall set, Permutation (drain set) set) -> NoDup (kept ++ gone) ->
  exists order, Permutation order gone /\ diff_calls drain (kept ++ gone) kept = map (fun k => DRemove k None) order.
Proof.
  intros drain kept gone D ND. exists (drain gone). split; [apply D|]. rewrite <- (app_nil_r kept) at 2. rewrite calls_prefix by exact ND.
  unfold diff_calls. cbn [diff_loop]. rewrite nodup_fixed_point; [reflexivity|]. clear -ND. induction kept; [exact ND|]. inversion ND; auto.
Qed.
Print Assumptions C81_only_removals_at_the_end.

(** C81 refuted: removing the first key moves every other item, although their order stays the same. *)
Theorem C81_removal_moves_all_refuted :
  forall drain k rest, (forall set, Permutation (drain set) set) -> NoDup (k :: rest) ->
  diff_calls drain (k :: rest) rest = map (fun x => DMove x (Some k)) rest ++ [DRemove k None].
Proof.
  intros drain k rest D ND. unfold diff_calls. rewrite nodup_fixed_point by exact ND. inversion ND as [|? ? NI ND']; subst.
  assert (X : forall l s, (forall x, In x l -> In x s) -> NoDup l -> ~ In k l -> fst (diff_loop s (k :: rest) l) = map (fun x => DMove x (Some k)) l).
  { induction l as [|x l IH]; intros s S N NK; [reflexivity|]. inversion N as [|? ? NX NL]; subst. cbn [diff_loop map].
    rewrite (proj2 (memb_iff x s)) by (apply S; left; reflexivity). assert (KX : k =? x = false) by (apply Nat.eqb_neq; intros ->; apply NK; left; reflexivity). rewrite KX.
    specialize (IH (l_remove x s)). destruct (diff_loop _ _ l). cbn [fst] in *. f_equal. apply IH; [|exact NL|intro Q; apply NK; right; exact Q].
    intros y I. apply l_remove_in. split; [apply S; right; exact I|]. intros ->. contradiction. }
  pose proof (loop_set rest (k :: rest) (k :: rest)) as R. specialize (X rest (k :: rest) (fun x I => or_intror I) ND' NI).
  destruct (diff_loop _ _ rest) as [cs r]. cbn [fst snd] in *. subst cs. f_equal.
  assert (R' : r = [k]).
  { rewrite R. cbn [filter]. rewrite (proj2 (memb_false k rest) NI). cbn [negb]. f_equal. clear. assert (F : forall l, (forall x, In x l -> In x rest) -> filter (fun x => negb (memb x rest)) l = []).
    { induction l as [|x l IH]; intro S; [reflexivity|]. cbn. rewrite (proj2 (memb_iff x rest)) by (apply S; left; reflexivity). cbn. apply IH. intros; apply S; right; auto. } apply F. auto. }
  rewrite R'. rewrite (Permutation_length_1_inv (Permutation_sym (D [k]))). reflexivity.
Qed.
Print Assumptions C81_removal_moves_all_refuted.

(** C81 refuted: the documentation's own example (diffed_list.rs:11-34) starts with the vector [1; 1] and
    pushes Fibonacci numbers: after any number of clicks the list shows one 1, and shows it last.  (The
    numbers pushed differ from each other and from 1.) *)
Fixpoint pushed (v : list key) (more : list key) (drain : list key -> list key) : list (list key * (list key -> list key)) :=
  (v, drain) :: match more with [] => [] | x :: t => pushed (v ++ [x]) t drain end.
Theorem C81_documentation_example_refuted :
  forall drain more, (forall set, Permutation (drain set) set) -> NoDup (1 :: more) ->
  exists s, diff_run diff_new (pushed [1; 1] more drain) = Some s /\ df_keys s = more ++ [1].
Proof.
  intros drain more D ND. pose proof (drain_nil drain D) as D0.
  assert (MV : forall l a s t, NoDup (1 :: l ++ a) -> (forall x, In x l -> In x s) ->
    exists cs, diff_loop s (1 :: t) l = (cs, snd (diff_loop s (1 :: t) l)) /\ druns (l ++ a ++ [1]) cs = Some (a ++ l ++ [1])).
  { induction l as [|x l IH]; intros a s t N S; cbn [diff_loop app].
    - exists []. split; reflexivity.
    - inversion N as [|? ? N1 N']; subst. cbn [app] in N'. inversion N' as [|? ? Nx N'']; subst.
      rewrite (proj2 (memb_iff x s)) by (apply S; left; reflexivity). assert (X1 : 1 =? x = false) by (apply Nat.eqb_neq; intros <-; apply N1; left; reflexivity). rewrite X1.
      destruct (IH (a ++ [x]) (l_remove x s) t) as (cs & E & R).
      + constructor; [|].
        * intro Q. apply N1. cbn. rewrite !in_app_iff in *. cbn in Q. tauto.
        * rewrite app_assoc. apply (Permutation_NoDup (l := x :: l ++ a)); [apply Permutation_cons_append|exact N'].
      + intros y I. apply l_remove_in. split; [apply S; right; exact I|]. intros ->. apply Nx, in_or_app. auto.
      + destruct (diff_loop (l_remove x s) (1 :: t) l) as [cs0 r]. cbn [snd] in *. injection E as ->. exists (DMove x (Some 1) :: cs). split; [reflexivity|].
        cbn [druns dstep]. rewrite memb_head. assert (RK : ref_known (Some 1) (x :: l ++ a ++ [1]) = true) by (apply memb_iff; right; rewrite !in_app_iff; cbn; tauto). rewrite RK.
        cbn [andb]. rewrite X1. cbn [negb]. replace (x :: l ++ a ++ [1]) with ((x :: l ++ a) ++ [1]) by (cbn; rewrite app_assoc; reflexivity). rewrite (l_insert_before x 1 (x :: l ++ a) []).
        * rewrite l_remove_cons_same, l_remove_notin by exact Nx. cbn [l_remove filter]. rewrite <- !app_assoc in R. cbn [app] in R. rewrite <- app_assoc. rewrite R. reflexivity.
        * apply (Permutation_NoDup (l := 1 :: x :: l ++ a)); [apply Permutation_cons_append|exact N].
        * intros ->. rewrite Nat.eqb_refl in X1. discriminate. }
  assert (UP : forall m x, NoDup (1 :: m ++ [x]) -> diff_update (mkDiffed (1 :: 1 :: m) (m ++ [1])) (1 :: 1 :: m ++ [x]) drain = Some (mkDiffed (1 :: 1 :: m ++ [x]) ((m ++ [x]) ++ [1]))).
  { intros m x N. assert (Nm : NoDup (1 :: m)) by (apply (NoDup_remove_1 (1 :: m) [] x) in N; rewrite app_nil_r in N; exact N). inversion Nm as [|? ? N1 Nm']; subst.
    assert (Nx : ~ In x (1 :: m)) by (apply (NoDup_remove_2 (1 :: m) [] x) in N; rewrite app_nil_r in N; exact N).
    unfold diff_update, diff_calls. cbn [df_prev df_keys]. assert (NN : nodup Nat.eq_dec (1 :: 1 :: m) = 1 :: m).
    { cbn [nodup]. destruct (in_dec _ 1 (1 :: m)) as [_|C]; [|exfalso; apply C; left; reflexivity]. exact (nodup_fixed_point Nat.eq_dec Nm). }
    rewrite NN. cbn [diff_loop]. rewrite memb_head, Nat.eqb_refl, l_remove_cons_same, l_remove_notin by exact N1. rewrite (proj2 (memb_false 1 m) N1).
    destruct (MV m [] m m) as (cs & E & R); [rewrite app_nil_r; exact Nm|auto|]. cbn [app] in R.
    assert (LA : forall l s, NoDup l -> (forall y, In y l -> In y s) -> ~ In x s -> ~ In 1 l -> diff_loop s (1 :: m) (l ++ [x]) = (fst (diff_loop s (1 :: m) l) ++ [DInsert x (Some 1) None], snd (diff_loop s (1 :: m) l))).
    { induction l as [|y l IH]; intros s NL S NS N1l; cbn [app diff_loop].
      - rewrite (proj2 (memb_false x s) NS). reflexivity.
      - inversion NL; subst. rewrite (proj2 (memb_iff y s)) by (apply S; left; reflexivity). assert (X1 : 1 =? y = false) by (apply Nat.eqb_neq; intros <-; apply N1l; left; reflexivity). rewrite X1.
        rewrite IH; [destruct (diff_loop _ _ l); reflexivity|assumption| | |].
        + intros z I. apply l_remove_in. split; [apply S; right; exact I|]. intros ->. contradiction.
        + intro Q. apply l_remove_in in Q as [Q _]. contradiction.
        + intro Q. apply N1l. right. exact Q. }
    rewrite LA; [|exact Nm'|auto|intro Q; apply Nx; right; exact Q|exact N1].
    pose proof (loop_set m m (1 :: m)) as RS. rewrite E in RS |- *. cbn [fst snd hd_error] in *. rewrite RS.
    assert (F : filter (fun y => negb (memb y m)) m = []).
    { assert (F : forall l, (forall y, In y l -> In y m) -> filter (fun y => negb (memb y m)) l = []).
      { induction l as [|y l IH]; intro S; [reflexivity|]. cbn. rewrite (proj2 (memb_iff y m)) by (apply S; left; reflexivity). cbn. apply IH. intros; apply S; right; auto. } apply F. auto. }
    rewrite F, D0. cbn [map]. rewrite app_nil_r. cbn [app druns dstep]. assert (RK : ref_known (Some 1) (m ++ [1]) = true) by (apply memb_iff, in_or_app; right; left; reflexivity).
    rewrite RK. cbn [expected andb l_insert]. rewrite Nat.eqb_refl.
    assert (DA : forall cs ks ks', druns ks cs = Some ks' -> druns ks (cs ++ [DInsert x (Some 1) None]) = dstep ks' (DInsert x (Some 1) None)).
    { clear. induction cs as [|c cs IH]; intros ks ks' Q; cbn [app druns] in *; [injection Q as <-; destruct (dstep ks _); reflexivity|]. destruct (dstep ks c); [|discriminate]. apply IH, Q. }
    rewrite (DA cs _ _ R). unfold dstep. rewrite RK. cbn [expected andb]. rewrite (l_insert_before x 1 m []).
    - rewrite l_remove_notin by (intro Q; apply Nx; right; exact Q). cbn. rewrite <- app_assoc. reflexivity.
    - apply (Permutation_NoDup (l := 1 :: m)); [apply Permutation_cons_append|exact Nm].
    - intros ->. apply Nx. left. reflexivity. }
  assert (GO : forall more m s, NoDup (1 :: m ++ more) -> diff_update s (1 :: 1 :: m) drain = Some (mkDiffed (1 :: 1 :: m) (m ++ [1])) ->
    exists s', diff_run s (pushed (1 :: 1 :: m) more drain) = Some s' /\ df_keys s' = (m ++ more) ++ [1]).
  { clear more ND. induction more as [|x more IH]; intros m s N E; cbn [pushed diff_run]; rewrite E.
    - eexists. split; [reflexivity|]. rewrite app_nil_r. reflexivity.
    - destruct (IH (m ++ [x]) (mkDiffed (1 :: 1 :: m) (m ++ [1]))) as (s' & R & K).
      + rewrite <- app_assoc. exact N.
      + cbn [app]. apply UP. clear -N. change (1 :: m ++ x :: more) with ((1 :: m) ++ x :: more) in N. change (NoDup ((1 :: m) ++ [x])). generalize dependent (1 :: m).
        intros l N. induction l as [|y l IH]; cbn in *; [repeat constructor; auto|]. inversion N as [|? ? NI N']; subst. constructor; [|auto]. rewrite in_app_iff in *. cbn in *. tauto.
      + exists s'. split; [exact R|]. rewrite K, <- (app_assoc m). reflexivity. }
  apply (GO more [] diff_new); [exact ND|]. unfold diff_update, diff_calls. cbn. rewrite D0. reflexivity.
Qed.
Print Assumptions C81_documentation_example_refuted.

(** Non-vacuity *)
Example C81_nonvacuous :
  (forall set : list key, Permutation (rev set) set) /\
  diff_calls (@rev key) [1; 2; 3; 4] [1; 2; 5; 4; 4] = [DInsert 5 (Some 3) None; DMove 4 (Some 3); DInsert 4 (Some 3) None; DRemove 3 None] /\
  diff_calls (@rev key) ([1; 2] ++ [3]) ([1; 2] ++ [7; 8] ++ [3]) = [DInsert 7 (Some 3) None; DInsert 8 (Some 3) None] /\
  diff_calls (@rev key) [1; 2; 3] [2; 3] = [DMove 2 (Some 1); DMove 3 (Some 1); DRemove 1 None] /\
  map fst (pushed [1; 1] [2; 3; 5] (@rev key)) = [[1; 1]; [1; 1; 2]; [1; 1; 2; 3]; [1; 1; 2; 3; 5]] /\ NoDup [1; 2; 3; 5].
Proof. split; [intro; symmetry; apply Permutation_rev|]. repeat split; repeat constructor; cbn; intuition discriminate. Qed.
