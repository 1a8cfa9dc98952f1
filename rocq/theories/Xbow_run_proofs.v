(** Proofs for C39-C41 and C43: histories. *)
From Coq Require Import List Arith Bool NArith Lia Permutation.
From Verif Require Import Util Arena Spec_arena Arena_proofs Xbow Spec_xbow Xbow_proofs.
Import ListNotations.

Section Run.
Variable ww : waker -> waker -> bool.
Hypothesis WW : will_wake_ok ww.
Variable Seg : Type.
Variable H : list Seg -> N.
Notation ev := (ev Seg).
Notation path := (path Seg).
Notation world := (world Seg).
Notation rk := (regular_key Seg H).
Notation bk := (bubbling_key Seg H).

(** * Keys *)
Lemma visit_from_spec (p : path) : forall w n,
  visit_from Seg w (N.of_nat (S n) mod 256) p =
  map (fun m => (w ++ firstn m p, (N.of_nat (S (n + m)) mod 256)%N)) (seq 1 (length p)).
Proof.
  induction p as [|s p IH]; intros w n; [reflexivity|]. cbn [visit_from length seq map].
  assert (E : (((N.of_nat (S n) mod 256) + 1) mod 256 = N.of_nat (S (S n)) mod 256)%N).
  { rewrite N.add_mod_idemp_l by discriminate. f_equal. lia. }
  rewrite E. f_equal.
  - cbn [firstn]. f_equal. f_equal. lia.
  - rewrite IH. rewrite <- seq_shift. rewrite <- (seq_shift (length p) 1), <- seq_shift, !map_map. apply map_ext. intro m. rewrite <- app_assoc.
    f_equal. f_equal. lia.
Qed.
Lemma visit_spec (p : path) : visit Seg p = map (fun m => (firstn m p, (N.of_nat (S m) mod 256)%N)) (seq 0 (S (length p))).
Proof.
  unfold visit. change 1%N with (N.of_nat 1 mod 256)%N at 2. rewrite (visit_from_spec p [] 0). reflexivity.
Qed.
Lemma last_visit_spec (p : path) : last_visit Seg p = (p, (N.of_nat (S (length p)) mod 256)%N).
Proof.
  unfold last_visit. rewrite visit_spec, seq_S, map_app. cbn [map]. rewrite last_last, Nat.add_0_l, firstn_all. reflexivity.
Qed.
Lemma in_prefixes (q p : path) d : In (q, d) (visit Seg p) <-> contains Seg q p /\ d = (N.of_nat (S (length q)) mod 256)%N.
Proof.
  rewrite visit_spec, in_map_iff. split.
  - intros (m & E & Hm). apply in_seq in Hm. injection E as <- <-. split; [exists (skipn m p); symmetry; apply firstn_skipn|].
    rewrite firstn_length_le by lia. reflexivity.
  - intros ((r & ->) & ->). exists (length q). split.
    + rewrite firstn_app, firstn_all, Nat.sub_diag. cbn. rewrite app_nil_r. reflexivity.
    + apply in_seq. rewrite app_length. lia.
Qed.
Lemma listen_regular (p : path) k : In k (listen_keys Seg H p false) <-> exists q, contains Seg q p /\ k = rk q.
Proof.
  unfold listen_keys. rewrite in_map_iff. split.
  - intros ((q, d) & <- & Q). apply in_prefixes in Q as (Q & ->). exists q. auto.
  - intros (q & Q & ->). exists (q, (N.of_nat (S (length q)) mod 256)%N). split; [reflexivity|]. apply in_prefixes. auto.
Qed.
Lemma listen_bubbling (p : path) k : In k (listen_keys Seg H p true) <-> k = bk p.
Proof. unfold listen_keys. rewrite last_visit_spec. cbn. intuition. Qed.
Lemma notify_spec (q : path) k : In k (notify_keys Seg H q) <-> k = rk q \/ exists p, contains Seg p q /\ k = bk p.
Proof.
  unfold notify_keys. rewrite last_visit_spec, in_app_iff, in_map_iff. split.
  - intros [((p, d) & <- & Q)|[<-|[]]]; [|left; reflexivity]. apply in_prefixes in Q as (Q & ->). right. eauto.
  - intros [->|(p & Q & ->)]; [right; cbn; auto|]. left. exists (p, (N.of_nat (S (length p)) mod 256)%N). split; [reflexivity|]. apply in_prefixes. auto.
Qed.
(** a change that affects a stream hits one of its keys *)
Lemma affects_hit q p b : affects Seg q p b -> exists k, In k (listen_keys Seg H p b) /\ In k (notify_keys Seg H q).
Proof.
  destruct b; cbn [affects]; intro A.
  - exists (bk p). split; [apply listen_bubbling; reflexivity|]. apply notify_spec. right. eauto.
  - exists (rk q). split; [apply listen_regular; eauto|]. apply notify_spec. auto.
Qed.
(** and without collisions only such a change does *)
Lemma hit_affects P q p b k : no_collision Seg H P -> (forall x, contains Seg x q -> P x) -> (forall x, contains Seg x p -> P x) ->
  In k (listen_keys Seg H p b) -> In k (notify_keys Seg H q) -> affects Seg q p b.
Proof.
  intros NC Pq Pp L N. apply notify_spec in N. assert (self : forall x, contains Seg x x) by (intro x; exists []; rewrite app_nil_r; reflexivity).
  destruct b; cbn [affects].
  - apply listen_bubbling in L. subst k. destruct N as [E|(x & C & E)].
    + exfalso. symmetry in E. revert E. apply NC; auto.
    + apply NC in E; auto. subst x. exact C.
  - apply listen_regular in L as (x & C & ->). destruct N as [E|(y & C' & E)].
    + apply NC in E; auto. subst x. exact C.
    + exfalso. revert E. apply NC; auto.
Qed.
Lemma listen_nonempty p b : listen_keys Seg H p b <> [].
Proof. destruct b; cbn; discriminate. Qed.

(** * Counting what hits a stream *)
Fixpoint sum (l : list nat) : nat := match l with [] => 0 | x :: l => x + sum l end.
Definition hit (ks : list N) (q : path) : nat := sum (map (fun k => count k (notify_keys Seg H q)) ks).
Fixpoint hits (ks : list N) (t : list ev) : nat :=
  match t with [] => 0 | TNotify _ q :: t => hit ks q + hits ks t | _ :: t => hits ks t end.
Lemma hit_pos ks q : 0 < hit ks q <-> exists k, In k ks /\ In k (notify_keys Seg H q).
Proof.
  unfold hit. induction ks as [|k ks IH]; cbn [map sum In].
  - split; [lia|]. intros (k & [] & _).
  - split.
    + intro L. unfold count at 1 in L. destruct (in_dec N.eq_dec k (notify_keys Seg H q)) as [I|N]; [exists k; auto|].
      apply (count_occ_not_In N.eq_dec) in N. rewrite N in L. destruct (proj1 IH L) as (k' & ? & ?). exists k'. auto.
    + intros (k' & [<-|I] & I'); [unfold count at 1; apply (count_occ_In N.eq_dec) in I'; lia|]. assert (0 < sum (map (fun k0 => count k0 (notify_keys Seg H q)) ks)) by (apply IH; eauto). lia.
Qed.
Lemma hits_pos ks t : 0 < hits ks t <-> exists q, In (TNotify _ q) t /\ 0 < hit ks q.
Proof.
  induction t as [|e t IH]; cbn; [split; [lia|intros (q & [] & _)]|].
  assert (X : (exists q, (e = TNotify Seg q \/ In (TNotify Seg q) t) /\ 0 < hit ks q) <-> (exists q, e = TNotify Seg q /\ 0 < hit ks q) \/ (0 < hits ks t)).
  { rewrite IH. split; [intros (q & [?|?] & ?); eauto|intros [(q & ? & ?)|(q & ? & ?)]; eauto]. }
  rewrite X. destruct e; try (split; [auto|]; intros [(q0 & [=] & _)|?]; auto; fail).
  split.
  - intro L. destruct (Nat.eq_dec (hit ks q) 0); [right; lia|left; exists q; split; [reflexivity|lia]].
  - intros [(q0 & [= ->] & ?)|?]; lia.
Qed.
Definition sumv (A : list row) (ks : list N) : nat := fold_right (fun k n => ver A k + n) 0 ks.
Lemma sumv_ext A A' ks : (forall k, In k ks -> ver A' k = ver A k) -> sumv A' ks = sumv A ks.
Proof. induction ks as [|k ks IH]; intro E; [reflexivity|]. cbn [sumv fold_right]. rewrite E by (cbn; auto). f_equal. apply IH. intros; apply E; cbn; auto. Qed.
Lemma sumv_hit A A' ks q : (forall k, In k ks -> ver A' k = ver A k + count k (notify_keys Seg H q)) -> sumv A' ks = sumv A ks + hit ks q.
Proof. unfold hit. induction ks as [|k ks IH]; intro E; [reflexivity|]. cbn [sumv fold_right map sum]. fold (sumv A' ks). fold (sumv A ks). rewrite E by (cbn; auto). rewrite IH by (intros; apply E; cbn; auto). lia. Qed.
Lemma ver_pos A k : full A -> In k (keys A) -> 1 <= ver A k.
Proof.
  intros FU I. unfold ver. destruct (lookup k (rmap A)) as [e|] eqn:E; [|apply lookup_none in E; contradiction].
  destruct (lookup_split _ _ _ E) as (A1 & l & A2 & -> & _). apply (FU (k, (e, l))). apply in_app_iff. cbn. auto.
Qed.

(** * The invariant *)
Definition ukeys (u : stream) : list N := map fst (u_slots u).
Definition mentions (s : nat) (e : ev) : Prop :=
  match e with TNew _ s' _ _ => s' = s | TPoll _ s' _ _ => s' = s | TDrop _ s' => s' = s | _ => False end.
Record WI (w : world) (A : list row) : Prop := {
  wi_si : SI (w_store Seg w) A;
  wi_full : full A;
  wi_regs : Permutation (map fst (regs A)) (concat (map u_slots (w_streams Seg w)));
  wi_ids : NoDup (map u_id (w_streams Seg w));
  wi_lt : forall u, In u (w_streams Seg w) -> u_id u < w_next Seg w;
  wi_tr : forall e s, In e (w_tr Seg w) -> mentions s e -> s < w_next Seg w;
  wi_live : forall s p b, In (TNew _ s p b) (w_tr Seg w) -> ~ In (TDrop _ s) (w_tr Seg w) ->
     exists u, In u (w_streams Seg w) /\ u_id u = s /\ ukeys u = listen_keys Seg H p b;
  wi_from : forall u, In u (w_streams Seg w) -> exists p b, In (TNew _ (u_id u) p b) (w_tr Seg w) /\ ~ In (TDrop _ (u_id u)) (w_tr Seg w) /\ ukeys u = listen_keys Seg H p b;
  wi_wk : forall u x k, In u (w_streams Seg w) -> In x (u_slots u) -> In (x, k) (regs A) ->
     match last_waker Seg (u_id u) (w_tr Seg w) with Some wk => k = wk | None => k = dummy_waker end;
  wi_sum : forall u, In u (w_streams Seg w) ->
     match since_poll Seg (u_id u) (w_tr Seg w) with
     | None => u_last u = 0
     | Some d => 1 <= u_last u /\ sumv A (ukeys u) = u_last u + hits (ukeys u) d
     end }.

Lemma wi_init : WI (init Seg) [].
Proof.
  split; cbn; try (intros; contradiction).
  - apply new_SI.
  - intros x [].
  - constructor.
  - constructor.
Qed.

Lemma slots_in w A u x : WI w A -> In u (w_streams Seg w) -> In x (u_slots u) -> exists k, In (x, k) (regs A).
Proof.
  intros I Hu Hx. assert (Q : In x (map fst (regs A))). { rewrite (wi_regs _ _ I). apply in_concat. exists (u_slots u). split; [apply in_map, Hu|exact Hx]. }
  apply in_map_iff in Q as ((y, k) & EQ & Q). cbn in EQ. subst y. eauto.
Qed.
Lemma ukeys_in w A u k : WI w A -> In u (w_streams Seg w) -> In k (ukeys u) -> In k (keys A).
Proof.
  intros I Hu Hk. apply in_map_iff in Hk as ((k', i) & EQ & Hx). cbn in EQ. subst k'.
  destruct (slots_in _ _ _ _ I Hu Hx) as (wk & R). apply regs_in in R as (e & l & R & _). apply in_map_iff. exists (k, (e, l)). auto.
Qed.
Lemma id_unique l (u u' : stream) : NoDup (map u_id l) -> In u l -> In u' l -> u_id u = u_id u' -> u = u'.
Proof.
  induction l as [|v l IH]; intros ND H1 H2 E; [destruct H1|]. cbn in ND. inversion ND; subst.
  destruct H1 as [->|H1], H2 as [->|H2]; auto.
  - exfalso. apply H4. rewrite E. apply in_map, H2.
  - exfalso. apply H4. rewrite <- E. apply in_map, H1.
Qed.
Lemma find_stream_some s l u : find_stream s l = Some u -> In u l /\ u_id u = s.
Proof. unfold find_stream. intro E. apply find_some in E as (I & E). apply Nat.eqb_eq in E. auto. Qed.
Lemma find_stream_none s l : find_stream s l = None -> forall u, In u l -> u_id u <> s.
Proof. unfold find_stream. intros E u I. pose proof (find_none _ _ E u I) as N. cbn in N. apply Nat.eqb_neq in N. exact N. Qed.
Lemma disjoint_slots w A u u' x x' : WI w A -> In u (w_streams Seg w) -> In u' (w_streams Seg w) -> In x (u_slots u) -> In x' (u_slots u') -> snd x = snd x' -> u = u' .
Proof.
  intros I Hu Hu' Hx Hx' E. pose proof (si_slots _ _ (wi_si _ _ I)) as ND. rewrite <- regs_slots in ND. rewrite <- (map_map fst snd) in ND.
  assert (P : Permutation (map snd (map fst (regs A))) (map snd (concat (map u_slots (w_streams Seg w))))) by (apply Permutation_map, (wi_regs _ _ I)).
  apply (Permutation_NoDup P) in ND. revert ND Hu Hu'. generalize (w_streams Seg w). clear -Hx Hx' E. intro l. induction l as [|v l IH]; intros ND H1 H2; [destruct H1|].
  cbn in ND. rewrite map_app in ND.
  assert (IN : forall u x, In u l -> In x (u_slots u) -> In (snd x) (map snd (concat (map u_slots l)))).
  { intros u0 x0 A B. apply in_map. apply in_concat. exists (u_slots u0). split; [apply in_map, A|exact B]. }
  destruct H1 as [->|H1], H2 as [->|H2]; auto.
  - exfalso. eapply nodup_app_disj; [exact ND|apply in_map, Hx|rewrite E; eapply IN; eauto].
  - exfalso. eapply nodup_app_disj; [exact ND|apply in_map, Hx'|rewrite <- E; eapply IN; eauto].
  - apply IH; auto. eapply nodup_app_r; eauto.
Qed.

Lemma since_none s t : (forall e, In e t -> ~ mentions s e) -> since_poll Seg s t = None /\ last_waker Seg s t = None.
Proof.
  induction t as [|e t IH]; intro N; [auto|]. destruct IH as (E1 & E2); [intros; apply N; cbn; auto|].
  cbn. rewrite E1, E2. destruct e; auto. pose proof (N (TPoll Seg s0 w ready) (or_introl eq_refl)) as Q. cbn in Q. apply Nat.eqb_neq in Q. rewrite Q. auto.
Qed.
Lemma since_in s t : forall d, since_poll Seg s t = Some d -> forall e, In e d -> In e t.
Proof.
  induction t as [|x t IH]; intros d; cbn; [discriminate|].
  assert (X : forall y, match since_poll Seg s t with Some l => Some (y :: l) | None => None end = Some d -> forall e, In e d -> y = e \/ In e t).
  { intros y. destruct (since_poll Seg s t) as [l|]; [|discriminate]. intros [= <-] e [<-|He]; auto. right. apply (IH l); auto. }
  destruct x; try apply X. destruct (s0 =? s); [intros [= <-] e []|apply X].
Qed.
(** events that are not polls of [s] *)
Lemma since_app s t1 t : (forall w r, ~ In (TPoll _ s w r) t1) ->
  since_poll Seg s (t1 ++ t) = match since_poll Seg s t with Some d => Some (t1 ++ d) | None => None end /\
  last_waker Seg s (t1 ++ t) = last_waker Seg s t.
Proof.
  induction t1 as [|e t1 IH]; intro N; [cbn; destruct (since_poll Seg s t); auto|].
  destruct IH as (E1 & E2); [intros; intro Q; eapply N; cbn; eauto|]. cbn. rewrite E1, E2.
  destruct e; try (destruct (since_poll Seg s t); auto; fail).
  destruct (Nat.eqb_spec s0 s); [subst; exfalso; eapply N; cbn; eauto|]. destruct (since_poll Seg s t); auto.
Qed.
Lemma hits_app ks t1 t : hits ks (t1 ++ t) = hits ks t1 + hits ks t.
Proof. induction t1 as [|e t1 IH]; [reflexivity|]. cbn. destruct e; rewrite ?IH; lia. Qed.
Lemma hits_wakes ks ws : hits ks (rev (map (TWake Seg) ws)) = 0.
Proof.
  assert (X : forall l, (forall e, In e l -> exists w, e = TWake Seg w) -> hits ks l = 0).
  { induction l as [|e l IHl]; intro Q; [reflexivity|]. destruct (Q e) as (w & ->); [cbn; auto|]. cbn. apply IHl. intros; apply Q; cbn; auto. }
  apply X. intros e He. apply in_rev in He. apply in_map_iff in He as (w & <- & _). eauto.
Qed.

Lemma exec_new w A p b : WI w A -> exists w' A', exec ww Seg H w (ONew _ p b) = Some w' /\ WI w' A' /\ w_tr Seg w' = TNew _ (w_next Seg w) p b :: w_tr Seg w.
Proof.
  intros I. destruct (add_slots_ok (listen_keys Seg H p b) _ _ (wi_si _ _ I) (wi_full _ _ I)) as (st & l & A' & E & I' & FU & M & P & V).
  cbn [exec]. rewrite E. eexists. exists A'. split; [reflexivity|]. split; [|reflexivity].
  assert (FR : forall e, In e (w_tr Seg w) -> ~ mentions (w_next Seg w) e). { intros e He Q. pose proof (wi_tr _ _ I _ _ He Q). lia. }
  split; cbn [w_store w_streams w_next w_tr].
  - exact I'.
  - exact FU.
  - cbn. rewrite P, map_app, map_map. cbn. rewrite map_id. apply Permutation_app_head, (wi_regs _ _ I).
  - cbn. constructor; [|apply (wi_ids _ _ I)]. intro Q. apply in_map_iff in Q as (u & EQ & Hu). pose proof (wi_lt _ _ I _ Hu). lia.
  - intros u [<-|Hu]; [cbn; lia|]. pose proof (wi_lt _ _ I _ Hu). lia.
  - intros e s [<-|He] Q; [cbn in Q; lia|]. pose proof (wi_tr _ _ I _ _ He Q). lia.
  - intros s p' b' [[= <- <- <-]|Hs] ND.
    + eexists. split; [left; reflexivity|]. cbn. auto.
    + destruct (wi_live _ _ I _ _ _ Hs) as (u & Hu & E1 & E2); [intro Q; apply ND; cbn; auto|]. exists u. cbn. auto.
  - intros u [<-|Hu]; cbn.
    + exists p, b. split; [auto|]. split; [|exact M]. intros [[=]|Q]. eapply FR; [exact Q|]. reflexivity.
    + destruct (wi_from _ _ I _ Hu) as (p' & b' & Q1 & Q2 & Q3). exists p', b'. split; [auto|]. split; [|exact Q3]. intros [[=]|Q]. auto.
  - intros u x k [<-|Hu] Hx R; cbn in *.
    + destruct (since_none _ _ FR) as (_ & ->). rewrite P in R. apply in_app_iff in R as [R|R].
      * apply in_map_iff in R as (y & [= _ <-] & _). reflexivity.
      * (* the new places are not old ones *)
        exfalso. pose proof (si_nodup _ _ I') as ND. rewrite P, map_app in ND. eapply nodup_app_disj; [exact ND| |apply in_map_iff; exists (x, k); split; [reflexivity|exact R]].
        rewrite map_map. cbn. rewrite map_id. exact Hx.
    + destruct (slots_in _ _ _ _ I Hu Hx) as (k0 & R0). rewrite P in R. apply in_app_iff in R as [R|R].
      * exfalso. pose proof (si_nodup _ _ I') as ND. rewrite P, map_app in ND. eapply nodup_app_disj; [exact ND| |apply in_map_iff; exists (x, k0); split; [reflexivity|exact R0]].
        apply in_map_iff. exists (x, k). auto.
      * apply (wi_wk _ _ I u x k Hu Hx R).
  - intros u [<-|Hu]; cbn.
    + destruct (since_none _ _ FR) as (-> & _). reflexivity.
    + pose proof (wi_sum _ _ I u Hu) as S. destruct (since_poll Seg (u_id u) (w_tr Seg w)) as [d|]; [|exact S]. destruct S as (S1 & S2). split; [exact S1|].
      cbn [hits]. rewrite <- S2. apply sumv_ext. intros k Hk. apply V. eapply ukeys_in; eauto.
Qed.

Lemma exec_drop w A s : WI w A -> exists w' A', exec ww Seg H w (ODrop _ s) = Some w' /\ WI w' A' /\
  (w_tr Seg w' = TDrop _ s :: w_tr Seg w \/ w' = w).
Proof.
  intros I. cbn [exec]. destruct (find_stream s (w_streams Seg w)) as [u|] eqn:F; [|exists w, A; auto].
  apply find_stream_some in F as (Hu & ID).
  assert (PS : Permutation (concat (map u_slots (w_streams Seg w))) (u_slots u ++ concat (map u_slots (filter (fun v => negb (u_id v =? s)) (w_streams Seg w))))).
  { pose proof (wi_ids _ _ I) as ND. revert ND Hu. generalize (w_streams Seg w). intro l. clear -ID. induction l as [|v l IH]; intros ND Hu; [destruct Hu|].
    cbn in ND. inversion ND as [|? ? NI ND']; subst. destruct Hu as [->|Hu]; cbn.
    - rewrite Nat.eqb_refl. cbn. assert (EF : filter (fun v => negb (u_id v =? u_id u)) l = l).
      { clear -NI. induction l as [|y l IHl]; [reflexivity|]. cbn in *. destruct (Nat.eqb_spec (u_id y) (u_id u)); [exfalso; apply NI; auto|]. cbn. f_equal. apply IHl. tauto. }
      rewrite EF. reflexivity.
    - destruct (Nat.eqb_spec (u_id v) (u_id u)) as [EQ|NE]; [exfalso; apply NI; rewrite EQ; apply in_map, Hu|]. cbn. rewrite (IH ND' Hu), !app_assoc.
      apply Permutation_app_tail, Permutation_app_comm. }
  assert (P : Permutation (map fst (regs A)) (u_slots u ++ concat (map u_slots (filter (fun v => negb (u_id v =? s)) (w_streams Seg w))))) by (rewrite (wi_regs _ _ I); exact PS).
  destruct (remove_slots_ok _ _ _ _ (wi_si _ _ I) (wi_full _ _ I) P) as (st & A' & E & I' & FU & P' & IN & V). rewrite E.
  eexists. exists A'. split; [reflexivity|]. split; [|left; reflexivity].
  assert (KP : forall v, In v (filter (fun v => negb (u_id v =? s)) (w_streams Seg w)) -> In v (w_streams Seg w) /\ u_id v <> s).
  { intros v Hv. apply filter_In in Hv as (? & Q). split; [auto|]. apply negb_true_iff, Nat.eqb_neq in Q. exact Q. }
  split; cbn [w_store w_streams w_next w_tr].
  - exact I'.
  - exact FU.
  - exact P'.
  - pose proof (wi_ids _ _ I) as ND. revert ND. generalize (w_streams Seg w). clear. intro l. induction l as [|v l IH]; intro ND; [constructor|]. cbn in *. inversion ND; subst.
    destruct (negb (u_id v =? s)); cbn; auto. constructor; auto. intro Q. apply in_map_iff in Q as (y & EQ & Hy). apply filter_In in Hy as (Hy & _). apply H1. rewrite <- EQ. apply in_map, Hy.
  - intros v Hv. apply (wi_lt _ _ I). apply KP, Hv.
  - intros e s' [<-|He] Q; [|apply (wi_tr _ _ I _ _ He Q)]. cbn in Q. subst s'. rewrite <- ID. apply (wi_lt _ _ I _ Hu).
  - intros s' p' b' [[=]|Hs] ND. destruct (wi_live _ _ I _ _ _ Hs) as (v & Hv & E1 & E2); [intro Q; apply ND; cbn; auto|]. exists v. split; [|auto].
    apply filter_In. split; [exact Hv|]. apply negb_true_iff, Nat.eqb_neq. intro Q. apply ND. left. congruence.
  - intros v Hv. apply KP in Hv as (Hv & NE). destruct (wi_from _ _ I _ Hv) as (p' & b' & Q1 & Q2 & Q3). exists p', b'. split; [cbn; auto|]. split; [|exact Q3]. intros [[=]|Q]; congruence.
  - intros v x k Hv Hx R. apply KP in Hv as (Hv & NE). cbn. apply (wi_wk _ _ I v x k Hv Hx). apply IN, R.
  - intros v Hv. pose proof Hv as Hv'. apply KP in Hv as (Hv & NE). cbn. pose proof (wi_sum _ _ I v Hv) as S. destruct (since_poll Seg (u_id v) (w_tr Seg w)) as [d|]; [|exact S].
    destruct S as (S1 & S2). split; [exact S1|]. cbn [hits]. rewrite <- S2. apply sumv_ext. intros k Hk. apply V.
    apply in_map_iff in Hk as ((k', i) & EQ & Hx). cbn in EQ. subst k'.
    assert (Q : In (k, i) (map fst (regs A'))). { rewrite P'. apply in_concat. exists (u_slots v). split; [apply in_map, Hv'|exact Hx]. }
    apply in_map_iff in Q as (((k1, i1), w1) & EQ & Q). cbn in EQ. injection EQ as -> ->. apply regs_in in Q as (e & l & Q & _). apply in_map_iff. exists (k, (e, l)). auto.
Qed.

Lemma exec_notify w A q : WI w A -> exists w' A' ws, exec ww Seg H w (ONotify _ q) = Some w' /\ WI w' A' /\
  w_tr Seg w' = rev (map (TWake Seg) ws) ++ TNotify _ q :: w_tr Seg w /\
  (forall wk, In wk ws -> exists k i w', In k (notify_keys Seg H q) /\ In (k, i, w') (regs A) /\ same_task wk w') /\
  (forall k i w', In k (notify_keys Seg H q) -> In (k, i, w') (regs A) -> exists wk, In wk ws /\ same_task wk w').
Proof.
  intros I. destruct (wake_entries_ok (notify_keys Seg H q) _ _ (wi_si _ _ I) (wi_full _ _ I)) as (st & ws & A' & E & I' & FU & R & K & V & W1 & W2).
  cbn [exec]. rewrite E. eexists. exists A', ws. split; [reflexivity|]. split; [|auto].
  assert (NW : forall e, In e (rev (map (TWake Seg) ws) ++ TNotify Seg q :: w_tr Seg w) -> In e (w_tr Seg w) \/ e = TNotify Seg q \/ exists wk, e = TWake Seg wk).
  { intros e He. apply in_app_iff in He as [He|[He|He]]; auto. apply in_rev in He. apply in_map_iff in He as (wk & <- & _). eauto. }
  assert (OL : forall e, In e (w_tr Seg w) -> In e (rev (map (TWake Seg) ws) ++ TNotify Seg q :: w_tr Seg w)) by (intros; apply in_app_iff; cbn; auto).
  assert (SN : forall s, since_poll Seg s (rev (map (TWake Seg) ws) ++ TNotify Seg q :: w_tr Seg w) =
     match since_poll Seg s (w_tr Seg w) with Some d => Some ((rev (map (TWake Seg) ws) ++ [TNotify Seg q]) ++ d) | None => None end /\
     last_waker Seg s (rev (map (TWake Seg) ws) ++ TNotify Seg q :: w_tr Seg w) = last_waker Seg s (w_tr Seg w)).
  { intro s. rewrite (app_assoc _ [TNotify Seg q] (w_tr Seg w)). apply since_app. intros wk r Q. apply in_app_iff in Q as [Q|[Q|[]]]; [|discriminate].
    apply in_rev in Q. apply in_map_iff in Q as (? & [=] & _). }
  split; cbn [w_store w_streams w_next w_tr].
  - exact I'.
  - exact FU.
  - rewrite R. apply (wi_regs _ _ I).
  - apply (wi_ids _ _ I).
  - apply (wi_lt _ _ I).
  - intros e s He Q. apply NW in He as [He|[->|(wk & ->)]]; [|destruct Q|destruct Q]. apply (wi_tr _ _ I _ _ He Q).
  - intros s p' b' Hs ND. apply NW in Hs as [Hs|[[=]|(wk & [=])]]. apply (wi_live _ _ I _ _ _ Hs). intro Q. apply ND, OL, Q.
  - intros u Hu. destruct (wi_from _ _ I _ Hu) as (p' & b' & Q1 & Q2 & Q3). exists p', b'. split; [auto|]. split; [|exact Q3]. intro Q. apply NW in Q as [Q|[[=]|(wk & [=])]]. auto.
  - intros u x k Hu Hx RR. rewrite R in RR. destruct (SN (u_id u)) as (_ & ->). apply (wi_wk _ _ I u x k Hu Hx RR).
  - intros u Hu. destruct (SN (u_id u)) as (-> & _). pose proof (wi_sum _ _ I u Hu) as S. destruct (since_poll Seg (u_id u) (w_tr Seg w)) as [d|]; [|exact S].
    destruct S as (S1 & S2). split; [exact S1|]. rewrite !hits_app, hits_wakes. cbn [hits]. rewrite (sumv_hit A A' (ukeys u) q); [lia|].
    intros k Hk. apply V. eapply ukeys_in; eauto.
Qed.

Lemma sumv_pos A ks : ks <> [] -> (forall k, In k ks -> 1 <= ver A k) -> 1 <= sumv A ks.
Proof. destruct ks as [|k ks]; [contradiction|]. intros _ V. cbn. pose proof (V k (or_introl eq_refl)). lia. Qed.

Lemma exec_poll w A s wk : WI w A -> exists w' A', exec ww Seg H w (OPoll _ s wk) = Some w' /\ WI w' A' /\
  ((exists u ready, In u (w_streams Seg w) /\ u_id u = s /\ w_tr Seg w' = TPoll _ s wk ready :: w_tr Seg w /\
     (ready = true <-> exists d, since_poll Seg s (w_tr Seg w) = Some d /\ 0 < hits (ukeys u) d)) \/ w' = w).
Proof.
  intros I. cbn [exec]. destruct (find_stream s (w_streams Seg w)) as [u|] eqn:F; [|exists w, A; auto].
  apply find_stream_some in F as (Hu & ID).
  assert (IN : incl (u_slots u) (map fst (regs A))). { intros x Hx. destruct (slots_in _ _ _ _ I Hu Hx) as (k & R). apply in_map_iff. exists (x, k). auto. }
  destruct (poll_slots_ok ww WW wk _ _ _ (wi_si _ _ I) (wi_full _ _ I) IN) as (st & A' & E & I' & FU & R & K & V). rewrite E.
  change (fold_right (fun k n => ver A k + n) 0 (map fst (u_slots u))) with (sumv A (ukeys u)).
  eexists. exists A'. split; [reflexivity|]. cbn [w_store w_streams w_next w_tr]. split.
  - assert (SL : forall v', In v' (set_last s (sumv A (ukeys u)) (w_streams Seg w)) ->
       exists v, In v (w_streams Seg w) /\ u_id v' = u_id v /\ u_slots v' = u_slots v /\ (u_id v = s -> v = u /\ u_last v' = sumv A (ukeys u)) /\ (u_id v <> s -> v' = v)).
    { intros v' Hv. apply in_map_iff in Hv as (v & <- & Hv). exists v. destruct (Nat.eqb_spec (u_id v) s) as [EQ|NE]; cbn.
      - split; [auto|]. split; [auto|]. split; [auto|]. split; [|contradiction]. intros _. split; [|reflexivity]. apply (id_unique _ _ _ (wi_ids _ _ I)); auto. congruence.
      - split; [auto|]. split; [auto|]. split; [auto|]. split; [contradiction|auto]. }
    assert (SID : map u_id (set_last s (sumv A (ukeys u)) (w_streams Seg w)) = map u_id (w_streams Seg w)).
    { unfold set_last. rewrite map_map. apply map_ext. intro v. destruct (Nat.eqb_spec (u_id v) s); cbn; auto. }
    assert (SSL : map u_slots (set_last s (sumv A (ukeys u)) (w_streams Seg w)) = map u_slots (w_streams Seg w)).
    { unfold set_last. rewrite map_map. apply map_ext. intro v. destruct (Nat.eqb_spec (u_id v) s); cbn; auto. }
    split; cbn [w_store w_streams w_next w_tr].
    + exact I'.
    + exact FU.
    + rewrite R, SSL, map_map. rewrite (map_ext _ fst); [apply (wi_regs _ _ I)|]. intro r. unfold re_reg. destruct (existsb _ _); reflexivity.
    + rewrite SID. apply (wi_ids _ _ I).
    + intros v' Hv'. destruct (SL _ Hv') as (v & Hv & -> & _). apply (wi_lt _ _ I _ Hv).
    + intros e s' [<-|He] Q; [|apply (wi_tr _ _ I _ _ He Q)]. cbn in Q. subst s'. rewrite <- ID. apply (wi_lt _ _ I _ Hu).
    + intros s' p' b' [[=]|Hs] ND. destruct (wi_live _ _ I _ _ _ Hs) as (v & Hv & E1 & E2); [intro Q; apply ND; cbn; auto|].
      exists (if u_id v =? s then mkU s (u_slots v) (sumv A (ukeys u)) else v). split; [apply in_map_iff; eauto|].
      destruct (Nat.eqb_spec (u_id v) s); cbn; [split; [congruence|exact E2]|auto].
    + intros v' Hv'. destruct (SL _ Hv') as (v & Hv & EI & ES & _). destruct (wi_from _ _ I _ Hv) as (p' & b' & Q1 & Q2 & Q3). exists p', b'.
      rewrite EI. unfold ukeys in *. rewrite ES. split; [cbn; auto|]. split; [|exact Q3]. intros [[=]|Q]. auto.
    + intros v' x k Hv' Hx RR. destruct (SL _ Hv') as (v & Hv & EI & ES & IS & NS). rewrite ES in Hx. rewrite EI. cbn.
      rewrite R in RR. apply in_map_iff in RR as ((x0, k0) & EQ & RR). unfold re_reg in EQ. cbn [fst snd] in EQ.
      destruct (existsb (fun y => snd y =? snd x0) (u_slots u)) eqn:EX.
      * injection EQ as -> <-. apply existsb_exists in EX as (y & Hy & EQ). apply Nat.eqb_eq in EQ.
        assert (v = u) by (symmetry; eapply disjoint_slots; eauto). subst v. rewrite ID, Nat.eqb_refl. reflexivity.
      * injection EQ as -> ->. destruct (Nat.eqb_spec s (u_id v)) as [EQ|NE].
        -- destruct (IS (eq_sym EQ)) as (-> & _). exfalso. assert (X : existsb (fun y => snd y =? snd x) (u_slots u) = true) by (apply existsb_exists; exists x; rewrite Nat.eqb_refl; auto). congruence.
        -- apply (wi_wk _ _ I v x k Hv Hx RR).
    + intros v' Hv'. destruct (SL _ Hv') as (v & Hv & EI & ES & IS & NS). rewrite EI. cbn. unfold ukeys. rewrite ES. fold (ukeys v).
      destruct (Nat.eqb_spec s (u_id v)) as [EQ|NE].
      * destruct (IS (eq_sym EQ)) as (-> & ->). cbn. split.
        -- apply sumv_pos; [|intros k Hk; apply ver_pos; [apply (wi_full _ _ I)|eapply ukeys_in; eauto]].
           destruct (wi_from _ _ I _ Hu) as (p' & b' & _ & _ & ->). apply listen_nonempty.
        -- rewrite Nat.add_0_r. apply sumv_ext. intros; apply V.
      * rewrite NS by congruence. pose proof (wi_sum _ _ I v Hv) as S. destruct (since_poll Seg (u_id v) (w_tr Seg w)) as [d|]; [|exact S].
        destruct S as (S1 & S2). split; [exact S1|]. cbn [hits]. rewrite <- S2. apply sumv_ext. intros; apply V.
  - left. exists u. eexists. split; [exact Hu|]. split; [exact ID|]. split; [reflexivity|].
    pose proof (wi_sum _ _ I u Hu) as S. rewrite ID in S. destruct (since_poll Seg s (w_tr Seg w)) as [d|].
    + destruct S as (S1 & S2). rewrite S2. split.
      * intro Q. exists d. split; [reflexivity|]. apply andb_true_iff in Q as (_ & Q). apply negb_true_iff, Nat.eqb_neq in Q. lia.
      * intros (d' & [= <-] & Q). apply andb_true_iff. split; [apply Nat.leb_le; lia|]. apply negb_true_iff, Nat.eqb_neq. lia.
    + rewrite S. cbn. split; [discriminate|]. intros (d & [=] & _).
Qed.

Lemma exec_ok w A o : WI w A -> exists w' A', exec ww Seg H w o = Some w' /\ WI w' A'.
Proof.
  intro I. destruct o.
  - destruct (exec_new _ _ p bubbling I) as (w' & A' & E & I' & _). eauto.
  - destruct (exec_poll _ _ s w0 I) as (w' & A' & E & I' & _). eauto.
  - destruct (exec_drop _ _ s I) as (w' & A' & E & I' & _). eauto.
  - destruct (exec_notify _ _ q I) as (w' & A' & ws & E & I' & _). eauto.
Qed.
Lemma execs_ok ops : forall w A, WI w A -> exists w' A', execs ww Seg H w ops = Some w' /\ WI w' A'.
Proof.
  induction ops as [|o ops IH]; intros w A I; cbn [execs]; [eauto|]. destruct (exec_ok _ _ o I) as (w1 & A1 & E & I1). rewrite E. eapply IH; eauto.
Qed.
Lemma run_ok ops : exists w A, run ww Seg H ops = Some w /\ WI w A.
Proof. apply (execs_ok _ _ _ wi_init). Qed.

(** the paths in the trace come from the operations *)
Definition from_op (ops : list (op Seg)) (e : ev) : Prop :=
  match e with TNew _ _ p b => In (ONew _ p b) ops | TNotify _ q => In (ONotify _ q) ops | _ => True end.
Lemma exec_tr w o w' : exec ww Seg H w o = Some w' -> forall e, In e (w_tr Seg w') -> In e (w_tr Seg w) \/ from_op [o] e.
Proof.
  destruct o; cbn [exec].
  - destruct (add_slots _ _) as [(st, l)|]; [|discriminate]. intros [= <-] e [<-|He]; cbn; auto.
  - destruct (find_stream _ _) as [u|]; [|intros [= <-]; auto]. destruct (poll_slots _ _ _ _) as [(st, v)|]; [|discriminate]. intros [= <-] e [<-|He]; cbn; auto.
  - destruct (find_stream _ _) as [u|]; [|intros [= <-]; auto]. destruct (remove_slots _ _) as [st|]; [|discriminate]. intros [= <-] e [<-|He]; cbn; auto.
  - destruct (wake_entries _ _) as [(st, ws)|]; [|discriminate]. intros [= <-] e He. cbn in He. apply in_app_iff in He as [He|[<-|He]]; cbn; auto.
    apply in_rev in He. apply in_map_iff in He as (wk & <- & _). cbn. auto.
Qed.
Lemma execs_tr ops : forall w w', execs ww Seg H w ops = Some w' -> forall e, In e (w_tr Seg w') -> In e (w_tr Seg w) \/ from_op ops e.
Proof.
  induction ops as [|o ops IH]; intros w w'; cbn [execs]; [intros [= <-]; auto|]. destruct (exec ww Seg H w o) as [w1|] eqn:E; [|discriminate].
  intros E' e He. destruct (IH _ _ E' e He) as [Q|Q].
  - destruct (exec_tr _ _ _ E e Q) as [Q'|Q']; auto. right. destruct e; cbn in *; tauto.
  - right. destruct e; cbn in *; tauto.
Qed.
Lemma run_tr ops w : run ww Seg H ops = Some w -> forall e, In e (w_tr Seg w) -> from_op ops e.
Proof. intros E e He. destruct (execs_tr _ _ _ E e He) as [[]|Q]. exact Q. Qed.

(** the streams are the ones that the trace says exist *)
Definition strm (x : nat * (path * bool)) : nat * list N := (fst x, listen_keys Seg H (fst (snd x)) (snd (snd x))).
Definition alive_inv (w : world) : Prop := map (fun u => (u_id u, ukeys u)) (w_streams Seg w) = map strm (alive Seg (w_tr Seg w)).
Lemma add_slots_keys ks : forall st st' l, add_slots st ks = Some (st', l) -> map fst l = ks.
Proof.
  induction ks as [|k ks IH]; intros st st' l; cbn [add_slots]; [intros [= _ <-]; reflexivity|].
  destruct (add_slot st k) as [(st1, i)|]; [|discriminate]. destruct (add_slots st1 ks) as [(st2, l2)|] eqn:E; [|discriminate].
  intros [= _ <-]. cbn. f_equal. eapply IH; eauto.
Qed.
Lemma filter_strm s (us : list stream) l : map (fun u => (u_id u, ukeys u)) us = map strm l ->
  map (fun u => (u_id u, ukeys u)) (filter (fun u => negb (u_id u =? s)) us) = map strm (filter (fun x => negb (fst x =? s)) l).
Proof.
  revert l. induction us as [|u us IH]; intros [|x l] E; cbn in E; try discriminate; [reflexivity|].
  injection E as E1 E2 E3. cbn. rewrite E1. destruct (fst x =? s); cbn; [auto|]. f_equal; [unfold strm; congruence|auto].
Qed.
Lemma find_none_alive s (us : list stream) l : map (fun u => (u_id u, ukeys u)) us = map strm l -> find_stream s us = None ->
  filter (fun x => negb (fst x =? s)) l = l.
Proof.
  revert l. induction us as [|u us IH]; intros [|x l] E F; cbn in E; try discriminate; [reflexivity|].
  injection E as E1 E2 E3. cbn in F. rewrite E1 in F. cbn. destruct (fst x =? s); [discriminate|]. cbn. f_equal. auto.
Qed.
Lemma alive_wakes (ws : list waker) (t : list ev) : alive Seg (rev (map (TWake Seg) ws) ++ t) = alive Seg t.
Proof.
  assert (X : forall l, (forall e, In e l -> exists w, e = TWake Seg w) -> alive Seg (l ++ t) = alive Seg t).
  { induction l as [|e l IHl]; intro Q; [reflexivity|]. destruct (Q e) as (w & ->); [cbn; auto|]. cbn. apply IHl. intros; apply Q; cbn; auto. }
  apply X. intros e He. apply in_rev in He. apply in_map_iff in He as (w & <- & _). eauto.
Qed.
Lemma exec_alive w o w' : exec ww Seg H w o = Some w' -> alive_inv w -> alive_inv w'.
Proof.
  unfold alive_inv. destruct o; cbn [exec].
  - destruct (add_slots _ _) as [(st, l)|] eqn:E; [|discriminate]. intros [= <-] I. cbn. f_equal; [|exact I]. unfold strm, ukeys. cbn. f_equal. eapply add_slots_keys; eauto.
  - destruct (find_stream _ _) as [u|]; [|intros [= <-]; auto]. destruct (poll_slots _ _ _ _) as [(st, v)|]; [|discriminate]. intros [= <-] I. cbn. rewrite <- I.
    unfold set_last. rewrite map_map. apply map_ext. intro x. destruct (Nat.eqb_spec (u_id x) s); cbn; [subst; reflexivity|reflexivity].
  - destruct (find_stream _ _) as [u|] eqn:F; [|intros [= <-]; auto].
    destruct (remove_slots _ _) as [st|]; [|discriminate]. intros [= <-] I. cbn. apply filter_strm, I.
  - destruct (wake_entries _ _) as [(st, ws)|]; [|discriminate]. intros [= <-] I. cbn [w_streams w_tr]. rewrite alive_wakes. cbn. exact I.
Qed.
Lemma run_alive ops w : run ww Seg H ops = Some w -> alive_inv w.
Proof.
  unfold run. assert (X : alive_inv (init Seg)) by reflexivity. revert X. generalize (init Seg). induction ops as [|o ops IH]; intro w0; cbn [execs]; [intros X [= <-]; exact X|].
  destruct (exec ww Seg H w0 o) as [w1|] eqn:E; [|discriminate]. intros X R. apply (IH w1); [exact (exec_alive _ _ _ E X)|exact R].
Qed.

(** the next poll of a live stream *)
Lemma poll_live w A s p b wk : WI w A -> live Seg s p b (w_tr Seg w) ->
  exists w' r, exec ww Seg H w (OPoll _ s wk) = Some w' /\ w_tr Seg w' = TPoll _ s wk r :: w_tr Seg w /\
  (r = true <-> exists d q k, since_poll Seg s (w_tr Seg w) = Some d /\ In (TNotify _ q) d /\ In k (listen_keys Seg H p b) /\ In k (notify_keys Seg H q)).
Proof.
  intros I (L1 & L2). destruct (wi_live _ _ I _ _ _ L1 L2) as (u0 & Hu0 & ID0 & K0).
  destruct (exec_poll _ _ s wk I) as (w' & A' & E & _ & [(u & r & Hu & ID & T & R)|EQ]).
  - exists w', r. split; [exact E|]. split; [exact T|]. rewrite R. assert (u = u0) by (apply (id_unique _ _ _ (wi_ids _ _ I)); congruence). subst u0. rewrite <- K0.
    split.
    + intros (d & S & P). apply hits_pos in P as (q & Q & P). apply hit_pos in P as (k & P1 & P2). eauto 10.
    + intros (d & q & k & S & Q & P1 & P2). exists d. split; [exact S|]. apply hits_pos. exists q. split; [exact Q|]. apply hit_pos. eauto.
  - exfalso. cbn [exec] in E. destruct (find_stream s (w_streams Seg w)) as [u|] eqn:F.
    + destruct (poll_slots _ _ _ _) as [(st, v)|]; [|discriminate]. injection E as EE. rewrite EQ in EE.
      apply (f_equal (fun x => length (w_tr Seg x))) in EE. cbn in EE. lia.
    + apply (find_stream_none _ _ F _ Hu0 ID0).
Qed.
(** the next notification *)
Lemma notify_wakes w A q : WI w A ->
  exists w' ws, exec ww Seg H w (ONotify _ q) = Some w' /\ w_tr Seg w' = rev (map (TWake Seg) ws) ++ TNotify _ q :: w_tr Seg w /\
  (forall s p b k wk, live Seg s p b (w_tr Seg w) -> In k (listen_keys Seg H p b) -> In k (notify_keys Seg H q) -> last_waker Seg s (w_tr Seg w) = Some wk ->
     exists wk', In wk' ws /\ same_task wk' wk) /\
  (forall wk t, In wk ws -> w_task wk = Some t -> exists s p b k wk', live Seg s p b (w_tr Seg w) /\ In k (listen_keys Seg H p b) /\ In k (notify_keys Seg H q) /\
     last_waker Seg s (w_tr Seg w) = Some wk' /\ w_task wk' = Some t).
Proof.
  intro I. destruct (exec_notify _ _ q I) as (w' & A' & ws & E & _ & T & W1 & W2). exists w', ws. split; [exact E|]. split; [exact T|]. split.
  - intros s p b k wk (L1 & L2) K1 K2 LW. destruct (wi_live _ _ I _ _ _ L1 L2) as (u & Hu & <- & K0). rewrite <- K0 in K1.
    apply in_map_iff in K1 as ((k', i) & EQ & Hx). cbn in EQ. subst k'. destruct (slots_in _ _ _ _ I Hu Hx) as (wk1 & R).
    pose proof (wi_wk _ _ I u _ _ Hu Hx R) as Q. rewrite LW in Q. subst wk1. eapply W2; eauto.
  - intros wk t Hw HT. destruct (W1 _ Hw) as (k & i & wk' & K2 & R & ST).
    assert (Q : In (k, i) (concat (map u_slots (w_streams Seg w)))). { rewrite <- (wi_regs _ _ I). apply in_map_iff. exists (k, i, wk'). auto. }
    apply in_concat in Q as (sl & Hsl & Hx). apply in_map_iff in Hsl as (u & <- & Hu).
    destruct (wi_from _ _ I _ Hu) as (p & b & Q1 & Q2 & Q3). pose proof (wi_wk _ _ I u _ _ Hu Hx R) as Q.
    exists (u_id u), p, b, k, wk'. split; [split; auto|]. split; [rewrite <- Q3; apply in_map_iff; exists (k, i); auto|]. split; [exact K2|].
    unfold same_task in ST. destruct (last_waker Seg (u_id u) (w_tr Seg w)) as [wk1|]; subst wk'; [split; congruence|]. cbn in ST. congruence.
Qed.
(** what is stored *)
Lemma free_iter a free S : AInv a free S -> exists ws, ar_iter a 0 = Some ws /\ length ws = length free /\ a_len a = 1 + length free + length (handles S).
Proof.
  intro I. pose proof (ai_nodup _ _ _ I) as ND. pose proof (Permutation_length (ai_all _ _ _ I)) as PL. rewrite seq_length in PL. cbn in PL. rewrite app_length in PL.
  unfold ar_iter, get_next. pose proof (ai_two _ _ _ I). destruct (Nat.ltb_spec 0 (a_len a)); [|lia].
  inversion ND as [|? ? N1 N2]; subst. rewrite in_app_iff in N1.
  rewrite (iter_from_ok a 0 (map (fun i => (i, dummy_waker)) free) 0).
  - eexists. split; [reflexivity|]. rewrite !map_length. split; [reflexivity|lia].
  - rewrite map_map. cbn. rewrite map_id. apply (ai_free _ _ _ I).
  - rewrite map_length. lia.
  - rewrite map_map. cbn. rewrite map_id. tauto.
  - rewrite map_map. cbn. rewrite map_id. intros i Hi. apply (ai_in _ _ _ i I). cbn. rewrite in_app_iff. auto.
Qed.
Lemma view_length A : length (handles (view A)) = length A + length (regs A).
Proof. induction A as [|x A IH]; [reflexivity|]. change (view (x :: A)) with ((e_list (fst (snd x)), snd (snd x)) :: view A). rewrite handles_cons, regs_cons. cbn [fst snd length]. cbn [app length]. rewrite !app_length, IH, !map_length. lia. Qed.
Lemma regs_count A k e l : NoDup (keys A) -> In (k, (e, l)) A -> length l = count_occ N.eq_dec (map (fun r => fst (fst r)) (regs A)) k.
Proof.
  intros ND IN. apply in_split in IN as (A1 & A2 & ->). unfold keys in ND. rewrite map_app in ND. cbn in ND. apply NoDup_remove_2 in ND. rewrite in_app_iff in ND.
  assert (Z : forall B, ~ In k (map fst B) -> count_occ N.eq_dec (map (fun r => fst (fst r)) (regs B)) k = 0).
  { intros B NB. apply count_occ_not_In. intro Q. apply NB. apply in_map_iff in Q as (((k1, i1), w1) & <- & Q). apply regs_in in Q as (e1 & l1 & Q & _). apply in_map_iff. exists (k1, (e1, l1)). auto. }
  rewrite regs_app, regs_cons, !map_app, !count_occ_app, !Z by tauto. cbn [fst snd]. rewrite map_map. cbn.
  clear. induction l as [|x l IH]; [reflexivity|]. cbn. destruct (N.eq_dec k k); [|congruence]. lia.
Qed.
Lemma storage w A : WI w A -> alive_inv w ->
  let ks := concat (map (fun x => listen_keys Seg H (fst (snd x)) (snd (snd x))) (alive Seg (w_tr Seg w))) in
  (forall k, In k (map fst (st_map (w_store Seg w))) <-> In k ks) /\ NoDup (map fst (st_map (w_store Seg w))) /\
  (forall k e, In (k, e) (st_map (w_store Seg w)) -> exists ws, ar_iter (st_arena (w_store Seg w)) (e_list e) = Some ws /\ length ws = count_occ N.eq_dec ks k) /\
  (exists ws, ar_iter (st_arena (w_store Seg w)) 0 = Some ws /\
     a_len (st_arena (w_store Seg w)) = 1 + length ws + length (st_map (w_store Seg w)) + length ks).
Proof.
  intros I AL ks. destruct (si_free _ _ (wi_si _ _ I)) as (free & F).
  assert (P : Permutation (map (fun r => fst (fst r)) (regs A)) ks).
  { rewrite <- (map_map fst fst). rewrite (wi_regs _ _ I). rewrite concat_map, map_map.
    assert (EQ : map (fun u => map fst (u_slots u)) (w_streams Seg w) = map (fun x => listen_keys Seg H (fst (snd x)) (snd (snd x))) (alive Seg (w_tr Seg w))).
    { apply (f_equal (map snd)) in AL. rewrite !map_map in AL. exact AL. }
    rewrite EQ. reflexivity. }
  assert (MK : map fst (st_map (w_store Seg w)) = keys A). { rewrite (si_map _ _ (wi_si _ _ I)). unfold rmap, keys. rewrite map_map. reflexivity. }
  rewrite MK. split; [|split; [apply (si_keys _ _ (wi_si _ _ I))|split]].
  - intro k. split.
    + intro Q. rewrite <- P. apply in_map_iff in Q as ((k1, (e, l)) & <- & Q). destruct (wi_full _ _ I _ Q) as (NE & _). destruct l as [|(i, wk) l]; [contradiction|].
      apply in_map_iff. exists (k1, i, wk). split; [reflexivity|]. apply regs_in. exists e, ((i, wk) :: l). cbn. auto.
    + rewrite <- P. intro Q. apply in_map_iff in Q as (((k1, i), wk) & <- & Q). apply regs_in in Q as (e & l & Q & _). apply in_map_iff. exists (k1, (e, l)). auto.
  - intros k e Q. rewrite (si_map _ _ (wi_si _ _ I)) in Q. apply in_map_iff in Q as ((k1, (e1, l)) & [= -> ->] & Q).
    destruct (iter_ok _ _ _ (e_list e) l F) as (ws & E & F2). { apply in_map_iff. exists (k, (e, l)). auto. }
    exists ws. split; [exact E|]. assert (FL : length ws = length (map snd l)) by (clear -F2; induction F2; cbn; congruence). rewrite FL, map_length. rewrite (regs_count A k e l (si_keys _ _ (wi_si _ _ I)) Q).
    apply (Permutation_count_occ N.eq_dec). exact P.
  - destruct (free_iter _ _ _ F) as (ws & E & L1 & L2). exists ws. split; [exact E|]. pose proof (Permutation_length P) as PL. rewrite map_length in PL. rewrite view_length in L2.
    assert (ML : length (st_map (w_store Seg w)) = length A) by (rewrite (si_map _ _ (wi_si _ _ I)); apply map_length). rewrite ML. fold ks. lia.
Qed.
End Run.
