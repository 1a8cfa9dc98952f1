(** Proofs for C85. *)
From Coq Require Import List Arith ZArith Bool Lia.
From Verif Require Import Modeled_proofs Circles Spec_circles.
Import ListNotations.

Section Proofs.
Variables (size : Type) (one : size) (pick : list (Z * Z * size) -> Z -> Z -> option nat).
Hypothesis PICK : forall p x y i, pick p x y = Some i -> i < length p.
Notation picture := (list (Z * Z * size)).
Notation state := (state size). Notation circle := (circle size). Notation operation := (operation size).
Notation editor := (editor size). Notation event := (event size).
Definition lk (c : circle) : Z * Z * size := (c_x size c, c_y size c, c_scale size c).
Notation el := (c_elem size).

Lemma nth_combine {A} (p : list A) : forall k j, nth_error (combine (seq k (length p)) p) j = option_map (fun x => (k + j, x)) (nth_error p j).
Proof. induction p as [|x p IH]; intros k [|j]; cbn; auto; [rewrite Nat.add_0_r; reflexivity|]. rewrite IH. destruct (nth_error p j); cbn; auto. repeat f_equal. lia. Qed.
Lemma nth_resized i v (p : picture) j : nth_error (resized size i v p) j = option_map (fun c => if Nat.eqb j i then (fst c, v) else c) (nth_error p j).
Proof. unfold resized. rewrite nth_error_map, nth_combine. destruct (nth_error p j); cbn; auto. Qed.
Lemma nth_set {A} i (v : A) l : forall j, nth_error (set_at i v l) j = if Nat.eqb j i then (if i <? length l then Some v else None) else nth_error l j.
Proof.
  revert i. induction l as [|x l IH]; intros [|i] [|j]; cbn; auto; try (destruct (j =? i); reflexivity). rewrite IH. reflexivity.
Qed.
Lemma length_resized i v (p : picture) : length (resized size i v p) = length p.
Proof. unfold resized. rewrite map_length, combine_length, seq_length. lia. Qed.
Lemma resized_back i v (p : picture) c : nth_error p i = Some c -> resized size i (snd c) (resized size i v p) = p.
Proof.
  intro N. apply nth_ext. intro j. rewrite !nth_resized. destruct (nth_error p j) as [d|] eqn:E; cbn; auto. destruct (Nat.eqb_spec j i) as [->|_]; auto. rewrite N in E. injection E as <-. destruct c; reflexivity.
Qed.
Lemma set_resized cs i c v : nth_error cs i = Some c -> map lk (set_at i (mkCircle size (c_x size c) (c_y size c) v (el c)) cs) = resized size i v (map lk cs).
Proof.
  intro N. apply nth_ext. intro j. rewrite nth_resized, !nth_error_map, nth_set. assert (L : i < length cs) by (apply nth_error_Some; congruence). apply Nat.ltb_lt in L. rewrite L.
  destruct (Nat.eqb_spec j i) as [->|_]; [rewrite N|destruct (nth_error cs j)]; reflexivity.
Qed.
Lemma set_elems cs i c v : nth_error cs i = Some c -> map el (set_at i (mkCircle size (c_x size c) (c_y size c) v (el c)) cs) = map el cs.
Proof.
  intro N. apply nth_ext. intro j. rewrite !nth_error_map, nth_set. assert (L : i < length cs) by (apply nth_error_Some; congruence). apply Nat.ltb_lt in L. rewrite L.
  destruct (Nat.eqb_spec j i) as [->|_]; [rewrite N|destruct (nth_error cs j)]; reflexivity.
Qed.

(** ** pictures of the history *)
Definition paint (p : picture) (op : operation) : picture :=
  match op with
  | Create _ x y _ => p ++ [(x, y, one)]
  | Remove _ _ => p
  | ChangeScale _ i _ v => resized size i v p
  end.
Definition pic (ops : list operation) (k : nat) : picture := fold_left paint (firstn k ops) [].
Definition new_ids (ops : list operation) : list nat := flat_map (fun op => match op with Create _ _ _ id => [id] | _ => [] end) ops.
Definition fits (p : picture) (op : operation) : Prop :=
  match op with
  | Create _ _ _ _ => True
  | Remove _ _ => False
  | ChangeScale _ i f _ => exists xy, nth_error p i = Some (xy, f)
  end.
Lemma firstn_S {A} (l : list A) k x : nth_error l k = Some x -> firstn (S k) l = firstn k l ++ [x].
Proof. revert k. induction l as [|y l IH]; intros [|k] N; cbn in *; try discriminate; [injection N as ->; reflexivity|]. rewrite (IH k N). reflexivity. Qed.
Lemma pic_S ops k op : nth_error ops k = Some op -> pic ops (S k) = paint (pic ops k) op.
Proof. intro N. unfold pic. rewrite (firstn_S _ _ _ N), fold_left_app. reflexivity. Qed.
Lemma ids_S ops k op : nth_error ops k = Some op -> new_ids (firstn (S k) ops) = new_ids (firstn k ops) ++ new_ids [op].
Proof. intro N. unfold new_ids. rewrite (firstn_S _ _ _ N), flat_map_app. reflexivity. Qed.
Lemma pic_app ops op k n : k <= n -> n <= length ops -> pic (firstn n ops ++ [op]) k = pic ops k.
Proof. intros L L2. unfold pic. rewrite firstn_app, firstn_firstn, Nat.min_l, firstn_length, Nat.min_l by lia. replace (k - n) with 0 by lia. cbn. rewrite app_nil_r. reflexivity. Qed.
Lemma ids_firstn ops k : forall x, In x (new_ids (firstn k ops)) -> In x (new_ids ops).
Proof. intros x H. rewrite <- (firstn_skipn k ops). unfold new_ids in *. rewrite flat_map_app. apply in_or_app. left. exact H. Qed.
Lemma ids_firstn_nodup ops k : NoDup (new_ids ops) -> NoDup (new_ids (firstn k ops)).
Proof. intro H. rewrite <- (firstn_skipn k ops) in H. unfold new_ids in *. rewrite flat_map_app in H. revert H. generalize (flat_map (fun op : operation => match op with Create _ _ _ id => [id] | _ => [] end) (firstn k ops)) as a. induction a as [|x a IH]; intro H; [constructor|]. inversion H; subst. constructor; [intro; apply H2, in_or_app; auto|auto]. Qed.

Record Inv (s : state) (ed : editor) : Prop := {
  i_look : map lk (circles size s) = present size ed;
  i_items : map snd (items size s) = map el (circles size s);
  i_css : forall c, In c (circles size s) -> css size s (el c) = lk c;
  i_nodup : NoDup (map el (circles size s));
  i_made : forall c, In c (circles size s) -> el c < made size s;
  i_keys : map fst (items size s) = new_ids (firstn (cursor size s) (user_ops size s));
  i_ids : NoDup (new_ids (user_ops size s));
  i_count : forall x, In x (new_ids (user_ops size s)) -> x < id_counter size s;
  i_cursor : cursor size s <= length (user_ops size s);
  i_present : present size ed = pic (user_ops size s) (cursor size s);
  i_past : past size ed = map (pic (user_ops size s)) (rev (seq 0 (cursor size s)));
  i_future : future size ed = map (pic (user_ops size s)) (seq (S (cursor size s)) (length (user_ops size s) - cursor size s));
  i_fits : forall k op, nth_error (user_ops size s) k = Some op -> fits (pic (user_ops size s) k) op;
  i_undo : undo_disabled size s = Nat.eqb (cursor size s) 0;
  i_redo : redo_disabled size s = Nat.eqb (cursor size s) (length (user_ops size s));
  i_sel : selected size s = sel size ed;
  i_mark : forall i c, nth_error (circles size s) i = Some c -> marked size s (el c) = true -> selected size s = Some i;
  i_fresh : forall e, made size s <= e -> marked size s e = false
}.
Lemma inv_start : Inv (start size one) (mkE size [] [] [] None).
Proof. constructor; cbn; auto; try constructor; try (intros; contradiction); try (intros [|?]; discriminate). Qed.

Lemma inv_track s ed x y : Inv s ed ->
  exists s', track size pick s x y = Some s' /\ Inv s' (mkE size (past size ed) (present size ed) (future size ed) (pick (present size ed) x y)) /\
    forall i c, nth_error (circles size s') i = Some c -> (marked size s' (el c) = true <-> selected size s' = Some i).
Proof.
  intro I. unfold track. fold lk. change (map (fun c => (c_x size c, c_y size c, c_scale size c)) (circles size s)) with (map lk (circles size s)). rewrite (i_look _ _ I).
  set (new := pick (present size ed) x y).
  set (m1 := match selected size s with Some old => _ | None => _ end).
  assert (SP : forall e, made size s <= e -> m1 e = false).
  { intros e L. unfold m1. pose proof (i_fresh _ _ I e L) as F. destruct (selected size s) as [old|]; auto. destruct (match new with Some n => old =? n | None => false end); auto. destruct (nth_error (circles size s) old); auto. unfold upd. destruct (e =? _); auto. }
  assert (M1 : forall i c, nth_error (circles size s) i = Some c -> m1 (el c) = true -> new = Some i).
  { intros i c N M. unfold m1 in M. destruct (selected size s) as [old|] eqn:SE.
    - destruct new as [n|].
      + destruct (Nat.eqb_spec old n) as [->|ne]; [rewrite <- SE; eapply (i_mark _ _ I); eauto|].
        exfalso. destruct (nth_error (circles size s) old) as [d|] eqn:ND.
        * unfold upd in M. destruct (Nat.eqb_spec (el c) (el d)); [discriminate|]. pose proof (i_mark _ _ I i c N M) as Q. rewrite SE in Q. injection Q as ->. congruence.
        * pose proof (i_mark _ _ I i c N M) as Q. rewrite SE in Q. injection Q as ->. congruence.
      + exfalso. destruct (nth_error (circles size s) old) as [d|] eqn:ND.
        * unfold upd in M. destruct (Nat.eqb_spec (el c) (el d)); [discriminate|]. pose proof (i_mark _ _ I i c N M) as Q. rewrite SE in Q. injection Q as ->. congruence.
        * pose proof (i_mark _ _ I i c N M) as Q. rewrite SE in Q. injection Q as ->. congruence.
    - pose proof (i_mark _ _ I i c N M) as Q. congruence. }
  destruct new as [n|] eqn:NW.
  - assert (L : n < length (circles size s)). { rewrite <- (map_length lk), (i_look _ _ I). eapply PICK; eauto. }
    destruct (nth_error (circles size s) n) as [c|] eqn:N; [|apply nth_error_None in N; lia].
    assert (EQ : forall i d, nth_error (circles size s) i = Some d -> (upd m1 (el c) true (el d) = true <-> Some n = Some i)).
    { intros i d ND. unfold upd. destruct (Nat.eqb_spec (el d) (el c)) as [E|E].
      - split; [intros _|reflexivity]. f_equal. eapply (NoDup_nth_error (map el (circles size s))); [exact (i_nodup _ _ I)|rewrite map_length; exact L|]. rewrite !nth_error_map, N, ND. cbn. congruence.
      - split; [intro M; exact (M1 i d ND M)|]. intro Q. injection Q as ->. congruence. }
    exists (with_sel size s (Some n) (upd m1 (el c) true)). split; [reflexivity|]. split.
    + destruct I. constructor; cbn; auto; [intros i d ND M; exact (proj1 (EQ i d ND) M)|]. intros e Le. unfold upd. destruct (Nat.eqb_spec e (el c)) as [->|_]; [|apply SP; exact Le]. pose proof (i_made0 c (nth_error_In _ _ N)). lia.
    + cbn. exact EQ.
  - exists (with_sel size s None m1). split; [reflexivity|].
    assert (EQ : forall i d, nth_error (circles size s) i = Some d -> m1 (el d) = true <-> None = Some i) by (intros i d ND; split; [intro M; exact (M1 i d ND M)|discriminate]).
    split; [|cbn; exact EQ]. destruct I. constructor; cbn; auto; try (intros i d ND M; exact (proj1 (EQ i d ND) M)).
Qed.

(** ** what is drawn; [off]: the circle whose slider is being moved *)
Record Pic (s : state) (p : picture) (ks : list nat) (off : option nat) : Prop := {
  p_look : map lk (circles size s) = p;
  p_items : map snd (items size s) = map el (circles size s);
  p_css : forall i c, nth_error (circles size s) i = Some c -> fst (css size s (el c)) = fst (lk c) /\ (off <> Some i -> css size s (el c) = lk c);
  p_nodup : NoDup (map el (circles size s));
  p_made : forall c, In c (circles size s) -> el c < made size s;
  p_keys : map fst (items size s) = ks;
  p_mark : forall i c, nth_error (circles size s) i = Some c -> marked size s (el c) = true -> selected size s = Some i;
  p_fresh : forall e, made size s <= e -> marked size s e = false
}.
Definition rest (s : state) := (selected size s, id_counter size s, user_ops size s, cursor size s, undo_disabled size s, redo_disabled size s).
Definition Hist (sl : option nat) (cnt : nat) (ops : list operation) (cur : nat) (u r : bool) (ed : editor) : Prop :=
  NoDup (new_ids ops) /\ (forall x, In x (new_ids ops) -> x < cnt) /\ cur <= length ops /\ present size ed = pic ops cur /\
  past size ed = map (pic ops) (rev (seq 0 cur)) /\ future size ed = map (pic ops) (seq (S cur) (length ops - cur)) /\
  (forall k op, nth_error ops k = Some op -> fits (pic ops k) op) /\ u = Nat.eqb cur 0 /\ r = Nat.eqb cur (length ops) /\ sl = sel size ed.
Lemma inv_of s ed : Pic s (present size ed) (new_ids (firstn (cursor size s) (user_ops size s))) None ->
  Hist (selected size s) (id_counter size s) (user_ops size s) (cursor size s) (undo_disabled size s) (redo_disabled size s) ed -> Inv s ed.
Proof.
  intros [] (A & B & C & D & E & F & G & H & I & J). constructor; auto. intros c IN. apply In_nth_error in IN. destruct IN as [i N]. apply (p_css0 i c N). discriminate.
Qed.
Lemma inv_pic s ed : Inv s ed -> Pic s (present size ed) (new_ids (firstn (cursor size s) (user_ops size s))) None.
Proof. intros []. constructor; auto. intros i c N. rewrite (i_css0 c (nth_error_In _ _ N)). auto. Qed.
Lemma inv_hist s ed : Inv s ed -> Hist (selected size s) (id_counter size s) (user_ops size s) (cursor size s) (undo_disabled size s) (redo_disabled size s) ed.
Proof. intros []. repeat split; auto. Qed.
Lemma pic_rest s s' p ks off : Pic s p ks off -> items size s' = items size s -> circles size s' = circles size s -> selected size s' = selected size s ->
  css size s' = css size s -> marked size s' = marked size s -> made size s' = made size s -> Pic s' p ks off.
Proof. intros [] E1 E2 E3 E4 E5 E6. constructor; rewrite ?E1, ?E2, ?E3, ?E4, ?E5, ?E6; auto. Qed.

Lemma filter_keep (l : list (nat * nat)) id : ~ In id (map fst l) -> filter (fun i => negb (Nat.eqb (fst i) id)) l = l.
Proof. induction l as [|[k e] l IH]; intro N; cbn; auto. destruct (Nat.eqb_spec k id) as [->|_]; [exfalso; apply N; left; reflexivity|]. cbn. rewrite IH; [reflexivity|intro; apply N; right; assumption]. Qed.

Lemma do_create s p ks x y id : Pic s p ks None -> ~ In id ks ->
  exists s', do_op size one s (Create size x y id) = Some s' /\ Pic s' (p ++ [(x, y, one)]) (ks ++ [id]) None /\ rest s' = rest s.
Proof.
  intros [] N. eexists. split; [reflexivity|]. split; [|reflexivity].
  assert (FR : forall c, In c (circles size s) -> el c <> made size s) by (intros c IN; pose proof (p_made0 c IN); lia).
  constructor; cbn.
  - rewrite map_app. cbn. rewrite p_look0. reflexivity.
  - rewrite !map_app, filter_keep by (rewrite p_keys0; exact N). cbn. rewrite p_items0. reflexivity.
  - intros i c NC. unfold upd. destruct (Nat.ltb_spec i (length (circles size s))).
    + rewrite nth_error_app1 in NC by assumption. destruct (Nat.eqb_spec (el c) (made size s)) as [E|_]; [exfalso; eapply FR; [eapply nth_error_In; exact NC|exact E]|]. exact (p_css0 i c NC).
    + rewrite nth_error_app2 in NC by assumption. destruct (i - length (circles size s)) as [|[|?]]; cbn in NC; try discriminate. injection NC as <-. cbn. rewrite Nat.eqb_refl. auto.
  - rewrite map_app. cbn. rewrite <- (rev_involutive (_ ++ _)). apply NoDup_rev. rewrite rev_app_distr. cbn. constructor; [|apply NoDup_rev; exact p_nodup0]. rewrite <- in_rev. intro IN. apply in_map_iff in IN. destruct IN as (c & E & IN). exact (FR c IN E).
  - intros c IN. apply in_app_or in IN. destruct IN as [IN|[<-|[]]]; [pose proof (p_made0 c IN)|cbn]; lia.
  - rewrite map_app, filter_keep by (rewrite p_keys0; exact N). cbn. rewrite p_keys0. reflexivity.
  - intros i c NC M. destruct (Nat.ltb_spec i (length (circles size s))).
    + rewrite nth_error_app1 in NC by assumption. eauto.
    + rewrite nth_error_app2 in NC by assumption. destruct (i - length (circles size s)) as [|[|?]]; cbn in NC; try discriminate. injection NC as <-. cbn in M. rewrite p_fresh0 in M by lia. discriminate.
  - intros e L. apply p_fresh0. lia.
Qed.

Lemma do_remove s p q ks id : Pic s (p ++ [q]) (ks ++ [id]) None -> ~ In id ks ->
  exists s', do_op size one s (Remove size id) = Some s' /\ Pic s' p ks None /\ rest s' = rest s.
Proof.
  intros [] N. cbn. destruct (rev (circles size s)) as [|c t] eqn:R.
  { apply (f_equal (@rev _)) in R. rewrite rev_involutive in R. rewrite R in p_look0. destruct p; discriminate. }
  assert (E : circles size s = rev t ++ [c]) by (rewrite <- (rev_involutive (circles size s)), R; reflexivity). clear R.
  rewrite E in *. rewrite map_app in *. cbn in *. apply app_inj_tail in p_look0. destruct p_look0 as [LK _].
  destruct (rev (items size s)) as [|[k e] its] eqn:R.
  { apply (f_equal (@rev _)) in R. rewrite rev_involutive in R. rewrite R in p_keys0. destruct ks; discriminate. }
  assert (EI : items size s = rev its ++ [(k, e)]) by (rewrite <- (rev_involutive (items size s)), R; reflexivity). clear R.
  rewrite EI in *. rewrite map_app in *. cbn in *. apply app_inj_tail in p_keys0. destruct p_keys0 as [KS ->]. apply app_inj_tail in p_items0. destruct p_items0 as [IT EE].
  assert (FL : filter (fun i => negb (Nat.eqb (fst i) id)) (rev its ++ [(id, e)]) = rev its).
  { rewrite filter_app, filter_keep by (rewrite KS; exact N). cbn. rewrite Nat.eqb_refl. cbn. apply app_nil_r. }
  eexists. split; [reflexivity|]. split; [|reflexivity]. rewrite FL.
  assert (NT : forall i d, nth_error (rev t) i = Some d -> nth_error (rev t ++ [c]) i = Some d) by (intros i d ND; rewrite nth_error_app1; [exact ND|apply nth_error_Some; congruence]).
  constructor; cbn; auto.
  - rewrite <- (rev_involutive (map _ _)). apply NoDup_rev. apply NoDup_rev in p_nodup0. rewrite rev_app_distr in p_nodup0. cbn in p_nodup0. inversion p_nodup0. assumption.
  - intros d IN. apply p_made0. apply in_or_app. auto.
  - intros i d ND. exact (p_mark0 i d (NT i d ND)).
Qed.

Lemma do_scale s p ks off w f v c : Pic s p ks off -> (forall i, off = Some i -> i = w) -> nth_error p w = Some c ->
  exists s', do_op size one s (ChangeScale size w f v) = Some s' /\ Pic s' (resized size w v p) ks None /\ rest s' = rest s.
Proof.
  intros [] OF N. cbn. rewrite <- p_look0, nth_error_map in N. destruct (nth_error (circles size s) w) as [d|] eqn:ND; [|discriminate].
  eexists. split; [reflexivity|]. split; [|reflexivity].
  constructor; cbn; auto.
  - rewrite set_resized by exact ND. rewrite p_look0. reflexivity.
  - rewrite set_elems by exact ND. exact p_items0.
  - intros i e NE. rewrite nth_set in NE. assert (L : w < length (circles size s)) by (apply nth_error_Some; congruence). apply Nat.ltb_lt in L. rewrite L in NE. unfold upd. destruct (Nat.eqb_spec i w) as [->|ne].
    + injection NE as <-. cbn. rewrite Nat.eqb_refl. destruct (p_css0 w d ND) as [Q _]. cbn. rewrite Q. unfold lk. cbn. auto.
    + destruct (Nat.eqb_spec (el e) (el d)) as [EE|_].
      * exfalso. apply ne. eapply (NoDup_nth_error (map el (circles size s))); [exact p_nodup0|rewrite map_length; apply nth_error_Some; congruence|]. rewrite !nth_error_map, ND, NE. cbn. congruence.
      * destruct (p_css0 i e NE) as [Q1 Q2]. assert (Q : off <> Some i) by (intro E; apply ne; auto). rewrite (Q2 Q). auto.
  - rewrite set_elems by exact ND. exact p_nodup0.
  - intros e IN. assert (IE : In (el e) (map el (circles size s))) by (rewrite <- (set_elems (circles size s) w d v ND); apply in_map; exact IN). apply in_map_iff in IE. destruct IE as (e' & <- & IE). auto.
  - intros i e NE M. rewrite nth_set in NE. assert (L : w < length (circles size s)) by (apply nth_error_Some; congruence). apply Nat.ltb_lt in L. rewrite L in NE. destruct (Nat.eqb_spec i w) as [->|ne]; [injection NE as <-; exact (p_mark0 w d ND M)|eauto].
Qed.

Lemma pic_slide : forall slider s p ks w c, Pic s p ks (Some w) -> nth_error (circles size s) w = Some c ->
  Pic (slide size s (el c) slider) p ks (Some w) /\ rest (slide size s (el c) slider) = rest s.
Proof.
  induction slider as [|v l IH]; intros s p ks w c P N; [split; [exact P|reflexivity]|]. cbn [slide fold_left].
  set (s1 := with_circles size s _ _ _ _).
  assert (P1 : Pic s1 p ks (Some w)).
  { destruct P. constructor; cbn; auto. intros i d ND. unfold upd. destruct (p_css0 i d ND) as [Q1 Q2]. destruct (Nat.eqb_spec (el d) (el c)) as [E|_]; [|auto]. rewrite <- E. cbn. split; [exact Q1|]. intro NE. exfalso. apply NE. f_equal.
    eapply (NoDup_nth_error (map el (circles size s))); [exact p_nodup0|rewrite map_length; apply nth_error_Some; congruence|]. rewrite !nth_error_map, ND, N. cbn. congruence. }
  destruct (IH s1 p ks w c P1 N) as [Q1 Q2]. split; [exact Q1|]. fold (slide size s1 (el c) l). rewrite Q2. reflexivity.
Qed.

(** ** the history *)
Lemma ids_app a b : new_ids (a ++ b) = new_ids a ++ new_ids b.
Proof. apply flat_map_app. Qed.
Lemma hist_add sl cnt cnt' ops cur u r ed op sl' : Hist sl cnt ops cur u r ed -> fits (present size ed) op -> NoDup (new_ids [op]) -> cnt <= cnt' ->
  (forall x, In x (new_ids [op]) -> cnt <= x < cnt') ->
  Hist sl' cnt' (firstn cur ops ++ [op]) (S cur) false true (mkE size (present size ed :: past size ed) (paint (present size ed) op) [] sl').
Proof.
  intros (A & B & C & D & E & F & G & _) FT NI LC NEW.
  assert (LEN : length (firstn cur ops) = cur) by (rewrite firstn_length; lia).
  assert (PK : forall k, k <= cur -> pic (firstn cur ops ++ [op]) k = pic ops k) by (intros k L; apply pic_app; lia).
  assert (NC : nth_error (firstn cur ops ++ [op]) cur = Some op) by (rewrite nth_error_app2, LEN, Nat.sub_diag by lia; reflexivity).
  repeat split; cbn [present past future sel].
  - rewrite ids_app. assert (O : forall x, In x (new_ids [op]) -> ~ In x (new_ids (firstn cur ops))) by (intros x X Y; apply ids_firstn in Y; apply B in Y; apply NEW in X; lia).
    pose proof (ids_firstn_nodup ops cur A) as NF. revert NF O. generalize (new_ids (firstn cur ops)). induction l as [|x l IHl]; intros NF O; [exact NI|]. inversion NF; subst. cbn. constructor.
    + intro IN. apply in_app_or in IN. destruct IN as [IN|IN]; [auto|]. apply (O x IN). left. reflexivity.
    + apply IHl; auto. intros y Y Z. apply (O y Y). right. exact Z.
  - intros x IN. rewrite ids_app in IN. apply in_app_or in IN. destruct IN as [IN|IN]; [apply ids_firstn in IN; apply B in IN; lia|apply NEW in IN; lia].
  - rewrite app_length, LEN. cbn. lia.
  - rewrite (pic_S _ _ _ NC), PK by lia. rewrite D. reflexivity.
  - rewrite seq_S, rev_app_distr. cbn [rev app map Nat.add]. rewrite PK, D, E by lia. f_equal. apply map_ext_in. intros k IN. apply in_rev in IN. apply in_seq in IN. symmetry. apply PK. lia.
  - rewrite app_length, LEN. cbn. replace (cur + 1 - S cur) with 0 by lia. reflexivity.
  - intros k o NO. destruct (Nat.lt_total k cur) as [L|[->|L]].
    + rewrite PK by lia. apply G. rewrite nth_error_app1 in NO by lia. rewrite <- (firstn_skipn cur ops), nth_error_app1 by lia. exact NO.
    + rewrite NC in NO. injection NO as <-. rewrite PK, <- D by lia. exact FT.
    + exfalso. assert (k < length (firstn cur ops ++ [op])) by (apply nth_error_Some; congruence). rewrite app_length, LEN in H. cbn in H. lia.
  - rewrite app_length, LEN. cbn [length]. symmetry. apply Nat.eqb_eq. lia.
Qed.

Lemma hist_move sl cnt ops cur cur' u r ed p q f : Hist sl cnt ops cur u r ed -> cur' <= length ops -> p = map (pic ops) (rev (seq 0 cur')) ->
  q = pic ops cur' -> f = map (pic ops) (seq (S cur') (length ops - cur')) ->
  Hist sl cnt ops cur' (Nat.eqb cur' 0) (Nat.eqb cur' (length ops)) (mkE size p q f (sel size ed)).
Proof. intros (A & B & C & D & E & F & G & H & I & J) L -> -> ->. repeat split; auto. Qed.
Lemma inv_from s0 s ed p ks : Pic s p ks None -> rest s = rest s0 -> p = present size ed -> ks = new_ids (firstn (cursor size s0) (user_ops size s0)) ->
  Hist (selected size s0) (id_counter size s0) (user_ops size s0) (cursor size s0) (undo_disabled size s0) (redo_disabled size s0) ed -> Inv s ed.
Proof. intros P R -> -> H. unfold rest in R. injection R as R1 R2 R3 R4 R5 R6. apply inv_of; rewrite ?R1, ?R2, ?R3, ?R4, ?R5, ?R6; auto. Qed.
Lemma firstn_cut (ops : list operation) cur op : cur <= length ops -> firstn (S cur) (firstn cur ops ++ [op]) = firstn cur ops ++ [op].
Proof. intro L. apply firstn_all2. rewrite app_length, firstn_length. cbn. lia. Qed.

Lemma create_inv s ed x y : Inv s ed -> let op := Create size x y (id_counter size s) in
  exists s2, do_op size one (add_operation size (with_id size s (S (id_counter size s))) op) op = Some s2 /\
    Inv s2 (mkE size (present size ed :: past size ed) (present size ed ++ [(x, y, one)]) [] (selected size s)).
Proof.
  intros I op. pose proof (inv_pic _ _ I) as P. pose proof (inv_hist _ _ I) as H. pose proof (i_cursor _ _ I) as CU. set (s1 := add_operation size (with_id size s (S (id_counter size s))) op).
  assert (NI : ~ In (id_counter size s) (new_ids (firstn (cursor size s) (user_ops size s)))) by (intro IN; apply ids_firstn in IN; apply (i_count _ _ I) in IN; lia).
  destruct (do_create s1 _ _ x y (id_counter size s) (pic_rest s s1 _ _ _ P eq_refl eq_refl eq_refl eq_refl eq_refl eq_refl) NI) as (s2 & E2 & P2 & R2). fold op in E2. exists s2. split; [exact E2|].
  eapply inv_from; [exact P2|exact R2|reflexivity| |].
  - cbn [s1 add_operation with_ops with_id cursor user_ops]. rewrite firstn_cut, ids_app by exact CU. reflexivity.
  - cbn. apply (hist_add _ _ _ _ _ _ _ _ op _ H); [exact Logic.I|cbn; constructor; [intros []|constructor]|lia|]. intros z [<-|[]]. lia.
Qed.
Lemma handle_ok s ed e : Inv s ed -> possible size ed e -> exists s', handle size one pick s e = Some s' /\ Inv s' (edit size one pick ed e).
Proof.
  intros I PO. pose proof (inv_pic _ _ I) as P. pose proof (inv_hist _ _ I) as H. pose proof (i_cursor _ _ I) as CU. destruct e as [x y|slider|x y| |].
  - cbn. destruct (inv_track s ed x y I) as (s' & E & I' & _). eauto.
  - cbn [handle edit]. cbn in PO. rewrite (i_sel _ _ I). destruct (sel size ed) as [i|] eqn:SE; [|exists s; split; [reflexivity|exact I]].
    specialize (PO i eq_refl). assert (L : i < length (circles size s)) by (rewrite <- (map_length lk), (i_look _ _ I); exact PO).
    destruct (nth_error (circles size s) i) as [c|] eqn:N; [|apply nth_error_None in N; lia].
    destruct (rev slider) as [|v t] eqn:RV.
    + apply (f_equal (@rev _)) in RV. rewrite rev_involutive in RV. rewrite RV. cbn. exists s. split; [reflexivity|exact I].
    + assert (PW : Pic s (present size ed) (new_ids (firstn (cursor size s) (user_ops size s))) (Some i)).
      { destruct P. constructor; auto. intros j d ND. destruct (p_css0 j d ND) as [Q1 Q2]. split; [exact Q1|]. intros _. apply Q2. discriminate. }
      destruct (pic_slide slider s _ _ i c PW N) as [P1 R1]. set (s1 := slide size s (el c) slider) in *. unfold rest in R1. injection R1 as Q1 Q2 Q3 Q4 Q5 Q6.
      set (op := ChangeScale size i (c_scale size c) v).
      assert (NP : nth_error (present size ed) i = Some (lk c)) by (rewrite <- (i_look _ _ I), nth_error_map, N; reflexivity).
      destruct (do_scale (add_operation size s1 op) (present size ed) _ (Some i) i (c_scale size c) v (lk c) (pic_rest s1 (add_operation size s1 op) _ _ _ P1 eq_refl eq_refl eq_refl eq_refl eq_refl eq_refl)) as (s2 & E2 & P2 & R2); [intros j E; congruence|exact NP|].
      exists s2. split; [exact E2|]. eapply inv_from; [exact P2|exact R2|reflexivity| |].
      * cbn [add_operation with_ops with_id cursor user_ops]. rewrite Q3, Q4, firstn_cut, ids_app by exact CU. cbn. rewrite app_nil_r. reflexivity.
      * cbn. rewrite Q1, Q2, Q3, Q4, <- SE, <- (i_sel _ _ I). apply (hist_add _ _ _ _ _ _ _ _ op _ H); [exists (c_x size c, c_y size c); exact NP|constructor|lia|intros ? []].
  - cbn [handle edit]. destruct (create_inv s ed x y I) as (s2 & E2 & I2). cbn zeta in E2. rewrite E2.
    destruct (inv_track s2 _ x y I2) as (s3 & E3 & I3 & _). exists s3. split; [exact E3|exact I3].
  - cbn [handle edit]. cbn in PO. unfold do_undo. pose proof (i_past _ _ I) as PA. pose proof (i_future _ _ I) as FU. pose proof (i_present _ _ I) as PR. destruct (cursor size s) as [|last] eqn:CE; [rewrite PA in PO; contradiction|].
    destruct (nth_error (user_ops size s) last) as [op|] eqn:NO; [|apply nth_error_None in NO; lia].
    rewrite seq_S, rev_app_distr in PA. cbn [rev app map] in PA. rewrite PA. cbn [Nat.add].
    pose proof (i_fits _ _ I last op NO) as FT.
    set (s1 := with_ops size s (user_ops size s) last (Nat.eqb last 0) false).
    pose proof (pic_rest s s1 _ _ _ P eq_refl eq_refl eq_refl eq_refl eq_refl eq_refl) as P1. rewrite PR, (pic_S _ _ _ NO), (ids_S _ _ _ NO) in P1.
    assert (HH : Hist (selected size s) (id_counter size s) (user_ops size s) last (Nat.eqb last 0) false (mkE size (map (pic (user_ops size s)) (rev (seq 0 last))) (pic (user_ops size s) last) (present size ed :: future size ed) (sel size ed))).
    { replace false with (Nat.eqb last (length (user_ops size s))) by (apply Nat.eqb_neq; lia). eapply hist_move; [exact H|lia|reflexivity|reflexivity|].
      replace (length (user_ops size s) - last) with (S (length (user_ops size s) - S last)) by lia. cbn [seq map]. rewrite PR, FU. reflexivity. }
    destruct op as [x y id|id|w f t]; [| contradiction |].
    + assert (NI : ~ In id (new_ids (firstn last (user_ops size s)))).
      { pose proof (ids_firstn_nodup _ (S last) (i_ids _ _ I)) as ND. rewrite (ids_S _ _ _ NO) in ND. apply NoDup_rev in ND. rewrite rev_app_distr in ND. cbn in ND. inversion ND. rewrite <- in_rev in H2. exact H2. }
      destruct (do_remove s1 _ _ _ id P1 NI) as (s2 & E2 & P2 & R2). exists s2. split; [exact E2|]. eapply inv_from; [exact P2|exact R2|reflexivity|reflexivity|exact HH].
    + destruct FT as [xy FT]. cbn [paint new_ids flat_map app] in P1. rewrite app_nil_r in P1.
      destruct (do_scale s1 _ _ None w t f (xy, t) P1) as (s2 & E2 & P2 & R2); [discriminate|rewrite nth_resized, FT; cbn; rewrite Nat.eqb_refl; reflexivity|].
      change f with (snd (xy, f)) in P2. rewrite (resized_back w t _ _ FT) in P2. exists s2. split; [exact E2|]. eapply inv_from; [exact P2|exact R2|reflexivity|reflexivity|exact HH].
  - cbn [handle edit]. cbn in PO. unfold do_redo. pose proof (i_past _ _ I) as PA. pose proof (i_future _ _ I) as FU. pose proof (i_present _ _ I) as PR.
    destruct (length (user_ops size s) - cursor size s) as [|n] eqn:LN; [rewrite FU in PO; contradiction|].
    destruct (nth_error (user_ops size s) (cursor size s)) as [op|] eqn:NO; [|apply nth_error_None in NO; lia].
    cbn [seq map] in FU. rewrite FU.
    pose proof (i_fits _ _ I _ op NO) as FT.
    set (s1 := with_ops size s (user_ops size s) (S (cursor size s)) false (Nat.eqb (S (cursor size s)) (length (user_ops size s)))).
    pose proof (pic_rest s s1 _ _ _ P eq_refl eq_refl eq_refl eq_refl eq_refl eq_refl) as P1.
    assert (HH : Hist (selected size s) (id_counter size s) (user_ops size s) (S (cursor size s)) false (Nat.eqb (S (cursor size s)) (length (user_ops size s))) (mkE size (present size ed :: past size ed) (pic (user_ops size s) (S (cursor size s))) (map (pic (user_ops size s)) (seq (S (S (cursor size s))) n)) (sel size ed))).
    { replace false with (Nat.eqb (S (cursor size s)) 0) by reflexivity. eapply hist_move; [exact H|lia| |reflexivity|].
      - rewrite seq_S, rev_app_distr. cbn [rev app map Nat.add]. rewrite PR, PA. reflexivity.
      - replace (length (user_ops size s) - S (cursor size s)) with n by lia. reflexivity. }
    destruct op as [x y id|id|w f t]; [| contradiction |].
    + assert (NI : ~ In id (new_ids (firstn (cursor size s) (user_ops size s)))).
      { pose proof (ids_firstn_nodup _ (S (cursor size s)) (i_ids _ _ I)) as ND. rewrite (ids_S _ _ _ NO) in ND. apply NoDup_rev in ND. rewrite rev_app_distr in ND. cbn in ND. inversion ND. rewrite <- in_rev in H2. exact H2. }
      destruct (do_create s1 _ _ x y id P1 NI) as (s2 & E2 & P2 & R2). exists s2. split; [exact E2|]. eapply inv_from; [exact P2|exact R2| | |exact HH].
      * cbn [present]. rewrite (pic_S _ _ _ NO), PR. reflexivity.
      * cbn [s1 with_ops cursor user_ops]. rewrite (ids_S _ _ _ NO). reflexivity.
    + destruct FT as [xy FT]. rewrite PR in P1.
      destruct (do_scale s1 _ _ None w f t (xy, f) P1) as (s2 & E2 & P2 & R2); [discriminate|exact FT|].
      exists s2. split; [exact E2|]. eapply inv_from; [exact P2|exact R2| | |exact HH].
      * cbn [present]. rewrite (pic_S _ _ _ NO). reflexivity.
      * cbn [s1 with_ops cursor user_ops]. rewrite (ids_S _ _ _ NO). cbn. rewrite app_nil_r. reflexivity.
Qed.

Lemma handles_app s a b : handles size one pick s (a ++ b) = match handles size one pick s a with Some s' => handles size one pick s' b | None => None end.
Proof. revert s. induction a as [|e a IH]; intro s; [reflexivity|]. cbn. destruct (handle size one pick s e); auto. Qed.
Lemma handles_ok evs : history size one pick evs -> exists s, handles size one pick (start size one) evs = Some s /\ Inv s (edits size one pick evs).
Proof.
  induction evs as [|e evs IH] using rev_ind; intro H; [exists (start size one); split; [reflexivity|apply inv_start]|].
  destruct IH as (s & E & I). { intros a e' b EQ. apply (H a e' (b ++ [e])). rewrite EQ, <- app_assoc. reflexivity. }
  destruct (handle_ok s _ e I) as (s' & E' & I'). { apply (H evs e []). reflexivity. }
  exists s'. rewrite handles_app, E. cbn. rewrite E'. split; [reflexivity|]. unfold edits in *. rewrite fold_left_app. exact I'.
Qed.
Lemma inv_screen s ed : Inv s ed -> screen size s = present size ed.
Proof.
  intros []. unfold screen. rewrite <- (map_map snd (css size s)), i_items0, map_map, <- i_look0. apply map_ext_in. intros c IN. apply i_css0. exact IN.
Qed.
End Proofs.
