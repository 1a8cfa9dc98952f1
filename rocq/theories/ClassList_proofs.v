(** Proofs for C62. *)
From Coq Require Import List Bool Ascii.
From Verif Require Import ClassList Spec_class.
Import ListNotations.

Lemma is_blank x : is_space x = blank x.
Proof. destruct x as [[] [] [] [] [] [] [] []]; reflexivity. Qed.
Local Arguments blank : simpl never.
Definition nosp (c : str) : Prop := forall x, In x c -> blank x = false.

Lemma str_eqb_spec a b : str_eqb a b = true <-> a = b.
Proof. unfold str_eqb. destruct (list_eq_dec ascii_dec a b); split; congruence. Qed.
Lemma existsb_str c l : existsb (str_eqb c) l = true <-> In c l.
Proof.
  rewrite existsb_exists. split; [intros (x & I & E); apply str_eqb_spec in E; subst; auto|]. intro I. exists c. split; auto.
  apply str_eqb_spec. auto.
Qed.

Lemma word_free c s : nosp s -> (word c s <-> c = s /\ s <> []).
Proof.
  intro N. split.
  - intros (NE & F & l & r & E & L & R). assert (l = []) as ->.
    { destruct L as [L|(l' & x & -> & X)]; auto. rewrite (N x) in X; [discriminate|]. rewrite E, !in_app_iff. cbn. auto. }
    assert (r = []) as ->.
    { destruct R as [R|(x & r' & -> & X)]; auto. rewrite (N x) in X; [discriminate|]. rewrite E. cbn. rewrite in_app_iff. cbn. auto. }
    rewrite app_nil_r in E. cbn in E. subst. auto.
  - intros [-> NE]. split; auto. split; auto. exists [], []. rewrite app_nil_r. auto.
Qed.
Lemma prefix_eq x s (X : blank x = true) r (R : r = [] \/ exists y r', r = y :: r' /\ blank y = true) :
  forall q c, nosp q -> nosp c -> q ++ x :: s = c ++ r -> c = q.
Proof.
  induction q as [|w q IH]; intros [|z c] Q C E; cbn in E.
  - auto.
  - injection E as <- _. rewrite (C x) in X; [discriminate|left; auto].
  - destruct R as [->|(y & r' & -> & Y)]; [discriminate|]. injection E as <- _. rewrite (Q w) in Y; [discriminate|left; auto].
  - injection E as <- E. f_equal. apply IH; auto; intros v V; [apply Q|apply C]; right; auto.
Qed.
Lemma split_cases p x s c r : nosp p -> blank x = true -> nosp c -> c <> [] ->
  (r = [] \/ exists y r', r = y :: r' /\ blank y = true) -> forall l,
  (l = [] \/ exists l' y, l = l' ++ [y] /\ blank y = true) -> p ++ x :: s = l ++ c ++ r ->
  (exists m, l = p ++ x :: m /\ s = m ++ c ++ r) \/ (l = [] /\ c = p).
Proof.
  intros N X F NE R l L E. destruct L as [->|(l' & y & -> & Y)].
  - right. split; auto. eapply prefix_eq; eauto.
  - left. rewrite <- app_assoc in E. cbn in E. clear NE F R. revert l' E. induction p as [|w p IH]; intros l' E.
    + destruct l' as [|z l']; cbn in *; injection E as <- E.
      * exists []. auto.
      * exists (l' ++ [y]). rewrite <- app_assoc. auto.
    + destruct l' as [|z l']; cbn in *; injection E as -> E.
      * rewrite (N y) in Y; [discriminate|left; auto].
      * destruct (IH (fun v V => N v (or_intror V)) l' E) as (m & -> & ->). exists m. auto.
Qed.
Lemma word_split c p x s : nosp p -> blank x = true ->
  (word c (p ++ x :: s) <-> (c = p /\ p <> []) \/ word c s).
Proof.
  intros N X. split.
  - intros (NE & F & l & r & E & L & R). destruct (split_cases p x s c r N X F NE R l L E) as [(m & -> & ->)|[-> ->]].
    + right. split; auto. split; auto. exists m, r. split; auto. split; auto.
      destruct L as [L|(l' & v & L & V)]; [destruct p; discriminate|]. destruct m as [|w m]; auto. right.
      destruct (@exists_last _ (w :: m)) as (m' & z & Q0); [discriminate|]. rewrite Q0 in *. exists m', z. split; auto.
      assert (p ++ x :: m' ++ [z] = (p ++ x :: m') ++ [z]) as Q by (rewrite <- app_assoc; reflexivity). rewrite Q in L.
      apply app_inj_tail in L as [_ ->]. auto.
    + left. split; auto.
  - intros [[-> NE]|(NE & F & l & r & -> & L & R)].
    + split; auto. split; auto. exists [], (x :: s). split; [reflexivity|]. split; auto. right. eauto.
    + split; auto. split; auto. exists (p ++ x :: l), r. split; [rewrite <- app_assoc; reflexivity|]. split; auto. right.
      destruct L as [->|(l' & z & -> & Z)].
      * exists p, x. auto.
      * exists (p ++ x :: l'), z. split; auto. rewrite <- app_assoc. reflexivity.
Qed.

Lemma split_words c s : forall cur, nosp cur -> (In c (split_space cur s) <-> word c (cur ++ s)).
Proof.
  induction s as [|x s IH]; intros cur N; cbn [split_space].
  - rewrite app_nil_r, word_free by auto. destruct cur; cbn; intuition congruence.
  - rewrite is_blank. destruct (blank x) eqn:X.
    + rewrite word_split by auto. assert (N0 : nosp []) by (intros ? []). destruct cur as [|y cur].
      * rewrite (IH [] N0). cbn. intuition congruence.
      * cbn [In]. rewrite (IH [] N0). cbn [app]. intuition congruence.
    + rewrite IH.
      * rewrite <- app_assoc. reflexivity.
      * intros v V. apply in_app_iff in V as [V|[<-|[]]]; auto.
Qed.

Lemma append_in c d l : In c (set_append d l) <-> In c l \/ c = d.
Proof.
  unfold set_append. destruct (existsb (str_eqb d) l) eqn:E.
  - apply existsb_str in E. split; auto. intros [E'|E']; [auto|now subst].
  - rewrite in_app_iff. cbn. intuition.
Qed.
Lemma append_nodup d l : NoDup l -> NoDup (set_append d l).
Proof.
  intro N. unfold set_append. destruct (existsb (str_eqb d) l) eqn:E; auto.
  assert (~ In d l) by (intro Q; apply existsb_str in Q; congruence).
  clear E. induction l as [|x l IH]; cbn; [repeat constructor; auto|]. inversion N; subst. constructor.
  - rewrite in_app_iff. cbn. intros [Q|[->|[]]]; auto. apply H. left; auto.
  - apply IH; auto. intro Q. apply H. right; auto.
Qed.
Lemma appends_in c cs : forall l, In c (fold_left (fun l c => set_append c l) cs l) <-> In c l \/ In c cs.
Proof.
  induction cs as [|d cs IH]; intro l; cbn [fold_left In]; [tauto|]. rewrite IH, append_in. intuition.
Qed.
Lemma appends_nodup cs : forall l, NoDup l -> NoDup (fold_left (fun l c => set_append c l) cs l).
Proof. induction cs as [|d cs IH]; intros l N; cbn [fold_left]; auto. apply IH, append_nodup, N. Qed.
(** appending distinct new elements *)
Lemma appends_new cs : forall l, NoDup (l ++ cs) -> fold_left (fun l c => set_append c l) cs l = l ++ cs.
Proof.
  induction cs as [|d cs IH]; intros l N; cbn [fold_left]; [symmetry; apply app_nil_r|].
  assert (set_append d l = l ++ [d]) as ->.
  { unfold set_append. destruct (existsb (str_eqb d) l) eqn:E; auto. apply existsb_str in E.
    apply NoDup_remove in N as [_ N]. destruct N. apply in_app_iff; auto. }
  rewrite IH; rewrite <- app_assoc; auto.
Qed.

Lemma parse_in c a : In c (parse a) <-> has_class c a.
Proof.
  destruct a as [s|]; cbn [parse].
  - rewrite appends_in, split_words by (intros ? []). cbn. split; [intros [[]|W]; exists s; auto|]. intros (s' & [= <-] & W). auto.
  - split; [intros []|]. intros (s & E & _). discriminate.
Qed.
Lemma parse_nodup a : NoDup (parse a).
Proof. destruct a; cbn; [apply appends_nodup|]; constructor. Qed.
Lemma parse_names a c : In c (parse a) -> class_name c.
Proof. rewrite parse_in. intros (s & _ & A & B & _). split; auto. Qed.

Lemma split_serialize l : (forall c, In c l -> class_name c) -> split_space [] (serialize l) = l.
Proof.
  assert (G : forall c, nosp c -> forall cur s, nosp cur ->
            split_space cur (c ++ s) = split_space (cur ++ c) s).
  { induction c as [|x c IH]; intros NC cur s NU; cbn [app split_space]; [now rewrite app_nil_r|].
    rewrite is_blank, (NC x) by (left; auto). rewrite IH.
    - rewrite <- app_assoc. reflexivity.
    - intros v V. apply NC. right; auto.
    - intros v V. apply in_app_iff in V as [V|[<-|[]]]; auto. apply NC. left; auto. }
  induction l as [|c l IH]; intro N; auto. destruct (N c (or_introl eq_refl)) as [NE F].
  assert (IH' : split_space [] (serialize l) = l) by (apply IH; intros d D; apply N; right; auto).
  destruct l as [|d l].
  - cbn [serialize]. rewrite <- (app_nil_r c) at 1. rewrite G; auto; [|intros ? []]. cbn. destruct c; congruence.
  - change (serialize (c :: d :: l)) with (c ++ " "%char :: serialize (d :: l)). rewrite G; auto; [|intros ? []].
    cbn [app split_space]. change (is_space " ") with true. cbn iota. rewrite IH'. destruct c; congruence.
Qed.
Lemma update_classes a l : NoDup l -> (forall c, In c l -> class_name c) -> parse (update a l) = l.
Proof.
  intros N C. assert (P : parse (Some (serialize l)) = l).
  { cbn [parse]. rewrite split_serialize by auto. apply appends_new. exact N. }
  destruct a; [exact P|]. destruct l; [reflexivity|exact P].
Qed.

Lemma bad_token_spec c : bad_token c = false <-> class_name c.
Proof.
  assert (E0 : forall l, existsb is_space l = existsb blank l) by (induction l as [|y l IH]; cbn; [auto|rewrite is_blank, IH; auto]).
  unfold bad_token, class_name. destruct c as [|x c]; [split; [discriminate|intros [A _]; congruence]|].
  cbv iota; rewrite ?E0. split.
  - intro E. split; [discriminate|]. intros y Y. destruct (blank y) eqn:S; auto.
    assert (existsb blank (x :: c) = true) by (apply existsb_exists; eauto). congruence.
  - intros [_ F]. destruct (existsb blank (x :: c)) eqn:E; auto. apply existsb_exists in E as (y & Y & S). rewrite F in S; auto.
Qed.
Lemma bad_tokens_spec cs : existsb bad_token cs = false <-> (forall c, In c cs -> class_name c).
Proof.
  split.
  - intros E c I. apply bad_token_spec. destruct (bad_token c) eqn:B; auto.
    assert (existsb bad_token cs = true) by (apply existsb_exists; eauto). congruence.
  - intro F. destruct (existsb bad_token cs) eqn:E; auto. apply existsb_exists in E as (c & I & B).
    apply F, bad_token_spec in I. congruence.
Qed.
Lemma removes_in c cs : forall l,
  In c (fold_left (fun l c => filter (fun d => negb (str_eqb c d)) l) cs l) <-> In c l /\ ~ In c cs.
Proof.
  induction cs as [|d cs IH]; intro l; cbn [fold_left In]; [tauto|]. rewrite IH, filter_In, negb_true_iff.
  assert (str_eqb d c = false <-> d <> c).
  { split; intro Q; [intro; subst; assert (str_eqb c c = true) by (apply str_eqb_spec; auto); congruence|].
    destruct (str_eqb d c) eqn:E; auto. apply str_eqb_spec in E. congruence. }
  rewrite H. tauto.
Qed.
Lemma removes_nodup cs : forall l, NoDup l -> NoDup (fold_left (fun l c => filter (fun d => negb (str_eqb c d)) l) cs l).
Proof. induction cs as [|d cs IH]; intros l N; cbn [fold_left]; auto. apply IH, NoDup_filter, N. Qed.

(** one call *)
Lemma call_ok o a : (forall c, In c (names o) -> class_name c) ->
  exists a', class_call o a = Some a' /\
    forall c, has_class c a' <-> (In c (names o) /\ adds o = true) \/ (~ In c (names o) /\ has_class c a).
Proof.
  assert (ADD : forall cs, (forall c, In c cs -> class_name c) -> exists a', tl_add cs a = Some a' /\
    forall c, has_class c a' <-> (In c cs /\ true = true) \/ (~ In c cs /\ has_class c a)).
  { intros cs F. unfold tl_add. rewrite (proj2 (bad_tokens_spec cs) F). eexists. split; [reflexivity|]. intro c.
    rewrite <- parse_in, update_classes.
    - rewrite appends_in, parse_in. destruct (in_dec (list_eq_dec ascii_dec) c cs); tauto.
    - apply appends_nodup, parse_nodup.
    - intros d D. apply appends_in in D as [D|D]; auto. eapply parse_names; eauto. }
  assert (DEL : forall cs, (forall c, In c cs -> class_name c) -> exists a', tl_remove cs a = Some a' /\
    forall c, has_class c a' <-> (In c cs /\ false = true) \/ (~ In c cs /\ has_class c a)).
  { intros cs F. unfold tl_remove. rewrite (proj2 (bad_tokens_spec cs) F). eexists. split; [reflexivity|]. intro c.
    rewrite <- parse_in, update_classes.
    - rewrite removes_in, parse_in. intuition discriminate.
    - apply removes_nodup, parse_nodup.
    - intros d D. apply removes_in in D as [D _]. eapply parse_names; eauto. }
  intro F. destruct o as [c|cs|c|cs|c b]; cbn [class_call names adds] in *; auto.
  unfold tl_toggle. rewrite (proj2 (bad_token_spec c) (F c (or_introl eq_refl))).
  destruct (existsb (str_eqb c) (parse a)) eqn:E.
  - apply existsb_str in E. destruct b.
    + eexists. split; [reflexivity|]. intro d. cbn. rewrite <- !parse_in.
      destruct (list_eq_dec ascii_dec c d) as [->|NE]; intuition congruence.
    + destruct (DEL [c]) as (a' & E1 & E2); [auto|]. unfold tl_remove in E1.
      rewrite (proj2 (bad_tokens_spec [c]) F) in E1. cbn [fold_left] in E1. exists a'. auto.
  - assert (NI : ~ In c (parse a)) by (intro Q; apply existsb_str in Q; congruence). destruct b.
    + destruct (ADD [c]) as (a' & E1 & E2); [auto|]. unfold tl_add in E1.
      rewrite (proj2 (bad_tokens_spec [c]) F) in E1. cbn [fold_left] in E1. unfold set_append in E1. rewrite E in E1. exists a'. auto.
    + eexists. split; [reflexivity|]. intro d. cbn. rewrite <- !parse_in.
      destruct (list_eq_dec ascii_dec c d) as [->|NE]; intuition congruence.
Qed.
Lemma call_panics o a c : In c (names o) -> ~ class_name c -> class_call o a = None.
Proof.
  intros I N. assert (B : bad_token c = true).
  { destruct (bad_token c) eqn:E; auto. apply bad_token_spec in E. contradiction. }
  assert (forall cs, In c cs -> existsb bad_token cs = true) as X by (intros cs Q; apply existsb_exists; eauto).
  destruct o as [d|cs|d|cs|d b]; cbn [class_call names] in *; unfold tl_add, tl_remove; rewrite ?X; auto.
  destruct I as [->|[]]. unfold tl_toggle. rewrite B. reflexivity.
Qed.
Lemma should_ext c l : forall b b' : Prop, (b <-> b') -> (should_have c l b <-> should_have c l b').
Proof. induction l as [|o l IH]; intros b b' E; cbn [should_have]; auto. apply IH. rewrite E. tauto. Qed.
Lemma calls_ok l : forall a, (forall o c, In o l -> In c (names o) -> class_name c) ->
  exists a', class_calls l a = Some a' /\ forall c, has_class c a' <-> should_have c l (has_class c a).
Proof.
  induction l as [|o l IH]; intros a F; cbn [class_calls should_have].
  - exists a. split; auto. tauto.
  - destruct (call_ok o a) as (a1 & -> & E1); [intros c C; eapply F; eauto; left; auto|].
    destruct (IH a1) as (a2 & -> & E2); [intros o' c O C; eapply F; eauto; right; auto|].
    exists a2. split; auto. intro c. rewrite E2. apply should_ext, E1.
Qed.
Lemma calls_panic l : forall a o c, In o l -> In c (names o) -> ~ class_name c -> class_calls l a = None.
Proof.
  induction l as [|o' l IH]; intros a o c O C N; [destruct O|]. cbn [class_calls]. destruct O as [->|O].
  - rewrite (call_panics o a c); auto.
  - destruct (class_call o' a); auto. eapply IH; eauto.
Qed.
