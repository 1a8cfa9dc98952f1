From Coq Require Import List Arith NArith Bool Lia Permutation Sorting.Sorted.
From Verif Require Import Util Position Dom Context Spec_path Spec_render Render_history
  Position_proofs Dom_proofs Context_proofs Render_history_proofs Spec_list DynList Spec_dynlist.
Import ListNotations.

(** ** moving a run of nodes *)
Lemma next_sib d p n l1 l2 : dom_wf d -> kids d p = l1 ++ n :: l2 ->
  dom_next_sibling d n = hd_error l2.
Proof.
  intros W K. unfold dom_next_sibling.
  assert (P : par d n = Some p) by (apply W; rewrite K; apply in_app_iff; simpl; auto).
  rewrite P, K. apply next_in_mid.
  assert (ND := proj1 W p). rewrite K in ND. apply NoDup_remove_2 in ND.
  rewrite in_app_iff in ND. tauto.
Qed.

Record dframe (N : list node) (conts : list node) (d d' : dom) : Prop := {
  df_wf : dom_wf d';
  df_frag : frag d' = frag d;
  df_kids : forall q, ~ In q conts -> kids d' q = kids d q;
  df_par : forall m, ~ In m N -> par d' m = par d m
}.
Lemma dframe_refl N C d : dom_wf d -> dframe N C d d.
Proof. constructor; auto. Qed.
Lemma dframe_trans N C a b c : dframe N C a b -> dframe N C b c -> dframe N C a c.
Proof.
  intros [W1 F1 K1 P1] [W2 F2 K2 P2]. constructor; auto.
  - congruence.
  - intros q H. rewrite K2, K1; auto.
  - intros q H. rewrite P2, P1; auto.
Qed.
Lemma dframe_mono N N' C C' a b : dframe N C a b -> incl N N' -> incl C C' -> dframe N' C' a b.
Proof. intros [W F K P] H1 H2. constructor; auto. Qed.

(** re-inserting a child of the same parent elsewhere *)
Lemma insert_same d p n L T ref :
  dom_wf d -> frag d n = false -> In n (kids d p) ->
  remove_node n (kids d p) = L ++ T -> ref = hd_error T -> ref <> Some n ->
  exists d', insert_before d p n ref = Some d' /\ dframe [] [p] d d' /\
    kids d' p = L ++ n :: T.
Proof.
  intros W F I K R NR.
  assert (RO : ref_ok d p ref).
  { subst ref. destruct T as [|t T]; simpl; auto.
    assert (In t (remove_node n (kids d p))) by (rewrite K; apply in_app_iff; simpl; auto).
    apply in_remove_node in H. tauto. }
  destruct (insert_before_spec d p n ref W F RO) as (d' & E & W' & F' & P1 & P2 & K1 & K2).
  exists d'. split; auto.
  assert (PN : par d n = Some p) by (apply W; auto).
  assert (ER : eff_ref d p n ref = ref).
  { unfold eff_ref. destruct ref as [r|]; auto. destruct (Nat.eqb_spec r n); auto. congruence. }
  assert (ND : NoDup (L ++ T)) by (rewrite <- K; apply nodup_remove_node; apply W).
  split.
  - constructor; auto.
    + intros q Hq. rewrite K2 by (intro; subst; apply Hq; simpl; auto).
      apply remove_node_notin. intro X. apply W in X.
      assert (q = p) by congruence. subst. apply Hq. simpl; auto.
    + intros m _. destruct (Nat.eq_dec m n) as [->|]; auto. congruence.
  - rewrite K1, ER, K. subst ref. destruct T as [|t T]; simpl.
    + rewrite ins_list_none, app_nil_r. auto.
    + rewrite ins_list_some; auto.
      apply NoDup_remove_2 in ND. rewrite in_app_iff in ND. tauto.
Qed.

Lemma remove_mid d p n l1 l2 : dom_wf d -> kids d p = l1 ++ n :: l2 ->
  remove_node n (kids d p) = l1 ++ l2.
Proof.
  intros W K. assert (ND := proj1 W p). rewrite K in *. apply NoDup_remove_2 in ND.
  rewrite in_app_iff in ND. apply remove_node_mid; tauto.
Qed.

Lemma last_dflt {A} (X : list A) : forall x a b, last (x :: X) a = last (x :: X) b.
Proof. induction X as [|y X IH]; intros x a b; auto. exact (IH y a b). Qed.
Lemma last_shift {A} (x x2 : A) X : last (x :: x2 :: X) x = last (x2 :: X) x2.
Proof. change (last (x2 :: X) x = last (x2 :: X) x2). apply last_dflt. Qed.
Lemma last_in {A} (X : list A) : forall x a, In (last (x :: X) a) (x :: X).
Proof. induction X as [|y X IH]; intros x a; [simpl; auto|]. right. exact (IH y a). Qed.

Lemma move_fwd X : forall x Y d fuel p A B T,
  dom_wf d -> (forall n, In n (x :: X) -> frag d n = false) ->
  kids d p = A ++ (x :: X) ++ B ++ Y ++ T -> length (x :: X) <= fuel ->
  exists d', move_nodes fuel d p x (last (x :: X) x) (hd_error T) = Some d' /\
    dframe [] [p] d d' /\ kids d' p = A ++ B ++ Y ++ (x :: X) ++ T.
Proof.
  induction X as [|x2 X IH]; intros x Y d fuel p A B T W F K L; destruct fuel as [|fuel]; simpl in L; try lia.
  - assert (ND := proj1 W p). rewrite K in ND.
    destruct (insert_same d p x (A ++ B ++ Y) T (hd_error T)) as (d1 & E & FR & K1); auto.
    + apply F; simpl; auto.
    + rewrite K. apply in_app_iff; simpl; auto.
    + rewrite (remove_mid d p x A (B ++ Y ++ T)); auto. rewrite <- !app_assoc. auto.
    + destruct T as [|t T]; simpl; [congruence|]. intro H. inversion H; subst t.
      simpl in ND. apply NoDup_remove_2 in ND. apply ND. rewrite !in_app_iff; simpl; auto 6.
    + exists d1. simpl. rewrite E. simpl. rewrite Nat.eqb_refl. split; auto. split; auto.
      rewrite K1, <- !app_assoc. auto.
  - assert (ND := proj1 W p). rewrite K in ND.
    destruct (insert_same d p x (A ++ (x2 :: X) ++ B ++ Y) T (hd_error T)) as (d1 & E & FR & K1); auto.
    + apply F; simpl; auto.
    + rewrite K. apply in_app_iff; simpl; auto.
    + rewrite (remove_mid d p x A ((x2 :: X) ++ B ++ Y ++ T)); auto. rewrite <- !app_assoc. auto.
    + destruct T as [|t T]; simpl; [congruence|]. intro H. inversion H; subst t.
      simpl in ND. apply NoDup_remove_2 in ND. apply ND.
      rewrite in_app_iff; right. right. rewrite !in_app_iff. simpl; auto 6.
    + destruct (IH x2 (Y ++ [x]) d1 fuel p A B T) as (d2 & E2 & FR2 & K2); auto.
      * apply FR.
      * intros n Hn. rewrite (df_frag _ _ _ _ FR). apply F; simpl in *; tauto.
      * rewrite K1, <- !app_assoc. auto.
      * simpl; lia.
      * exists d2. cbn [move_nodes]. rewrite (next_sib d p x A ((x2 :: X) ++ B ++ Y ++ T)); auto.
        cbn [hd_error app]. unfold obind. rewrite E.
        rewrite last_shift.
        destruct (Nat.eqb_spec (last (x2 :: X) x2) x) as [EQ|NE].
        -- exfalso. assert (In x (x2 :: X)).
           { rewrite <- EQ. apply last_in. }
           rewrite <- app_comm_cons in ND. apply NoDup_remove_2 in ND. apply ND.
           rewrite in_app_iff; right. apply in_app_iff; auto.
        -- rewrite E2. split; auto. split; [eapply dframe_trans; eauto|].
           rewrite K2, <- !app_assoc. auto.
Qed.

Lemma move_bwd X : forall x Y d fuel p A T C,
  dom_wf d -> (forall n, In n (x :: X) -> frag d n = false) -> T <> [] ->
  kids d p = A ++ Y ++ T ++ (x :: X) ++ C -> length (x :: X) <= fuel ->
  exists d', move_nodes fuel d p x (last (x :: X) x) (hd_error T) = Some d' /\
    dframe [] [p] d d' /\ kids d' p = A ++ Y ++ (x :: X) ++ T ++ C.
Proof.
  induction X as [|x2 X IH]; intros x Y d fuel p A T C W F NT K L; destruct fuel as [|fuel]; simpl in L; try lia.
  - assert (ND := proj1 W p). rewrite K in ND.
    destruct (insert_same d p x (A ++ Y) (T ++ C) (hd_error T)) as (d1 & E & FR & K1); auto.
    + apply F; simpl; auto.
    + rewrite K. rewrite !in_app_iff; simpl; tauto.
    + rewrite (remove_mid d p x (A ++ Y ++ T) C); [rewrite <- !app_assoc; auto|auto|rewrite K, <- !app_assoc; reflexivity].
    + destruct T; simpl; congruence.
    + destruct T as [|t T]; simpl; [congruence|]. intro H. inversion H; subst t.
      rewrite (app_assoc A) in ND. simpl in ND. apply NoDup_remove_2 in ND. apply ND. rewrite !in_app_iff; simpl; auto 6.
    + exists d1. simpl. rewrite E. simpl. rewrite Nat.eqb_refl. split; auto. split; auto.
      rewrite K1, <- !app_assoc. auto.
  - assert (ND := proj1 W p). rewrite K in ND.
    destruct (insert_same d p x (A ++ Y) (T ++ (x2 :: X) ++ C) (hd_error T)) as (d1 & E & FR & K1); auto.
    + apply F; simpl; auto.
    + rewrite K. rewrite !in_app_iff; simpl; tauto.
    + rewrite (remove_mid d p x (A ++ Y ++ T) ((x2 :: X) ++ C)); [rewrite <- !app_assoc; auto|auto|rewrite K, <- !app_assoc; reflexivity].
    + destruct T; simpl; congruence.
    + destruct T as [|t T]; simpl; [congruence|]. intro H. inversion H; subst t.
      rewrite (app_assoc A) in ND. simpl in ND. apply NoDup_remove_2 in ND. apply ND. rewrite !in_app_iff; simpl; auto 6.
    + destruct (IH x2 (Y ++ [x]) d1 fuel p A T C) as (d2 & E2 & FR2 & K2); auto.
      * apply FR.
      * intros n Hn. rewrite (df_frag _ _ _ _ FR). apply F; simpl in *; tauto.
      * rewrite K1, <- !app_assoc. auto.
      * simpl; lia.
      * exists d2. cbn [move_nodes]. rewrite (next_sib d p x (A ++ Y ++ T) ((x2 :: X) ++ C)); [|auto|rewrite K, <- !app_assoc; reflexivity].
        cbn [hd_error app]. unfold obind. rewrite E, last_shift.
        destruct (Nat.eqb_spec (last (x2 :: X) x2) x) as [EQ|NE].
        -- exfalso. assert (In x (x2 :: X)) by (rewrite <- EQ; apply last_in).
           rewrite (app_assoc Y), (app_assoc A), <- app_comm_cons in ND. apply NoDup_remove_2 in ND. apply ND.
           rewrite in_app_iff; right. apply in_app_iff; auto.
        -- rewrite E2. split; auto. split; [eapply dframe_trans; eauto|].
           rewrite K2, <- !app_assoc. auto.
Qed.

(** into another parent, at the end *)
Lemma move_out X : forall x d fuel p q A C Y,
  dom_wf d -> (forall n, In n (x :: X) -> frag d n = false) -> p <> q ->
  kids d p = A ++ (x :: X) ++ C -> kids d q = Y -> length (x :: X) <= fuel ->
  exists d', move_nodes fuel d q x (last (x :: X) x) None = Some d' /\
    dframe (x :: X) [p; q] d d' /\ kids d' p = A ++ C /\ kids d' q = Y ++ x :: X.
Proof.
  induction X as [|x2 X IH]; intros x d fuel p q A C Y W F NQ K KQ L; destruct fuel as [|fuel]; simpl in L; try lia.
  - destruct (insert_before_spec d q x None W) as (d1 & E & W1 & F1 & P1 & P2 & K1 & K2); simpl; auto.
    { apply F; simpl; auto. }
    assert (XP : par d x = Some p) by (apply W; rewrite K; apply in_app_iff; simpl; auto).
    assert (XQ : ~ In x (kids d q)) by (intro X; apply W in X; congruence).
    exists d1. rewrite E. simpl. rewrite Nat.eqb_refl. split; auto. split; [|split].
    + constructor; auto.
      * intros z Hz. rewrite K2 by (intro; subst; apply Hz; simpl; auto).
        apply remove_node_notin. intro X. apply W in X. apply Hz. simpl. left; congruence.
      * intros m Hm. apply P2. intro; subst; apply Hm; simpl; auto.
    + rewrite K2 by auto. apply remove_mid; auto.
    + rewrite K1. simpl. rewrite ins_list_none, remove_node_notin, KQ; auto.
  - destruct (insert_before_spec d q x None W) as (d1 & E & W1 & F1 & P1 & P2 & K1 & K2); simpl; auto.
    { apply F; simpl; auto. }
    assert (XP : par d x = Some p) by (apply W; rewrite K; apply in_app_iff; simpl; auto).
    assert (XQ : ~ In x (kids d q)) by (intro X1; apply W in X1; congruence).
    assert (FR : dframe (x :: x2 :: X) [p; q] d d1).
    { constructor; auto.
      * intros z Hz. rewrite K2 by (intro; subst; apply Hz; simpl; auto).
        apply remove_node_notin. intro Z. apply W in Z. apply Hz. simpl. left; congruence.
      * intros m Hm. apply P2. intro; subst; apply Hm; simpl; auto. }
    destruct (IH x2 d1 fuel p q A C (Y ++ [x])) as (d2 & E2 & FR2 & K3 & K4); auto.
    { intros n Hn. rewrite F1. apply F; simpl in *; tauto. }
    { rewrite K2 by auto. apply (remove_mid d p x A ((x2 :: X) ++ C)); auto. }
    { rewrite K1. simpl. rewrite ins_list_none, remove_node_notin, KQ; auto. }
    { simpl; lia. }
    exists d2. rewrite (next_sib d p x A ((x2 :: X) ++ C)); auto.
    cbn [hd_error app]. unfold obind. rewrite E.
    change (match X with [] => x2 | _ :: _ => last X x end) with (last (x2 :: X) x).
    rewrite (last_dflt X x2 x x2).
    destruct (Nat.eqb_spec (last (x2 :: X) x2) x) as [EQ|NE].
    + exfalso. assert (In x (x2 :: X)) by (rewrite <- EQ; apply last_in).
      assert (ND := proj1 W p). rewrite K, <- app_comm_cons in ND. apply NoDup_remove_2 in ND. apply ND.
      rewrite in_app_iff; right. apply in_app_iff; auto.
    + split; auto. split; [eapply dframe_trans; [exact FR|]|split; auto].
      * eapply dframe_mono; [exact FR2| |apply incl_refl]. intros z Hz; right; exact Hz.
      * rewrite K4, <- app_assoc. auto.
Qed.

Ltac apps := cbn [app]; repeat (rewrite <- app_assoc; cbn [app]).

(** ** segments of a list *)
Inductive seg := SItem (k : key) (st : stored) | SDead (st : stored).
Definition seg_st (x : seg) : stored := match x with SItem _ st => st | SDead st => st end.
Definition content (gr : gid -> group) (st : stored) : list node := map snd (gr (st_g st)).
Definition seg_nodes (gr : gid -> group) (x : seg) : list node :=
  match x with
  | SItem _ st => st_s st :: content gr st ++ [st_e st]
  | SDead st => content gr st
  end.
Definition mid (gr : gid -> group) (segs : list seg) : list node := flat_map (seg_nodes gr) segs.
Definition keys_of (segs : list seg) : list key :=
  flat_map (fun x => match x with SItem k _ => [k] | SDead _ => [] end) segs.
Definition items_of (segs : list seg) : list (key * stored) :=
  flat_map (fun x => match x with SItem k st => [(k, st)] | SDead _ => [] end) segs.
Definition dead_of (segs : list seg) : list stored :=
  flat_map (fun x => match x with SItem _ _ => [] | SDead st => [st] end) segs.
Definition sgid (x : seg) : gid := st_g (seg_st x).

Lemma mid_app gr a b : mid gr (a ++ b) = mid gr a ++ mid gr b.
Proof. apply flat_map_app. Qed.
Lemma mid_cons gr x b : mid gr (x :: b) = seg_nodes gr x ++ mid gr b.
Proof. reflexivity. Qed.
Lemma keys_of_app a b : keys_of (a ++ b) = keys_of a ++ keys_of b.
Proof. apply flat_map_app. Qed.
Lemma items_of_app a b : items_of (a ++ b) = items_of a ++ items_of b.
Proof. apply flat_map_app. Qed.
Lemma dead_of_app a b : dead_of (a ++ b) = dead_of a ++ dead_of b.
Proof. apply flat_map_app. Qed.
Lemma keys_items segs : keys_of segs = map fst (items_of segs).
Proof. induction segs as [|[k st|st] t IH]; simpl; auto. f_equal; auto. Qed.
Lemma in_items segs k st : In (k, st) (items_of segs) <-> In (SItem k st) segs.
Proof.
  induction segs as [|[k' st'|st'] t IH]; simpl; [tauto| |].
  - rewrite IH. split; intros [H|H]; auto; inversion H; auto.
  - rewrite IH. split; auto. intros [H|H]; auto; discriminate.
Qed.
Lemma in_dead segs st : In st (dead_of segs) <-> In (SDead st) segs.
Proof.
  induction segs as [|[k' st'|st'] t IH]; simpl; [tauto| |].
  - rewrite IH. split; auto. intros [H|H]; auto; discriminate.
  - rewrite IH. split; intros [H|H]; auto; [subst; auto|inversion H; auto].
Qed.
Lemma mid_ext gr gr' segs : (forall x, In x segs -> gr' (sgid x) = gr (sgid x)) ->
  mid gr' segs = mid gr segs.
Proof.
  intro H. unfold mid. induction segs as [|x t IH]; simpl; auto.
  rewrite IH by (intros; apply H; simpl; auto). f_equal.
  assert (E := H x (or_introl eq_refl)). unfold sgid in E.
  destruct x; simpl in *; unfold content; rewrite E; auto.
Qed.

Record view (d : dom) (gr : gid -> group) (cont ls le : node) (segs : list seg) (P Q : list node) : Prop := {
  v_wf : dom_wf d;
  v_kids : kids d cont = P ++ ls :: mid gr segs ++ le :: Q;
  v_frag : forall n, In n (ls :: mid gr segs ++ [le]) -> frag d n = false
}.

Lemma v_nodup d gr cont ls le segs P Q : view d gr cont ls le segs P Q ->
  NoDup (P ++ ls :: mid gr segs ++ le :: Q).
Proof. intros [W K F]. rewrite <- K. apply W. Qed.

Lemma hd_ref gr S2 le Q : hd_error (mid gr S2 ++ le :: Q) = hd_error (mid gr S2 ++ [le]).
Proof. destruct (mid gr S2); auto. Qed.

(** inserting two fresh markers *)
Lemma view_insert d gr cont ls le S1 S2 P Q k st ref :
  view d gr cont ls le (S1 ++ S2) P Q ->
  hd_error (mid gr S2 ++ [le]) = Some ref ->
  st_s st <> st_e st -> par d (st_s st) = None -> par d (st_e st) = None ->
  frag d (st_s st) = false -> frag d (st_e st) = false -> gr (st_g st) = [] ->
  exists d1 d2, insert_before d cont (st_e st) (Some ref) = Some d1 /\
    insert_before d1 cont (st_s st) (Some (st_e st)) = Some d2 /\
    view d2 gr cont ls le (S1 ++ SItem k st :: S2) P Q /\
    dframe [st_s st; st_e st] [cont] d d2.
Proof.
  intros V R NE PS PE FS FE GE. destruct V as [W K F].
  assert (exists T, mid gr S2 ++ le :: Q = ref :: T) as [T HT].
  { destruct (mid gr S2); simpl in *; inversion R; subst; eauto. }
  rewrite mid_app in K.
  destruct (insert_fresh_some d cont (st_e st) ref (P ++ ls :: mid gr S1) T W FE PE)
    as (d1 & E1 & W1 & F1 & P1 & P2 & K1 & K2).
  { rewrite K. apps. rewrite HT. auto. }
  destruct (insert_fresh_some d1 cont (st_s st) (st_e st) (P ++ ls :: mid gr S1) (ref :: T) W1)
    as (d2 & E2 & W2 & F2 & P3 & P4 & K3 & K4); auto.
  { rewrite F1; auto. }
  { rewrite P2; auto. }
  exists d1, d2. split; auto. split; auto. split.
  - constructor; auto.
    + rewrite K3, mid_app, mid_cons. simpl. unfold content. rewrite GE. simpl.
      rewrite <- HT. apps. auto.
    + intros n Hn. rewrite F2, F1. rewrite mid_app, mid_cons in Hn. simpl in Hn.
      unfold content in Hn. rewrite GE in Hn. simpl in Hn.
      rewrite !in_app_iff in Hn. simpl in Hn.
      rewrite mid_app in F.
      destruct Hn as [<-|[[Hn|[<-|[<-|Hn]]]|[<-|[]]]]; auto;
        apply F; simpl; rewrite !in_app_iff; simpl; auto.
  - constructor; auto.
    + congruence.
    + intros q Hq. rewrite K4, K2; auto; intro; subst; apply Hq; simpl; auto.
    + intros m Hm. rewrite P4, P2; auto; intro; subst; apply Hm; simpl; auto.
Qed.

(** removing the markers of an item *)
Lemma view_kill d gr cont ls le S1 S2 P Q k st :
  view d gr cont ls le (S1 ++ SItem k st :: S2) P Q ->
  exists d', remove_markers d cont st = Some d' /\
    view d' gr cont ls le (S1 ++ SDead st :: S2) P Q /\
    dframe [st_s st; st_e st] [cont] d d' /\ par d' (st_s st) = None /\ par d' (st_e st) = None.
Proof.
  intros V. assert (ND := v_nodup _ _ _ _ _ _ _ _ V). destruct V as [W K F].
  rewrite mid_app, mid_cons in K, ND, F. simpl in K, ND, F.
  destruct (remove_child_spec d cont (st_s st) W) as (d1 & E1 & W1 & F1 & P1 & P2 & K1).
  { rewrite K, in_app_iff. simpl. rewrite !in_app_iff; simpl. tauto. }
  assert (KK : kids d1 cont = (P ++ ls :: mid gr S1 ++ content gr st) ++ st_e st :: mid gr S2 ++ le :: Q).
  { rewrite K1. rewrite (remove_mid d cont (st_s st) (P ++ ls :: mid gr S1)
       (content gr st ++ st_e st :: mid gr S2 ++ le :: Q)); auto.
    - apps. auto.
    - rewrite K. apps. auto. }
  destruct (remove_child_spec d1 cont (st_e st) W1) as (d2 & E2 & W2 & F2 & P3 & P4 & K2).
  { rewrite KK, in_app_iff. simpl. auto. }
  unfold remove_markers. rewrite E1. simpl. rewrite E2.
  assert (NSE : st_s st <> st_e st).
  { intro EQ. rewrite EQ in *.
    assert (In (st_e st) (kids d1 cont)) by (rewrite KK, in_app_iff; simpl; auto).
    apply W1 in H. congruence. }
  exists d2. split; auto. split; [|split; [|split]]; auto.
  - constructor; auto.
    + rewrite K2. rewrite (remove_mid d1 cont (st_e st) _ _ W1 KK).
      rewrite mid_app, mid_cons. simpl. apps. auto.
    + intros n Hn. rewrite F2, F1. apply F. rewrite mid_app, mid_cons in Hn. simpl in Hn.
      simpl. rewrite !in_app_iff in *. simpl in *. rewrite !in_app_iff in *. simpl in *. tauto.
  - constructor; auto.
    + congruence.
    + intros q Hq. rewrite K2, K1.
      assert (NI : forall x, par d x = Some cont -> ~ In x (kids d q)).
      { intros x Hx Hi. apply W in Hi. apply Hq. left. congruence. }
      assert (P0 : par d (st_s st) = Some cont).
      { apply W. rewrite K, in_app_iff. simpl. rewrite !in_app_iff; simpl. tauto. }
      assert (P0' : par d (st_e st) = Some cont).
      { rewrite <- P2 by auto. apply W1. rewrite KK, in_app_iff; simpl; auto. }
      rewrite (remove_node_notin (st_s st)) by auto. apply remove_node_notin; auto.
    + intros m Hm. rewrite P4, P2; auto; intro; subst; apply Hm; simpl; auto.
  - rewrite P4; auto.
Qed.

Lemma item_block gr k st : seg_nodes gr (SItem k st) = st_s st :: (content gr st ++ [st_e st]) /\
  last (st_s st :: (content gr st ++ [st_e st])) (st_s st) = st_e st.
Proof.
  split; auto. rewrite app_comm_cons. apply last_last.
Qed.

Lemma view_fwd d gr cont ls le S1 k st S2 S3 P Q after fuel :
  view d gr cont ls le (S1 ++ SItem k st :: S2 ++ S3) P Q ->
  after = hd_error (mid gr S3 ++ [le]) -> length (kids d cont) <= fuel ->
  exists d', move_nodes fuel d cont (st_s st) (st_e st) after = Some d' /\
    view d' gr cont ls le (S1 ++ S2 ++ SItem k st :: S3) P Q /\ dframe [] [cont] d d'.
Proof.
  intros V R L. destruct V as [W K F].
  destruct (item_block gr k st) as [B1 B2].
  destruct (move_fwd (content gr st ++ [st_e st]) (st_s st) [] d fuel cont
     (P ++ ls :: mid gr S1) (mid gr S2) (mid gr S3 ++ le :: Q)) as (d' & E & FR & K'); auto.
  - intros n Hn. apply F. right. apply in_app_iff. left. rewrite mid_app, mid_cons, !in_app_iff.
    right; left. rewrite B1. auto.
  - rewrite K, mid_app, mid_cons, mid_app, B1. apps. auto.
  - rewrite K in L. rewrite mid_app, mid_cons, B1 in L. simpl in L.
    repeat (rewrite app_length in L; simpl in L). simpl. rewrite app_length. simpl. lia.
  - rewrite B2, hd_ref, <- R in E. exists d'. split; auto. split; auto.
    constructor; [apply FR| |].
    + rewrite K', !mid_app, mid_cons, B1. apps. auto.
    + intros n Hn. rewrite (df_frag _ _ _ _ FR). apply F. simpl in *.
      rewrite !mid_app, mid_cons in *. rewrite !mid_app. rewrite !in_app_iff in *. simpl in *. tauto.
Qed.

Lemma view_bwd d gr cont ls le S1 k st S2 S3 P Q after fuel :
  view d gr cont ls le (S1 ++ S2 ++ SItem k st :: S3) P Q -> mid gr S2 <> [] ->
  after = hd_error (mid gr S2) -> length (kids d cont) <= fuel ->
  exists d', move_nodes fuel d cont (st_s st) (st_e st) after = Some d' /\
    view d' gr cont ls le (S1 ++ SItem k st :: S2 ++ S3) P Q /\ dframe [] [cont] d d'.
Proof.
  intros V NE R L. destruct V as [W K F].
  destruct (item_block gr k st) as [B1 B2].
  destruct (move_bwd (content gr st ++ [st_e st]) (st_s st) [] d fuel cont
     (P ++ ls :: mid gr S1) (mid gr S2) (mid gr S3 ++ le :: Q)) as (d' & E & FR & K'); auto.
  - intros n Hn. apply F. right. apply in_app_iff. left. rewrite !mid_app, mid_cons, !in_app_iff.
    right; right; left. rewrite B1. auto.
  - rewrite K, !mid_app, mid_cons, B1. apps. auto.
  - rewrite K in L. rewrite !mid_app, mid_cons, B1 in L. simpl in L.
    repeat (rewrite app_length in L; simpl in L). simpl. rewrite app_length. simpl. lia.
  - rewrite B2, <- R in E. exists d'. split; auto. split; auto.
    constructor; [apply FR| |].
    + rewrite K', !mid_app, mid_cons, !mid_app, B1. apps. auto.
    + intros n Hn. rewrite (df_frag _ _ _ _ FR). apply F. simpl in *.
      rewrite !mid_app, mid_cons in *. rewrite !mid_app in *. rewrite !in_app_iff in *. simpl in *. tauto.
Qed.

(** ** killing items *)
Definition kseg (f : key -> bool) (segs : list seg) : list seg :=
  map (fun x => match x with SItem k st => if f k then x else SDead st | SDead _ => x end) segs.
Definition notk (k : nat) : nat -> bool := fun x => negb (Nat.eqb x k).

Lemma kseg_app f a b : kseg f (a ++ b) = kseg f a ++ kseg f b.
Proof. apply map_app. Qed.
Lemma keys_kseg f segs : keys_of (kseg f segs) = filter f (keys_of segs).
Proof.
  induction segs as [|[k st|st] t IH]; simpl; auto.
  destruct (f k); simpl; rewrite IH; auto.
Qed.
Lemma items_kseg f segs : items_of (kseg f segs) = filter (fun e => f (fst e)) (items_of segs).
Proof.
  induction segs as [|[k st|st] t IH]; simpl; auto.
  destruct (f k); simpl; rewrite IH; auto.
Qed.
Lemma dead_kseg f segs : Permutation (dead_of (kseg f segs))
  (map snd (filter (fun e => negb (f (fst e))) (items_of segs)) ++ dead_of segs).
Proof.
  induction segs as [|[k st|st] t IH]; simpl; auto.
  - destruct (f k); simpl; auto.
  - rewrite IH. apply Permutation_middle.
Qed.
Lemma sgid_kseg f segs : map sgid (kseg f segs) = map sgid segs.
Proof.
  unfold kseg. rewrite map_map. apply map_ext. intros [k st|st]; auto. destruct (f k); auto.
Qed.
Lemma kseg_id f segs : (forall k, In k (keys_of segs) -> f k = true) -> kseg f segs = segs.
Proof.
  induction segs as [|[k st|st] t IH]; simpl; intro H; auto.
  - rewrite (H k) by auto. rewrite IH; auto.
  - rewrite IH; auto.
Qed.
Lemma kseg_ext f g segs : (forall k, In k (keys_of segs) -> f k = g k) -> kseg f segs = kseg g segs.
Proof.
  induction segs as [|[k st|st] t IH]; simpl; intro H; auto.
  - rewrite (H k) by auto. rewrite IH; auto.
  - rewrite IH; auto.
Qed.
Lemma kseg_kseg f g segs : kseg f (kseg g segs) = kseg (fun k => g k && f k) segs.
Proof.
  unfold kseg. rewrite map_map. apply map_ext. intros [k st|st]; auto.
  destruct (g k); simpl; auto.
Qed.
Lemma in_kseg f segs x : In x (kseg f segs) -> exists y, In y segs /\ sgid x = sgid y.
Proof.
  unfold kseg. rewrite in_map_iff. intros (y & <- & H). exists y. split; auto.
  destruct y as [k st|st]; auto. destruct (f k); auto.
Qed.

Lemma key_split segs k : In k (keys_of segs) -> NoDup (keys_of segs) ->
  exists A st B, segs = A ++ SItem k st :: B /\ ~ In k (keys_of A) /\ ~ In k (keys_of B).
Proof.
  intros H ND. rewrite keys_items in H. apply in_map_iff in H as ([k' st] & E & H). simpl in E; subst k'.
  apply in_items in H. apply in_split in H as (A & B & ->). exists A, st, B. split; auto.
  rewrite keys_of_app in ND. simpl in ND. apply NoDup_remove_2 in ND. rewrite in_app_iff in ND. tauto.
Qed.

Lemma kseg_notk_id k segs : ~ In k (keys_of segs) -> kseg (notk k) segs = segs.
Proof.
  intro H. apply kseg_id. intros x Hx. unfold notk. destruct (Nat.eqb_spec x k); auto. subst; contradiction.
Qed.
Lemma kseg_split k A st B : ~ In k (keys_of A) -> ~ In k (keys_of B) ->
  kseg (notk k) (A ++ SItem k st :: B) = A ++ SDead st :: B.
Proof.
  intros H1 H2. rewrite kseg_app. simpl. rewrite !kseg_notk_id by auto.
  unfold notk. rewrite Nat.eqb_refl. auto.
Qed.

(** ** association lists *)
Lemma hm_get_in m k st : NoDup (map fst m) -> (hm_get k m = Some st <-> In (k, st) m).
Proof.
  induction m as [|[k' st'] t IH]; simpl; intro ND; [split; [discriminate|tauto]|].
  inversion ND; subst. destruct (Nat.eqb_spec k' k) as [->|NE].
  - split; intro H; [inversion H; auto|]. destruct H as [H|H]; [inversion H; auto|].
    exfalso. apply H1. apply in_map_iff. exists (k, st); auto.
  - rewrite IH by auto. split; auto. intros [H|H]; auto. inversion H; congruence.
Qed.
Lemma hm_get_none m k : hm_get k m = None <-> ~ In k (map fst m).
Proof.
  induction m as [|[k' st'] t IH]; simpl; [tauto|].
  destruct (Nat.eqb_spec k' k) as [->|NE]; [split; [discriminate|intro H; exfalso; auto]|].
  rewrite IH. tauto.
Qed.

Record LInv (w : lworld) (segs : list seg) (P Q : list node) : Prop := {
  li_view : view (rdom (lw_r w)) (rgrp (lw_r w)) (cget (dl_cont (lw_l w)))
                 (dl_start (lw_l w)) (dl_end (lw_l w)) segs P Q;
  li_items : Permutation (dl_items (lw_l w)) (items_of segs);
  li_dead : Permutation (dl_dead (lw_l w)) (dead_of segs);
  li_keys : NoDup (keys_of segs);
  li_gids : NoDup (map sgid segs);
  li_sorted : forall x, In x segs -> sorted (rgrp (lw_r w) (sgid x));
  li_frag : frag (rdom (lw_r w)) (dl_frag (lw_l w)) = true;
  li_cont : match dl_cont (lw_l w) with
            | Fake f => f = dl_frag (lw_l w) /\ P = [] /\ Q = []
            | Real n => n <> dl_frag (lw_l w) /\ kids (rdom (lw_r w)) (dl_frag (lw_l w)) = []
            end
}.

(** what an operation on the list may not touch *)
Record stays (w w' : lworld) : Prop := {
  sy_cont : dl_cont (lw_l w') = dl_cont (lw_l w);
  sy_start : dl_start (lw_l w') = dl_start (lw_l w);
  sy_end : dl_end (lw_l w') = dl_end (lw_l w);
  sy_frag : dl_frag (lw_l w') = dl_frag (lw_l w);
  sy_dfrag : frag (rdom (lw_r w')) = frag (rdom (lw_r w));
  sy_kids : forall q, q <> cget (dl_cont (lw_l w)) ->
     kids (rdom (lw_r w')) q = kids (rdom (lw_r w)) q;
  sy_grp : forall g, ~ In g (list_groups (lw_l w)) -> rgrp (lw_r w') g = rgrp (lw_r w) g
}.

Lemma linv_edit w segs P Q w' segs' :
  LInv w segs P Q -> stays w w' ->
  view (rdom (lw_r w')) (rgrp (lw_r w')) (cget (dl_cont (lw_l w)))
       (dl_start (lw_l w)) (dl_end (lw_l w)) segs' P Q ->
  Permutation (dl_items (lw_l w')) (items_of segs') ->
  Permutation (dl_dead (lw_l w')) (dead_of segs') ->
  NoDup (keys_of segs') -> NoDup (map sgid segs') ->
  (forall x, In x segs' -> sorted (rgrp (lw_r w') (sgid x))) ->
  LInv w' segs' P Q.
Proof.
  intros [V I D K G S F C] [C1 C2 C3 C4 C5 C6 C7] V' I' D' K' G' S'.
  constructor; auto.
  - rewrite C1, C2, C3. auto.
  - rewrite C5, C4. auto.
  - rewrite C1, C4. destruct (dl_cont (lw_l w)) as [n|f]; auto.
    destruct C as [C CK]. split; auto. rewrite C6; auto.
Qed.

Lemma linv_items_nodup w segs P Q : LInv w segs P Q -> NoDup (map fst (dl_items (lw_l w))).
Proof.
  intros I. rewrite (Permutation_map fst (li_items _ _ _ _ I)), <- keys_items. apply I.
Qed.
Lemma linv_get w segs P Q k st : LInv w segs P Q ->
  (hm_get k (dl_items (lw_l w)) = Some st <-> In (SItem k st) segs).
Proof.
  intros I. rewrite hm_get_in by (eapply linv_items_nodup; eauto).
  rewrite <- in_items. split; apply Permutation_in; [|symmetry]; apply I.
Qed.
Lemma linv_none w segs P Q k : LInv w segs P Q ->
  (hm_get k (dl_items (lw_l w)) = None <-> ~ In k (keys_of segs)).
Proof.
  intros I. rewrite hm_get_none, keys_items.
  rewrite (Permutation_map fst (li_items _ _ _ _ I)). tauto.
Qed.
Lemma linv_split w segs P Q k : LInv w segs P Q -> In k (keys_of segs) ->
  exists A st B, segs = A ++ SItem k st :: B /\ ~ In k (keys_of A) /\ ~ In k (keys_of B) /\
    hm_get k (dl_items (lw_l w)) = Some st.
Proof.
  intros I H. destruct (key_split segs k H (li_keys _ _ _ _ I)) as (A & st & B & -> & H1 & H2).
  exists A, st, B. repeat match goal with |- _ /\ _ => split end; auto.
  apply (linv_get _ _ _ _ _ _ I). apply in_app_iff; simpl; auto.
Qed.

Lemma memb_iff k l : memb k l = true <-> In k l.
Proof.
  unfold memb. rewrite existsb_exists. split.
  - intros (x & H & E). apply Nat.eqb_eq in E. subst; auto.
  - intro H. exists k. split; auto. apply Nat.eqb_refl.
Qed.
Lemma memb_false k l : memb k l = false <-> ~ In k l.
Proof. rewrite <- memb_iff. destruct (memb k l); split; congruence. Qed.

Lemma stays_edit w d m dead (C : dframe [] [] (rdom (lw_r w)) d \/
    exists N, dframe N [cget (dl_cont (lw_l w))] (rdom (lw_r w)) d) :
  stays w (mkLW (with_dom (lw_r w) d) (set_items (lw_l w) m dead)).
Proof.
  destruct C as [[W F K P]|[N [W F K P]]]; constructor; simpl; auto.
  intros q Hq. apply K. simpl. intros [H|[]]; auto.
Qed.

(** ** remove *)
Lemma hm_remove_perm w segs P Q k : LInv w segs P Q ->
  Permutation (hm_remove k (dl_items (lw_l w))) (items_of (kseg (notk k) segs)).
Proof.
  intro I. rewrite items_kseg. unfold hm_remove, notk. apply permutation_filter. apply I.
Qed.

Lemma remove_ok w segs P Q k : LInv w segs P Q ->
  exists w', dl_remove w k = Some (memb k (keys_of segs), w') /\ stays w w' /\
    LInv w' (kseg (notk k) segs) P Q.
Proof.
  intro I. unfold dl_remove. destruct (in_dec Nat.eq_dec k (keys_of segs)) as [H|H].
  - destruct (linv_split _ _ _ _ _ I H) as (A & st & B & E & H1 & H2 & G). rewrite G.
    assert (V := li_view _ _ _ _ I). rewrite E in V.
    destruct (view_kill _ _ _ _ _ _ _ _ _ _ _ V) as (d' & E1 & V1 & FR & _).
    rewrite E1. simpl. rewrite (proj2 (memb_iff _ _) H).
    eexists. split; [reflexivity|]. assert (S : stays w (mkLW (with_dom (lw_r w) d')
      (set_items (lw_l w) (hm_remove k (dl_items (lw_l w))) (st :: dl_dead (lw_l w)))))
      by (apply stays_edit; eauto).
    split; auto. eapply linv_edit; eauto; simpl.
    + rewrite E, kseg_split by auto. auto.
    + eapply hm_remove_perm; eauto.
    + rewrite E, kseg_split by auto. rewrite dead_of_app. simpl.
      rewrite (li_dead _ _ _ _ I), E, dead_of_app. simpl. apply Permutation_middle.
    + rewrite keys_kseg. apply NoDup_filter, I.
    + rewrite sgid_kseg. apply I.
    + intros x Hx. apply in_kseg in Hx as (y & Hy & ->). apply (li_sorted _ _ _ _ I); auto.
  - rewrite (proj2 (linv_none _ _ _ _ k I) H), (proj2 (memb_false _ _) H).
    exists w. split; auto. split; [constructor; auto|]. rewrite kseg_notk_id; auto.
Qed.

Lemma l_remove_filter k l : l_remove k l = filter (notk k) l.
Proof. reflexivity. Qed.

(** ** insert *)
Lemma notk_same k : notk k k = false.
Proof. unfold notk. rewrite Nat.eqb_refl. auto. Qed.
Lemma notk_other k x : x <> k -> notk k x = true.
Proof. unfold notk. intro. destruct (Nat.eqb_spec x k); [contradiction|auto]. Qed.

Lemma ref_split w segs P Q (before : option key) : LInv w segs P Q ->
  (forall b, before = Some b -> In b (keys_of segs)) ->
  exists ref S1 S2, ref_node (lw_l w) before = Some ref /\ segs = S1 ++ S2 /\
    hd_error (mid (rgrp (lw_r w)) S2 ++ [dl_end (lw_l w)]) = Some ref /\
    match before with
    | None => S2 = []
    | Some b => ~ In b (keys_of S1) /\ exists st S3, S2 = SItem b st :: S3 /\ ~ In b (keys_of S3)
    end.
Proof.
  intros I H. unfold ref_node. destruct before as [b|].
  - destruct (linv_split _ _ _ _ b I) as (A & st & B & E & H1 & H2 & G); auto.
    exists (st_s st), A, (SItem b st :: B). rewrite G. repeat split; auto. eauto.
  - exists (dl_end (lw_l w)), segs, []. rewrite app_nil_r. repeat split; auto.
Qed.

Lemma keys_before k b l1 l2 : ~ In b l1 -> b <> k ->
  l_before k b (l_remove k (l1 ++ b :: l2)) = l_remove k l1 ++ k :: b :: l_remove k l2.
Proof.
  intros H NE. rewrite !l_remove_filter, filter_app. simpl. rewrite notk_other by auto.
  assert (H' : ~ In b (filter (notk k) l1)) by (rewrite filter_In; tauto).
  change (list key) with (list nat) in *. generalize dependent (filter (notk k) l1). intros l H'.
  induction l as [|x t IH]; simpl.
  - rewrite Nat.eqb_refl; auto.
  - destruct (Nat.eqb_spec x b); [exfalso; apply H'; simpl; auto|]. rewrite IH; auto.
    intro; apply H'; simpl; auto.
Qed.

Lemma keys_insert k before S1 S2 st segs : segs = S1 ++ S2 -> NoDup (keys_of segs) ->
    match before with
    | None => S2 = []
    | Some b => ~ In b (keys_of S1) /\ exists st S3, S2 = SItem b st :: S3 /\ ~ In b (keys_of S3)
    end ->
  keys_of (kseg (notk k) S1 ++ SItem k st :: kseg (notk k) S2) = l_insert k before (keys_of segs).
Proof.
  intros -> ND H. rewrite keys_of_app. simpl. rewrite !keys_kseg. unfold l_insert.
  destruct before as [b|].
  - destruct H as (H1 & sb & S3 & -> & H2). simpl.
    rewrite keys_of_app. simpl.
    destruct (Nat.eqb_spec b k) as [->|NE].
    + rewrite notk_same. rewrite <- !keys_kseg, !kseg_notk_id; auto.
    + rewrite notk_other by auto. rewrite keys_before; auto.
  - subst S2. simpl. rewrite app_nil_r. auto.
Qed.

Lemma NoDup_insert_k k S1 S2 st : NoDup (keys_of (S1 ++ S2)) ->
  NoDup (keys_of (kseg (notk k) S1 ++ SItem k st :: kseg (notk k) S2)).
Proof.
  intro ND. rewrite keys_of_app. simpl. apply NoDup_Add with (a := k) (l := keys_of (kseg (notk k) (S1 ++ S2))).
  - rewrite kseg_app, keys_of_app. apply Add_app.
  - rewrite keys_kseg. split; [apply NoDup_filter; auto|].
    rewrite filter_In, notk_same. intros [_ H]; discriminate.
Qed.

Lemma in_groups w segs P Q x : LInv w segs P Q -> In x segs -> In (sgid x) (list_groups (lw_l w)).
Proof.
  intros I H. unfold list_groups. rewrite in_app_iff. destruct x as [k st|st]; [left|right].
  - apply in_map_iff. exists (k, st). split; auto. apply in_items in H.
    revert H. apply Permutation_in. symmetry. apply I.
  - apply in_map_iff. exists st. split; auto. apply in_dead in H.
    revert H. apply Permutation_in. symmetry. apply I.
Qed.

Lemma insert_ok w segs P Q al k before st : LInv w segs P Q ->
  llegal w (keys_of segs) al (LInsert k before st) ->
  exists w' segs', dl_insert w k before st = Some (memb k (keys_of segs), w') /\ stays w w' /\
    LInv w' segs' P Q /\ keys_of segs' = l_insert k before (keys_of segs).
Proof.
  intros I (HB & NSE & PS & PE & FS & FE & GE & NG). unfold dl_insert.
  destruct (ref_split _ _ _ _ before I HB) as (ref & S1 & S2 & RF & E & HD & BF).
  rewrite RF. simpl. assert (V := li_view _ _ _ _ I). rewrite E in V.
  destruct (view_insert _ _ _ _ _ _ _ _ _ k _ _ V HD NSE PS PE FS FE GE)
    as (d1 & d2 & E1 & E2 & V2 & FR).
  rewrite E1. simpl. rewrite E2. simpl.
  assert (NDK := li_keys _ _ _ _ I).
  assert (GS : NoDup (map sgid (kseg (notk k) S1 ++ SItem k st :: kseg (notk k) S2))).
  { rewrite map_app. simpl. rewrite !sgid_kseg.
    apply NoDup_Add with (a := st_g st) (l := map sgid segs).
    - rewrite E, map_app. apply Add_app.
    - split; [apply I|]. intro X. apply in_map_iff in X as (x & X1 & X2).
      apply NG. rewrite <- X1. eapply in_groups; eauto. }
  assert (SS : forall x, In x (kseg (notk k) S1 ++ SItem k st :: kseg (notk k) S2) ->
     sorted (rgrp (lw_r w) (sgid x))).
  { intros x Hx. rewrite in_app_iff in Hx. simpl in Hx.
    assert (G : forall y, In y segs -> sorted (rgrp (lw_r w) (sgid y))) by apply I.
    destruct Hx as [Hx|[<-|Hx]].
    - apply in_kseg in Hx as (y & Hy & ->). apply G. rewrite E, in_app_iff; auto.
    - simpl. change (sgid (SItem k st)) with (st_g st). rewrite GE. constructor.
    - apply in_kseg in Hx as (y & Hy & ->). apply G. rewrite E, in_app_iff; auto. }
  assert (IP : Permutation (hm_insert k st (dl_items (lw_l w)))
     (items_of (kseg (notk k) S1 ++ SItem k st :: kseg (notk k) S2))).
  { unfold hm_insert. rewrite (hm_remove_perm _ _ _ _ _ I), E, kseg_app, !items_of_app. simpl.
    apply Permutation_middle. }
  destruct (in_dec Nat.eq_dec k (keys_of segs)) as [H|H].
  - rewrite (proj2 (memb_iff _ _) H).
    destruct (linv_split _ _ _ _ _ I H) as (A & old & B & E' & H1 & H2 & G). rewrite G.
    assert (VK : exists d3, remove_markers d2 (cget (dl_cont (lw_l w))) old = Some d3 /\
       view d3 (rgrp (lw_r w)) (cget (dl_cont (lw_l w))) (dl_start (lw_l w)) (dl_end (lw_l w))
        (kseg (notk k) S1 ++ SItem k st :: kseg (notk k) S2) P Q /\
       dframe [st_s old; st_e old] [cget (dl_cont (lw_l w))] d2 d3 /\
       Permutation (old :: dl_dead (lw_l w)) (dead_of (kseg (notk k) S1 ++ SItem k st :: kseg (notk k) S2))).
    { assert (DP : Permutation (old :: dl_dead (lw_l w)) (dead_of (kseg (notk k) (S1 ++ S2)))).
      { rewrite <- E, E', kseg_split by auto. rewrite dead_of_app. simpl.
        rewrite (li_dead _ _ _ _ I), E', dead_of_app. simpl. apply Permutation_middle. }
      rewrite kseg_app, dead_of_app in DP.
      assert (IN : In (SItem k old) (S1 ++ S2)) by (rewrite <- E, E'; apply in_app_iff; simpl; auto).
      apply in_app_iff in IN as [IN|IN]; apply in_split in IN as (X & Y & ->).
      - rewrite E in NDK. rewrite <- !app_assoc, keys_of_app in NDK. simpl in NDK.
        apply NoDup_remove_2 in NDK. rewrite <- keys_of_app, app_assoc, !keys_of_app, !in_app_iff in NDK.
        rewrite kseg_split by tauto. rewrite (kseg_notk_id k S2) by tauto.
        rewrite kseg_split, (kseg_notk_id k S2) in DP by tauto.
        rewrite <- app_assoc in V2. simpl in V2.
        destruct (view_kill _ _ _ _ _ _ _ _ _ _ _ V2) as (d3 & X1 & X2 & X3 & _).
        exists d3. split; auto. split; [rewrite <- app_assoc; auto|]. split; auto.
        rewrite dead_of_app. auto.
      - rewrite E in NDK. rewrite app_assoc, keys_of_app in NDK. simpl in NDK.
        apply NoDup_remove_2 in NDK. rewrite !keys_of_app, !in_app_iff in NDK.
        rewrite kseg_split by tauto. rewrite (kseg_notk_id k S1) by tauto.
        rewrite kseg_split, (kseg_notk_id k S1) in DP by tauto.
        rewrite app_comm_cons, app_assoc in V2.
        destruct (view_kill _ _ _ _ _ _ _ _ _ _ _ V2) as (d3 & X1 & X2 & X3 & _).
        exists d3. split; auto. split; [rewrite <- app_assoc in X2; auto|]. split; auto.
        rewrite dead_of_app. auto. }
    destruct VK as (d3 & E3 & V3 & FR3 & DP). rewrite E3. simpl.
    set (w' := mkLW _ _). exists w', (kseg (notk k) S1 ++ SItem k st :: kseg (notk k) S2). split; auto.
    assert (S : stays w w').
    { apply stays_edit. right. exists ([st_s st; st_e st; st_s old; st_e old]).
      eapply dframe_trans; eapply dframe_mono; eauto using incl_refl; intros z Hz; simpl in *; tauto. }
    split; auto. split.
    + eapply linv_edit; eauto; simpl. apply NoDup_insert_k. rewrite <- E. auto.
    + eapply keys_insert; eauto.
  - rewrite (proj2 (linv_none _ _ _ _ k I) H), (proj2 (memb_false _ _) H).
    set (w' := mkLW _ _). exists w', (kseg (notk k) S1 ++ SItem k st :: kseg (notk k) S2). split; auto.
    assert (S : stays w w') by (apply stays_edit; eauto).
    assert (NK : ~ In k (keys_of S1) /\ ~ In k (keys_of S2)).
    { rewrite E, keys_of_app, in_app_iff in H. tauto. }
    split; auto. split.
    + eapply linv_edit; eauto; simpl.
      * rewrite !kseg_notk_id by tauto. auto.
      * rewrite !kseg_notk_id by tauto. rewrite (li_dead _ _ _ _ I), E, !dead_of_app. auto.
      * apply NoDup_insert_k. rewrite <- E. auto.
    + eapply keys_insert; eauto.
Qed.

(** ** moving *)
Lemma linv_perm w segs P Q d segs' : LInv w segs P Q -> Permutation segs segs' ->
  view d (rgrp (lw_r w)) (cget (dl_cont (lw_l w))) (dl_start (lw_l w)) (dl_end (lw_l w)) segs' P Q ->
  (exists N, dframe N [cget (dl_cont (lw_l w))] (rdom (lw_r w)) d) ->
  stays w (mkLW (with_dom (lw_r w) d) (lw_l w)) /\ LInv (mkLW (with_dom (lw_r w) d) (lw_l w)) segs' P Q.
Proof.
  intros I PM V FR.
  assert (S : stays w (mkLW (with_dom (lw_r w) d) (lw_l w))).
  { destruct FR as [N [W F K PP]]. constructor; simpl; auto.
    intros q Hq. apply K. simpl. intros [H|[]]; auto. }
  split; auto. eapply linv_edit; eauto; simpl.
  - rewrite (li_items _ _ _ _ I). apply Permutation_flat_map; auto.
  - rewrite (li_dead _ _ _ _ I). apply Permutation_flat_map; auto.
  - eapply Permutation_NoDup; [|apply (li_keys _ _ _ _ I)]. apply Permutation_flat_map; auto.
  - eapply Permutation_NoDup; [|apply (li_gids _ _ _ _ I)]. apply Permutation_map; auto.
  - intros x Hx. apply (li_sorted _ _ _ _ I). eapply Permutation_in; [symmetry|]; eauto.
Qed.

Lemma move_ok w segs P Q al k before : LInv w segs P Q ->
  llegal w (keys_of segs) al (LMove k before) ->
  exists w' segs', dl_move w k before = Some w' /\ stays w w' /\
    LInv w' segs' P Q /\ keys_of segs' = l_insert k before (keys_of segs).
Proof.
  intros I (HK & HB). unfold dl_move.
  destruct (ref_split _ _ _ _ before I) as (ref & S1 & S2 & RF & E & HD & BF).
  { intros b Hb. apply HB in Hb. tauto. }
  rewrite RF. simpl.
  destruct (linv_split _ _ _ _ _ I HK) as (A & st & B & E' & H1 & H2 & G). rewrite G. simpl.
  assert (V := li_view _ _ _ _ I). unfold move_nodes_before.
  assert (ND := li_keys _ _ _ _ I).
  assert (IN : In (SItem k st) (S1 ++ S2)) by (rewrite <- E, E'; apply in_app_iff; simpl; auto).
  apply in_app_iff in IN as [IN|IN].
  - (* forward *)
    apply in_split in IN as (X & Y & ->).
    rewrite E, <- app_assoc in V. simpl in V.
    destruct (view_fwd _ _ _ _ _ _ _ _ _ _ _ _ (Some ref) (S (length (kids (rdom (lw_r w)) (cget (dl_cont (lw_l w)))))) V)
      as (d' & E1 & V1 & FR); auto.
    rewrite E1. simpl.
    destruct (linv_perm _ _ _ _ d' (X ++ Y ++ SItem k st :: S2) I) as [ST I']; eauto.
    { rewrite E, <- app_assoc. apply Permutation_app_head. simpl.
      apply Permutation_middle. }
    eexists; eexists; split; [reflexivity|]. split; auto. split; eauto.
    assert (NK : ~ In k (keys_of X) /\ ~ In k (keys_of Y) /\ ~ In k (keys_of S2)).
    { rewrite E in ND. rewrite <- app_assoc, keys_of_app in ND. simpl in ND.
      apply NoDup_remove_2 in ND. rewrite <- keys_of_app, !keys_of_app, !in_app_iff in ND. tauto. }
    rewrite <- (keys_insert k before (X ++ SItem k st :: Y) S2 st segs E ND BF).
    rewrite kseg_split by tauto. rewrite (kseg_notk_id k S2) by tauto.
    rewrite !keys_of_app. simpl. apps. auto.
  - (* backward *)
    destruct before as [b|]; [|subst S2; contradiction].
    destruct BF as (B1 & sb & S3 & E2 & B2). destruct (HB b eq_refl) as [_ NB].
    rewrite E2 in IN. destruct IN as [IN|IN]; [inversion IN; congruence|].
    apply in_split in IN as (X & Y & ->).
    rewrite E, E2 in V. rewrite app_comm_cons in V.
    destruct (view_bwd _ _ _ _ _ _ _ _ _ _ _ _ (Some ref) (S (length (kids (rdom (lw_r w)) (cget (dl_cont (lw_l w)))))) V)
      as (d' & E1 & V1 & FR); auto.
    { simpl; discriminate. }
    { rewrite E2 in HD. simpl in *. auto. }
    rewrite E1. simpl.
    destruct (linv_perm _ _ _ _ d' (S1 ++ SItem k st :: (SItem b sb :: X) ++ Y) I) as [ST I']; eauto.
    { rewrite E, E2. apply Permutation_app_head. rewrite app_comm_cons. symmetry. apply Permutation_middle. }
    eexists; eexists; split; [reflexivity|]. split; auto. split; eauto.
    assert (NK : ~ In k (keys_of S1) /\ ~ In k (keys_of X) /\ ~ In k (keys_of Y)).
    { rewrite E, E2 in ND. rewrite app_comm_cons, app_assoc, keys_of_app in ND. simpl in ND.
      apply NoDup_remove_2 in ND. rewrite !keys_of_app in ND. simpl in ND. rewrite !in_app_iff in ND. simpl in ND. tauto. }
    assert (KI := keys_insert k (Some b) S1 S2 st segs E ND (conj B1 (ex_intro _ sb (ex_intro _ _ (conj E2 B2))))).
    etransitivity; [|exact KI].
    assert (NK2 : ~ In k (keys_of (SItem b sb :: X))) by (simpl; intuition congruence).
    assert (KS := kseg_split k (SItem b sb :: X) st Y NK2 (proj2 (proj2 NK))). simpl app in KS.
    rewrite E2, KS.
    rewrite (kseg_notk_id k S1) by tauto.
    rewrite !keys_of_app. simpl. rewrite !keys_of_app. simpl. auto.
Qed.

Lemma l_swap_mid a b l1 l2 l3 : NoDup (l1 ++ a :: l2 ++ b :: l3) ->
  l_swap a b (l1 ++ a :: l2 ++ b :: l3) = l1 ++ b :: l2 ++ a :: l3 /\
  l_swap b a (l1 ++ a :: l2 ++ b :: l3) = l1 ++ b :: l2 ++ a :: l3.
Proof.
  intro ND.
  assert (NA := NoDup_remove_2 _ _ _ ND). rewrite !in_app_iff in NA. simpl in NA.
  rewrite app_comm_cons, app_assoc in ND.
  assert (NB := NoDup_remove_2 _ _ _ ND). rewrite !in_app_iff in NB. simpl in NB.
  assert (X : forall l, ~ In a l -> ~ In b l -> l_swap a b l = l /\ l_swap b a l = l).
  { unfold l_swap. induction l as [|x l IH]; simpl; intros Y1 Y2; auto.
    destruct (Nat.eqb_spec x a); [exfalso; auto|]. destruct (Nat.eqb_spec x b); [exfalso; auto|].
    destruct IH as [-> ->]; auto. }
  assert (S : forall u v p q, l_swap u v (p ++ q) = l_swap u v p ++ l_swap u v q)
    by (intros; apply map_app).
  assert (C : forall u v x q, l_swap u v (x :: q) =
     (if Nat.eqb x u then v else if Nat.eqb x v then u else x) :: l_swap u v q) by reflexivity.
  assert (AB : a <> b) by tauto.
  rewrite !S, !C, !S, !C, !Nat.eqb_refl.
  destruct (Nat.eqb_spec a b); [contradiction|]. destruct (Nat.eqb_spec b a); [congruence|].
  destruct (X l1) as [-> ->]; try tauto. destruct (X l2) as [-> ->]; try tauto.
  destruct (X l3) as [-> ->]; tauto.
Qed.

Lemma l_swap_same a l : l_swap a a l = l.
Proof.
  unfold l_swap. rewrite <- (map_id l) at 2. apply map_ext. intro x.
  destruct (Nat.eqb_spec x a); auto.
Qed.

Lemma view_len d gr cont ls le segs P Q : view d gr cont ls le segs P Q ->
  length (kids d cont) = length P + S (length (mid gr segs) + S (length Q)).
Proof. intros [W K F]. rewrite K. repeat (rewrite app_length; simpl). lia. Qed.

Lemma mid_perm gr s s' : Permutation s s' -> length (mid gr s) = length (mid gr s').
Proof. intro H. apply Permutation_length. apply Permutation_flat_map; auto. Qed.

Lemma keys_nonempty_mid gr S1 : keys_of S1 <> [] -> mid gr S1 <> [].
Proof.
  induction S1 as [|[k st|st] t IH]; simpl; intros H; try congruence.
  intro E. apply app_eq_nil in E. apply IH; tauto.
Qed.

Lemma swap_ok w segs P Q al a b : LInv w segs P Q ->
  llegal w (keys_of segs) al (LSwap a b) ->
  exists w' segs', dl_swap w a b = Some w' /\ stays w w' /\
    LInv w' segs' P Q /\ keys_of segs' = l_swap a b (keys_of segs).
Proof.
  intros I (HA & HB & NA). unfold dl_swap.
  destruct (linv_split _ _ _ _ _ I HA) as (A & sa & B & E & H1 & H2 & G). rewrite G. simpl.
  destruct (linv_split _ _ _ _ _ I HB) as (A' & sb & B' & E' & H1' & H2' & G'). rewrite G'. simpl.
  destruct (Nat.eqb_spec a b) as [->|NE].
  { exists w, segs. split; auto. split; [constructor; auto|]. split; auto. rewrite l_swap_same. auto. }
  assert (V := li_view _ _ _ _ I). unfold move_nodes_before.
  assert (ND := li_keys _ _ _ _ I).
  set (gr := rgrp (lw_r w)) in *. set (cont := cget (dl_cont (lw_l w))) in *.
  set (d := rdom (lw_r w)) in *.
  assert (NX : forall segs1, segs = segs1 ++ SItem a sa :: B -> dom_next_sibling d (st_e sa) =
     hd_error (mid gr B ++ dl_end (lw_l w) :: Q)).
  { intros s1 _. destruct V as [W K F]. eapply next_sib with (p := cont)
      (l1 := P ++ dl_start (lw_l w) :: mid gr A ++ st_s sa :: content gr sa); auto.
    rewrite K, E, mid_app, mid_cons. simpl. apps. auto. }
  rewrite (NX A E). clear NX.
  assert (IN : In (SItem b sb) (A ++ SItem a sa :: B)) by (rewrite <- E, E'; apply in_app_iff; simpl; auto).
  rewrite in_app_iff in IN. destruct IN as [IN|[IN|IN]]; [|inversion IN; congruence|].
  - (* b before a *)
    apply in_split in IN as (X & Y & ->).
    rewrite E in V. rewrite <- app_assoc in V.
    destruct (view_bwd _ _ _ _ _ _ _ _ _ _ _ _ (Some (st_s sb)) (S (length (kids d cont))) V)
      as (d1 & E1 & V1 & FR1); auto.
    { simpl; discriminate. }
    rewrite E1. cbn [obind].
    change (X ++ SItem a sa :: (SItem b sb :: Y) ++ B) with (X ++ [SItem a sa] ++ SItem b sb :: Y ++ B) in V1.
    rewrite app_assoc in V1.
    rewrite hd_ref.
    destruct (view_fwd _ _ _ _ _ _ _ _ _ _ _ _ (hd_error (mid gr B ++ [dl_end (lw_l w)]))
       (S (length (kids d1 cont))) V1) as (d2 & E2 & V2 & FR2); auto.
    unfold gr, cont, d in *. rewrite E2. cbn [obind].
    destruct (linv_perm _ _ _ _ d2 ((X ++ [SItem a sa]) ++ Y ++ SItem b sb :: B) I) as [ST I']; eauto.
    { rewrite E. rewrite <- !app_assoc. simpl. apply Permutation_app_head.
      rewrite <- !Permutation_middle. apply perm_swap. }
    { exists []. eapply dframe_trans; eauto. }
    eexists; eexists; split; [reflexivity|]. split; auto. split; eauto.
    rewrite E in *. repeat (rewrite !keys_of_app in *; simpl in *).
    try rewrite <- !app_assoc in ND. try rewrite <- !app_assoc. simpl in *.
    etransitivity; [|symmetry; exact (proj2 (l_swap_mid b a _ _ _ ND))]; auto.
  - (* a before b *)
    apply in_split in IN as (X & Y & ->).
    assert (KX : keys_of X <> []).
    { intro EX. apply NA. exists (keys_of A), (keys_of Y). rewrite E, keys_of_app. simpl.
      rewrite keys_of_app, EX. auto. }
    rewrite E in V.
    destruct (view_fwd _ _ _ _ _ _ _ _ _ _ _ _ (Some (st_s sb)) (S (length (kids d cont))) V)
      as (d1 & E1 & V1 & FR1); auto.
    rewrite E1. cbn [obind].
    change (A ++ X ++ SItem a sa :: SItem b sb :: Y) with (A ++ X ++ [SItem a sa] ++ SItem b sb :: Y) in V1.
    rewrite (app_assoc X) in V1.
    assert (MX := keys_nonempty_mid gr X KX).
    destruct (view_bwd _ _ _ _ _ _ _ _ _ _ _ _ (hd_error (mid gr (X ++ SItem b sb :: Y) ++ dl_end (lw_l w) :: Q))
       (S (length (kids d1 cont))) V1) as (d2 & E2 & V2 & FR2); auto.
    { rewrite mid_app. destruct (mid gr X); simpl; congruence. }
    { rewrite !mid_app. destruct (mid gr X); simpl; congruence. }
    unfold gr, cont, d in *. rewrite E2. cbn [obind].
    destruct (linv_perm _ _ _ _ d2 (A ++ SItem b sb :: (X ++ [SItem a sa]) ++ Y) I) as [ST I']; eauto.
    { rewrite E. apply Permutation_app_head. rewrite <- app_assoc. simpl.
      rewrite <- !Permutation_middle. apply perm_swap. }
    { exists []. eapply dframe_trans; eauto. }
    eexists; eexists; split; [reflexivity|]. split; auto. split; eauto.
    rewrite E in *. repeat (rewrite !keys_of_app in *; simpl in *).
    try rewrite <- !app_assoc in ND. try rewrite <- !app_assoc. simpl in *.
    etransitivity; [|symmetry; exact (proj1 (l_swap_mid a b _ _ _ ND))]; auto.
Qed.

(** ** retain *)
Lemma retain_loop_ok keepf gr cont ls le P Q m : forall d segs,
  view d gr cont ls le segs P Q -> NoDup (map fst m) -> NoDup (keys_of segs) ->
  (forall k st, In (k, st) m -> In (SItem k st) segs) ->
  exists d' N, retain_loop d cont keepf m
      = Some (d', filter (fun e => keepf (fst e)) m, map snd (filter (fun e => negb (keepf (fst e))) m)) /\
    view d' gr cont ls le (kseg (fun k => keepf k || negb (memb k (map fst m))) segs) P Q /\
    dframe N [cont] d d'.
Proof.
  induction m as [|[k st] t IH]; intros d segs V NM NK H; simpl.
  - exists d, []. split; auto. split; [|apply dframe_refl; apply V].
    rewrite kseg_id; auto. intros. apply orb_true_r.
  - simpl in NM. inversion NM; subst. destruct (keepf k) eqn:EK; simpl.
    + destruct (IH d segs) as (d' & N & E & V' & FR); auto.
      { intros; apply H; simpl; auto. }
      exists d', N. rewrite E. simpl. split; auto. split; auto.
      erewrite kseg_ext; [exact V'|]. intros x _. simpl.
      destruct (Nat.eqb_spec x k); simpl; auto. subst. rewrite EK. auto.
    + assert (IN := H k st (or_introl eq_refl)). apply in_split in IN as (A & B & ->).
      destruct (view_kill _ _ _ _ _ _ _ _ _ _ _ V) as (d1 & E1 & V1 & FR1 & _).
      rewrite E1. simpl.
      assert (NKS : ~ In k (keys_of A) /\ ~ In k (keys_of B)).
      { rewrite keys_of_app in NK. simpl in NK. apply NoDup_remove_2 in NK. rewrite in_app_iff in NK. tauto. }
      destruct (IH d1 (A ++ SDead st :: B)) as (d' & N & E & V' & FR); auto.
      { rewrite keys_of_app in *. simpl in *. apply NoDup_remove_1 in NK. auto. }
      { intros k' st' Hin. assert (k' <> k).
        { intro; subst. apply H2. apply in_map_iff. exists (k, st'); auto. }
        specialize (H k' st' (or_intror Hin)). rewrite in_app_iff in *. simpl in *.
        destruct H as [H|[H|H]]; auto. inversion H; congruence. }
      exists d', ((st_s st :: [st_e st]) ++ N). rewrite E. simpl. split; auto. split.
      * rewrite <- (kseg_split k) in V' by tauto. rewrite kseg_kseg in V'.
        erewrite kseg_ext; [exact V'|]. intros x _. simpl. unfold notk.
        destruct (Nat.eqb_spec x k); simpl; auto. subst. rewrite EK. auto.
      * eapply dframe_trans; eapply dframe_mono; eauto using incl_refl; intros z Hz; simpl in *; tauto.
Qed.

Lemma retain_ok w segs P Q keepf : LInv w segs P Q ->
  exists w', dl_retain w keepf = Some w' /\ stays w w' /\ LInv w' (kseg keepf segs) P Q.
Proof.
  intro I. unfold dl_retain.
  destruct (retain_loop_ok keepf _ _ _ _ _ _ (dl_items (lw_l w)) _ _ (li_view _ _ _ _ I))
    as (d' & N & E & V & FR).
  - eapply linv_items_nodup; eauto.
  - apply I.
  - intros k st H. apply (linv_get _ _ _ _ _ _ I). apply hm_get_in; auto. eapply linv_items_nodup; eauto.
  - rewrite E. simpl. set (w' := mkLW _ _). exists w'. split; auto.
    assert (S : stays w w') by (apply stays_edit; eauto). split; auto.
    eapply linv_edit; eauto; simpl.
    + erewrite kseg_ext; [exact V|]. intros k Hk. simpl.
      assert (memb k (map fst (dl_items (lw_l w))) = true) as ->.
      { apply memb_iff. rewrite (Permutation_map fst (li_items _ _ _ _ I)), <- keys_items. auto. }
      rewrite orb_false_r. auto.
    + rewrite items_kseg. apply permutation_filter. apply I.
    + rewrite dead_kseg. apply Permutation_app; [|apply I].
      apply Permutation_map, permutation_filter, I.
    + rewrite keys_kseg. apply NoDup_filter, I.
    + rewrite sgid_kseg. apply I.
    + intros x Hx. apply in_kseg in Hx as (y & Hy & ->). apply (li_sorted _ _ _ _ I); auto.
Qed.
