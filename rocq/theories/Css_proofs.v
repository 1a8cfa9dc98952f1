(** Proofs for C46. *)
From Coq Require Import List Arith Bool NArith Lia.
From Verif Require Import Css Spec_css.
Import ListNotations.

Definition gap (d : option text) : text := match d with Some g => g | None => [] end.
Definition wgap (w : where_) : text := match w with Selector d => gap d | _ => [] end.

Lemma text_app a b : items_text (a ++ b) = items_text a ++ items_text b.
Proof. unfold items_text. rewrite flat_map_app. reflexivity. Qed.
Lemma text_flush d : items_text (flush d) = gap d.
Proof. destruct d; cbn; rewrite ?app_nil_r; reflexivity. Qed.
Lemma text_pending w : items_text (pending w) = wgap w.
Proof. destruct w; auto. apply text_flush. Qed.
Lemma text_cons t l : items_text (IText t :: l) = t ++ items_text l. Proof. reflexivity. Qed.
Lemma text_class g u l : items_text (IClass g u :: l) = g ++ id_text u ++ items_text l. Proof. cbn. rewrite <- app_assoc. reflexivity. Qed.

Ltac norm := repeat (rewrite ?text_app, ?text_flush, ?text_pending, ?text_cons, ?text_class, <- ?app_assoc; cbn [app gap wgap go_on]).

Lemma function_text l : forall d, items_text (in_function d l) = gap d ++ tok_text l.
Proof.
  induction l; intro d; cbn [in_function tok_text]; norm; rewrite ?IHl; norm; try reflexivity.
  - rewrite app_nil_r. reflexivity.
  - destruct d; norm; rewrite IHl; norm; reflexivity.
  - destruct d; norm; rewrite IHl; norm; reflexivity.
  - rewrite IHl2. destruct k; rewrite ?IHl1; norm; cbn; rewrite ?app_nil_r; reflexivity.
Qed.
Lemma rules_text l : forall top w, items_text (in_rules top w l) = wgap w ++ tok_text l.
Proof.
  induction l; intros top w; cbn [in_rules tok_text]; norm; rewrite ?IHl; norm; try reflexivity.
  - rewrite app_nil_r. reflexivity.
  - destruct w; reflexivity.
  - destruct w as [|[g|]|g]; norm; rewrite IHl; norm; reflexivity.
  - destruct w as [|[g|]|g]; norm; rewrite IHl; norm; reflexivity.
  - destruct w as [|[g|]|g]; reflexivity.
  - destruct w as [|[g|]|g], top; reflexivity.
  - destruct w as [|[g|]|g]; reflexivity.
  - destruct w as [|[g|]|?]; reflexivity.
  - destruct w as [|[g|]|?]; reflexivity.
  - rewrite IHl2. destruct k, w as [|?|[]]; norm; rewrite ?IHl1, ?function_text; cbn; rewrite ?app_nil_r; reflexivity.
Qed.
Lemma same_text l : items_text (items l) = tok_text l.
Proof. apply rules_text. Qed.

(** offsets *)
Fixpoint offs (pos : nat) (l : list item) : list (nat * nat) :=
  match l with
  | [] => []
  | IText t :: l => offs (pos + length t) l
  | IClass g u :: l => (pos, length (id_value u)) :: offs (pos + length g + length (id_text u)) l
  end.
Lemma offs_app a : forall pos b, offs pos (a ++ b) = offs pos a ++ offs (pos + length (items_text a)) b.
Proof.
  induction a as [|[t|g u] a IH]; intros pos b; cbn [offs app].
  - rewrite Nat.add_0_r. reflexivity.
  - rewrite IH, text_cons, app_length. f_equal. f_equal. lia.
  - rewrite IH, text_class, !app_length. cbn. f_equal. f_equal. f_equal. lia.
Qed.
Lemma offs_text pos t l : offs pos (IText t :: l) = offs (pos + length t) l. Proof. reflexivity. Qed.
Definition start (d : option text) (at_ pos : nat) : Prop := match d with Some g => pos = at_ + length g | None => True end.
Definition base (d : option text) (at_ pos : nat) : nat := match d with Some _ => at_ | None => pos end.
Definition is_dot (d : option text) : bool := match d with Some _ => true | None => false end.
Lemma offs_flush d at_ pos l : start d at_ pos -> offs (base d at_ pos) (flush d ++ l) = offs pos l.
Proof. destruct d; cbn; intro E; subst; reflexivity. Qed.

Lemma prelude_offs l : forall d at_ pos, start d at_ pos -> prelude (is_dot d) at_ pos l = offs (base d at_ pos) (in_function d l).
Proof.
  assert (GO : forall l, (forall d at_ pos, start d at_ pos -> prelude (is_dot d) at_ pos l = offs (base d at_ pos) (in_function d l)) ->
    (forall pos, offs pos (in_function None l) = prelude false pos pos l) /\ (forall pos, offs pos (in_function (Some []) l) = prelude true pos pos l)).
  { intros l0 IH. split; intro pos; symmetry; [apply (IH None pos pos Logic.I)|apply (IH (Some []) pos pos)]. cbn. lia. }
  induction l; intros d at_ pos E; cbn [prelude in_function].
  - destruct d; reflexivity.
  - rewrite (offs_flush d at_ pos _ E), offs_text. cbn [length]. rewrite Nat.add_1_r. rewrite (proj2 (GO l IHl)). reflexivity.
  - destruct d as [g|]; cbn [is_dot offs base app] in *; rewrite (proj1 (GO l IHl)); [|reflexivity]. red in E. subst pos. reflexivity.
  - destruct d as [g|]; cbn [is_dot base] in *.
    + red in E. apply (IHl (Some (g ++ 47%N :: r)) at_ (pos + S (length r))). cbn. rewrite app_length. cbn. lia.
    + rewrite offs_text. apply (IHl None at_ (pos + S (length r)) Logic.I).
  - rewrite (offs_flush d at_ pos _ E), offs_text, (proj1 (GO l IHl)). reflexivity.
  - rewrite (offs_flush d at_ pos _ E), offs_text, (proj1 (GO l IHl)). reflexivity.
  - rewrite (offs_flush d at_ pos _ E), offs_text, (proj1 (GO l IHl)). cbn [length]. rewrite Nat.add_1_r. reflexivity.
  - rewrite (offs_flush d at_ pos _ E), offs_text, (proj1 (GO l IHl)). reflexivity.
  - rewrite (offs_flush d at_ pos _ E), offs_text, (proj1 (GO l IHl)). reflexivity.
  - rewrite (offs_flush d at_ pos _ E), offs_text, offs_app, offs_text.
    assert (L : length (items_text (match k with BFun => in_function None l1 | _ => [IText (tok_text l1)] end)) = length (tok_text l1)).
    { destruct k; rewrite ?function_text; cbn; rewrite ?app_nil_r; reflexivity. }
    rewrite L, (proj1 (GO l2 IHl2)). f_equal. destruct k; [|reflexivity|reflexivity]. symmetry. apply (GO l1 IHl1).
Qed.

Definition pl_of (w : where_) : place := match w with Before => Between | Selector d => InPrelude (is_dot d) | AtRule g => InAt g end.
Definition wstart (w : where_) (at_ pos : nat) : Prop := match w with Selector d => start d at_ pos | _ => True end.
Definition wbase (w : where_) (at_ pos : nat) : nat := match w with Selector d => base d at_ pos | _ => pos end.
Lemma offs_pending w at_ pos l : wstart w at_ pos -> offs (wbase w at_ pos) (pending w ++ l) = offs pos l.
Proof. destruct w; auto. apply offs_flush. Qed.
Definition free (w : where_) : Prop := match w with Selector (Some (_ :: _)) => False | _ => True end.
Lemma free_start w pos : free w -> wstart w pos pos.
Proof. destruct w as [|[[|]|]|]; cbn; auto. intros []. Qed.
Lemma free_base w pos : wbase w pos pos = pos.
Proof. destruct w as [|[|]|]; reflexivity. Qed.

Lemma rules_offs l : forall top w at_ pos, wstart w at_ pos -> rules top (pl_of w) at_ pos l = offs (wbase w at_ pos) (in_rules top w l).
Proof.
  assert (GO : forall l, (forall top w at_ pos, wstart w at_ pos -> rules top (pl_of w) at_ pos l = offs (wbase w at_ pos) (in_rules top w l)) ->
    forall top w pos, free w -> offs pos (in_rules top w l) = rules top (pl_of w) pos pos l).
  { intros l0 IH top w pos F. rewrite (IH top w pos pos (free_start w pos F)), free_base. reflexivity. }
  induction l; intros top w at_ pos E; cbn [rules in_rules].
  - destruct w as [|[|]|]; reflexivity.
  - rewrite (offs_pending w at_ pos _ E), offs_text. cbn [length]. rewrite Nat.add_1_r. rewrite (GO l IHl); [|destruct w as [|[|]|]; exact Logic.I]. destruct w as [|[|]|]; cbn [pl_of is_dot]; rewrite ?Nat.add_1_r; reflexivity.
  - destruct w as [|[g|]|g]; cbn [pl_of is_dot offs wbase base app go_on] in *; rewrite (GO l IHl) by exact Logic.I; cbn [pl_of is_dot]; try reflexivity. cbn in E. subst pos. reflexivity.
  - destruct w as [|[g|]|g]; cbn [pl_of is_dot offs wbase base app] in *.
    + rewrite (GO l IHl) by exact Logic.I. reflexivity.
    + cbn in E. apply (IHl top (Selector (Some (g ++ 47%N :: r))) at_ (pos + S (length r))). cbn. rewrite app_length. cbn. lia.
    + apply (IHl top (Selector None) at_ (pos + S (length r)) Logic.I).
    + rewrite (GO l IHl) by exact Logic.I. reflexivity.
  - rewrite (offs_pending w at_ pos _ E), offs_text. rewrite (GO l IHl); [|destruct w as [|[|]|]; exact Logic.I]. destruct w as [|[|]|]; reflexivity.
  - rewrite (offs_pending w at_ pos _ E), offs_text. rewrite (GO l IHl); [|destruct w as [|[|]|], top; exact Logic.I]. destruct w as [|[|]|], top; reflexivity.
  - rewrite (offs_pending w at_ pos _ E), offs_text. cbn [length]. rewrite (GO l IHl); [|destruct w as [|[|]|]; exact Logic.I]. destruct w as [|[|]|]; cbn [pl_of go_on is_dot]; rewrite ?Nat.add_1_r; reflexivity.
  - rewrite (offs_pending w at_ pos _ E), offs_text. rewrite (GO l IHl); [|destruct w as [|[|]|]; exact Logic.I]. destruct w as [|[|]|]; reflexivity.
  - rewrite (offs_pending w at_ pos _ E), offs_text. rewrite (GO l IHl); [|destruct w as [|[|]|]; exact Logic.I]. destruct w as [|[|]|]; reflexivity.
  - rewrite (offs_pending w at_ pos _ E), offs_text, offs_app, offs_text.
    match goal with |- _ = offs _ ?x ++ _ => assert (L : length (items_text x) = length (tok_text l1)) end.
    { destruct k, w as [|?|[]]; rewrite ?function_text, ?rules_text; cbn; rewrite ?app_nil_r; reflexivity. }
    rewrite L. rewrite (GO l2 IHl2); [|destruct k, w as [|[|]|]; exact Logic.I].
    replace (pos + length o + length (tok_text l1) + length c) with (pos + (length o + length (tok_text l1) + length c)) by lia.
    assert (F : offs (pos + length o) (in_function None l1) = prelude false (pos + length o) (pos + length o) l1).
    { symmetry. apply (prelude_offs l1 None (pos + length o) (pos + length o) Logic.I). }
    destruct k, w as [|d|[]]; cbn [pl_of go_on is_dot app offs]; rewrite ?F, ?(GO l1 IHl1) by exact Logic.I; try reflexivity; destruct d; reflexivity.
Qed.
Lemma classes_offs l : find_classes l = offs 0 (items l).
Proof. apply (rules_offs l true Before 0 0 Logic.I). Qed.

(** every class follows a dot *)
Definition ends (t : text) (b : bool) : bool := match t with [] => b | _ => N.eqb (last t 0%N) 46 end.
Fixpoint okdots (b : bool) (l : list item) : Prop :=
  match l with
  | [] => True
  | IText t :: l => okdots (ends t b) l
  | IClass g u :: l => b = true /\ okdots false l
  end.
Lemma okdots_mono l : forall b, okdots false l -> okdots b l.
Proof. induction l as [|[t|g u] l IH]; intro b; cbn; auto; [|intros (Q & _); discriminate]. destruct t; cbn; auto. Qed.
Lemma okdots_app a : forall b, okdots b a -> forall l, okdots false l -> okdots b (a ++ l).
Proof.
  induction a as [|[t|g u] a IH]; intros b E l L; cbn in *; auto using okdots_mono. destruct E; auto.
Qed.
Lemma okdots_flush d b l : okdots false l -> okdots b (flush d ++ l).
Proof. intro L. destruct d; cbn; auto using okdots_mono. Qed.
Lemma okdots_text b t l : okdots false l -> okdots b (IText t :: l).
Proof. intro L. cbn. auto using okdots_mono. Qed.
Lemma function_dots l : forall d, okdots (is_dot d) (in_function d l).
Proof.
  induction l; intro d; cbn [in_function]; try (apply okdots_flush, okdots_text, (IHl None)).
  - destruct d; cbn; auto.
  - apply okdots_flush. cbn. apply (IHl (Some [])).
  - destruct d; cbn [okdots is_dot]; [split; [reflexivity|apply (IHl None)]|apply okdots_text, (IHl None)].
  - destruct d; [apply (IHl (Some (t ++ 47%N :: r)))|apply okdots_text, (IHl None)].
  - apply okdots_flush, okdots_text, okdots_app; [destruct k; [apply (IHl1 None)|exact Logic.I|exact Logic.I]|apply okdots_text, (IHl2 None)].
Qed.
Definition wdot (w : where_) : bool := match w with Selector d => is_dot d | _ => false end.
Lemma okdots_pending w b l : okdots false l -> okdots b (pending w ++ l).
Proof. destruct w; cbn; auto using okdots_mono. apply okdots_flush. Qed.
Lemma rules_dots l : forall top w, okdots (wdot w) (in_rules top w l).
Proof.
  induction l; intros top w; cbn [in_rules].
  - destruct w as [|[|]|]; exact Logic.I.
  - apply okdots_pending. cbn. destruct w as [|[|]|]; try apply (IHl _ (Selector (Some []))). apply okdots_mono, (IHl _ (AtRule group)).
  - destruct w as [|[g|]|g]; cbn [okdots wdot is_dot go_on]; try (split; [reflexivity|apply (IHl _ (Selector None))]); apply okdots_mono; [apply (IHl _ (Selector None))|apply (IHl _ (Selector None))|apply (IHl _ (AtRule g))].
  - destruct w as [|[g|]|g]; [apply okdots_text, (IHl _ Before)|apply (IHl _ (Selector (Some (g ++ 47%N :: r))))|apply okdots_text, (IHl _ (Selector None))|apply okdots_text, (IHl _ (AtRule g))].
  - apply okdots_pending, okdots_text. destruct w as [|[|]|g]; [apply (IHl _ Before)|apply (IHl _ (Selector None))|apply (IHl _ (Selector None))|apply (IHl _ (AtRule g))].
  - apply okdots_pending, okdots_text. destruct w as [|[|]|g]; [destruct top; [apply (IHl _ Before)|apply (IHl _ (Selector None))]|apply (IHl _ (Selector None))|apply (IHl _ (Selector None))|apply (IHl _ (AtRule g))].
  - apply okdots_pending, okdots_text. destruct w as [|[|]|g]; [apply (IHl _ (Selector None))|apply (IHl _ (Selector None))|apply (IHl _ (Selector None))|apply (IHl _ Before)].
  - apply okdots_pending, okdots_text. destruct w as [|[|]|g]; [apply (IHl _ (AtRule group))|apply (IHl _ (Selector None))|apply (IHl _ (Selector None))|apply (IHl _ (AtRule g))].
  - apply okdots_pending, okdots_text. destruct w as [|[|]|g]; [apply (IHl _ (Selector None))|apply (IHl _ (Selector None))|apply (IHl _ (Selector None))|apply (IHl _ (AtRule g))].
  - apply okdots_pending, okdots_text, okdots_app.
    + destruct k, w as [|?|[]]; try exact Logic.I; try apply (function_dots l1 None). apply (IHl1 _ Before).
    + apply okdots_text. destruct k, w as [|[|]|g]; cbn [go_on]; first [apply (IHl2 _ Before)|apply (IHl2 _ (Selector None))|apply (IHl2 _ (AtRule g))].
Qed.

(** the gap is made of comments; names are not empty *)
Definition gap_ok (i : item) : Prop := match i with IText _ => True | IClass g u => (g = [] \/ exists r, g = 47%N :: r) /\ u <> [] end.
Definition gok (d : option text) : Prop := match d with Some g => g = [] \/ exists r, g = 47%N :: r | None => True end.
Lemma gap_flush d : Forall gap_ok (flush d).
Proof. destruct d; repeat constructor. Qed.
Lemma gok_more g r : gok (Some g) -> gok (Some (g ++ 47%N :: r)).
Proof. intros [->|(r' & ->)]; cbn; eauto. Qed.
Ltac gaps := repeat first [apply Forall_app; split | apply gap_flush | apply Forall_cons | apply Forall_nil | exact Logic.I].
Lemma function_gaps l : forall d, gok d -> Forall gap_ok (in_function d l).
Proof.
  induction l; intros d G; cbn [in_function]; gaps; try (apply IHl; first [exact Logic.I|left; reflexivity]).
  - destruct d; gaps; try (apply IHl; exact Logic.I). split; [exact G|discriminate].
  - destruct d; gaps; apply IHl; [apply gok_more, G|exact Logic.I].
  - destruct k; gaps. apply IHl1. exact Logic.I.
  - apply IHl2. exact Logic.I.
Qed.
Definition wok (w : where_) : Prop := match w with Selector d => gok d | _ => True end.
Lemma gap_pending w : Forall gap_ok (pending w).
Proof. destruct w; cbn; auto using gap_flush. Qed.
Lemma rules_gaps l : forall top w, wok w -> Forall gap_ok (in_rules top w l).
Proof.
  induction l; intros top w G; cbn [in_rules]; gaps; try apply gap_pending; try (apply IHl; destruct w as [|[|]|], top; first [exact Logic.I|left; reflexivity]).
  - destruct w as [|[|]|]; gaps; try (apply IHl; exact Logic.I). split; [exact G|discriminate].
  - destruct w as [|[|]|]; gaps; apply IHl; try exact Logic.I. apply gok_more, G.
  - destruct k, w as [|?|[]]; gaps; first [apply IHl1; exact Logic.I|apply function_gaps; exact Logic.I].
  - apply IHl2. destruct k, w as [|[|]|]; exact Logic.I.
Qed.

(** slices *)
Lemma slice_mid (a b c : text) : slice (length a) (length a + length b) (a ++ b ++ c) = Some b.
Proof.
  unfold slice. rewrite !app_length. destruct (Nat.leb_spec (length a) (length a + length b)); [|lia]. destruct (Nat.leb_spec (length a + length b) (length a + (length b + length c))); [|lia]. cbn.
  replace (length a + length b - length a) with (length b) by lia. rewrite skipn_app, skipn_all, Nat.sub_diag. cbn. rewrite firstn_app, firstn_all, Nat.sub_diag. cbn. rewrite app_nil_r. reflexivity.
Qed.
Lemma nth_end (a b : text) d : a <> [] -> nth (length (a ++ b) - length b - 1) (a ++ b) d = last a d.
Proof.
  intro N. rewrite app_length. replace (length a + length b - length b - 1) with (length a - 1) by lia.
  destruct (exists_last N) as (a' & x & ->). rewrite last_last, app_length. cbn. replace (length a' + 1 - 1) with (length a') by lia.
  rewrite <- app_assoc. rewrite app_nth2, Nat.sub_diag by lia. reflexivity.
Qed.
Lemma last_app (a b : text) d : b <> [] -> last (a ++ b) d = last b d.
Proof. intro N. destruct (exists_last N) as (b' & x & ->). rewrite app_assoc, !last_last. reflexivity. Qed.

Definition add_names (ns : list text) (l : list item) : list text := fold_left (fun ns t => insert_name t ns) (class_names l) ns.
Lemma splice_ok pf its : forall a b output names, Forall plain its -> okdots (ends b false) its ->
  exists a' b' output', a ++ b ++ items_text its = a' ++ b' /\
    splice (a ++ b ++ items_text its) pf (offs (length a + length b) its) output (length a) names = Some (output', length a', add_names names its) /\
    output' ++ b' = output ++ b ++ renamed pf its.
Proof.
  induction its as [|[t|g u] its IH]; intros a b output names P D.
  - exists a, b, output. cbn. rewrite !app_nil_r. auto.
  - inversion P as [|? ? _ P']; subst. cbn [offs] in *. rewrite text_cons.
    destruct (IH a (b ++ t) output names P') as (a' & b' & o' & E1 & E2 & E3).
    { cbn in D. destruct t as [|x t]; [rewrite app_nil_r; exact D|]. unfold ends in *. destruct (b ++ x :: t) as [|y q] eqn:E; [destruct b; discriminate|]. rewrite <- E, last_app by discriminate. exact D. }
    rewrite <- app_assoc in *. rewrite app_length in E2. rewrite Nat.add_assoc in E2. exists a', b', o'. split; [exact E1|]. split; [exact E2|]. rewrite E3. cbn. rewrite <- ?app_assoc. reflexivity.
  - inversion P as [|? ? PI P']; subst. destruct PI as (-> & V). cbn in D. destruct D as (D & D'). cbn [offs]. rewrite text_class. cbn [app length]. rewrite Nat.add_0_r.
    cbn [splice]. rewrite <- V. 
    assert (S1 : slice (length a) (length a + length b + length (id_text u)) (a ++ b ++ id_text u ++ items_text its) = Some (b ++ id_text u)).
    { replace (length a + length b + length (id_text u)) with (length a + length (b ++ id_text u)) by (rewrite app_length; lia). rewrite (app_assoc b). apply slice_mid. }
    assert (S2 : slice (length a + length b) (length a + length b + length (id_text u)) (a ++ b ++ id_text u ++ items_text its) = Some (id_text u)).
    { rewrite (app_assoc a). rewrite <- (app_length a b). apply slice_mid. }
    rewrite S1, S2. assert (BN : b <> []) by (intros ->; discriminate). assert (DOT : last b 0%N = 46%N). { destruct b as [|x b]; [congruence|]. apply N.eqb_eq. exact D. }
    assert (A : (S (length (id_text u)) <=? length (output ++ b ++ id_text u)) = true). { apply Nat.leb_le. rewrite !app_length. destruct b; [congruence|cbn; lia]. }
    rewrite A. assert (NT : nth (length (output ++ b ++ id_text u) - length (id_text u) - 1) (output ++ b ++ id_text u) 0%N = 46%N).
    { rewrite (app_assoc output). rewrite nth_end by (destruct output; [exact BN|discriminate]). rewrite last_app by exact BN. exact DOT. }
    rewrite NT. cbn [andb N.eqb Pos.eqb]. 
    destruct (IH (a ++ b ++ id_text u) [] ((output ++ b ++ id_text u) ++ 45%N :: pf) (insert_name (id_text u) names) P' D') as (a' & b' & o' & E1 & E2 & E3).
    cbn [app] in E1, E2, E3. rewrite <- !app_assoc in E1, E2. rewrite !app_length in E2. cbn [length] in E2. rewrite Nat.add_0_r, Nat.add_assoc in E2. exists a', b', o'. split; [exact E1|]. split.
    + rewrite E2. reflexivity.
    + rewrite E3. cbn. rewrite <- !app_assoc. reflexivity.
Qed.

(** what a successful run says about every class *)
Lemma in_teqb x l : existsb (teqb x) l = true <-> In x l.
Proof.
  rewrite existsb_exists. split.
  - intros (y & J & E). unfold teqb in E. destruct (list_eq_dec N.eq_dec x y); [subst; exact J|discriminate].
  - intro J. exists x. split; [exact J|]. unfold teqb. destruct (list_eq_dec N.eq_dec x x); [reflexivity|congruence].
Qed.
Lemma insert_in x y l : In y (insert_name x l) <-> y = x \/ In y l.
Proof.
  unfold insert_name. destruct (existsb (teqb x) l) eqn:E; cbn; [|intuition congruence]. apply in_teqb in E. split; [auto|]. intros [->|J]; auto.
Qed.
Lemma insert_nodup x l : NoDup l -> NoDup (insert_name x l).
Proof. intro N. unfold insert_name. destruct (existsb (teqb x) l) eqn:E; [exact N|]. constructor; [|exact N]. intro J. apply in_teqb in J. congruence. Qed.
Lemma add_names_spec its : forall ns, NoDup ns -> NoDup (add_names ns its) /\ forall x, In x (add_names ns its) <-> In x ns \/ In x (class_names its).
Proof.
  unfold add_names. induction (class_names its) as [|t l IH]; intros ns N; cbn; [intuition|]. destruct (IH (insert_name t ns) (insert_nodup t ns N)) as (A & B). split; [exact A|].
  intro x. rewrite B, insert_in. intuition.
Qed.
Lemma splice_names input pf cs : forall output lst names o e ns, splice input pf cs output lst names = Some (o, e, ns) ->
  incl names ns /\ forall s len, In (s, len) cs -> exists nm, slice s (s + len) input = Some nm /\ In nm ns.
Proof.
  induction cs as [|(s, len) cs IH]; intros output lst names o e ns E; cbn [splice] in E.
  - injection E as <- <- <-. split; [apply incl_refl|intros s len []].
  - destruct (slice lst (s + len) input) as [x|]; [|discriminate]. destruct (_ && _); [|discriminate]. destruct (slice s (s + len) input) as [nm|] eqn:S1; [|discriminate].
    destruct (IH _ _ _ _ _ _ E) as (I1 & I2). split; [intros y J; apply I1, insert_in; auto|]. intros s0 len0 [[= <- <-]|J]; [|apply I2, J]. exists nm. split; [exact S1|]. apply I1, insert_in. auto.
Qed.
Lemma offs_in x g u y pos : In (pos + length (items_text x), length (id_value u)) (offs pos (x ++ IClass g u :: y)).
Proof. rewrite offs_app. apply in_app_iff. right. cbn. auto. Qed.
Lemma id_text_cons p u : id_text (p :: u) = piece_text p ++ id_text u. Proof. reflexivity. Qed.
Lemma id_value_cons p u : id_value (p :: u) = piece_value p ++ id_value u. Proof. reflexivity. Qed.
Lemma escaped u : id_text u = id_value u \/ exists a b c, id_text u = a ++ c :: b /\ (c = 92%N \/ c = 0%N) /\ length a < length (id_value u).
Proof.
  induction u as [|[c|r d dec|] u IH]; [auto| | |]; rewrite id_text_cons, id_value_cons; cbn [piece_text piece_value app].
  - destruct IH as [E|(a & b & c' & E & C & L)]; [left; rewrite E; reflexivity|]. right. exists (c :: a), b, c'. rewrite E. split; [reflexivity|]. split; [exact C|]. cbn. lia.
  - right. exists [], (r ++ id_text u), 92%N. split; [reflexivity|]. split; [auto|cbn; lia].
  - right. exists [], (id_text u), 0%N. split; [reflexivity|]. split; [auto|cbn; lia].
Qed.
Lemma slice_some s e t x : slice s e t = Some x -> x = firstn (e - s) (skipn s t).
Proof. unfold slice. destruct (_ && _); [|discriminate]. intros [= <-]. reflexivity. Qed.
Lemma dash_in c t : In c t -> c <> 45%N -> In c (dash t).
Proof. intros J N. unfold dash. apply in_map_iff. exists c. destruct (N.eqb_spec c 45); [contradiction|auto]. Qed.
Lemma firstn_in (a b : text) c n : length a < n -> In c (firstn n (a ++ c :: b)).
Proof.
  intro L. rewrite firstn_app. apply in_app_iff. right. destruct (n - length a) as [|m] eqn:E; [lia|]. cbn. auto.
Qed.
Lemma bad_rejected f g u x y nm : ident_new_ok f -> gap_ok (IClass g u) ->
  slice (length x) (length x + length (id_value u)) (x ++ (g ++ id_text u) ++ y) = Some nm -> f (dash nm) = true -> plain (IClass g u).
Proof.
  intros F GU S A. destruct GU as (G & U). apply slice_some in S. rewrite skipn_app, skipn_all, Nat.sub_diag in S. cbn [app skipn] in S. replace (length x + length (id_value u) - length x) with (length (id_value u)) in S by lia.
  pose proof (F _ A) as FA. rewrite Forall_forall in FA. 
  assert (L : 0 < length (id_value u)) by (destruct u as [|[| |] u]; [congruence| | |]; cbn; lia).
  destruct G as [->|(r & ->)].
  - destruct (escaped u) as [V|(a & b & c & E & C & LA)]; [split; auto|]. exfalso. cbn [app] in S. rewrite E, <- app_assoc in S. cbn [app] in S.
    assert (J : In c nm) by (rewrite S; apply firstn_in, LA). assert (Q : ident_char c = true) by (apply FA, dash_in; [exact J|destruct C; subst; discriminate]). destruct C; subst; discriminate.
  - exfalso. cbn [app] in S. assert (J : In 47%N nm) by (rewrite S; apply (firstn_in []); exact L). assert (Q : ident_char 47 = true) by (apply FA, dash_in; [exact J|discriminate]). discriminate.
Qed.

Section Gen.
Variable ident_new : text -> bool.
Variable hash : text -> list N.
Notation generate := (generate ident_new hash).
Lemma generate_plain l out consts : ident_new_ok ident_new -> generate l = Some (out, consts) -> Forall plain (items l).
Proof.
  intros F E. unfold Css.generate in E. destruct (splice _ _ _ _ _ _) as [((o, e), ns)|] eqn:SP; [|discriminate]. destruct (slice e _ _); [|discriminate].
  destruct (forallb _ _) eqn:FB; [|discriminate]. rewrite forallb_forall in FB. destruct (splice_names _ _ _ _ _ _ _ _ _ SP) as (_ & N).
  apply Forall_forall. intros [tx|g u] J; [exact Logic.I|]. destruct (in_split _ _ J) as (x & y & E'). 
  destruct (N (length (items_text x)) (length (id_value u))) as (nm & S & I1).
  { rewrite classes_offs, E'. apply (offs_in x g u y 0). }
  rewrite <- same_text, E', text_app, text_class, (app_assoc g) in S. apply (bad_rejected ident_new g u (items_text x) (items_text y) nm F); auto.
  pose proof (rules_gaps l true Before Logic.I) as G. rewrite Forall_forall in G. apply G, J.
Qed.
Lemma generate_ok l : Forall plain (items l) -> forallb (fun c => ident_new (dash c)) (add_names [] (items l)) = true ->
  let pf := postfix hash (tok_text l) in
  generate l = Some (renamed pf (items l), map (fun c => (dash c, c ++ 45%N :: pf)) (add_names [] (items l))).
Proof.
  intros P A pf. unfold Css.generate. fold pf. destruct (splice_ok pf (items l) [] [] [] [] P (rules_dots l true Before)) as (a' & b' & o' & E1 & E2 & E3).
  cbn [app length] in E1, E2, E3. rewrite same_text in E1, E2. rewrite classes_offs. cbn [Nat.add] in E2. rewrite E2.
  assert (S : slice (length a') (length (tok_text l)) (tok_text l) = Some b').
  { rewrite E1, app_length. pose proof (slice_mid a' b' []) as Q. rewrite app_nil_r in Q. exact Q. }
  rewrite S, A, E3. reflexivity.
Qed.
Lemma generate_names l out consts : generate l = Some (out, consts) -> Forall plain (items l) -> forallb (fun c => ident_new (dash c)) (add_names [] (items l)) = true.
Proof.
  intros E P. unfold Css.generate in E. set (pf := postfix hash (tok_text l)) in *. destruct (splice_ok pf (items l) [] [] [] [] P (rules_dots l true Before)) as (a' & b' & o' & E1 & E2 & E3).
  cbn [app length] in E1, E2, E3. rewrite same_text in E1, E2. rewrite classes_offs in E. cbn [Nat.add] in E2. rewrite E2 in E. destruct (slice _ _ _); [|discriminate]. destruct (forallb _ _); [reflexivity|discriminate].
Qed.
End Gen.

Lemma renamed_in pf l c : In c (renamed pf l) -> In c (items_text l) \/ c = 45%N \/ In c pf.
Proof.
  unfold renamed, items_text. rewrite !in_flat_map. intros ([t|g u] & J & I1).
  - left. exists (IText t). auto.
  - rewrite !in_app_iff in I1. destruct I1 as [I1|[I1|[<-|I1]]]; auto; left; exists (IClass g u); rewrite in_app_iff; auto.
Qed.
Lemma template_plain t : Forall (fun c => c <> 96 /\ c <> 36 /\ c <> 13 /\ c <> 92)%N t -> template t = Some t.
Proof.
  induction t as [|c t IH]; intro F; [reflexivity|]. inversion F as [|? ? (A & B & C & D) F']; subst. cbn [template].
  destruct (N.eqb_spec c 96); [contradiction|]. destruct (N.eqb_spec c 36); [contradiction|]. destruct (N.eqb_spec c 13); [contradiction|]. destruct (N.eqb_spec c 92); [contradiction|].
  rewrite (IH F'). reflexivity.
Qed.
Lemma digit32_range n : (let c := digit32 (n mod 32) in (48 <= c <= 57) \/ (97 <= c <= 118))%N.
Proof.
  cbv zeta. pose proof (N.mod_upper_bound n 32 ltac:(discriminate)) as U. unfold digit32. set (m := (n mod 32)%N) in *. clearbody m. destruct (N.ltb_spec m 10); lia.
Qed.

(** ** When the page gets exactly the output *)
Lemma template_shorter n : forall t t', length t <= n -> template t = Some t' -> length t' <= length t /\ (In 92%N t -> length t' < length t).
Proof.
  induction n as [|n IH]; intros [|c t1] t' L E; cbn [length] in L; try lia.
  - injection E as <-. cbn. split; [lia|tauto].
  - injection E as <-. cbn. split; [lia|tauto].
  - assert (STEP : forall x s s', length s <= n -> option_map (cons x) (template s) = Some s' -> length s' <= S (length s) /\ (In 92%N s -> length s' < S (length s))).
    { intros x s s' L' E'. destruct (template s) as [u|] eqn:T; [|discriminate]. injection E' as <-. destruct (IH s u L' T) as (A & B). cbn. split; [lia|]. intro H. specialize (B H). lia. }
    cbn [template] in E.
    destruct (N.eqb_spec c 96) as [|N96]; [discriminate|].
    destruct (N.eqb_spec c 36) as [->|N36].
    { assert (E' : option_map (cons 36%N) (template t1) = Some t').
      { destruct t1 as [|d t2]; auto. destruct d as [|p]; auto. repeat (destruct p as [p|p|]; auto; try discriminate). }
      edestruct STEP as (A & B); [|exact E'|]; [cbn in *; lia|]. cbn. split; [lia|]. intros [H|H]; [discriminate|]. specialize (B H). lia. }
    destruct (N.eqb_spec c 13) as [->|N13].
    { assert (E' : (exists t2, t1 = 10%N :: t2 /\ option_map (cons 10%N) (template t2) = Some t') \/ option_map (cons 10%N) (template t1) = Some t').
      { destruct t1 as [|d t2]; auto. destruct d as [|p]; auto. repeat (destruct p as [p|p|]; auto). left. eauto. }
      destruct E' as [(t2 & -> & E')|E'].
      - cbn in L. edestruct STEP as (A & B); [|exact E'|]; [cbn in *; lia|]. cbn. split; lia.
      - edestruct STEP as (A & B); [|exact E'|]; [cbn in *; lia|]. cbn. split; [lia|]. intros [H|H]; [discriminate|]. specialize (B H). lia. }
    destruct (N.eqb_spec c 92) as [->|N92].
    { destruct t1 as [|e t2]; [discriminate|]. cbn in L.
      assert (E' : (exists x, option_map (cons x) (template t2) = Some t') \/ template t2 = Some t').
      { repeat match type of E with (if ?b then _ else _) = _ => destruct b; eauto end. discriminate. }
      destruct E' as [(x & E')|E'].
      - edestruct STEP as (A & B); [|exact E'|]; [cbn in *; lia|]. cbn. split; lia.
      - edestruct IH as (A & B); [|exact E'|]; [cbn in *; lia|]. cbn. split; lia. }
    edestruct STEP as (A & B); [|exact E|]; [cbn in *; lia|]. cbn. split; [lia|]. intros [H|H]; [congruence|]. specialize (B H). lia.
Qed.
Lemma template_same t : template t = Some t <->
  ~ In 96%N t /\ ~ In 13%N t /\ ~ In 92%N t /\ ~ exists a b, t = a ++ 36%N :: 123%N :: b.
Proof.
  split.
  - intro E. assert (N92 : ~ In 92%N t). { intro H. destruct (template_shorter _ t t (le_n _) E) as (_ & B). specialize (B H). lia. }
    revert E N92. induction t as [|c t IH]; intros E N92.
    { repeat split; try tauto. intros ([|? ?] & b & Q); discriminate. }
    assert (G : template t = Some t -> c <> 96%N -> c <> 13%N -> ~ (c = 36%N /\ exists b, t = 123%N :: b) ->
      ~ In 96%N (c :: t) /\ ~ In 13%N (c :: t) /\ ~ In 92%N (c :: t) /\ ~ exists a b, c :: t = a ++ 36%N :: 123%N :: b).
    { intros E' A B C. destruct (IH E') as (I1 & I2 & I3 & I4); [intro; apply N92; right; auto|].
      repeat split; auto; try (intros [H|H]; auto; fail). intros ([|d a] & b & Q); cbn in Q; injection Q as -> Q; [apply C; eauto|apply I4; eauto]. }
    assert (SAME : forall s, option_map (cons c) (template s) = Some (c :: s) -> template s = Some s).
    { intros s Q. destruct (template s); [|discriminate]. injection Q as ->. auto. }
    cbn [template] in E.
    destruct (N.eqb_spec c 96) as [|N96]; [discriminate|].
    destruct (N.eqb_spec c 36) as [->|N36].
    { assert (E' : option_map (cons 36%N) (template t) = Some (36%N :: t) /\ ~ exists b, t = 123%N :: b).
      { destruct t as [|d t2]; [split; [exact E|]; intros (b & Q); discriminate|]. destruct (N.eq_dec d 123) as [->|ND]; [discriminate|].
        split; [|intros (b & Q); congruence]. destruct d as [|p]; auto. repeat (destruct p as [p|p|]; auto; try discriminate). }
      destruct E' as (E' & NB). apply G; auto; try discriminate; tauto. }
    destruct (N.eqb_spec c 13) as [->|N13].
    { assert (E' : exists s, option_map (cons 10%N) (template s) = Some (13%N :: t)).
      { destruct t as [|d t2]; eauto. destruct d as [|p]; eauto. repeat (destruct p as [p|p|]; eauto). }
      destruct E' as (s & E'). destruct (template s); discriminate. }
    destruct (N.eqb_spec c 92) as [->|N92']; [exfalso; apply N92; left; auto|].
    apply G; auto. tauto.
  - induction t as [|c t IH]; intros (A & B & C & D); [reflexivity|]. cbn [template].
    destruct (N.eqb_spec c 96) as [->|_]; [exfalso; apply A; left; auto|].
    assert (E : template t = Some t).
    { apply IH. repeat split; try (intro H; (apply A + apply B + apply C); right; exact H). intros (a & b & ->). apply D. exists (c :: a), b. auto. }
    destruct (N.eqb_spec c 36) as [->|_].
    { assert (E' : option_map (cons 36%N) (template t) = Some (36%N :: t)) by (rewrite E; auto).
      destruct t as [|d t2]; auto. destruct (N.eq_dec d 123) as [->|ND]; [exfalso; apply D; exists [], t2; auto|].
      destruct d as [|p]; auto. repeat (destruct p as [p|p|]; auto; try congruence). }
    destruct (N.eqb_spec c 13) as [->|_]; [exfalso; apply B; left; auto|].
    destruct (N.eqb_spec c 92) as [->|_]; [exfalso; apply C; left; auto|]. rewrite E. auto.
Qed.
