(** Polls of UI trees with lists keep the invariant. *)
From Coq Require Import List Arith NArith Bool Lia Permutation Sorting.Sorted.
From Verif Require Import Util Position Dom Context Spec_path Spec_list Render_history
  Position_proofs Dom_proofs Context_proofs Render_history_proofs Ui Ui_proofs DynList DynList_proofs DynList_run_proofs
  UiList Spec_uilist UiList_core UiList_inv UiList_shape UiList_ops UiList_add UiList_del UiList_ren UiList_call UiList_mem
  UiList_drop.
Import ListNotations.

(** ** induction over schedules *)
Definition on_act (P : usched -> Prop) (a : uaction) : Prop := match a with AWait s => P s | _ => True end.
Definition on_lact (P : usched -> Prop) (a : laction) : Prop := match a with LPoll _ s => P s | _ => True end.
Definition sched_ind' (P : usched -> Prop)
  (H1 : P KNone) (H2 : forall s, P s -> P (KElem s))
  (H3 : forall l, Forall (fun x => P (snd x)) l -> P (KComb l))
  (H4 : forall l, Forall (on_act P) l -> P (KBlock l))
  (H5 : forall l, Forall (on_lact P) l -> P (KList l))
  (H6 : forall s, P s -> P (KOwn s)) : forall s, P s :=
  fix go s := match s with
  | KNone => H1
  | KElem s' => H2 s' (go s')
  | KComb l => H3 l ((fix all l := match l return Forall (fun x => P (snd x)) l with
                       | [] => Forall_nil _
                       | x :: t => @Forall_cons _ (fun x => P (snd x)) x t (go (snd x)) (all t) end) l)
  | KBlock l => H4 l ((fix all l := match l return Forall (on_act P) l with
                       | [] => Forall_nil _
                       | x :: t => @Forall_cons _ (on_act P) x t
                           (match x return on_act P x with AWait s => go s | _ => I end) (all t) end) l)
  | KList l => H5 l ((fix all l := match l return Forall (on_lact P) l with
                       | [] => Forall_nil _
                       | x :: t => @Forall_cons _ (on_lact P) x t
                           (match x return on_lact P x with LPoll _ s => go s | _ => I end) (all t) end) l)
  | KOwn s' => H6 s' (go s')
  end.

(** ** the loops of [upoll] as functions *)
Definition comb_go (fuel : nat) (h : gid) (c : option ctx) :=
  fix go (l : list (nat * usched)) (cs : list ufut) (w : uworld) : res (list ufut * uworld) :=
    match l with
    | [] => Ok (cs, w)
    | (i, s') :: t =>
        match nth_error cs i, c with
        | Some ch, Some cx =>
            rbind (upoll fuel s' h ch (Some (CChild cx (N.of_nat i))) w) (fun '(ch', w') =>
            go t (set_nth i ch' cs) w')
        | Some _, None => Panic
        | None, _ => go t cs w
        end
    end.
Lemma upoll_comb fuel l h a cs c w : upoll fuel (KComb l) h (UComb a cs) c w =
  rbind (comb_go fuel h c l cs w) (fun '(cs', w') => Ok (UComb a cs', w')).
Proof. reflexivity. Qed.

Definition block_go (fuel : nat) (h : gid) (c : option ctx) :=
  fix go (l : list uaction) (cur : ufut) (w : uworld) : res (ufut * uworld) :=
    match l with
    | [] => Ok (cur, w)
    | AWait s' :: t => rbind (upoll fuel s' h cur c w) (fun '(cur', w') => go t cur' w')
    | AReplace f' :: t => rbind (udrop_fut fuel h cur c w) (fun w' => go t f' w')
    | ANew l' a s e fr f' :: t =>
        rbind (udrop_fut fuel h cur c w) (fun w1 =>
        rbind (list_new l' s e fr w1) (fun w2 => go t (UOwn l' a f') w2))
    | ACall l' o :: t => rbind (list_call l' o w) (fun w' => go t cur w')
    end.
Lemma upoll_block fuel l h cur c w : upoll fuel (KBlock l) h (UBlock cur) c w =
  rbind (block_go fuel h c l cur w) (fun '(cur', w') => Ok (UBlock cur', w')).
Proof. reflexivity. Qed.

Definition list_step (fuel : nat) (l : lid) (cx : ctx) (act : laction) (w : uworld) : res uworld :=
  let c := Some cx in
  match get_l l (u_ls w) with
  | None => Bad Dangling
  | Some o =>
    match act with
    | LPoll k s' =>
        match hm_get k (dl_items (lo_l o)) with
        | None => Ok w
        | Some st =>
            match get_sib (st_g st) (lo_futs o) with
            | None => Ok w
            | Some sb =>
                rbind (upoll fuel s' (sb_g sb) (sb_f sb)
                  (Some (CSibling cx (sb_g sb) (sb_ref sb)))
                  (take_sib l o (sb_g sb) w)) (fun '(f', w') =>
                put_sib l (mkSib (sb_g sb) (sb_ref sb) (sb_a sb) f') w')
            end
        end
    | LDone k =>
        match hm_get k (dl_items (lo_l o)) with
        | None => Ok w
        | Some st =>
            match get_sib (st_g st) (lo_futs o) with
            | None => Ok w
            | Some sb =>
                rbind (drop_sib (fun f w => udrop_fut fuel (sb_g sb) f c w) c sb
                         (take_sib l o (sb_g sb) w)) (fun w' =>
                put_sib l (mkSib (sb_g sb) (sb_ref sb) (sb_a sb) ULeaf) w')
            end
        end
    | LReap i =>
        match nth_error (dl_dead (lo_l o)) i with
        | None => Ok w
        | Some st =>
            match get_sib (st_g st) (lo_futs o) with
            | None => Ok w
            | Some sb =>
                rbind (drop_sib (fun f w => udrop_fut fuel (sb_g sb) f c w) c sb
                         (take_sib l o (sb_g sb) w)) (fun w' =>
                rm_dead l (sb_g sb) w')
            end
        end
    end
  end.
Definition list_go (fuel : nat) (l : lid) (cx : ctx) :=
  fix go (acts : list laction) (w : uworld) : res uworld :=
    match acts with
    | [] => Ok w
    | act :: t => rbind (list_step fuel l cx act w) (go t)
    end.
Lemma upoll_list fuel acts h l r cx w : upoll fuel (KList acts) h (UList l r) (Some cx) w =
  rbind (if r then Ok w else list_render l cx w) (fun w0 =>
  rbind (list_go fuel l cx acts w0) (fun w' => Ok (UList l true, w'))).
Proof. reflexivity. Qed.

(** ** what the schedule still has to create *)
Definition mf (x : made) : list fact :=
  match x with MNode n => [FN n] | MGroup g => [FG g] | MList l fr => [FL l fr] | MFut f => frees f end.
Definition rsv (ms : list made) : list fact := flat_map mf ms.
Lemma rsv_app a b : rsv (a ++ b) = rsv a ++ rsv b.
Proof. apply flat_map_app. Qed.
Definition news (ms : list made) : Prop := forall f, In (MFut f) ms -> unew f.
Lemma news_app a b : news (a ++ b) -> news a /\ news b.
Proof. intro N. split; intros f Q; apply N; apply in_app_iff; auto. Qed.

Definition act_made (a : uaction) : list made :=
  match a with
  | AWait s' => umade s'
  | AReplace f => [MFut f]
  | ANew l' _ s e fr f => [MNode s; MNode e; MList l' fr; MFut f]
  | ACall _ o => op_made o
  end.
Definition lact_made (a : laction) : list made := match a with LPoll _ s' => umade s' | _ => [] end.
Lemma made_comb l : umade (KComb l) = flat_map (fun x => umade (snd x)) l.
Proof. induction l as [|[i s] t IH]; auto. simpl in *. rewrite IH. auto. Qed.
Lemma made_block l : umade (KBlock l) = flat_map act_made l.
Proof. induction l as [|[s|f|? ? ? ? ? ?|? ?] t IH]; auto; simpl in *; rewrite IH; auto. Qed.
Lemma made_list l : umade (KList l) = flat_map lact_made l.
Proof. induction l as [|[? s|?|?] t IH]; auto; simpl in *; rewrite ?IH; auto. Qed.

Definition inert (X : list fact) : Prop := forall x, In x X -> match x with FN _ | FG _ | FL _ _ => True | _ => False end.
Lemma inert_rsv ms : inert (rsv ms).
Proof.
  intros x Q. apply in_flat_map in Q as (m & _ & Q). destruct m; simpl in Q; try (destruct Q as [<-|[]]; auto).
  destruct (frees_only _ _ Q) as [(n & ->)|(n & ->)]; auto.
Qed.
Lemma inert_frees f : inert (frees f).
Proof. intros x Q. destruct (frees_only _ _ Q) as [(n & ->)|(n & ->)]; auto. Qed.
Lemma inert_app a b : inert a -> inert b -> inert (a ++ b).
Proof. intros A B x Q. apply in_app_iff in Q as [Q|Q]; [apply A|apply B]; auto. Qed.
Lemma inert_cons x b : inert [x] -> inert b -> inert (x :: b).
Proof. intros A B. apply (inert_app [x]); auto. Qed.

(** nothing else is shown at or around path [p] of place [g] *)
Definition clean (R : list fact) (g : gid) (p : path) : Prop :=
  forall q n, In (Ent g q n) R -> ~ under p q /\ ~ under q p.

(** what is known about the rest of the program while a future at [g], [p] runs *)
Record env (R : list fact) (base : ctx) (g : gid) (p : path) (h : gid) : Prop := {
  en_cb : cbase R base g;
  en_io : indices_ok p;
  en_cl : closed R;
  en_clean : clean R g p;
  en_br : BR R;
  en_h : held R h
}.
Lemma env_inert X R base g p h : inert X -> env R base g p h -> env (X ++ R) base g p h.
Proof.
  intros IX [a b c d e f]. assert (IR : incl R (X ++ R)) by (apply incl_appr, incl_refl). constructor; auto.
  - eapply cbase_mono; eauto.
  - apply closed_over; auto. intros y g0 Q S. specialize (IX y Q). destruct y; destruct IX; destruct S.
  - intros q n Q. apply in_app_iff in Q as [Q|Q]; [destruct (IX _ Q)|eauto].
  - apply BR_over; auto. intros l g0 e0 Q. destruct (IX _ Q).
  - eapply held_mono; eauto.
Qed.

Lemma under_anti_snoc p i j q : under (p ++ [i]) q -> under (p ++ [j]) q -> i = j.
Proof.
  intros (r & ->) (r' & E). rewrite <- !app_assoc in E. apply app_inv_head in E. simpl in E. congruence.
Qed.
Lemma under_trans p q r : under p q -> under q r -> under p r.
Proof. intros (a & ->) (b & ->). exists (a ++ b). rewrite app_assoc. auto. Qed.
Lemma under_snoc_inv q p i : under q (p ++ [i]) -> q = p ++ [i] \/ under q p.
Proof.
  intros (r & E). destruct r as [|x r _] using rev_ind.
  - rewrite app_nil_r in E. auto.
  - rewrite app_assoc in E. apply app_inj_tail in E as [-> _]. right. exists r. auto.
Qed.

Section Poll.
Variable base0 : node -> list node.
Variable U : list node.
Local Notation INV := (INV base0 U).

Lemma drop_inert w X R : INV w (X ++ R) -> inert X -> INV w R.
Proof.
  intros IV IX. apply (forget base0 U w X R IV). intros x Q. specialize (IX x Q). destruct x; auto; destruct IX.
Qed.

Definition pollspec (fuel : nat) (s : usched) : Prop :=
  forall h f g p base R w, INV w (facts g p f ++ rsv (umade s) ++ R) -> news (umade s) -> okf f ->
  env R base g p h -> u_drop w = None ->
  upoll fuel s h f (Some (ctx_at base p)) w <> Panic /\
  forall f' w', upoll fuel s h f (Some (ctx_at base p)) w = Ok (f', w') ->
    INV w' (facts g p f' ++ R) /\ okf f' /\ u_drop w' = None.

(** a schedule that does not fit *)
Lemma poll_id w g p f ms R : INV w (facts g p f ++ rsv ms ++ R) -> okf f -> u_drop w = None ->
  @Ok (ufut * uworld) (f, w) <> Panic /\ forall f' w', Ok (f, w) = Ok (f', w') ->
    INV w' (facts g p f' ++ R) /\ okf f' /\ u_drop w' = None.
Proof.
  intros IV OK ED. split; [discriminate|]. intros f' w' Q. injection Q as <- <-. split; auto.
  apply (drop_inert w (rsv ms)); [|apply inert_rsv]. eapply inv_perm; [|exact IV]. pperm.
Qed.

(** *** combinators *)
Lemma nth_split' {A} i (l : list A) x : nth_error l i = Some x -> exists a b, l = a ++ x :: b /\ length a = i.
Proof. apply nth_error_split. Qed.

Lemma facts_list_app g p a : forall k b, facts_list g p k (a ++ b) = facts_list g p k a ++ facts_list g p (k + length a) b.
Proof.
  induction a as [|f a IH]; intros k b; simpl.
  - rewrite Nat.add_0_r. auto.
  - rewrite IH, <- app_assoc. do 2 f_equal. f_equal. lia.
Qed.
Lemma facts_list_idx g p cs : forall k x, In x (facts_list g p k cs) -> exists j f, k <= j < k + length cs /\ In f cs /\ In x (facts g (p ++ [N.of_nat j]) f) /\
   (forall y, In y (facts g (p ++ [N.of_nat j]) f) -> In y (facts_list g p k cs)).
Proof.
  induction cs as [|f cs IH]; simpl; intros k x Q; [destruct Q|]. apply in_app_iff in Q as [Q|Q].
  - exists k, f. split; [lia|]. split; auto. split; auto. intros. apply in_app_iff; auto.
  - destruct (IH _ _ Q) as (j & f' & A & B & C & D). exists j, f'. split; [lia|]. split; auto. split; auto.
    intros. apply in_app_iff; auto.
Qed.

Lemma env_others R base g p h a b i w X : env R base g p h -> length a = i -> (N.of_nat (i + 1 + length b) <= 4294967295)%N ->
  (forall f, In f a -> okf f) -> (forall f, In f b -> okf f) ->
  OWN ((X ++ facts_list g p 0 a ++ facts_list g p (S i) b) ++ R) (u_ls w) ->
  env ((facts_list g p 0 a ++ facts_list g p (S i) b) ++ R) base g (p ++ [N.of_nat i]) h.
Proof.
  intros E LA LB OA OB OW. destruct E as [cb io cl cn br hh]. set (F := facts_list g p 0 a ++ facts_list g p (S i) b) in *.
  assert (HG := cbase_held _ _ _ cb).
  assert (IR : incl R (F ++ R)) by (apply incl_appr, incl_refl).
  assert (ID : forall x, In x F -> exists j f, j <> i /\ okf f /\ In x (facts g (p ++ [N.of_nat j]) f) /\
              (forall y, In y (facts g (p ++ [N.of_nat j]) f) -> In y F)).
  { intros x Q. apply in_app_iff in Q as [Q|Q]; apply facts_list_idx in Q as (j & f & A & B & C & D).
    - exists j, f. split; [lia|]. split; auto. split; auto. intros; apply in_app_iff; auto.
    - exists j, f. split; [lia|]. split; auto. split; auto. intros; apply in_app_iff; auto. }
  assert (NC : forall n, ~ In (Con n g) F).
  { intros n Q. apply (no_con_at _ _ _ g OW HG n). apply in_app_iff; auto. }
  constructor.
  - eapply cbase_mono; eauto.
  - apply Forall_app. split; auto. constructor; auto. lia.
  - apply closed_over; auto. intros y g0 Q S. destruct (ID y Q) as (j & f & _ & OK & Z & K).
    destruct (facts_place f OK _ _ g0 y Z) as [[-> _]|(n & C)]; [apply shows_or; auto| |]; apply held_app; auto.
    left. left. exists n. auto.
  - intros q n Q. apply in_app_iff in Q as [Q|Q].
    + destruct (ID _ Q) as (j & f & NJ & OK & Z & K).
      destruct (facts_place f OK _ _ g _ Z) as [[_ UN]|(m & C)]; [left; eauto| |destruct (NC m); auto].
      specialize (UN q n eq_refl). split; intro UQ.
      * assert (T := under_anti_snoc _ _ _ _ UN UQ). lia.
      * assert (T := under_anti_snoc _ _ _ _ (under_trans _ _ _ UN UQ) (under_refl _)). lia.
    + destruct (cn q n Q) as [N1 N2]. split; intro UQ.
      * apply N1. eapply under_snoc; eauto.
      * apply under_snoc_inv in UQ as [->|UQ]; auto. apply N1. exists [N.of_nat i]. auto.
  - apply BR_over; auto. intros l g0 e Q. destruct (ID _ Q) as (j & f & _ & OK & Z & _). destruct (no_busy f OK _ _ _ _ _ Z).
  - eapply held_mono; eauto.
Qed.

Lemma comb_poll fuel h g p base R : forall l, Forall (fun x => pollspec fuel (snd x)) l ->
  forall cs w, INV w (facts_list g p 0 cs ++ rsv (flat_map (fun x => umade (snd x)) l) ++ R) ->
  news (flat_map (fun x => umade (snd x)) l) -> (forall f, In f cs -> okf f) -> (N.of_nat (length cs) <= 4294967295)%N ->
  env R base g p h -> u_drop w = None ->
  comb_go fuel h (Some (ctx_at base p)) l cs w <> Panic /\
  forall cs' w', comb_go fuel h (Some (ctx_at base p)) l cs w = Ok (cs', w') ->
    INV w' (facts_list g p 0 cs' ++ R) /\ (forall f, In f cs' -> okf f) /\ length cs' = length cs /\ u_drop w' = None.
Proof.
  induction l as [|[i s] t IHl]; intros FA cs w IV NW OK LN EN ED.
  - simpl. split; [discriminate|]. intros cs' w' Q. injection Q as <- <-. auto.
  - inversion FA as [|? ? PS FT]; subst. cbn [snd] in PS. cbn [flat_map snd] in IV, NW. rewrite rsv_app in IV.
    apply news_app in NW as [NW1 NW2]. cbn [comb_go].
    destruct (nth_error cs i) as [ch|] eqn:EN1.
    + destruct (nth_split' _ _ _ EN1) as (a & b & EC & LA).
      set (T := rsv (flat_map (fun x => umade (snd x)) t)) in *.
      set (OTH := facts_list g p 0 a ++ facts_list g p (S i) b).
      assert (FL : forall x, Permutation (facts_list g p 0 (a ++ x :: b)) (facts g (p ++ [N.of_nat i]) x ++ OTH)).
      { intro x. rewrite facts_list_app. cbn [facts_list]. rewrite LA. unfold OTH. simpl. pperm. }
      assert (EN2 : env (OTH ++ T ++ R) base g (p ++ [N.of_nat i]) h).
      { unfold OTH. apply (env_others _ _ _ _ _ a b i w (facts g (p ++ [N.of_nat i]) ch ++ rsv (umade s))); auto.
        - apply env_inert; auto. apply inert_rsv.
        - rewrite EC, app_length in LN. simpl in LN. lia.
        - intros; apply OK; rewrite EC; apply in_app_iff; auto.
        - intros; apply OK; rewrite EC; apply in_app_iff; right; right; auto.
        - refine (own_perm _ _ _ _ (proj1 IV)). rewrite EC. rewrite (FL ch). fold OTH. pperm. }
      rewrite <- ctx_at_snoc.
      destruct (PS h ch g (p ++ [N.of_nat i]) base (OTH ++ T ++ R) w) as [NP OKK]; auto.
      { eapply inv_perm; [|exact IV]. rewrite EC, (FL ch). pperm. }
      { apply OK. rewrite EC. apply in_app_iff. right. left. auto. }
      destruct (upoll fuel s h ch (Some (ctx_at base (p ++ [N.of_nat i]))) w) as [[ch' w1]| | |] eqn:EU; cbn [rbind];
        try (split; [discriminate|discriminate]). 2: congruence.
      destruct (OKK ch' w1 eq_refl) as (IV1 & OK1 & ED1).
      assert (ES : set_nth i ch' cs = a ++ ch' :: b) by (rewrite EC, <- LA; apply Ui_proofs.set_nth_split).
      rewrite ES.
      destruct (IHl FT (a ++ ch' :: b) w1) as [NP2 OK2]; auto.
      * eapply inv_perm; [|exact IV1]. rewrite (FL ch'). fold T. pperm.
      * intros f Q. apply in_app_iff in Q as [Q|[<-|Q]]; auto; apply OK; rewrite EC; apply in_app_iff; auto. right; right; auto.
      * rewrite EC, !app_length in *. simpl in *. auto.
      * split; auto. intros cs' w' Q. destruct (OK2 cs' w' Q) as (A & B & C & D). split; auto. split; auto. split; auto.
        rewrite C, EC, !app_length. auto.
    + apply IHl; auto. apply (drop_inert w (rsv (umade s))); [|apply inert_rsv].
      eapply inv_perm; [|exact IV]. pperm.
Qed.

(** *** async blocks *)
Lemma env_drop R base g p h : env R base g p h -> forall q n, In (Ent g q n) R -> ~ under p q.
Proof. intros E q n Q. apply (en_clean _ _ _ _ _ E q n Q). Qed.

Lemma block_poll fuel h g p base R : forall l, Forall (on_act (pollspec fuel)) l ->
  forall cur w, INV w (facts g p cur ++ rsv (flat_map act_made l) ++ R) ->
  news (flat_map act_made l) -> okf cur -> env R base g p h -> u_drop w = None ->
  block_go fuel h (Some (ctx_at base p)) l cur w <> Panic /\
  forall cur' w', block_go fuel h (Some (ctx_at base p)) l cur w = Ok (cur', w') ->
    INV w' (facts g p cur' ++ R) /\ okf cur' /\ u_drop w' = None.
Proof.
  induction l as [|a t IHl]; intros FA cur w IV NW OK EN ED.
  - simpl. split; [discriminate|]. intros cs' w' Q. injection Q as <- <-. auto.
  - inversion FA as [|? ? PS FT]; subst. cbn [flat_map] in IV, NW. rewrite rsv_app in IV.
    apply news_app in NW as [NW1 NW2]. set (T := rsv (flat_map act_made t)) in *.
    assert (ENT : env (T ++ R) base g p h) by (apply env_inert; auto; apply inert_rsv).
    destruct a as [s|f'|l' a' s e fr f'|l' o]; cbn [block_go].
    + cbn [on_act] in PS. cbn [act_made] in IV, NW1.
      destruct (PS h cur g p base (T ++ R) w) as [NP OKK]; auto.
      { eapply inv_perm; [|exact IV]. pperm. }
      destruct (upoll fuel s h cur (Some (ctx_at base p)) w) as [[cur' w1]| | |] eqn:EU; cbn [rbind];
        try (split; [discriminate|discriminate]). 2: congruence.
      destruct (OKK cur' w1 eq_refl) as (IV1 & OK1 & ED1). apply IHl; auto.
    + cbn [act_made] in IV, NW1. assert (UN : unew f') by (apply NW1; left; auto).
      cbn [rsv flat_map mf] in IV. 
      assert (ENT' : env (frees f' ++ T ++ R) base g p h) by (apply env_inert; auto; apply inert_frees).
      destruct (dropU base0 U fuel cur h w g p base (frees f' ++ T ++ R)) as [NP OKK]; auto; try apply ENT'.
      { eapply inv_perm; [|exact IV]. pperm. }
      destruct (udrop_fut fuel h cur (Some (ctx_at base p)) w) as [w1| | |] eqn:EU; cbn [rbind];
        try (split; [discriminate|discriminate]). 2: congruence.
      destruct (OKK w1 eq_refl) as (IV1 & ED1 & _). apply IHl; auto.
      * rewrite facts_new by auto. auto.
      * apply unew_okf; auto.
    + cbn [act_made] in IV, NW1. assert (UN : unew f') by (apply NW1; right; right; right; left; auto).
      cbn [rsv flat_map mf app] in IV.
      assert (ENT' : env ((FN s :: FN e :: FL l' fr :: frees f') ++ T ++ R) base g p h).
      { apply env_inert; auto. repeat (apply inert_cons; [intros x [<-|[]]; exact I|]). apply inert_frees. }
      destruct (dropU base0 U fuel cur h w g p base ((FN s :: FN e :: FL l' fr :: frees f') ++ T ++ R)) as [NP OKK]; auto; try apply ENT'.
      { eapply inv_perm; [|exact IV]. pperm. }
      destruct (udrop_fut fuel h cur (Some (ctx_at base p)) w) as [w1| | |] eqn:EU; cbn [rbind];
        try (split; [discriminate|discriminate]). 2: congruence.
      destruct (OKK w1 eq_refl) as (IV1 & ED1 & _).
      destruct (new_inv base0 U w1 (frees f' ++ T ++ R) l' s e fr) as (w2 & E2 & IV2 & ED2).
      { exact IV1. }
      rewrite E2. cbn [rbind]. apply IHl; auto.
      * cbn [facts]. rewrite facts_new by auto. exact IV2.
      * cbn [okf]. apply unew_okf; auto.
      * congruence.
    + cbn [act_made] in IV, NW1.
      assert (EF : Permutation (rsv (op_made o)) (op_facts o)).
      { destruct o; simpl; rewrite ?app_nil_r; auto. }
      assert (ON : op_new o) by (destruct o; simpl; auto; apply NW1; simpl; auto 6).
      destruct (call_inv base0 U w (facts g p cur ++ T ++ R) l' o ON) as [NP OKK].
      { eapply inv_perm; [|exact IV]. rewrite <- EF. pperm. }
      destruct (list_call l' o w) as [w1| | |] eqn:EU; cbn [rbind]; try (split; [discriminate|discriminate]). 2: congruence.
      destruct (OKK w1 eq_refl) as (IV1 & ED1). apply IHl; auto. congruence.
Qed.

(** *** lists *)
Lemma get_sib_in g fs s : get_sib g fs = Some s -> In s fs /\ sb_g s = g.
Proof.
  induction fs as [|x t IH]; simpl; [discriminate|]. destruct (Nat.eqb_spec (sb_g x) g); intro Q.
  - injection Q as <-. auto.
  - destruct (IH Q); auto.
Qed.
Lemma sib_perm g fs s : NoDup (map sb_g fs) -> get_sib g fs = Some s -> Permutation fs ([s] ++ del_sib (sb_g s) fs).
Proof.
  intros ND Q. destruct (get_sib_in _ _ _ Q) as [X E]. apply in_split in X as (a & b & ->).
  rewrite map_app in ND. simpl in ND. apply NoDup_remove_2 in ND. rewrite in_app_iff in ND.
  assert (K : forall l, ~ In (sb_g s) (map sb_g l) -> del_sib (sb_g s) l = l).
  { clear. intros l N. unfold del_sib. apply filter_true. intros x Q. apply negb_true_iff, Nat.eqb_neq. intro E.
    apply N. rewrite <- E. apply in_map; auto. }
  unfold del_sib. rewrite filter_app. simpl. rewrite Nat.eqb_refl. simpl.
  fold (del_sib (sb_g s) a). fold (del_sib (sb_g s) b). rewrite !K by tauto. symmetry. apply Permutation_middle.
Qed.

Lemma futs_nodup H ls l o : OWN H ls -> In (l, o) ls -> NoDup (map sb_g (lo_futs o)).
Proof.
  intros OW L. apply occ_nodup. intro x. pose proof (ow_b OW x) as Z. apply in_split in L as (u & v & ->).
  rewrite !flat_map_app, !occ_app in Z. cbn [flat_map] in Z. rewrite occ_app in Z. unfold l_b at 2 in Z. cbn [snd] in Z. olia.
Qed.

Lemma step_poll fuel g p base R l h : env R base g p h -> forall act, on_lact (pollspec fuel) act -> forall w T,
  INV w (Ren g l :: rsv (lact_made act) ++ T ++ R) -> inert T -> news (lact_made act) -> u_drop w = None ->
  list_step fuel l (ctx_at base p) act w <> Panic /\
  forall w', list_step fuel l (ctx_at base p) act w = Ok w' -> INV w' (Ren g l :: T ++ R) /\ u_drop w' = None.
Proof.
  intros EN act PS w T IV IT NW ED. unfold list_step.
  assert (SKIP : @Ok uworld w <> Panic /\ forall w', Ok w = Ok w' -> INV w' (Ren g l :: T ++ R) /\ u_drop w' = None).
  { split; [discriminate|]. intros w' Q. injection Q as <-. split; auto.
    apply (drop_inert w (rsv (lact_made act))); [|apply inert_rsv]. eapply inv_perm; [|exact IV]. pperm. }
  destruct (get_l l (u_ls w)) as [o|] eqn:GL; [|split; discriminate].
  assert (ENT : env (T ++ R) base g p h) by (apply env_inert; auto).
  assert (OW := proj1 IV). assert (LI := get_in _ _ _ GL).
  assert (ND := futs_nodup _ _ _ _ OW LI).
  assert (HG : held (T ++ R) g) by (eapply cbase_held; apply ENT).
  set (X := rsv (lact_made act)) in *. assert (IX : inert X) by apply inert_rsv.
  assert (TAKE : forall sb gs, get_sib gs (lo_futs o) = Some sb ->
     INV (take_sib l o (sb_g sb) w) (bf l sb ++ Ren g l :: X ++ T ++ R) /\ okf (sb_f sb) /\
     (exists st, In st (stall (lo_l o)) /\ st_g st = sb_g sb /\ st_e st = sb_ref sb)).
  { intros sb gs GS. split.
    - assert (Z := take_inv base0 U w _ l o [sb] (del_sib (sb_g sb) (lo_futs o)) IV GL (sib_perm _ _ _ ND GS)).
      eapply inv_perm; [|exact Z]. cbn [flat_map]. pperm.
    - destruct (get_sib_in _ _ _ GS) as [SI _]. destruct (ow_sib OW _ _ _ LI SI) as [Z OKS]. auto. }
  (* the facts held while an item is out of the table *)
  assert (ENV2 : forall sb Y w1, INV w1 (bf l sb ++ Ren g l :: Y ++ T ++ R) ->
     closed (Ren g l :: T ++ R) /\ BR (Ren g l :: T ++ R) /\ cbase (Ren g l :: T ++ R) base g /\
     (forall q n, In (Ent g q n) (Ren g l :: T ++ R) -> ~ under p q) /\
     env (Busy l (sb_g sb) (sb_ref sb) :: Ren g l :: T ++ R)
         (CSibling (ctx_at base p) (sb_g sb) (sb_ref sb)) (sb_g sb) [] (sb_g sb) /\
     ~ held (T ++ R) (sb_g sb)).
  { intros sb Y w1 IV1. set (R1 := Ren g l :: T ++ R). set (B := Busy l (sb_g sb) (sb_ref sb)).
    assert (I1 : incl (T ++ R) R1) by (intros x Q; right; auto).
    assert (I2 : incl R1 (B :: R1)) by (intros x Q; right; auto).
    assert (C1 : closed R1).
    { apply closed_cons; [apply ENT|]. intros g0 S. simpl in S. subst g0. apply (held_mono (T ++ R)); auto. }
    assert (B1 : BR R1).
    { apply (BR_over [Ren g l]); [|apply ENT]. intros k g0 e [Q|[]]; discriminate. }
    assert (CB1 : cbase R1 base g) by (eapply cbase_mono; [eauto|apply ENT]).
    assert (NH : ~ held R1 (sb_g sb)).
    { intro Q. apply (held_twice (bf l sb ++ Y) R1 (u_ls w1) (sb_g sb)); auto.
      - refine (own_perm _ _ _ _ (proj1 IV1)). unfold R1. pperm.
      - right. exists l, (sb_ref sb). left; auto. }
    split; auto. split; auto. split; auto. split; [|split].
    - intros q n [Q|Q]; [discriminate|]. eapply env_drop; eauto.
    - constructor.
      + apply (cb_sib _ l (sb_g sb) (sb_ref sb) base g p); [left; auto|right; left; auto|]. eapply cbase_mono; eauto.
      + constructor.
      + apply closed_cons; auto. intros g0 [].
      + intros q n Q. exfalso. destruct Q as [Q|Q]; [discriminate|]. apply NH. apply (C1 _ _ Q eq_refl).
      + apply (BR_over [B]); auto. intros k g0 e [Q|[]]. injection Q as <- _ _. right. exists g. right. left. auto.
      + right. exists l, (sb_ref sb). left; auto.
    - intro Q. apply NH. apply (held_mono (T ++ R)); auto. }
  assert (PUT : forall sb f' w1, INV w1 (facts (sb_g sb) [] f' ++ Busy l (sb_g sb) (sb_ref sb) :: Ren g l :: T ++ R) -> okf f' -> u_drop w1 = None ->
     put_sib l (mkSib (sb_g sb) (sb_ref sb) (sb_a sb) f') w1 <> Panic /\
     forall w', put_sib l (mkSib (sb_g sb) (sb_ref sb) (sb_a sb) f') w1 = Ok w' -> INV w' (Ren g l :: T ++ R) /\ u_drop w' = None).
  { intros sb f' w1 IV1 OK1 ED1. unfold put_sib. destruct (get_l l (u_ls w1)) as [o1|] eqn:GL1; [|split; discriminate].
    split; [discriminate|]. intros w' Q. injection Q as <-. split; auto.
    apply (put_inv base0 U w1 (Ren g l :: T ++ R) l o1 (mkSib (sb_g sb) (sb_ref sb) (sb_a sb) f')); auto.
    eapply inv_perm; [|exact IV1]. unfold bf, sfacts. cbn [sb_g sb_ref sb_f]. pperm. }
  destruct act as [k s|k|i].
  - destruct (hm_get k (dl_items (lo_l o))) as [st|]; [|exact SKIP].
    destruct (get_sib (st_g st) (lo_futs o)) as [sb|] eqn:GS; [|exact SKIP].
    destruct (TAKE sb _ GS) as (IV1 & OKS & _). destruct (ENV2 sb X _ IV1) as (_ & _ & _ & _ & E2 & _).
    destruct (PS (sb_g sb) (sb_f sb) (sb_g sb) [] (CSibling (ctx_at base p) (sb_g sb) (sb_ref sb))
       (Busy l (sb_g sb) (sb_ref sb) :: Ren g l :: T ++ R) (take_sib l o (sb_g sb) w)) as [NP OKK]; auto.
    { eapply inv_perm; [|exact IV1]. unfold bf, sfacts, X. cbn [lact_made]. pperm. }
    change (Some (CSibling (ctx_at base p) (sb_g sb) (sb_ref sb))) with (Some (ctx_at (CSibling (ctx_at base p) (sb_g sb) (sb_ref sb)) [])).
    destruct (upoll fuel s (sb_g sb) (sb_f sb) (Some (ctx_at (CSibling (ctx_at base p) (sb_g sb) (sb_ref sb)) [])) (take_sib l o (sb_g sb) w)) as [[f' w1]| | |] eqn:EU; cbn [rbind];
        try (split; [discriminate|discriminate]). 2: congruence.
    destruct (OKK f' w1 eq_refl) as (IV2 & OK2 & ED2). apply PUT; auto.
  - destruct (hm_get k (dl_items (lo_l o))) as [st|]; [|exact SKIP].
    destruct (get_sib (st_g st) (lo_futs o)) as [sb|] eqn:GS; [|exact SKIP].
    destruct (TAKE sb _ GS) as (IV1 & OKS & _). destruct (ENV2 sb X _ IV1) as (C1 & B1 & CB1 & N1 & E2 & _).
    assert (X = []) by reflexivity.
    destruct (sib_dropU base0 U fuel (take_sib l o (sb_g sb) w) l sb g p base (Ren g l :: T ++ R)) as [NP OKK]; auto.
    { left; auto. } { apply EN. }
    cbn zeta in NP, OKK.
    destruct (drop_sib (fun f w => udrop_fut fuel (sb_g sb) f (Some (ctx_at base p)) w) (Some (ctx_at base p)) sb (take_sib l o (sb_g sb) w)) as [w1| | |] eqn:EU; cbn [rbind];
        try (split; [discriminate|discriminate]). 2: congruence.
    destruct (OKK w1 eq_refl) as (IV2 & ED2 & K2). apply PUT; auto; exact I.
  - destruct (nth_error (dl_dead (lo_l o)) i) as [st|] eqn:EI; [|exact SKIP].
    destruct (get_sib (st_g st) (lo_futs o)) as [sb|] eqn:GS; [|exact SKIP].
    destruct (TAKE sb _ GS) as (IV1 & OKS & (st' & S1 & S2 & S3)). destruct (ENV2 sb X _ IV1) as (C1 & B1 & CB1 & N1 & E2 & NH).
    assert (X = []) by reflexivity. apply nth_error_In in EI.
    assert (st' = st).
    { destruct IV as (_ & ? & ? & ? & ? & SH). apply (gid_uniq OW SH l o l o st' st LI LI); auto.
      - apply in_app_iff; auto.
      - destruct (get_sib_in _ _ _ GS) as [_ Z]. congruence. }
    subst st'.
    destruct (sib_dropU base0 U fuel (take_sib l o (sb_g sb) w) l sb g p base (Ren g l :: T ++ R)) as [NP OKK]; auto.
    { left; auto. } { apply EN. }
    cbn zeta in NP, OKK.
    destruct (drop_sib (fun f w => udrop_fut fuel (sb_g sb) f (Some (ctx_at base p)) w) (Some (ctx_at base p)) sb (take_sib l o (sb_g sb) w)) as [w1| | |] eqn:EU; cbn [rbind];
        try (split; [discriminate|discriminate]). 2: congruence.
    destruct (OKK w1 eq_refl) as (IV2 & ED2 & K2).
    destruct (get_l l (u_ls w1)) as [o1|] eqn:GL1.
    2: { unfold rm_dead. rewrite GL1. split; discriminate. }
    destruct (K2 l o1 GL1) as (ot & GT & _ & DT).
    assert (DD : dl_dead (lo_l o1) = dl_dead (lo_l o)).
    { unfold take_sib in GT. simpl in GT. rewrite get_set, Nat.eqb_refl, GL in GT. injection GT as <-. auto. }
    destruct (reap_inv base0 U w1 (Ren g l :: T ++ R) l (sb_g sb) st o1) as (w2 & E3 & IV3 & ED3); auto.
    + rewrite S3. auto.
    + rewrite DD. auto.
    + intros y Y S. unfold all in Y. apply in_app_iff in Y as [Y|Y].
      * assert (HR := C1 y _ Y S). apply (held_twice [Busy l (sb_g sb) (sb_ref sb)] (Ren g l :: T ++ R) (u_ls w1) (sb_g sb)); auto.
        -- apply IV2.
        -- right. exists l, (sb_ref sb). left; auto.
      * apply (held_stored _ _ (sb_g sb) y (proj1 IV2)); auto; [|apply shows_or; auto].
        right. exists l, (sb_ref sb). left; auto.
    + rewrite E3. split; [discriminate|]. intros w' Q. injection Q as <-. split; auto. congruence.
Qed.

Lemma list_poll fuel g p base R l h : env R base g p h -> forall acts, Forall (on_lact (pollspec fuel)) acts ->
  forall w, INV w (Ren g l :: rsv (flat_map lact_made acts) ++ R) -> news (flat_map lact_made acts) -> u_drop w = None ->
  list_go fuel l (ctx_at base p) acts w <> Panic /\
  forall w', list_go fuel l (ctx_at base p) acts w = Ok w' -> INV w' (Ren g l :: R) /\ u_drop w' = None.
Proof.
  intros EN. induction acts as [|a t IH]; intros FA w IV NW ED.
  - simpl. split; [discriminate|]. intros w' Q. injection Q as <-. auto.
  - inversion FA as [|? ? PS FT]; subst. cbn [flat_map] in IV, NW. rewrite rsv_app, <- app_assoc in IV.
    apply news_app in NW as [NW1 NW2]. cbn [list_go].
    destruct (step_poll fuel g p base R l h EN a PS w _ IV (inert_rsv _) NW1 ED) as [NP OKK].
    destruct (list_step fuel l (ctx_at base p) a w) as [w1| | |] eqn:EU; cbn [rbind];
        try (split; [discriminate|discriminate]). 2: congruence.
    destruct (OKK w1 eq_refl) as (IV1 & ED1). apply IH; auto.
Qed.

(** *** the whole poll *)
Lemma upoll_ok fuel : forall s, pollspec fuel s.
Proof.
  induction s as [|s IH|l IH|l IH|l IH|s IH] using sched_ind'; intros h f g p base R w IV NW OK EN ED.
  - apply (poll_id w g p f []); auto.
  - destruct f as [|n g' a m ch|a cs|cur|l r|l a f']; try (apply (poll_id w g p _ (umade (KElem s))); assumption).
    change (umade (KElem s)) with (umade s) in *. cbn [upoll].
    destruct OK as (OK1 & OK2 & OKC). assert (EN' := EN). destruct EN' as [cb io cl cn br hh].
    assert (HG := cbase_held _ _ _ cb).
    (* the element is shown *)
    assert (ADD : uadd_self n m (Some (ctx_at base p)) w <> Panic /\ forall m' w1, uadd_self n m (Some (ctx_at base p)) w = Ok (m', w1) ->
       m' = Added /\ INV w1 (Ent g p n :: Con n g' :: facts g' [] ch ++ rsv (umade s) ++ R) /\ u_drop w1 = None).
    { unfold uadd_self. destruct m; [congruence| |].
      - destruct (lost_ref (ctx_at base p) pos_default w) eqn:LR; [split; discriminate|].
        assert (IF : inert (facts g' [] ch ++ rsv (umade s))).
        { apply inert_app; [|apply inert_rsv]. rewrite facts_new by auto. apply inert_frees. }
        destruct (add_elem base0 U w n g' ((facts g' [] ch ++ rsv (umade s)) ++ R) base g p) as (r' & E & IV'); auto.
        + eapply inv_perm; [|exact IV]. cbn [facts app]. pperm.
        + eapply cbase_mono; [|exact cb]. apply incl_appr, incl_refl.
        + intros q x Q. apply in_app_iff in Q as [Q|Q]; [destruct (IF _ Q)|]. intros ->.
          apply (proj1 (cn _ _ Q)). apply under_refl.
        + rewrite E. simpl. split; [discriminate|]. intros m' w1 Q. injection Q as <- <-. split; auto. split; auto.
          eapply inv_perm; [|exact IV']. pperm.
      - split; [discriminate|]. intros m1 w1 Q. injection Q as <- <-. split; [auto|]. split; [exact IV|exact ED]. }
    destruct ADD as [NP ADD]. destruct (uadd_self n m (Some (ctx_at base p)) w) as [[m' w1]| | |] eqn:EA; cbn [rbind];
        try (split; [discriminate|discriminate]). 2: congruence.
    destruct (ADD m' w1 eq_refl) as (-> & IV1 & ED1). clear ADD NP.
    set (R' := Ent g p n :: Con n g' :: R).
    assert (NG : ~ held (Ent g p n :: R) g').
    { intro Q. apply (held_twice (Con n g' :: facts g' [] ch ++ rsv (umade s)) (Ent g p n :: R) (u_ls w1) g'); auto.
      - refine (own_perm _ _ _ _ (proj1 IV1)). pperm.
      - left. exists n. left; auto. }
    assert (IR : incl R R') by (intros x Q; right; right; auto).
    assert (E2 : env R' (CContainer g' n) g' [] h).
    { constructor.
      - constructor. right. left; auto.
      - constructor.
      - apply closed_cons; [apply closed_cons; auto; intros g0 []|]. intros g0 S. simpl in S. subst g0. apply (held_mono R); auto.
      - intros q x Q. exfalso. apply NG. destruct Q as [Q|[Q|Q]].
        + injection Q as -> _ _. apply held_cons. auto.
        + discriminate.
        + apply held_cons. right. apply (cl _ _ Q eq_refl).
      - apply (BR_over [Ent g p n; Con n g']); auto. intros k g0 e [Q|[Q|[]]]; discriminate.
      - apply (held_mono R); auto. }
    destruct (IH h ch g' [] (CContainer g' n) R' w1) as [NP OKK]; auto.
    { eapply inv_perm; [|exact IV1]. unfold R'. pperm. }
    cbn [ctx_at fold_left] in NP, OKK.
    destruct (upoll fuel s h ch (Some (CContainer g' n)) w1) as [[ch' w2]| | |] eqn:EU; cbn [rbind];
        try (split; [discriminate|discriminate]). 2: congruence.
    destruct (OKK ch' w2 eq_refl) as (IV2 & OK3 & ED2). split; [discriminate|]. intros f' w' Q. injection Q as <- <-.
    split; [|split; auto].
    + eapply inv_perm; [|exact IV2]. unfold R'. cbn [facts app]. pperm.
    + split; [discriminate|]. split; [discriminate|auto].
  - destruct f as [|n g' a m ch|a cs|cur|l' r|l' a f']; try (apply (poll_id w g p _ (umade (KComb l))); assumption).
    rewrite upoll_comb. rewrite made_comb in *. destruct OK as [LN OK]. rewrite facts_comb in IV.
    destruct (comb_poll fuel h g p base R l IH cs w) as [NP OKK]; auto; [apply okf_in; auto|].
    destruct (comb_go fuel h (Some (ctx_at base p)) l cs w) as [[cs' w2]| | |] eqn:EU; cbn [rbind];
        try (split; [discriminate|discriminate]). 2: congruence.
    destruct (OKK cs' w2 eq_refl) as (IV2 & OK3 & L3 & ED2). split; [discriminate|]. intros f' w' Q. injection Q as <- <-.
    rewrite facts_comb. split; auto. split; auto. split; [rewrite L3; auto|]. apply okf_all; auto.
  - destruct f as [|n g' a m ch|a cs|cur|l' r|l' a f']; try (apply (poll_id w g p _ (umade (KBlock l))); assumption).
    rewrite upoll_block. rewrite made_block in *. cbn [facts okf] in IV, OK.
    destruct (block_poll fuel h g p base R l IH cur w) as [NP OKK]; auto.
    destruct (block_go fuel h (Some (ctx_at base p)) l cur w) as [[cur' w2]| | |] eqn:EU; cbn [rbind];
        try (split; [discriminate|discriminate]). 2: congruence.
    destruct (OKK cur' w2 eq_refl) as (IV2 & OK3 & ED2). split; [discriminate|]. intros f' w' Q. injection Q as <- <-. auto.
  - destruct f as [|n g' a m ch|a cs|cur|l' r|l' a f']; try (apply (poll_id w g p _ (umade (KList l))); assumption).
    rewrite upoll_list. rewrite made_list in *. set (T := rsv (flat_map lact_made l)) in *.
    assert (ENT : env (T ++ R) base g p h) by (apply env_inert; auto; apply inert_rsv).
    assert (RN : (if r then Ok w else list_render l' (ctx_at base p) w) <> Panic /\
        forall w1, (if r then Ok w else list_render l' (ctx_at base p) w) = Ok w1 -> INV w1 (Ren g l' :: T ++ R) /\ u_drop w1 = None).
    { destruct r; [split; [discriminate|]; intros w1 Q; injection Q as <-; auto|].
      destruct (get_l l' (u_ls w)) as [o|] eqn:GL; [|unfold list_render; rewrite GL; split; discriminate].
      destruct (dl_cont (lo_l o)) as [q|q] eqn:EC; [unfold list_render; rewrite GL, EC; split; discriminate|].
      destruct (lost_ref (ctx_at base p) pos_default w) eqn:LR; [unfold list_render; rewrite GL, EC, LR; split; discriminate|].
      destruct (render_inv base0 U w (T ++ R) base g p l' o q) as (w1 & E1 & IV1 & ED1); auto; try apply ENT.
      rewrite E1. split; [discriminate|]. intros w2 Q. injection Q as <-. split; auto. congruence. }
    destruct RN as [NP RN]. destruct (if r then Ok w else list_render l' (ctx_at base p) w) as [w1| | |]; cbn [rbind];
        try (split; [discriminate|discriminate]). 2: congruence.
    destruct (RN w1 eq_refl) as [IV1 ED1].
    destruct (list_poll fuel g p base R l' h EN l IH w1) as [NP2 OKK]; auto.
    destruct (list_go fuel l' (ctx_at base p) l w1) as [w2| | |] eqn:EU; cbn [rbind];
        try (split; [discriminate|discriminate]). 2: congruence.
    destruct (OKK w2 eq_refl) as (IV2 & ED2). split; [discriminate|]. intros f' w' Q. injection Q as <- <-. split; [auto|]. split; [exact I|auto].
  - destruct f as [|n g' a m ch|a cs|cur|l' r|l' a f']; try (apply (poll_id w g p _ (umade (KOwn s))); assumption).
    change (umade (KOwn s)) with (umade s) in *. cbn [upoll]. cbn [facts okf] in IV, OK.
    assert (IR : incl R (Own l' :: R)) by (intros x Q; right; auto).
    destruct (IH h f' g p base (Own l' :: R) w) as [NP OKK]; auto.
    { eapply inv_perm; [|exact IV]. pperm. }
    { destruct EN as [cb io cl cn br hh]. constructor; auto.
      - eapply cbase_mono; eauto.
      - apply closed_cons; auto. intros g0 [].
      - intros q x [Q|Q]; [discriminate|apply (cn q x Q)].
      - apply (BR_over [Own l']); auto. intros k g0 e [Q|[]]; discriminate.
      - eapply held_mono; eauto. }
    destruct (upoll fuel s h f' (Some (ctx_at base p)) w) as [[f'' w2]| | |] eqn:EU; cbn [rbind];
        try (split; [discriminate|discriminate]). 2: congruence.
    destruct (OKK f'' w2 eq_refl) as (IV2 & OK3 & ED2). split; [discriminate|]. intros f2 w' Q. injection Q as <- <-. split; auto.
    eapply inv_perm; [|exact IV2]. cbn [facts]. pperm.
Qed.
End Poll.
