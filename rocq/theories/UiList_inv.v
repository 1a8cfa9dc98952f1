(** The invariant of UI trees with lists. *)
From Coq Require Import List Arith NArith Bool Lia Permutation Sorting.Sorted.
From Verif Require Import Util Position Dom Context Spec_path Spec_list Render_history
  Position_proofs Dom_proofs Context_proofs Render_history_proofs Ui DynList DynList_proofs
  UiList Spec_uilist UiList_core.
Import ListNotations.

(** ** counting *)
Definition occ (x : nat) (l : list nat) : nat := count_occ Nat.eq_dec l x.
Lemma occ_app x a b : occ x (a ++ b) = occ x a + occ x b.
Proof. apply count_occ_app. Qed.
Lemma occ_cons x y l : occ x (y :: l) = (if Nat.eq_dec y x then 1 else 0) + occ x l.
Proof. unfold occ. simpl. destruct (Nat.eq_dec y x); auto. Qed.
Lemma occ_nil x : occ x [] = 0.
Proof. reflexivity. Qed.
Lemma occ_in x l : In x l <-> 1 <= occ x l.
Proof. apply count_occ_In. Qed.
Lemma occ_notin x l : ~ In x l <-> occ x l = 0.
Proof. rewrite occ_in. lia. Qed.
Lemma occ_perm x a b : Permutation a b -> occ x a = occ x b.
Proof. intro P. apply (Permutation_count_occ Nat.eq_dec); auto. Qed.
Lemma occ_nodup l : NoDup l <-> forall x, occ x l <= 1.
Proof. apply NoDup_count_occ. Qed.
Lemma occ_flat_in {A} (f : A -> list nat) l y x : In y l -> In x (f y) -> 1 <= occ x (flat_map f l).
Proof. intros. apply occ_in. apply in_flat_map. eauto. Qed.
Lemma flat_perm {A B} (f : A -> list B) a b : Permutation a b -> Permutation (flat_map f a) (flat_map f b).
Proof.
  induction 1; simpl; auto.
  - apply Permutation_app_head; auto.
  - rewrite !app_assoc. apply Permutation_app_tail. apply Permutation_app_comm.
  - etransitivity; eauto.
Qed.

(** ** facts *)
Inductive fact :=
| Ent (g : gid) (p : path) (n : node)      (* element [n] is shown at path [p] of place [g] *)
| Con (n : node) (g : gid)                 (* the content of element [n] is place [g] *)
| Ren (g : gid) (l : lid)                  (* the list [l] is rendered in place [g] *)
| FN (n : node)                            (* a node not used yet *)
| FG (g : gid)                             (* a group not used yet *)
| FL (l : lid) (fr : node)                 (* a list (and fragment) not created yet *)
| Rt (n : node)                            (* the root element *)
| Busy (l : lid) (g : gid) (e : node)      (* the future of item [g] of [l] is held by somebody *)
| Own (l : lid).                           (* the variable that holds list [l] *)

Definition f_n (x : fact) : list node := match x with Ent _ _ n | Rt n | FN n => [n] | _ => [] end.
Definition f_c (x : fact) : list node := match x with Con n _ | FN n => [n] | _ => [] end.
Definition f_g (x : fact) : list gid := match x with Con _ g | FG g => [g] | _ => [] end.
Definition f_r (x : fact) : list lid := match x with Ren _ l => [l] | _ => [] end.
Definition f_l (x : fact) : list lid := match x with FL l _ => [l] | _ => [] end.
Definition f_fr (x : fact) : list node := match x with FL _ fr => [fr] | _ => [] end.
Definition f_b (x : fact) : list gid := match x with Busy _ g _ => [g] | _ => [] end.

Definition f_o (x : fact) : list lid := match x with FL l _ | Own l => [l] | _ => [] end.

(** facts about a future at path [p] of place [g] *)
Fixpoint facts (g : gid) (p : path) (f : ufut) : list fact :=
  match f with
  | ULeaf => []
  | UElem n g' _ m ch =>
      match m with
      | Added => [Ent g p n; Con n g']
      | ShouldNotAdd => [Rt n; Con n g']
      | ShouldAdd => [FN n; FG g']
      end ++ facts g' [] ch
  | UComb _ cs =>
      (fix go (k : nat) (l : list ufut) : list fact :=
         match l with
         | [] => []
         | f :: t => facts g (p ++ [N.of_nat k]) f ++ go (S k) t
         end) 0 cs
  | UBlock c => facts g p c
  | UOwn l _ c => Own l :: facts g p c
  | UList l r => if r then [Ren g l] else []
  end.
Definition facts_list (g : gid) (p : path) : nat -> list ufut -> list fact :=
  fix go (k : nat) (l : list ufut) : list fact :=
    match l with
    | [] => []
    | f :: t => facts g (p ++ [N.of_nat k]) f ++ go (S k) t
    end.
Lemma facts_comb g p a cs : facts g p (UComb a cs) = facts_list g p 0 cs.
Proof. reflexivity. Qed.

(** futures met during a run *)
Fixpoint okf (f : ufut) : Prop :=
  match f with
  | ULeaf | UList _ _ => True
  | UElem _ _ _ m ch => m <> ShouldNotAdd /\ (m = ShouldAdd -> unew ch) /\ okf ch
  | UComb _ cs => (N.of_nat (length cs) <= 4294967295)%N /\
      (fix all (l : list ufut) : Prop := match l with [] => True | f :: t => okf f /\ all t end) cs
  | UBlock c => okf c
  | UOwn _ _ c => okf c
  end.

Notation store := (list (lid * lobj)) (only parsing).
Definition stall (dl : dlist) : list stored := map snd (dl_items dl) ++ dl_dead dl.
Definition markers (dl : dlist) : list node := flat_map (fun e => [st_s (snd e); st_e (snd e)]) (dl_items dl).
Definition l_n (e : lid * lobj) : list node :=
  dl_start (lo_l (snd e)) :: dl_end (lo_l (snd e)) :: markers (lo_l (snd e)).
Definition l_g (e : lid * lobj) : list gid := map st_g (stall (lo_l (snd e))).
Definition l_fr (e : lid * lobj) : list node := [dl_frag (lo_l (snd e))].
Definition l_b (e : lid * lobj) : list gid := map sb_g (lo_futs (snd e)).
Definition sfacts (s : sib) : list fact := facts (sb_g s) [] (sb_f s).
Definition l_facts (e : lid * lobj) : list fact := flat_map sfacts (lo_futs (snd e)).
Definition stored_facts (ls : store) : list fact := flat_map l_facts ls.
Definition all (H : list fact) (ls : store) : list fact := H ++ stored_facts ls.

Definition item_in (l : lid) (g : gid) (e : node) (ls : store) : Prop :=
  exists o st, In (l, o) ls /\ In st (stall (lo_l o)) /\ st_g st = g /\ st_e st = e.
Definition place (A : list fact) (ls : store) (g : gid) : Prop :=
  (exists n, In (Con n g) A) \/ (exists l e, item_in l g e ls).

(** ** ownership: identities are used once *)
Record OWN (H : list fact) (ls : store) : Prop := {
  ow_n : forall x, occ x (flat_map f_n (all H ls)) + occ x (flat_map l_n ls) <= 1;
  ow_c : forall x, occ x (flat_map f_c (all H ls)) <= 1;
  ow_g : forall x, occ x (flat_map f_g (all H ls)) + occ x (flat_map l_g ls) <= 1;
  ow_r : forall x, occ x (flat_map f_r (all H ls)) <= 1;
  ow_l : forall x, occ x (flat_map f_l (all H ls)) + occ x (map fst ls) <= 1;
  ow_fr : forall x, occ x (flat_map f_fr (all H ls)) + occ x (flat_map l_fr ls) <= 1;
  ow_o : forall x, occ x (flat_map f_o (all H ls)) <= 1;
  ow_b : forall x, occ x (flat_map f_b (all H ls)) + occ x (flat_map l_b ls) <= 1;
  ow_item : forall l o st, In (l, o) ls -> In st (stall (lo_l o)) ->
     (exists sb, In sb (lo_futs o) /\ sb_g sb = st_g st) \/ In (Busy l (st_g st) (st_e st)) H;
  ow_sib : forall l o sb, In (l, o) ls -> In sb (lo_futs o) ->
     (exists st, In st (stall (lo_l o)) /\ st_g st = sb_g sb /\ st_e st = sb_ref sb) /\ okf (sb_f sb);
  ow_busy : forall l g e, In (Busy l g e) (all H ls) -> item_in l g e ls;
  ow_ren : forall g l, In (Ren g l) (all H ls) -> exists o, In (l, o) ls;
  ow_keys : forall l o, In (l, o) ls -> NoDup (lo_keys o) /\ NoDup (map fst (dl_items (lo_l o)))
}.

(** ** shape of the document *)
Section Shape.
Variable base0 : node -> list node.
Variable U : list node.

Definition plc (gr : gid -> group) (A : list fact) (arr : gid -> list (node + lid)) (g : gid) : Prop :=
  flat_map (fun x => match x with inl n => [n] | inr _ => [] end) (arr g) = map snd (gr g) /\
  sorted (gr g) /\
  (forall p n, In (rev p, n) (gr g) <-> In (Ent g p n) A) /\
  (forall l, In (inr l) (arr g) <-> In (Ren g l) A).

Record SHP (d : dom) (gr : gid -> group) (H : list fact) (ls : store)
  (arr : gid -> list (node + lid)) (cnt : gid -> list node) (blk : lid -> list node)
  (ord : lid -> list seg) : Prop := {
  sh_wf : dom_wf d;
  sh_nofrag : forall q x, In x (kids d q) -> frag d x = false;
  sh_base : forall n x, In x (base0 n) -> In x (flat_map f_n (all H ls) ++ flat_map l_n ls) -> In (Rt x) (all H ls);
  sh_U : forall q, ~ In q U -> kids d q = base0 q;
  sh_inU : forall q, In q (flat_map f_c (all H ls) ++ flat_map f_fr (all H ls) ++ flat_map l_fr ls) -> In q U;
  sh_frag : forall q, In q (flat_map f_fr (all H ls) ++ flat_map l_fr ls) -> frag d q = true;
  sh_FN : forall n, In (FN n) (all H ls) -> par d n = None /\ frag d n = false /\ kids d n = base0 n;
  sh_FG : forall g, In (FG g) (all H ls) -> gr g = [];
  sh_FL : forall l fr, In (FL l fr) (all H ls) -> kids d fr = [];
  sh_Con : forall n g, In (Con n g) (all H ls) -> kids d n = base0 n ++ cnt g /\ frag d n = false;
  sh_Ren : forall g l, In (Ren g l) (all H ls) -> place (all H ls) ls g;
  sh_Ent : forall g p n, In (Ent g p n) (all H ls) -> place (all H ls) ls g;
  sh_place : forall g, place (all H ls) ls g -> plc gr (all H ls) arr g /\ cnt g = flatn blk (arr g);
  sh_list : forall l o, In (l, o) ls ->
     blk l = whole cnt (dl_start (lo_l o)) (dl_end (lo_l o)) (ord l) /\
     Permutation (dl_items (lo_l o)) (items_of (ord l)) /\
     Permutation (dl_dead (lo_l o)) (dead_of (ord l)) /\
     keys_of (ord l) = lo_keys o;
  sh_cont : forall l o, In (l, o) ls ->
     match dl_cont (lo_l o) with
     | Fake f => f = dl_frag (lo_l o) /\ kids d f = blk l /\ forall g, ~ In (Ren g l) (all H ls)
     | Real c => kids d (dl_frag (lo_l o)) = [] /\
         exists g, In (Ren g l) (all H ls) /\ forall n, In (Con n g) (all H ls) -> n = c
     end
}.

Definition INV (w : uworld) (H : list fact) : Prop :=
  OWN H (u_ls w) /\
  exists arr cnt blk ord, SHP (rdom (u_r w)) (rgrp (u_r w)) H (u_ls w) arr cnt blk ord.
End Shape.

(** ** the table of lists *)
Lemma get_in l o ls : get_l l ls = Some o -> In (l, o) ls.
Proof.
  induction ls as [|[l' o'] t IH]; simpl; [discriminate|].
  destruct (Nat.eqb_spec l' l); intro H; [inversion H; subst; auto|auto].
Qed.
Lemma get_split l o ls : get_l l ls = Some o -> NoDup (map fst ls) ->
  exists u v, ls = u ++ (l, o) :: v /\ ~ In l (map fst u) /\ ~ In l (map fst v).
Proof.
  intros G ND. apply get_in in G. apply in_split in G as (u & v & ->). exists u, v. split; auto.
  rewrite map_app in ND. simpl in ND. apply NoDup_remove_2 in ND. rewrite in_app_iff in ND. tauto.
Qed.
Lemma get_some l o ls : NoDup (map fst ls) -> In (l, o) ls -> get_l l ls = Some o.
Proof.
  induction ls as [|[l' o'] t IH]; simpl; intros ND IN; [contradiction|]. destruct IN as [H|H]; inversion ND; subst.
  - inversion H; subst. rewrite Nat.eqb_refl; auto.
  - destruct (Nat.eqb_spec l' l) as [->|N]; auto.
    exfalso. apply H2. apply in_map_iff. exists (l, o); auto.
Qed.
Lemma set_split l o u v o1 : ~ In l (map fst u) -> ~ In l (map fst v) ->
  set_l l o (u ++ (l, o1) :: v) = u ++ (l, o) :: v.
Proof.
  intros N1 N2. unfold set_l. rewrite map_app. simpl. rewrite Nat.eqb_refl. f_equal; [|f_equal].
  - induction u as [|[a b] u IH]; simpl in *; auto. destruct (Nat.eqb_spec a l); [subst; exfalso; auto|].
    f_equal; auto.
  - induction v as [|[a b] v IH]; simpl in *; auto. destruct (Nat.eqb_spec a l); [subst; exfalso; auto|].
    f_equal; auto.
Qed.
Lemma del_split l u v o1 : ~ In l (map fst u) -> ~ In l (map fst v) ->
  del_l l (u ++ (l, o1) :: v) = u ++ v.
Proof.
  intros N1 N2. unfold del_l. rewrite filter_app. simpl. rewrite Nat.eqb_refl. simpl. f_equal.
  - induction u as [|[a b] u IH]; simpl in *; auto. destruct (Nat.eqb_spec a l); [subst; exfalso; auto|].
    simpl. f_equal; auto.
  - induction v as [|[a b] v IH]; simpl in *; auto. destruct (Nat.eqb_spec a l); [subst; exfalso; auto|].
    simpl. f_equal; auto.
Qed.
Lemma ow_nodup H ls : OWN H ls -> NoDup (map fst ls).
Proof. intro O. apply occ_nodup. intro x. pose proof (ow_l _ _ O x). lia. Qed.
Lemma ow_uniq H ls l o o' : OWN H ls -> In (l, o) ls -> In (l, o') ls -> o = o'.
Proof.
  intros O I1 I2. apply (get_some _ _ _ (ow_nodup _ _ O)) in I1.
  apply (get_some _ _ _ (ow_nodup _ _ O)) in I2. congruence.
Qed.

(** ** the invariant only depends on which facts there are *)
Lemma all_perm H H' ls : Permutation H H' -> Permutation (all H ls) (all H' ls).
Proof. intro P. unfold all. apply Permutation_app_tail; auto. Qed.
Lemma own_perm H H' ls : Permutation H H' -> OWN H ls -> OWN H' ls.
Proof.
  intros P O. assert (PA := all_perm _ _ ls P). assert (PS := Permutation_sym PA).
  destruct O. constructor; auto;
    try (intro x; rewrite <- (occ_perm x _ _ (flat_perm _ _ _ PA)); auto).
  - intros l o st I1 I2. destruct (ow_item0 _ _ _ I1 I2) as [X|X]; auto. right. eapply Permutation_in; eauto.
  - intros l g e X. apply ow_busy0. eapply Permutation_in; eauto.
  - intros g l X. apply (ow_ren0 g). eapply Permutation_in; eauto.
Qed.
Lemma place_perm A A' ls g : (forall x, In x A <-> In x A') -> place A ls g -> place A' ls g.
Proof. intros P [[n I1]|I1]; [left; exists n; apply P; auto|right; auto]. Qed.
Lemma shp_perm base U d gr H H' ls arr cnt blk ord : Permutation H H' ->
  SHP base U d gr H ls arr cnt blk ord -> SHP base U d gr H' ls arr cnt blk ord.
Proof.
  intros P S. assert (PA := all_perm _ _ ls P). assert (PS := Permutation_sym PA).
  assert (IFF : forall x, In x (all H ls) <-> In x (all H' ls)).
  { intro x. split; apply Permutation_in; auto. }
  assert (IF2 : forall f x, In x (flat_map f (all H ls)) <-> In x (@flat_map _ nat f (all H' ls))).
  { intros f x. split; apply Permutation_in; apply flat_perm; auto. }
  destruct S. constructor; auto; intros; try rewrite <- IFF in *; eauto.
  - rewrite in_app_iff, <- IF2, <- in_app_iff in H1. eauto.
  - apply sh_inU0. rewrite !in_app_iff in *. rewrite !IF2. auto.
  - apply sh_frag0. rewrite !in_app_iff in *. rewrite !IF2. auto.
  - eapply place_perm; [apply IFF|]. eauto.
  - eapply place_perm; [apply IFF|]. eauto.
  - destruct (sh_place0 g) as [(Q1 & Q2 & Q3 & Q4) Q5].
    + eapply place_perm; [symmetry; apply IFF|]. eauto.
    + split; auto. split; auto. split; auto. split; intros; rewrite <- IFF; auto.
  - specialize (sh_cont0 l o H0). destruct (dl_cont (lo_l o)).
    + destruct sh_cont0 as (Q1 & g & Q2 & Q3). split; auto. exists g. split; [apply IFF; auto|]. intros m Q. apply Q3, IFF; auto.
    + destruct sh_cont0 as (Q1 & Q2 & Q3). repeat split; auto. intros g Q. apply (Q3 g). apply IFF; auto.
Qed.
Lemma inv_perm base U w H H' : Permutation H H' -> INV base U w H -> INV base U w H'.
Proof.
  intros P (O & arr & cnt & blk & ord & S). split; [eapply own_perm; eauto|].
  exists arr, cnt, blk, ord. eapply shp_perm; eauto.
Qed.
