(** Proofs for C88. *)
From Coq Require Import List Arith Bool Lia.
From Verif Require Import Crud Spec_crud.
Import ListNotations.

Section Proofs.
Variable T : Type.
Variable blank : T.
Variable fmt : T -> T -> T.
Variable starts : T -> T -> bool.
Notation crud := (crud T).
Notation book := (book T).
Notation exec := (exec T fmt starts).
Notation execs := (execs T fmt starts).
Notation acted := (acted T fmt).
Notation opt := (opt T).

Definition key (o : opt) : nat * T := (o_id T o, o_text T o).
Record Inv (s : crud) (b : book) : Prop := {
  v_persons : persons T s = people T b;
  v_options : map key (options T s) = people T b;
  v_sel : selected T s = match picked T b with Some i => [i] | None => [] end;
  v_in : forall i, picked T b = Some i -> In i (map fst (people T b));
  v_nodup : NoDup (map fst (people T b));
  v_le : forall i, In i (map fst (people T b)) -> i <= made T b;
  v_made : counter T s = made T b;
  v_name : f_name T s = name T b;
  v_surname : f_surname T s = surname T b;
  v_btn : upd_disabled T s = del_disabled T s;
  v_on : picked T b <> None -> upd_disabled T s = false }.
Lemma inv_start : Inv (start T blank) (empty T blank).
Proof. constructor; cbn; auto; try discriminate; try contradiction. constructor. Qed.

Lemma find_keys (P : nat -> bool) l : option_map (o_id T) (find (fun o => P (o_id T o)) l) = option_map fst (find (fun p => P (fst p)) (map key l)).
Proof. induction l as [|o l IH]; [reflexivity|]. cbn. destruct (P (o_id T o)); [reflexivity|exact IH]. Qed.
Lemma value_picked s b : Inv s b -> select_value T s = picked T b.
Proof.
  intros []. unfold select_value. rewrite (find_keys (fun i => existsb (Nat.eqb i) (selected T s))), v_options0, v_sel0. destruct (picked T b) as [i|] eqn:P.
  - specialize (v_in0 i eq_refl). clear -v_in0. induction (people T b) as [|p l IH]; [contradiction|]. cbn [find existsb]. destruct (Nat.eqb_spec (fst p) i) as [E|N]; [cbn; f_equal; exact E|]. cbn [orb]. apply IH. destruct v_in0; [contradiction|assumption].
  - clear. induction (people T b) as [|p l IH]; [reflexivity|]. cbn. exact IH.
Qed.
Lemma filter_map {A B} (f : A -> B) p l : filter p (map f l) = map f (filter (fun x => p (f x)) l).
Proof. induction l as [|x l IH]; [reflexivity|]. cbn. destruct (p (f x)); cbn; rewrite IH; reflexivity. Qed.
Lemma nodup_filter (P : nat * T -> bool) l : NoDup (map fst l) -> NoDup (map fst (filter P l)).
Proof.
  induction l as [|i l IH]; cbn; intro H; [constructor|]. inversion H; subst. destruct (P i); [|auto]. cbn. constructor; auto. intro IN. apply H2. apply in_map_iff in IN. destruct IN as (j & E & IN). apply filter_In in IN. rewrite <- E. apply in_map. tauto.
Qed.
Lemma hide_keys t ps : forall l, map key (hide T starts t ps l) = map key l.
Proof.
  induction ps as [|p ps IH]; intro l; [reflexivity|]. unfold hide in *. cbn [fold_left]. rewrite IH, map_map. apply map_ext. intro o. destruct (Nat.eqb _ _); reflexivity.
Qed.
Lemma first_in ids l i : first T ids l = Some i -> In i (map fst l).
Proof. unfold first. destruct (find _ l) as [p|] eqn:F; [|discriminate]. cbn. intros [= <-]. apply find_some in F. apply in_map. tauto. Qed.
Lemma first_value ids l : option_map fst (find (fun p => existsb (Nat.eqb (fst p)) ids) l) = first T ids l.
Proof.
  unfold first. induction l as [|p l IH]; [reflexivity|]. cbn. destruct (in_dec Nat.eq_dec (fst p) ids) as [I|N].
  - replace (existsb (Nat.eqb (fst p)) ids) with true; [reflexivity|]. symmetry. apply existsb_exists. exists (fst p). split; [exact I|apply Nat.eqb_refl].
  - replace (existsb (Nat.eqb (fst p)) ids) with false; [exact IH|]. symmetry. destruct (existsb (Nat.eqb (fst p)) ids) eqn:E; auto. apply existsb_exists in E. destruct E as (x & X & Q). apply Nat.eqb_eq in Q. subst x. contradiction.
Qed.
Lemma exec_inv s b e : Inv s b -> ((e = Update T \/ e = Delete T) -> picked T b <> None) -> exists s', exec s e = Some s' /\ Inv s' (acted b e).
Proof.
  intros I C. pose proof (value_picked s b I) as VP. destruct e as [t|t|t|ids| | |]; cbn [Crud.exec Spec_crud.acted].
  - eexists. split; [reflexivity|]. destruct I. constructor; cbn; auto.
  - eexists. split; [reflexivity|]. destruct I. constructor; cbn; auto.
  - eexists. split; [reflexivity|]. destruct I. constructor; cbn; auto. rewrite hide_keys. auto.
  - eexists. split; [reflexivity|]. destruct I. unfold select_value. cbn [options selected].
    rewrite (find_keys (fun i => existsb (Nat.eqb i) ids)), v_options0, first_value. constructor; cbn; auto.
    + apply first_in.
    + destruct (first T ids (people T b)); [reflexivity|congruence].
  - eexists. split; [reflexivity|]. destruct I. unfold full_name. constructor; cbn; auto; try congruence.
    + rewrite map_app, v_options0. cbn. unfold key. cbn. rewrite v_made0, v_name0, v_surname0. reflexivity.
    + intros i P. rewrite map_app. apply in_or_app. left. auto.
    + rewrite map_app. cbn. rewrite <- (rev_involutive (_ ++ _)). apply NoDup_rev. rewrite rev_app_distr. cbn. constructor; [|apply NoDup_rev; auto]. rewrite <- in_rev. intro IN. specialize (v_le0 _ IN). lia.
    + intros i IN. rewrite map_app in IN. apply in_app_or in IN. destruct IN as [IN|[<-|[]]]; [specialize (v_le0 _ IN); lia|cbn; lia].
  - specialize (C (or_introl eq_refl)). rewrite (v_on _ _ I C), VP. destruct (picked T b) as [i|] eqn:P; [|contradiction].
    assert (H : has T i (persons T s) = true). { rewrite (v_persons _ _ I). pose proof (v_in _ _ I i P) as IN. apply in_map_iff in IN. destruct IN as (p & E & IN). apply existsb_exists. exists p. split; [exact IN|]. apply Nat.eqb_eq. exact E. }
    rewrite H. eexists. split; [reflexivity|]. destruct I. rewrite P in *. unfold full_name.
    assert (ID : map fst (map (fun p => if is_picked T b (fst p) then (fst p, fmt (surname T b) (name T b)) else p) (people T b)) = map fst (people T b)) by (rewrite map_map; apply map_ext; intro p; destruct (is_picked T b (fst p)); reflexivity).
    constructor; cbn; rewrite ?P; auto; try (rewrite ID; auto).
    + rewrite v_persons0, v_name0, v_surname0. unfold put. apply map_ext. intro p. unfold is_picked. rewrite P, Nat.eqb_sym. destruct (Nat.eqb_spec i (fst p)) as [->|]; reflexivity.
    + rewrite <- v_options0. unfold retext. rewrite !map_map. apply map_ext. intro o. unfold is_picked. rewrite P. cbn. rewrite Nat.eqb_sym. destruct (Nat.eqb i (o_id T o)); unfold key; cbn; congruence.
    + rewrite <- v_btn0. symmetry. apply v_on0. discriminate.
  - specialize (C (or_intror eq_refl)). pose proof (v_btn _ _ I) as BT. rewrite (v_on _ _ I C) in BT. rewrite <- BT, VP. destruct (picked T b) as [i|] eqn:P; [|contradiction]. eexists. split; [reflexivity|]. destruct I. rewrite P in *.
    assert (FE : forall p : nat * T, negb (Nat.eqb (fst p) i) = negb (is_picked T b (fst p))) by (intro p; unfold is_picked; rewrite P, Nat.eqb_sym; reflexivity).
    constructor; cbn; auto; try discriminate; try congruence.
    + unfold del. rewrite v_persons0. apply filter_ext. exact FE.
    + rewrite <- v_options0, filter_map. f_equal. apply filter_ext. intro o. exact (FE (key o)).
    + rewrite v_sel0. cbn. rewrite Nat.eqb_refl. reflexivity.
    + apply nodup_filter. auto.
    + intros j IN. apply v_le0. apply in_map_iff in IN. destruct IN as (p & <- & IN). apply filter_In in IN. apply in_map. tauto.
Qed.
Notation careful := (careful T blank fmt).
Lemma execs_inv : forall l, careful l -> exists s, execs (start T blank) l = Some s /\ Inv s (told T blank fmt l).
Proof.
  assert (AP : forall l e s, execs s (l ++ [e]) = match execs s l with Some s' => exec s' e | None => None end).
  { induction l as [|x l IH]; intros e s; cbn; [destruct (exec s e); reflexivity|]. destruct (exec s x); auto. }
  intro l. induction l as [|e l IH] using rev_ind; intro C; [exists (start T blank); split; [reflexivity|apply inv_start]|].
  destruct IH as (s & R & I). { intros a x c E. apply (C a x (c ++ [e])). rewrite E, <- app_assoc. reflexivity. }
  destruct (exec_inv s _ e I) as (s' & X & I'); [apply (C l e []); reflexivity|]. exists s'. rewrite AP, R. split; [exact X|]. unfold told. rewrite fold_left_app. exact I'.
Qed.

(** ** the filter *)
Lemma hide_map t ps : NoDup (map fst ps) -> forall l, hide T starts t ps l =
  map (fun o => match find (fun p => Nat.eqb (fst p) (o_id T o)) ps with Some p => mkO T (o_id T o) (o_text T o) (negb (starts (snd p) t)) | None => o end) l.
Proof.
  induction ps as [|p ps IH]; intros ND l; [cbn; symmetry; apply map_id|]. inversion ND; subst. unfold hide in *. cbn [fold_left]. rewrite IH by assumption. rewrite map_map. apply map_ext. intro o. cbn [find].
  rewrite (Nat.eqb_sym (fst p)). destruct (Nat.eqb_spec (o_id T o) (fst p)) as [E|N]; [|reflexivity]. cbn [o_id o_text].
  destruct (find _ ps) as [q|] eqn:F; [|reflexivity]. exfalso. apply find_some in F. destruct F as [IN Q]. apply Nat.eqb_eq in Q. apply H1. rewrite <- E, <- Q. apply in_map. exact IN.
Qed.
Lemma find_key l o : NoDup (map fst (map key l)) -> In o l -> find (fun p => Nat.eqb (fst p) (o_id T o)) (map key l) = Some (key o).
Proof.
  induction l as [|x l IH]; intros ND IN; [contradiction|]. cbn. inversion ND; subst. destruct IN as [->|IN]; [rewrite Nat.eqb_refl; reflexivity|].
  destruct (Nat.eqb_spec (o_id T x) (o_id T o)) as [E|N]; [|apply IH; auto]. exfalso. apply H1. change (fst (key x)) with (o_id T x). rewrite E. apply (in_map fst _ (key o)). apply in_map. exact IN.
Qed.
End Proofs.
