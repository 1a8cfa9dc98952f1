(** C88: the list of persons in the CRUD example. *)
From Coq Require Import List Arith Bool Lia String Ascii.
From Verif Require Import Crud Spec_crud Crud_proofs.
Import ListNotations.

Section Props.
Variable T : Type.
Variable blank : T.
Variable fmt : T -> T -> T.
Variable starts : T -> T -> bool.
Notation execs := (execs T fmt starts (start T blank)).

(** No panic; the options are the persons the user entered, in order; the one that is picked is selected; and the two buttons can be clicked while one is. *)
Theorem C88_list_partial : forall l, careful T blank fmt l -> exists s, execs l = Some s /\
  map (fun o => (o_id T o, o_text T o)) (options T s) = people T (told T blank fmt l) /\
  (forall i, In i (selected T s) <-> picked T (told T blank fmt l) = Some i) /\
  (selected T s <> [] -> upd_disabled T s = false /\ del_disabled T s = false).
Proof.
  intros l C. destruct (execs_inv T blank fmt starts l C) as (s & R & []). exists s. split; [exact R|]. split; [exact v_options|]. rewrite v_sel. split.
  - intro i. destruct (picked T (told T blank fmt l)) as [j|]; cbn; split; intro H; try discriminate; try contradiction; [destruct H as [->|[]]; reflexivity|left; congruence].
  - intro H. assert (N : picked T (told T blank fmt l) <> None) by (destruct (picked T (told T blank fmt l)); [discriminate|contradiction]). rewrite <- v_btn. split; apply v_on; exact N.
Qed.

(** When the user has typed in the filter field, exactly the persons whose name starts with the text are shown. *)
Theorem C88_filter_partial : forall l t s, careful T blank fmt l -> execs (l ++ [TypeFilter T t]) = Some s ->
  forall o, In o (options T s) -> o_hidden T o = negb (starts (o_text T o) t).
Proof.
  intros l t s C R. destruct (execs_inv T blank fmt starts l C) as (s0 & R0 & I).
  assert (AP : forall l e s, Crud.execs T fmt starts s (l ++ [e]) = match Crud.execs T fmt starts s l with Some s' => exec T fmt starts s' e | None => None end).
  { induction l0 as [|x l0 IH]; intros e s1; cbn; [destruct (exec T fmt starts s1 e); reflexivity|]. destruct (exec T fmt starts s1 x); auto. }
  rewrite AP, R0 in R. cbn in R. injection R as <-. cbn [options]. destruct I. intros o IN.
  rewrite hide_map in IN by (rewrite v_persons; exact v_nodup). apply in_map_iff in IN. destruct IN as (x & E & IN).
  assert (F : find (fun p => Nat.eqb (fst p) (o_id T x)) (persons T s0) = Some (key T x)).
  { rewrite v_persons, <- v_options. apply find_key; [rewrite v_options; exact v_nodup|exact IN]. }
  rewrite F in E. subst o. reflexivity.
Qed.

(** At the start and whenever the user has picked, the buttons can be clicked exactly when a person is selected. *)
Theorem C88_buttons_partial : forall l s, l = [] \/ (exists l' ids, l = l' ++ [Pick T ids]) -> execs l = Some s ->
  (upd_disabled T s = true <-> selected T s = []) /\ (del_disabled T s = true <-> selected T s = []).
Proof.
  intros l s [-> | (l' & ids & ->)] R.
  - cbn in R. injection R as <-. cbn. tauto.
  - assert (AP : forall l e s, Crud.execs T fmt starts s (l ++ [e]) = match Crud.execs T fmt starts s l with Some s' => exec T fmt starts s' e | None => None end).
    { induction l as [|x l IH]; intros e s1; cbn; [destruct (exec T fmt starts s1 e); reflexivity|]. destruct (exec T fmt starts s1 x); auto. }
    rewrite AP in R. destruct (execs l') as [s0|]; [|discriminate]. cbn [exec] in R. injection R as <-. cbn [upd_disabled del_disabled selected].
    destruct (select_value T _); split; split; intro H; try discriminate; reflexivity.
Qed.
End Props.
Print Assumptions C88_list_partial.
Print Assumptions C88_filter_partial.
Print Assumptions C88_buttons_partial.

(** ** Refuted: the buttons stay enabled when the picked person is deleted, and a second click panics. *)
Definition nm (a b : string) : string := (a ++ ", " ++ b)%string.
Definition pre (s p : string) : bool := String.prefix p s.
Notation sexecs := (execs string nm pre (start string EmptyString)).
Theorem C88_delete_twice_refuted :
  sexecs [Create string; Pick string [1]; Delete string; Delete string] = None /\ sexecs [Create string; Pick string [1]; Delete string; Update string] = None.
Proof. split; reflexivity. Qed.
Print Assumptions C88_delete_twice_refuted.
(** ** Refuted: the filter is not applied to a person that is created or updated after it was typed. *)
Theorem C88_filter_stale_refuted : exists l s o, careful string EmptyString nm l /\ sexecs l = Some s /\ In o (options string s) /\ o_hidden string o = false /\ pre (o_text string o) (f_filter string s) = false.
Proof.
  exists [TypeFilter string "B"; Create string]%string. eexists. eexists. split; [|split; [reflexivity|]].
  - intros a e c E. destruct a as [|x a]; [cbn in E; injection E as <- <-; intros [H|H]; discriminate|]. cbn in E. injection E as <- E. destruct a as [|y a]; cbn in E; [injection E as <- <-; intros [H|H]; discriminate|]. injection E as <- E. destruct a; discriminate.
  - split; [left; reflexivity|]. split; reflexivity.
Qed.
Print Assumptions C88_filter_stale_refuted.

(** ** A case: two persons, the second renamed, a third one made and deleted, and the filter *)
Definition day : list (event string) :=
  [TypeName string "Ann"; TypeSurname string "Bell"; Create string; TypeName string "Carl"; Create string; Pick string [2]; TypeSurname string "Dorn"; Update string;
   Create string; Pick string [3; 2]; Pick string [3]; Delete string]%string.
Fixpoint carefulb (b : book string) (l : list (event string)) : bool :=
  match l with
  | [] => true
  | e :: t => match e with Update _ | Delete _ => match picked string b with Some _ => true | None => false end | _ => true end && carefulb (acted string nm b e) t
  end.
Lemma carefulb_ok : forall l b, carefulb b l = true -> forall a e c, l = a ++ e :: c -> e = Update string \/ e = Delete string -> picked string (fold_left (acted string nm) a b) <> None.
Proof.
  induction l as [|x l IH]; intros b H a e c E D; [destruct a; discriminate|]. cbn [carefulb] in H. apply andb_true_iff in H. destruct H as [H1 H2].
  destruct a as [|y a]; cbn in E; injection E as -> E; [|subst; cbn; eapply IH; [exact H2|reflexivity|exact D]]. cbn. destruct D as [-> | ->]; destruct (picked string b); discriminate.
Qed.
Example exr_careful : careful string EmptyString nm day.
Proof. unfold careful, told. apply carefulb_ok. vm_compute. reflexivity. Qed.
Example exr_day : option_map (fun s => (map (fun o => (o_id string o, o_text string o, o_hidden string o)) (options string s), selected string s)) (sexecs (day ++ [TypeFilter string "D"%string])) =
  Some ([(1, "Bell, Ann"%string, true); (2, "Dorn, Carl"%string, false)], []).
Proof. vm_compute. reflexivity. Qed.
