(** Property C82: a list that is updated from a ReactiveCell, as in
    [cell.for_each(|v| list.update(keys(v))).await] or a DiffedList in any other view made with
    [for_each], shows the keys of the value in the cell when the page is at rest. *)
From Coq Require Import List Arith Bool Lia Permutation.
From Verif Require Import Util Arena Spec_arena Readiness Combinator Tree Spec_tree Tree_proofs Props_tree Executor Spec_executor
  Queue Spec_queue App Page Page_proofs Props_page Cell Spec_cell Spec_view View_proofs Props_view Spec_list DynList List_lemmas DynList_proofs Calls Diffed Diffed_proofs Props_lists.
Import ListNotations.

(** [us] are the calls of [update] made by the function given to for_each, which was called with the
    values [vs], oldest first: the new keys, and the order in which the hash set gives them *)
Definition updates_for {T} (keys : T -> list key) (vs : list T) (us : list (list key * (list key -> list key))) : Prop :=
  map fst us = map keys vs /\ forall new drain, In (new, drain) us -> forall set, Permutation (drain set) set.

(** C82: at rest, whatever has been done to the cell, the list has exactly the keys of the value in it. *)
Theorem C82_keys :
  forall T V X ww debug bound code on_drop x evs s ww' fuel (v0 : T) (cw : X -> fworld T) on ftr j t p f (keys : T -> list key) us,
  will_wake_ok ww -> will_wake_ok ww' -> 1 <= fuel -> page_code_ok code ->
  for_each_view ww' fuel v0 cw on j t p code on_drop evs ->
  fhist T ww' fuel v0 ftr (cw x) -> ~ fpolled T j ftr ->
  prun V X ww debug bound code on_drop x evs = Live s -> at_rest ww debug bound code on_drop x evs s ->
  Spec_queue.alive t (q_tr _ (xs _ s)) = true -> Spec_tree.live (app_tr s t) p -> at_leaf p (app_tr s t) = true ->
  on (pg_x V X (q_x _ (xs _ s))) = true ->
  let w := cw (pg_x V X (q_x _ (xs _ s))) in
  guarded T (fw_tr T w) = false -> In (j, f) (fw_fes T w) ->
  updates_for keys (rev (fe_calls T f)) us ->
  exists l, diff_run diff_new us = Some l /\ NoDup (df_keys l) /\
    forall k, In k (df_keys l) <-> In k (keys (c_data T (cw_cell T (fw_w T w)))).
Proof.
  intros T V X ww debug bound code on_drop x evs s ww' fuel v0 cw on ftr j t p f keys us WW WW' FU CO FV H NP R AR A L AL ON w G IN (U & D).
  destruct (C67_for_each T V X ww debug bound code on_drop x evs s ww' fuel v0 cw on ftr j t p f WW WW' FU CO FV H NP R AR A L AL ON G IN) as (rest & C). fold w in C.
  destruct (C33_diffed_set us D) as (l & E & N & K). exists l. split; [exact E|]. split; [exact N|]. intro k. rewrite <- DynList_proofs.memb_iff. change (memb k (df_keys l)) with (diff_contains l k). rewrite K, U, C. cbn [rev]. rewrite map_app. cbn [map]. rewrite last_last. reflexivity.
Qed.
Print Assumptions C82_keys.

(** C82: and in their order, if no update changed the order of keys that stay (C34). *)
Theorem C82_order :
  forall T V X ww debug bound code on_drop x evs s ww' fuel (v0 : T) (cw : X -> fworld T) on ftr j t p f (keys : T -> list key) us,
  will_wake_ok ww -> will_wake_ok ww' -> 1 <= fuel -> page_code_ok code ->
  for_each_view ww' fuel v0 cw on j t p code on_drop evs ->
  fhist T ww' fuel v0 ftr (cw x) -> ~ fpolled T j ftr ->
  prun V X ww debug bound code on_drop x evs = Live s -> at_rest ww debug bound code on_drop x evs s ->
  Spec_queue.alive t (q_tr _ (xs _ s)) = true -> Spec_tree.live (app_tr s t) p -> at_leaf p (app_tr s t) = true ->
  on (pg_x V X (q_x _ (xs _ s))) = true ->
  let w := cw (pg_x V X (q_x _ (xs _ s))) in
  guarded T (fw_tr T w) = false -> In (j, f) (fw_fes T w) ->
  updates_for keys (rev (fe_calls T f)) us -> order_kept [] us ->
  exists l, diff_run diff_new us = Some l /\ df_keys l = keys (c_data T (cw_cell T (fw_w T w))).
Proof.
  intros T V X ww debug bound code on_drop x evs s ww' fuel v0 cw on ftr j t p f keys us WW WW' FU CO FV H NP R AR A L AL ON w G IN (U & D) OK.
  destruct (C67_for_each T V X ww debug bound code on_drop x evs s ww' fuel v0 cw on ftr j t p f WW WW' FU CO FV H NP R AR A L AL ON G IN) as (rest & C). fold w in C.
  destruct (C34_diffed_order_partial us OK) as (l & E & K). exists l. split; [exact E|]. rewrite K, U, C. cbn [rev]. rewrite map_app. cbn [map]. rewrite last_last. reflexivity.
Qed.
Print Assumptions C82_order.

(** Non-vacuity: the page of exv_view in Props_view.v; for_each's function updates the list with the
    keys n, 10 and n + 20 of the number n in the cell.  At rest at the end, it was called with 1, 5, 6. *)
Definition exf_keys (n : nat) : list key := [n; 10; n + 20].
Definition exf_us : list (list key * (list key -> list key)) := [([1; 10; 21], @rev key); ([5; 10; 25], fun l => l); ([6; 10; 26], @rev key)].
Example exf_updates : updates_for exf_keys (rev [6; 5; 1]) exf_us /\ order_kept [] exf_us.
Proof.
  assert (P : forall l : list key, Permutation (rev l) l) by (intro; symmetry; apply Permutation_rev).
  split; [split; [reflexivity|]|].
  - intros new drain [Q|[Q|[Q|[]]]] set; injection Q as <- <-; auto.
  - repeat split; auto; repeat constructor; cbn; intuition discriminate.
Qed.
Example exf_shown :
  match exv_run exv_evs with
  | Live s => at_rest ex_ww true 40 exv_code exv_drop exv_x0 exv_evs s /\ Spec_queue.alive 0 (q_tr _ (xs _ s)) = true /\
      Spec_tree.live (app_tr s 0) (Kid 0 0) /\ at_leaf (Kid 0 0) (app_tr s 0) = true /\
      let w := pg_x _ _ (q_x _ (xs _ s)) in
      guarded nat (fw_tr nat w) = false /\ (exists f, In (0, f) (fw_fes nat w) /\ fe_calls nat f = [6; 5; 1]) /\
      option_map df_keys (diff_run diff_new exf_us) = Some (exf_keys (c_data nat (cw_cell nat (fw_w nat w))))
  | _ => False end.
Proof.
  pose proof exv_rest as AR. destruct exv_shown as (_ & _ & H & L). destruct (exv_run exv_evs) as [s|s|]; try contradiction. cbn [exv_see] in H. injection H as H1 _ H3 H4 H5.
  split; [exact AR|]. split; [exact H1|]. destruct L as (L1 & L2). split; [exact L1|]. split; [exact L2|]. cbv zeta. split; [exact H3|]. split; [|rewrite H5; reflexivity].
  destruct (fw_fes nat _) as [|(i, f) [|? ?]]; try discriminate. cbn in H4. injection H4 as -> H4. exists f. split; [left; reflexivity|exact H4].
Qed.
