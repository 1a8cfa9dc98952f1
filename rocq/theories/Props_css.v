(** C46: the css! macro.  [l] is the stylesheet, as tokens; [tok_text l] its text;
    [items l] the same text cut at the class selectors (Spec_css.v). *)
From Coq Require Import List Arith Bool NArith Lia.
From Verif Require Import Css Spec_css Css_proofs.
Import ListNotations.

(** cutting changes nothing *)
Theorem C46_cut : forall l, items_text (items l) = tok_text l.
Proof. exact same_text. Qed.
Print Assumptions C46_cut.

(** If the macro succeeds, its output is the stylesheet with "-" and the postfix after each
    class and nothing else changed; there is exactly one constant per class name, its
    identifier is the name with underscores for dashes and its value is the class as it
    appears in the output.  (It fails, which is a compilation error, on a class written with
    escapes or with a comment after the dot.) *)
Theorem C46_output :
  forall ident_new hash l out consts, ident_new_ok ident_new -> generate ident_new hash l = Some (out, consts) ->
  let pf := postfix hash (tok_text l) in
  out = renamed pf (items l) /\ Forall plain (items l) /\
  NoDup (map snd consts) /\
  (forall x v, In (x, v) consts <-> exists c, In c (class_names (items l)) /\ x = dash c /\ v = c ++ 45%N :: pf).
Proof.
  intros f hash l out consts F E pf. pose proof (generate_plain f hash l out consts F E) as P. pose proof (generate_names f hash l out consts E P) as A.
  pose proof (generate_ok f hash l P A) as G. cbv zeta in G. fold pf in G. rewrite E in G. injection G as -> ->.
  destruct (add_names_spec (items l) [] (NoDup_nil _)) as (ND & I1). split; [reflexivity|]. split; [exact P|]. split.
  - rewrite map_map. cbn. clear -ND. induction (add_names [] (items l)) as [|c ns IH]; cbn; [constructor|]. inversion ND as [|? ? NI ND']; subst. constructor; [|auto].
    intro J. apply in_map_iff in J as (c' & E & J). apply app_inv_tail in E. subst c'. contradiction.
  - intros x v. rewrite in_map_iff. split.
    + intros (c & [= <- <-] & J). exists c. apply I1 in J as [[]|J]. auto.
    + intros (c & J & -> & ->). exists c. split; [reflexivity|]. apply I1. auto.
Qed.
Print Assumptions C46_output.

(** It succeeds on every stylesheet whose classes are written plainly and give identifiers. *)
Theorem C46_succeeds :
  forall ident_new hash l, Forall plain (items l) -> (forall c, In c (class_names (items l)) -> ident_new (dash c) = true) ->
  exists r, generate ident_new hash l = Some r.
Proof.
  intros f hash l P A. eexists. apply generate_ok; [exact P|]. apply forallb_forall. intros c J.
  destruct (add_names_spec (items l) [] (NoDup_nil _)) as (_ & I1). apply A. apply I1 in J as [[]|J]. exact J.
Qed.
Print Assumptions C46_succeeds.

(** The postfix is made of eight digits and lower case letters, ... *)
Theorem C46_postfix :
  forall hash t, length (hash t) = 8 ->
  length (postfix hash t) = 8 /\ Forall (fun c => (48 <= c <= 57) \/ (97 <= c <= 118))%N (postfix hash t).
Proof.
  intros hash t L. unfold postfix. split; [rewrite map_length; exact L|]. apply Forall_forall. intros c J. apply in_map_iff in J as (n & <- & _). apply digit32_range.
Qed.
Print Assumptions C46_postfix.
(** ... so classes of two stylesheets with different postfixes are never the same. *)
Theorem C46_scoped :
  forall c1 c2 p1 p2 : text, length p1 = 8 -> length p2 = 8 -> c1 ++ 45%N :: p1 = c2 ++ 45%N :: p2 -> c1 = c2 /\ p1 = p2.
Proof.
  intros c1 c2 p1 p2 L1 L2 E. assert (L : length c1 = length c2). { apply (f_equal (@length N)) in E. rewrite !app_length in E. cbn in E. lia. }
  revert c2 L E. induction c1 as [|x c1 IH]; intros [|y c2] L E; try discriminate; cbn in *.
  - injection E as E. auto.
  - injection E as -> E. injection L as L. destruct (IH c2 L E) as (-> & ->). auto.
Qed.
Print Assumptions C46_scoped.

(** What the page gets is the output, if the stylesheet has no backslash, backtick, dollar
    sign or carriage return. *)
Theorem C46_installed_partial :
  forall ident_new hash l out consts, ident_new_ok ident_new -> (forall t, length (hash t) = 8) ->
  generate ident_new hash l = Some (out, consts) ->
  Forall (fun c => c <> 96 /\ c <> 36 /\ c <> 13 /\ c <> 92)%N (tok_text l) -> template out = Some out.
Proof.
  intros f hash l out consts F HL E C. destruct (C46_output f hash l out consts F E) as (-> & _). apply template_plain. apply Forall_forall. intros c J.
  apply renamed_in in J as [J|[->|J]].
  - rewrite same_text in J. rewrite Forall_forall in C. apply C, J.
  - repeat split; discriminate.
  - destruct (C46_postfix hash (tok_text l) (HL _)) as (_ & P). rewrite Forall_forall in P. specialize (P c J). lia.
Qed.
Print Assumptions C46_installed_partial.

(** Exactly when: no backtick, carriage return or backslash in the stylesheet, and no "${" in
    the output. *)
Theorem C46_installed_iff :
  forall ident_new hash l out consts, ident_new_ok ident_new -> (forall t, length (hash t) = 8) ->
  generate ident_new hash l = Some (out, consts) ->
  (template out = Some out <->
   ~ In 96%N (tok_text l) /\ ~ In 13%N (tok_text l) /\ ~ In 92%N (tok_text l) /\
   ~ exists before after, out = before ++ 36%N :: 123%N :: after).
Proof.
  intros f hash l out consts F HL E. rewrite template_same.
  assert (K : forall c, (c = 96 \/ c = 13 \/ c = 92)%N -> (In c out <-> In c (tok_text l))).
  { intros c Q. destruct (C46_output f hash l out consts F E) as (-> & _). split.
    - intro J. apply renamed_in in J as [J|[->|J]].
      + rewrite <- same_text. exact J.
      + lia.
      + destruct (C46_postfix hash (tok_text l) (HL _)) as (_ & P). rewrite Forall_forall in P. specialize (P c J). lia.
    - rewrite <- same_text. unfold renamed, items_text. rewrite !in_flat_map. intros (i & J & I1). exists i. split; auto.
      destruct i as [t|g u]; auto. rewrite !in_app_iff in *. tauto. }
  rewrite !K by auto. tauto.
Qed.
Print Assumptions C46_installed_iff.

(** Examples.  The stylesheet   @media x{.a-b:not(.c d){.e}}.c/**/.c{}   *)
Definition ok_char (c : N) : bool := ident_char c.
Definition ex_new (t : text) : bool := match t with [] => false | _ => forallb ok_char t end.
Example ex_new_ok : ident_new_ok ex_new.
Proof. intros [|c t] E; [discriminate|]. apply Forall_forall. apply forallb_forall. exact E. Qed.
Definition ex_hash (t : text) : list N := map N.of_nat [length t; 40; 2; 3; 4; 5; 6; 255].
Definition ch (c : N) : piece := PChar c.
Definition ex_sheet : toks :=
  TAt true [64; 109]%N (TSpace [32]%N (TOther [120]%N (TBlock BCurly [123]%N
    (TDot (TIdent (ch 97) [ch 45; ch 98] (TOther [58]%N (TBlock BFun [110; 40]%N (TDot (TIdent (ch 99) [] (TSpace [32]%N (TIdent (ch 100) [] TNil)))) [41]%N
       (TBlock BCurly [123]%N (TDot (TIdent (ch 101) [] TNil)) [125]%N TNil)))))
    [125]%N (TDot (TIdent (ch 99) [] (TComment [42; 42; 47]%N (TDot (TIdent (ch 99) [] (TBlock BCurly [123]%N TNil [125]%N TNil))))))))).
Definition ex_pf := postfix ex_hash (tok_text ex_sheet).
Example ex_runs :
  generate ex_new ex_hash ex_sheet =
  Some ([64; 109; 32; 120; 123; 46; 97; 45; 98]%N ++ 45%N :: ex_pf ++ [58; 110; 40; 46; 99]%N ++ 45%N :: ex_pf ++
        [32; 100; 41; 123; 46; 101; 125; 125; 46; 99]%N ++ 45%N :: ex_pf ++ [47; 42; 42; 47; 46; 99]%N ++ 45%N :: ex_pf ++ [123; 125]%N,
        [([99]%N, [99]%N ++ 45%N :: ex_pf); ([97; 95; 98]%N, [97; 45; 98]%N ++ 45%N :: ex_pf)]).
Proof. vm_compute. reflexivity. Qed.
Example ex_plain : Forall plain (items ex_sheet).
Proof. repeat constructor. Qed.
(** a comment after the dot, or an escape:  ./**/a{}   .a\:b{} *)
Example ex_comment : generate ex_new ex_hash (TDot (TComment [42; 42; 47]%N (TIdent (ch 97) [] (TBlock BCurly [123]%N TNil [125]%N TNil)))) = None.
Proof. vm_compute. reflexivity. Qed.
Example ex_escape : generate ex_new ex_hash (TDot (TIdent (ch 97) [PEsc [58]%N 58%N []; ch 98] (TBlock BCurly [123]%N TNil [125]%N TNil))) = None.
Proof. vm_compute. reflexivity. Qed.
(** The page does not always get the stylesheet that the macro computed:
    in   .a{content:"\f1"}   the escape \f is read by JavaScript. *)
Theorem C46_installed_refuted :
  exists l out consts, generate ex_new ex_hash l = Some (out, consts) /\ out = renamed (postfix ex_hash (tok_text l)) (items l) /\
  exists page, template out = Some page /\ page <> out /\ ~ In 92%N page.
Proof.
  exists (TDot (TIdent (ch 97) [] (TBlock BCurly [123]%N (TOther [34; 92; 102; 49; 34]%N TNil) [125]%N TNil))).
  eexists. eexists. split; [vm_compute; reflexivity|]. split; [vm_compute; reflexivity|]. eexists. split; [vm_compute; reflexivity|]. split; [discriminate|].
  intro J. repeat (destruct J as [J|J]; [discriminate|]). destruct J.
Qed.
Print Assumptions C46_installed_refuted.
