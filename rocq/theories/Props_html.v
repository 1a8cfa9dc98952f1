(** Property C83: the text on the screen is the strings that the program renders, in its order. *)
From Coq Require Import List Arith NArith Bool Lia.
From Verif Require Import Util Position Dom Dom_proofs Context Ui Spec_ui Ui_proofs Props_ui Html Spec_html.
Import ListNotations.

Scheme tc_mut := Minimality for text_content Sort Prop
  with tcs_mut := Minimality for text_contents Sort Prop.
Section Proofs.
Variable A : Type.
Variable data : node -> option (list A).
Lemma contents_app kids l1 ss1 l2 ss2 : text_contents A data kids l1 ss1 -> text_contents A data kids l2 ss2 -> text_contents A data kids (l1 ++ l2) (ss1 ++ ss2).
Proof. intros H H2. induction H; [exact H2|]. constructor; auto. Qed.
Lemma shown_text kids f : (forall n ch, In (n, ch) (containers f) -> kids n = out ch) ->
  exists ss, text_contents A data kids (out f) ss /\ concat ss = reads A data f.
Proof.
  induction f as [|n g a m ch IH|a cs IH|c IH] using fut_ind'; intro K; cbn [out reads].
  - exists []. split; [constructor|reflexivity].
  - destruct m; try (exists []; split; [constructor|reflexivity]). destruct (data n) as [s|] eqn:D.
    + exists [s]. split; [repeat constructor; exact D|]. cbn. apply app_nil_r.
    + destruct IH as (ss & T & E); [intros n' c' H; apply K; cbn; right; exact H|].
      exists [concat ss]. split; [|cbn; rewrite app_nil_r; exact E]. constructor; [|constructor]. apply tc_elem; [exact D|]. rewrite (K n ch) by (cbn; left; reflexivity). exact T.
  - induction IH as [|f cs If Ics IHcs]; cbn [flat_map]; [exists []; split; [constructor|reflexivity]|].
    destruct If as (s1 & T1 & E1); [intros n' c' H; apply K; cbn; apply in_or_app; left; exact H|].
    destruct IHcs as (s2 & T2 & E2); [intros n' c' H; apply K; cbn; apply in_or_app; right; exact H|].
    exists (s1 ++ s2). split; [apply contents_app; auto|]. rewrite concat_app, E1, E2. reflexivity.
  - apply IH. exact K.
Qed.
Lemma containers_nodes f n ch : In (n, ch) (containers f) -> In n (nodes f).
Proof.
  revert n ch. induction f as [|n0 g a m ch0 IH|a cs IH|c IH] using fut_ind'; intros n ch H; cbn in *; try contradiction.
  - apply in_app_iff in H as [H|H]; [|right; eauto]. destruct m; try contradiction; destruct H as [H|[]]; injection H as -> _; left; reflexivity.
  - apply in_flat_map in H as (f & I & H). apply in_flat_map. exists f. split; [exact I|]. rewrite Forall_forall in IH. eapply IH; eauto.
  - eauto.
Qed.
End Proofs.

(** C83: mount any application built from texts, elements, combinators and async blocks, whose elements
    are empty when they are made, and let anything happen.  The root then contains what it contained
    before, followed by nodes whose text is that of the strings which the program renders now, in the
    order of the program. *)
Theorem C83_text_in_program_order :
  forall (A : Type) (data : node -> option (list A)) (d0 : dom) (gr : gid -> group) (root : node) (g : gid) (a : addr) (child : fut) (l : list sched),
  dom_wf d0 -> fresh_app d0 gr root g (child :: flat_map created l) ->
  (forall n, In n (flat_map nodes (child :: flat_map created l)) -> kids d0 n = []) ->
  exists f' st' ch' new ss, poll_root l (mount root g a child) (mkU (mkR d0 gr) None 0) = Some (f', st') /\ f' = mount root g a ch' /\
    kids (rdom (ur st')) root = kids d0 root ++ new /\
    text_contents A data (kids (rdom (ur st'))) new ss /\ concat ss = reads A data ch'.
Proof.
  intros A data d0 gr root g a child l W F EM. destruct (app_run_all d0 gr root g a child l W F) as (ch' & st' & E & G & _ & _ & _ & _ & IN).
  pose proof (good_containers (kids d0) st' _ G) as C.
  destruct (shown_text A data (kids (rdom (ur st'))) ch') as (ss & T & R).
  { intros n c H. rewrite (C n c) by (cbn; right; exact H). rewrite EM; [reflexivity|]. eapply IN, containers_nodes, H. }
  exists (mount root g a ch'), st', ch', (out ch'), ss. split; [exact E|]. split; [reflexivity|]. split; [apply (C root ch'); cbn; left; reflexivity|]. auto.
Qed.
Print Assumptions C83_text_in_program_order.

(** C83: the text of an element or of a text node is determined by the document. *)
Theorem C83_text_unique :
  forall (A : Type) (data : node -> option (list A)) kids n s s', text_content A data kids n s -> text_content A data kids n s' -> s = s'.
Proof.
  intros A data kids n s s' H. revert s'.
  apply (tc_mut A data kids (fun n s => forall s', text_content A data kids n s' -> s = s') (fun l ss => forall ss', text_contents A data kids l ss' -> ss = ss')) with (n := n); [| | | |exact H].
  - intros m t D s' H'. inversion H'; subst; congruence.
  - intros m ss D _ IH s' H'. inversion H'; subst; [congruence|]. f_equal. auto.
  - intros ss' H'. inversion H'. reflexivity.
  - intros m t l ss _ IH1 _ IH2 ss' H'. inversion H'; subst. f_equal; auto.
Qed.
Print Assumptions C83_text_unique.

(** C83: from its first poll on, a rendered string is shown and read; from its first poll on, an element is
    shown, and what is read of it is what is read of its children, polled at the same time; an element
    without children is shown, and nothing is read of it, nor of NoChild; and nothing is read of what was
    not polled. *)
Theorem C83_components :
  forall (A : Type) (data : node -> option (list A)) (n : node) (g : gid) (a : addr) (sc : sched) (c : option ctx) (st st' : ustate) (f' : fut),
  (forall s, data n = Some s -> poll (SElem sc) (text_render n g a) c st = Some (f', st') -> out f' = [n] /\ reads A data f' = s) /\
  (forall ch, data n = None -> poll (SElem sc) (elem_render n g a ch) c st = Some (f', st') ->
     exists st1 st2 ch', poll sc ch (Some (CContainer g n)) st1 = Some (ch', st2) /\ out f' = [n] /\ reads A data f' = reads A data ch') /\
  (data n = None -> poll (SElem sc) (childless_render n g a) c st = Some (f', st') -> out f' = [n] /\ reads A data f' = []) /\
  (poll sc no_child c st = Some (f', st') -> out f' = [] /\ reads A data f' = []) /\
  (forall ch, reads A data (text_render n g a) = [] /\ reads A data (elem_render n g a ch) = []).
Proof.
  intros A data n g a sc c st st' f'.
  assert (LF : forall sc c st f' st', poll sc FLeaf c st = Some (f', st') -> f' = FLeaf) by (intros sc0 c0 st0 f0 st0' E; destruct sc0; cbn in E; injection E as <- _; reflexivity).
  unfold text_render, elem_render, childless_render, no_child. split; [|split; [|split; [|split]]].
  - intros s D E. cbn [poll add_self] in E. destruct c as [c|]; [|discriminate]. destruct (add_child c pos_default n (ur st)); [|discriminate].
    destruct (poll sc FLeaf _ _) as [[ch2 st2]|]; [|discriminate]. injection E as <- _. cbn. rewrite D. auto.
  - intros ch D E. cbn [poll add_self] in E. destruct c as [c|]; [|discriminate]. destruct (add_child c pos_default n (ur st)) as [r|]; [|discriminate].
    destruct (poll sc ch _ _) as [[ch2 st2]|] eqn:E2; [|discriminate]. injection E as <- _. exists (with_r st r), st2, ch2. split; [exact E2|]. cbn. rewrite D. auto.
  - intros D E. cbn [poll add_self] in E. destruct c as [c|]; [|discriminate]. destruct (add_child c pos_default n (ur st)) as [r|]; [|discriminate].
    destruct (poll sc FLeaf _ _) as [[ch2 st2]|] eqn:E2; [|discriminate]. apply LF in E2 as ->. injection E as <- _. cbn. rewrite D. auto.
  - intro E. apply LF in E as ->. auto.
  - split; reflexivity.
Qed.
Print Assumptions C83_components.

(** Non-vacuity: a joined heading, a paragraph with two texts, and an async block that shows one text and
    then another. *)
Definition exh_app : fut :=
  FComb 0 [elem_render 1 1 0 (text_render 2 2 0);
           elem_render 3 3 0 (FComb 0 [text_render 4 4 0; childless_render 5 5 0; text_render 6 6 0]);
           FBlock (text_render 7 7 0); elem_render 9 9 0 no_child].
Definition exh_scheds : list sched :=
  [SElem (SComb [(2, SBlock [BPoll (SElem SNone)]); (1, SElem (SComb [(2, SElem SNone); (0, SElem SNone); (1, SElem SNone)])); (0, SElem (SElem SNone))]);
   SElem (SComb [(3, SElem SNone); (2, SBlock [BReplace (text_render 8 8 0); BPoll (SElem SNone)])])].
Definition exh_data (n : node) : option (list nat) :=
  match n with 2 => Some [100] | 4 => Some [101; 102] | 6 => Some [103] | 7 => Some [104] | 8 => Some [105; 106] | _ => None end.
Example C83_nonvacuous :
  dom_wf dom_empty /\ fresh_app dom_empty (fun _ => []) 0 0 (exh_app :: flat_map created exh_scheds) /\
  (forall n, kids dom_empty n = []) /\
  option_map (fun r => (kids (rdom (ur (snd r))) 0, match fst r with FElem _ _ _ _ c => reads nat exh_data c | _ => [] end))
    (poll_root exh_scheds (mount 0 0 0 exh_app) (mkU (mkR dom_empty (fun _ => [])) None 0))
  = Some ([1; 3; 8; 9], [100; 101; 102; 103; 105; 106]).
Proof.
  split; [split; [intro; constructor|intros; simpl; intuition congruence]|].
  split; [|split; reflexivity].
  fresh_tac.
Qed.
