(** C62: class names on elements. *)
From Coq Require Import List Bool Ascii.
From Verif Require Import ClassList Spec_class ClassList_proofs.
Import ListNotations.

(** C62: after any history of calls the element has exactly the classes the calls say: for
    each class the last call naming it decides, and a class that no call names is kept *)
Theorem C62_classes_as_called l a a' :
  class_calls l a = Some a' ->
  forall c, has_class c a' <-> should_have c l (has_class c a).
Proof.
  intros E c. destruct (existsb (fun o => existsb bad_token (names o)) l) eqn:B.
  - apply existsb_exists in B as (o & O & B). apply existsb_exists in B as (d & D & B).
    rewrite (calls_panic l a o d O D) in E; [discriminate|]. rewrite <- bad_token_spec. congruence.
  - destruct (calls_ok l a) as (a1 & E1 & F).
    + intros o d O D. apply bad_token_spec. destruct (bad_token d) eqn:Q; auto. rewrite <- B. symmetry.
      apply existsb_exists. exists o. split; auto. apply existsb_exists. eauto.
    + rewrite E1 in E. injection E as <-. apply F.
Qed.
Print Assumptions C62_classes_as_called.

(** C62: the calls panic exactly if one of the names given is empty or contains whitespace *)
Theorem C62_panics_on_bad_names l a :
  class_calls l a = None <-> exists o c, In o l /\ In c (names o) /\ ~ class_name c.
Proof.
  split.
  - intro E. destruct (existsb (fun o => existsb bad_token (names o)) l) eqn:B.
    + apply existsb_exists in B as (o & O & B). apply existsb_exists in B as (d & D & B).
      exists o, d. split; auto. split; auto. rewrite <- bad_token_spec. congruence.
    + destruct (calls_ok l a) as (a1 & E1 & _); [|congruence].
      intros o d O D. apply bad_token_spec. destruct (bad_token d) eqn:Q; auto. rewrite <- B. symmetry.
      apply existsb_exists. exists o. split; auto. apply existsb_exists. eauto.
  - intros (o & c & O & C & N). eapply calls_panic; eauto.
Qed.
Print Assumptions C62_panics_on_bad_names.

Local Open Scope char_scope.
(** an element with class attribute "big  a", a history of all five calls *)
Example ex_class :
  let hist := [AddClasses [["x"]; ["a"]; ["y"]]; DelClass ["a"]; SetClass ["z"] true;
               SetClass ["y"] false; DelClasses [["q"]; ["x"]]; AddClass ["x"; "x"]] in
  class_calls hist (Some ["b"; "i"; "g"; " "; " "; "a"])
  = Some (Some ["b"; "i"; "g"; " "; "z"; " "; "x"; "x"])
  /\ class_calls [AddClass ["x"]; DelClass ["x"; " "]] None = None
  /\ class_calls [DelClass ["x"]] None = Some None
  /\ class_calls [SetClass ["x"] true; SetClass ["x"] false] None = Some (Some []).
Proof. repeat split; vm_compute; reflexivity. Qed.
(** the hypothesis of the theorem holds there, and the kept class is "big" *)
Example ex_class_use :
  has_class ["b"; "i"; "g"] (Some ["b"; "i"; "g"; " "; "z"; " "; "x"; "x"]).
Proof.
  destruct ex_class as [E _]. apply (proj2 (C62_classes_as_called _ _ _ E _)).
  cbn. right. split; [intros [Q|[]]; discriminate|]. right. split; [intros [Q|[Q|[]]]; discriminate|].
  right. split; [intros [Q|[]]; discriminate|]. right. split; [intros [Q|[]]; discriminate|].
  right. split; [intros [Q|[]]; discriminate|]. right. split; [intros [Q|[Q|[Q|[]]]]; discriminate|].
  eexists. split; [reflexivity|]. split; [discriminate|]. split.
  - intros x [<-|[<-|[<-|[]]]]; reflexivity.
  - exists [], [" "; " "; "a"]. split; [reflexivity|]. split; auto. right. eauto.
Qed.
