(** C42, C49 and C50: paths into the data of an x-bow store.

    [path_borrow p d = Some x]: borrowing the path [p] in the data [d] gives [x].
    [path_borrow_mut u p d = Some (x, k)]: borrowing it mutably gives [x], and storing [y]
    makes the whole data [k y]; [u i] says that the Rc allocation [i] has no other handle. *)
From Coq Require Import List Arith Bool NArith Lia.
From Verif Require Import Xbow Spec_xbow XbowData Spec_xbowdata XbowData_proofs.
Import ListNotations.

(** C42.  What was written is what is read, at the path itself ... *)
Theorem C42_read_after_write :
  forall K keqb u p d x k y, path_borrow_mut K keqb u p d = Some (x, k) ->
  path_borrow K keqb p d = Some x /\ path_borrow K keqb p (k y) = Some y.
Proof.
  intros K keqb u p d x k y E. destruct (mut_read K keqb u p d x k E) as (A & _ & B). split; [exact A|].
  specialize (B y []). rewrite app_nil_r in B. exact B.
Qed.
Print Assumptions C42_read_after_write.

(** ... and at every path inside it. *)
Theorem C42_inside :
  forall K keqb u p d x k y r, path_borrow_mut K keqb u p d = Some (x, k) ->
  path_borrow K keqb (p ++ r) (k y) = path_borrow K keqb r y.
Proof. intros K keqb u p d x k y r E. destruct (mut_read K keqb u p d x k E) as (_ & _ & B). apply B. Qed.
Print Assumptions C42_inside.

(** A path that neither contains the written one nor is inside it reads what it read. *)
Theorem C42_elsewhere :
  forall K keqb, (forall a b, keqb a b = true <-> a = b) ->
  forall u p q d x k y, path_borrow_mut K keqb u p d = Some (x, k) ->
  ~ contains (seg K) p q -> ~ contains (seg K) q p ->
  path_borrow K keqb q (k y) = path_borrow K keqb q d.
Proof. intros. eapply mut_elsewhere; eauto. Qed.
Print Assumptions C42_elsewhere.

(** A path that contains the written one can still be borrowed, and its content differs
    only by the write inside it. *)
Theorem C42_containing :
  forall K keqb u p r d x k y, path_borrow_mut K keqb u (p ++ r) d = Some (x, k) ->
  exists v kr, path_borrow K keqb p d = Some v /\ path_borrow_mut K keqb u r v = Some (x, kr) /\
    path_borrow K keqb p (k y) = Some (kr y).
Proof.
  intros K keqb u p r d x k y E. destruct (mut_app K keqb u p r d x k E) as (v & kp & kr & E1 & E2 & EK).
  destruct (mut_read K keqb u p d v kp E1) as (A & _ & B). exists v, kr. split; [exact A|]. split; [exact E2|].
  rewrite EK. specialize (B (kr y) []). rewrite app_nil_r in B. exact B.
Qed.
Print Assumptions C42_containing.

(** Borrowing mutably and not writing changes nothing. *)
Theorem C42_untouched :
  forall K keqb u p d x k, path_borrow_mut K keqb u p d = Some (x, k) -> k x = d.
Proof. intros K keqb u p d x k E. destruct (mut_read K keqb u p d x k E) as (_ & A & _). exact A. Qed.
Print Assumptions C42_untouched.

(** A mutable borrow succeeds exactly if the path can be read and every Rc on the way has no
    other handle. *)
Theorem C42_writable :
  forall K keqb u p d, (exists x k, path_borrow_mut K keqb u p d = Some (x, k)) <->
  (exists x, path_borrow K keqb p d = Some x) /\
  (forall c r i v, p = c ++ SRc K :: r -> path_borrow K keqb c d = Some (VRc K i v) -> u i = true).
Proof.
  intros K keqb u p d. split.
  - intros (x & k & E). split; [exists x; apply (mut_read K keqb u p d x k E)|]. intros c r i v P B.
    destruct (u i) eqn:U; [reflexivity|]. rewrite (mut_shared K keqb u p c r i v d P B U) in E. discriminate.
  - intros ((x & E) & U). destruct (mut_ok K keqb u p d x E U) as (k & Q). eauto.
Qed.
Print Assumptions C42_writable.

(** C50.  A path made of struct fields and boxes only -- the paths with borrow_mut, set and
    get in place of borrow_opt_mut, set_opt and get_opt -- can be borrowed in every value of
    its type, ... *)
Theorem C50_guaranteed :
  forall K keqb def u p t t' d, path_ty K def t p = Some t' -> forallb (seg_guaranteed K) p = true -> has_ty K def d t ->
  exists x k, path_borrow K keqb p d = Some x /\ path_borrow_mut K keqb u p d = Some (x, k).
Proof. intros. eapply path_guaranteed; eauto. Qed.
Print Assumptions C50_guaranteed.

(** ... what is borrowed has the type of the path, and storing a value of that type keeps
    the data well typed (so this goes on after any number of writes). *)
Theorem C50_typed :
  forall K keqb def u p t t' d x k y, path_ty K def t p = Some t' -> has_ty K def d t ->
  path_borrow_mut K keqb u p d = Some (x, k) -> has_ty K def x t' /\ (has_ty K def y t' -> has_ty K def (k y) t).
Proof.
  intros K keqb def u p t t' d x k y P T E. destruct (mut_read K keqb u p d x k E) as (A & _). split.
  - eapply path_typed; eauto.
  - intro Y. eapply path_put_typed; eauto.
Qed.
Print Assumptions C50_typed.

(** C49.  Two different paths of one store write different bytes to the hasher, if the keys
    of its maps write prefix-free and non-empty bytes (see [C49_unit_key] for why). *)
Theorem C49_distinct_bytes :
  forall K def word key_bytes p q t t1 t2,
  1 <= word -> defs_fit def word -> keys_ok K key_bytes -> path_fits K word p -> path_fits K word q ->
  path_ty K def t p = Some t1 -> path_ty K def t q = Some t2 ->
  path_bytes K def word key_bytes t p = path_bytes K def word key_bytes t q -> p = q.
Proof. intros. eapply path_bytes_inj; eauto. Qed.
Print Assumptions C49_distinct_bytes.

(** The condition on the keys is needed: with keys that write nothing (the unit type), a map
    and its entry write the same bytes. *)
Theorem C49_unit_key :
  exists K def word key_bytes (p q : list (seg K)) t t1 t2,
  1 <= word /\ defs_fit def word /\ path_fits K word p /\ path_fits K word q /\
  path_ty K def t p = Some t1 /\ path_ty K def t q = Some t2 /\
  path_bytes K def word key_bytes t p = path_bytes K def word key_bytes t q /\ p <> q.
Proof.
  exists unit, (fun t => match t with 0 => DMap 1 | _ => DLeaf end), 8, (fun _ => []), [], [SKey unit tt], 0, 0, 1.
  split; [lia|]. split; [intros [|t]; exact Logic.I|]. split; [intros i []|]. split; [intros i [E|[]]; discriminate E|].
  split; [reflexivity|]. split; [reflexivity|]. split; [reflexivity|discriminate].
Qed.
Print Assumptions C49_unit_key.

(** A store: struct { a: leaf, #[track(skip)] s: leaf, list: Vec<Option<Box<leaf>>>,
    shared: Rc<struct>, map: HashMap<leaf, leaf> } *)
Definition demo_def (t : nat) : tydef :=
  match t with
  | 0 => DStruct [(true, 1); (false, 1); (true, 2); (true, 5); (true, 7)]
  | 1 => DLeaf
  | 2 => DVec 3
  | 3 => DEnum [[]; [(true, 4)]]
  | 4 => DBox 1
  | 5 => DRc 6
  | 6 => DStruct [(true, 4)]
  | 7 => DMap 1
  | _ => DLeaf
  end.
Definition leaf := VLeaf nat.
Definition demo_data : val nat :=
  VStruct _ [leaf 1; leaf 2; VVec _ [VEnum _ 0 []; VEnum _ 1 [VBox _ (leaf 3)]]; VRc _ 9 (VStruct _ [VBox _ (leaf 4)]); VMap _ [(5, leaf 6)]].
Definition deep : list (seg nat) := [SField _ 2; SIndex _ 1; SVariant _ 1 0; SBox _].
Example demo_typed : has_ty nat demo_def demo_data 0.
Proof.
  eapply ty_struct; [reflexivity|]. repeat (apply tys_cons || apply tys_nil); try (apply ty_leaf; reflexivity).
  - eapply ty_vec; [reflexivity|]. intros v [<-|[<-|[]]]; (eapply ty_enum; [reflexivity|reflexivity|]).
    + apply tys_nil.
    + apply tys_cons; [|apply tys_nil]. eapply ty_box; [reflexivity|]. apply ty_leaf. reflexivity.
  - eapply ty_rc; [reflexivity|]. eapply ty_struct; [reflexivity|]. apply tys_cons; [|apply tys_nil]. eapply ty_box; [reflexivity|]. apply ty_leaf. reflexivity.
  - eapply ty_map; [reflexivity|]. intros k v [E|[]]. injection E as <- <-. apply ty_leaf. reflexivity.
Qed.
Example demo_write :
  option_map (fun r => (fst r, snd r (leaf 8))) (path_borrow_mut nat Nat.eqb (fun _ => true) deep demo_data) =
  Some (leaf 3, VStruct _ [leaf 1; leaf 2; VVec _ [VEnum _ 0 []; VEnum _ 1 [VBox _ (leaf 8)]]; VRc _ 9 (VStruct _ [VBox _ (leaf 4)]); VMap _ [(5, leaf 6)]]).
Proof. vm_compute. reflexivity. Qed.
Example demo_paths_typed :
  path_ty nat demo_def 0 deep = Some 1 /\ path_ty nat demo_def 0 [SField _ 3; SRc _; SField _ 0; SBox _] = Some 1 /\
  path_ty nat demo_def 0 [SField _ 4; SKey _ 5] = Some 1 /\ path_ty nat demo_def 0 [SField _ 1] = None /\
  path_ty nat demo_def 6 [SField _ 0; SBox _] = Some 1.
Proof. vm_compute. auto. Qed.
Example demo_shared : path_borrow_mut nat Nat.eqb (fun i => negb (i =? 9)) [SField _ 3; SRc _; SField _ 0] demo_data = None.
Proof. reflexivity. Qed.
(** keys written as a usize are prefix-free *)
Example demo_bytes :
  path_bytes nat demo_def 2 (usize_bytes 2) 0 deep = [1; 0; 1; 0; 0; 0; 0]%N /\
  path_bytes nat demo_def 2 (usize_bytes 2) 0 [SField _ 4; SKey _ 5] = [3; 0; 5; 0]%N.
Proof. vm_compute. auto. Qed.
Example demo_fits : defs_fit demo_def 2.
Proof. intro t. do 8 (destruct t as [|t]; [vm_compute; auto|]). exact Logic.I. Qed.
(** keys that meet the condition: booleans (one byte each) *)
Example demo_keys : keys_ok bool (fun b => [if b then 1 else 0]%N).
Proof. split; [intros [] [] a b E; cbn in E; congruence|discriminate]. Qed.
