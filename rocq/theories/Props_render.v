(** Properties C01-C04: rendering order, exact removal, path order, list items. *)
From Coq Require Import List Arith NArith Permutation Sorting.Sorted.
From Verif Require Import Position Dom Context Spec_path Spec_render Render_history
  Position_proofs Render_history_proofs.
Import ListNotations.

(** A node that may be rendered: detached and not a DocumentFragment. *)
Definition free_in (d : dom) (n : node) : Prop := par d n = None /\ frag d n = false.

(** C01.  Start with any document in which element [cont] has children [F] (not
    rendered by the library), and run any legal history inside [cont].  It never
    panics, and afterwards the children of [cont] are [F] followed by exactly the
    live nodes in the order of their paths; no other element is touched. *)
Theorem C01_document_order :
  forall (d0 : dom) (gr : gid -> group) (g : gid) (cont : node) (F : list node) (ops : list rop),
  dom_wf d0 -> kids d0 cont = F -> gr g = [] ->
  legal_run (free_in d0) [] ops ->
  exists s' l, run (CContainer g cont) (mkR d0 gr) ops = Some s' /\
    Permutation l (live_after [] ops) /\
    StronglySorted path_lt (map fst l) /\
    kids (rdom s') cont = F ++ map snd l /\
    (forall q, q <> cont -> kids (rdom s') q = kids d0 q).
Proof.
  intros d0 gr g cont F ops W K G L.
  destruct (history_picture d0 gr g cont F [] (CContainer g cont) ops W) as (s' & l & H); auto.
  - rewrite app_nil_r; auto.
  - constructor.
  - rewrite app_nil_r in H. exists s', l. exact H.
Qed.
Print Assumptions C01_document_order.

Definition ex_history : list rop :=
  [Render [2]%N 12; Render [0; 1]%N 11; Render [1]%N 13; Render [0; 0; 5]%N 14;
   Unrender [1]%N; Render [1; 0]%N 15; Render [0; 0; 3]%N 16; Unrender [0; 1]%N].

Definition ex_doc : dom :=
  mkDom (fun q => if Nat.eqb q 0 then [1; 2] else []) (fun n => if orb (Nat.eqb n 1) (Nat.eqb n 2) then Some 0 else None)
        (fun _ => false).

Example ex_doc_wf : dom_wf ex_doc.
Proof.
  split.
  - intro p; simpl. destruct (Nat.eqb p 0); repeat constructor; simpl; intuition congruence.
  - intros p n. simpl. destruct p as [|p]; simpl.
    + destruct n as [|[|[|n]]]; simpl; intuition congruence.
    + destruct n as [|[|[|n]]]; simpl; intuition congruence.
Qed.

Example C01_nonvacuous :
  legal_run (free_in ex_doc) [] ex_history /\
  option_map (fun s => kids (rdom s) 0) (run (CContainer 7 0) (mkR ex_doc (fun _ => [])) ex_history)
  = Some [1; 2; 16; 14; 15; 12].
Proof.
  split; [|reflexivity].
  simpl. unfold free_in, indices_ok; simpl.
  repeat split; repeat constructor; intuition congruence.
Qed.

(** C02.  After any legal history, dropping the future at path [p] keeps, in
    place, exactly the children that were not rendered at [p] or nested in it. *)
Theorem C02_removal_exact :
  forall (d0 : dom) (gr : gid -> group) (g : gid) (cont : node) (F : list node)
         (ops : list rop) (p : path),
  dom_wf d0 -> kids d0 cont = F -> gr g = [] ->
  legal_run (free_in d0) [] (ops ++ [Unrender p]) ->
  exists s s' keepb, run (CContainer g cont) (mkR d0 gr) ops = Some s /\
    run (CContainer g cont) s [Unrender p] = Some s' /\
    kids (rdom s') cont = filter keepb (kids (rdom s) cont) /\
    (forall n, In n (kids (rdom s) cont) ->
       (keepb n = false <-> exists q, In (q, n) (live_after [] ops) /\ under p q)).
Proof.
  intros d0 gr g cont F ops p W K G L.
  apply (unrender_exact d0 gr g cont F [] (CContainer g cont) ops p W); auto.
  - rewrite app_nil_r; auto.
  - constructor.
Qed.
Print Assumptions C02_removal_exact.

Example C02_nonvacuous :
  legal_run (free_in ex_doc) [] (ex_history ++ [Unrender [0]%N]) /\
  option_map (fun s => kids (rdom s) 0)
    (run (CContainer 7 0) (mkR ex_doc (fun _ => [])) (ex_history ++ [Unrender [0]%N]))
  = Some [1; 2; 15; 12].
Proof.
  split; [|reflexivity].
  simpl. unfold free_in, indices_ok; simpl.
  repeat split; repeat constructor; intuition congruence.
Qed.

(** C03.  Stored positions (leaf first) are compared as lexicographic paths
    (outermost first); this is a strict total order; a path precedes everything
    nested in it; and the range used for removal is exactly the subtree. *)
Theorem C03_comparison_is_path_order :
  forall a b : pos,
  (pos_cmp a b = Lt <-> path_lt (rev a) (rev b)) /\
  (pos_cmp a b = Eq <-> a = b) /\
  (pos_cmp a b = Gt <-> path_lt (rev b) (rev a)).
Proof. intros. split; [|split]; [apply pos_cmp_lt|apply pos_cmp_eq|apply pos_cmp_gt]. Qed.
Print Assumptions C03_comparison_is_path_order.

Theorem C03_path_order_total :
  (forall a, ~ path_lt a a) /\
  (forall a b c, path_lt a b -> path_lt b c -> path_lt a c) /\
  (forall a b, path_lt a b \/ a = b \/ path_lt b a) /\
  (forall p q, under p q -> p <> q -> path_lt p q).
Proof.
  split; [exact path_lt_irrefl|]. split; [exact path_lt_trans|]. split; [exact path_lt_total|].
  intros p q [r ->] H. destruct (path_le_app p r); congruence || auto.
Qed.
Print Assumptions C03_path_order_total.

Theorem C03_removal_range_is_subtree :
  forall p next q : pos,
  next_sibling p = Some next ->
  ((pos_leb p q && pos_ltb q next)%bool = true <-> under (rev p) (rev q)).
Proof. exact next_sibling_range. Qed.
Print Assumptions C03_removal_range_is_subtree.

(** the only positions without a next sibling are the root and overflowing ones *)
Theorem C03_next_sibling_defined :
  forall p : pos, p <> [] -> (hd 0%N p < 4294967295)%N -> exists next, next_sibling p = Some next.
Proof.
  intros [|x t] H L; [congruence|]. unfold next_sibling. simpl in L.
  apply N.ltb_lt in L. unfold u32_max. rewrite L. eauto.
Qed.
Print Assumptions C03_next_sibling_defined.

Example C03_nonvacuous :
  next_sibling [4; 1; 0]%N = Some [5; 1; 0]%N /\
  pos_cmp [4; 1; 0]%N [7; 2; 0]%N = Lt /\ pos_cmp [4; 1; 0]%N [9; 9; 4; 1; 0]%N = Lt /\
  under (rev [4; 1; 0]%N) (rev [9; 9; 4; 1; 0]%N).
Proof. repeat split; try reflexivity. exists [9; 9]%N. reflexivity. Qed.

(** C04.  The same for a list item: nodes rendered inside the item stay directly
    before its end marker [r], in path order, and everything else in the
    containing element (before or after) is untouched. *)
Theorem C04_item_content_before_marker :
  forall (d0 : dom) (gr : gid -> group) (g : gid) (parent : ctx) (r : node)
         (F R : list node) (ops : list rop),
  let cont := containing_node parent in
  dom_wf d0 -> kids d0 cont = F ++ r :: R -> gr g = [] ->
  legal_run (free_in d0) [] ops ->
  exists s' l, run (CSibling parent g r) (mkR d0 gr) ops = Some s' /\
    Permutation l (live_after [] ops) /\
    StronglySorted path_lt (map fst l) /\
    kids (rdom s') cont = F ++ map snd l ++ r :: R /\
    (forall q, q <> cont -> kids (rdom s') q = kids d0 q).
Proof.
  intros. apply (history_picture d0 gr g cont F (r :: R)); auto. constructor; auto.
Qed.
Print Assumptions C04_item_content_before_marker.

Theorem C04_item_removal_exact :
  forall (d0 : dom) (gr : gid -> group) (g : gid) (parent : ctx) (r : node)
         (F R : list node) (ops : list rop) (p : path),
  let cont := containing_node parent in
  dom_wf d0 -> kids d0 cont = F ++ r :: R -> gr g = [] ->
  legal_run (free_in d0) [] (ops ++ [Unrender p]) ->
  exists s s' keepb, run (CSibling parent g r) (mkR d0 gr) ops = Some s /\
    run (CSibling parent g r) s [Unrender p] = Some s' /\
    kids (rdom s') cont = filter keepb (kids (rdom s) cont) /\
    (forall n, In n (kids (rdom s) cont) ->
       (keepb n = false <-> exists q, In (q, n) (live_after [] ops) /\ under p q)).
Proof.
  intros. apply (unrender_exact d0 gr g cont F (r :: R)); auto. constructor; auto.
Qed.
Print Assumptions C04_item_removal_exact.

Example C04_nonvacuous :
  legal_run (free_in ex_doc) [] ex_history /\
  option_map (fun s => kids (rdom s) 0)
    (run (CSibling (CChild (CContainer 3 0) 9%N) 7 2) (mkR ex_doc (fun _ => [])) ex_history)
  = Some [1; 16; 14; 15; 12; 2].
Proof.
  split; [|reflexivity].
  simpl. unfold free_in, indices_ok; simpl.
  repeat split; repeat constructor; intuition congruence.
Qed.

(** C51.  After any legal history inside an element or a list item, rendering a new node
    at path [p] panics (in debug builds) exactly if something is already on screen at [p]:
    two futures at one position are never silently mixed up, and nothing else is refused. *)
Theorem C51_duplicate_position :
  forall (d0 : dom) (gr : gid -> group) (g : gid) (cont : node) (ops : list rop) (p : path) (n : node),
  dom_wf d0 -> gr g = [] -> legal_run (free_in d0) [] ops ->
  free_in d0 n -> ~ In n (map snd (live_after [] ops)) ->
  (run (CContainer g cont) (mkR d0 gr) (ops ++ [Render p n]) = None <->
   In p (map fst (live_after [] ops))).
Proof.
  intros. apply (render_duplicate d0 gr g cont (kids d0 cont) []); auto.
  - rewrite app_nil_r; auto.
  - constructor.
Qed.
Print Assumptions C51_duplicate_position.

Theorem C51_duplicate_position_in_item :
  forall (d0 : dom) (gr : gid -> group) (g : gid) (parent : ctx) (r : node) (F R : list node)
         (ops : list rop) (p : path) (n : node),
  dom_wf d0 -> kids d0 (containing_node parent) = F ++ r :: R -> gr g = [] ->
  legal_run (free_in d0) [] ops -> free_in d0 n -> ~ In n (map snd (live_after [] ops)) ->
  (run (CSibling parent g r) (mkR d0 gr) (ops ++ [Render p n]) = None <->
   In p (map fst (live_after [] ops))).
Proof.
  intros. apply (render_duplicate d0 gr g (containing_node parent) F (r :: R)); auto. constructor; auto.
Qed.
Print Assumptions C51_duplicate_position_in_item.

Example C51_nonvacuous :
  legal_run (free_in ex_doc) [] ex_history /\ free_in ex_doc 17 /\
  ~ In 17 (map snd (live_after [] ex_history)) /\
  In [0; 0; 5]%N (map fst (live_after [] ex_history)) /\
  run (CContainer 7 0) (mkR ex_doc (fun _ => [])) (ex_history ++ [Render [0; 0; 5]%N 17]) = None /\
  option_map (fun s => kids (rdom s) 0)
    (run (CContainer 7 0) (mkR ex_doc (fun _ => [])) (ex_history ++ [Render [0; 0]%N 17]))
  = Some [1; 2; 17; 16; 14; 15; 12].
Proof.
  split; [apply C01_nonvacuous|]. split; [split; reflexivity|]. split; [simpl; intuition discriminate|].
  split; [simpl; auto|]. split; reflexivity.
Qed.
