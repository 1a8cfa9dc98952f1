(** C89: drag and drop between items. *)
From Coq Require Import List Arith Bool Lia.
From Verif Require Import Dragger Spec_dragger Dragger_proofs.
Import ListNotations.

Lemma R_start : R start Free 0 0 false.
Proof. split; [reflexivity|]. cbn. split; [discriminate|]. split; [intro j; reflexivity|reflexivity]. Qed.

(** Whatever is dragged and dropped: the stream gives one move for each drop, in order, and no others. *)
Theorem C89_moves : forall l, browser Free l -> exists d, execs start l = Some d /\ out d = moves 0 false l.
Proof. intros l B. destruct (execs_moves l start Free 0 0 false R_start B) as (d & X & O). exists d. split; [exact X|exact O]. Qed.
Print Assumptions C89_moves.

(** If the pointer leaves each item it was over (or drops there) before the drag ends, the paddings of an item are at every moment the room for what is dragged over it, and there is none between the drags. *)
Theorem C89_room_partial : forall l d i, browser Free l -> tidy i false l -> execs start l = Some d -> pad d i = room i 0 0 (0, 0) l.
Proof.
  intros l d i B TD X. eapply (execs_room i l start Free 0 0 false false (0, 0) d R_start B); auto. unfold P, start. cbn. auto.
Qed.
Print Assumptions C89_room_partial.

(** ** Refuted without that: the pointer goes from an element inside the item out of the item (the event of leaving is that of the inner element); the room stays when the drag is over, and the next drag finds it with the old size. *)
Definition lost : list event := [DStart 0 10; DOver 1 true; DLeave 1 false; DEnd 0].
Definition again : list event := lost ++ [DStart 2 25; DOver 1 true].
Theorem C89_room_stays_refuted : browser Free lost /\ option_map (fun d => (inn d, pad d 1)) (execs start lost) = Some (NotDragging, (0, 10)) /\
  browser Free again /\ option_map (fun d => pad d 1) (execs start again) = Some (0, 10) /\ room 1 0 0 (0, 0) again = (0, 25).
Proof. split; [cbn; auto|]. split; [vm_compute; reflexivity|]. split; [cbn; auto|]. split; vm_compute; reflexivity. Qed.
Print Assumptions C89_room_stays_refuted.
(** ** Refuted: a drop of an item on itself gives a move, with the side of another item. *)
Definition back : list event := [DStart 0 10; DOver 1 true; DDrop 1; DEnd 0; DStart 2 25; DOver 2 false; DDrop 2].
Theorem C89_side_refuted : browser Free back /\ option_map out (execs start back) = Some [(0, 1, true); (2, 2, true)].
Proof. split; [cbn; auto|]. vm_compute. reflexivity. Qed.
Print Assumptions C89_side_refuted.

(** ** A case: three drags, one of them given up *)
Definition drags : list event :=
  [DStart 0 10; DOver 0 true; DLeave 0 true; DOver 1 false; DOver 1 true; DLeave 1 true; DOver 2 true; DOver 2 false; DDrop 2; DEnd 0;
   DStart 1 20; DOver 2 true; DLeave 2 true; DEnd 1; DStart 2 5; DOver 0 false].
Example exd_browser : browser Free drags. Proof. cbn. auto 20. Qed.
Example exd_tidy : forall i, tidy i false drags.
Proof. intro i. cbn. destruct i as [|[|[|i]]]; cbn; auto 20. Qed.
Example exd_moves : option_map (fun d => (out d, pad d 0, pad d 1, pad d 2)) (execs start (drags ++ [DLeave 0 true; DOver 1 true; DDrop 1; DEnd 2])) = Some ([(0, 2, false); (2, 1, true)], (0, 0), (0, 0), (0, 0)).
Proof. vm_compute. reflexivity. Qed.
Example exd_room : option_map (fun d => pad d 0) (execs start drags) = Some (5, 0). Proof. vm_compute. reflexivity. Qed.
