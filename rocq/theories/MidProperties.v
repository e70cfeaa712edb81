(** C108: find-colinear-points finds the points between others. *)
From Coq Require Import ZArith List Bool Lia.
From Verif Require Import HullModel CirModel CirSpec CirProofs MidModel MidSpec MidProofs.
Import ListNotations.
Open Scope Z_scope.

(** Of points at different places, in any order, it gives exactly those that are between two others. *)
Theorem C108_between_partial : forall l, NoDup l -> forall x, In x (find_colinear_points l) <-> In x l /\ exists a b, In a l /\ In b l /\ between a x b.
Proof. intros l N x. unfold find_colinear_points. rewrite (with_p1_in x l N). cbn [In]. tauto. Qed.
(** So removing what it gives leaves points of which none is between two others. *)
Theorem C108_corners_partial : forall l, NoDup l -> forall a x b, In a l -> In b l -> In x l -> ~ In x (find_colinear_points l) -> ~ between a x b.
Proof. intros l N a x b Ia Ib Ix H B. apply H, C108_between_partial; [exact N|]. split; [exact Ix|]. exists a, b. auto. Qed.
(** A corner that is given twice is reported though it is between no others. *)
Theorem C108_refuted : exists l x, In x (find_colinear_points l) /\ forall a b, In a l -> In b l -> ~ between a x b.
Proof.
  exists [Pt 0 0 0; Pt 1 0 0; Pt 1 0 0], (Pt 1 0 0). split; [left; reflexivity|]. intros a b Ha Hb [_ D]. cbn [In] in Ha, Hb.
  destruct Ha as [<- | [<- | [<- | []]]], Hb as [<- | [<- | [<- | []]]]; cbn in D; lia.
Qed.

Example C108_example : let l := [Pt 1 1 0; Pt 3 3 0; Pt 0 4 0; Pt 0 0 0; Pt 0 1 0] in NoDup l /\ find_colinear_points l = [Pt 0 1 0; Pt 1 1 0].
Proof. cbv zeta. split; [|reflexivity]. repeat constructor; cbn [In]; intros H; repeat (destruct H as [H | H]; [discriminate|]); destruct H. Qed.

Print Assumptions C108_between_partial.
Print Assumptions C108_corners_partial.
Print Assumptions C108_refuted.
