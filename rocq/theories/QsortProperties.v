(** Property C77: qsort. *)
From Coq Require Import Permutation Sorting.Sorted.
From Verif Require Import QsortModel QsortProofs.

(** ** C77: qsort ends, and its result is a rearrangement of the elements in which no element comes before an earlier one.

    True for a strict order.  With <= (which sort accepts) it does not end as soon as the smallest elements are equal. *)
Theorem C77_qsort_partial : forall A (lt : A -> A -> bool), (forall x, lt x x = false) ->
  (forall x y z, lt x y = true -> lt y z = true -> lt x z = true) ->
  forall v fuel, (length v < fuel)%nat ->
  exists v', qsort lt fuel v = Done v' /\ Permutation v v' /\ StronglySorted (fun a b => lt b a = false) v'.
Proof. exact @qsort_ok. Qed.
Print Assumptions C77_qsort_partial.

(** A part of a vector is sorted, the rest is left as it is. *)
Theorem C77_quick_sort_partial : forall A (lt : A -> A -> bool), (forall x, lt x x = false) ->
  (forall x y z, lt x y = true -> lt y z = true -> lt x z = true) ->
  forall n fuel mid P Q, (length mid <= n)%nat -> (n < fuel)%nat ->
  exists mid', quick_sort lt fuel (P ++ mid ++ Q) (Z.of_nat (length P)) (Z.of_nat (length P) + Z.of_nat (length mid)) =
      Done (P ++ mid' ++ Q) /\
    Permutation mid mid' /\ StronglySorted (fun a b => lt b a = false) mid'.
Proof. exact @quick_sort_ok. Qed.
Print Assumptions C77_quick_sort_partial.

Theorem C77_qsort_refuted : forall fuel, qsort Z.leb fuel [1; 1] = Loop.
Proof. exact qsort_loops_refuted. Qed.
Print Assumptions C77_qsort_refuted.

Example C77_ex : (forall x, (x <? x) = false) /\
  (forall x y z, (x <? y) = true -> (y <? z) = true -> (x <? z) = true) /\
  qsort Z.ltb 9 [3; 1; 2; 3; 0; 7; -1; 2] = Done [-1; 0; 1; 2; 2; 3; 3; 7].
Proof.
  split; [intros x; apply Z.ltb_irrefl|]. split; [intros x y z; lia|vm_compute; reflexivity].
Qed.
