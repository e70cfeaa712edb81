(** Equations and inverses by LU decomposition (lisp/l/array.l), on the model of lu-decompose and lu-solve in MatModel. *)
From Coq Require Import List Arith Bool.
From Verif Require Import MatModel.
Import ListNotations.

Section Lu.
Variables (F : Type) (zero one : F) (sub mul div : F -> F -> F) (gt_abs : F -> F -> bool) (tiny : F -> bool).
Local Notation "'let!' x := m 'in' k" := (bind F m (fun x => k)) (at level 200, x pattern, m at level 100, k at level 200).
Local Notation "m ;; k" := (bind F m (fun _ => k)) (at level 100, k at level 200, right associativity).

(** array.l 280-283 simultaneous-equation: [x] is the vector lu-solve makes.  lu-decompose works on a copy of the matrix.  If it
    returns NIL, lu-solve gets NIL for the permutation and signals an error (matrix.c 1320). *)
Definition simultaneous_equation (A : mat F) (s vec x : nat) : M F nat :=
  match decompose F one sub mul div gt_abs tiny A s with
  | None => fail F
  | Some (work, perm) => LU_SOLVE F sub mul work perm s vec x
  end.

(** array.l 285-300 inverse-matrix: [vec] is the vector made at the start, [rvec] the one lu-solve makes (each time anew; that
    they are one here cannot be seen, since lu-solve overwrites all of it), [result] the entity of the result.  The value is
    false for 'degenerated. *)
Definition inverse_matrix (A : mat F) (dim vec rvec result : nat) : M F bool :=
  match decompose F one sub mul div gt_abs tiny A dim with
  | None => ret F false
  | Some (work, perm) =>
    for_ F dim 0 (fun i =>
      put F vec i one ;;
      let! r := LU_SOLVE F sub mul work perm dim vec rvec in
      for_ F dim 0 (fun j => let! x := get F r j in put F result (j * dim + i) x) ;;
      put F vec i zero) ;;
    ret F true
  end.
End Lu.
