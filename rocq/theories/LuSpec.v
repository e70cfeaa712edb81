(** Specification for C86: linear equations, inverses and determinants over a field. *)
From Coq Require Import List Arith Bool.
From Verif Require Import MatModel.
Import ListNotations.

Section Spec.
Context {F : Type} (zero one : F) (add mul : F -> F -> F) (neg : F -> F).

Fixpoint sum (n : nat) (f : nat -> F) : F := match n with O => zero | S k => add (sum k f) (f k) end.
(** row [i] of the matrix times the vector, of size [s] *)
Definition row_times (s : nat) (A : mat F) (z : nat -> F) (i : nat) : F := sum s (fun j => mul (A i j) (z j)).
(** [z] solves A z = b *)
Definition solves (s : nat) (A : mat F) (z b : nat -> F) : Prop := forall i, i < s -> row_times s A z i = b i.
(** some vector other than zero is mapped to zero *)
Definition singular (s : nat) (A : mat F) : Prop :=
  exists z, (exists i, i < s /\ z i <> zero) /\ solves s A z (fun _ => zero).
Definition unit_matrix (i j : nat) : F := if i =? j then one else zero.
(** product of matrices of size [s] is the unit matrix *)
Definition inverse_of (s : nat) (A B : mat F) : Prop :=
  forall i j, i < s -> j < s -> sum s (fun k => mul (A i k) (B k j)) = unit_matrix i j.
(** [p] rearranges the numbers below [s] *)
Definition perm (s : nat) (p : nat -> nat) : Prop :=
  (forall i, i < s -> p i < s) /\ (forall i j, i < s -> j < s -> p i = p j -> i = j) /\
  (forall r, r < s -> exists i, i < s /\ p i = r).
(** What makes a function of matrices of size [s] a determinant: it sees the elements only, an exchange of two rows changes its
    sign, adding a multiple of a row to another leaves it, and it is the product of the diagonal for a triangular matrix. *)
Definition swap_rows (A : mat F) (k l : nat) : mat F := fun i => if i =? k then A l else if i =? l then A k else A i.
Definition add_row (A : mat F) (k : nat) (c : F) (l : nat) : mat F :=
  fun i j => if i =? k then add (A k j) (mul c (A l j)) else A i j.
Fixpoint diagonal (A : mat F) (n : nat) : F := match n with O => one | S k => mul (diagonal A k) (A k k) end.
Definition determinant (s : nat) (D : mat F -> F) : Prop :=
  (forall A B, (forall i j, i < s -> j < s -> A i j = B i j) -> D A = D B) /\
  (forall A k l, k < s -> l < s -> k <> l -> D (swap_rows A k l) = neg (D A)) /\
  (forall A k c l, k < s -> l < s -> k <> l -> D (add_row A k c l) = D A) /\
  (forall A, (forall i j, j < i -> i < s -> A i j = zero) -> D A = diagonal A s).
End Spec.
