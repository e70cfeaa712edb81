(** Specification for C87: rotations of space. *)
From Coq Require Import List Arith Bool.
From Verif Require Import MatModel MatSpec.
Import ListNotations.

Section Spec.
Context {F : Type} (zero one : F) (add sub mul : F -> F -> F).
Local Notation "x + y" := (add x y). Local Notation "x - y" := (sub x y). Local Notation "x * y" := (mul x y).
Definition triple := (F * F * F)%type.
(** product of a 3 by 3 matrix with a vector and with a matrix *)
Definition app3 (A : mat F) (v : triple) : triple :=
  let '(x, y, z) := v in let r := fun i => A i 0 * x + A i 1 * y + A i 2 * z in (r 0, r 1, r 2).
Definition prod3 (A B : mat F) (i j : nat) : F := A i 0 * B 0 j + A i 1 * B 1 j + A i 2 * B 2 j.
Definition eq3 (A B : mat F) : Prop := forall i j, i < 3 -> j < 3 -> A i j = B i j.
Definition unit3 (i j : nat) : F := if i =? j then one else zero.
Definition flip (A : mat F) (i j : nat) : F := A j i.
Definition det3 (A : mat F) : F :=
  A 0 0 * (A 1 1 * A 2 2 - A 1 2 * A 2 1) - A 0 1 * (A 1 0 * A 2 2 - A 1 2 * A 2 0) + A 0 2 * (A 1 0 * A 2 1 - A 1 1 * A 2 0).
(** The vector (p,q,r) turned about the axis (x,y,z) of length one, with cosine c and sine s (Rodrigues): the part along the axis
    stays, the part across it turns in the plane across the axis. *)
Definition turned (x y z c s p q r : F) : triple :=
  let along := x * p + y * q + z * r in
  let one_c := one - c in
  (c * p + s * (y * r - z * q) + one_c * along * x,
   c * q + s * (z * p - x * r) + one_c * along * y,
   c * r + s * (x * q - y * p) + one_c * along * z).
End Spec.
