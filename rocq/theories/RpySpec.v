(** Specification for C102: rotations of space, and turning about the axes one after the other. *)
From Coq Require Import List Arith Bool Reals.
From Verif Require Import MatModel MatSpec.
Local Open Scope R_scope.

Definition matrix3 := nat -> nat -> R.
(** rows at right angles and of length one, and no reflection *)
Definition rows_dot (A : matrix3) (i j : nat) : R := A i 0%nat * A j 0%nat + A i 1%nat * A j 1%nat + A i 2%nat * A j 2%nat.
Definition rotation (A : matrix3) : Prop :=
  (forall i j, (i < 3)%nat -> (j < 3)%nat -> rows_dot A i j = if Nat.eqb i j then 1 else 0) /\
  A 0%nat 0%nat * (A 1%nat 1%nat * A 2%nat 2%nat - A 1%nat 2%nat * A 2%nat 1%nat) - A 0%nat 1%nat * (A 1%nat 0%nat * A 2%nat 2%nat - A 1%nat 2%nat * A 2%nat 0%nat)
    + A 0%nat 2%nat * (A 1%nat 0%nat * A 2%nat 1%nat - A 1%nat 1%nat * A 2%nat 0%nat) = 1.
(** the point (x,y,z) turned by [t] about the axes *)
Definition about_x (t : R) (p : R * R * R) : R * R * R := let '(x, y, z) := p in (x, y * cos t - z * sin t, y * sin t + z * cos t).
Definition about_y (t : R) (p : R * R * R) : R * R * R := let '(x, y, z) := p in (x * cos t + z * sin t, y, z * cos t - x * sin t).
Definition about_z (t : R) (p : R * R * R) : R * R * R := let '(x, y, z) := p in (x * cos t - y * sin t, x * sin t + y * cos t, z).
Definition times (A : matrix3) (p : R * R * R) : R * R * R :=
  let '(x, y, z) := p in let r i := A i 0%nat * x + A i 1%nat * y + A i 2%nat * z in (r 0%nat, r 1%nat, r 2%nat).
(** the call makes a matrix at [e] that turns the points as [f] does, and changes nothing else *)
Definition makes (e : nat) (f : R * R * R -> R * R * R) (s : state R) (o : res R matrix) : Prop :=
  match o with
  | Done _ m s' => m = Mx e 3 3 /\ length (ar R s' e) = 9%nat /\ (forall v, v <> e -> ar R s' v = ar R s v) /\ forall p, times (entry 0 s' m) p = f p
  | _ => False
  end.
(** the same with the matrix given *)
Definition makes_matrix (e : nat) (A : matrix3) (s : state R) (o : res R matrix) : Prop :=
  match o with
  | Done _ m s' => m = Mx e 3 3 /\ length (ar R s' e) = 9%nat /\ (forall v, v <> e -> ar R s' v = ar R s v) /\
                   forall i j, (i < 3)%nat -> (j < 3)%nat -> entry 0 s' m i j = A i j
  | _ => False
  end.
