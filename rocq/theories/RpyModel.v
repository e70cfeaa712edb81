(** rpy-matrix and euler-matrix (/repo/lisp/l/array.l lines 316-333), rpy-angle and euler-angle (INV_RPY and INV_EULER, /repo/lisp/c/matrix.c lines 1156-1222).
    rotation-matrix and rotate-matrix are those of C87; rotate-matrix works in place.

    Simplifications: the numbers are real numbers, without rounding; the checks that the argument is a matrix of three columns are left out, the matrix being
    given by its elements, mv[3*i+j] as [m i j]. *)
From Coq Require Import List Arith Bool Reals.
From Verif Require Import MatModel RotModel QuatModel.
Import ListNotations.
Local Open Scope R_scope.

(** (rotation-matrix th a) makes a new matrix, [e] being the address of its entity *)
Definition rotation_matrix (th : R) (a : axis) (e : nat) : M R matrix := fun s =>
  Done R (Mx e 3 3) (St R (fun w => if Nat.eqb w e then map (fun k => ROTATION_AXIS R 0 1 Ropp a false (cos th) (sin th) (Nat.div k 3) (Nat.modulo k 3)) (seq 0 9) else ar R s w) (buf R s)).
(** (rotate-matrix r th a worldp r) *)
Definition rotate_matrix (r : matrix) (th : R) (a : axis) (worldp : bool) : M R matrix := ROTMAT R Rplus Rmult Ropp true r (cos th) (sin th) a false worldp r.
(** array.l 325-333 *)
Definition rpy_matrix (az ay ax : R) (e : nat) : M R matrix :=
  bind R (rotation_matrix ax AX e) (fun r => bind R (rotate_matrix r ay AY true) (fun r => rotate_matrix r az AZ true)).
(** array.l 316-323 *)
Definition euler_matrix (az ay az2 : R) (e : nat) : M R matrix :=
  bind R (rotation_matrix az AZ e) (fun r => bind R (rotate_matrix r ay AY false) (fun r => rotate_matrix r az2 AZ false)).

(** matrix.c 1173-1175, and again 1180-1182 *)
Definition rpy_rest (m : mat R) (a : R) : R * R * R :=
  let sa := sin a in let ca := cos a in
  let b := atan2 (- m 2%nat 0%nat) (ca * m 0%nat 0%nat + sa * m 1%nat 0%nat) in
  let c := atan2 (sa * m 0%nat 2%nat - ca * m 1%nat 2%nat) (- sa * m 0%nat 1%nat + ca * m 1%nat 1%nat) in
  (a, b, c).
(** matrix.c 1157-1187; the list of the two lists is a pair *)
Definition INV_RPY (m : mat R) : (R * R * R) * (R * R * R) :=
  let a := atan2 (m 1%nat 0%nat) (m 0%nat 0%nat) in (rpy_rest m a, rpy_rest m (a + PI)).

(** the two tests of one element, 1204 *)
Definition within (x : R) : bool := if Rlt_dec (- (1 / 100000)) x then (if Rlt_dec x (1 / 100000) then true else false) else false.
(** 1206-1208, and again 1213-1215 *)
Definition euler_rest (m : mat R) (a : R) : R * R * R :=
  let sa := sin a in let ca := cos a in
  let b := atan2 (ca * m 0%nat 2%nat + sa * m 1%nat 2%nat) (m 2%nat 2%nat) in
  let c := atan2 (- sa * m 0%nat 0%nat + ca * m 1%nat 0%nat) (- sa * m 0%nat 1%nat + ca * m 1%nat 1%nat) in
  (a, b, c).
(** matrix.c 1189-1220 *)
Definition INV_EULER (m : mat R) : (R * R * R) * (R * R * R) :=
  let a := if within (m 1%nat 2%nat) && within (m 0%nat 2%nat) then 0 else atan2 (m 1%nat 2%nat) (m 0%nat 2%nat) in
  (euler_rest m a, euler_rest m (a + PI)).
