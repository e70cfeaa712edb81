(** Quaternions: /repo/lib/llib/quaternion.l lines 10-52, with normalize-vector (/repo/lisp/c/matrix.c lines 290-311).

    Simplifications: floats are real numbers, so nothing is rounded; [None] stands for the NaN of a division by zero or of the root
    of a negative number. *)
From Coq Require Import Reals.
From Verif Require Import GeoModel.
Local Open Scope R_scope.

Record quaternion := Q { qs : R; qa : vec }.
(** scale, unary v-: matrix.c SCALEVEC, VMINUS *)
Definition scale (k : R) (v : vec) : vec := V (k * vx v) (k * vy v) (k * vz v).
Definition vneg (v : vec) : vec := V (- vx v) (- vy v) (- vz v).
(** normalize-vector: matrix.c 290-311 *)
Definition normalize_vector (v : vec) : option vec :=
  let sum := vnorm v in
  match ndiv (vx v) sum, ndiv (vy v) sum, ndiv (vz v) sum with Some x, Some y, Some z => Some (V x y z) | _, _, _ => None end.
Definition nsqrt (x : R) : option R := if Rlt_dec x 0 then None else Some (sqrt x).
(** (:init (ss aa)): lines 16-18 *)
Definition quat_init (ss : R) (aa : vec) : option quaternion :=
  match nsqrt (1 - ss * ss), normalize_vector aa with Some k, Some n => Some (Q ss (scale k n)) | _, _ => None end.
(** (:norm ()), (:conjugate ()), (:inverse-quaternion ()), (:rotation (theta axis)): lines 19-25 *)
Definition quat_norm (q : quaternion) : R := sqrt (qs q * qs q + vdot (qa q) (qa q)).
Definition quat_conjugate (q : quaternion) : quaternion := Q (qs q) (vneg (qa q)).
Definition inverse_quaternion (q : quaternion) : option quaternion :=
  let norm := quat_norm q in
  match ndiv (qs q) norm, ndiv 1 norm with Some s, Some k => Some (Q s (scale k (vneg (qa q)))) | _, _ => None end.
Definition quat_rotation (theta : R) (axis : vec) : option quaternion := quat_init (cos (theta / 2)) axis.
(** (:inverse-transform-vector (v)): lines 26-29; (:transform-vector (r)): lines 30-33, v++ adds *)
Definition inverse_transform_vector (q : quaternion) (v : vec) : vec :=
  vplus (vminus (scale (2 * qs q * qs q - 1) v) (scale (2 * qs q) (vcross (qa q) v))) (scale (2 * vdot (qa q) v) (qa q)).
Definition transform_vector (q : quaternion) (r : vec) : vec :=
  vplus (vplus (scale (2 * qs q * qs q - 1) r) (scale (2 * vdot (qa q) r) (qa q))) (scale (2 * qs q) (vcross (qa q) r)).
(** atan with two arguments: the C library's atan2 *)
Definition atan2 (y x : R) : R :=
  if Rlt_dec 0 x then atan (y / x)
  else if Rlt_dec x 0 then (if Rlt_dec y 0 then atan (y / x) - PI else atan (y / x) + PI)
  else if Rlt_dec 0 y then PI / 2 else if Rlt_dec y 0 then - (PI / 2) else 0.
(** (:angle ()), (:axis ()): lines 34-35 *)
Definition quat_angle (q : quaternion) : R := 2 * atan2 (vnorm (qa q)) (qs q).
Definition quat_axis (q : quaternion) : option vec := normalize_vector (qa q).
(** q-star: lines 46-52; (:concat (q)), lines 36-41, puts the same into the receiver *)
Definition qmul (q1 q2 : quaternion) : quaternion :=
  Q (qs q1 * qs q2 - vdot (qa q1) (qa q2))
    (vplus (vplus (scale (qs q1) (qa q2)) (scale (qs q2) (qa q1))) (vcross (qa q1) (qa q2))).
Definition quat_concat (self q : quaternion) : quaternion :=
  let s2 := qs q in let a2 := qa q in
  Q (qs self * s2 - vdot (qa self) a2) (vplus (vplus (scale (qs self) a2) (scale s2 (qa self))) (vcross (qa self) a2)).
