(** Specification for C98: turning about an axis (Rodrigues' formula), and what makes quaternions a way to write it. *)
From Coq Require Import Reals.
From Verif Require Import GeoModel QuatModel.
Local Open Scope R_scope.

Definition unit_vec (k : vec) : Prop := vx k * vx k + vy k * vy k + vz k * vz k = 1.
(** r turned by the angle t about the unit axis k *)
Definition turn (k : vec) (t : R) (r : vec) : vec :=
  let d := vx k * vx r + vy k * vy r + vz k * vz r in
  V (vx r * cos t + (vy k * vz r - vz k * vy r) * sin t + vx k * d * (1 - cos t))
    (vy r * cos t + (vz k * vx r - vx k * vz r) * sin t + vy k * d * (1 - cos t))
    (vz r * cos t + (vx k * vy r - vy k * vx r) * sin t + vz k * d * (1 - cos t)).
(** the same direction *)
Definition along_axis (k axis : vec) : Prop := unit_vec k /\ exists m, 0 < m /\ vx axis = m * vx k /\ vy axis = m * vy k /\ vz axis = m * vz k.
Definition unit_quat (q : quaternion) : Prop := qs q * qs q + (vx (qa q) * vx (qa q) + vy (qa q) * vy (qa q) + vz (qa q) * vz (qa q)) = 1.
Definition one_quat : quaternion := Q 1 (V 0 0 0).
(** keeps lengths, angles and handedness *)
Definition rotation (f : vec -> vec) : Prop :=
  (forall u v, vdot (f u) (f v) = vdot u v) /\ (forall u v, f (vcross u v) = vcross (f u) (f v)).
