(** C98: quaternions are rotations. *)
From Coq Require Import Reals Lra.
From Verif Require Import GeoModel QuatModel QuatSpec QuatProofs.
Local Open Scope R_scope.

(** The quaternion made from an angle of one turn at most and an axis turns vectors by that angle about that axis; :inverse-transform-vector turns
    them back; :angle and :axis give what it was made from. *)
Theorem C98_rotation_partial : forall k axis t, along_axis k axis -> 0 <= t <= 2 * PI ->
  exists q, quat_rotation t axis = Some q /\ unit_quat q /\ (forall r, transform_vector q r = turn k t r) /\
    (forall r, inverse_transform_vector q (turn k t r) = r) /\ quat_angle q = t /\ (0 < t < 2 * PI -> quat_axis q = Some k).
Proof.
  intros k axis t A B. destruct (rotation_turn k axis t A B) as [q [Q1 [U H]]]. destruct (angle_back k axis t A B) as [q2 [Q2 [AN AX]]].
  rewrite Q1 in Q2. injection Q2 as <-. exists q. split; [exact Q1|]. split; [exact U|]. split; [exact H|]. split; [|split; assumption].
  intros r. rewrite <- H, inverse_conjugate, !T_unit by (try apply conj_unit; exact U). apply T_conj, U.
Qed.
Print Assumptions C98_rotation_partial.
(** a quarter turn about the z axis takes x to y *)
Example C98_rotation_ex : along_axis (V 0 0 1) (V 0 0 2) /\ 0 <= PI / 2 <= 2 * PI /\ turn (V 0 0 1) (PI / 2) (V 1 0 0) = V 0 1 0.
Proof.
  pose proof PI_RGT_0. split; [|split; [lra|]].
  - split; [unfold unit_vec; cbn [vx vy vz]; ring|]. exists 2. cbn [vx vy vz]. repeat split; lra.
  - unfold turn. cbn [vx vy vz]. rewrite cos_PI2, sin_PI2. f_equal; ring.
Qed.

(** The product of quaternions, and :concat, is one rotation after the other; all of them keep lengths, angles and handedness; the conjugate, which
    is the inverse, undoes them. *)
Theorem C98_product : forall p q, unit_quat p -> unit_quat q ->
  unit_quat (qmul p q) /\ quat_concat p q = qmul p q /\
  (forall r, transform_vector (qmul p q) r = transform_vector p (transform_vector q r)) /\
  rotation (transform_vector q) /\
  (forall r, inverse_transform_vector q (transform_vector q r) = r /\ transform_vector q (inverse_transform_vector q r) = r) /\
  inverse_quaternion q = Some (quat_conjugate q) /\ qmul q (quat_conjugate q) = one_quat /\ qmul (quat_conjugate q) q = one_quat.
Proof.
  intros p q P U. split; [apply qmul_unit; assumption|]. split; [reflexivity|]. split; [intros r; apply transform_mul; assumption|].
  split; [apply transform_rotation, U|]. split; [|split; [apply inverse_unit, U | apply conj_mul, U]].
  intros r. rewrite !inverse_conjugate, !T_unit by (try apply conj_unit; exact U). apply T_conj, U.
Qed.
Print Assumptions C98_product.
Example C98_product_ex : unit_quat (Q (3 / 5) (V 0 (4 / 5) 0)) /\ unit_quat (Q (1 / 2) (V (1 / 2) (1 / 2) (1 / 2))) /\
  qmul (Q (3 / 5) (V 0 (4 / 5) 0)) (Q (1 / 2) (V (1 / 2) (1 / 2) (1 / 2))) = Q (- (1 / 10)) (V (7 / 10) (7 / 10) (- (1 / 10))).
Proof.
  unfold unit_quat, qmul, vplus, scale, vcross, vdot. cbn [qs qa vx vy vz]. split; [field|]. split; [field|]. f_equal; [field | f_equal; field].
Qed.
(** The product is associative, has a unit, and multiplies the norms. *)
Theorem C98_algebra : (forall p q r, qmul p (qmul q r) = qmul (qmul p q) r) /\ (forall q, qmul q one_quat = q /\ qmul one_quat q = q) /\
  (forall p q, quat_norm (qmul p q) = quat_norm p * quat_norm q) /\ (forall q, unit_quat q <-> quat_norm q = 1).
Proof. split; [exact qmul_assoc|]. split; [exact qmul_one|]. split; [exact norm_mul | exact unit_norm]. Qed.
Print Assumptions C98_algebra.

(** Where it is false: a negative angle turns the other way; and :inverse-quaternion is not the inverse unless the norm is one, because it divides by
    the norm instead of its square. *)
Theorem C98_refuted :
  (exists q, quat_rotation (- (PI / 2)) (V 0 0 1) = Some q /\ transform_vector q (V 1 0 0) = V 0 1 0 /\ turn (V 0 0 1) (- (PI / 2)) (V 1 0 0) = V 0 (-1) 0) /\
  (exists i, inverse_quaternion (Q 2 (V 0 0 0)) = Some i /\ qmul (Q 2 (V 0 0 0)) i <> one_quat).
Proof.
  pose proof PI_RGT_0 as PP. destruct C98_rotation_ex as [_ [_ TX]]. split.
  - assert (A : along_axis (V 0 0 1) (V 0 0 1)).
    { split; [unfold unit_vec; cbn [vx vy vz]; ring|]. exists 1. cbn [vx vy vz]. repeat split; lra. }
    destruct (rotation_turn _ _ (PI / 2) A ltac:(lra)) as [q [Q1 [_ H]]]. exists q. split; [|split].
    + rewrite <- Q1. unfold quat_rotation. f_equal. replace (- (PI / 2) / 2) with (- (PI / 2 / 2)) by field. apply cos_neg.
    + rewrite H. exact TX.
    + unfold turn. cbn [vx vy vz]. rewrite cos_neg, sin_neg, cos_PI2, sin_PI2. f_equal; ring.
  - assert (N : quat_norm (Q 2 (V 0 0 0)) = 2).
    { unfold quat_norm, vdot. cbn [qs qa vx vy vz]. replace (2 * 2 + (0 * 0 + 0 * 0 + 0 * 0)) with (2 * 2) by ring. apply sqrt_square. lra. }
    eexists. split.
    + unfold inverse_quaternion. rewrite N. unfold ndiv. destruct (Req_EM_T 2 0) as [E|_]; [exfalso; lra|]. reflexivity.
    + intros E. assert (S : qs (qmul (Q 2 (V 0 0 0)) (Q (2 / 2) (scale (1 / 2) (vneg (V 0 0 0))))) = 1) by (change 1 with (qs one_quat); f_equal; exact E).
      unfold qmul, vdot, scale, vneg in S. cbn [qs qa vx vy vz] in S. lra.
Qed.
Print Assumptions C98_refuted.
