(** Proofs for C98. *)
From Coq Require Import Reals Lra Psatz.
From Verif Require Import GeoModel QuatModel QuatSpec.
Local Open Scope R_scope.

Ltac comp := unfold transform_vector, inverse_transform_vector, qmul, quat_concat, quat_conjugate, scale, vneg, vplus, vminus, vcross, vdot in *;
  cbn [qs qa vx vy vz] in *.
(** the homogeneous form *)
Definition T (q : quaternion) (r : vec) : vec :=
  let s := qs q in let a := qa q in
  vplus (vplus (scale (s * s - vdot a a) r) (scale (2 * vdot a r) a)) (scale (2 * s) (vcross a r)).
Lemma T_unit : forall q r, unit_quat q -> transform_vector q r = T q r.
Proof.
  intros [s [a b c]] [x y z] H. unfold unit_quat in H. unfold T. comp. replace (2 * s * s - 1) with (s * s - (a * a + b * b + c * c)) by lra. reflexivity.
Qed.
Lemma inverse_conjugate : forall q r, inverse_transform_vector q r = transform_vector (quat_conjugate q) r.
Proof. intros [s [a b c]] [x y z]. comp. f_equal; ring. Qed.
Lemma conj_unit : forall q, unit_quat q -> unit_quat (quat_conjugate q).
Proof. intros [s [a b c]] H. unfold unit_quat in *. comp. rewrite <- H. ring. Qed.
Lemma qmul_unit : forall p q, unit_quat p -> unit_quat q -> unit_quat (qmul p q).
Proof.
  intros [s [a b c]] [t [d e f]] H1 H2. unfold unit_quat in *. comp.
  transitivity ((s * s + (a * a + b * b + c * c)) * (t * t + (d * d + e * e + f * f))); [ring|]. rewrite H1, H2. ring.
Qed.
Lemma T_mul : forall p q r, T (qmul p q) r = T p (T q r).
Proof. intros [s [a b c]] [t [d e f]] [x y z]. unfold T. comp. f_equal; ring. Qed.
Lemma transform_mul : forall p q r, unit_quat p -> unit_quat q -> transform_vector (qmul p q) r = transform_vector p (transform_vector q r).
Proof. intros p q r H1 H2. rewrite !T_unit by (try apply qmul_unit; assumption). apply T_mul. Qed.
Lemma T_conj : forall q r, unit_quat q -> T (quat_conjugate q) (T q r) = r /\ T q (T (quat_conjugate q) r) = r.
Proof.
  intros q r H. rewrite <- !T_mul.
  assert (E : qmul (quat_conjugate q) q = one_quat /\ qmul q (quat_conjugate q) = one_quat).
  { destruct q as [s [a b c]]. unfold unit_quat, one_quat in *. comp. split; (f_equal; [rewrite <- H; ring | f_equal; ring]). }
  destruct E as [-> ->]. destruct r as [x y z]. unfold T, one_quat. comp. split; f_equal; ring.
Qed.
Lemma transform_rotation : forall q, unit_quat q -> rotation (transform_vector q).
Proof.
  intros q H. split; intros u v.
  - rewrite !T_unit by exact H. destruct q as [s [a b c]], u as [x y z], v as [x2 y2 z2]. unfold unit_quat in H. unfold T. comp.
    transitivity ((s * s + (a * a + b * b + c * c)) * (s * s + (a * a + b * b + c * c)) * (x * x2 + y * y2 + z * z2)); [ring|]. rewrite H. ring.
  - rewrite !T_unit by exact H. destruct q as [s [a b c]], u as [x y z], v as [x2 y2 z2]. unfold unit_quat in H.
    assert (E : vcross (T (Q s (V a b c)) (V x y z)) (T (Q s (V a b c)) (V x2 y2 z2)) =
      scale (s * s + (a * a + b * b + c * c)) (T (Q s (V a b c)) (vcross (V x y z) (V x2 y2 z2)))).
    { unfold T. comp. f_equal; ring. }
    cbn [qs qa vx vy vz] in H. rewrite E, H. generalize (T (Q s (V a b c)) (vcross (V x y z) (V x2 y2 z2))). intros [p1 p2 p3].
    unfold scale. cbn [vx vy vz]. f_equal; ring.
Qed.
Lemma qmul_assoc : forall p q r, qmul p (qmul q r) = qmul (qmul p q) r.
Proof. intros [s [a b c]] [t [d e f]] [u [g h i]]. comp. f_equal; [ring | f_equal; ring]. Qed.
Lemma qmul_one : forall q, qmul q one_quat = q /\ qmul one_quat q = q.
Proof. intros [s [a b c]]. unfold one_quat. comp. split; (f_equal; [ring | f_equal; ring]). Qed.
Lemma norm_mul : forall p q, quat_norm (qmul p q) = quat_norm p * quat_norm q.
Proof.
  intros [s [a b c]] [t [d e f]]. unfold quat_norm. rewrite <- sqrt_mult by (unfold vdot; cbn [qs qa vx vy vz]; nra).
  f_equal. comp. ring.
Qed.
Lemma unit_norm : forall q, unit_quat q <-> quat_norm q = 1.
Proof.
  intros q. unfold unit_quat, quat_norm. change (vx (qa q) * vx (qa q) + vy (qa q) * vy (qa q) + vz (qa q) * vz (qa q)) with (vdot (qa q) (qa q)). split; intros H.
  - rewrite H. apply sqrt_1.
  - assert (0 <= qs q * qs q + vdot (qa q) (qa q)) by (unfold vdot; nra). rewrite <- (sqrt_sqrt _ H0), H. ring.
Qed.
Lemma inverse_unit : forall q, unit_quat q -> inverse_quaternion q = Some (quat_conjugate q).
Proof.
  intros q H. pose proof (proj1 (unit_norm q) H) as N. unfold inverse_quaternion. rewrite N. unfold ndiv.
  destruct (Req_EM_T 1 0) as [E|_]; [exfalso; lra|]. f_equal. unfold quat_conjugate, scale. destruct q as [s [a b c]]. cbn [qs qa]. unfold vneg. cbn [vx vy vz].
  f_equal; [field | f_equal; field].
Qed.
Lemma conj_mul : forall q, unit_quat q -> qmul q (quat_conjugate q) = one_quat /\ qmul (quat_conjugate q) q = one_quat.
Proof.
  intros [s [a b c]] H. unfold unit_quat, one_quat in *. comp. split; (f_equal; [rewrite <- H; ring | f_equal; ring]).
Qed.

(** * from an angle and an axis *)
Lemma norm_along : forall k axis m, unit_vec k -> 0 < m -> vx axis = m * vx k -> vy axis = m * vy k -> vz axis = m * vz k -> vnorm axis = m.
Proof.
  intros k axis m U M X Y Z. unfold vnorm, vdot. rewrite X, Y, Z. unfold unit_vec in U.
  replace (m * vx k * (m * vx k) + m * vy k * (m * vy k) + m * vz k * (m * vz k)) with (m * m * (vx k * vx k + vy k * vy k + vz k * vz k)) by ring.
  rewrite U, Rmult_1_r. apply sqrt_square. lra.
Qed.
Lemma normalize_along : forall k axis, along_axis k axis -> normalize_vector axis = Some k.
Proof.
  intros k axis [U [m [M [X [Y Z2]]]]]. unfold normalize_vector. rewrite (norm_along k axis m U M X Y Z2). unfold ndiv.
  destruct (Req_EM_T m 0) as [E|_]; [exfalso; lra|]. destruct k as [a b c]. cbn [vx vy vz] in *. rewrite X, Y, Z2. f_equal. f_equal; field; lra.
Qed.
Lemma rotation_quat : forall k axis t, along_axis k axis -> 0 <= t <= 2 * PI ->
  quat_rotation t axis = Some (Q (cos (t / 2)) (scale (sin (t / 2)) k)).
Proof.
  intros k axis t A B. unfold quat_rotation, quat_init. rewrite (normalize_along k axis A). pose proof (sin2_cos2 (t / 2)) as P. unfold Rsqr in P.
  assert (S : 0 <= sin (t / 2)) by (apply sin_ge_0; lra). unfold nsqrt.
  replace (1 - cos (t / 2) * cos (t / 2)) with (sin (t / 2) * sin (t / 2)) by lra.
  destruct (Rlt_dec (sin (t / 2) * sin (t / 2)) 0); [exfalso; nra|]. rewrite sqrt_square by exact S. reflexivity.
Qed.
Lemma half_unit : forall k t, unit_vec k -> unit_quat (Q (cos (t / 2)) (scale (sin (t / 2)) k)).
Proof.
  intros [a b c] t U. unfold unit_vec, unit_quat in *. comp. pose proof (sin2_cos2 (t / 2)) as P. unfold Rsqr in P.
  set (cs := cos (t / 2)) in *. set (sn := sin (t / 2)) in *. clearbody cs sn.
  replace (sn * a * (sn * a) + sn * b * (sn * b) + sn * c * (sn * c)) with (sn * sn * (a * a + b * b + c * c)) by ring. rewrite U. lra.
Qed.
Lemma half_turn : forall k t r, unit_vec k -> transform_vector (Q (cos (t / 2)) (scale (sin (t / 2)) k)) r = turn k t r.
Proof.
  intros [a b c] t [x y z] U. unfold unit_vec in U. cbn [vx vy vz] in U. unfold turn. comp. pose proof (sin2_cos2 (t / 2)) as P. unfold Rsqr in P.
  assert (C : cos t = 2 * cos (t / 2) * cos (t / 2) - 1) by (replace t with (2 * (t / 2)) at 1 by field; apply cos_2a_cos).
  assert (S : sin t = 2 * sin (t / 2) * cos (t / 2)) by (replace t with (2 * (t / 2)) at 1 by field; apply sin_2a).
  rewrite C, S. set (cs := cos (t / 2)) in *. set (sn := sin (t / 2)) in *. clearbody cs sn.
  assert (K : 1 - (2 * cs * cs - 1) = 2 * (sn * sn)) by lra. rewrite K. f_equal; ring.
Qed.
Lemma rotation_turn : forall k axis t, along_axis k axis -> 0 <= t <= 2 * PI -> exists q, quat_rotation t axis = Some q /\ unit_quat q /\
  forall r, transform_vector q r = turn k t r.
Proof.
  intros k axis t A B. eexists. split; [exact (rotation_quat k axis t A B)|]. split; [apply half_unit, A|]. intros r. apply half_turn, A.
Qed.
(** * and back *)
Lemma atan2_half : forall p, 0 <= p <= PI -> atan2 (sin p) (cos p) = p.
Proof.
  intros p B. pose proof PI_RGT_0 as PP. unfold atan2. destruct (Rlt_dec 0 (cos p)) as [C|C].
  - assert (p < PI / 2). { destruct (Rlt_dec p (PI / 2)); [assumption|]. exfalso. assert (cos p <= 0) by (apply cos_le_0; lra). lra. }
    change (sin p / cos p) with (tan p). apply atan_tan. lra.
  - assert (PI / 2 <= p). { destruct (Rle_dec (PI / 2) p); [assumption|]. exfalso. apply C. apply cos_gt_0; lra. }
    destruct (Rlt_dec (cos p) 0) as [D|D].
    + assert (PI / 2 < p). { destruct (Req_dec p (PI / 2)) as [->|]; [rewrite cos_PI2 in D; lra | lra]. }
      assert (0 <= sin p) by (apply sin_ge_0; lra). destruct (Rlt_dec (sin p) 0); [exfalso; lra|].
      replace (sin p / cos p) with (tan (p - PI)); [rewrite atan_tan by lra; ring|].
      unfold tan. assert (E1 : sin (p - PI) = - sin p) by (rewrite sin_minus, cos_PI, sin_PI; ring). assert (E2 : cos (p - PI) = - cos p) by (rewrite cos_minus, cos_PI, sin_PI; ring).
      rewrite E1, E2. field. lra.
    + assert (p = PI / 2).
      { destruct (Rlt_dec (PI / 2) p) as [G|G]; [|lra]. exfalso. assert (cos p < 0) by (apply cos_lt_0; lra). lra. }
      subst p. rewrite sin_PI2. destruct (Rlt_dec 0 1); [reflexivity | exfalso; lra].
Qed.
Lemma scale_norm : forall k m, unit_vec k -> 0 <= m -> vnorm (scale m k) = m.
Proof.
  intros k m U M. unfold vnorm, vdot, scale. cbn [vx vy vz]. unfold unit_vec in U.
  replace (m * vx k * (m * vx k) + m * vy k * (m * vy k) + m * vz k * (m * vz k)) with (m * m * (vx k * vx k + vy k * vy k + vz k * vz k)) by ring.
  rewrite U, Rmult_1_r. apply sqrt_square, M.
Qed.
Lemma angle_back : forall k axis t, along_axis k axis -> 0 <= t <= 2 * PI -> exists q, quat_rotation t axis = Some q /\ quat_angle q = t /\
  (0 < t < 2 * PI -> quat_axis q = Some k).
Proof.
  intros k axis t A B. eexists. split; [exact (rotation_quat k axis t A B)|]. split.
  - unfold quat_angle. cbn [qs qa]. rewrite scale_norm by (try apply A; apply sin_ge_0; lra). rewrite atan2_half by lra. field.
  - intros B2. unfold quat_axis. cbn [qa]. apply normalize_along. split; [apply A|]. exists (sin (t / 2)). split; [apply sin_gt_0; lra|]. repeat split.
Qed.
