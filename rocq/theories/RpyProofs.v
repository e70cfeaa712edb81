(** Roll, pitch and yaw, and Euler's angles. *)
From Coq Require Import List Arith Bool Reals Lra Lia Psatz.
From Verif Require Import MatModel MatSpec RotModel RotSpec RotProofs RotProofs2 QuatModel RpyModel RpySpec.
Import ListNotations.
Local Open Scope R_scope.

(** ** atan2 *)
Lemma sqrt_scale x y : 0 < x -> x * sqrt (1 + (y / x)²) = sqrt (x * x + y * y).
Proof.
  intros H. rewrite <- (sqrt_square x) at 1 by lra. rewrite <- sqrt_mult_alt by nra. f_equal. unfold Rsqr. field. lra.
Qed.
Lemma one_sq t : 0 < sqrt (1 + t²).
Proof. apply sqrt_lt_R0. pose proof (Rle_0_sqr t). lra. Qed.
Lemma atan2_polar y x : sqrt (x * x + y * y) * cos (atan2 y x) = x /\ sqrt (x * x + y * y) * sin (atan2 y x) = y.
Proof.
  unfold atan2. destruct (Rlt_dec 0 x) as [P | P].
  - rewrite cos_atan, sin_atan, <- (sqrt_scale x y P). pose proof (one_sq (y / x)) as Q. split; field; try split; lra.
  - destruct (Rlt_dec x 0) as [N | N].
    + assert (E : sqrt (x * x + y * y) = - x * sqrt (1 + (y / x)²)).
      { replace (x * x + y * y) with (- x * - x + y * y) by ring. rewrite <- sqrt_scale by lra. do 3 f_equal. unfold Rsqr. field. lra. }
      pose proof (one_sq (y / x)) as Q. rewrite E. destruct (Rlt_dec y 0).
      * replace (atan (y / x) - PI) with (atan (y / x) + PI - 2 * INR 1 * PI) by (cbn [INR]; ring).
        assert (C : forall t, cos (t + PI - 2 * INR 1 * PI) = - cos t) by (intros t; cbn [INR]; replace (t + PI - 2 * 1 * PI) with (- (PI - t)) by ring; rewrite cos_neg, cos_minus, cos_PI, sin_PI; ring).
        assert (S : forall t, sin (t + PI - 2 * INR 1 * PI) = - sin t) by (intros t; cbn [INR]; replace (t + PI - 2 * 1 * PI) with (- (PI - t)) by ring; rewrite sin_neg, sin_minus, cos_PI, sin_PI; ring).
        rewrite C, S, cos_atan, sin_atan. split; field; try split; lra.
      * rewrite neg_cos, neg_sin, cos_atan, sin_atan. split; field; try split; lra.
    + assert (x = 0) as -> by lra. replace (0 * 0 + y * y) with (y * y) by ring. destruct (Rlt_dec 0 y) as [Py | Py].
      * rewrite sqrt_square, cos_PI2, sin_PI2 by lra. split; ring.
      * destruct (Rlt_dec y 0) as [Ny | Ny].
        -- replace (y * y) with (- y * - y) by ring. rewrite sqrt_square, cos_neg, sin_neg, cos_PI2, sin_PI2 by lra. split; ring.
        -- assert (y = 0) as -> by lra. rewrite Rmult_0_r, sqrt_0. split; ring.
Qed.
Lemma atan2_unit y x : x * x + y * y = 1 -> cos (atan2 y x) = x /\ sin (atan2 y x) = y.
Proof. intros E. destruct (atan2_polar y x) as [A B]. rewrite E, sqrt_1 in *. lra. Qed.
Lemma atan2_range y x : - PI < atan2 y x <= PI.
Proof.
  pose proof PI_RGT_0 as PP. unfold atan2. pose proof (atan_bound (y / x)) as B.
  destruct (Rlt_dec 0 x); [lra|]. destruct (Rlt_dec x 0) as [N | N].
  - destruct (Rlt_dec y 0) as [Y | Y].
    + assert (0 < y / x) by (replace (y / x) with (- y * / - x) by (field; lra); apply Rmult_lt_0_compat; [lra | apply Rinv_0_lt_compat; lra]).
      assert (0 < atan (y / x)) by (rewrite <- atan_0; apply atan_increasing; assumption). lra.
    + assert (y / x <= 0) by (replace (y / x) with (- (y * / - x)) by (field; lra); apply Ropp_le_cancel; rewrite Ropp_0, Ropp_involutive; apply Rmult_le_pos; [lra | apply Rlt_le, Rinv_0_lt_compat; lra]).
      assert (atan (y / x) <= 0) by (rewrite <- atan_0; destruct (Req_dec (y / x) 0) as [-> | Ne]; [lra | apply Rlt_le, atan_increasing; lra]). lra.
  - destruct (Rlt_dec 0 y); [lra|]. destruct (Rlt_dec y 0); lra.
Qed.
Lemma angle_unique p q : - PI < p <= PI -> - PI < q <= PI -> cos p = cos q -> sin p = sin q -> p = q.
Proof.
  intros Hp Hq C S. assert (E : cos (2 * ((p - q) / 2)) = 1).
  { replace (2 * ((p - q) / 2)) with (p - q) by field. rewrite cos_minus, C, S. pose proof (sin2_cos2 q) as Q. unfold Rsqr in Q. lra. }
  rewrite cos_2a_sin in E. assert (Z : sin ((p - q) / 2) = 0) by nra.
  destruct (Rtotal_order p q) as [L | [-> | L]]; [|reflexivity|]; exfalso.
  - assert (0 < sin ((q - p) / 2)) by (apply sin_gt_0; lra). replace ((p - q) / 2) with (- ((q - p) / 2)) in Z by field. rewrite sin_neg in Z. lra.
  - assert (0 < sin ((p - q) / 2)) by (apply sin_gt_0; lra). lra.
Qed.
Lemma atan2_back k p : 0 < k -> - PI < p <= PI -> atan2 (k * sin p) (k * cos p) = p.
Proof.
  intros K P. destruct (atan2_polar (k * sin p) (k * cos p)) as [A B].
  assert (E : sqrt (k * cos p * (k * cos p) + k * sin p * (k * sin p)) = k).
  { replace (k * cos p * (k * cos p) + k * sin p * (k * sin p)) with (k * k * ((sin p)² + (cos p)²)) by (unfold Rsqr; ring).
    rewrite sin2_cos2, Rmult_1_r. apply sqrt_square. lra. }
  rewrite E in A, B. apply angle_unique; [apply atan2_range | exact P | |]; apply (Rmult_eq_reg_l k); lra.
Qed.

(** ** The matrices *)
Definition rpy_entries (a b c : R) : matrix3 := fun i j =>
  let sa := sin a in let ca := cos a in let sb := sin b in let cb := cos b in let sc := sin c in let cc := cos c in
  nth (i * 3 + j)%nat [ca * cb; ca * sb * sc - sa * cc; ca * sb * cc + sa * sc;
                       sa * cb; sa * sb * sc + ca * cc; sa * sb * cc - ca * sc;
                       - sb; cb * sc; cb * cc] 0.
Definition euler_entries (a b c : R) : matrix3 := fun i j =>
  let sa := sin a in let ca := cos a in let sb := sin b in let cb := cos b in let sc := sin c in let cc := cos c in
  nth (i * 3 + j)%nat [ca * cb * cc - sa * sc; - ca * cb * sc - sa * cc; ca * sb;
                       sa * cb * cc + ca * sc; - sa * cb * sc + ca * cc; sa * sb;
                       - sb * cc; sb * sc; cb] 0.
Ltac each i j := destruct i as [|[|[|i]]]; [| | | exfalso; lia]; (destruct j as [|[|[|j]]]; [| | | exfalso; lia]).
Lemma rotation_matrix_ok th a e s : a <> ANil -> makes_matrix e (ROTATION_AXIS R 0 1 Ropp a false (cos th) (sin th)) s (rotation_matrix th a e s).
Proof.
  intros Ha. unfold rotation_matrix, makes_matrix. cbn [ar]. rewrite Nat.eqb_refl. split; [reflexivity|]. split; [reflexivity|].
  split; [intros v Hv; destruct (Nat.eqb_spec v e); [congruence | reflexivity]|].
  intros i j Hi Hj. unfold entry, MatSpec.elt. cbn [ar ent cols]. rewrite Nat.eqb_refl. each i j; reflexivity.
Qed.
Lemma rotate_matrix_ok th a (worldp : bool) e A s s0 : a <> ANil -> makes_matrix e A s (Done R (Mx e 3 3) s0) ->
  makes_matrix e (fun i j => if worldp then prod3 Rplus Rmult (ROTATION_AXIS R 0 1 Ropp a false (cos th) (sin th)) A i j
                             else prod3 Rplus Rmult A (ROTATION_AXIS R 0 1 Ropp a false (cos th) (sin th)) i j) s (rotate_matrix (Mx e 3 3) th a worldp s0).
Proof.
  intros Ha (_ & L & O & H). unfold rotate_matrix.
  pose proof (ROTMAT_ok R 0 1 Rplus Rmult Rminus Ropp Rdiv Rinv sqrt (fun _ => true) Rfield true (Mx e 3 3) (cos th) (sin th) a false worldp (Mx e 3 3) s0 Ha eq_refl eq_refl eq_refl eq_refl) as K.
  assert (F : fits s0 (Mx e 3 3)) by (unfold fits; cbn [rows cols ent]; rewrite L; cbn; lia).
  specialize (K F F (fun _ => eq_refl)). cbv zeta in K. destruct (ROTMAT R Rplus Rmult Ropp true (Mx e 3 3) (cos th) (sin th) a false worldp (Mx e 3 3) s0) as [m s'| |]; [|exact K|exact K].
  destruct K as (-> & O' & L' & E & _). cbn [ent rows cols] in *. split; [reflexivity|]. split; [congruence|].
  split; [intros v Hv; rewrite O', O by exact Hv; reflexivity|]. intros i j Hi Hj. rewrite E by assumption.
  destruct worldp; unfold prod3; rewrite !H by lia; reflexivity.
Qed.
Lemma makes_ext e A B s o : (forall i j, (i < 3)%nat -> (j < 3)%nat -> A i j = B i j) -> makes_matrix e A s o -> makes_matrix e B s o.
Proof. intros E H. destruct o; [|exact H|exact H]. destruct H as (H1 & H2 & H3 & H4). split; [exact H1|]. split; [exact H2|]. split; [exact H3|]. intros. rewrite H4, E by assumption. reflexivity. Qed.
Lemma rpy_matrix_ok a b c e s : makes_matrix e (rpy_entries a b c) s (rpy_matrix a b c e s).
Proof.
  unfold rpy_matrix, bind. pose proof (rotation_matrix_ok c AX e s ltac:(discriminate)) as H1.
  destruct (rotation_matrix c AX e s) as [m1 s1| |] eqn:E1; [|destruct H1|destruct H1]. assert (m1 = Mx e 3 3) as -> by apply H1.
  pose proof (rotate_matrix_ok b AY true e _ s s1 ltac:(discriminate) H1) as H2.
  destruct (rotate_matrix (Mx e 3 3) b AY true s1) as [m2 s2| |] eqn:E2; [|destruct H2|destruct H2]. assert (m2 = Mx e 3 3) as -> by apply H2.
  pose proof (rotate_matrix_ok a AZ true e _ s s2 ltac:(discriminate) H2) as H3. eapply makes_ext; [|exact H3].
  intros i j Hi Hj. cbv beta. unfold prod3, rpy_entries, ROTATION_AXIS, of_list. each i j; cbn [Nat.mul Nat.add nth]; ring.
Qed.
Lemma euler_matrix_ok a b c e s : makes_matrix e (euler_entries a b c) s (euler_matrix a b c e s).
Proof.
  unfold euler_matrix, bind. pose proof (rotation_matrix_ok a AZ e s ltac:(discriminate)) as H1.
  destruct (rotation_matrix a AZ e s) as [m1 s1| |] eqn:E1; [|destruct H1|destruct H1]. assert (m1 = Mx e 3 3) as -> by apply H1.
  pose proof (rotate_matrix_ok b AY false e _ s s1 ltac:(discriminate) H1) as H2.
  destruct (rotate_matrix (Mx e 3 3) b AY false s1) as [m2 s2| |] eqn:E2; [|destruct H2|destruct H2]. assert (m2 = Mx e 3 3) as -> by apply H2.
  pose proof (rotate_matrix_ok c AZ false e _ s s2 ltac:(discriminate) H2) as H3. eapply makes_ext; [|exact H3].
  intros i j Hi Hj. cbv beta. unfold prod3, euler_entries, ROTATION_AXIS, of_list. each i j; cbn [Nat.mul Nat.add nth]; ring.
Qed.
