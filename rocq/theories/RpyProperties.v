(** C102: rpy-matrix and euler-matrix turn about the axes in order, and rpy-angle and euler-angle undo them (exact arithmetic). *)
From Coq Require Import List Arith Bool Reals Lra Lia Psatz.
From Verif Require Import MatModel MatSpec RotModel QuatModel RpyModel RpySpec RpyProofs.
Import ListNotations.
Local Open Scope R_scope.

Lemma makes_of e A s o f : makes_matrix e A s o -> (forall p, times A p = f p) -> makes e f s o.
Proof.
  intros H E. destruct o as [m s'| |]; [|exact H|exact H]. destruct H as (H1 & H2 & H3 & H4). split; [exact H1|]. split; [exact H2|]. split; [exact H3|].
  intros p. rewrite <- E. destruct p as [[x y] z]. unfold times. rewrite !H4 by lia. reflexivity.
Qed.
(** about the x, y and z axes of the world in this order *)
Theorem C102_rpy_matrix : forall a b c e s, makes e (fun p => about_z a (about_y b (about_x c p))) s (rpy_matrix a b c e s).
Proof.
  intros a b c e s. eapply makes_of; [apply rpy_matrix_ok|]. intros [[x y] z]. unfold times, rpy_entries, about_x, about_y, about_z. cbn [Nat.mul Nat.add nth].
  f_equal; [f_equal|]; ring.
Qed.
(** about the z axis, the y axis so turned, and the z axis so turned *)
Theorem C102_euler_matrix : forall a b c e s, makes e (fun p => about_z a (about_y b (about_z c p))) s (euler_matrix a b c e s).
Proof.
  intros a b c e s. eapply makes_of; [apply euler_matrix_ok|]. intros [[x y] z]. unfold times, euler_entries, about_y, about_z. cbn [Nat.mul Nat.add nth].
  f_equal; [f_equal|]; ring.
Qed.

(** the elements of a rotation are its cofactors *)
Lemma cofactors A : rotation A ->
  let m i j := A i j in
  m 0%nat 0%nat = m 1%nat 1%nat * m 2%nat 2%nat - m 1%nat 2%nat * m 2%nat 1%nat /\ m 0%nat 1%nat = m 1%nat 2%nat * m 2%nat 0%nat - m 1%nat 0%nat * m 2%nat 2%nat /\
  m 0%nat 2%nat = m 1%nat 0%nat * m 2%nat 1%nat - m 1%nat 1%nat * m 2%nat 0%nat /\
  m 1%nat 0%nat = m 0%nat 2%nat * m 2%nat 1%nat - m 0%nat 1%nat * m 2%nat 2%nat /\ m 1%nat 1%nat = m 0%nat 0%nat * m 2%nat 2%nat - m 0%nat 2%nat * m 2%nat 0%nat /\
  m 1%nat 2%nat = m 0%nat 1%nat * m 2%nat 0%nat - m 0%nat 0%nat * m 2%nat 1%nat /\
  m 2%nat 0%nat = m 0%nat 1%nat * m 1%nat 2%nat - m 0%nat 2%nat * m 1%nat 1%nat /\ m 2%nat 1%nat = m 0%nat 2%nat * m 1%nat 0%nat - m 0%nat 0%nat * m 1%nat 2%nat /\
  m 2%nat 2%nat = m 0%nat 0%nat * m 1%nat 1%nat - m 0%nat 1%nat * m 1%nat 0%nat.
Proof.
  intros [H D]. cbv zeta.
  pose proof (H 0%nat 0%nat ltac:(lia) ltac:(lia)) as H00. pose proof (H 0%nat 1%nat ltac:(lia) ltac:(lia)) as H01. pose proof (H 0%nat 2%nat ltac:(lia) ltac:(lia)) as H02.
  pose proof (H 1%nat 1%nat ltac:(lia) ltac:(lia)) as H11. pose proof (H 1%nat 2%nat ltac:(lia) ltac:(lia)) as H12. pose proof (H 2%nat 2%nat ltac:(lia) ltac:(lia)) as H22.
  unfold rows_dot in *. cbn [Nat.eqb] in *. clear H.
  set (m0 := A 0%nat 0%nat) in *. set (m1 := A 0%nat 1%nat) in *. set (m2 := A 0%nat 2%nat) in *. set (m3 := A 1%nat 0%nat) in *. set (m4 := A 1%nat 1%nat) in *.
  set (m5 := A 1%nat 2%nat) in *. set (m6 := A 2%nat 0%nat) in *. set (m7 := A 2%nat 1%nat) in *. set (m8 := A 2%nat 2%nat) in *. clearbody m0 m1 m2 m3 m4 m5 m6 m7 m8.
  set (d := m0 * (m4 * m8 - m5 * m7) - m1 * (m3 * m8 - m5 * m6) + m2 * (m3 * m7 - m4 * m6)) in *.
  (* x d is a combination of the products of the rows *)
  assert (K : forall x c0 c1 c2 p0 p1 p2, d = 1 -> x * d = c0 * p0 + c1 * p1 + c2 * p2 -> forall i0 i1 i2, p0 = i0 -> p1 = i1 -> p2 = i2 -> x = c0 * i0 + c1 * i1 + c2 * i2).
  { intros x c0 c1 c2 p0 p1 p2 E F i0 i1 i2 -> -> ->. rewrite E in F. lra. }
  set (c00 := m4 * m8 - m5 * m7) in *. set (c01 := m5 * m6 - m3 * m8) in *. set (c02 := m3 * m7 - m4 * m6) in *.
  set (c10 := m2 * m7 - m1 * m8) in *. set (c11 := m0 * m8 - m2 * m6) in *. set (c12 := m1 * m6 - m0 * m7) in *.
  set (c20 := m1 * m5 - m2 * m4) in *. set (c21 := m2 * m3 - m0 * m5) in *. set (c22 := m0 * m4 - m1 * m3) in *.
  split; [|split; [|split; [|split; [|split; [|split; [|split; [|split]]]]]]].
  - rewrite (K m0 c00 c10 c20 (m0 * m0 + m1 * m1 + m2 * m2) (m0 * m3 + m1 * m4 + m2 * m5) (m0 * m6 + m1 * m7 + m2 * m8) D ltac:(subst d c00 c01 c02 c10 c11 c12 c20 c21 c22; ring) 1 0 0 H00 H01 H02). ring.
  - rewrite (K m1 c01 c11 c21 (m0 * m0 + m1 * m1 + m2 * m2) (m0 * m3 + m1 * m4 + m2 * m5) (m0 * m6 + m1 * m7 + m2 * m8) D ltac:(subst d c00 c01 c02 c10 c11 c12 c20 c21 c22; ring) 1 0 0 H00 H01 H02). ring.
  - rewrite (K m2 c02 c12 c22 (m0 * m0 + m1 * m1 + m2 * m2) (m0 * m3 + m1 * m4 + m2 * m5) (m0 * m6 + m1 * m7 + m2 * m8) D ltac:(subst d c00 c01 c02 c10 c11 c12 c20 c21 c22; ring) 1 0 0 H00 H01 H02). ring.
  - rewrite (K m3 c00 c10 c20 (m0 * m3 + m1 * m4 + m2 * m5) (m3 * m3 + m4 * m4 + m5 * m5) (m3 * m6 + m4 * m7 + m5 * m8) D ltac:(subst d c00 c01 c02 c10 c11 c12 c20 c21 c22; ring) 0 1 0 H01 H11 H12). ring.
  - rewrite (K m4 c01 c11 c21 (m0 * m3 + m1 * m4 + m2 * m5) (m3 * m3 + m4 * m4 + m5 * m5) (m3 * m6 + m4 * m7 + m5 * m8) D ltac:(subst d c00 c01 c02 c10 c11 c12 c20 c21 c22; ring) 0 1 0 H01 H11 H12). ring.
  - rewrite (K m5 c02 c12 c22 (m0 * m3 + m1 * m4 + m2 * m5) (m3 * m3 + m4 * m4 + m5 * m5) (m3 * m6 + m4 * m7 + m5 * m8) D ltac:(subst d c00 c01 c02 c10 c11 c12 c20 c21 c22; ring) 0 1 0 H01 H11 H12). ring.
  - rewrite (K m6 c00 c10 c20 (m0 * m6 + m1 * m7 + m2 * m8) (m3 * m6 + m4 * m7 + m5 * m8) (m6 * m6 + m7 * m7 + m8 * m8) D ltac:(subst d c00 c01 c02 c10 c11 c12 c20 c21 c22; ring) 0 0 1 H02 H12 H22). ring.
  - rewrite (K m7 c01 c11 c21 (m0 * m6 + m1 * m7 + m2 * m8) (m3 * m6 + m4 * m7 + m5 * m8) (m6 * m6 + m7 * m7 + m8 * m8) D ltac:(subst d c00 c01 c02 c10 c11 c12 c20 c21 c22; ring) 0 0 1 H02 H12 H22). ring.
  - rewrite (K m8 c02 c12 c22 (m0 * m6 + m1 * m7 + m2 * m8) (m3 * m6 + m4 * m7 + m5 * m8) (m6 * m6 + m7 * m7 + m8 * m8) D ltac:(subst d c00 c01 c02 c10 c11 c12 c20 c21 c22; ring) 0 0 1 H02 H12 H22). ring.
Qed.

(** the turn about z that brings the first column, [r] long, next to the x axis *)
Lemma rpy_rest_ok A a r : rotation A -> r * cos a = A 0%nat 0%nat -> r * sin a = A 1%nat 0%nat ->
  let '(a, b, c) := rpy_rest A a in forall i j, (i < 3)%nat -> (j < 3)%nat -> rpy_entries a b c i j = A i j.
Proof.
  intros Rot E0 E3. pose proof (cofactors A Rot) as C. cbv zeta in C. destruct C as (C0 & C1 & C2 & C3 & C4 & C5 & C6 & C7 & C8).
  destruct Rot as [H _]. pose proof (H 0%nat 0%nat ltac:(lia) ltac:(lia)) as H00. pose proof (H 0%nat 1%nat ltac:(lia) ltac:(lia)) as H01. pose proof (H 1%nat 1%nat ltac:(lia) ltac:(lia)) as H11.
  unfold rows_dot in *. cbn [Nat.eqb] in *. clear H. unfold rpy_rest. cbv zeta.
  pose proof (sin2_cos2 a) as T. unfold Rsqr in T.
  set (m0 := A 0%nat 0%nat) in *. set (m1 := A 0%nat 1%nat) in *. set (m2 := A 0%nat 2%nat) in *. set (m3 := A 1%nat 0%nat) in *. set (m4 := A 1%nat 1%nat) in *.
  set (m5 := A 1%nat 2%nat) in *. set (m6 := A 2%nat 0%nat) in *. set (m7 := A 2%nat 1%nat) in *. set (m8 := A 2%nat 2%nat) in *.
  set (sa := sin a) in *. set (ca := cos a) in *.
  assert (Hr : ca * m0 + sa * m3 = r) by (rewrite <- E0, <- E3; transitivity (r * (sa * sa + ca * ca)); [ring | rewrite T; ring]).
  rewrite Hr.
  assert (Col : r * r + m6 * m6 = 1).
  { transitivity (m0 * m0 + m3 * m3 + m6 * m6); [rewrite <- E0, <- E3; transitivity (r * r * (sa * sa + ca * ca) + m6 * m6); [rewrite T; ring | ring]|].
    transitivity (m0 * (m4 * m8 - m5 * m7) + m3 * (m2 * m7 - m1 * m8) + m6 * (m1 * m5 - m2 * m4)); [rewrite <- C0, <- C3, <- C6; reflexivity|].
    transitivity (m2 * (m3 * m7 - m4 * m6) + m1 * (m5 * m6 - m3 * m8) + m0 * (m4 * m8 - m5 * m7)); [ring|]. rewrite <- C0, <- C1, <- C2. lra. }
  set (u := sa * m2 - ca * m5). set (v := - sa * m1 + ca * m4).
  assert (K : sa * m0 = ca * m3) by (rewrite <- E0, <- E3; ring).
  assert (Uv : v * v + u * u = 1).
  { assert (W : sa * sa * (m0 * m0 + m1 * m1 + m2 * m2) - 2 * sa * ca * (m0 * m3 + m1 * m4 + m2 * m5) + ca * ca * (m3 * m3 + m4 * m4 + m5 * m5) = 1) by (rewrite H00, H01, H11; lra).
    unfold u, v. transitivity (sa * sa * (m0 * m0 + m1 * m1 + m2 * m2) - 2 * sa * ca * (m0 * m3 + m1 * m4 + m2 * m5) + ca * ca * (m3 * m3 + m4 * m4 + m5 * m5) - (sa * m0 - ca * m3) * (sa * m0 - ca * m3)); [ring|].
    rewrite W, K. ring. }
  destruct (atan2_unit (- m6) r) as [Cb Sb]; [rewrite <- Col; ring|]. destruct (atan2_unit u v) as [Cc Sc]; [exact Uv|].
  intros i j Hi Hj. unfold rpy_entries. cbv zeta. fold sa ca. rewrite Cb, Sb, Cc, Sc.
  assert (G : forall x y p q, x = p + y * (sa * m0 - ca * m3) * q -> x = p) by (intros x y p q ->; rewrite K; ring).
  each i j; cbn [Nat.mul Nat.add nth]; unfold u, v.
  - fold m0. rewrite <- E0. ring.
  - fold m1. apply (G _ ca _ (- m8)). transitivity ((m1 + ca * (ca * (m5 * m6 - m1) - sa * (m4 + m2 * m6))) + m1 * (sa * sa + ca * ca - 1)); [ring|].
    rewrite T. replace (m5 * m6 - m1) with (m3 * m8) by lra. replace (m4 + m2 * m6) with (m0 * m8) by lra. ring.
  - fold m2. apply (G _ ca _ m7). transitivity ((m2 + ca * (sa * (m1 * m6 - m5) - ca * (m2 + m4 * m6))) + m2 * (sa * sa + ca * ca - 1)); [ring|].
    rewrite T. replace (m1 * m6 - m5) with (m0 * m7) by lra. replace (m2 + m4 * m6) with (m3 * m7) by lra. ring.
  - fold m3. rewrite <- E3. ring.
  - fold m4. apply (G _ sa _ (- m8)). transitivity ((m4 + sa * (ca * (m5 * m6 - m1) - sa * (m4 + m2 * m6))) + m4 * (sa * sa + ca * ca - 1)); [ring|].
    rewrite T. replace (m5 * m6 - m1) with (m3 * m8) by lra. replace (m4 + m2 * m6) with (m0 * m8) by lra. ring.
  - fold m5. apply (G _ sa _ m7). transitivity ((m5 + sa * (sa * (m1 * m6 - m5) - ca * (m2 + m4 * m6))) + m5 * (sa * sa + ca * ca - 1)); [ring|].
    rewrite T. replace (m1 * m6 - m5) with (m0 * m7) by lra. replace (m2 + m4 * m6) with (m3 * m7) by lra. ring.
  - fold m6. ring.
  - fold m7. rewrite C7. rewrite <- E0, <- E3. ring.
  - fold m8. rewrite C8. rewrite <- E0, <- E3. ring.
Qed.
(** the same for the last column *)
Lemma euler_rest_ok A a r : rotation A -> r * cos a = A 0%nat 2%nat -> r * sin a = A 1%nat 2%nat ->
  let '(a, b, c) := euler_rest A a in forall i j, (i < 3)%nat -> (j < 3)%nat -> euler_entries a b c i j = A i j.
Proof.
  intros Rot E2 E5. pose proof (cofactors A Rot) as C. cbv zeta in C. destruct C as (C0 & C1 & C2 & C3 & C4 & C5 & C6 & C7 & C8).
  destruct Rot as [H _]. pose proof (H 0%nat 0%nat ltac:(lia) ltac:(lia)) as H00. pose proof (H 0%nat 1%nat ltac:(lia) ltac:(lia)) as H01. pose proof (H 1%nat 1%nat ltac:(lia) ltac:(lia)) as H11.
  unfold rows_dot in *. cbn [Nat.eqb] in *. clear H. unfold euler_rest. cbv zeta.
  pose proof (sin2_cos2 a) as T. unfold Rsqr in T.
  set (m0 := A 0%nat 0%nat) in *. set (m1 := A 0%nat 1%nat) in *. set (m2 := A 0%nat 2%nat) in *. set (m3 := A 1%nat 0%nat) in *. set (m4 := A 1%nat 1%nat) in *.
  set (m5 := A 1%nat 2%nat) in *. set (m6 := A 2%nat 0%nat) in *. set (m7 := A 2%nat 1%nat) in *. set (m8 := A 2%nat 2%nat) in *.
  set (sa := sin a) in *. set (ca := cos a) in *.
  assert (Hr : ca * m2 + sa * m5 = r) by (rewrite <- E2, <- E5; transitivity (r * (sa * sa + ca * ca)); [ring | rewrite T; ring]).
  rewrite Hr.
  assert (Col : r * r + m8 * m8 = 1).
  { transitivity (m2 * m2 + m5 * m5 + m8 * m8); [rewrite <- E2, <- E5; transitivity (r * r * (sa * sa + ca * ca) + m8 * m8); [rewrite T; ring | ring]|].
    transitivity (m2 * (m3 * m7 - m4 * m6) + m5 * (m1 * m6 - m0 * m7) + m8 * (m0 * m4 - m1 * m3)); [rewrite <- C2, <- C5, <- C8; reflexivity|].
    transitivity (m2 * (m3 * m7 - m4 * m6) + m1 * (m5 * m6 - m3 * m8) + m0 * (m4 * m8 - m5 * m7)); [ring|]. rewrite <- C0, <- C1, <- C2. lra. }
  set (u := - sa * m0 + ca * m3). set (v := - sa * m1 + ca * m4).
  assert (K : sa * m2 = ca * m5) by (rewrite <- E2, <- E5; ring).
  assert (Uv : v * v + u * u = 1).
  { assert (W : sa * sa * (m0 * m0 + m1 * m1 + m2 * m2) - 2 * sa * ca * (m0 * m3 + m1 * m4 + m2 * m5) + ca * ca * (m3 * m3 + m4 * m4 + m5 * m5) = 1) by (rewrite H00, H01, H11; lra).
    unfold u, v. transitivity (sa * sa * (m0 * m0 + m1 * m1 + m2 * m2) - 2 * sa * ca * (m0 * m3 + m1 * m4 + m2 * m5) + ca * ca * (m3 * m3 + m4 * m4 + m5 * m5) - (sa * m2 - ca * m5) * (sa * m2 - ca * m5)); [ring|].
    rewrite W, K. ring. }
  destruct (atan2_unit r m8) as [Cb Sb]; [rewrite <- Col; ring|]. destruct (atan2_unit u v) as [Cc Sc]; [exact Uv|].
  intros i j Hi Hj. unfold euler_entries. cbv zeta. fold sa ca. rewrite Cb, Sb, Cc, Sc.
  assert (G : forall x y p q, x = p + y * (sa * m2 - ca * m5) * q -> x = p) by (intros x y p q ->; rewrite K; ring).
  each i j; cbn [Nat.mul Nat.add nth]; unfold u, v.
  - fold m0. apply (G _ ca _ (- m7)). transitivity ((m0 + ca * (ca * (m4 * m8 - m0) - sa * (m1 * m8 + m3))) + m0 * (sa * sa + ca * ca - 1)); [ring|].
    rewrite T. replace (m4 * m8 - m0) with (m5 * m7) by lra. replace (m1 * m8 + m3) with (m2 * m7) by lra. ring.
  - fold m1. apply (G _ ca _ m6). transitivity ((m1 + ca * (sa * (m0 * m8 - m4) - ca * (m3 * m8 + m1))) + m1 * (sa * sa + ca * ca - 1)); [ring|].
    rewrite T. replace (m3 * m8 + m1) with (m5 * m6) by lra. replace (m0 * m8 - m4) with (m2 * m6) by lra. ring.
  - fold m2. rewrite <- E2. ring.
  - fold m3. apply (G _ sa _ (- m7)). transitivity ((m3 + sa * (ca * (m4 * m8 - m0) - sa * (m1 * m8 + m3))) + m3 * (sa * sa + ca * ca - 1)); [ring|].
    rewrite T. replace (m4 * m8 - m0) with (m5 * m7) by lra. replace (m1 * m8 + m3) with (m2 * m7) by lra. ring.
  - fold m4. apply (G _ sa _ m6). transitivity ((m4 + sa * (sa * (m0 * m8 - m4) - ca * (m3 * m8 + m1))) + m4 * (sa * sa + ca * ca - 1)); [ring|].
    rewrite T. replace (m3 * m8 + m1) with (m5 * m6) by lra. replace (m0 * m8 - m4) with (m2 * m6) by lra. ring.
  - fold m5. rewrite <- E5. ring.
  - fold m6. rewrite C6. rewrite <- E2, <- E5. ring.
  - fold m7. rewrite C7. rewrite <- E2, <- E5. ring.
  - fold m8. ring.
Qed.

(** Both triples of rpy-angle make the matrix again, for every rotation, those that look along z among them. *)
Theorem C102_rpy_angle : forall A, rotation A -> forall e s a b c, (a, b, c) = fst (INV_RPY A) \/ (a, b, c) = snd (INV_RPY A) -> makes_matrix e A s (rpy_matrix a b c e s).
Proof.
  intros A Rot e s a b c H. eapply makes_ext; [|apply rpy_matrix_ok]. unfold INV_RPY in H. cbn [fst snd] in H.
  destruct (atan2_polar (A 1%nat 0%nat) (A 0%nat 0%nat)) as [P Q]. set (t := atan2 (A 1%nat 0%nat) (A 0%nat 0%nat)) in *.
  set (r := sqrt (A 0%nat 0%nat * A 0%nat 0%nat + A 1%nat 0%nat * A 1%nat 0%nat)) in *.
  destruct H as [H | H].
  - pose proof (rpy_rest_ok A t r Rot P Q) as K. rewrite <- H in K. exact K.
  - pose proof (rpy_rest_ok A (t + PI) (- r) Rot) as K. rewrite neg_cos, neg_sin in K. specialize (K ltac:(lra) ltac:(lra)). rewrite <- H in K. exact K.
Qed.
(** and the first one has the angles the matrix was made with, if the pitch is not upright *)
Theorem C102_rpy_back : forall a b c e s A, - PI < a <= PI -> - (PI / 2) < b < PI / 2 -> - PI < c <= PI -> makes_matrix e A s (rpy_matrix a b c e s) -> fst (INV_RPY A) = (a, b, c).
Proof.
  intros a b c e s A Ha Hb Hc H. pose proof (rpy_matrix_ok a b c e s) as H'.
  assert (E : forall i j, (i < 3)%nat -> (j < 3)%nat -> A i j = rpy_entries a b c i j).
  { destruct (rpy_matrix a b c e s) as [m s'| |]; [|destruct H|destruct H]. destruct H as (_ & _ & _ & H). destruct H' as (_ & _ & _ & H'). intros i j Hi Hj. rewrite <- H, <- H' by assumption. reflexivity. }
  unfold INV_RPY, rpy_rest. cbn [fst]. rewrite !E by lia. unfold rpy_entries. cbn [Nat.mul Nat.add nth].
  assert (Cb : 0 < cos b) by (apply cos_gt_0; lra).
  assert (Ea : atan2 (sin a * cos b) (cos a * cos b) = a) by (rewrite (Rmult_comm (sin a)), (Rmult_comm (cos a)); apply atan2_back; assumption). rewrite Ea.
  pose proof (sin2_cos2 a) as T. unfold Rsqr in T. pose proof PI_RGT_0 as PP.
  f_equal; [f_equal|].
  - transitivity (atan2 (1 * sin b) (1 * cos b)); [|apply atan2_back; lra]. f_equal; [ring|]. transitivity (cos b * (sin a * sin a + cos a * cos a)); [ring | rewrite T; ring].
  - transitivity (atan2 (1 * sin c) (1 * cos c)); [|apply atan2_back; lra]. f_equal.
    + transitivity (sin c * (sin a * sin a + cos a * cos a)); [ring | rewrite T; ring].
    + transitivity (cos c * (sin a * sin a + cos a * cos a)); [ring | rewrite T; ring].
Qed.
(** Both triples of euler-angle make the matrix again, unless the z axis is turned by very little, but is turned. *)
Theorem C102_euler_angle_partial : forall A, rotation A -> (within (A 1%nat 2%nat) && within (A 0%nat 2%nat) = true -> A 1%nat 2%nat = 0 /\ A 0%nat 2%nat = 0) ->
  forall e s a b c, (a, b, c) = fst (INV_EULER A) \/ (a, b, c) = snd (INV_EULER A) -> makes_matrix e A s (euler_matrix a b c e s).
Proof.
  intros A Rot W e s a b c H. eapply makes_ext; [|apply euler_matrix_ok]. unfold INV_EULER in H. cbn [fst snd] in H.
  set (t := if within (A 1%nat 2%nat) && within (A 0%nat 2%nat) then 0 else atan2 (A 1%nat 2%nat) (A 0%nat 2%nat)) in *.
  assert (exists r, r * cos t = A 0%nat 2%nat /\ r * sin t = A 1%nat 2%nat) as (r & P & Q).
  { subst t. destruct (within (A 1%nat 2%nat) && within (A 0%nat 2%nat)).
    - destruct (W eq_refl) as [-> ->]. exists 0. split; ring.
    - destruct (atan2_polar (A 1%nat 2%nat) (A 0%nat 2%nat)) as [P Q]. eauto. }
  destruct H as [H | H].
  - pose proof (euler_rest_ok A t r Rot P Q) as K. rewrite <- H in K. exact K.
  - pose proof (euler_rest_ok A (t + PI) (- r) Rot) as K. rewrite neg_cos, neg_sin in K. specialize (K ltac:(lra) ltac:(lra)). rewrite <- H in K. exact K.
Qed.
Theorem C102_euler_back_partial : forall a b c e s A, - PI < a <= PI -> 0 < b < PI -> 2 / 100000 < sin b -> - PI < c <= PI -> makes_matrix e A s (euler_matrix a b c e s) ->
  fst (INV_EULER A) = (a, b, c).
Proof.
  intros a b c e s A Ha Hb Sb Hc H. pose proof (euler_matrix_ok a b c e s) as H'.
  assert (E : forall i j, (i < 3)%nat -> (j < 3)%nat -> A i j = euler_entries a b c i j).
  { destruct (euler_matrix a b c e s) as [m s'| |]; [|destruct H|destruct H]. destruct H as (_ & _ & _ & H). destruct H' as (_ & _ & _ & H'). intros i j Hi Hj. rewrite <- H, <- H' by assumption. reflexivity. }
  unfold INV_EULER, euler_rest. cbn [fst]. rewrite !E by lia. unfold euler_entries. cbn [Nat.mul Nat.add nth].
  pose proof (sin2_cos2 a) as T. unfold Rsqr in T. pose proof PI_RGT_0 as PP.
  assert (G : within (sin a * sin b) && within (cos a * sin b) = false).
  { unfold within. destruct (Rlt_dec (- (1 / 100000)) (sin a * sin b)) as [P1|]; [|reflexivity]. destruct (Rlt_dec (sin a * sin b) (1 / 100000)) as [P2|]; [|reflexivity].
    destruct (Rlt_dec (- (1 / 100000)) (cos a * sin b)) as [P3|]; [|reflexivity]. destruct (Rlt_dec (cos a * sin b) (1 / 100000)) as [P4|]; [|reflexivity]. exfalso.
    assert (B1 : sin a * sin b * (sin a * sin b) < 1 / 100000 * (1 / 100000)) by nra. assert (B2 : cos a * sin b * (cos a * sin b) < 1 / 100000 * (1 / 100000)) by nra.
    assert (B3 : sin a * sin b * (sin a * sin b) + cos a * sin b * (cos a * sin b) = sin b * sin b) by (transitivity (sin b * sin b * (sin a * sin a + cos a * cos a)); [ring | rewrite T; ring]).
    assert (2 / 100000 * (2 / 100000) < sin b * sin b) by nra. lra. }
  rewrite G.
  assert (Ea : atan2 (sin a * sin b) (cos a * sin b) = a) by (rewrite (Rmult_comm (sin a)), (Rmult_comm (cos a)); apply atan2_back; [lra | assumption]). rewrite Ea.
  f_equal; [f_equal|].
  - transitivity (atan2 (1 * sin b) (1 * cos b)); [|apply atan2_back; lra]. f_equal; [|ring]. transitivity (sin b * (sin a * sin a + cos a * cos a)); [ring | rewrite T; ring].
  - transitivity (atan2 (1 * sin c) (1 * cos c)); [|apply atan2_back; lra]. f_equal.
    + transitivity (sin c * (sin a * sin a + cos a * cos a)); [ring | rewrite T; ring].
    + transitivity (cos c * (sin a * sin a + cos a * cos a)); [ring | rewrite T; ring].
Qed.

(** the columns of a rotation have length one *)
Lemma columns A : rotation A ->
  A 0%nat 0%nat * A 0%nat 0%nat + A 1%nat 0%nat * A 1%nat 0%nat + A 2%nat 0%nat * A 2%nat 0%nat = 1 /\
  A 0%nat 2%nat * A 0%nat 2%nat + A 1%nat 2%nat * A 1%nat 2%nat + A 2%nat 2%nat * A 2%nat 2%nat = 1.
Proof.
  intros Rot. pose proof (cofactors A Rot) as C. cbv zeta in C. destruct C as (C0 & C1 & C2 & C3 & C4 & C5 & C6 & C7 & C8).
  destruct Rot as [H _]. pose proof (H 0%nat 0%nat ltac:(lia) ltac:(lia)) as H00. unfold rows_dot in *. cbn [Nat.eqb] in *. clear H.
  set (m0 := A 0%nat 0%nat) in *. set (m1 := A 0%nat 1%nat) in *. set (m2 := A 0%nat 2%nat) in *. set (m3 := A 1%nat 0%nat) in *. set (m4 := A 1%nat 1%nat) in *.
  set (m5 := A 1%nat 2%nat) in *. set (m6 := A 2%nat 0%nat) in *. set (m7 := A 2%nat 1%nat) in *. set (m8 := A 2%nat 2%nat) in *. split.
  - transitivity (m0 * (m4 * m8 - m5 * m7) + m3 * (m2 * m7 - m1 * m8) + m6 * (m1 * m5 - m2 * m4)); [rewrite <- C0, <- C3, <- C6; reflexivity|].
    transitivity (m2 * (m3 * m7 - m4 * m6) + m1 * (m5 * m6 - m3 * m8) + m0 * (m4 * m8 - m5 * m7)); [ring|]. rewrite <- C0, <- C1, <- C2. lra.
  - transitivity (m2 * (m3 * m7 - m4 * m6) + m5 * (m1 * m6 - m0 * m7) + m8 * (m0 * m4 - m1 * m3)); [rewrite <- C2, <- C5, <- C8; reflexivity|].
    transitivity (m2 * (m3 * m7 - m4 * m6) + m1 * (m5 * m6 - m3 * m8) + m0 * (m4 * m8 - m5 * m7)); [ring|]. rewrite <- C0, <- C1, <- C2. lra.
Qed.
(** The two triples of rpy-angle are different ones: the first does not look backwards, the second is its mirror image. *)
Theorem C102_rpy_choice : forall A, rotation A -> let '(_, b, _) := fst (INV_RPY A) in let '(_, b', _) := snd (INV_RPY A) in 0 <= cos b /\ cos b' = - cos b /\ sin b' = sin b.
Proof.
  intros A Rot. destruct (columns A Rot) as [Col _]. unfold INV_RPY, rpy_rest. cbn [fst snd]. destruct (atan2_polar (A 1%nat 0%nat) (A 0%nat 0%nat)) as [P Q].
  set (t := atan2 (A 1%nat 0%nat) (A 0%nat 0%nat)) in *. set (r := sqrt (A 0%nat 0%nat * A 0%nat 0%nat + A 1%nat 0%nat * A 1%nat 0%nat)) in *.
  pose proof (sin2_cos2 t) as T. unfold Rsqr in T. rewrite neg_cos, neg_sin.
  assert (E : cos t * A 0%nat 0%nat + sin t * A 1%nat 0%nat = r) by (rewrite <- P, <- Q; transitivity (r * (sin t * sin t + cos t * cos t)); [ring | rewrite T; ring]).
  assert (E' : - cos t * A 0%nat 0%nat + - sin t * A 1%nat 0%nat = - r) by (rewrite <- E; ring). rewrite E, E'.
  assert (U : r * r + A 2%nat 0%nat * A 2%nat 0%nat = 1).
  { rewrite <- Col. rewrite <- P, <- Q. transitivity (r * r * (sin t * sin t + cos t * cos t) + A 2%nat 0%nat * A 2%nat 0%nat); [rewrite T; ring | ring]. }
  destruct (atan2_unit (- A 2%nat 0%nat) r) as [-> ->]; [rewrite <- U; ring|]. destruct (atan2_unit (- A 2%nat 0%nat) (- r)) as [-> ->]; [rewrite <- U; ring|].
  split; [apply sqrt_pos | split; reflexivity].
Qed.
(** The same for euler-angle; the tilt of the first is not negative, if it is not taken for zero. *)
Theorem C102_euler_choice_partial : forall A, rotation A -> (within (A 1%nat 2%nat) && within (A 0%nat 2%nat) = true -> A 1%nat 2%nat = 0 /\ A 0%nat 2%nat = 0) ->
  let '(a, b, _) := fst (INV_EULER A) in let '(a', b', _) := snd (INV_EULER A) in 0 <= sin b /\ sin b' = - sin b /\ cos b' = cos b /\ cos a' = - cos a /\ sin a' = - sin a.
Proof.
  intros A Rot W. destruct (columns A Rot) as [_ Col]. unfold INV_EULER, euler_rest. cbn [fst snd].
  set (t := if within (A 1%nat 2%nat) && within (A 0%nat 2%nat) then 0 else atan2 (A 1%nat 2%nat) (A 0%nat 2%nat)) in *.
  assert (exists r, 0 <= r /\ r * cos t = A 0%nat 2%nat /\ r * sin t = A 1%nat 2%nat) as (r & Pos & P & Q).
  { subst t. destruct (within (A 1%nat 2%nat) && within (A 0%nat 2%nat)).
    - destruct (W eq_refl) as [-> ->]. exists 0. split; [lra|]. split; ring.
    - destruct (atan2_polar (A 1%nat 2%nat) (A 0%nat 2%nat)) as [P Q]. eexists. split; [|split; [exact P | exact Q]]. apply sqrt_pos. }
  clearbody t. pose proof (sin2_cos2 t) as T. unfold Rsqr in T. rewrite neg_cos, neg_sin.
  assert (E : cos t * A 0%nat 2%nat + sin t * A 1%nat 2%nat = r) by (rewrite <- P, <- Q; transitivity (r * (sin t * sin t + cos t * cos t)); [ring | rewrite T; ring]).
  assert (E' : - cos t * A 0%nat 2%nat + - sin t * A 1%nat 2%nat = - r) by (rewrite <- E; ring). rewrite E, E'.
  assert (U : r * r + A 2%nat 2%nat * A 2%nat 2%nat = 1).
  { rewrite <- Col. rewrite <- P, <- Q. transitivity (r * r * (sin t * sin t + cos t * cos t) + A 2%nat 2%nat * A 2%nat 2%nat); [rewrite T; ring | ring]. }
  destruct (atan2_unit r (A 2%nat 2%nat)) as [-> ->]; [rewrite <- U; ring|]. destruct (atan2_unit (- r) (A 2%nat 2%nat)) as [-> ->]; [rewrite <- U; ring|].
  repeat split; [exact Pos | lra..].
Qed.
(** turned about x by very little, [q] being the sine: euler-angle takes it for no turn at all *)
Definition tilted (q : R) : matrix3 := fun i j => nth (i * 3 + j)%nat [1; 0; 0; 0; sqrt (1 - q * q); - q; 0; q; sqrt (1 - q * q)] 0.
Lemma tilted_rotation q : - 1 < q < 1 -> rotation (tilted q).
Proof.
  intros B. assert (E : sqrt (1 - q * q) * sqrt (1 - q * q) = 1 - q * q) by (apply sqrt_sqrt; nra). unfold rotation, tilted, rows_dot. split.
  - intros i j Hi Hj. each i j; cbn [Nat.mul Nat.add nth Nat.eqb]; lra.
  - cbn [Nat.mul Nat.add nth]. lra.
Qed.
Theorem C102_euler_angle_refuted : exists A, rotation A /\ forall e s, let '(a, b, c) := fst (INV_EULER A) in ~ makes_matrix e A s (euler_matrix a b c e s).
Proof.
  exists (tilted (1 / 1000000)). split; [apply tilted_rotation; lra|]. intros e s. destruct (fst (INV_EULER (tilted (1 / 1000000)))) as [[a b] c] eqn:F. intros H.
  assert (a = 0).
  { unfold INV_EULER, tilted, euler_rest in F. cbn [fst Nat.mul Nat.add nth] in F. unfold within in F.
    destruct (Rlt_dec (- (1 / 100000)) (- (1 / 1000000))); [|lra]. destruct (Rlt_dec (- (1 / 1000000)) (1 / 100000)); [|lra].
    destruct (Rlt_dec (- (1 / 100000)) 0); [|lra]. destruct (Rlt_dec 0 (1 / 100000)); [|lra]. cbn [andb] in F. injection F as <- _ _. reflexivity. }
  subst a. pose proof (euler_matrix_ok 0 b c e s) as H'. destruct (euler_matrix 0 b c e s) as [m s'| |]; [|exact H|exact H].
  destruct H as (_ & _ & _ & H). destruct H' as (_ & _ & _ & H'). specialize (H 1%nat 2%nat ltac:(lia) ltac:(lia)). rewrite H' in H by lia.
  unfold euler_entries, tilted in H. cbn [Nat.mul Nat.add nth] in H. rewrite sin_0 in H. lra.
Qed.

(** looking down: the pitch is upright *)
Definition upright : matrix3 := fun i j => nth (i * 3 + j)%nat [0; 0; 1; 0; 1; 0; -1; 0; 0] 0.
Example C102_example : rotation upright /\ (forall e s, let '(a, b, c) := fst (INV_RPY upright) in makes_matrix e upright s (rpy_matrix a b c e s)) /\
  (within (upright 1%nat 2%nat) && within (upright 0%nat 2%nat) = false) /\
  (forall e s, let '(a, b, c) := fst (INV_EULER (tilted 0)) in makes_matrix e (tilted 0) s (euler_matrix a b c e s)).
Proof.
  assert (Rot : rotation upright).
  { unfold rotation, upright, rows_dot. split; [intros i j Hi Hj; each i j; cbn [Nat.mul Nat.add nth Nat.eqb]; lra | cbn [Nat.mul Nat.add nth]; lra]. }
  split; [exact Rot|]. split; [|split].
  - intros e s. destruct (fst (INV_RPY upright)) as [[a b] c] eqn:F. apply C102_rpy_angle; [exact Rot | left; auto].
  - unfold within, upright. cbn [Nat.mul Nat.add nth]. destruct (Rlt_dec (- (1 / 100000)) 1); [|lra]. destruct (Rlt_dec 1 (1 / 100000)); [lra|]. apply andb_false_r.
  - intros e s. destruct (fst (INV_EULER (tilted 0))) as [[a b] c] eqn:F. apply C102_euler_angle_partial; [apply tilted_rotation; lra | | left; auto].
    intros _. unfold tilted. cbn [Nat.mul Nat.add nth]. lra.
Qed.

Print Assumptions C102_rpy_matrix.
Print Assumptions C102_euler_matrix.
Print Assumptions C102_rpy_angle.
Print Assumptions C102_rpy_back.
Print Assumptions C102_euler_angle_partial.
Print Assumptions C102_euler_back_partial.
Print Assumptions C102_rpy_choice.
Print Assumptions C102_euler_choice_partial.
Print Assumptions C102_euler_angle_refuted.
