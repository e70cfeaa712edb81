(** Proofs for C91. *)
From Coq Require Import Reals List Bool Lra Psatz.
From Verif Require Import GeoModel GeoSpec.
Import ListNotations.
Local Open Scope R_scope.

Lemma ltb_spec : forall x y, if ltb x y then x < y else y <= x.
Proof. intros x y. unfold ltb. destruct (Rlt_dec x y) as [H|H]; [exact H | apply Rnot_lt_le; exact H]. Qed.
Ltac ltbs H x y := pose proof (ltb_spec x y) as H; destruct (ltb x y).

Lemma vec_ext : forall a b, vx a = vx b -> vy a = vy b -> vz a = vz b -> a = b.
Proof. intros [a b c] [d e f]. simpl. intros -> -> ->. reflexivity. Qed.

Lemma point_along : forall l t, line_point l t = along l t.
Proof. intros l t. unfold line_point, midpoint, along. apply vec_ext; cbn [vx vy vz]; ring. Qed.

(** squared distance *)
Definition far2 (p q : vec) : R := (vx p - vx q) ^ 2 + (vy p - vy q) ^ 2 + (vz p - vz q) ^ 2.
Lemma far2_pos : forall p q, 0 <= far2 p q.
Proof. intros p q. unfold far2. repeat apply Rplus_le_le_0_compat; apply pow2_ge_0. Qed.
Lemma far_far2 : forall p q, far p q = sqrt (far2 p q).
Proof. reflexivity. Qed.
Lemma distance_far : forall p q, vdistance p q = far p q.
Proof. intros p q. unfold vdistance, far, vdot, vminus. cbn [vx vy vz]. f_equal. ring. Qed.
Lemma far_le : forall p q p' q', far2 p q <= far2 p' q' -> far p q <= far p' q'.
Proof. intros. rewrite !far_far2. apply sqrt_le_1_alt. exact H. Qed.
Lemma far_inj : forall p q p' q', far p q = far p' q' -> far2 p q = far2 p' q'.
Proof. intros p q p' q' H. rewrite !far_far2 in H. apply sqrt_inj; [apply far2_pos..|exact H]. Qed.
Lemma far_sym : forall p q, far p q = far q p.
Proof. intros. rewrite !far_far2. f_equal. unfold far2. ring. Qed.

Definition dir (l : line) : vec := vminus (nvert l) (pvert l).
Lemma vdot_pos : forall a, 0 <= vdot a a.
Proof. intros a. unfold vdot. repeat apply Rplus_le_le_0_compat; apply Rle_0_sqr. Qed.
Lemma vdot_zero : forall a, vdot a a = 0 -> vx a = 0 /\ vy a = 0 /\ vz a = 0.
Proof.
  intros a. unfold vdot. intros H.
  pose proof (Rle_0_sqr (vx a)) as H1. pose proof (Rle_0_sqr (vy a)) as H2. pose proof (Rle_0_sqr (vz a)) as H3.
  unfold Rsqr in *. repeat split; apply Rsqr_0_uniq; unfold Rsqr; lra.
Qed.
Lemma dir_pos : forall l, proper l -> 0 < vdot (dir l) (dir l).
Proof.
  intros l P. destruct (Rle_lt_or_eq_dec _ _ (vdot_pos (dir l))) as [H|H]; [exact H|].
  exfalso. apply P. symmetry in H. apply vdot_zero in H. destruct H as [H1 [H2 H3]].
  unfold dir, vminus in *. cbn [vx vy vz] in *. apply vec_ext; lra.
Qed.
Lemma along_0 : forall l, along l 0 = pvert l.
Proof. intros. unfold along. apply vec_ext; cbn [vx vy vz]; ring. Qed.
Lemma along_1 : forall l, along l 1 = nvert l.
Proof. intros. unfold along. apply vec_ext; cbn [vx vy vz]; ring. Qed.

(** * the foot of a point *)
Definition foot_at (l : line) (p : vec) : R := vdot (dir l) (vminus p (pvert l)) / vdot (dir l) (dir l).
Lemma parameter_eq : forall l p, proper l -> line_parameter l p = Some (foot_at l p).
Proof.
  intros l p P. unfold line_parameter, ndiv, foot_at. fold (dir l).
  pose proof (dir_pos l P). destruct (Req_EM_T (vdot (dir l) (dir l)) 0); [lra | reflexivity].
Qed.
Lemma foot_eq : forall l p, proper l -> line_foot l p = Some (foot_at l p).
Proof.
  intros l p P. unfold line_foot, ndiv, foot_at.
  pose proof (dir_pos l P) as Q.
  assert (E : vdot (vminus (pvert l) (nvert l)) (vminus (pvert l) (nvert l)) = vdot (dir l) (dir l))
    by (unfold dir, vdot, vminus; cbn [vx vy vz]; ring).
  assert (E2 : vdot (vminus (pvert l) (nvert l)) (vminus (pvert l) p) = vdot (dir l) (vminus p (pvert l)))
    by (unfold dir, vdot, vminus; cbn [vx vy vz]; ring).
  rewrite E, E2. destruct (Req_EM_T (vdot (dir l) (dir l)) 0); [lra | reflexivity].
Qed.
Lemma foot_far2 : forall l p s, proper l ->
  far2 (along l s) p = far2 (along l (foot_at l p)) p + vdot (dir l) (dir l) * (s - foot_at l p) ^ 2.
Proof.
  intros l p s P. pose proof (dir_pos l P) as Q.
  assert (N : vdot (dir l) (vminus p (pvert l)) = foot_at l p * vdot (dir l) (dir l)) by (unfold foot_at; field; lra).
  set (f := foot_at l p) in *. clearbody f.
  assert (G : far2 (along l s) p - far2 (along l f) p - vdot (dir l) (dir l) * (s - f) ^ 2 =
              2 * (s - f) * (f * vdot (dir l) (dir l) - vdot (dir l) (vminus p (pvert l))))
    by (unfold far2, along, dir, vdot, vminus; cbn [vx vy vz]; ring).
  rewrite N in G. lra.
Qed.

(** * a point and a segment *)
Lemma clamp_sq : forall f s, 0 <= s <= 1 ->
  (1 < f -> (1 - f) ^ 2 <= (s - f) ^ 2) /\ (f < 0 -> (0 - f) ^ 2 <= (s - f) ^ 2).
Proof. intros f s H. split; intros G; nra. Qed.

Lemma distance_point_ok : forall l p, proper l ->
  exists t, 0 <= t <= 1 /\ distance_point l p = Some (far (along l t) p) /\
            forall s, 0 <= s <= 1 -> far (along l t) p <= far (along l s) p.
Proof.
  intros l p P. pose proof (dir_pos l P) as Q.
  unfold distance_point. rewrite (foot_eq l p P). set (f := foot_at l p).
  rewrite point_along, !distance_far.
  ltbs H1 1 f; [|ltbs H2 f 0].
  - exists 1. rewrite along_1. split; [lra|]. split; [reflexivity|]. intros s Hs. rewrite <- along_1. apply far_le.
    rewrite (foot_far2 l p s P), (foot_far2 l p 1 P). fold f. destruct (clamp_sq f s Hs) as [C _]. specialize (C H1).
    apply Rplus_le_compat_l. apply Rmult_le_compat_l; lra.
  - exists 0. rewrite along_0. split; [lra|]. split; [reflexivity|]. intros s Hs. rewrite <- along_0. apply far_le.
    rewrite (foot_far2 l p s P), (foot_far2 l p 0 P). fold f. destruct (clamp_sq f s Hs) as [_ C]. specialize (C H2).
    apply Rplus_le_compat_l. apply Rmult_le_compat_l; lra.
  - exists f. split; [lra|]. split; [reflexivity|]. intros s Hs. apply far_le.
    rewrite (foot_far2 l p s P). fold f. pose proof (Rmult_le_pos _ _ (Rlt_le _ _ Q) (pow2_ge_0 (s - f))). lra.
Qed.

(** * two lines *)
(** the difference between a point of each *)
Definition gap (l m : line) (s t : R) : vec := vminus (along l s) (along m t).
(** the directions of the lines are at right angles to the difference at (s,t) *)
Definition square_on (l m : line) (s t : R) : Prop := vdot (gap l m s t) (dir l) = 0 /\ vdot (gap l m s t) (dir m) = 0.
Definition mix2 (l m : line) (u v : R) : R :=
  u ^ 2 * vdot (dir l) (dir l) - 2 * u * v * vdot (dir l) (dir m) + v ^ 2 * vdot (dir m) (dir m).
Lemma mix2_norm : forall l m u v, mix2 l m u v =
  (u * vx (dir l) - v * vx (dir m)) ^ 2 + (u * vy (dir l) - v * vy (dir m)) ^ 2 + (u * vz (dir l) - v * vz (dir m)) ^ 2.
Proof. intros. unfold mix2, vdot. ring. Qed.
Lemma mix2_pos : forall l m u v, 0 <= mix2 l m u v.
Proof. intros. rewrite mix2_norm. repeat apply Rplus_le_le_0_compat; apply pow2_ge_0. Qed.
Lemma far2_shift : forall l m s t u v,
  far2 (along l (s + u)) (along m (t + v)) =
  far2 (along l s) (along m t) + mix2 l m u v + 2 * u * vdot (gap l m s t) (dir l) - 2 * v * vdot (gap l m s t) (dir m).
Proof. intros. unfold far2, mix2, gap, dir, vdot, vminus, along. cbn [vx vy vz]. ring. Qed.
Lemma square_far2 : forall l m c d s t, square_on l m c d ->
  far2 (along l s) (along m t) = far2 (along l c) (along m d) + mix2 l m (s - c) (t - d).
Proof.
  intros l m c d s t [A B]. pose proof (far2_shift l m c d (s - c) (t - d)) as G.
  replace (c + (s - c)) with s in G by ring. replace (d + (t - d)) with t in G by ring. rewrite A, B in G. lra.
Qed.
Lemma spread_dots : forall l m,
  spread l m = vdot (dir l) (dir l) * vdot (dir m) (dir m) - vdot (dir l) (dir m) * vdot (dir l) (dir m).
Proof. intros. unfold spread, dir, vdot, vminus. cbn [vx vy vz]. ring. Qed.
Lemma spread_pos : forall l m, 0 <= spread l m.
Proof. intros. unfold spread. cbv zeta beta iota. repeat apply Rplus_le_le_0_compat; apply pow2_ge_0. Qed.
Lemma mix2_spread_l : forall l m u v, vdot (dir m) (dir m) * mix2 l m u v =
  u ^ 2 * spread l m + (u * vdot (dir l) (dir m) - v * vdot (dir m) (dir m)) ^ 2.
Proof. intros. rewrite spread_dots. unfold mix2. ring. Qed.
Lemma mix2_spread_r : forall l m u v, vdot (dir l) (dir l) * mix2 l m u v =
  v ^ 2 * spread l m + (u * vdot (dir l) (dir l) - v * vdot (dir l) (dir m)) ^ 2.
Proof. intros. rewrite spread_dots. unfold mix2. ring. Qed.
Lemma sum_zero : forall x y, 0 <= x -> 0 <= y -> x + y = 0 -> x = 0.
Proof. intros. lra. Qed.
Lemma mix2_zero : forall l m u v, 0 < spread l m -> mix2 l m u v = 0 -> u = 0 /\ v = 0.
Proof.
  intros l m u v S M. pose proof (mix2_spread_l l m u v) as A. pose proof (mix2_spread_r l m u v) as B. rewrite M in A, B.
  rewrite Rmult_0_r in A, B. symmetry in A, B.
  apply sum_zero in A; [| apply Rmult_le_pos; [apply pow2_ge_0 | lra] | apply pow2_ge_0].
  apply sum_zero in B; [| apply Rmult_le_pos; [apply pow2_ge_0 | lra] | apply pow2_ge_0].
  apply Rmult_integral in A. apply Rmult_integral in B. destruct A as [A|A]; [|lra]. destruct B as [B|B]; [|lra].
  replace (u ^ 2) with (Rsqr u) in A by (unfold Rsqr; ring). replace (v ^ 2) with (Rsqr v) in B by (unfold Rsqr; ring).
  split; apply Rsqr_0_uniq; assumption.
Qed.

Lemma square_nearest : forall l m c d, 0 < spread l m -> square_on l m c d ->
  nearest_pair (on_line l) (on_line m) (along l c) (along m d).
Proof.
  intros l m c d S Q. split; [exists c; reflexivity|]. split; [exists d; reflexivity|]. split.
  - intros p' q' [s ->] [t ->]. apply far_le. rewrite (square_far2 l m c d s t Q). pose proof (mix2_pos l m (s - c) (t - d)). lra.
  - intros p' q' [s ->] [t ->] E. apply far_inj in E. rewrite (square_far2 l m c d s t Q) in E.
    assert (M : mix2 l m (s - c) (t - d) = 0) by lra. apply mix2_zero in M; [|exact S].
    replace s with c by lra. replace t with d by lra. split; reflexivity.
Qed.

(** the nearest points are where the code's quotients say *)
Lemma square_solution : forall l m c d,
  let a := vdot (dir l) (gap l m 0 0) in let b := vdot (dir m) (gap l m 0 0) in
  0 < spread l m ->
  c * (- spread l m) = vdot (dir m) (dir m) * a - vdot (dir l) (dir m) * b ->
  d * (- spread l m) = vdot (dir l) (dir m) * a - vdot (dir l) (dir l) * b ->
  square_on l m c d.
Proof.
  intros l m c d a b S C D. unfold square_on.
  assert (E1 : vdot (gap l m c d) (dir l) = a + c * vdot (dir l) (dir l) - d * vdot (dir l) (dir m))
    by (unfold a, gap, dir, vdot, vminus, along; cbn [vx vy vz]; ring).
  assert (E2 : vdot (gap l m c d) (dir m) = b + c * vdot (dir l) (dir m) - d * vdot (dir m) (dir m))
    by (unfold b, gap, dir, vdot, vminus, along; cbn [vx vy vz]; ring).
  rewrite E1, E2.
  assert (Z1 : (- spread l m) * (a + c * vdot (dir l) (dir l) - d * vdot (dir l) (dir m)) = 0).
  { replace ((- spread l m) * (a + c * vdot (dir l) (dir l) - d * vdot (dir l) (dir m)))
      with ((- spread l m) * a + (c * (- spread l m)) * vdot (dir l) (dir l) - (d * (- spread l m)) * vdot (dir l) (dir m)) by ring.
    rewrite C, D, spread_dots. ring. }
  assert (Z2 : (- spread l m) * (b + c * vdot (dir l) (dir m) - d * vdot (dir m) (dir m)) = 0).
  { replace ((- spread l m) * (b + c * vdot (dir l) (dir m) - d * vdot (dir m) (dir m)))
      with ((- spread l m) * b + (c * (- spread l m)) * vdot (dir l) (dir m) - (d * (- spread l m)) * vdot (dir m) (dir m)) by ring.
    rewrite C, D, spread_dots. ring. }
  apply Rmult_integral in Z1. apply Rmult_integral in Z2. split; [destruct Z1|destruct Z2]; lra.
Qed.
