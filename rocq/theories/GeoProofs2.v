(** Proofs for C91, continued: two segments, common perpendicular, intersections, overlap. *)
From Coq Require Import Reals List Bool Lra Psatz.
From Verif Require Import GeoModel GeoSpec GeoProofs.
Import ListNotations.
Local Open Scope R_scope.

(** * the way from an inner point of the unit square to a point that is not inside meets the border *)
Lemma leave_1 : forall s c, 0 < s < 1 -> exists k, 0 <= k <= 1 /\
  (forall x, 0 <= x <= k -> 0 <= s + x * (c - s) <= 1) /\
  ((0 < c < 1 /\ k = 1) \/ s + k * (c - s) = 0 \/ s + k * (c - s) = 1).
Proof.
  intros s c H. destruct (Rle_lt_dec c 0) as [C|C]; [|destruct (Rle_lt_dec 1 c) as [D|D]].
  - assert (P : 0 < s - c) by lra. assert (E : s / (s - c) * (s - c) = s) by (field; lra).
    exists (s / (s - c)). set (k := s / (s - c)) in *. clearbody k. split; [split; nra|]. split.
    + intros x X. split; nra.
    + right; left. nra.
  - assert (P : 0 < c - s) by lra. assert (E : (1 - s) / (c - s) * (c - s) = 1 - s) by (field; lra).
    exists ((1 - s) / (c - s)). set (k := (1 - s) / (c - s)) in *. clearbody k. split; [split; nra|]. split.
    + intros x X. split; nra.
    + right; right. nra.
  - exists 1. split; [lra|]. split; [intros x X; split; nra|]. left. split; [lra|reflexivity].
Qed.
Definition inside (s t : R) : Prop := 0 <= s <= 1 /\ 0 <= t <= 1.
Definition border (s t : R) : Prop := inside s t /\ (s = 0 \/ s = 1 \/ t = 0 \/ t = 1).
Lemma leave_2 : forall s t c d, 0 < s < 1 -> 0 < t < 1 -> ~ (0 < c < 1 /\ 0 < d < 1) ->
  exists k, 0 <= k <= 1 /\ border (s + k * (c - s)) (t + k * (d - t)).
Proof.
  intros s t c d S T N. destruct (leave_1 s c S) as [k1 [K1 [A1 B1]]]. destruct (leave_1 t d T) as [k2 [K2 [A2 B2]]].
  destruct (Rle_lt_dec k1 k2) as [L|L].
  - destruct B1 as [[C1 E1]|B1].
    + subst k1. assert (k2 = 1) by lra. subst k2. destruct B2 as [[C2 _]|B2]; [exfalso; apply N; split; assumption|].
      exists 1. split; [lra|]. split; [split; [apply A1; lra | apply A2; lra]|]. destruct B2 as [B2|B2]; [right; right; left; exact B2 | right; right; right; exact B2].
    + exists k1. split; [lra|]. split; [split; [apply A1; lra | apply A2; lra]|]. destruct B1 as [B1|B1]; [left; exact B1 | right; left; exact B1].
  - destruct B2 as [[C2 E2]|B2]; [lra|].
    exists k2. split; [lra|]. split; [split; [apply A1; lra | apply A2; lra]|]. destruct B2 as [B2|B2]; [right; right; left; exact B2 | right; right; right; exact B2].
Qed.

Lemma inner_or_border : forall s t, inside s t -> (0 < s < 1 /\ 0 < t < 1) \/ border s t.
Proof.
  intros s t [S T].
  destruct (Req_EM_T s 0); [right; split; [split; lra | tauto]|]. destruct (Req_EM_T s 1); [right; split; [split; lra | tauto]|].
  destruct (Req_EM_T t 0); [right; split; [split; lra | tauto]|]. destruct (Req_EM_T t 1); [right; split; [split; lra | tauto]|].
  left. lra.
Qed.

(** when the nearest pair of the lines is not inside, the border is as near as anything inside *)
Lemma border_square : forall l m c d, square_on l m c d -> ~ (0 < c < 1 /\ 0 < d < 1) ->
  forall s t, inside s t -> exists s' t', border s' t' /\ far2 (along l s') (along m t') <= far2 (along l s) (along m t).
Proof.
  intros l m c d Q N s t I'. destruct (inner_or_border s t I') as [[S T]|B]; [|exists s, t; split; [exact B|lra]].
  destruct (leave_2 s t c d S T N) as [k [K B]]. exists (s + k * (c - s)), (t + k * (d - t)). split; [exact B|].
  rewrite (square_far2 l m c d _ _ Q), (square_far2 l m c d s t Q). apply Rplus_le_compat_l.
  assert (E : mix2 l m (s + k * (c - s) - c) (t + k * (d - t) - d) = (1 - k) ^ 2 * mix2 l m (s - c) (t - d)) by (unfold mix2; ring).
  rewrite E. pose proof (mix2_pos l m (s - c) (t - d)) as P. set (M := mix2 l m (s - c) (t - d)) in *. clearbody M.
  pose proof (Rmult_le_pos k (2 - k) ltac:(lra) ltac:(lra)) as K2. pose proof (Rmult_le_pos _ _ K2 P) as K3.
  replace ((1 - k) ^ 2 * M) with (M - k * (2 - k) * M) by ring. lra.
Qed.
Lemma border_parallel : forall l m, proper l -> spread l m = 0 ->
  forall s t, inside s t -> exists s' t', border s' t' /\ far2 (along l s') (along m t') <= far2 (along l s) (along m t).
Proof.
  intros l m P Z s t I'. destruct (inner_or_border s t I') as [[S T]|B]; [|exists s, t; split; [exact B|lra]].
  pose proof (dir_pos l P) as A. set (aa := vdot (dir l) (dir l)) in *. set (ab := vdot (dir l) (dir m)).
  destruct (leave_2 s t (s + ab / aa) (t + 1) S T) as [k [K B]]; [lra|].
  replace (s + k * (s + ab / aa - s)) with (s + k * (ab / aa)) in B by ring.
  replace (t + k * (t + 1 - t)) with (t + k) in B by ring.
  exists (s + k * (ab / aa)), (t + k). split; [exact B|].
  assert (M : forall x, mix2 l m (x * (ab / aa)) x = 0).
  { intros x. assert (G : aa * mix2 l m (x * (ab / aa)) x = 0).
    { unfold aa at 1. rewrite (mix2_spread_r l m _ x), Z. fold aa. fold ab. field. lra. }
    apply Rmult_integral in G. destruct G; [lra|assumption]. }
  (* the difference moves by a vector of length zero, so not at all *)
  assert (W : forall x, vdot (gap l m (s + x * (ab / aa)) (t + x)) (gap l m (s + x * (ab / aa)) (t + x)) = vdot (gap l m s t) (gap l m s t)).
  { intros x. specialize (M x). rewrite mix2_norm in M.
    set (u := x * (ab / aa)) in *. clearbody u.
    assert (M1 : u * vx (dir l) - x * vx (dir m) = 0 /\ u * vy (dir l) - x * vy (dir m) = 0 /\ u * vz (dir l) - x * vz (dir m) = 0).
    { apply (vdot_zero (V (u * vx (dir l) - x * vx (dir m)) (u * vy (dir l) - x * vy (dir m)) (u * vz (dir l) - x * vz (dir m)))).
      unfold vdot. cbn [vx vy vz]. lra. }
    destruct M1 as [M1 [M2 M3]].
    assert (X1 : vx (gap l m (s + u) (t + x)) = vx (gap l m s t) + (u * vx (dir l) - x * vx (dir m))) by (unfold gap, dir, vminus, along; cbn [vx vy vz]; ring).
    assert (X2 : vy (gap l m (s + u) (t + x)) = vy (gap l m s t) + (u * vy (dir l) - x * vy (dir m))) by (unfold gap, dir, vminus, along; cbn [vx vy vz]; ring).
    assert (X3 : vz (gap l m (s + u) (t + x)) = vz (gap l m s t) + (u * vz (dir l) - x * vz (dir m))) by (unfold gap, dir, vminus, along; cbn [vx vy vz]; ring).
    unfold vdot. rewrite X1, X2, X3, M1, M2, M3. ring. }
  assert (F : forall u v, far2 (along l u) (along m v) = vdot (gap l m u v) (gap l m u v)) by (intros; unfold far2, gap, vdot, vminus; cbn [vx vy vz]; ring).
  rewrite !F, W. lra.
Qed.

(** the least of the four end distances is the least over the border *)
Definition ends_min (l m : line) (d : R) : Prop :=
  (exists s t, inside s t /\ far (along l s) (along m t) = d) /\ (forall s t, border s t -> d <= far (along l s) (along m t)).
Definition ends_of (l m : line) : option R :=
  match distance_point l (pvert m), distance_point l (nvert m), distance_point m (pvert l), distance_point m (nvert l) with
  | Some dab1, Some dab2, Some dba1, Some dba2 => Some (Rmin (Rmin (Rmin dab1 dab2) dba1) dba2)
  | _, _, _, _ => None
  end.
Lemma Rmin4 : forall a b c d, let k := Rmin (Rmin (Rmin a b) c) d in
  (k = a \/ k = b \/ k = c \/ k = d) /\ k <= a /\ k <= b /\ k <= c /\ k <= d.
Proof.
  intros a b c d k. unfold k, Rmin. destruct (Rle_dec a b), (Rle_dec _ c), (Rle_dec _ d); repeat split; try lra; tauto.
Qed.
Lemma ends_ok : forall l m, proper l -> proper m -> exists d, ends_of l m = Some d /\ ends_min l m d.
Proof.
  intros l m P Q. unfold ends_of.
  destruct (distance_point_ok l (pvert m) P) as [t1 [T1 [-> F1]]]. destruct (distance_point_ok l (nvert m) P) as [t2 [T2 [-> F2]]].
  destruct (distance_point_ok m (pvert l) Q) as [t3 [T3 [-> F3]]]. destruct (distance_point_ok m (nvert l) Q) as [t4 [T4 [-> F4]]].
  eexists. split; [reflexivity|].
  match goal with |- ends_min l m (Rmin (Rmin (Rmin ?a ?b) ?c) ?d) => destruct (Rmin4 a b c d) as [E [G1 [G2 [G3 G4]]]] end.
  cbv zeta in *.
  split.
  - destruct E as [-> | [-> | [-> | -> ]]].
    + exists t1, 0. rewrite along_0. split; [split; lra|reflexivity].
    + exists t2, 1. rewrite along_1. split; [split; lra|reflexivity].
    + exists 0, t3. rewrite along_0. split; [split; lra|apply far_sym].
    + exists 1, t4. rewrite along_1. split; [split; lra|apply far_sym].
  - intros s t [[S T] B]. destruct B as [-> | [-> | [-> | -> ]]].
    + rewrite along_0, (far_sym (pvert l)). specialize (F3 t T). lra.
    + rewrite along_1, (far_sym (nvert l)). specialize (F4 t T). lra.
    + rewrite along_0. specialize (F1 s S). lra.
    + rewrite along_1. specialize (F2 s S). lra.
Qed.

Definition dl_ta (l m : line) : R :=
  (vdot (dir m) (dir m) * vdot (gap l m 0 0) (dir l) - vdot (dir l) (dir m) * vdot (gap l m 0 0) (dir m)) / (- spread l m).
Definition dl_tb (l m : line) : R :=
  (vdot (dir l) (dir m) * vdot (gap l m 0 0) (dir l) - vdot (dir l) (dir l) * vdot (gap l m 0 0) (dir m)) / (- spread l m).
Lemma gap_00 : forall l m, gap l m 0 0 = vminus (pvert l) (pvert m).
Proof. intros. unfold gap. rewrite !along_0. reflexivity. Qed.
Lemma vdot_comm : forall a b, vdot a b = vdot b a.
Proof. intros. unfold vdot. ring. Qed.
Lemma distance_line_eq : forall l m, distance_line l m =
  if ltb (1 / 10000) (spread l m) then
    if (ltb 0 (dl_ta l m) && ltb (dl_ta l m) 1) && (ltb 0 (dl_tb l m) && ltb (dl_tb l m) 1)
    then Some (far (along l (dl_ta l m)) (along m (dl_tb l m))) else ends_of l m
  else ends_of l m.
Proof.
  intros l m. unfold distance_line. cbv zeta. fold (dir l). fold (dir m). fold (ends_of l m).
  assert (E : vdot (dir l) (dir m) * vdot (dir l) (dir m) - vdot (dir l) (dir l) * vdot (dir m) (dir m) = - spread l m)
    by (rewrite spread_dots; ring).
  rewrite E, Rabs_Ropp, (Rabs_pos_eq _ (spread_pos l m)). rewrite <- (gap_00 l m). fold (dl_ta l m). fold (dl_tb l m).
  rewrite !point_along, distance_far. reflexivity.
Qed.
Lemma dl_square : forall l m, 0 < spread l m -> square_on l m (dl_ta l m) (dl_tb l m).
Proof.
  intros l m S. apply square_solution; [exact S| |]; unfold dl_ta, dl_tb;
    rewrite (vdot_comm (gap l m 0 0) (dir l)), (vdot_comm (gap l m 0 0) (dir m)); field; lra.
Qed.

Lemma distance_line_ok : forall l m, proper l -> proper m ->
  exists d, distance_line l m = Some d /\
    (exists s t, inside s t /\ far (along l s) (along m t) = d) /\
    (spread l m = 0 \/ 1 / 10000 < spread l m -> forall s t, inside s t -> d <= far (along l s) (along m t)).
Proof.
  intros l m P Q. rewrite distance_line_eq. destruct (ends_ok l m P Q) as [d [E [A B]]]. rewrite E.
  assert (W : forall x, (forall s t, inside s t -> exists s' t', border s' t' /\ far2 (along l s') (along m t') <= far2 (along l s) (along m t)) ->
              inside (fst x) (snd x) -> d <= far (along l (fst x)) (along m (snd x))).
  { intros [s t] H I'. cbn [fst snd] in *. destruct (H s t I') as [s' [t' [Bo L]]]. eapply Rle_trans; [apply (B s' t' Bo)|]. apply far_le. exact L. }
  ltbs H (1 / 10000) (spread l m).
  - assert (S : 0 < spread l m) by lra. pose proof (dl_square l m S) as D.
    set (c := dl_ta l m) in *. set (e := dl_tb l m) in *.
    ltbs Ha 0 c; ltbs Hb c 1; ltbs Hc 0 e; ltbs Hd e 1; cbn [andb];
      try (exists d; split; [reflexivity|]; split; [exact A|]; intros _ s t I'; apply (W (s, t)); [|exact I'];
           apply (border_square l m c e D); intros [? ?]; lra).
    eexists. split; [reflexivity|]. split.
    + exists c, e. split; [split; lra|reflexivity].
    + intros _ s t I'. apply far_le. rewrite (square_far2 l m c e s t D). pose proof (mix2_pos l m (s - c) (t - e)). lra.
  - exists d. split; [reflexivity|]. split; [exact A|]. intros [Z|Z]; [|lra]. intros s t I'. apply (W (s, t)); [|exact I'].
    apply (border_parallel l m P Z).
Qed.

(** * common perpendicular *)
Lemma vnorm_sq : forall a, vnorm a * vnorm a = vdot a a.
Proof. intros. unfold vnorm. apply sqrt_sqrt. apply vdot_pos. Qed.
Lemma common_perpendicular_ok : forall l m,
  (spread l m < parallel_threshold -> common_perpendicular l m = Some Parallel) /\
  (parallel_threshold <= spread l m -> exists p q, common_perpendicular l m = Some (Pair p q) /\ nearest_pair (on_line l) (on_line m) p q).
Proof.
  intros l m. unfold common_perpendicular. cbv zeta. fold (dir l). fold (dir m). rewrite !vnorm_sq.
  assert (E : vdot (dir l) (dir m) * vdot (dir l) (dir m) + - vdot (dir m) (dir m) * vdot (dir l) (dir l) = - spread l m)
    by (rewrite spread_dots; ring).
  rewrite !E, Rabs_Ropp, (Rabs_pos_eq _ (spread_pos l m)).
  ltbs H (spread l m) parallel_threshold; split; intros G; try lra; [reflexivity|].
  assert (S : 0 < spread l m) by (unfold parallel_threshold in *; lra).
  unfold ndiv. destruct (Req_EM_T (- spread l m) 0) as [Z|_]; [lra|].
  eexists; eexists. split; [reflexivity|]. rewrite !point_along. apply square_nearest; [exact S|].
  apply square_solution; [exact S| |]; rewrite gap_00;
    replace (vminus (pvert m) (pvert l)) with (V (- vx (vminus (pvert l) (pvert m))) (- vy (vminus (pvert l) (pvert m))) (- vz (vminus (pvert l) (pvert m))))
      by (apply vec_ext; unfold vminus; cbn [vx vy vz]; ring);
    set (x := vminus (pvert l) (pvert m));
    set (k := spread l m) in *; clearbody k; unfold vdot; cbn [vx vy vz]; field; lra.
Qed.

(** * intersections *)
Lemma LINE_INTERSECTION3_ok : forall a b tol,
  (spread a b < tol -> LINE_INTERSECTION3 (pvert a) (nvert a) (pvert b) (nvert b) tol = Some None) /\
  (tol <= spread a b -> 0 < spread a b -> exists u v,
     LINE_INTERSECTION3 (pvert a) (nvert a) (pvert b) (nvert b) tol = Some (Some (u, v)) /\
     nearest_pair (on_line a) (on_line b) (along a u) (along b v)) /\
  (tol <= spread a b -> spread a b = 0 -> LINE_INTERSECTION3 (pvert a) (nvert a) (pvert b) (nvert b) tol = None).
Proof.
  intros a b tol. unfold LINE_INTERSECTION3. cbv zeta. fold (dir a). fold (dir b).
  assert (E : let c := vcross (dir a) (dir b) in vx c * vx c + vy c * vy c + vz c * vz c = spread a b)
    by (cbv zeta; unfold spread, vcross, dir, vminus; cbn [vx vy vz]; ring).
  cbv zeta in E. rewrite !E. ltbs H (spread a b) tol.
  - repeat split; intros; try lra; reflexivity.
  - repeat split; intros; try lra.
    + unfold ndiv. destruct (Req_EM_T (spread a b) 0) as [Z|_]; [lra|]. eexists; eexists. split; [reflexivity|].
      apply square_nearest; [assumption|].
      apply square_solution; [assumption| |]; rewrite gap_00;
      (match goal with |- ?n / ?k * - ?k = _ => replace (n / k * - k) with (- n) by (field; lra) end);
      unfold determinant3, vcross, vdot, dir, vminus; cbn [vx vy vz]; ring.
    + unfold ndiv. destruct (Req_EM_T (spread a b) 0) as [_|Z]; [reflexivity|lra].
Qed.

Definition cross_xy (a b : line) : R :=
  (vx (nvert a) - vx (pvert a)) * (vy (nvert b) - vy (pvert b)) - (vy (nvert a) - vy (pvert a)) * (vx (nvert b) - vx (pvert b)).
Lemma meet2_unique : forall a b u v, cross_xy a b <> 0 -> meet2 a b u v <->
  u = ((vx (pvert b) - vx (pvert a)) * (vy (nvert b) - vy (pvert b)) - (vy (pvert b) - vy (pvert a)) * (vx (nvert b) - vx (pvert b))) / cross_xy a b /\
  v = ((vx (pvert b) - vx (pvert a)) * (vy (nvert a) - vy (pvert a)) - (vy (pvert b) - vy (pvert a)) * (vx (nvert a) - vx (pvert a))) / cross_xy a b.
Proof.
  intros a b u v N. unfold meet2, along. cbn [vx vy vz].
  set (ax := vx (pvert a)). set (ay := vy (pvert a)). set (bx := vx (pvert b)). set (by_ := vy (pvert b)).
  unfold cross_xy in *. fold ax ay bx by_ in N. fold ax ay bx by_.
  set (cx := vx (nvert a) - ax) in *. set (cy := vy (nvert a) - ay) in *. set (dx := vx (nvert b) - bx) in *. set (dy := vy (nvert b) - by_) in *.
  split.
  - intros [E1 E2]. split; (apply (Rmult_eq_reg_r (cx * dy - cy * dx)); [|exact N]).
    + replace ((bx - ax) * dy - (by_ - ay) * dx) with ((u * cx - v * dx) * dy - (u * cy - v * dy) * dx)
        by (replace (bx - ax) with (u * cx - v * dx) by lra; replace (by_ - ay) with (u * cy - v * dy) by lra; reflexivity).
      field. exact N.
    + replace ((bx - ax) * cy - (by_ - ay) * cx) with ((u * cx - v * dx) * cy - (u * cy - v * dy) * cx)
        by (replace (bx - ax) with (u * cx - v * dx) by lra; replace (by_ - ay) with (u * cy - v * dy) by lra; reflexivity).
      field. exact N.
  - intros [-> ->]. split; field; exact N.
Qed.
(** parallel lines never meet in exactly one pair *)
Lemma meet2_parallel : forall a b u v, cross_xy a b = 0 -> meet2 a b u v -> exists u' v', (u', v') <> (u, v) /\ meet2 a b u' v'.
Proof.
  intros a b u v Z M. unfold cross_xy in Z. unfold meet2, along in *. cbn [vx vy vz] in *. destruct M as [M1 M2].
  set (ax := vx (pvert a)) in *. set (ay := vy (pvert a)) in *. set (bx := vx (pvert b)) in *. set (by_ := vy (pvert b)) in *.
  set (cx := vx (nvert a) - ax) in *. set (cy := vy (nvert a) - ay) in *. set (dx := vx (nvert b) - bx) in *. set (dy := vy (nvert b) - by_) in *.
  clearbody ax ay bx by_ cx cy dx dy.
  destruct (Req_EM_T cx 0) as [X|X]; [destruct (Req_EM_T cy 0) as [Y|Y]|].
  - exists (u + 1), v. split; [intros E; injection E; lra|]. subst cx cy. split; lra.
  - exists (u + dy / cy), (v + 1). split; [intros E; injection E; lra|]. subst cx.
    assert (D : dx = 0) by (assert (cy * dx = 0) by lra; apply Rmult_integral in H; destruct H; [contradiction|assumption]). subst dx.
    split; [lra|]. replace ((u + dy / cy) * cy) with (u * cy + dy) by (field; exact Y). lra.
  - exists (u + dx / cx), (v + 1). split; [intros E; injection E; lra|].
    assert (D : dy = cy * dx / cx) by (apply (Rmult_eq_reg_r cx); [field_simplify; [lra|exact X]|exact X]).
    split; [replace ((u + dx / cx) * cx) with (u * cx + dx) by (field; exact X); lra|].
    rewrite D in *. replace ((u + dx / cx) * cy) with (u * cy + cy * dx / cx) by (field; exact X). lra.
Qed.

(** * overlap of two segments of one line *)
Lemma along_along : forall l p q x, along (Line (along l p) (along l q)) x = along l (p + x * (q - p)).
Proof. intros. unfold along. cbn [pvert nvert vx vy vz]. apply vec_ext; cbn [vx vy vz]; ring. Qed.
Lemma along_inj : forall l s t, proper l -> along l s = along l t -> s = t.
Proof.
  intros l s t P E. pose proof (dir_pos l P) as Q.
  assert (G : (s - t) ^ 2 * vdot (dir l) (dir l) = far2 (along l s) (along l t))
    by (unfold far2, along, vdot, dir, vminus; cbn [vx vy vz]; ring).
  rewrite E in G. replace (far2 (along l t) (along l t)) with 0 in G by (unfold far2; ring).
  apply Rmult_integral in G. destruct G as [G|G]; [|lra]. replace ((s - t) ^ 2) with (Rsqr (s - t)) in G by (unfold Rsqr; ring).
  apply Rsqr_0_uniq in G. lra.
Qed.
Lemma foot_along : forall l t, proper l -> foot_at l (along l t) = t.
Proof.
  intros l t P. pose proof (dir_pos l P) as Q. unfold foot_at.
  replace (vdot (dir l) (vminus (along l t) (pvert l))) with (t * vdot (dir l) (dir l))
    by (unfold along, vdot, dir, vminus; cbn [vx vy vz]; ring).
  field. lra.
Qed.
(** the points of the segment from along l p to along l q *)
Lemma seg_between : forall l p q z, p <= q -> on_segment (Line (along l p) (along l q)) z <-> exists t, p <= t <= q /\ z = along l t.
Proof.
  intros l p q z L. split.
  - intros [x [X ->]]. rewrite along_along. exists (p + x * (q - p)). split; [|reflexivity]. nra.
  - intros [t [T ->]]. destruct (Req_EM_T q p) as [E|E].
    + exists 0. rewrite along_along. split; [lra|]. f_equal. lra.
    + exists ((t - p) / (q - p)). rewrite along_along.
      assert (D : 0 < q - p) by lra. assert (G : (t - p) / (q - p) * (q - p) = t - p) by (field; lra).
      split; [split; nra|]. rewrite G. f_equal. ring.
Qed.
Lemma seg_flip : forall p q z, on_segment (Line p q) z <-> on_segment (Line q p) z.
Proof.
  intros p q z. split; intros [t [T ->]]; exists (1 - t); (split; [lra|]); unfold along; cbn [pvert nvert]; apply vec_ext; cbn [vx vy vz]; ring.
Qed.
Lemma overlap_ok : forall l m, proper l -> on_line l (pvert m) -> on_line l (nvert m) ->
  exists r, colinear_line_intersection l m = Some r /\
    match r with
    | None => forall z, ~ (on_segment l z /\ on_segment m z)
    | Some k => forall z, on_segment k z <-> on_segment l z /\ on_segment m z
    end.
Proof.
  intros l [mp mn] P [p Ep] [n En]. cbn [pvert nvert] in *. subst mp mn.
  unfold colinear_line_intersection. cbn [pvert nvert]. rewrite !parameter_eq, !foot_along by exact P.
  assert (G : exists p' n', (if ltb n p then (n, p) else (p, n)) = (p', n') /\ p' <= n' /\
              forall z, on_segment (Line (along l p) (along l n)) z <-> on_segment (Line (along l p') (along l n')) z).
  { ltbs H n p; eexists; eexists; (split; [reflexivity|]); (split; [lra|]); intros z; [apply seg_flip | reflexivity]. }
  destruct G as [p' [n' [-> [L G]]]]. eexists. split; [reflexivity|].
  assert (S0 : forall z, on_segment l z <-> exists t, 0 <= t <= 1 /\ z = along l t) by (intros; reflexivity).
  ltbs H1 n' 0; [|ltbs H2 1 p']; cbn [orb].
  - intros z [A B]. rewrite G, (seg_between l p' n' z L) in B. destruct A as [t [T ->]]. destruct B as [s [S E]].
    apply along_inj in E; [|exact P]. lra.
  - intros z [A B]. rewrite G, (seg_between l p' n' z L) in B. destruct A as [t [T ->]]. destruct B as [s [S E]].
    apply along_inj in E; [|exact P]. lra.
  - rewrite !point_along. intros z.
    assert (M : Rmax 0 p' <= Rmin 1 n') by (unfold Rmax, Rmin; destruct (Rle_dec 0 p'), (Rle_dec 1 n'); lra).
    rewrite G, (seg_between l _ _ z M), (seg_between l p' n' z L). split.
    + intros [t [T ->]]. unfold Rmax, Rmin in T. destruct (Rle_dec 0 p'), (Rle_dec 1 n');
        (split; [exists t; split; [lra|reflexivity] | exists t; split; [lra|reflexivity]]).
    + intros [[t [T ->]] [s [S E]]]. apply along_inj in E; [|exact P]. subst s. exists t. split; [|reflexivity].
      unfold Rmax, Rmin. destruct (Rle_dec 0 p'), (Rle_dec 1 n'); lra.
Qed.

(** * the farthest point *)
Lemma farthest_loop_ok : forall p points vv, let w := farthest_loop p vv (vdistance p vv) points in
  In w (vv :: points) /\ forall v, In v (vv :: points) -> far p v <= far p w.
Proof.
  intros p points. induction points as [|v r IH]; intros vv.
  - cbn [farthest_loop]. cbv zeta. split; [left; reflexivity|]. intros v [<-|[]]. lra.
  - cbn [farthest_loop]. cbv zeta. ltbs H (vdistance p vv) (vdistance p v); rewrite !distance_far in H.
    + destruct (IH v) as [A B]. split; [right; exact A|]. intros u [<-|U]; [|apply B; exact U].
      eapply Rle_trans; [apply Rlt_le, H|]. apply B. left. reflexivity.
    + destruct (IH vv) as [A B]. split; [destruct A as [A|A]; [left; exact A|right; right; exact A]|].
      intros u [<-|[<-|U]]; [apply B; left; reflexivity| |apply B; right; exact U].
      eapply Rle_trans; [exact H|]. apply B. left. reflexivity.
Qed.
Lemma farthest_ok : forall p points, points <> [] ->
  exists w, farthest p points = Some w /\ In w points /\ forall v, In v points -> far p v <= far p w.
Proof.
  intros p [|vv r] N; [contradiction|]. eexists. split; [reflexivity|]. apply farthest_loop_ok.
Qed.
Lemma far_self : forall p q r, far p p <= far q r.
Proof. intros. apply far_le. pose proof (far2_pos q r). replace (far2 p p) with 0 by (unfold far2; ring). exact H. Qed.

Lemma farthest_pair_loop_ok : forall ps all v1 v2, In v1 all -> In v2 all -> incl ps all ->
  exists w1 w2, farthest_pair_loop v1 v2 (vdistance v1 v2) ps = Some (w1, w2) /\ In w1 all /\ In w2 all /\
    far v1 v2 <= far w1 w2 /\ forall p q, In p ps -> In q ps -> far p q <= far w1 w2.
Proof.
  induction ps as [|v11 rest IH]; intros all v1 v2 I1 I2 Inc.
  - cbn [farthest_pair_loop]. exists v1, v2. repeat split; try assumption; [lra|]. intros p q [].
  - cbn [farthest_pair_loop]. destruct rest as [|x rest'].
    + exists v1, v2. repeat split; try assumption; [lra|]. intros p q [<-|[]] [<-|[]]. apply far_self.
    + set (rest := x :: rest') in *.
      destruct (farthest_ok v11 rest) as [v22 [E [I22 F]]]; [discriminate|]. rewrite E.
      assert (Inc2 : incl rest all) by (intros z Z; apply Inc; right; exact Z).
      assert (I11 : In v11 all) by (apply Inc; left; reflexivity).
      assert (K : forall w1 w2, far v11 v22 <= far w1 w2 -> (forall p q, In p rest -> In q rest -> far p q <= far w1 w2) ->
                  forall p q, In p (v11 :: rest) -> In q (v11 :: rest) -> far p q <= far w1 w2).
      { intros w1 w2 A B p q [<-|P] [<-|Q].
        - eapply Rle_trans; [apply (far_self v11 v11 v22)|exact A].
        - eapply Rle_trans; [apply (F q Q)|exact A].
        - rewrite far_sym. eapply Rle_trans; [apply (F p P)|exact A].
        - apply B; assumption. }
      ltbs H (vdistance v1 v2) (vdistance v11 v22); rewrite !distance_far in H.
      * destruct (IH all v11 v22 I11 (Inc2 _ I22) Inc2) as [w1 [w2 [G [A [B [C D]]]]]]. exists w1, w2. split; [exact G|].
        split; [exact A|]. split; [exact B|]. split; [lra|]. apply K; assumption.
      * destruct (IH all v1 v2 I1 I2 Inc2) as [w1 [w2 [G [A [B [C D]]]]]]. exists w1, w2. split; [exact G|].
        split; [exact A|]. split; [exact B|]. split; [exact C|]. apply K; [lra|assumption].
Qed.
Lemma farthest_pair_ok : forall points, (2 <= length points)%nat ->
  exists v w, farthest_pair points = Some (v, w) /\ In v points /\ In w points /\
    forall p q, In p points -> In q points -> far p q <= far v w.
Proof.
  intros [|v1 ps] L; [simpl in L; exfalso; inversion L|]. destruct ps as [|x r]; [simpl in L; exfalso; inversion L as [|k L2]; inversion L2|].
  set (ps := x :: r). unfold farthest_pair.
  destruct (farthest_ok v1 ps) as [v2 [E [I2 F]]]; [discriminate|]. rewrite E.
  destruct (farthest_pair_loop_ok ps (v1 :: ps) v1 v2) as [w1 [w2 [G [A [B [C D]]]]]];
    [left; reflexivity | right; exact I2 | intros z Z; right; exact Z |].
  exists w1, w2. split; [exact G|]. split; [exact A|]. split; [exact B|]. intros p q [<-|P] [<-|Q].
  - eapply Rle_trans; [apply (far_self v1 v1 v2)|exact C].
  - eapply Rle_trans; [apply (F q Q)|exact C].
  - rewrite far_sym. eapply Rle_trans; [apply (F p P)|exact C].
  - apply D; assumption.
Qed.
