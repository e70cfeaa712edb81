(** Proofs for C94: normals, convex polygons and the place of a point. *)
From Coq Require Import Reals List Bool Lra Lia Psatz.
From Verif Require Import GeoModel BoxModel GeoSpec GeoProofs GeoProofs2 PolyModel PolySpec PolyProofs.
Import ListNotations.
Local Open Scope R_scope.

(** * the normal *)
Lemma normal_loop_sum : forall vl v1 acc d,
  fst (normal_loop v1 vl acc) = last (v1 :: vl) d /\
  forall k, coord k -> k (snd (normal_loop v1 vl acc)) = k acc + psum (fun a b => k (vcross a b)) (v1 :: vl).
Proof.
  induction vl as [|v2 r IH]; intros v1 acc d; cbn [normal_loop].
  - cbn. split; [reflexivity | intros; ring].
  - destruct (IH v2 (GeoModel.vplus (vcross v1 v2) acc) d) as [I1 I2]. split; [exact I1|].
    intros k K. rewrite (I2 k K), psum_cons2. unfold GeoModel.vplus. destruct K as [-> | [-> | ->]]; cbn [vx vy vz]; ring.
Qed.
Lemma normal_sum_cyc : forall ver k, ver <> [] -> coord k -> k (normal_sum ver) = cyc (fun a b => k (vcross a b)) ver.
Proof.
  intros [|v1 r] k NE K; [congruence|]. unfold normal_sum.
  pose proof (normal_loop_sum r v1 (V 0 0 0) (V 0 0 0)) as [L1 L2].
  destruct (normal_loop v1 r (V 0 0 0)) as [vl acc]. cbn [fst snd] in *. subst vl.
  unfold cyc, close. rewrite psum_cons2.
  replace (k (GeoModel.vplus (vcross (last (v1 :: r) (V 0 0 0)) v1) acc))
    with (k (vcross (last (v1 :: r) (V 0 0 0)) v1) + k acc) by (destruct K as [-> | [-> | ->]]; reflexivity).
  rewrite (L2 k K). replace (k (V 0 0 0)) with 0 by (destruct K as [-> | [-> | ->]]; reflexivity). ring.
Qed.
Lemma area_normal_sum : forall ver n, ver <> [] -> 2 * polygon_area ver n = dot3 n (normal_sum ver).
Proof.
  intros ver n NE. rewrite area_det. unfold dot3. rewrite !(normal_sum_cyc ver) by (unfold coord; auto).
  unfold cyc, det, dot3. rewrite !psum_plus.
  rewrite (psum_scale (fun a b => vx (vcross a b))), (psum_scale (fun a b => vy (vcross a b))), (psum_scale (fun a b => vz (vcross a b))).
  field.
Qed.
(** a vector in the direction of the normal of the plane *)
Lemma cross_normal : forall e f n, unit_normal e f n -> forall k, coord k -> k (vcross e f) = dot3 n (vcross e f) * k n.
Proof.
  intros [e1 e2 e3] [f1 f2 f3] [n1 n2 n3] [U [E F]] k K. vunfold.
  assert (A : forall x t u v w, x * 1 = t + u * 0 - v * 0 -> t = w -> x = w) by (intros; lra).
  destruct K as [-> | [-> | ->]]; cbn [vx vy vz].
  - refine (A _ (n1 * (n1 * (e2 * f3 - e3 * f2) + n2 * (e3 * f1 - e1 * f3) + n3 * (e1 * f2 - e2 * f1)))
      (n2 * f3 - n3 * f2) (n2 * e3 - n3 * e2) _ _ _); [|ring]. rewrite <- U at 1. rewrite <- E at 1. rewrite <- F. ring.
  - refine (A _ (n2 * (n1 * (e2 * f3 - e3 * f2) + n2 * (e3 * f1 - e1 * f3) + n3 * (e1 * f2 - e2 * f1)))
      (n3 * f1 - n1 * f3) (n3 * e1 - n1 * e3) _ _ _); [|ring]. rewrite <- U at 1. rewrite <- E at 1. rewrite <- F. ring.
  - refine (A _ (n3 * (n1 * (e2 * f3 - e3 * f2) + n2 * (e3 * f1 - e1 * f3) + n3 * (e1 * f2 - e2 * f1)))
      (n1 * f2 - n2 * f1) (n1 * e2 - n2 * e1) _ _ _); [|ring]. rewrite <- U at 1. rewrite <- E at 1. rewrite <- F. ring.
Qed.
(** in a plane: the cross product of two differences is along the normal *)
Lemma planar_diff : forall o e f a b, planar o e f a -> planar o e f b ->
  exists x y, sub3 b a = V (x * vx e + y * vx f) (x * vy e + y * vy f) (x * vz e + y * vz f).
Proof.
  intros o e f a b [xa [ya ->]] [xb [yb ->]]. exists (xb - xa), (yb - ya). unfold sub3. apply vec_ext; cbn [vx vy vz]; ring.
Qed.
Lemma planar_cross : forall o e f n a b c, unit_normal e f n -> planar o e f a -> planar o e f b -> planar o e f c ->
  forall k, coord k -> k (vcross (sub3 b a) (sub3 c a)) = left_of n a b c * k n.
Proof.
  intros o e f n a b c U A B C k K.
  destruct (planar_diff o e f a b A B) as [x [y E1]]. destruct (planar_diff o e f a c A C) as [z [w E2]].
  unfold left_of. rewrite E1, E2.
  pose proof (cross_normal e f n U k K) as N. unfold vcross in *. unfold dot3 in N.
  destruct K as [-> | [-> | ->]]; cbn [vx vy vz] in *.
  - transitivity ((x * w - y * z) * (vy e * vz f - vz e * vy f)); [ring|]. rewrite N at 1. ring.
  - transitivity ((x * w - y * z) * (vz e * vx f - vx e * vz f)); [ring|]. rewrite N at 1. ring.
  - transitivity ((x * w - y * z) * (vx e * vy f - vy e * vx f)); [ring|]. rewrite N at 1. ring.
Qed.
Lemma planar_normal_sum : forall o e f n ver, ver <> [] -> unit_normal e f n -> (forall v, In v ver -> planar o e f v) ->
  forall k, coord k -> k (normal_sum ver) = 2 * polygon_area ver n * k n.
Proof.
  intros o e f n ver NE U P k K. rewrite (normal_sum_cyc ver k NE K).
  rewrite (cyc_shift _ (fun a b => k (vcross (sub3 a (hd o ver)) (sub3 b (hd o ver)))) (fun x => k (vcross (hd o ver) x))).
  2:{ intros a b _ _. unfold vcross, sub3. destruct K as [-> | [-> | ->]]; cbn [vx vy vz]; ring. }
  rewrite (area_from ver n (hd o ver)). unfold cyc.
  rewrite (psum_ext _ (fun a b => k n * left_of n a b (hd o ver))).
  - rewrite psum_scale. field.
  - intros a b Ha Hb. rewrite Rmult_comm.
    assert (HP : planar o e f (hd o ver)) by (destruct ver; [congruence | apply P; left; reflexivity]).
    pose proof (planar_cross o e f n (hd o ver) a b U HP (P a (proj1 (in_close ver a NE) Ha)) (P b (proj1 (in_close ver b NE) Hb)) k K) as Q.
    rewrite Q. f_equal. unfold left_of, sub3. cbn [vx vy vz]. ring.
Qed.
Lemma normalize_spec : forall a, match normalize a with
  | None => a = V 0 0 0
  | Some u => dot3 u u = 1 /\ exists r, 0 < r /\ a = scale3 r u
  end.
Proof.
  intros a. unfold normalize, ndiv. destruct (Req_EM_T (vnorm a) 0) as [Z|Z].
  - assert (D : vdot a a = 0) by (apply sqrt_eq_0; [apply vdot_pos | exact Z]).
    apply vdot_zero in D. destruct D as [X [Y W]]. apply vec_ext; cbn [vx vy vz]; assumption.
  - assert (Q : vnorm a * vnorm a = vdot a a) by (apply sqrt_sqrt; apply vdot_pos).
    assert (P : 0 <= vnorm a) by apply sqrt_pos. set (r := vnorm a) in *. clearbody r. split.
    + unfold dot3. cbn [vx vy vz]. unfold vdot in Q.
      replace (vx a / r * (vx a / r) + vy a / r * (vy a / r) + vz a / r * (vz a / r))
        with ((vx a * vx a + vy a * vy a + vz a * vz a) / (r * r)) by (field; exact Z). rewrite <- Q. field. exact Z.
    + exists r. split; [lra|]. unfold scale3. apply vec_ext; cbn [vx vy vz]; field; exact Z.
Qed.

(** * edges *)
Lemma pairs_snoc : forall l a b d, pairs (a :: l ++ [b]) = pairs (a :: l) ++ [(last (a :: l) d, b)].
Proof.
  induction l as [|c r IH]; intros a b d; [reflexivity|].
  change (pairs (a :: (c :: r) ++ [b])) with ((a, c) :: pairs (c :: r ++ [b])). rewrite (IH c b d). reflexivity.
Qed.
Lemma edges_close : forall ver p, In p (edges ver) <-> In p (pairs (close ver)).
Proof.
  intros [|v r] p; [reflexivity|]. unfold edges, close.
  change ((v :: r) ++ [v]) with (v :: r ++ [v]). rewrite (pairs_snoc r v v (V 0 0 0)), in_app_iff.
  change (pairs (last (v :: r) (V 0 0 0) :: v :: r)) with ((last (v :: r) (V 0 0 0), v) :: pairs (v :: r)).
  simpl In. tauto.
Qed.
Lemma pairs_in : forall l a b, In (a, b) (pairs l) -> In a l /\ In b l.
Proof.
  induction l as [|x [|y r] IH]; intros a b H; [destruct H..|].
  destruct H as [E | H]; [injection E as <- <-; simpl; auto|]. apply IH in H. simpl in *. tauto.
Qed.
Lemma pairs_distinct : forall l a b, NoDup l -> In (a, b) (pairs l) -> a <> b.
Proof.
  induction l as [|x [|y r] IH]; intros a b N H; [destruct H..|].
  inversion N as [|? ? N1 N2]; subst. destruct H as [E | H]; [injection E as <- <-; intros ->; apply N1; left; reflexivity|].
  exact (IH a b N2 H).
Qed.
Lemma edges_in : forall ver a b, In (a, b) (edges ver) -> In a ver /\ In b ver.
Proof.
  intros ver a b H. assert (NE : ver <> []) by (intros ->; destruct H).
  apply edges_close, pairs_in in H. rewrite !in_close in H by exact NE. exact H.
Qed.
Lemma edges_distinct : forall ver a b, NoDup ver -> (2 <= length ver)%nat -> In (a, b) (edges ver) -> a <> b.
Proof.
  intros ver a b N L H. apply edges_close in H. destruct ver as [|v [|w r]]; cbn [length] in L; [lia..|].
  unfold close in H.
  change (pairs (last (v :: w :: r) (V 0 0 0) :: v :: w :: r)) with ((last (w :: r) (V 0 0 0), v) :: pairs (v :: w :: r)) in H.
  destruct H as [E | H]; [|exact (pairs_distinct _ a b N H)]. injection E as <- <-. intros E.
  pose proof (in_last (w :: r) (V 0 0 0) ltac:(discriminate)) as Z. cbn [last] in Z, E. rewrite E in Z.
  inversion N as [|? ? N1 N2]. exact (N1 Z).
Qed.

(** * convex polygons *)
Definition lefts (n : vec) (ver : list vec) (p : vec) : Prop := forall a b, In (a, b) (edges ver) -> 0 <= left_of n a b p.
Lemma left_along : forall n a b p q t, left_of n a b (along (Line p q) t) = (1 - t) * left_of n a b p + t * left_of n a b q.
Proof. intros. vunfold. ring. Qed.
Lemma convex_vertex : forall n ver v, convex n ver -> In v ver -> lefts n ver v.
Proof.
  intros n ver v [_ [_ C]] H a b E. destruct (C a b E v H) as [-> | [-> | L]]; [| |lra]; vunfold; apply Req_le; ring.
Qed.
Lemma hull_lefts : forall n ver p, convex n ver -> hull ver p -> lefts n ver p.
Proof.
  intros n ver p C H. induction H as [v V | p q t _ IHp _ IHq T]; [apply convex_vertex; assumption|].
  intros a b E. rewrite left_along. specialize (IHp a b E). specialize (IHq a b E).
  apply Rplus_le_le_0_compat; apply Rmult_le_pos; lra.
Qed.
Lemma hull_planar : forall o e f ver p, (forall v, In v ver -> planar o e f v) -> hull ver p -> planar o e f p.
Proof.
  intros o e f ver p P H. induction H as [v K | p q t _ [x [y ->]] _ [z [w ->]] T]; [auto|].
  exists (x + t * (z - x)), (y + t * (w - y)). unfold along. cbn [pvert nvert vx vy vz]. apply vec_ext; cbn [vx vy vz]; ring.
Qed.
(** weights in a triangle *)
Lemma barycentric : forall o e f n a b c p, planar o e f a -> planar o e f b -> planar o e f c -> planar o e f p ->
  forall k, coord k -> left_of n a b c * k p = left_of n b c p * k a + left_of n c a p * k b + left_of n a b p * k c.
Proof.
  intros o e f n a b c p [xa [ya ->]] [xb [yb ->]] [xc [yc ->]] [xp [yp ->]] k K.
  unfold left_of, sub3. destruct K as [-> | [-> | ->]]; cbn [vx vy vz]; ring.
Qed.
Lemma hull_weights : forall ver a b c p x y z, In a ver -> In b ver -> In c ver -> 0 <= x -> 0 <= y -> 0 <= z -> x + y + z = 1 ->
  (forall k, coord k -> k p = x * k a + y * k b + z * k c) -> hull ver p.
Proof.
  intros ver a b c p x y z Ha Hb Hc X Y Z S E.
  destruct (Req_EM_T x 1) as [->|N].
  - assert (y = 0) by lra. assert (z = 0) by lra. subst y z.
    replace p with a; [apply hull_vertex; exact Ha|].
    apply vec_ext; rewrite E by (unfold coord; auto); ring.
  - assert (Q : 0 < 1 - x) by lra.
    replace p with (along (Line a (along (Line b c) (z / (1 - x)))) (1 - x)).
    + apply hull_between; [apply hull_vertex; exact Ha | | lra].
      apply hull_between; [apply hull_vertex; assumption.. |].
      split; [apply Rmult_le_pos; [lra | apply Rlt_le, Rinv_0_lt_compat; lra]|].
      apply Rmult_le_reg_r with (1 - x); [lra|]. unfold Rdiv. rewrite Rmult_assoc, Rinv_l by lra. lra.
    + apply vec_ext; rewrite E by (unfold coord; auto); unfold along; cbn [pvert nvert vx vy vz];
        replace y with (1 - x - z) by lra; field; lra.
Qed.
Lemma fan : forall o e f n ver v0 p rest w, (forall v, In v ver -> planar o e f v) -> planar o e f p ->
  In v0 ver -> incl (w :: rest) ver -> 0 <= left_of n v0 w p ->
  (forall a b, In (a, b) (pairs (w :: rest)) -> 0 <= left_of n a b p /\ 0 < left_of n a b v0) ->
  0 <= left_of n (last (w :: rest) w) v0 p -> rest <> [] -> hull ver p.
Proof.
  intros o e f n ver v0 p rest. induction rest as [|w' r IH]; intros w P PP I0 IN L0 L LL NE; [congruence|].
  destruct (L w w' (or_introl eq_refl)) as [E1 E2].
  destruct (Rle_lt_dec (left_of n v0 w' p) 0) as [G|G].
  - set (T := left_of n w w' v0) in *.
    apply (hull_weights ver v0 w w' p (left_of n w w' p / T) (left_of n w' v0 p / T) (left_of n v0 w p / T)).
    + exact I0.
    + apply IN; left; reflexivity.
    + apply IN; right; left; reflexivity.
    + apply Rmult_le_pos; [exact E1 | apply Rlt_le, Rinv_0_lt_compat; exact E2].
    + apply Rmult_le_pos; [|apply Rlt_le, Rinv_0_lt_compat; exact E2].
      replace (left_of n w' v0 p) with (- left_of n v0 w' p) by (vunfold; ring). lra.
    + apply Rmult_le_pos; [exact L0 | apply Rlt_le, Rinv_0_lt_compat; exact E2].
    + replace (left_of n w w' p / T + left_of n w' v0 p / T + left_of n v0 w p / T)
        with ((left_of n w w' p + left_of n w' v0 p + left_of n v0 w p) / T) by (field; lra).
      replace (left_of n w w' p + left_of n w' v0 p + left_of n v0 w p) with T; [field; lra|]. unfold T. vunfold. ring.
    + intros k K.
      assert (B : left_of n v0 w w' * k p = left_of n w w' p * k v0 + left_of n w' v0 p * k w + left_of n v0 w p * k w').
      { apply (barycentric o e f n v0 w w' p); auto; apply P; apply IN; simpl; auto. }
      replace (left_of n v0 w w') with T in B by (unfold T; vunfold; ring).
      apply Rmult_eq_reg_l with T; [|lra]. rewrite B. field. lra.
  - destruct r as [|u r].
    + cbn [last] in LL. replace (left_of n w' v0 p) with (- left_of n v0 w' p) in LL by (vunfold; ring). lra.
    + apply (IH w'); auto; try lra; try discriminate.
      * intros x X. apply IN. right. exact X.
      * intros a b H. apply L. right. exact H.
      * rewrite (last_any _ w' w' w). exact LL.
Qed.
Lemma lefts_hull : forall o e f n ver p, (forall v, In v ver -> planar o e f v) -> planar o e f p -> convex n ver ->
  lefts n ver p -> hull ver p.
Proof.
  intros o e f n ver p P PP [L [N C]] H.
  destruct ver as [|v0 [|w [|w' r]]]; cbn [length] in L; [lia..|].
  assert (ED : forall q, In q (edges (v0 :: w :: w' :: r)) <->
    q = (last (w :: w' :: r) w, v0) \/ q = (v0, w) \/ In q (pairs (w :: w' :: r))).
  { intros q. rewrite edges_close. unfold close.
    change (last (v0 :: w :: w' :: r) (V 0 0 0)) with (last (w :: w' :: r) (V 0 0 0)).
    rewrite (last_any _ w (V 0 0 0) w). simpl pairs. simpl In. intuition. }
  apply (fan o e f n _ v0 p (w' :: r) w); auto.
  - left; reflexivity.
  - intros x X. right. exact X.
  - apply H. apply ED. auto.
  - intros a b E. assert (E' : In (a, b) (edges (v0 :: w :: w' :: r))) by (apply ED; auto). split; [apply H; exact E'|].
    destruct (C a b E' v0 (or_introl eq_refl)) as [X | [X | X]]; [| |exact X];
      apply pairs_in in E; inversion N as [|? ? N1 N2]; subst; exfalso; apply N1; tauto.
  - apply H. apply ED. auto.
  - discriminate.
Qed.

(** * the distance of a point from the line of an edge *)
Lemma left_far : forall o e f n a b p, unit_normal e f n -> planar o e f a -> planar o e f b -> planar o e f p -> a <> b ->
  Rabs (left_of n a b p / far a b) = far (along (Line a b) (foot_at (Line a b) p)) p.
Proof.
  intros o e f n a b p U A B PP NE. set (l := Line a b). assert (PR : proper l) by exact NE.
  pose proof (dir_pos l PR) as Q.
  assert (D : far a b = sqrt (vdot (dir l) (dir l))).
  { unfold far, dir, l, vdot, vminus. cbn [pvert nvert vx vy vz]. f_equal. ring. }
  assert (DP : 0 < far a b) by (rewrite D; apply sqrt_lt_R0; exact Q).
  assert (DD : far a b * far a b = vdot (dir l) (dir l)) by (rewrite D; apply sqrt_sqrt; lra).
  rewrite (far_far2 (along _ _) p). rewrite <- (sqrt_Rsqr_abs (left_of n a b p / far a b)). f_equal. unfold Rsqr.
  apply Rmult_eq_reg_r with (vdot (dir l) (dir l)); [|lra]. rewrite <- DD at 1.
  replace (left_of n a b p / far a b * (left_of n a b p / far a b) * (far a b * far a b)) with (left_of n a b p * left_of n a b p) by (field; lra).
  assert (X : left_of n a b p * left_of n a b p = vdot (vcross (sub3 b a) (sub3 p a)) (vcross (sub3 b a) (sub3 p a))).
  { unfold vdot. rewrite !(planar_cross o e f n a b p U A B PP) by (unfold coord; auto).
    destruct U as [U _]. unfold dot3 in U.
    replace (left_of n a b p * vx n * (left_of n a b p * vx n) + left_of n a b p * vy n * (left_of n a b p * vy n) +
      left_of n a b p * vz n * (left_of n a b p * vz n)) with (left_of n a b p * left_of n a b p * (vx n * vx n + vy n * vy n + vz n * vz n)) by ring.
    rewrite U. ring. }
  rewrite X.
  assert (F : vdot (dir l) (vminus p (pvert l)) = foot_at l p * vdot (dir l) (dir l)) by (unfold foot_at; field; lra).
  set (t := foot_at l p) in *. clearbody t.
  assert (G : vdot (vcross (sub3 b a) (sub3 p a)) (vcross (sub3 b a) (sub3 p a)) =
     vdot (dir l) (dir l) * vdot (vminus p (pvert l)) (vminus p (pvert l)) - vdot (dir l) (vminus p (pvert l)) * vdot (dir l) (vminus p (pvert l)))
    by (unfold l, dir, vdot, vcross, sub3, vminus; cbn [pvert nvert vx vy vz]; ring).
  assert (K : far2 (along l t) p = vdot (vminus p (pvert l)) (vminus p (pvert l)) - 2 * t * vdot (dir l) (vminus p (pvert l)) + t * t * vdot (dir l) (dir l))
    by (unfold l, far2, along, dir, vdot, vminus; cbn [pvert nvert vx vy vz]; ring).
  rewrite G, K, F. ring.
Qed.

(** * the place of a point *)
Definition near_edge (a b p : vec) (eps : R) : Prop := exists t, - eps <= t <= 1 + eps /\ far (along (Line a b) t) p < eps.
Lemma inside_step : forall o e f n eps v2 v1 r p, unit_normal e f n -> planar o e f v2 -> planar o e f v1 -> planar o e f p -> v2 <> v1 ->
  0 < eps ->
  let d := far (along (Line v2 v1) (foot_at (Line v2 v1) p)) p in
  let t := foot_at (Line v2 v1) p in
  (d < eps /\ - eps <= t <= 1 + eps /\ inside_loop v2 (v1 :: r) p n eps = Border) \/
  (d < eps /\ (t < - eps \/ 1 + eps < t) /\ inside_loop v2 (v1 :: r) p n eps = inside_loop v1 r p n eps) \/
  (eps <= d /\ left_of n v2 v1 p < 0 /\ inside_loop v2 (v1 :: r) p n eps = Outside) \/
  (eps <= d /\ 0 < left_of n v2 v1 p /\ inside_loop v2 (v1 :: r) p n eps = inside_loop v1 r p n eps).
Proof.
  intros o e f n eps v2 v1 r p U H2 H1 PP NE EP d t. cbn [inside_loop]. rewrite triangle_left, distance_far.
  pose proof (left_far o e f n v2 v1 p U H2 H1 PP NE) as LF. fold d in LF.
  assert (DP : 0 < far v2 v1).
  { destruct (Rle_lt_or_eq_dec 0 (far v2 v1) (sqrt_pos _)) as [H|H]; [exact H|]. exfalso. apply NE.
    symmetry in H. apply sqrt_eq_0 in H; [|apply far2_pos].
    pose proof (pow2_ge_0 (vx v2 - vx v1)). pose proof (pow2_ge_0 (vy v2 - vy v1)). pose proof (pow2_ge_0 (vz v2 - vz v1)).
    assert (Z : forall x, x ^ 2 <= 0 -> x = 0) by (intros x X; apply Rsqr_0_uniq; unfold Rsqr; pose proof (pow2_ge_0 x); lra).
    apply vec_ext; [specialize (Z (vx v2 - vx v1)) | specialize (Z (vy v2 - vy v1)) | specialize (Z (vz v2 - vz v1))]; lra. }
  assert (ND : ndiv (left_of n v2 v1 p) (far v2 v1) = Some (left_of n v2 v1 p / far v2 v1))
    by (unfold ndiv; destruct (Req_EM_T (far v2 v1) 0); [lra | reflexivity]).
  rewrite ND.
  unfold eps_zero. rewrite Rminus_0_r, LF.
  pose proof (parameter_eq (Line v2 v1) p NE) as PE. unfold line_parameter in PE. cbn [pvert nvert] in PE. rewrite PE. fold t.
  unfold eps_in_range. ltbs X d eps.
  - ltbs Y t (0 - eps); [right; left; cbn [negb andb]; split; [exact X|]; split; [left; lra | reflexivity]|].
    ltbs Z2 (1 + eps) t; cbn [negb andb].
    + right; left. split; [exact X|]. split; [right; lra | reflexivity].
    + left. split; [exact X|]. split; [lra | reflexivity].
  - ltbs Y (left_of n v2 v1 p) 0; [right; right; left; auto|]. right; right; right. split; [exact X|]. split; [|reflexivity].
    destruct (Rle_lt_or_eq_dec _ _ Y) as [Q|Q]; [exact Q|]. exfalso. rewrite <- Q in LF. unfold Rdiv in LF.
    rewrite Rmult_0_l, Rabs_R0 in LF. lra.
Qed.
Lemma inside_loop_ok : forall o e f n eps p, unit_normal e f n -> planar o e f p -> 0 < eps -> forall r v2,
  (forall v, In v (v2 :: r) -> planar o e f v) -> (forall a b, In (a, b) (pairs (v2 :: r)) -> a <> b) ->
  match inside_loop v2 r p n eps with
  | Outside => exists a b, In (a, b) (pairs (v2 :: r)) /\ left_of n a b p < 0
  | Border => exists a b, In (a, b) (pairs (v2 :: r)) /\ near_edge a b p eps
  | Inside => forall a b, In (a, b) (pairs (v2 :: r)) -> ~ on_segment (Line a b) p /\
      ((forall q, on_line (Line a b) q -> eps <= far q p) -> 0 <= left_of n a b p)
  end.
Proof.
  intros o e f n eps p U PP EP. induction r as [|v1 r IH]; intros v2 P D.
  - cbn. intros a b [].
  - assert (H2 : planar o e f v2) by (apply P; left; reflexivity).
    assert (H1 : planar o e f v1) by (apply P; right; left; reflexivity).
    assert (NE : v2 <> v1) by (apply D; left; reflexivity).
    specialize (IH v1 (fun v H => P v (or_intror H)) (fun a b H => D a b (or_intror H))).
    change (pairs (v2 :: v1 :: r)) with ((v2, v1) :: pairs (v1 :: r)).
    destruct (inside_step o e f n eps v2 v1 r p U H2 H1 PP NE EP) as [[X [Y ->]] | [[X [Y ->]] | [[X [Y ->]] | [X [Y ->]]]]].
    + exists v2, v1. split; [left; reflexivity|]. exists (foot_at (Line v2 v1) p). auto.
    + destruct (inside_loop v1 r p n eps).
      * intros a b [E | E]; [injection E as <- <- | apply IH; exact E]. split.
        -- intros [t [T ->]]. rewrite foot_along in Y by exact NE. lra.
        -- intros Q. exfalso. specialize (Q _ (ex_intro _ _ eq_refl : on_line (Line v2 v1) (along (Line v2 v1) (foot_at (Line v2 v1) p)))). lra.
      * destruct IH as [a [b [E Q]]]. exists a, b. split; [right; exact E | exact Q].
      * destruct IH as [a [b [E Q]]]. exists a, b. split; [right; exact E | exact Q].
    + exists v2, v1. split; [left; reflexivity | exact Y].
    + destruct (inside_loop v1 r p n eps).
      * intros a b [E | E]; [injection E as <- <- | apply IH; exact E]. split.
        -- intros [t [T ->]]. vunfold. revert Y. intros Y. ring_simplify in Y. lra.
        -- intros _. lra.
      * destruct IH as [a [b [E Q]]]. exists a, b. split; [right; exact E | exact Q].
      * destruct IH as [a [b [E Q]]]. exists a, b. split; [right; exact E | exact Q].
Qed.
