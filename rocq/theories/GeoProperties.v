(** C91: distances, perpendiculars and intersections of points, lines and segments are the geometric ones. *)
From Coq Require Import Reals List Bool Lra Psatz.
From Verif Require Import GeoModel GeoSpec GeoProofs GeoProofs2.
Import ListNotations.
Local Open Scope R_scope.

(** two crossing segments used in the examples: the first from (0 0 0) to (2 0 0), the second from (1 -1 3) to (1 1 3) *)
Definition exl : line := Line (V 0 0 0) (V 2 0 0).
Definition exm : line := Line (V 1 (-1) 3) (V 1 1 3).
Lemma exl_proper : proper exl.
Proof. unfold proper, exl. cbn [pvert nvert]. intros E. injection E. lra. Qed.
Lemma exm_proper : proper exm.
Proof. unfold proper, exm. cbn [pvert nvert]. intros E. injection E. lra. Qed.
Lemma ex_spread : spread exl exm = 16.
Proof. unfold spread, exl, exm. cbn [pvert nvert vx vy vz]. ring. Qed.

(** :foot and :parameter give the position of the nearest point of the line, and :point goes there. *)
Theorem C91_foot : forall l p, proper l ->
  exists t, line_foot l p = Some t /\ line_parameter l p = Some t /\ line_point l t = along l t /\
            nearest_pair (on_line l) (eq p) (along l t) p.
Proof.
  intros l p P. pose proof (dir_pos l P) as Q. exists (foot_at l p).
  split; [apply foot_eq, P|]. split; [apply parameter_eq, P|]. split; [apply point_along|].
  split; [exists (foot_at l p); reflexivity|]. split; [reflexivity|]. split.
  - intros p' q' [s ->] <-. apply far_le. rewrite (foot_far2 l p s P).
    pose proof (Rmult_le_pos _ _ (Rlt_le _ _ Q) (pow2_ge_0 (s - foot_at l p))). lra.
  - intros p' q' [s ->] <- E. split; [|reflexivity]. apply far_inj in E. rewrite (foot_far2 l p s P) in E.
    assert (Z : vdot (dir l) (dir l) * (s - foot_at l p) ^ 2 = 0) by lra.
    apply Rmult_integral in Z. destruct Z as [Z|Z]; [lra|]. replace ((s - foot_at l p) ^ 2) with (Rsqr (s - foot_at l p)) in Z by (unfold Rsqr; ring).
    apply Rsqr_0_uniq in Z. f_equal. lra.
Qed.
Print Assumptions C91_foot.
Example C91_foot_ex : proper exl /\ line_foot exl (V 1 5 7) = Some (1 / 2).
Proof.
  split; [exact exl_proper|]. rewrite (foot_eq _ _ exl_proper). f_equal. unfold foot_at, dir, vdot, vminus, exl. cbn [pvert nvert vx vy vz]. field.
Qed.

(** :distance-point is the least distance between the point and the points of the segment. *)
Theorem C91_distance_point : forall l p, proper l ->
  exists d, distance_point l p = Some d /\ least_distance (on_segment l) (eq p) d.
Proof.
  intros l p P. destruct (distance_point_ok l p P) as [t [T [E F]]]. eexists. split; [exact E|]. split.
  - exists (along l t), p. split; [exists t; split; [exact T|reflexivity]|]. split; reflexivity.
  - intros p' q' [s [S ->]] <-. apply F. exact S.
Qed.
Print Assumptions C91_distance_point.
Example C91_distance_point_ex : proper exl /\ distance_point exl (V 5 4 0) = Some 5.
Proof.
  split; [exact exl_proper|]. unfold distance_point. rewrite (foot_eq _ _ exl_proper).
  replace (foot_at exl (V 5 4 0)) with (5 / 2) by (unfold foot_at, dir, vdot, vminus, exl; cbn [pvert nvert vx vy vz]; field).
  ltbs H 1 (5 / 2); [|lra]. f_equal. rewrite distance_far. unfold far, exl. cbn [pvert nvert vx vy vz].
  replace ((2 - 5) ^ 2 + (0 - 4) ^ 2 + (0 - 0) ^ 2) with (5 * 5) by ring. apply sqrt_square. lra.
Qed.
(** A segment of no length has a distance from every point, but the method divides by zero. *)
Theorem C91_distance_point_refuted : exists l p, distance_point l p = None /\ exists d, least_distance (on_segment l) (eq p) d.
Proof.
  exists (Line (V 0 0 0) (V 0 0 0)), (V 1 0 0). split.
  - unfold distance_point, line_foot, ndiv, vdot, vminus. cbn [pvert nvert vx vy vz].
    match goal with |- context [Req_EM_T ?x 0] => destruct (Req_EM_T x 0) as [_|N] end; [reflexivity|]. exfalso. apply N. ring.
  - exists (far (V 0 0 0) (V 1 0 0)).
    assert (A : forall t, along (Line (V 0 0 0) (V 0 0 0)) t = V 0 0 0) by (intros; unfold along; cbn [pvert nvert vx vy vz]; apply vec_ext; cbn [vx vy vz]; ring).
    split.
    + exists (V 0 0 0), (V 1 0 0). split; [exists 0; split; [lra|symmetry; apply A]|]. split; reflexivity.
    + intros p q [t [T ->]] <-. rewrite A. lra.
Qed.
Print Assumptions C91_distance_point_refuted.

(** :distance-line is the least distance between the two segments, when the segments are parallel or the squared area of the
    parallelogram they span is above 0.0001.  In any case the answer is the distance of some two points of the segments, so it
    is never too small. *)
Theorem C91_distance_line_partial : forall l m, proper l -> proper m ->
  exists d, distance_line l m = Some d /\
    (exists p q, on_segment l p /\ on_segment m q /\ far p q = d) /\
    (spread l m = 0 \/ 1 / 10000 < spread l m -> least_distance (on_segment l) (on_segment m) d).
Proof.
  intros l m P Q. destruct (distance_line_ok l m P Q) as [d [E [[s [t [[S T] A]]] B]]]. exists d. split; [exact E|].
  assert (A' : exists p q, on_segment l p /\ on_segment m q /\ far p q = d).
  { exists (along l s), (along m t). split; [exists s; split; [exact S|reflexivity]|]. split; [exists t; split; [exact T|reflexivity]|exact A]. }
  split; [exact A'|]. intros C. split; [exact A'|]. intros p q [x [X ->]] [y [Y ->]]. apply (B C x y). split; assumption.
Qed.
Print Assumptions C91_distance_line_partial.
Example C91_distance_line_ex : proper exl /\ proper exm /\ 1 / 10000 < spread exl exm /\ distance_line exl exm = Some 3.
Proof.
  split; [exact exl_proper|]. split; [exact exm_proper|]. rewrite ex_spread. split; [lra|].
  rewrite distance_line_eq, ex_spread. ltbs H (1 / 10000) 16; [|lra].
  assert (A : dl_ta exl exm = 1 / 2) by (unfold dl_ta; rewrite ex_spread; unfold dir, gap, along, vdot, vminus, exl, exm; cbn [pvert nvert vx vy vz]; field).
  assert (B : dl_tb exl exm = 1 / 2) by (unfold dl_tb; rewrite ex_spread; unfold dir, gap, along, vdot, vminus, exl, exm; cbn [pvert nvert vx vy vz]; field).
  rewrite A, B. ltbs H1 0 (1 / 2); [|lra]. ltbs H2 (1 / 2) 1; [|lra]. cbn [andb]. f_equal. unfold far, along, exl, exm. cbn [pvert nvert vx vy vz].
  match goal with |- sqrt ?e = _ => replace e with (3 * 3) by field end. apply sqrt_square. lra.
Qed.
(** Short segments (here of length 0.1) that cross at right angles are taken to be parallel, and the distance 0.05 is
    reported where they meet. *)
Theorem C91_distance_line_refuted : exists l m d, proper l /\ proper m /\ distance_line l m = Some d /\
  ~ least_distance (on_segment l) (on_segment m) d.
Proof.
  set (l := Line (V 0 0 0) (V (1 / 10) 0 0)). set (m := Line (V (1 / 20) (- 1 / 20) 0) (V (1 / 20) (1 / 20) 0)).
  assert (P : proper l) by (unfold proper, l; cbn [pvert nvert]; intros E; injection E; lra).
  assert (Q : proper m) by (unfold proper, m; cbn [pvert nvert]; intros E; injection E; lra).
  assert (S : spread l m = 1 / 10000) by (unfold spread, l, m; cbn [pvert nvert vx vy vz]; field).
  assert (E : distance_line l m = ends_of l m).
  { rewrite distance_line_eq, S. ltbs H (1 / 10000) (1 / 10000); [lra|reflexivity]. }
  unfold ends_of in E.
  destruct (distance_point_ok l (pvert m) P) as [t1 [T1 [E1 _]]]. destruct (distance_point_ok l (nvert m) P) as [t2 [T2 [E2 _]]].
  destruct (distance_point_ok m (pvert l) Q) as [t3 [T3 [E3 _]]]. destruct (distance_point_ok m (nvert l) Q) as [t4 [T4 [E4 _]]].
  rewrite E1, E2, E3, E4 in E. eexists l, m, _. split; [exact P|]. split; [exact Q|]. split; [exact E|].
  intros [_ L]. specialize (L (along l (1 / 2)) (along m (1 / 2))).
  assert (Z : far (along l (1 / 2)) (along m (1 / 2)) = 0).
  { rewrite far_far2. replace (far2 (along l (1 / 2)) (along m (1 / 2))) with 0; [apply sqrt_0|].
    unfold far2, along, l, m. cbn [pvert nvert vx vy vz]. field. }
  assert (O1 : on_segment l (along l (1 / 2))) by (exists (1 / 2); split; [lra|reflexivity]).
  assert (O2 : on_segment m (along m (1 / 2))) by (exists (1 / 2); split; [lra|reflexivity]).
  rewrite Z in L. specialize (L O1 O2).
  assert (W : forall p q, 0 < far2 p q -> 0 < far p q) by (intros p q W; rewrite far_far2; apply sqrt_lt_R0; exact W).
  match type of L with Rmin (Rmin (Rmin ?a ?b) ?c) ?d <= 0 => destruct (Rmin4 a b c d) as [G _] end. cbv zeta in G.
  assert (F1 : 0 < far (along l t1) (pvert m)) by (apply W; unfold far2, along, l, m; cbn [pvert nvert vx vy vz]; nra).
  assert (F2 : 0 < far (along l t2) (nvert m)) by (apply W; unfold far2, along, l, m; cbn [pvert nvert vx vy vz]; nra).
  assert (F3 : 0 < far (along m t3) (pvert l)) by (apply W; unfold far2, along, l, m; cbn [pvert nvert vx vy vz]; nra).
  assert (F4 : 0 < far (along m t4) (nvert l)) by (apply W; unfold far2, along, l, m; cbn [pvert nvert vx vy vz]; nra).
  destruct G as [G|[G|[G|G]]]; lra.
Qed.
Print Assumptions C91_distance_line_refuted.

(** :common-perpendicular gives the one nearest pair of points of the two lines, when the squared area they span is at least
    *parallel-threshold*; below it the answer is :parallel. *)
Theorem C91_perpendicular_partial : forall l m,
  (spread l m < parallel_threshold -> common_perpendicular l m = Some Parallel) /\
  (parallel_threshold <= spread l m -> exists p q, common_perpendicular l m = Some (Pair p q) /\ nearest_pair (on_line l) (on_line m) p q).
Proof. exact common_perpendicular_ok. Qed.
Print Assumptions C91_perpendicular_partial.
Example C91_perpendicular_ex : parallel_threshold <= spread exl exm.
Proof. rewrite ex_spread. unfold parallel_threshold. lra. Qed.
(** Two perpendicular lines given by points 0.1 apart are called parallel although they have one nearest pair. *)
Theorem C91_perpendicular_refuted : exists l m p q, proper l /\ proper m /\ nearest_pair (on_line l) (on_line m) p q /\
  vdot (vminus (nvert l) (pvert l)) (vminus (nvert m) (pvert m)) = 0 /\ common_perpendicular l m = Some Parallel.
Proof.
  set (l := Line (V 0 0 0) (V (1 / 10) 0 0)). set (m := Line (V 0 0 1) (V 0 (1 / 10) 1)).
  assert (S : spread l m = 1 / 10000) by (unfold spread, l, m; cbn [pvert nvert vx vy vz]; field).
  exists l, m, (along l (dl_ta l m)), (along m (dl_tb l m)).
  split; [unfold proper, l; cbn [pvert nvert]; intros E; injection E; lra|].
  split; [unfold proper, m; cbn [pvert nvert]; intros E; injection E; lra|].
  split; [apply square_nearest; [lra | apply dl_square; lra]|].
  split; [unfold l, m, vdot, vminus; cbn [pvert nvert vx vy vz]; ring|].
  apply common_perpendicular_ok. rewrite S. unfold parallel_threshold. lra.
Qed.
Print Assumptions C91_perpendicular_refuted.

(** LINE-INTERSECTION gives the one pair of positions where the two lines cross in the plane; the answer is NIL exactly when
    there is no such pair or, with the range check, when it is not on both segments. *)
Theorem C91_intersection : forall a b rc,
  match LINE_INTERSECTION (pvert a) (nvert a) (pvert b) (nvert b) rc with
  | Some (u, v) => (forall u' v', meet2 a b u' v' <-> u' = u /\ v' = v) /\ (rc = true -> 0 <= u <= 1 /\ 0 <= v <= 1)
  | None => forall u v, (forall u' v', meet2 a b u' v' <-> u' = u /\ v' = v) -> rc = true /\ ~ (0 <= u <= 1 /\ 0 <= v <= 1)
  end.
Proof.
  intros a b rc. unfold LINE_INTERSECTION. cbv zeta. fold (cross_xy a b).
  destruct (Req_EM_T (cross_xy a b) 0) as [Z|N].
  - intros u v U. exfalso. assert (M : meet2 a b u v) by (apply U; split; reflexivity).
    destruct (meet2_parallel a b u v Z M) as [u' [v' [D M']]]. apply U in M'. destruct M' as [-> ->]. apply D. reflexivity.
  - pose proof (fun u v => meet2_unique a b u v N) as M.
    match type of M with forall u v, _ <-> u = ?x /\ v = ?y => set (U := x) in *; set (W := y) in * end.
    destruct rc; cbn [andb].
    + ltbs H1 U 0; [|ltbs H2 1 U; [|ltbs H3 W 0; [|ltbs H4 1 W]]]; cbn [orb];
        try (intros u v G; assert (X : meet2 a b U W) by (apply M; split; reflexivity); apply G in X; destruct X as [<- <-]; split; [reflexivity|]; lra).
      split; [exact M|]. intros _. lra.
    + split; [exact M|]. discriminate.
Qed.
Print Assumptions C91_intersection.
(** two lines that cross at a third of the first and half of the second, and two segments whose lines cross outside *)
Example C91_intersection_ex :
  LINE_INTERSECTION (V 0 0 0) (V 3 0 0) (V 1 (-1) 0) (V 1 1 0) true = Some (1 / 3, 1 / 2) /\
  LINE_INTERSECTION (V 0 0 0) (V 3 0 0) (V 6 (-1) 0) (V 6 1 0) true = None.
Proof.
  split; unfold LINE_INTERSECTION; cbn [vx vy vz];
    (match goal with |- context [Req_EM_T ?x 0] => destruct (Req_EM_T x 0) as [Z|_] end; [exfalso; lra|]); cbn [andb].
  - match goal with |- context [ltb ?x 0 || ltb 1 ?x || ltb ?y 0 || ltb 1 ?y] => replace x with (1 / 3) by field; replace y with (1 / 2) by field end.
    ltbs H1 (1 / 3) 0; [lra|]. ltbs H2 1 (1 / 3); [lra|]. ltbs H3 (1 / 2) 0; [lra|]. ltbs H4 1 (1 / 2); [lra|]. reflexivity.
  - match goal with |- context [ltb ?x 0 || ltb 1 ?x || ltb ?y 0 || ltb 1 ?y] => replace x with 2 by field end.
    ltbs H1 2 0; [lra|]. ltbs H2 1 2; [|lra]. reflexivity.
Qed.

(** LINE-INTERSECTION3 gives the positions of the one nearest pair of points of the two lines, which is the point they share if
    they share one; it answers NIL exactly when the squared area the lines span is below the tolerance. *)
Theorem C91_intersection3_partial : forall a b tol,
  (spread a b < tol -> LINE_INTERSECTION3 (pvert a) (nvert a) (pvert b) (nvert b) tol = Some None) /\
  (tol <= spread a b -> 0 < spread a b -> exists u v,
     LINE_INTERSECTION3 (pvert a) (nvert a) (pvert b) (nvert b) tol = Some (Some (u, v)) /\
     nearest_pair (on_line a) (on_line b) (along a u) (along b v)).
Proof. intros a b tol. destruct (LINE_INTERSECTION3_ok a b tol) as [A [B _]]. split; assumption. Qed.
Print Assumptions C91_intersection3_partial.
Example C91_intersection3_ex : 1 / 100 <= spread exl exm /\ 0 < spread exl exm.
Proof. rewrite ex_spread. lra. Qed.
(** Without a tolerance (as the method :intersection calls it) parallel lines do not give NIL: the code divides by zero. *)
Theorem C91_intersection3_refuted : exists a b, proper a /\ proper b /\ spread a b = 0 /\
  LINE_INTERSECTION3 (pvert a) (nvert a) (pvert b) (nvert b) 0 = None.
Proof.
  exists exl, (Line (V 0 1 0) (V 2 1 0)). split; [exact exl_proper|].
  split; [unfold proper; cbn [pvert nvert]; intros E; injection E; lra|].
  assert (S : spread exl (Line (V 0 1 0) (V 2 1 0)) = 0) by (unfold spread, exl; cbn [pvert nvert vx vy vz]; ring).
  split; [exact S|]. apply LINE_INTERSECTION3_ok; rewrite S; lra.
Qed.
Print Assumptions C91_intersection3_refuted.

(** :colinear-line-intersection of two segments of one line is their common part, and nil exactly when they share no point. *)
Theorem C91_overlap : forall l m, proper l -> on_line l (pvert m) -> on_line l (nvert m) ->
  exists r, colinear_line_intersection l m = Some r /\
    match r with
    | None => forall z, ~ (on_segment l z /\ on_segment m z)
    | Some k => forall z, on_segment k z <-> on_segment l z /\ on_segment m z
    end.
Proof. exact overlap_ok. Qed.
Print Assumptions C91_overlap.
Example C91_overlap_ex : proper exl /\ on_line exl (V 5 0 0) /\ on_line exl (V 1 0 0).
Proof.
  split; [exact exl_proper|]. split; [exists (5 / 2) | exists (1 / 2)]; unfold along, exl; cbn [pvert nvert vx vy vz]; apply vec_ext; cbn [vx vy vz]; field.
Qed.

(** farthest finds a point of the list no nearer than any other; farthest-pair finds two points of the list no nearer to each
    other than any other two. *)
Theorem C91_farthest : forall points,
  (forall p, points <> [] -> exists w, farthest p points = Some w /\ In w points /\ forall v, In v points -> far p v <= far p w) /\
  ((2 <= length points)%nat -> exists v w, farthest_pair points = Some (v, w) /\ In v points /\ In w points /\
     forall p q, In p points -> In q points -> far p q <= far v w).
Proof. intros points. split; [intros p; apply farthest_ok | apply farthest_pair_ok]. Qed.
Print Assumptions C91_farthest.
Example C91_farthest_ex : (2 <= length [V 0 0 0; V 1 0 0; V 0 3 0])%nat.
Proof. simpl. repeat constructor. Qed.
