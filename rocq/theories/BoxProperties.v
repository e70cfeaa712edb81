(** C93: bounding boxes are the smallest boxes, their intersections and extreme points are right, and planes are where they
    should be. *)
From Coq Require Import Reals List Bool Lra Psatz.
From Verif Require Import GeoModel GeoSpec GeoProofs BoxModel.
Import ListNotations.
Local Open Scope R_scope.

(** * Specification *)
(** a point is in a box, or not further than tol outside it in any direction *)
Definition near (tol : R) (b : box) (p : vec) : Prop :=
  vx (minpoint b) - tol <= vx p <= vx (maxpoint b) + tol /\
  vy (minpoint b) - tol <= vy p <= vy (maxpoint b) + tol /\
  vz (minpoint b) - tol <= vz p <= vz (maxpoint b) + tol.
Definition in_box (b : box) (p : vec) : Prop := near 0 b p.
(** the box is the smallest one with the points of A in it *)
Definition smallest_box (A : vec -> Prop) (b : box) : Prop :=
  (forall p, A p -> in_box b p) /\ (forall c, (forall p, A p -> in_box c p) -> forall p, in_box b p -> in_box c p).
(** a box that has a point in it *)
Definition real_box (b : box) : Prop := exists p, in_box b p.
Definition dotp (a b : vec) : R := vx a * vx b + vy a * vy b + vz a * vz b.
(** the plane through a point across a direction *)
Definition in_plane (n a p : vec) : Prop := dotp n p = dotp n a.

(** * Proofs *)
Lemma ltb_yes : forall x y, x < y -> ltb x y = true.
Proof. intros x y L. ltbs H x y; [reflexivity|lra]. Qed.
Lemma ltb_no : forall x y, y <= x -> ltb x y = false.
Proof. intros x y L. ltbs H x y; [lra|reflexivity]. Qed.
Ltac decide_ltb := repeat match goal with |- context [ltb ?a ?b] => first [rewrite (ltb_yes a b) by lra | rewrite (ltb_no a b) by lra] end.
Lemma in_box_eq : forall b p, in_box b p <->
  vx (minpoint b) <= vx p <= vx (maxpoint b) /\ vy (minpoint b) <= vy p <= vy (maxpoint b) /\ vz (minpoint b) <= vz p <= vz (maxpoint b).
Proof. intros b p. unfold in_box, near. split; intros; lra. Qed.
Lemma rmin_spec : forall r v, rmin r v <= r /\ rmin r v <= v /\ (rmin r v = r \/ rmin r v = v).
Proof. intros r v. unfold rmin. ltbs H v r; repeat split; try lra; tauto. Qed.
Lemma rmax_spec : forall r v, r <= rmax r v /\ v <= rmax r v /\ (rmax r v = r \/ rmax r v = v).
Proof. intros r v. unfold rmax. ltbs H r v; repeat split; try lra; tauto. Qed.
Lemma rmin_le : forall r v x, x <= rmin r v <-> x <= r /\ x <= v.
Proof. intros r v x. destruct (rmin_spec r v) as [A [B [C|C]]]; split; intros; lra. Qed.
Lemma rmax_le : forall r v x, rmax r v <= x <-> r <= x /\ v <= x.
Proof. intros r v x. destruct (rmax_spec r v) as [A [B [C|C]]]; split; intros; lra. Qed.

(** each coordinate of VMIN is the least, of VMAX the greatest *)
Lemma VMIN_spec : forall (c : vec -> R), (c = vx \/ c = vy \/ c = vz) -> forall rest v,
  (forall p, In p (v :: rest) -> c (VMIN v rest) <= c p) /\ (exists p, In p (v :: rest) /\ c (VMIN v rest) = c p).
Proof.
  intros c C. induction rest as [|w r IH]; intros v.
  - unfold VMIN. cbn [fold_left]. split; [intros p [<-|[]]; lra | exists v; split; [left; reflexivity|reflexivity]].
  - assert (E : VMIN v (w :: r) = VMIN (vmin2 v w) r) by reflexivity. rewrite E.
    destruct (IH (vmin2 v w)) as [A [p [P B]]].
    assert (K : c (vmin2 v w) = rmin (c v) (c w)) by (destruct C as [-> | [-> | ->]]; reflexivity).
    destruct (rmin_spec (c v) (c w)) as [K1 [K2 K3]]. pose proof (A _ (or_introl eq_refl)) as A0. rewrite K in A0.
    split.
    + intros q [<-|[<-|Q]]; [lra|lra|]. apply A. right. exact Q.
    + destruct P as [<-|P]; [|exists p; split; [right; right; exact P|exact B]]. rewrite B, K.
      destruct K3 as [K3|K3]; rewrite K3; [exists v; split; [left|] | exists w; split; [right; left|]]; reflexivity.
Qed.
Lemma VMAX_spec : forall (c : vec -> R), (c = vx \/ c = vy \/ c = vz) -> forall rest v,
  (forall p, In p (v :: rest) -> c p <= c (VMAX v rest)) /\ (exists p, In p (v :: rest) /\ c (VMAX v rest) = c p).
Proof.
  intros c C. induction rest as [|w r IH]; intros v.
  - unfold VMAX. cbn [fold_left]. split; [intros p [<-|[]]; lra | exists v; split; [left; reflexivity|reflexivity]].
  - assert (E : VMAX v (w :: r) = VMAX (vmax2 v w) r) by reflexivity. rewrite E.
    destruct (IH (vmax2 v w)) as [A [p [P B]]].
    assert (K : c (vmax2 v w) = rmax (c v) (c w)) by (destruct C as [-> | [-> | ->]]; reflexivity).
    destruct (rmax_spec (c v) (c w)) as [K1 [K2 K3]]. pose proof (A _ (or_introl eq_refl)) as A0. rewrite K in A0.
    split.
    + intros q [<-|[<-|Q]]; [lra|lra|]. apply A. right. exact Q.
    + destruct P as [<-|P]; [|exists p; split; [right; right; exact P|exact B]]. rewrite B, K.
      destruct K3 as [K3|K3]; rewrite K3; [exists v; split; [left|] | exists w; split; [right; left|]]; reflexivity.
Qed.
Lemma minmax_smallest : forall v rest, smallest_box (fun p => In p (v :: rest)) (Box (VMIN v rest) (VMAX v rest)).
Proof.
  intros v rest.
  destruct (VMIN_spec vx ltac:(tauto) rest v) as [X1 [px [Px X2]]]. destruct (VMIN_spec vy ltac:(tauto) rest v) as [Y1 [py [Py Y2]]].
  destruct (VMIN_spec vz ltac:(tauto) rest v) as [Z1 [pz [Pz Z2]]].
  destruct (VMAX_spec vx ltac:(tauto) rest v) as [U1 [qx [Qx U2]]]. destruct (VMAX_spec vy ltac:(tauto) rest v) as [W1 [qy [Qy W2]]].
  destruct (VMAX_spec vz ltac:(tauto) rest v) as [T1 [qz [Qz T2]]].
  split.
  - intros p P. apply in_box_eq. cbn [minpoint maxpoint]. repeat split; auto.
  - intros c C p P. apply in_box_eq in P. cbn [minpoint maxpoint] in P. apply in_box_eq.
    apply C, in_box_eq in Px. apply C, in_box_eq in Py. apply C, in_box_eq in Pz. apply C, in_box_eq in Qx. apply C, in_box_eq in Qy. apply C, in_box_eq in Qz.
    lra.
Qed.

(** A bounding box made of a list of points is the smallest box with all of them in it; [minimal-box] stores the same corners and
    returns their distance. *)
Lemma mb_step_ok : forall rest lo hi, vx lo <= vx hi -> vy lo <= vy hi -> vz lo <= vz hi ->
  fold_left mb_step rest (Box lo hi) = Box (fold_left vmin2 rest lo) (fold_left vmax2 rest hi).
Proof.
  induction rest as [|v r IH]; intros lo hi A B C; [reflexivity|]. cbn [fold_left].
  assert (M : forall l u f, l <= u -> mb1 (l, u) f = (rmin l f, rmax u f)).
  { intros l u f L. unfold mb1, rmin, rmax. ltbs H1 f l; ltbs H2 u f; try reflexivity. exfalso. lra. }
  assert (E : mb_step (Box lo hi) v = Box (vmin2 lo v) (vmax2 hi v)).
  { unfold mb_step. cbn [minpoint maxpoint]. rewrite !M by assumption. reflexivity. }
  rewrite E. apply IH; cbn [vmin2 vmax2 vx vy vz].
  - destruct (rmin_spec (vx lo) (vx v)), (rmax_spec (vx hi) (vx v)); lra.
  - destruct (rmin_spec (vy lo) (vy v)), (rmax_spec (vy hi) (vy v)); lra.
  - destruct (rmin_spec (vz lo) (vz v)), (rmax_spec (vz hi) (vz v)); lra.
Qed.
Theorem C93_smallest : forall v rest,
  smallest_box (fun p => In p (v :: rest)) (box_init v rest None) /\
  MINIMALBOX v rest 0 = (box_init v rest None, far (maxpoint (box_init v rest None)) (minpoint (box_init v rest None))).
Proof.
  intros v rest. split; [apply minmax_smallest|].
  unfold MINIMALBOX. cbv zeta. destruct (Req_EM_T 0 0) as [_|N]; [|exfalso; apply N; reflexivity].
  rewrite mb_step_ok by lra. unfold box_init, grow_opt, VMIN, VMAX. cbn [minpoint maxpoint]. f_equal. unfold far. f_equal. ring.
Qed.
Print Assumptions C93_smallest.
Example C93_smallest_ex : box_init (V 1 5 0) [V 2 3 0; V 0 4 7] None = Box (V 0 3 0) (V 2 5 7).
Proof.
  unfold box_init, grow_opt, VMIN, VMAX. cbn [fold_left]. unfold vmin2, vmax2. cbn [vx vy vz]. unfold rmin, rmax.
  decide_ltb.
  reflexivity.
Qed.

(** What the intersection of two boxes holds: with a tolerance, the points that are not further than that outside either. *)
Lemma VLESSP_spec : forall a b, VLESSP a b = true <-> vx a <= vx b /\ vy a <= vy b /\ vz a <= vz b.
Proof.
  intros a b. unfold VLESSP.
  ltbs H1 (vx b) (vx a); [split; [discriminate|intros; lra]|]. ltbs H2 (vy b) (vy a); [split; [discriminate|intros; lra]|].
  ltbs H3 (vz b) (vz a); [split; [discriminate|intros; lra]|]. split; [intros _; repeat split; lra | reflexivity].
Qed.
Definition tol_of (t : option R) : R := match t with Some t => t | None => 0 end.
Lemma init2_ordered : forall v1 v2, VLESSP v1 v2 = true -> box_init2 v1 v2 None = Box v1 v2.
Proof.
  intros v1 v2 L. apply VLESSP_spec in L. unfold box_init2, grow_opt, VMIN, VMAX. cbn [fold_left].
  assert (A : forall x y, x <= y -> rmin x y = x) by (intros x y H; unfold rmin; ltbs G y x; lra).
  assert (B : forall x y, x <= y -> rmax x y = y) by (intros x y H; unfold rmax; ltbs G x y; lra).
  f_equal; apply vec_ext; unfold vmin2, vmax2; cbn [vx vy vz]; (apply A || apply B); lra.
Qed.
Theorem C93_intersection : forall a b tol,
  match box_intersection a b tol with
  | Some c => (forall p, in_box c p <-> near (tol_of tol) a p /\ near (tol_of tol) b p) /\ real_box c
  | None => forall p, ~ (near (tol_of tol) a p /\ near (tol_of tol) b p)
  end.
Proof.
  intros a b tol. unfold box_intersection. cbv zeta.
  set (t := tol_of tol).
  assert (E : (match tol with
     | Some t => (vminus (VMAX (minpoint a) [minpoint b]) (V t t t), vplus (VMIN (maxpoint a) [maxpoint b]) (V t t t))
     | None => (VMAX (minpoint a) [minpoint b], VMIN (maxpoint a) [maxpoint b])
     end) = (vminus (VMAX (minpoint a) [minpoint b]) (V t t t), vplus (VMIN (maxpoint a) [maxpoint b]) (V t t t))).
  { destruct tol as [t'|]; [reflexivity|]. unfold t, tol_of. f_equal; apply vec_ext; unfold vminus, vplus; cbn [vx vy vz]; ring. }
  rewrite E. clear E.
  set (v1 := vminus (VMAX (minpoint a) [minpoint b]) (V t t t)). set (v2 := vplus (VMIN (maxpoint a) [maxpoint b]) (V t t t)).
  assert (K : forall p, in_box (Box v1 v2) p <-> near t a p /\ near t b p).
  { intros p. rewrite in_box_eq. cbn [minpoint maxpoint]. unfold v1, v2, vminus, vplus, VMAX, VMIN. cbn [fold_left]. unfold vmin2, vmax2. cbn [vx vy vz].
    unfold near.
    pose proof (rmax_le (vx (minpoint a)) (vx (minpoint b)) (vx p + t)) as X1. pose proof (rmin_le (vx (maxpoint a)) (vx (maxpoint b)) (vx p - t)) as X2.
    pose proof (rmax_le (vy (minpoint a)) (vy (minpoint b)) (vy p + t)) as Y1. pose proof (rmin_le (vy (maxpoint a)) (vy (maxpoint b)) (vy p - t)) as Y2.
    pose proof (rmax_le (vz (minpoint a)) (vz (minpoint b)) (vz p + t)) as Z1. pose proof (rmin_le (vz (maxpoint a)) (vz (maxpoint b)) (vz p - t)) as Z2.
    split.
    - intros [[G1 G2] [[G3 G4] [G5 G6]]].
      assert (F1 := proj1 X1 ltac:(lra)). assert (F2 := proj1 X2 ltac:(lra)). assert (F3 := proj1 Y1 ltac:(lra)).
      assert (F4 := proj1 Y2 ltac:(lra)). assert (F5 := proj1 Z1 ltac:(lra)). assert (F6 := proj1 Z2 ltac:(lra)). lra.
    - intros [[G1 [G2 G3]] [G4 [G5 G6]]].
      assert (F1 := proj2 X1 ltac:(lra)). assert (F2 := proj2 X2 ltac:(lra)). assert (F3 := proj2 Y1 ltac:(lra)).
      assert (F4 := proj2 Y2 ltac:(lra)). assert (F5 := proj2 Z1 ltac:(lra)). assert (F6 := proj2 Z2 ltac:(lra)). lra. }
  destruct (VLESSP v1 v2) eqn:L.
  - rewrite (init2_ordered v1 v2 L). split; [exact K|]. exists v1. apply VLESSP_spec in L. apply in_box_eq. cbn [minpoint maxpoint]. lra.
  - intros p P. apply K, in_box_eq in P. cbn [minpoint maxpoint] in P. assert (VLESSP v1 v2 = true) by (apply VLESSP_spec; lra). congruence.
Qed.
Print Assumptions C93_intersection.
Theorem C93_intersection_p : forall a b, box_intersection_p a b = true <-> exists p, in_box a p /\ in_box b p.
Proof.
  intros a b. pose proof (C93_intersection a b None) as H. unfold box_intersection in H. cbv zeta in H. unfold box_intersection_p.
  cbn [tol_of] in H. fold (in_box a) in H. destruct (VLESSP _ _).
  - split; [|reflexivity]. intros _. destruct H as [H [p P]]. exists p. apply H. exact P.
  - split; [discriminate|]. intros [p P]. exfalso. apply (H p). exact P.
Qed.
Print Assumptions C93_intersection_p.
(** two boxes that overlap in a corner *)
Example C93_intersection_ex : box_intersection (Box (V 0 0 0) (V 2 2 2)) (Box (V 1 1 1) (V 3 3 3)) None = Some (Box (V 1 1 1) (V 2 2 2)).
Proof.
  unfold box_intersection, box_init2, grow_opt, VMIN, VMAX. cbn [fold_left minpoint maxpoint]. unfold vmin2, vmax2, VLESSP. cbn [vx vy vz]. unfold rmin, rmax.
  decide_ltb.
  reflexivity.
Qed.

(** :inner tells which points are in the box. *)
Theorem C93_inner : forall b p, box_inner b p = true <-> in_box b p.
Proof.
  intros b p. unfold box_inner. rewrite andb_true_iff, !VLESSP_spec, in_box_eq. lra.
Qed.
Print Assumptions C93_inner.
Example C93_inner_ex : box_inner (Box (V 0 0 0) (V 2 2 2)) (V 1 2 0) = true /\ box_inner (Box (V 0 0 0) (V 2 2 2)) (V 1 (-1) 0) = false.
Proof. unfold box_inner, VLESSP. cbn [minpoint maxpoint vx vy vz]. split; decide_ltb; reflexivity. Qed.

(** The union is the smallest box with both in it. *)
Theorem C93_union : forall a b, real_box a -> real_box b -> smallest_box (fun p => in_box a p \/ in_box b p) (box_union a b None).
Proof.
  intros a b [p P] [q Q]. rewrite in_box_eq in P, Q. unfold box_union.
  assert (L : VLESSP (VMIN (minpoint a) [minpoint b]) (VMAX (maxpoint a) [maxpoint b]) = true).
  { apply VLESSP_spec. unfold VMIN, VMAX. cbn [fold_left]. unfold vmin2, vmax2. cbn [vx vy vz].
    pose proof (rmin_spec (vx (minpoint a)) (vx (minpoint b))). pose proof (rmax_spec (vx (maxpoint a)) (vx (maxpoint b))).
    pose proof (rmin_spec (vy (minpoint a)) (vy (minpoint b))). pose proof (rmax_spec (vy (maxpoint a)) (vy (maxpoint b))).
    pose proof (rmin_spec (vz (minpoint a)) (vz (minpoint b))). pose proof (rmax_spec (vz (maxpoint a)) (vz (maxpoint b))). lra. }
  rewrite (init2_ordered _ _ L). unfold VMIN, VMAX. cbn [fold_left].
  pose proof (rmin_spec (vx (minpoint a)) (vx (minpoint b))) as X1. pose proof (rmax_spec (vx (maxpoint a)) (vx (maxpoint b))) as X2.
  pose proof (rmin_spec (vy (minpoint a)) (vy (minpoint b))) as Y1. pose proof (rmax_spec (vy (maxpoint a)) (vy (maxpoint b))) as Y2.
  pose proof (rmin_spec (vz (minpoint a)) (vz (minpoint b))) as Z1. pose proof (rmax_spec (vz (maxpoint a)) (vz (maxpoint b))) as Z2.
  split.
  - intros r [H|H]; rewrite in_box_eq in H; apply in_box_eq; cbn [minpoint maxpoint]; unfold vmin2, vmax2; cbn [vx vy vz]; lra.
  - intros c C r H. rewrite in_box_eq in H. cbn [minpoint maxpoint] in H. unfold vmin2, vmax2 in H. cbn [vx vy vz] in H.
    assert (A1 : in_box c (minpoint a)) by (apply C; left; apply in_box_eq; lra).
    assert (A2 : in_box c (maxpoint a)) by (apply C; left; apply in_box_eq; lra).
    assert (B1 : in_box c (minpoint b)) by (apply C; right; apply in_box_eq; lra).
    assert (B2 : in_box c (maxpoint b)) by (apply C; right; apply in_box_eq; lra).
    rewrite in_box_eq in *.
    destruct X1 as [_ [_ X1]], X2 as [_ [_ X2]], Y1 as [_ [_ Y1]], Y2 as [_ [_ Y2]], Z1 as [_ [_ Z1]], Z2 as [_ [_ Z2]].
    assert (GX : vx (minpoint c) <= vx r <= vx (maxpoint c)) by (clear - H A1 A2 B1 B2 X1 X2; destruct X1, X2; lra).
    assert (GY : vy (minpoint c) <= vy r <= vy (maxpoint c)) by (clear - H A1 A2 B1 B2 Y1 Y2; destruct Y1, Y2; lra).
    assert (GZ : vz (minpoint c) <= vz r <= vz (maxpoint c)) by (clear - H A1 A2 B1 B2 Z1 Z2; destruct Z1, Z2; lra).
    lra.
Qed.
Print Assumptions C93_union.
Example C93_union_ex : real_box (Box (V 0 0 0) (V 1 1 1)) /\ real_box (Box (V 5 5 5) (V 6 6 6)).
Proof. split; [exists (V 0 0 0) | exists (V 5 5 5)]; apply in_box_eq; cbn [minpoint maxpoint vx vy vz]; lra. Qed.

(** The extreme point is a point of the box as far in the given direction as any; :below says whether all points of one box are
    lower in that direction than all points of the other. *)
Lemma extream_ok : forall b d, real_box b -> in_box b (extream_point b d) /\ forall p, in_box b p -> dotp d p <= dotp d (extream_point b d).
Proof.
  intros b d [q Q]. rewrite in_box_eq in Q. unfold extream_point.
  assert (M : forall (c : vec -> R) x, c (minpoint b) <= x <= c (maxpoint b) -> forall k,
            c (minpoint b) <= c (if ltb 0 k then maxpoint b else minpoint b) <= c (maxpoint b) /\
            k * x <= k * c (if ltb 0 k then maxpoint b else minpoint b)).
  { intros c x X k. ltbs H 0 k; split; try lra; nra. }
  split.
  - apply in_box_eq. cbn [vx vy vz].
    destruct (M vx (vx q) ltac:(lra) (vx d)), (M vy (vy q) ltac:(lra) (vy d)), (M vz (vz q) ltac:(lra) (vz d)). lra.
  - intros p P. rewrite in_box_eq in P. unfold dotp. cbn [vx vy vz].
    destruct (M vx (vx p) ltac:(lra) (vx d)), (M vy (vy p) ltac:(lra) (vy d)), (M vz (vz p) ltac:(lra) (vz d)). lra.
Qed.
Theorem C93_extreme : forall a b d, real_box a -> real_box b ->
  (in_box a (extream_point a d) /\ forall p, in_box a p -> dotp d p <= dotp d (extream_point a d)) /\
  (box_below a b d = true <-> forall p q, in_box a p -> in_box b q -> dotp d p < dotp d q).
Proof.
  intros a b d A B. destruct (extream_ok a d A) as [A1 A2]. split; [split; assumption|].
  destruct (extream_ok b (scale3 (-1) d) B) as [B1 B2].
  assert (N : forall q, dotp (scale3 (-1) d) q = - dotp d q) by (intros q; unfold dotp, scale3; cbn [vx vy vz]; ring).
  unfold box_below. cbv zeta. change vdot with dotp. ltbs H (dotp d (extream_point a d)) (dotp d (extream_point b (scale3 (-1) d))).
  - split; [|reflexivity]. intros _ p q P Q. specialize (A2 p P). specialize (B2 q Q). rewrite !N in B2. lra.
  - split; [discriminate|]. intros G. specialize (G _ _ A1 B1). lra.
Qed.
Print Assumptions C93_extreme.

(** The corners are the eight points whose coordinates are those of the least or greatest point. *)
Theorem C93_corners : forall b p, In p (box_corners b) <->
  (vx p = vx (minpoint b) \/ vx p = vx (maxpoint b)) /\ (vy p = vy (minpoint b) \/ vy p = vy (maxpoint b)) /\
  (vz p = vz (minpoint b) \/ vz p = vz (maxpoint b)).
Proof.
  intros b p. unfold box_corners. cbn [fold_left seq].
  unfold corner. cbn [Nat.testbit Nat.odd Nat.even Nat.div2 negb]. split.
  - intros H. repeat (destruct H as [H|H]; [subst p; cbn [vx vy vz]; tauto|]). destruct H.
  - destruct p as [x y z]. cbn [vx vy vz]. intros [X [Y Z]]. cbn [In].
    destruct X as [-> | ->], Y as [-> | ->], Z as [-> | ->]; tauto.
Qed.
Print Assumptions C93_corners.
Example C93_corners_ex : length (box_corners (Box (V 0 0 0) (V 1 2 3))) = 8%nat.
Proof. reflexivity. Qed.

(** :boxtest of a polygon with a tolerance grows the box it is given, so that the same question asked twice is answered nil and
    then t: here the box is the unit cube, the polygon is in the cube from 1.6 to 2.6, and the tolerance is 0.2. *)
Theorem C93_boxtest_refuted : exists b v rest t,
  fst (polygon_boxtest b (Some t) v rest) = None /\
  fst (polygon_boxtest (snd (polygon_boxtest b (Some t) v rest)) (Some t) v rest) <> None.
Proof.
  exists (Box (V 0 0 0) (V 1 1 1)), (V (8 / 5) (8 / 5) (8 / 5)), [V (13 / 5) (13 / 5) (13 / 5)], (1 / 5).
  unfold polygon_boxtest, box_box, box_init, grow_opt, box_grow, scale3, vminus, vplus. cbn [fst snd minpoint maxpoint vx vy vz].
  unfold VMIN, VMAX. cbn [fold_left]. unfold vmin2, vmax2. cbn [vx vy vz].
  replace (rmin (8 / 5) (13 / 5)) with (8 / 5) by (unfold rmin; ltbs H (13 / 5) (8 / 5); lra).
  replace (rmax (8 / 5) (13 / 5)) with (13 / 5) by (unfold rmax; ltbs H (8 / 5) (13 / 5); lra).
  unfold box_intersection. cbn [minpoint maxpoint]. unfold VMIN, VMAX. cbn [fold_left]. unfold vmin2, vmax2. cbn [vx vy vz].
  split.
  - match goal with |- (if VLESSP ?a ?b then _ else _) = _ => destruct (VLESSP a b) eqn:L end; [|reflexivity].
    apply VLESSP_spec in L. cbn [vx vy vz] in L. destruct L as [L _]. rewrite rmax_le, !rmin_le in L. lra.
  - match goal with |- (if VLESSP ?a ?b then _ else _) <> _ => destruct (VLESSP a b) eqn:L end; [discriminate|].
    exfalso. match type of L with VLESSP ?a ?b = false => assert (G : VLESSP a b = true) by (apply VLESSP_spec; cbn [vx vy vz]; rewrite !rmax_le, !rmin_le; lra) end.
    congruence.
Qed.
Print Assumptions C93_boxtest_refuted.

(** * planes *)
Lemma dotp_vdot : forall a b, vdot a b = dotp a b.
Proof. reflexivity. Qed.
(** A plane made of a normal vector of length one and a point has the point on it; :foot gives the nearest point of the plane,
    :plane-distance is its distance with a sign that tells the sides apart, and :intersection the place where a line that is not
    parallel meets the plane. *)
Theorem C93_plane : forall n a, dotp n n = 1 -> let pl := plane_init n a in
  (forall p, nearest_pair (in_plane n a) (eq p) (plane_foot pl p) p /\
             Rabs (plane_distance pl p) = far (plane_foot pl p) p /\
             plane_distance pl p = dotp n p - dotp n a) /\
  (forall p q, dotp n p <> dotp n q -> exists t, plane_intersection pl p q = Some t /\
             forall s, in_plane n a (along (Line p q) s) <-> s = t).
Proof.
  intros n a U pl. split.
  - intros p. assert (D : plane_distance pl p = dotp n p - dotp n a).
    { unfold plane_distance, pl, plane_init, vdot, dotp. cbn [normal pdistance]. ring. }
    assert (F : forall q, in_plane n a q -> far2 q p = far2 (plane_foot pl p) p + far2 q (plane_foot pl p)).
    { intros q Q. unfold in_plane in Q.
      set (k := dotp n p - dotp n a).
      assert (E : plane_foot pl p = V (vx p - k * vx n) (vy p - k * vy n) (vz p - k * vz n)).
      { unfold plane_foot, pl, plane_init, vminus, scale3. cbn [normal pdistance vx vy vz]. change vdot with dotp. unfold k. apply vec_ext; cbn [vx vy vz]; ring. }
      rewrite E. unfold far2. cbn [vx vy vz].
      assert (K : 2 * k * (dotp n p - dotp n q) - 2 * k * k * dotp n n = 0) by (rewrite U, Q; unfold k; ring).
      unfold dotp in K. unfold dotp in U.
      assert (G : (vx q - vx p) ^ 2 + (vy q - vy p) ^ 2 + (vz q - vz p) ^ 2 -
        ((vx p - k * vx n - vx p) ^ 2 + (vy p - k * vy n - vy p) ^ 2 + (vz p - k * vz n - vz p) ^ 2 +
         ((vx q - (vx p - k * vx n)) ^ 2 + (vy q - (vy p - k * vy n)) ^ 2 + (vz q - (vz p - k * vz n)) ^ 2)) =
        2 * k * (vx n * vx p + vy n * vy p + vz n * vz p - (vx n * vx q + vy n * vy q + vz n * vz q)) -
        2 * k * k * (vx n * vx n + vy n * vy n + vz n * vz n)) by ring.
      lra. }
    split; [|split; [|exact D]].
    + split; [|split; [reflexivity|split]].
      * unfold in_plane, plane_foot, pl, plane_init, vminus, scale3. cbn [normal pdistance]. change vdot with dotp.
        set (k := dotp n p + - dotp n a). unfold dotp at 1. cbn [vx vy vz].
        replace (vx n * (vx p - k * vx n) + vy n * (vy p - k * vy n) + vz n * (vz p - k * vz n)) with (dotp n p - k * dotp n n) by (unfold dotp; ring).
        rewrite U. unfold k. ring.
      * intros q p' Q <-. apply far_le. rewrite (F q Q). pose proof (far2_pos q (plane_foot pl p)). lra.
      * intros q p' Q <- E. split; [|reflexivity]. apply far_inj in E. rewrite (F q Q) in E.
        assert (Z : far2 q (plane_foot pl p) = 0) by lra.
        assert (W : vdot (vminus q (plane_foot pl p)) (vminus q (plane_foot pl p)) = 0) by (rewrite <- Z; unfold far2, vdot, vminus; cbn [vx vy vz]; ring).
        apply vdot_zero in W. unfold vminus in W. cbn [vx vy vz] in W. apply vec_ext; lra.
    + rewrite far_far2. rewrite <- sqrt_Rsqr_abs. f_equal. rewrite D. unfold Rsqr, far2, plane_foot, pl, plane_init, vminus, scale3. cbn [normal pdistance vx vy vz].
      change vdot with dotp. set (k := dotp n p + - dotp n a). replace (dotp n p - dotp n a) with k by (unfold k; ring).
      replace ((vx p - k * vx n - vx p) ^ 2 + (vy p - k * vy n - vy p) ^ 2 + (vz p - k * vz n - vz p) ^ 2) with (k * k * dotp n n) by (unfold dotp; ring).
      rewrite U. ring.
  - intros p q N. unfold plane_intersection, pl, plane_init, ndiv. cbn [normal pdistance]. change vdot with dotp.
    destruct (Req_EM_T (dotp n p - dotp n q) 0) as [Z|_]; [exfalso; apply N; lra|]. eexists. split; [reflexivity|]. intros s. unfold in_plane.
    replace (dotp n (along (Line p q) s)) with (dotp n p + s * (dotp n q - dotp n p)) by (unfold dotp, along; cbn [pvert nvert vx vy vz]; ring).
    assert (N' : dotp n p - dotp n q <> 0) by lra. split.
    + intros E. apply (Rmult_eq_reg_r (dotp n p - dotp n q)); [|exact N']. field_simplify; [lra|exact N'].
    + intros ->. field. exact N'.
Qed.
Print Assumptions C93_plane.
Example C93_plane_ex : dotp (V (3 / 5) 0 (4 / 5)) (V (3 / 5) 0 (4 / 5)) = 1.
Proof. unfold dotp. cbn [vx vy vz]. field. Qed.
(** (instance plane :init ...) does not make the normal vector of length one; with another length :foot is not on the plane. *)
Theorem C93_plane_refuted : exists n a p, dotp n n > 0 /\ ~ in_plane n a (plane_foot (plane_init n a) p).
Proof.
  exists (V 0 0 2), (V 0 0 0), (V 0 0 1). unfold dotp, in_plane, plane_foot, plane_init, vminus, scale3, vdot. cbn [normal pdistance vx vy vz]. unfold dotp. cbn [vx vy vz]. lra.
Qed.
Print Assumptions C93_plane_refuted.
