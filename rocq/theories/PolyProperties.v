(** C94: the area, the centre of gravity, the normal and the convexity of a polygon, and where a point is. *)
From Coq Require Import Reals List Bool Lra Lia Psatz.
From Verif Require Import GeoModel BoxModel GeoSpec GeoProofs GeoProofs2 BoxProperties PolyModel PolySpec PolyProofs PolyProofs2.
Import ListNotations.
Local Open Scope R_scope.

(** The area does not depend on the vertex the list starts with; a polygon cut along a line between two of its vertices has the
    area of the two pieces; a triangle has half of base times height, positive when it runs counterclockwise, and so has every
    convex polygon a positive area. *)
Theorem C94_area :
  (forall n l x, polygon_area (l ++ [x]) n = polygon_area (x :: l) n) /\
  (forall n p l1 q l2, polygon_area (p :: l1 ++ q :: l2) n = polygon_area (p :: l1 ++ [q]) n + polygon_area (q :: l2 ++ [p]) n) /\
  (forall o e f n a b c h, unit_normal e f n -> planar o e f a -> planar o e f b -> planar o e f c -> a <> b ->
     least_distance (fun q => q = c) (on_line (Line a b)) h ->
     Rabs (polygon_area [a; b; c] n) = far a b * h / 2 /\ (0 < polygon_area [a; b; c] n <-> 0 < left_of n a b c)) /\
  (forall n ver, convex n ver -> 0 < polygon_area ver n).
Proof.
  split; [|split; [|split]].
  - intros n l x. rewrite !area_det, cyc_rot. reflexivity.
  - intros n p l1 q l2. rewrite !area_det, (cyc_cut (det n) p l1 q l2); [lra|]. intros a b. unfold det. vunfold. ring.
  - intros o e f n a b c h U A B C NE [[p [q [-> [Q F]]]] M].
    assert (E : polygon_area [a; b; c] n = left_of n a b c / 2).
    { rewrite (area_from _ n a). unfold cyc, close. cbn [last psum]. vunfold. field. }
    rewrite E. split; [|lra].
    pose proof (left_far o e f n a b c U A B C NE) as LF.
    set (ft := along (Line a b) (foot_at (Line a b) c)) in *.
    assert (OF : on_line (Line a b) ft) by (eexists; reflexivity).
    assert (G : far ft c = h).
    { apply Rle_antisym.
      - rewrite <- F, (far_sym c q). destruct Q as [t ->]. apply far_le. rewrite (foot_far2 (Line a b) c t NE). fold ft.
        pose proof (Rmult_le_pos _ _ (vdot_pos (dir (Line a b))) (pow2_ge_0 (t - foot_at (Line a b) c))). lra.
      - rewrite far_sym. apply M; [reflexivity | exact OF]. }
    rewrite G in LF.
    assert (DP : 0 < far a b).
    { destruct (Rle_lt_or_eq_dec 0 (far a b) (sqrt_pos _)) as [H|H]; [exact H|].
      exfalso. pose proof (dir_pos (Line a b) NE) as DD. symmetry in H. apply sqrt_eq_0 in H; [|apply far2_pos].
      unfold dir, vdot, vminus in DD. cbn [pvert nvert vx vy vz] in DD. lra. }
    unfold Rdiv in LF. rewrite Rabs_mult, (Rabs_right (/ far a b)) in LF by (apply Rle_ge, Rlt_le, Rinv_0_lt_compat; exact DP).
    unfold Rdiv. rewrite Rabs_mult, (Rabs_right (/ 2)) by lra. rewrite <- LF. field. lra.
  - intros n ver C. destruct ver as [|v0 [|w [|w' r]]]; try (destruct C as [L _]; cbn [length] in L; lia).
    rewrite (area_from _ n v0).
    assert (G : forall l, (forall a b, In (a, b) (pairs l) -> 0 <= left_of n a b v0) -> 0 <= psum (fun a b => left_of n a b v0) l).
    { induction l as [|a [|b s] IH]; intros H; [cbn; lra..|]. rewrite psum_cons2.
      pose proof (H a b (or_introl eq_refl)). specialize (IH (fun x y K => H x y (or_intror K))). lra. }
    assert (CV : lefts n (v0 :: w :: w' :: r) v0) by (apply convex_vertex; [exact C | left; reflexivity]).
    unfold cyc, close. rewrite !psum_cons2.
    assert (E : In (w, w') (edges (v0 :: w :: w' :: r))) by (apply edges_close; unfold close; simpl; auto).
    destruct C as [L [N C]].
    assert (P : 0 < left_of n w w' v0).
    { destruct (C w w' E v0 (or_introl eq_refl)) as [X | [X | X]]; [| |exact X]; inversion N as [|? ? N1 N2]; exfalso; apply N1;
        rewrite X; simpl; auto. }
    assert (R1 : 0 <= psum (fun a b => left_of n a b v0) (w' :: r)).
    { apply G. intros a b H. apply CV. apply edges_close. unfold close. simpl pairs. right; right; right. exact H. }
    replace (left_of n (last (v0 :: w :: w' :: r) (V 0 0 0)) v0 v0) with 0 by (vunfold; ring).
    replace (left_of n v0 w v0) with 0 by (vunfold; ring). lra.
Qed.
Print Assumptions C94_area.

(** The centre of gravity of a planar polygon: it is given with the area, exactly when the area is not zero; it does not depend on
    the vertex the list starts with; that of a triangle is the mean of its corners; and when the polygon is cut along a line
    between two of its vertices, it is the mean of those of the pieces, weighted with their areas. *)
Theorem C94_centroid : forall o e f n, 
  (forall ver, ver <> [] -> (forall v, In v ver -> planar o e f v) ->
     (polygon_centroid ver n = None <-> polygon_area ver n = 0) /\
     (forall s g, polygon_centroid ver n = Some (s, g) -> s = polygon_area ver n)) /\
  (forall l x, (forall v, In v (x :: l) -> planar o e f v) -> polygon_centroid (l ++ [x]) n = polygon_centroid (x :: l) n) /\
  (forall a b c, planar o e f a -> planar o e f b -> planar o e f c -> left_of n a b c <> 0 ->
     exists s, polygon_centroid [a; b; c] n =
       Some (s, V ((vx a + vx b + vx c) / 3) ((vy a + vy b + vy c) / 3) ((vz a + vz b + vz c) / 3))) /\
  (forall p l1 q l2, (forall v, In v (p :: l1 ++ q :: l2) -> planar o e f v) -> forall s g s1 g1 s2 g2,
     polygon_centroid (p :: l1 ++ q :: l2) n = Some (s, g) ->
     polygon_centroid (p :: l1 ++ [q]) n = Some (s1, g1) -> polygon_centroid (q :: l2 ++ [p]) n = Some (s2, g2) ->
     s = s1 + s2 /\ s * vx g = s1 * vx g1 + s2 * vx g2 /\ s * vy g = s1 * vy g1 + s2 * vy g2 /\ s * vz g = s1 * vz g1 + s2 * vz g2).
Proof.
  intros o e f n. 
  assert (PO : planar o e f o) by (exists 0, 0; apply vec_ext; cbn [vx vy vz]; ring).
  split; [|split; [|split]].
  - intros ver NE P. pose proof (centroid_from o e f n o ver NE P PO) as H.
    destruct (polygon_centroid ver n) as [[s g]|].
    + destruct H as [H1 [H2 _]]. split; [split; [discriminate | intros K; lra]|]. intros s' g' E. injection E as <- <-. exact H1.
    + split; [tauto | intros; discriminate].
  - intros l x P.
    assert (NE : l ++ [x] <> []) by (destruct l; discriminate).
    assert (NE2 : x :: l <> []) by discriminate.
    assert (P' : forall v, In v (l ++ [x]) -> planar o e f v).
    { intros v Hv. apply P. apply in_app_or in Hv. simpl in *. tauto. }
    pose proof (centroid_from o e f n o _ NE P' PO) as H1. pose proof (centroid_from o e f n o _ NE2 P PO) as H2.
    rewrite (proj1 C94_area) in H1.
    destruct (polygon_centroid (l ++ [x]) n) as [[s g]|], (polygon_centroid (x :: l) n) as [[s' g']|]; try (destruct H1, H2; congruence).
    + destruct H1 as [A1 [A2 A3]], H2 as [B1' [B2 B3]]. assert (SS : s' = s) by congruence. rewrite SS in *. f_equal. f_equal.
      assert (Q : forall k, coord k -> k g = k g').
      { intros k K. apply Rmult_eq_reg_l with (2 * s); [|lra]. rewrite (A3 k K), (B3 k K). apply cyc_rot. }
      apply vec_ext; apply Q; unfold coord; auto.
    + destruct H1 as [A1 [A2 A3]]. congruence.
    + destruct H2 as [A1 [A2 A3]]. congruence.
  - intros a b c A B C NZ.
    assert (P : forall v, In v [a; b; c] -> planar o e f v) by (intros v [<- | [<- | [<- | []]]]; assumption).
    pose proof (centroid_from o e f n a [a; b; c] ltac:(discriminate) P A) as H.
    assert (E : 2 * polygon_area [a; b; c] n = left_of n a b c).
    { rewrite (area_from _ n a). unfold cyc, close. cbn [last psum]. vunfold. field. }
    destruct (polygon_centroid [a; b; c] n) as [[s g]|]; [|lra]. exists s. f_equal. f_equal.
    destruct H as [H1 [H2 H3]].
    assert (Q : forall k, coord k -> k g = (k a + k b + k c) / 3).
    { intros k K. apply Rmult_eq_reg_l with (2 * s); [|lra]. rewrite (H3 k K). rewrite H1, E.
      unfold cyc, close. cbn [last psum]. unfold moment, left_of, sub3. cbn [vx vy vz]. field. }
    apply vec_ext; cbn [vx vy vz]; apply Q; unfold coord; auto.
  - intros p l1 q l2 P s g s1 g1 s2 g2 H0 H1 H2.
    assert (P1 : forall v, In v (p :: l1 ++ [q]) -> planar o e f v).
    { intros v Hv. apply P. simpl in *. rewrite in_app_iff in *. simpl in *. tauto. }
    assert (P2 : forall v, In v (q :: l2 ++ [p]) -> planar o e f v).
    { intros v Hv. apply P. simpl in *. rewrite in_app_iff in *. simpl in *. tauto. }
    pose proof (centroid_from o e f n o (p :: l1 ++ q :: l2) ltac:(discriminate) P PO) as C0.
    pose proof (centroid_from o e f n o (p :: l1 ++ [q]) ltac:(discriminate) P1 PO) as C1.
    pose proof (centroid_from o e f n o (q :: l2 ++ [p]) ltac:(discriminate) P2 PO) as C2.
    rewrite H0 in C0. rewrite H1 in C1. rewrite H2 in C2.
    destruct C0 as [S0 [_ C0]], C1 as [S1 [_ C1]], C2 as [S2 [_ C2]].
    assert (Q : forall k, coord k -> s * k g = s1 * k g1 + s2 * k g2).
    { intros k K. specialize (C0 k K). specialize (C1 k K). specialize (C2 k K).
      rewrite (cyc_cut (moment k n o) p l1 q l2 (moment_anti k n o)) in C0. lra. }
    split; [rewrite S0, S1, S2; apply C94_area|]. repeat split; apply Q; unfold coord; auto.
Qed.
Print Assumptions C94_centroid.

(** The normal :reset-normal computes has length one and sees a polygon of positive area; there is none only when the area is zero
    from every side.  A planar convex polygon that runs counterclockwise around n gets n, and a plane with all its vertices. *)
Theorem C94_normal : forall ver, ver <> [] ->
  (forall m d, reset_normal ver = Some (Plane m d) -> dot3 m m = 1 /\ 0 < polygon_area ver m) /\
  (reset_normal ver = None <-> forall n, polygon_area ver n = 0) /\
  (forall o e f n, unit_normal e f n -> (forall v, In v ver -> planar o e f v) -> convex n ver ->
     exists d, reset_normal ver = Some (Plane n d) /\ forall v, In v ver -> plane_distance (Plane n d) v = 0).
Proof.
  intros ver NE. unfold reset_normal. pose proof (normalize_spec (normal_sum ver)) as NS.
  pose proof (fun n => area_normal_sum ver n NE) as AN.
  split; [|split].
  - intros m d H. destruct (normalize (normal_sum ver)) as [u|]; [|discriminate]. injection H as <- _.
    destruct NS as [U [r [RP E]]]. split; [exact U|]. specialize (AN u). rewrite E in AN.
    replace (dot3 u (scale3 r u)) with (r * dot3 u u) in AN by (vunfold; ring). rewrite U in AN. lra.
  - destruct (normalize (normal_sum ver)) as [u|].
    + split; [discriminate|]. intros H. destruct NS as [U [r [RP E]]]. specialize (AN u). rewrite E, H in AN.
      replace (dot3 u (scale3 r u)) with (r * dot3 u u) in AN by (vunfold; ring). rewrite U in AN. lra.
    + split; [|reflexivity]. intros _ n. specialize (AN n). rewrite NS in AN. vunfold. lra.
  - intros o e f n U P C. pose proof (proj2 (proj2 (proj2 C94_area)) n ver C) as AP.
    pose proof (planar_normal_sum o e f n ver NE U P) as S. set (A := 2 * polygon_area ver n) in *.
    assert (E : normal_sum ver = scale3 A n) by (apply vec_ext; unfold scale3; cbn [vx vy vz]; apply S; unfold coord; auto).
    rewrite E in *. assert (AP2 : 0 < A) by (unfold A; lra). clearbody A.
    destruct (normalize (scale3 A n)) as [u|].
    2:{ exfalso. destruct U as [U _]. unfold scale3 in NS. injection NS as N1 N2 N3. 
        assert (Z : forall x, A * x = 0 -> x = 0) by (intros x X; apply Rmult_integral in X; destruct X; lra).
        apply Z in N1, N2, N3. unfold dot3 in U. rewrite N1, N2, N3 in U. lra. }
    assert (UN : u = n).
    { destruct NS as [UU [r [RP Eu]]]. destruct U as [U _].
      assert (Q : A * A * dot3 n n = r * r * dot3 u u).
      { replace (A * A * dot3 n n) with (dot3 (scale3 A n) (scale3 A n)) by (vunfold; ring). rewrite Eu. vunfold. ring. }
      rewrite U, UU in Q. assert (AR : A = r) by nra. subst r. unfold scale3 in Eu. injection Eu as E1 E2 E3.
      apply vec_ext; symmetry; apply Rmult_eq_reg_l with A; lra. }
    subst u. eexists. split; [reflexivity|]. intros v Hv. unfold plane_distance. cbn [normal pdistance].
    assert (PL : planar o e f (hd (V 0 0 0) (close ver))) by (apply P, (in_close ver _ NE); left; reflexivity).
    destruct (planar_diff o e f _ v PL (P v Hv)) as [x [y D]]. destruct U as [_ [Ue Uf]].
    assert (K : dot3 n (sub3 v (hd (V 0 0 0) (close ver))) = 0).
    { rewrite D. replace (dot3 n _) with (x * dot3 n e + y * dot3 n f) by (unfold dot3; cbn [vx vy vz]; ring). rewrite Ue, Uf. ring. }
    unfold dot3, sub3 in K. unfold vdot. cbn [vx vy vz] in K. lra.
Qed.
Print Assumptions C94_normal.

(** :set-convexp is true exactly when no corner turns right; so it is for convex polygons. *)
Lemma triples_snoc : forall l a b c d, triples (a :: l ++ [b; c]) = triples (a :: l ++ [b]) ++ [(last (a :: l) d, b, c)].
Proof.
  induction l as [|x r IH]; intros a b c d; [reflexivity|].
  destruct r as [|y r]; [reflexivity|].
  change (triples (a :: (x :: y :: r) ++ [b; c])) with ((a, x, y) :: triples (x :: (y :: r) ++ [b; c])).
  rewrite (IH x b c d). reflexivity.
Qed.
Lemma convexp_triples : forall l n, convexp_loop l n = true <-> forall a b c, In (a, b, c) (triples l) -> 0 <= left_of n a b c.
Proof.
  induction l as [|a [|b [|c r]] IH]; intros n; [cbn; tauto..|].
  change (convexp_loop (a :: b :: c :: r) n) with (if ltb (triangle a b c n) 0 then false else convexp_loop (b :: c :: r) n).
  change (triples (a :: b :: c :: r)) with ((a, b, c) :: triples (b :: c :: r)). rewrite triangle_left.
  ltbs X (left_of n a b c) 0.
  - split; [discriminate|]. intros H. specialize (H a b c (or_introl eq_refl)). lra.
  - rewrite IH. split.
    + intros H x y z [E | E]; [injection E as <- <- <-; exact X | exact (H x y z E)].
    + intros H x y z E. exact (H x y z (or_intror E)).
Qed.
Lemma triples_pairs : forall l z a b c, In (a, b, c) (triples (l ++ [z])) -> In (a, b) (pairs l).
Proof.
  induction l as [|x [|y [|w r]] IH]; intros z a b c H; [destruct H..| |].
  - cbn in H. destruct H as [E | []]. injection E as <- <- <-. left; reflexivity.
  - change (triples ((x :: y :: w :: r) ++ [z])) with ((x, y, w) :: triples ((y :: w :: r) ++ [z])) in H.
    destruct H as [E | H]; [injection E as <- <- <-; left; reflexivity|]. right. exact (IH z a b c H).
Qed.
Lemma triples_in : forall l a b c, In (a, b, c) (triples l) -> In c l.
Proof.
  induction l as [|x [|y [|w r]] IH]; intros a b c H; [destruct H..|].
  destruct H as [E | H]; [injection E as <- <- <-; simpl; auto|]. right. exact (IH a b c H).
Qed.
Theorem C94_convexp : forall ver n,
  (2 <= length ver)%nat ->
  (set_convexp ver n = true <-> forall a b c, In (a, b, c) (corners ver) -> 0 <= left_of n a b c) /\
  (convex n ver -> set_convexp ver n = true).
Proof.
  intros ver n L. destruct ver as [|v [|w r]]; cbn [length] in L; [lia..|]. split.
  - unfold set_convexp. rewrite convexp_triples. unfold close, corners. cbn [nth].
    change ((last (v :: w :: r) (V 0 0 0) :: v :: w :: r) ++ [v]) with (last (v :: w :: r) (V 0 0 0) :: v :: w :: r ++ [v]).
    change ((v :: w :: r) ++ [v; w]) with (v :: (w :: r) ++ [v; w]). rewrite (triples_snoc (w :: r) v v w (V 0 0 0)).
    change (triples (last (v :: w :: r) (V 0 0 0) :: v :: w :: r ++ [v])) with
      ((last (v :: w :: r) (V 0 0 0), v, w) :: triples (v :: (w :: r) ++ [v])).
    split; intros H a b c K; apply H.
    + apply in_app_or in K. simpl In in *. tauto.
    + apply in_or_app. simpl In in *. tauto.
  - intros C. unfold set_convexp. apply convexp_triples. intros a b c K.
    assert (CV : In c (v :: w :: r)).
    { pose proof (triples_in _ a b c K) as T. apply in_app_or in T.
      destruct T as [T | [<- | []]]; [|left; reflexivity]. exact (proj1 (in_close (v :: w :: r) c ltac:(discriminate)) T). }
    apply (convex_vertex n (v :: w :: r) c C CV). apply edges_close. apply triples_pairs in K. exact K.
Qed.
Print Assumptions C94_convexp.

(** Where a point of the plane is, for a convex polygon: a point at least eps away from the lines of the edges is :inside exactly
    when it belongs to the polygon, and else :outside; a point of an edge is on the :border; a point called :outside does not
    belong to the polygon; a point called :border is near an edge.  What is missing: a point called :inside need not belong to
    the polygon (C94_insidep_refuted). *)
Theorem C94_insidep_partial : forall o e f n ver p eps, unit_normal e f n -> (forall v, In v ver -> planar o e f v) -> planar o e f p ->
  convex n ver -> 0 < eps ->
  (clear_of eps ver p -> hull ver p -> insidep_convex ver n p eps = Inside) /\
  (clear_of eps ver p -> ~ hull ver p -> insidep_convex ver n p eps = Outside) /\
  (forall a b, In (a, b) (edges ver) -> on_segment (Line a b) p -> insidep_convex ver n p eps = Border) /\
  (insidep_convex ver n p eps = Outside -> ~ hull ver p) /\
  (insidep_convex ver n p eps = Border -> exists a b, In (a, b) (edges ver) /\
     exists t, - eps <= t <= 1 + eps /\ far (along (Line a b) t) p < eps).
Proof.
  intros o e f n ver p eps U P PP C EP.
  assert (NE : ver <> []) by (destruct C as [L _]; destruct ver; [cbn in L; lia | discriminate]).
  assert (P' : forall v, In v (close ver) -> planar o e f v) by (intros v Hv; apply P, (in_close ver v NE), Hv).
  assert (D : forall a b, In (a, b) (pairs (close ver)) -> a <> b).
  { intros a b H. destruct C as [L [N _]]. apply (edges_distinct ver a b N); [lia|]. apply edges_close. exact H. }
  assert (K := inside_loop_ok o e f n eps p U PP EP ver (last ver (V 0 0 0)) P' D). fold (close ver) in K.
  change (inside_loop (last ver (V 0 0 0)) ver p n eps) with (insidep_convex ver n p eps) in K.
  assert (NB : forall a b, In (a, b) (pairs (close ver)) -> clear_of eps ver p -> ~ near_edge a b p eps).
  { intros a b H CL [t [T F]]. apply edges_close in H. specialize (CL a b H (along (Line a b) t) (ex_intro _ t eq_refl)). lra. }
  assert (NO : hull ver p -> insidep_convex ver n p eps <> Outside).
  { intros H E. rewrite E in K. destruct K as [a [b [I1 I2]]]. apply edges_close in I1.
    pose proof (hull_lefts n ver p C H a b I1). lra. }
  split; [|split; [|split; [|split]]].
  - intros CL H. destruct (insidep_convex ver n p eps); [reflexivity | | exfalso; apply NO; auto].
    destruct K as [a [b [I1 I2]]]. exfalso. exact (NB a b I1 CL I2).
  - intros CL H. destruct (insidep_convex ver n p eps); [| |reflexivity]; exfalso.
    + apply H. apply (lefts_hull o e f n ver p P PP C). intros a b E. apply (K a b); [apply edges_close; exact E|].
      intros q Q. exact (CL a b E q Q).
    + destruct K as [a [b [I1 I2]]]. exact (NB a b I1 CL I2).
  - intros a b E S.
    assert (H : hull ver p).
    { destruct S as [t [T ->]]. destruct (edges_in ver a b E). apply hull_between; [apply hull_vertex; assumption.. | exact T]. }
    destruct (insidep_convex ver n p eps); [exfalso | reflexivity | exfalso; apply NO; auto].
    apply edges_close in E. destruct (K a b E) as [K1 _]. exact (K1 S).
  - intros E H. exact (NO H E).
  - intros E. rewrite E in K. destruct K as [a [b [I1 [t [T F]]]]]. exists a, b. split; [apply edges_close; exact I1|].
    exists t. auto.
Qed.
Print Assumptions C94_insidep_partial.

(** ** cases *)
Definition sq (x y : R) : vec := V x y 0.
Definition up : vec := V 0 0 1.
Lemma flat : forall x y, planar (V 0 0 0) (V 1 0 0) (V 0 1 0) (sq x y).
Proof. intros x y. exists x, y. unfold sq. apply vec_ext; cbn [vx vy vz]; ring. Qed.
Lemma up_normal : unit_normal (V 1 0 0) (V 0 1 0) up.
Proof. unfold unit_normal, dot3, up. cbn [vx vy vz]. lra. Qed.
Lemma sq_neq : forall a b c d, a <> c \/ b <> d -> sq a b <> sq c d.
Proof. intros a b c d H E. unfold sq in E. injection E as E1 E2. tauto. Qed.
Definition square : list vec := [sq 0 0; sq 2 0; sq 2 2; sq 0 2].
Ltac nodup := repeat (constructor; [intros H; repeat (destruct H as [H | H]; [revert H; apply sq_neq; lra|]); destruct H|]); constructor.
Example C94_square_convex : convex up square.
Proof.
  unfold convex, square. split; [cbn; lia|]. split; [nodup|].
  intros a b E v Hv. cbn in E.
  repeat (destruct E as [E | E]; [injection E as <- <-; repeat (destruct Hv as [<- | Hv];
    [first [left; reflexivity | right; left; reflexivity | right; right; unfold sq, up; vunfold; lra]|]); destruct Hv|]).
  destruct E.
Qed.
Example C94_square_area : polygon_area square up = 4.
Proof. rewrite (area_from _ _ (sq 0 0)). unfold cyc, close, square. cbn [last psum]. unfold sq, up. vunfold. lra. Qed.
Example C94_square_centroid : exists s, polygon_centroid square up = Some (s, sq 1 1).
Proof.
  assert (P : forall v, In v square -> planar (V 0 0 0) (V 1 0 0) (V 0 1 0) v)
    by (intros v Hv; repeat (destruct Hv as [<- | Hv]; [apply flat|]); destruct Hv).
  pose proof (centroid_from _ _ _ up (sq 0 0) square ltac:(discriminate) P (flat 0 0)) as H.
  rewrite C94_square_area in H. destruct (polygon_centroid square up) as [[s g]|]; [|lra]. exists s. f_equal. f_equal.
  destruct H as [-> [_ H]].
  pose proof (H vx ltac:(unfold coord; auto)) as H1. pose proof (H vy ltac:(unfold coord; auto)) as H2. pose proof (H vz ltac:(unfold coord; auto)) as H3.
  unfold cyc, close, square in H1, H2, H3. cbn [last psum] in H1, H2, H3. unfold moment, sq, up in *. vunfold.
  apply vec_ext; cbn [vx vy vz]; lra.
Qed.
(** the middle of the square is clear of the edges and in the polygon; a point beside it is clear of them and not *)
Example C94_square_middle : clear_of (1 / 200) square (sq 1 1) /\ hull square (sq 1 1).
Proof.
  split.
  - intros a b E q [t ->]. cbn in E. apply Rle_trans with (sqrt (1 * 1)); [rewrite sqrt_square; lra|].
    repeat (destruct E as [E | E]; [injection E as <- <-; unfold far, along, sq; cbn [pvert nvert vx vy vz]; apply sqrt_le_1_alt;
      match goal with |- _ <= ?x ^ 2 + ?y ^ 2 + _ => pose proof (pow2_ge_0 x); pose proof (pow2_ge_0 y) end; lra|]). destruct E.
  - replace (sq 1 1) with (along (Line (sq 0 0) (sq 2 2)) (1 / 2)).
    + apply hull_between; [apply hull_vertex; simpl; auto..|lra].
    + unfold along, sq. apply vec_ext; cbn [pvert nvert vx vy vz]; lra.
Qed.
Example C94_square_middle_inside : insidep_convex square up (sq 1 1) (1 / 200) = Inside.
Proof.
  refine (proj1 (C94_insidep_partial (V 0 0 0) (V 1 0 0) (V 0 1 0) up square (sq 1 1) (1 / 200) up_normal _ (flat 1 1) C94_square_convex _) _ _).
  - intros v Hv. repeat (destruct Hv as [<- | Hv]; [apply flat|]). destruct Hv.
  - lra.
  - apply C94_square_middle.
  - apply C94_square_middle.
Qed.

(** steps of the loop, for computations *)
Lemma loop_skip : forall v2 v1 r p n eps d, 0 < d -> 0 < eps -> vdot (vminus v2 v1) (vminus v2 v1) = d * d ->
  - (eps * d) < triangle v2 v1 p n < eps * d ->
  vdot (vminus v1 v2) (vminus p v2) < - eps * (d * d) \/ (1 + eps) * (d * d) < vdot (vminus v1 v2) (vminus p v2) ->
  inside_loop v2 (v1 :: r) p n eps = inside_loop v1 r p n eps.
Proof.
  intros v2 v1 r p n eps d D EP E T M. cbn [inside_loop].
  assert (DD : vdistance v2 v1 = d) by (unfold vdistance; rewrite E; apply sqrt_square; lra). rewrite DD.
  assert (E' : vdot (vminus v1 v2) (vminus v1 v2) = d * d) by (rewrite <- E; vunfold; ring). rewrite E'.
  assert (Q : 0 < d * d) by (apply Rmult_lt_0_compat; exact D).
  set (th := triangle v2 v1 p n) in *. set (m := vdot (vminus v1 v2) (vminus p v2)) in *. clearbody th m.
  assert (I1 : - eps < th / d < eps).
  { split; apply Rmult_lt_reg_r with d; try exact D; unfold Rdiv; rewrite Rmult_assoc, Rinv_l by lra; lra. }
  assert (I2 : m / (d * d) < - eps \/ 1 + eps < m / (d * d)).
  { destruct M as [M|M]; [left | right]; apply Rmult_lt_reg_r with (d * d); try exact Q; unfold Rdiv; rewrite Rmult_assoc, Rinv_l by lra; lra. }
  unfold ndiv. destruct (Req_EM_T d 0); [lra|]. destruct (Req_EM_T (d * d) 0); [lra|].
  unfold eps_zero. rewrite (ltb_yes (Rabs (th / d - 0)) eps) by (apply Rabs_def1; lra).
  unfold eps_in_range. destruct I2 as [I2|I2].
  - rewrite (ltb_yes _ (0 - eps)) by lra. reflexivity.
  - rewrite (ltb_yes (1 + eps)) by lra. rewrite andb_false_r. reflexivity.
Qed.
Lemma loop_far : forall v2 v1 r p n eps d, 0 < d -> 0 < eps -> vdot (vminus v2 v1) (vminus v2 v1) <= d * d -> v2 <> v1 ->
  eps * d <= Rabs (triangle v2 v1 p n) ->
  inside_loop v2 (v1 :: r) p n eps = if ltb (triangle v2 v1 p n) 0 then Outside else inside_loop v1 r p n eps.
Proof.
  intros v2 v1 r p n eps d D EP E NE T. cbn [inside_loop].
  assert (DD : vdistance v2 v1 <= d) by (unfold vdistance; rewrite <- (sqrt_square d) by lra; apply sqrt_le_1_alt; exact E).
  assert (DP : 0 < vdistance v2 v1).
  { rewrite distance_far. pose proof (dir_pos (Line v1 v2) (fun H => NE (eq_sym H))) as Q. unfold far. apply sqrt_lt_R0.
    unfold dir in Q. vunfold. lra. }
  set (w := vdistance v2 v1) in *. set (th := triangle v2 v1 p n) in *. clearbody w th.
  unfold ndiv at 1. destruct (Req_EM_T w 0); [lra|]. unfold eps_zero. rewrite ltb_no; [reflexivity|].
  rewrite Rminus_0_r. unfold Rdiv. rewrite Rabs_mult, (Rabs_right (/ w)) by (apply Rle_ge, Rlt_le, Rinv_0_lt_compat; exact DP).
  apply Rmult_le_reg_r with w; [exact DP|]. rewrite Rmult_assoc, Rinv_l by lra.
  assert (eps * w <= eps * d) by (apply Rmult_le_compat_l; lra). lra.
Qed.

(** A point a tenth beyond the tip of a slim triangle is called :inside: it is within the tolerance of the lines of both long edges,
    so that the loop neither calls it :outside nor, since it is beyond their ends, :border. *)
Theorem C94_insidep_refuted : exists ver p,
  convex up ver /\ (forall v, In v ver -> planar (V 0 0 0) (V 1 0 0) (V 0 1 0) v) /\
  insidep_convex ver up p (1 / 200) = Inside /\ ~ hull ver p /\ forall v, hull ver v -> 1 / 10 <= far v p.
Proof.
  set (x := 2499 / 2501). set (y := 100 / 2501).
  exists [sq 0 0; sq x (- y); sq x y], (sq (- (1 / 10)) 0).
  assert (C : convex up [sq 0 0; sq x (- y); sq x y]).
  { unfold convex. split; [cbn; lia|]. split; [unfold x, y; nodup|].
    intros a b E v Hv. cbn in E.
    repeat (destruct E as [E | E]; [injection E as <- <-; repeat (destruct Hv as [<- | Hv];
      [first [left; reflexivity | right; left; reflexivity | right; right; unfold sq, up, x, y; vunfold; lra]|]); destruct Hv|]).
    destruct E. }
  split; [exact C|]. split.
  { intros v Hv. repeat (destruct Hv as [<- | Hv]; [apply flat|]). destruct Hv. }
  assert (HX : forall v, hull [sq 0 0; sq x (- y); sq x y] v -> 0 <= vx v).
  { intros v H. induction H as [v Hv | p q t _ IHp _ IHq T].
    - repeat (destruct Hv as [<- | Hv]; [unfold sq, x; cbn [vx]; lra|]). destruct Hv.
    - unfold along. cbn [pvert nvert vx]. replace (vx p + t * (vx q - vx p)) with ((1 - t) * vx p + t * vx q) by ring.
      apply Rplus_le_le_0_compat; apply Rmult_le_pos; lra. }
  split; [|split].
  - unfold insidep_convex, close. cbn [last].
    rewrite (loop_skip (sq x y) (sq 0 0) _ _ _ _ 1); [| lra | lra | unfold sq, x, y; vunfold; lra | unfold sq, up, x, y; vunfold; lra
      | right; unfold sq, x, y; vunfold; lra].
    rewrite (loop_skip (sq 0 0) (sq x (- y)) _ _ _ _ 1); [| lra | lra | unfold sq, x, y; vunfold; lra | unfold sq, up, x, y; vunfold; lra
      | left; unfold sq, x, y; vunfold; lra].
    assert (T : triangle (sq x (- y)) (sq x y) (sq (- (1 / 10)) 0) up = 200 / 2501 * (1 / 10 + 2499 / 2501)) by (unfold sq, up, x, y; vunfold; lra).
    rewrite (loop_far _ _ _ _ _ _ 1); rewrite ?T; [| lra | lra | unfold sq, x, y; vunfold; lra | apply sq_neq; unfold y; lra | rewrite Rabs_right; lra].
    rewrite ltb_no by lra. reflexivity.
  - intros H. apply HX in H. unfold sq in H. cbn [vx] in H. lra.
  - intros v H. apply HX in H. unfold far. apply Rle_trans with (sqrt (1 / 10 * (1 / 10))); [rewrite sqrt_square; lra|].
    apply sqrt_le_1_alt. unfold sq. cbn [vx vy vz]. pose proof (pow2_ge_0 (vy v - 0)). pose proof (pow2_ge_0 (vz v - 0)).
    assert (1 / 10 * (1 / 10) <= (vx v - - (1 / 10)) ^ 2) by
      (replace ((vx v - - (1 / 10)) ^ 2) with (vx v * vx v + vx v / 5 + 1 / 100) by field; pose proof (Rmult_le_pos _ _ H H) as HH; clear - H HH; lra).
    clear - H0 H1 H2; lra.
Qed.
Print Assumptions C94_insidep_refuted.

(** The corners alone do not show that a polygon is convex: none of the corners of a five-pointed star turns right, so :set-convexp
    marks it convex, and :insidep then calls one of its own vertices :outside. *)
Theorem C94_convexp_refuted : exists ver v,
  set_convexp ver up = true /\ ~ convex up ver /\ In v ver /\ insidep_convex ver up v (1 / 200) = Outside.
Proof.
  exists [sq 0 3; sq (-2) (-3); sq 3 1; sq (-3) 1; sq 2 (-3)], (sq 3 1).
  assert (O : insidep_convex [sq 0 3; sq (-2) (-3); sq 3 1; sq (-3) 1; sq 2 (-3)] up (sq 3 1) (1 / 200) = Outside).
  { unfold insidep_convex, close. cbn [last].
    assert (T : triangle (sq 2 (-3)) (sq 0 3) (sq 3 1) up = -14) by (unfold sq, up; vunfold; lra).
    rewrite (loop_far _ _ _ _ _ _ 7); rewrite ?T; [| lra | lra | unfold sq; vunfold; lra | apply sq_neq; lra | rewrite Rabs_left; lra].
    rewrite ltb_yes by lra. reflexivity. }
  split; [|split; [|split]].
  - refine (proj2 (proj1 (C94_convexp _ _ _)) _); [cbn; lia|]. intros a b c H. cbn in H.
    repeat (destruct H as [H | H]; [injection H as <- <- <-; unfold sq, up; vunfold; lra|]). destruct H.
  - intros C.
    refine (proj1 (proj2 (proj2 (proj2 (C94_insidep_partial (V 0 0 0) (V 1 0 0) (V 0 1 0) up _ (sq 3 1) (1 / 200) up_normal _ (flat 3 1) C _)))) O _).
    + intros v Hv. repeat (destruct Hv as [<- | Hv]; [apply flat|]). destruct Hv.
    + lra.
    + apply hull_vertex. simpl. auto.
  - simpl. auto.
  - exact O.
Qed.
Print Assumptions C94_convexp_refuted.
