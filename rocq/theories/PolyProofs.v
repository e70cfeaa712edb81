(** Proofs for C94. *)
From Coq Require Import Reals List Bool Lra Lia Psatz.
From Verif Require Import GeoModel BoxModel GeoSpec GeoProofs PolyModel PolySpec.
Import ListNotations.
Local Open Scope R_scope.

Ltac vunfold := unfold left_of, triangle, SCA3PROD, dot3, sub3, GeoModel.vplus, vminus, vdot, vcross, scale3, along in *;
  cbn [vx vy vz pvert nvert] in *.
Lemma triangle_left : forall a b c n, triangle a b c n = left_of n a b c.
Proof. intros. vunfold. ring. Qed.

(** * sums around a polygon *)
Fixpoint psum (f : vec -> vec -> R) (l : list vec) : R :=
  match l with
  | a :: (b :: _) as r => f a b + psum f r
  | _ => 0
  end.
Lemma psum_cons2 : forall f a b r, psum f (a :: b :: r) = f a b + psum f (b :: r).
Proof. reflexivity. Qed.
Definition cyc (f : vec -> vec -> R) (ver : list vec) : R := psum f (close ver).
Lemma psum_app : forall f l1 x l2, psum f (l1 ++ x :: l2) = psum f (l1 ++ [x]) + psum f (x :: l2).
Proof.
  intros f l1 x l2. induction l1 as [|a [|b r] IH].
  - cbn. destruct l2; ring.
  - cbn [app]. rewrite !psum_cons2. cbn [psum]. destruct l2; cbn [psum]; ring.
  - cbn [app] in *. rewrite !psum_cons2. rewrite IH. ring.
Qed.
Lemma last_cons_app : forall (l : list vec) x d, last (l ++ [x]) d = x.
Proof. intros. apply last_last. Qed.
Lemma psum_snoc : forall f l a b d, psum f (a :: l ++ [b]) = psum f (a :: l) + f (last (a :: l) d) b.
Proof.
  intros f l. induction l as [|c r IH]; intros a b d.
  - cbn [app last]. rewrite psum_cons2. cbn [psum]. ring.
  - cbn [app]. rewrite !psum_cons2. rewrite (IH c b d). cbn [last]. ring.
Qed.
Lemma cyc_rot : forall f l x, cyc f (l ++ [x]) = cyc f (x :: l).
Proof.
  intros f l x. unfold cyc, close. rewrite last_last. rewrite (psum_snoc f l x x (V 0 0 0)). rewrite psum_cons2. ring.
Qed.
Lemma last_app_cons : forall (l1 l2 : list vec) q d, last (l1 ++ q :: l2) d = last (q :: l2) d.
Proof.
  intros l1 l2 q d. induction l1 as [|a r IH]; [reflexivity|].
  cbn [app]. destruct (r ++ q :: l2) eqn:E; [destruct r; discriminate|]. rewrite <- E in *.
  change (last (a :: r ++ q :: l2) d) with (match r ++ q :: l2 with [] => a | _ => last (r ++ q :: l2) d end).
  rewrite E at 1. exact IH.
Qed.
Lemma cyc_cut : forall f p l1 q l2, (forall a b, f a b = - f b a) ->
  cyc f (p :: l1 ++ q :: l2) = cyc f (p :: l1 ++ [q]) + cyc f (q :: l2 ++ [p]).
Proof.
  intros f p l1 q l2 A. unfold cyc, close.
  change (p :: l1 ++ q :: l2) with ((p :: l1) ++ q :: l2). rewrite last_app_cons.
  change (p :: l1 ++ [q]) with ((p :: l1) ++ [q]). change (q :: l2 ++ [p]) with ((q :: l2) ++ [p]). rewrite !last_last.
  cbn [app]. rewrite !psum_cons2.
  change (p :: l1 ++ q :: l2) with ((p :: l1) ++ q :: l2). rewrite (psum_app f (p :: l1) q l2).
  rewrite (psum_snoc f l2 q p (V 0 0 0)). cbn [app]. rewrite (A q p). ring.
Qed.
Lemma psum_ext : forall f g l, (forall a b, In a l -> In b l -> f a b = g a b) -> psum f l = psum g l.
Proof.
  intros f g l. induction l as [|a [|b r] IH]; intros H; [reflexivity..|].
  rewrite !psum_cons2. rewrite H by (simpl; auto). rewrite IH; [reflexivity|]. intros x y X Y. apply H; right; assumption.
Qed.
Lemma psum_plus : forall f g l, psum (fun a b => f a b + g a b) l = psum f l + psum g l.
Proof. intros f g l. induction l as [|a [|b r] IH]; [cbn; ring..|]. rewrite !psum_cons2, IH. ring. Qed.
Lemma psum_scale : forall f k l, psum (fun a b => k * f a b) l = k * psum f l.
Proof. intros f k l. induction l as [|a [|b r] IH]; [cbn; ring..|]. rewrite !psum_cons2, IH. ring. Qed.
Lemma last_any : forall (l : list vec) x y z, last (x :: l) y = last (x :: l) z.
Proof. induction l as [|b l IH]; intros x y z; [reflexivity|]. cbn [last] in *. apply (IH b). Qed.
Lemma psum_tele : forall (F : vec -> R) l d z, psum (fun a b => F b - F a) (d :: l) = F (last (d :: l) z) - F d.
Proof.
  intros F l. induction l as [|a r IH]; intros d z; [cbn; ring|].
  rewrite psum_cons2, (IH a z). change (last (d :: a :: r) z) with (last (a :: r) z). ring.
Qed.
Lemma cyc_tele : forall (F : vec -> R) ver, cyc (fun a b => F b - F a) ver = 0.
Proof.
  intros F ver. unfold cyc, close. rewrite (psum_tele F _ _ (V 0 0 0)). destruct ver as [|v r]; [cbn; ring|].
  change (last (last (v :: r) (V 0 0 0) :: v :: r) (V 0 0 0)) with (last (v :: r) (V 0 0 0)). ring.
Qed.
Lemma cyc_shift : forall f g (F : vec -> R) ver, (forall a b, In a (close ver) -> In b (close ver) -> f a b = g a b + (F b - F a)) ->
  cyc f ver = cyc g ver.
Proof.
  intros f g F ver H. unfold cyc. rewrite (psum_ext f (fun a b => g a b + (F b - F a))) by exact H.
  rewrite psum_plus. pose proof (cyc_tele F ver) as T. unfold cyc in T. rewrite T. ring.
Qed.
Lemma in_last : forall (l : list vec) d, l <> [] -> In (last l d) l.
Proof.
  induction l as [|a [|b r] IH]; intros d H; [congruence | left; reflexivity | right; apply (IH d); discriminate].
Qed.
Lemma in_close : forall ver v, ver <> [] -> In v (close ver) <-> In v ver.
Proof.
  intros ver v H. unfold close. split; [intros [<- | K]; [apply in_last; exact H | exact K] | intros K; right; exact K].
Qed.

(** * the area *)
Lemma area_loop_sum : forall vs c n s, area_loop vs c n s = s + psum (fun a b => triangle a b c n) vs.
Proof.
  induction vs as [|a [|b r] IH]; intros c n s; [cbn; ring..|].
  rewrite psum_cons2. change (area_loop (a :: b :: r) c n s) with (area_loop (b :: r) c n (s + triangle a b c n)).
  rewrite IH. ring.
Qed.
Definition det (n a b : vec) : R := dot3 n (vcross a b).
Lemma area_det : forall ver n, polygon_area ver n = cyc (det n) ver / 2.
Proof.
  intros ver n. unfold polygon_area. rewrite area_loop_sum. set (c := vector_mean (close ver)). clearbody c.
  fold (cyc (fun a b => triangle a b c n) ver).
  rewrite (cyc_shift _ (det n) (fun x => det n x c)); [lra|]. intros a b _ _. unfold det. vunfold. ring.
Qed.
Lemma area_from : forall ver n c, polygon_area ver n = cyc (fun a b => left_of n a b c) ver / 2.
Proof.
  intros ver n c. rewrite area_det. f_equal. symmetry. apply (cyc_shift _ _ (fun x => det n x c)).
  intros a b _ _. unfold det. vunfold. ring.
Qed.

(** * the centre of gravity *)
Definition coord (k : vec -> R) : Prop := k = vx \/ k = vy \/ k = vz.
Definition moment (k : vec -> R) (n c a b : vec) : R := left_of n a b c * (k a + k b + k c) / 3.
Lemma centroid_loop_sum : forall vs c n t g,
  fst (centroid_loop vs c n t g) = t + psum (fun a b => left_of n a b c) vs /\
  forall k, coord k -> k (snd (centroid_loop vs c n t g)) = k g + psum (moment k n c) vs.
Proof.
  induction vs as [|a [|b r] IH]; intros c n t g.
  - cbn. split; [ring | intros; ring].
  - cbn. split; [ring | intros; ring].
  - change (centroid_loop (a :: b :: r) c n t g) with
      (centroid_loop (b :: r) c n (t + triangle a b c n)
        (GeoModel.vplus g (scale3 (triangle a b c n / 3) (GeoModel.vplus c (GeoModel.vplus a b))))).
    specialize (IH c n (t + triangle a b c n) (GeoModel.vplus g (scale3 (triangle a b c n / 3) (GeoModel.vplus c (GeoModel.vplus a b))))).
    destruct IH as [I1 I2]. rewrite triangle_left in *. rewrite psum_cons2. split; [rewrite I1; ring|].
    intros k K. rewrite (I2 k K), psum_cons2. unfold moment at 2. unfold GeoModel.vplus, scale3.
    destruct K as [-> | [-> | ->]]; cbn [vx vy vz]; field.
Qed.
Lemma moment_shift : forall o e f k n a b c d, coord k -> planar o e f a -> planar o e f b -> planar o e f c -> planar o e f d ->
  moment k n c a b = moment k n d a b + (moment k n d b c - moment k n d a c).
Proof.
  intros o e f k n a b c d K [xa [ya ->]] [xb [yb ->]] [xc [yc ->]] [xd [yd ->]].
  unfold moment, left_of, sub3. destruct K as [-> | [-> | ->]]; cbn [vx vy vz]; field.
Qed.
Lemma moment_anti : forall k n d a b, moment k n d a b = - moment k n d b a.
Proof. intros. unfold moment, left_of, sub3. cbn [vx vy vz]. field. Qed.

Lemma planar_mean : forall o e f vs, vs <> [] -> (forall v, In v vs -> planar o e f v) -> planar o e f (vector_mean vs).
Proof.
  intros o e f vs NE H.
  assert (S : forall l acc m x y, (forall v, In v l -> planar o e f v) ->
    acc = V (m * vx o + x * vx e + y * vx f) (m * vy o + x * vy e + y * vy f) (m * vz o + x * vz e + y * vz f) ->
    exists x' y', fold_left (fun rv v => GeoModel.vplus v rv) l acc =
      V ((m + INR (length l)) * vx o + x' * vx e + y' * vx f) ((m + INR (length l)) * vy o + x' * vy e + y' * vy f)
        ((m + INR (length l)) * vz o + x' * vz e + y' * vz f)).
  { induction l as [|v r IH]; intros acc m x y Hl ->.
    - exists x, y. cbn [fold_left length INR]. apply vec_ext; cbn [vx vy vz]; ring.
    - destruct (Hl v (or_introl eq_refl)) as [xv [yv ->]]. cbn [fold_left].
      destruct (IH _ (m + 1) (x + xv) (y + yv) (fun u Hu => Hl u (or_intror Hu))
        (eq_refl : V _ _ _ = _)) as [x' [y' E]].
      exists x', y'. cbn [length]. rewrite S_INR. 
      replace (m + (INR (length r) + 1)) with (m + 1 + INR (length r)) by ring. rewrite <- E. f_equal.
      unfold GeoModel.vplus. apply vec_ext; cbn [vx vy vz]; ring. }
  destruct (S vs (V 0 0 0) 0 0 0 H) as [x [y E]]; [apply vec_ext; cbn [vx vy vz]; ring|].
  unfold vector_mean, vsum. rewrite E.
  assert (L : INR (length vs) <> 0) by (destruct vs; [congruence | cbn [length]; rewrite S_INR; pose proof (pos_INR (length vs)); lra]).
  exists (x / INR (length vs)), (y / INR (length vs)). unfold scale3. apply vec_ext; cbn [vx vy vz]; field; exact L.
Qed.

(** the moment of a planar polygon can be computed with any point of the plane *)
Lemma centroid_from : forall o e f n d ver, ver <> [] -> (forall v, In v ver -> planar o e f v) -> planar o e f d ->
  match polygon_centroid ver n with
  | None => polygon_area ver n = 0
  | Some (s, g) => s = polygon_area ver n /\ s <> 0 /\ forall k, coord k -> 2 * s * k g = cyc (moment k n d) ver
  end.
Proof.
  intros o e f n d ver NE H D. unfold polygon_centroid.
  pose proof (centroid_loop_sum (close ver) (vector_mean (close ver)) n 0 (V 0 0 0)) as [L1 L2].
  destruct (centroid_loop (close ver) (vector_mean (close ver)) n 0 (V 0 0 0)) as [t g]. cbn [fst snd] in *.
  set (c := vector_mean (close ver)) in *.
  assert (C : planar o e f c).
  { apply planar_mean; [discriminate|]. intros v Hv. apply H. apply in_close; assumption. }
  clearbody c.
  assert (A : t = 2 * polygon_area ver n).
  { rewrite (area_from ver n c). unfold cyc. rewrite L1. lra. }
  unfold ndiv. destruct (Req_EM_T t 0) as [Z|Z].
  - lra.
  - split; [lra|]. split; [lra|]. intros k K.
    assert (E : k (scale3 (1 / t) g) = 1 / t * k g) by (destruct K as [-> | [-> | ->]]; reflexivity).
    rewrite E. replace (2 * (t / 2) * (1 / t * k g)) with (k g) by (field; exact Z).
    rewrite (L2 k K). replace (k (V 0 0 0)) with 0 by (destruct K as [-> | [-> | ->]]; reflexivity).
    rewrite Rplus_0_l. fold (cyc (moment k n c) ver).
    apply (cyc_shift _ _ (fun x => moment k n d x c)). intros a b Ha Hb.
    apply (moment_shift o e f); auto; apply H; apply in_close; assumption.
Qed.
