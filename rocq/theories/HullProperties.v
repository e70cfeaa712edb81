(** C103: quickhull gives the convex hull. *)
From Coq Require Import ZArith List Bool Lia.
From Verif Require Import HullModel HullSpec HullProofs.
Import ListNotations.
Open Scope Z_scope.

(** The result goes once around the points, counter-clockwise as seen against the normal, and its corners are among them, unless the coordinate used first is the same for all. *)
Theorem C103_quickhull_partial : forall (s : list point) (nv : point), planar nv s -> (exists p q, In p s /\ In q s /\ extream_coord nv p <> extream_coord nv q) ->
  exists h, quickhull s nv = Some h /\ hull_of nv s h.
Proof.
  intros s nv (Nz & pc & Pc) (p0 & q0 & Hp0 & Hq0 & Ne). assert (N : s <> []) by (intros ->; destruct Hp0).
  destruct (coord_dot nv) as (E & Ek). set (key := extream_coord nv) in *.
  assert (Np : 0 < dot nv nv) by (unfold dot in *; nia).
  destruct (least_ok key s N) as (s0 & E0 & I0 & M0). destruct (greatest_ok key s N) as (s1 & E1 & I1 & M1).
  assert (Lt : key s0 < key s1) by (pose proof (M0 p0 Hp0); pose proof (M0 q0 Hq0); pose proof (M1 p0 Hp0); pose proof (M1 q0 Hq0); lia).
  assert (Fl : forall f : point -> bool, (length (filter f s) <= length s)%nat) by (intros f; clear; induction s as [|x s IH]; cbn [filter length]; [lia | destruct (f x); cbn [length]; lia]).
  destruct (left_chain nv (length s) (left_points s s0 s1 nv) s0 s1 (Fl _)) as (c & Ec & C).
  destruct (right_chain nv (length s) (right_points s s0 s1 nv) s0 s1 (Fl _)) as (w & d & Ed & Dd & D); [intros p Hp; apply right_points_in in Hp; apply Hp|].
  unfold quickhull. fold key. rewrite E0, E1, Ec, Ed, Dd, delete1_head. eexists. split; [reflexivity|].
  assert (Eq : rev ((s0 :: c ++ [s1]) ++ rev d) = d ++ s1 :: rev c ++ [s0]).
  { rewrite rev_app_distr, rev_involutive. cbn [rev]. rewrite rev_app_distr. cbn [rev app]. reflexivity. }
  rewrite Eq. clear Eq.
  assert (Pl : forall p, In p (left_points s s0 s1 nv) -> 0 < 1 * side nv s0 s1 p) by (intros p Hp; apply left_points_in in Hp; apply Hp).
  assert (Pr : forall p, In p (right_points s s0 s1 nv) -> 0 < -1 * side nv s0 s1 p) by (intros p Hp; apply right_points_in in Hp; apply Hp).
  pose proof (chain_incl _ _ _ _ _ _ C) as Ic. pose proof (chain_incl _ _ _ _ _ _ D) as Id.
  assert (Inc : incl (d ++ s1 :: rev c ++ [s0]) s).
  { intros p Hp. rewrite in_app_iff in Hp. cbn [In] in Hp. rewrite in_app_iff in Hp. cbn [In] in Hp. destruct Hp as [H | [<- | [H | [<- | []]]]]; [|exact I1 | |exact I0].
    + apply Id, right_points_in in H. apply H.
    + apply in_rev, Ic, left_points_in in H. apply H. }
  split; [|split; [|split]].
  - apply nodup_app; [exact (chain_nodup _ _ _ _ _ _ D Pr) | constructor | ].
    + rewrite in_app_iff. intros [H | [H | []]]; [|subst s1; lia]. apply in_rev, Ic, Pl in H. rewrite side_end in H. lia.
    + apply nodup_app; [apply NoDup_rev; exact (chain_nodup _ _ _ _ _ _ C Pl) | repeat constructor; intros []|].
      intros p H [<- | []]. apply in_rev, Ic, Pl in H. rewrite side_start in H. lia.
    + intros p H. apply Id, Pr in H. cbn [In]. rewrite in_app_iff. intros [<- | [G | [<- | []]]]; [rewrite side_end in H; lia | | rewrite side_start in H; lia].
      apply in_rev, Ic, Pl in G. lia.
  - exact Inc.
  - assert (Flat : forall w, dot w nv = 0 -> forall p, In p s -> forall k, (forall q, In q (d ++ s1 :: rev c ++ [s0]) -> dot w q <= k) -> dot w p <= k).
    { intros w0 Wn p Hp k B.
      assert (B0 : dot w0 s0 <= k) by (apply B; rewrite in_app_iff; cbn [In]; rewrite in_app_iff; cbn [In]; tauto).
      assert (B1 : dot w0 s1 <= k) by (apply B; rewrite in_app_iff; cbn [In]; tauto).
      destruct (Z_lt_le_dec 0 (1 * side nv s0 s1 p)) as [G | G].
      { apply (chain_hull nv _ _ _ _ _ C Pl w0 k Wn); [|apply left_points_in; split; assumption]. intros q Hq. apply B. cbn [In] in *. rewrite in_app_iff in *. cbn [In] in *.
        rewrite in_app_iff, <- in_rev. cbn [In]. tauto. }
      destruct (Z_lt_le_dec 0 (-1 * side nv s0 s1 p)) as [G' | G'].
      { apply (chain_hull nv _ _ _ _ _ D Pr w0 k Wn); [|apply right_points_in; split; assumption]. intros q Hq. apply B. cbn [In] in *. rewrite in_app_iff in *. cbn [In] in *.
        rewrite in_app_iff. cbn [In]. tauto. }
      assert (Z0 : side nv s0 s1 p = 0) by lia. pose proof (M0 p Hp) as X0. pose proof (M1 p Hp) as X1.
      pose proof (on_line nv E w0 k s0 s1 p) as Id'. rewrite <- !Ek, Z0, !(Pc s0 I0), !(Pc s1 I1), !(Pc p Hp) in Id'. fold key in Id'.
      assert (0 <= (key s1 - key p) * (k - dot w0 s0)) by (apply Z.mul_nonneg_nonneg; lia).
      assert (0 <= (key p - key s0) * (k - dot w0 s1)) by (apply Z.mul_nonneg_nonneg; lia).
      assert (G2 : 0 <= (key s1 - key s0) * (k - dot w0 p)) by nia. apply Z.mul_nonneg_cancel_l in G2; lia. }
    intros p Hp w0 k B. pose proof (flatten_dot nv w0) as [F1 F2].
    assert (G : dot (flatten nv w0) p <= dot nv nv * k - dot w0 nv * pc).
    { apply Flat; [exact F1 | exact Hp|]. intros q Hq. rewrite F2. assert (Q : dot nv q = pc) by (apply Pc, Inc, Hq). rewrite Q. specialize (B q Hq). nia. }
    rewrite F2, (Pc p Hp) in G. nia.
  - pose proof (flatten_dot nv E) as [F1 F2].
    assert (F3 : forall x y, In x s -> In y s -> dot (flatten nv E) (minus y x) = dot nv nv * (key y - key x)).
    { intros x y Hx Hy. rewrite dot_minus, !F2, (Pc x Hx), (Pc y Hy), <- !Ek. fold key. ring. }
    assert (S0 : supported nv s s0 s1).
    { exists (flatten nv E). split; [exact F1|]. split; [intros q Hq; rewrite (F3 s0 q I0 Hq); specialize (M0 q Hq); nia | rewrite (F3 s0 s1 I0 I1); nia]. }
    assert (S1 : supported nv s s1 s0).
    { exists (flatten (neg nv) (neg E)). pose proof (flatten_neg nv E) as Fn. split; [rewrite Fn; lia|].
      split; [intros q Hq; rewrite Fn, (F3 s1 q I1 Hq); specialize (M1 q Hq); nia | rewrite Fn, (F3 s1 s0 I1 I0); nia]. }
    clear F1 F2 F3.
    intros a b p Ed' Hp.
    assert (K : In (a, b) (pairs ((s0 :: d) ++ s1 :: rev c ++ [s0]))).
    { unfold polygon_edges in Ed'. set (q := d ++ s1 :: rev c) in *. replace (d ++ s1 :: rev c ++ [s0]) with (q ++ [s0]) in * by (unfold q; rewrite <- app_assoc; reflexivity).
      change ((s0 :: d) ++ s1 :: rev c ++ [s0]) with (s0 :: d ++ (s1 :: rev c) ++ [s0]). rewrite app_assoc. fold q.
      assert (q <> []) by (unfold q; destruct d; discriminate). destruct q as [|x q]; [contradiction|]. cbn [firstn app] in Ed'. rewrite <- app_assoc in Ed'.
      change (x :: q ++ [s0] ++ [x]) with ((x :: q) ++ s0 :: [x]) in Ed'. apply pairs_app in Ed'. destruct Ed' as [Ed' | Ed'].
      - cbn [app pairs] in *. right. exact Ed'.
      - cbn [pairs] in Ed'. destruct Ed' as [Ed' | []]. cbn [app pairs]. left. exact Ed'. }
    apply pairs_app in K. destruct K as [K | K].
    + assert (-1 * side nv a b p <= 0); [|lia]. apply (chain_edges nv _ s _ _ _ _ D I0 I1) with (a := a) (b := b); auto.
      * intros q Hq. apply right_points_in in Hq. apply Hq.
      * intros q Hq X. apply right_points_in. auto.
    + assert (1 * side nv b a p <= 0); [|pose proof (side_flip nv a b p); lia]. apply (chain_edges nv _ s _ _ _ _ C I0 I1) with (a := b) (b := a); auto.
      * intros q Hq. apply left_points_in in Hq. apply Hq.
      * intros q Hq X. apply left_points_in. auto.
      * apply pairs_rev. cbn [rev]. rewrite rev_app_distr. exact K.
Qed.
(** The coordinate is well chosen: points that are not all on one line have hulls. *)
Theorem C103_quickhull_not_flat : forall (s : list point) (nv : point), planar nv s -> (exists a b c, In a s /\ In b s /\ In c s /\ side nv a b c <> 0) ->
  exists h, quickhull s nv = Some h /\ hull_of nv s h.
Proof.
  intros s nv Pl (a & b & c & Ha & Hb & Hc & S). apply C103_quickhull_partial; [exact Pl|]. destruct Pl as (Nz & pc & Pc).
  destruct (Z.eq_dec (extream_coord nv a) (extream_coord nv b)) as [E1 | E1]; [|exists a, b; auto].
  destruct (Z.eq_dec (extream_coord nv a) (extream_coord nv c)) as [E2 | E2]; [|exists a, c; auto].
  destruct S. apply (coord_good nv a b c Nz); [rewrite (Pc a Ha), (Pc b Hb); reflexivity | rewrite (Pc a Ha), (Pc c Hc); reflexivity | exact E1 | exact E2].
Qed.
(** In particular the polygon is convex: each corner is to the left of every side, or on it. *)
Theorem C103_convex : forall (s h : list point) (nv : point), planar nv s -> (exists a b c, In a s /\ In b s /\ In c s /\ side nv a b c <> 0) -> quickhull s nv = Some h ->
  forall a b p, In (a, b) (polygon_edges h) -> In p h -> 0 <= side nv a b p.
Proof.
  intros s h nv Pl X E a b p He Hp. destruct (C103_quickhull_not_flat s nv Pl X) as (h' & E' & _ & I & _ & H). assert (h' = h) by congruence. subst h'. apply H; auto.
Qed.
(** and the hull of the corners again has the same extent as the hull of the points, in every direction *)
Theorem C103_same_hull_partial : forall (s h : list point) (nv : point), planar nv s -> (exists p q, In p s /\ In q s /\ extream_coord nv p <> extream_coord nv q) -> quickhull s nv = Some h ->
  forall p, in_hull s p <-> in_hull h p.
Proof.
  intros s h nv Pl X E p. destruct (C103_quickhull_partial s nv Pl X) as (h' & E' & _ & I & H & _). assert (h' = h) by congruence. subst h'. split; intros G w k B; apply G.
  - intros q Hq. exact (H q Hq w k B).
  - intros q Hq. apply B, I, Hq.
Qed.

(** Points above each other give one of them, twice. *)
Theorem C103_refuted : exists s nv h, planar nv s /\ quickhull s nv = Some h /\ NoDup s /\ ~ hull_of nv s h.
Proof.
  exists [Pt 0 0 0; Pt 0 2 0; Pt 0 1 0], (Pt 0 0 1). eexists. split; [|split; [reflexivity|split]].
  - split; [discriminate|]. exists 0. intros p [<- | [<- | [<- | []]]]; reflexivity.
  - repeat constructor; cbn [In]; intros H; repeat (destruct H as [H | H]; [discriminate|]); destruct H.
  - intros (N & _). inversion N as [|? ? H]. apply H. left. reflexivity.
Qed.

Definition at_z (z : Z) (p : Z * Z) : point := Pt (fst p) (snd p) z.
Definition seven : list point := map (at_z 5) [(1, 1); (0, 0); (4, 0); (2, 3); (4, 4); (0, 4); (2, -1)].
Example C103_example : planar (Pt 0 0 1) seven /\ (exists a b c, In a seven /\ In b seven /\ In c seven /\ side (Pt 0 0 1) a b c <> 0) /\
  quickhull seven (Pt 0 0 1) = Some (map (at_z 5) [(0, 0); (2, -1); (4, 0); (4, 4); (0, 4)]).
Proof.
  split; [|split; [|reflexivity]].
  - split; [discriminate|]. exists 5. intros p H. cbn [seven map In] in H. repeat (destruct H as [<- | H]; [reflexivity|]). destruct H.
  - exists (Pt 1 1 5), (Pt 0 0 5), (Pt 4 0 5). cbn. repeat split; auto. discriminate.
Qed.
(** a leaning plane, x + y = 3, seen from its other side *)
Example C103_leaning : let s := [Pt 3 0 0; Pt 1 2 1; Pt 0 3 4; Pt 2 1 2; Pt 3 0 4] in
  planar (Pt (-1) (-1) 0) s /\ quickhull s (Pt (-1) (-1) 0) = Some [Pt 1 2 1; Pt 3 0 0; Pt 3 0 4; Pt 0 3 4].
Proof. split; [|reflexivity]. split; [discriminate|]. exists (-3). intros p H. cbn [In] in H. repeat (destruct H as [<- | H]; [reflexivity|]). destruct H. Qed.
(** a point in the middle of a side may be among the corners *)
Example C103_middle : quickhull (map (at_z 0) [(0, 0); (0, 2); (0, 1); (1, 1)]) (Pt 0 0 1) = Some (map (at_z 0) [(0, 0); (1, 1); (0, 2); (0, 1)]).
Proof. reflexivity. Qed.

Print Assumptions C103_quickhull_partial.
Print Assumptions C103_quickhull_not_flat.
Print Assumptions C103_convex.
Print Assumptions C103_same_hull_partial.
Print Assumptions C103_refuted.
