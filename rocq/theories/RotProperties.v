(** C87: rotation matrices turn vectors, and rotation-angle finds the axis (exact arithmetic). *)
From Coq Require Import List Arith Bool Lia Field QArith Qcanon Reals Lra.
From Verif Require Import MatModel MatSpec MatProofs MatProofs2 RotModel RotSpec RotProofs RotProofs2.
Import ListNotations.
Open Scope nat_scope.

Section Any.
Variables (F : Type) (zero one : F) (add mul sub : F -> F -> F) (neg : F -> F) (div : F -> F -> F) (inv : F -> F) (sqrt : F -> F) (small : F -> bool).
Hypothesis fth : field_theory zero one add mul sub neg div inv (@eq F).
Add Field Fp : fth.
Hypothesis small_zero : small zero = true.
Notation ROT := (ROTATION_MATRIX F zero one add sub mul div sqrt small).
Notation AXIS := (ROTATION_AXIS F zero one neg).
Notation app3 := (app3 add mul). Notation prod3 := (prod3 add mul).
Infix "+" := add. Infix "*" := mul. Infix "-" := sub. Infix "/" := div.
(** the square root is one for the sum of the squares at hand *)
Definition rooted x y z := let q := x * x + y * y + z * z in sqrt q * sqrt q = q.

(** rotation-matrix about any axis turns every vector about the axis made one long *)
Theorem C87_turns : forall x y z c s R, rooted x y z -> ROT x y z c s = Some R ->
  exists n u v w, n <> zero /\ x = n * u /\ y = n * v /\ z = n * w /\ u * u + v * v + w * w = one /\
    forall p q r, app3 R (p, q, r) = turned one add sub mul u v w c s p q r.
Proof.
  intros x y z c s R Hq H. destruct (ROT_unit F zero one add mul sub neg div inv sqrt small fth x y z c s R H small_zero Hq)
    as (n & u & v & w & Hn & Hx & Hy & Hz & H1 & ->).
  exists n, u, v, w. repeat (split; [assumption|]). intros p q r. apply (rot1_app F zero one add mul sub neg div inv fth).
Qed.
(** the axis stays where it is *)
Theorem C87_axis : forall x y z c s R, rooted x y z -> ROT x y z c s = Some R -> app3 R (x, y, z) = (x, y, z).
Proof.
  intros x y z c s R Hq H. destruct (C87_turns x y z c s R Hq H) as (n & u & v & w & _ & -> & -> & -> & H1 & K). rewrite K.
  apply (unit_last F zero one add mul sub neg div inv fth) in H1. unfold turned. f_equal; [f_equal|]; ring [H1].
Qed.
(** the transposed matrix is the inverse, on both sides: lengths and angles are kept; and the determinant is one: no mirror image *)
Theorem C87_orthogonal : forall x y z c s R, c * c + s * s = one -> rooted x y z -> ROT x y z c s = Some R ->
  eq3 (prod3 R (flip R)) (unit3 zero one) /\ eq3 (prod3 (flip R) R) (unit3 zero one) /\ det3 add sub mul R = one.
Proof.
  intros x y z c s R Hc Hq H. destruct (ROT_unit F zero one add mul sub neg div inv sqrt small fth x y z c s R H small_zero Hq)
    as (n & u & v & w & Hn & _ & _ & _ & H1 & ->).
  destruct (rot1_orth F zero one add mul sub neg div inv fth u v w c s H1 Hc) as [K1 K2]. split; [exact K1|]. split; [exact K2|].
  apply (rot1_det F zero one add mul sub neg div inv fth); assumption.
Qed.
(** one turn after the other about one axis is the turn by the sum of the angles *)
Theorem C87_sum : forall x y z c1 s1 c2 s2 R1 R2 R, rooted x y z ->
  ROT x y z c1 s1 = Some R1 -> ROT x y z c2 s2 = Some R2 -> ROT x y z (c1 * c2 - s1 * s2) (s1 * c2 + c1 * s2) = Some R -> eq3 (prod3 R1 R2) R.
Proof.
  intros x y z c1 s1 c2 s2 R1 R2 R Hq H1 H2 H. unfold ROTATION_MATRIX in H1, H2, H. unfold rooted in Hq. cbn zeta in Hq.
  pose proof (ROT_unit F zero one add mul sub neg div inv sqrt small fth x y z c1 s1) as K. unfold ROTATION_MATRIX in K.
  set (n := sqrt (x * x + y * y + z * z)) in *. destruct (small n) eqn:En; [discriminate|].
  assert (n <> zero) as Hn by (intros E; rewrite E in En; congruence).
  injection H1 as <-. injection H2 as <-. injection H as <-.
  apply (rot1_add F zero one add mul sub neg div inv fth (x / n) (y / n) (z / n)).
  transitivity ((x * x + y * y + z * z) / (n * n)); [field; exact Hn|]. rewrite Hq. field. rewrite <- Hq.
  intros E. apply Hn. transitivity ((n * n) / n); [field; exact Hn|]. rewrite E. field. exact Hn.
Qed.
(** the named axes: :x, :y, :z and, against them, :-x, :-y, :-z *)
Definition named (a : axis) (negative : bool) : triple :=
  let e := if negative then neg one else one in
  match a with AX => (e, zero, zero) | AY => (zero, e, zero) | _ => (zero, zero, e) end.
Theorem C87_named : forall a negative c s p q r, a <> ANil -> let '(u, v, w) := named a negative in
  app3 (AXIS a negative c s) (p, q, r) = turned one add sub mul u v w c s p q r.
Proof.
  intros a negative c s p q r Ha. destruct a; [| | |congruence]; destruct negative; unfold named, turned, ROTATION_AXIS, RotSpec.app3, of_list;
    cbn [Nat.mul Nat.add nth]; (f_equal; [f_equal|]; ring).
Qed.
Notation elt := (elt zero). Notation len s v := (length (ar F s v)).
(** rotate-vector multiplies with the matrix of the named axis; in the plane, with that of the angle *)
Theorem C87_vector : forall v c sn a r (s : state F), a <> ANil -> 3 <= len s v -> 3 <= len s r ->
  let '(x, y, z) := app3 (AXIS a false c sn) (elt s v 0, elt s v 1, elt s v 2) in
  delivers zero r r 3 (fun i => nth i [x; y; z] zero) s (ROTVEC F add mul neg v c sn a r s).
Proof.
  intros v c sn a r s Ha Hv Hr. assert (match a with ANil => 2 | _ => 3 end = 3) as E by (destruct a; congruence).
  pose proof (ROTVEC_ok F zero add sub mul div neg sqrt v c sn a r s) as K. cbn zeta in K. rewrite E in K. specialize (K Hv Hr).
  unfold RotSpec.app3. destruct (ROTVEC F add mul neg v c sn a r s) as [x0 s0| |]; [|exact K|exact K].
  unfold delivers in *. destruct K as (K1 & K2 & K3 & K4 & K5). split; [exact K1|]. split; [exact K2|]. split; [exact K3|]. split; [|exact K5].
  intros i Hi. specialize (K4 i Hi). rewrite K4.
  destruct a; [| | |congruence]; unfold ROTATION_AXIS, of_list; cbn [Nat.mul Nat.add nth]; destruct i as [|[|[|i]]]; try lia; cbn [nth]; ring.
Qed.
Theorem C87_vector_2d : forall v c sn r (s : state F), 2 <= len s v -> 2 <= len s r ->
  delivers zero r r 2 (fun i => AXIS ANil false c sn i 0 * elt s v 0 + AXIS ANil false c sn i 1 * elt s v 1) s (ROTVEC F add mul neg v c sn ANil r s).
Proof.
  intros v c sn r s Hv Hr.
  pose proof (ROTVEC_ok F zero add sub mul div neg sqrt v c sn ANil r s Hv Hr) as K. cbn zeta in K.
  destruct (ROTVEC F add mul neg v c sn ANil r s) as [x0 s0| |]; [|exact K|exact K].
  unfold delivers in *. destruct K as (K1 & K2 & K3 & K4 & K5). split; [exact K1|]. split; [exact K2|]. split; [exact K3|]. split; [|exact K5].
  intros i Hi. specialize (K4 i Hi). rewrite K4.
  unfold ROTATION_AXIS, of_list; destruct i as [|[|i]]; try lia; cbn [Nat.mul Nat.add nth]; ring.
Qed.
(** rotate-matrix multiplies with the matrix of the named axis from the left (world) or from the right (local), in place or not *)
Theorem C87_matrix_partial : forall same m c sn a (negative worldp : bool) r (s : state F), a <> ANil ->
  rows m = 3 -> cols m = 3 -> rows r = 3 -> cols r = 3 -> fits s m -> fits s r -> (same = true -> r = m) ->
  let R := AXIS a negative c sn in let M := entry zero s m in
  fills zero r (fun i j => if worldp then prod3 R M i j else prod3 M R i j) s (ROTMAT F add mul neg same m c sn a negative worldp r s).
Proof. exact (ROTMAT_ok F zero one add mul sub neg div inv sqrt small fth). Qed.
(** in the plane: from the left *)
Theorem C87_matrix_2d_partial : forall m c sn r (s : state F), rows m = 2 -> cols m = 2 -> rows r = 2 -> cols r = 2 -> fits s m -> fits s r ->
  let R := AXIS ANil false c sn in let M := entry zero s m in
  fills zero r (fun i j => R i 0 * M 0 j + R i 1 * M 1 j) s (ROTMAT_2D F add sub mul m c sn r s).
Proof.
  intros m c sn r s Hm1 Hm2 Hr1 Hr2 Fm Fr R M. unfold fits in *. rewrite Hm1, Hm2 in Fm. rewrite Hr1, Hr2 in Fr. cbn [Nat.mul Nat.add] in Fm, Fr.
  unfold ROTMAT_2D.
  rewrite (bind_done _ _ _ _ _ _ (get_eq F zero (ent m) 0 s ltac:(lia))), (bind_done _ _ _ _ _ _ (get_eq F zero (ent m) 1 s ltac:(lia))),
    (bind_done _ _ _ _ _ _ (get_eq F zero (ent m) 2 s ltac:(lia))), (bind_done _ _ _ _ _ _ (get_eq F zero (ent m) 3 s ltac:(lia))).
  set (m0 := elt s (ent m) 0). set (m1 := elt s (ent m) 1). set (m2 := elt s (ent m) 2). set (m3 := elt s (ent m) 3).
  set (L := fun q => nth q [c * m0 - sn * m2; c * m1 - sn * m3; sn * m0 + c * m2; sn * m1 + c * m3] zero).
  pose proof (part_start F zero s s (ent r) L (fun q => q < 0) (fun q => 0 <= q) (fun _ => eq_refl) (fun q H => False_ind _ (Nat.nlt_0_r q H))) as P0.
  destruct (part_put F zero _ _ _ _ _ _ (fun q => q < 1) (fun q => 1 <= q) 0 P0) as (sa & Ea & Pa & _); [lia|intros; lia|intros; lia|].
  destruct (part_put F zero _ _ _ _ _ _ (fun q => q < 2) (fun q => 2 <= q) 1 Pa) as (sb & Eb & Pb & _); [lia|intros; lia|intros; lia|].
  destruct (part_put F zero _ _ _ _ _ _ (fun q => q < 3) (fun q => 3 <= q) 2 Pb) as (sc & Ec & Pc & _); [lia|intros; lia|intros; lia|].
  destruct (part_put F zero _ _ _ _ _ _ (fun q => q < 4) (fun q => 4 <= q) 3 Pc) as (sd & Ed & Pd & _); [lia|intros; lia|intros; lia|].
  unfold L in Ea at 1, Eb at 1, Ec at 1, Ed at 1. cbn [nth] in Ea, Eb, Ec, Ed.
  rewrite (bind_done _ _ _ _ _ _ Ea), (bind_done _ _ _ _ _ _ Eb), (bind_done _ _ _ _ _ _ Ec), (bind_done _ _ _ _ _ _ Ed).
  destruct Pd as (D1 & D2 & D3 & D4). split; [reflexivity|]. split; [exact D1|]. split; [exact D2|]. rewrite Hr1, Hr2. split; [|exact D4].
  intros i j Hi Hj. unfold entry at 1. rewrite Hr2, D3 by lia. unfold L, R, M, ROTATION_AXIS, of_list, entry. rewrite Hm2.
  destruct i as [|[|i]], j as [|[|j]]; try lia; cbn [Nat.mul Nat.add nth]; fold m0 m1 m2 m3; ring.
Qed.
End Any.

(** ** rotation-angle, over the real numbers *)
Open Scope R_scope.
Notation ROTR small := (ROTATION_MATRIX R 0 1 Rplus Rminus Rmult Rdiv sqrt small).
Lemma rot1_opp u v w c s : rotR u v w c s = rotR (- u) (- v) (- w) c (- s).
Proof. unfold rot1. f_equal. repeat (apply (f_equal2 cons); [ring|]). reflexivity. Qed.
Lemma normal x y z n : n = sqrt (x * x + y * y + z * z) -> n <> 0 -> 0 < n /\ x / n * (x / n) + y / n * (y / n) + z / n * (z / n) = 1.
Proof.
  intros -> Hn. assert (0 <= x * x + y * y + z * z) as Hq by nra. pose proof (sqrt_sqrt _ Hq) as Hs. pose proof (sqrt_pos (x * x + y * y + z * z)).
  split; [lra|]. set (n := sqrt _) in *. transitivity ((x * x + y * y + z * z) / (n * n)); [field; exact Hn|]. rewrite <- Hs. field. exact Hn.
Qed.
Lemma proper x y z n : 0 < n -> z <> 0 \/ Rabs x <> Rabs y -> z / n <> 0 \/ Rabs (x / n) <> Rabs (y / n).
Proof.
  intros Hn [Hz|Hxy].
  - left. intros E. apply Hz. replace z with (z / n * n) by (field; lra). rewrite E. ring.
  - right. intros E. apply Hxy. unfold Rdiv in E. rewrite !Rabs_mult in E. apply Rmult_eq_reg_r in E; [exact E|].
    apply Rabs_no_R0. apply Rinv_neq_0_compat. lra.
Qed.
(** rotation-angle recovers twice the sine and cosine, hence the angle, and the axis made one long; an angle with negative sine is
    taken the other way round.  [none] and [below] are any tests, the former failing here.  The full statement has no hypothesis
    about the axis: C87_angle_refuted. *)
Theorem C87_angle_partial : forall small none below x y z c s e M, small 0 = true -> c * c + s * s = 1 ->
  (0 < s /\ e = 1 \/ s < 0 /\ e = -1) -> ROTR small x y z c s = Some M -> none (2 * Rabs s) (2 * c) = false ->
  z <> 0 \/ Rabs x <> Rabs y ->
  let n := sqrt (x * x + y * y + z * z) in
  ROTANGLE none below M = Turn (2 * Rabs s) (2 * c) (e * x / n) (e * y / n) (e * z / n).
Proof.
  intros small none below x y z c s e M H0 Hc He H Hn Hz n. unfold ROTATION_MATRIX in H. fold n in H.
  destruct (small n) eqn:En; [discriminate|]. assert (n <> 0) as Hn0 by (intros E; rewrite E in En; congruence).
  destruct (normal x y z n eq_refl Hn0) as [Hpos Hu]. injection H as <-. pose proof (proper x y z n Hpos Hz) as Hp.
  change (ROTANGLE none below (rotR (x / n) (y / n) (z / n) c s) = Turn (2 * Rabs s) (2 * c) (e * x / n) (e * y / n) (e * z / n)).
  assert (1 - c <> 0) as Hv by (destruct He as [[? _]|[? _]]; nra).
  destruct He as [[Hs ->]|[Hs ->]].
  - rewrite Rabs_right in * by lra.
    destruct (ROTANGLE_ok none below (x / n) (y / n) (z / n) c s Hu Hv ltac:(lra) Hn ltac:(lra) Hp) as (e & _ & He & ->).
    rewrite He by lra. f_equal; field; exact Hn0.
  - rewrite Rabs_left in * by lra. rewrite rot1_opp.
    destruct (ROTANGLE_ok none below (- (x / n)) (- (y / n)) (- (z / n)) c (- s)) as (e & _ & He & ->).
    + rewrite <- Hu. ring.
    + exact Hv.
    + lra.
    + exact Hn.
    + lra.
    + rewrite !Rabs_Ropp. destruct Hp; [left; lra|right; assumption].
    + rewrite He by lra. f_equal; field; exact Hn0.
Qed.
(** half a turn: the axis or its opposite, which is the same turn *)
Theorem C87_half_partial : forall small none below x y z M, small 0 = true -> ROTR small x y z (-1) 0 = Some M ->
  none 0 (-2) = false -> below 0 (-2) = false -> z <> 0 \/ Rabs x <> Rabs y ->
  let n := sqrt (x * x + y * y + z * z) in
  exists e, (e = 1 \/ e = -1) /\ ROTANGLE none below M = Turn 0 (-2) (e * x / n) (e * y / n) (e * z / n).
Proof.
  intros small none below x y z M H0 H Hn Hb Hz n. unfold ROTATION_MATRIX in H. fold n in H.
  destruct (small n) eqn:En; [discriminate|]. assert (n <> 0) as Hn0 by (intros E; rewrite E in En; congruence).
  destruct (normal x y z n eq_refl Hn0) as [Hpos Hu]. injection H as <-. pose proof (proper x y z n Hpos Hz) as Hp.
  replace 0 with (2 * 0) in Hn, Hb by ring. replace (-2) with (2 * -1) in Hn, Hb by ring.
  destruct (ROTANGLE_ok none below (x / n) (y / n) (z / n) (-1) 0 Hu ltac:(lra) ltac:(lra) Hn ltac:(auto) Hp) as (e & He & _ & K).
  exists e. split; [exact He|]. etransitivity; [exact K|]. f_equal; field; exact Hn0.
Qed.
(** about an axis between x and y, rotation-angle divides by zero: for every such axis and every angle *)
Theorem C87_angle_refuted : forall small none below x y c s M, small 0 = true -> c * c + s * s = 1 -> 0 < s ->
  ROTR small x y 0 c s = Some M -> none (2 * s) (2 * c) = false -> Rabs x = Rabs y -> ROTANGLE none below M = NaN.
Proof.
  intros small none below x y c s M H0 Hc Hs H Hn Hxy. unfold ROTATION_MATRIX in H. set (n := sqrt (x * x + y * y + 0 * 0)) in *.
  destruct (small n) eqn:En; [discriminate|]. assert (n <> 0) as Hn0 by (intros E; rewrite E in En; congruence).
  destruct (normal x y 0 n eq_refl Hn0) as [Hpos Hu]. injection H as <-.
  apply (ROTANGLE_nan none below (x / n) (y / n) (0 / n) c s Hu); [nra|lra|exact Hn|lra|field; exact Hn0|].
  unfold Rdiv. rewrite !Rabs_mult, Hxy. reflexivity.
Qed.

(** ** Cases *)
Definition C87_small (x : R) : bool := if Rlt_dec (Rabs x) (1 / 100000) then true else false.
Lemma C87_small_zero : C87_small 0 = true.
Proof. unfold C87_small. rewrite Rabs_R0. destruct (Rlt_dec 0 (1 / 100000)); [reflexivity|lra]. Qed.
Lemma C87_sqrt9 : sqrt (1 * 1 + 2 * 2 + 2 * 2) = 3.
Proof. replace (1 * 1 + 2 * 2 + 2 * 2) with (3 * 3) by ring. apply sqrt_square. lra. Qed.
Example C87_ex_angle : exists M, ROTR C87_small 1 2 2 (3 / 5) (4 / 5) = Some M /\
  forall below, ROTANGLE (fun _ _ => false) below M = Turn (8 / 5) (6 / 5) (1 / 3) (2 / 3) (2 / 3).
Proof.
  assert (exists M, ROTR C87_small 1 2 2 (3 / 5) (4 / 5) = Some M) as [M E].
  { unfold ROTATION_MATRIX. rewrite C87_sqrt9. unfold C87_small. rewrite Rabs_right by lra.
    destruct (Rlt_dec 3 (1 / 100000)); [lra|]. eexists. reflexivity. }
  exists M. split; [exact E|]. intros below.
  etransitivity; [apply (C87_angle_partial C87_small (fun _ _ => false) below 1 2 2 (3 / 5) (4 / 5) 1 M C87_small_zero); [field|lra|exact E|reflexivity|lra]|].
  rewrite C87_sqrt9, Rabs_right by lra. f_equal; field.
Qed.
Example C87_ex_nan : exists M, ROTR C87_small 1 (-1) 0 (3 / 5) (4 / 5) = Some M /\
  forall below, ROTANGLE (fun _ _ => false) below M = NaN.
Proof.
  assert (exists M, ROTR C87_small 1 (-1) 0 (3 / 5) (4 / 5) = Some M) as [M E].
  { unfold ROTATION_MATRIX. replace (1 * 1 + -1 * -1 + 0 * 0) with 2 by ring. unfold C87_small.
    assert (1 < sqrt 2) by (rewrite <- sqrt_1; apply sqrt_lt_1; lra). rewrite Rabs_right by lra.
    destruct (Rlt_dec (sqrt 2) (1 / 100000)); [lra|]. eexists. reflexivity. }
  exists M. split; [exact E|]. intros below.
  apply (C87_angle_refuted C87_small (fun _ _ => false) below 1 (-1) (3 / 5) (4 / 5) M C87_small_zero); [field|lra|exact E|reflexivity|].
  rewrite Rabs_right, Rabs_left by lra. lra.
Qed.
Close Scope R_scope.
(** over the rationals: the axis (1 2 2) of length 3 and the angle with cosine 3/5 and sine 4/5 *)
Definition C87_rot := ROTATION_MATRIX Qc (Q2Qc 0) (Q2Qc 1) Qcplus Qcminus Qcmult Qcdiv (fun _ => Q2Qc 3) (fun x => Qeq_bool x 0).
Definition C87_q (x : Q) := Q2Qc x.
Example C87_ex_rooted : rooted Qc Qcplus Qcmult (fun _ => Q2Qc 3) (C87_q 1) (C87_q 2) (C87_q 2).
Proof. apply Qc_is_canon. vm_compute. reflexivity. Qed.
Example C87_ex_turn : match C87_rot (C87_q 1) (C87_q 2) (C87_q 2) (C87_q (3 # 5)) (C87_q (4 # 5)) with
  | Some R => let '(x, y, z) := app3 Qcplus Qcmult R (C87_q 9, C87_q 0, C87_q 0) in [this x; this y; this z]
  | None => [] end = [29 # 5; 28 # 5; -4]%Q.
Proof. vm_compute. reflexivity. Qed.
Example C87_ex_none : ROTATION_MATRIX Qc (Q2Qc 0) (Q2Qc 1) Qcplus Qcminus Qcmult Qcdiv (fun x => x) (fun x => Qeq_bool x 0) (C87_q 0) (C87_q 0) (C87_q 0) (C87_q 1) (C87_q 0) = None.
Proof. reflexivity. Qed.
(** memory: a 3 by 3 matrix, turned about :-y in the world, and locally; and the plane, where the local turn is made from the left, too *)
Definition C87_state (l : list (list Q)) : state Qc := St Qc (fun v => map Q2Qc (nth v l [])) [].

Definition C87_seen (v : nat) (o : res Qc matrix) : option (list Q) := match o with Done _ _ s => Some (map this (ar Qc s v)) | _ => None end.
Definition C87_m (v n : nat) : matrix := {| ent := v; rows := n; cols := n |}.
Example C87_ex_matrix : forall worldp,
  C87_seen 1 (ROTMAT Qc Qcplus Qcmult Qcopp false (C87_m 0 3) (C87_q 0) (C87_q 1) AY true worldp (C87_m 1 3)
    (C87_state [[1; 2; 3; 4; 5; 6; 7; 8; 9]; [0; 0; 0; 0; 0; 0; 0; 0; 0]]%Q))
  = Some (if worldp then [-7; -8; -9; 4; 5; 6; 1; 2; 3] else [3; 2; -1; 6; 5; -4; 9; 8; -7])%Q.
Proof. intros [|]; vm_compute; reflexivity. Qed.
(** (rotate-matrix m theta nil) ignores the fourth argument: the matrix ((1 0) (0 2)) turned by a right angle is not the product with the turn on the right *)
Theorem C87_matrix_2d_refuted : exists (s : state Qc) m c sn, rows m = 2 /\ cols m = 2 /\ fits s m /\
  let R := ROTATION_AXIS Qc (Q2Qc 0) (Q2Qc 1) Qcopp ANil false c sn in let M := entry (Q2Qc 0) s m in
  ~ fills (Q2Qc 0) m (fun i j => Qcplus (Qcmult (M i 0) (R 0 j)) (Qcmult (M i 1) (R 1 j))) s (ROTMAT_2D Qc Qcplus Qcminus Qcmult m c sn m s).
Proof.
  exists (C87_state [[1; 0; 0; 2]]%Q), (C87_m 0 2), (C87_q 0), (C87_q 1). split; [reflexivity|]. split; [reflexivity|]. split; [cbv; lia|].
  intros R M (_ & _ & _ & K & _). specialize (K 0 1 ltac:(cbv; lia) ltac:(cbv; lia)). apply (f_equal this) in K. vm_compute in K. discriminate K.
Qed.
(** a result of the wrong size is not refused: with a 2 by 2 result rotate-matrix writes beyond it *)
Theorem C87_matrix_refuted : exists (s : state Qc) m r c sn, rows m = 3 /\ cols m = 3 /\ rows r = 2 /\ cols r = 2 /\ fits s m /\ fits s r /\
  ROTMAT Qc Qcplus Qcmult Qcopp false m c sn AZ false true r s = Stray Qc.
Proof.
  exists (C87_state [[1; 0; 0; 0; 1; 0; 0; 0; 1]; [0; 0; 0; 0]]%Q), (C87_m 0 3), (C87_m 1 2), (C87_q 1), (C87_q 0).
  repeat (split; [first [reflexivity|cbv; lia]|]). vm_compute. reflexivity.
Qed.

Print Assumptions C87_turns.
Print Assumptions C87_axis.
Print Assumptions C87_orthogonal.
Print Assumptions C87_sum.
Print Assumptions C87_named.
Print Assumptions C87_vector.
Print Assumptions C87_vector_2d.
Print Assumptions C87_matrix_partial.
Print Assumptions C87_matrix_refuted.
Print Assumptions C87_matrix_2d_partial.
Print Assumptions C87_matrix_2d_refuted.
Print Assumptions C87_angle_partial.
Print Assumptions C87_half_partial.
Print Assumptions C87_angle_refuted.
