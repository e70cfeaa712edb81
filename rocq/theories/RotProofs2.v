(** Proofs about the angle and axis of a rotation, over the real numbers. *)
From Coq Require Import List Arith Bool Lia Reals Lra Psatz.
From Verif Require Import MatModel RotModel RotSpec RotProofs.
Import ListNotations.
Local Open Scope R_scope.

Notation rotR := (rot1 R 0 1 Rplus Rmult Rminus).
Lemma ndiv_some x y : y <> 0 -> ndiv x y = Some (x / y).
Proof. intros H. unfold ndiv. destruct (Req_EM_T y 0); [contradiction|reflexivity]. Qed.
Lemma ndiv_zero x : ndiv x 0 = None.
Proof. unfold ndiv. destruct (Req_EM_T 0 0); [reflexivity|congruence]. Qed.
Lemma nsqrt_sq x : nsqrt (x * x) = Some (Rabs x).
Proof. unfold nsqrt. destruct (Rlt_dec (x * x) 0); [nra|]. f_equal. apply sqrt_Rsqr_abs. Qed.
Lemma renorm_ok p q x y : p = q -> 0 <= q -> renorm p q x y = Some (x, y).
Proof.
  intros -> H. unfold renorm. destruct (Req_EM_T q 0) as [->|N]; [rewrite ndiv_zero; reflexivity|].
  rewrite ndiv_some by exact N. cbn [nbind]. replace (q / q) with (1 * 1) by (field; exact N). rewrite nsqrt_sq, Rabs_R1.
  rewrite !ndiv_some by lra. cbn [nbind]. f_equal. f_equal; field.
Qed.
Lemma abs_sign a x : Rabs a = Rabs x -> exists e, (e = 1 \/ e = -1) /\ a = e * x /\ (a = x -> e = 1).
Proof.
  intros H. destruct (Req_EM_T a x) as [->|N]; [exists 1; split; [auto|]; split; [ring|auto]|].
  exists (-1). split; [auto|]. split; [|tauto]. unfold Rabs in H. destruct (Rcase_abs a), (Rcase_abs x); lra.
Qed.
Lemma gtabs_spec x y : gtabs x y = true <-> Rabs x > Rabs y.
Proof. unfold gtabs. destruct (Rgt_dec (Rabs x) (Rabs y)); split; congruence || tauto. Qed.
Lemma abs_nonzero x y : Rabs x > Rabs y -> x <> 0.
Proof. intros H ->. rewrite Rabs_R0 in H. pose proof (Rabs_pos y). lra. Qed.
Lemma unit_rest x y z : x * x + y * y + z * z = 1 -> 0 <= 1 - x * x.
Proof. nra. Qed.
Ltac ent := unfold rot1, of_list; cbn [Nat.mul Nat.add nth].

Lemma axis2_ok x y z c s a b d : x * x + y * y + z * z = 1 -> 1 - c <> 0 -> Rabs a = Rabs x -> Rabs b = Rabs y -> Rabs d = Rabs z ->
  z <> 0 \/ Rabs x <> Rabs y ->
  exists e, (e = 1 \/ e = -1) /\ (a = x -> b = y -> d = z -> e = 1) /\ axis2 (rotR x y z c s) (1 - c) a b d = Some (e * x, e * y, e * z).
Proof.
  intros H Hv Ha Hb Hd Hz. unfold axis2.
  destruct (gtabs a b && gtabs a d) eqn:E1.
  - apply andb_true_iff in E1 as [E1 _]. apply gtabs_spec in E1. pose proof (abs_nonzero _ _ E1) as Na.
    destruct (abs_sign _ _ Ha) as (e & He & -> & He1). exists e. split; [exact He|]. split; [auto|].
    assert (e <> 0 /\ e * e = 1 /\ x <> 0) as (Ne & Ee & Nx).
    { destruct He as [->| ->]; repeat split; try lra; intros ->; apply Na; ring. }
    rewrite !ndiv_some by (repeat apply Rmult_integral_contrapositive_currified; lra). cbn [nbind]. ent.
    replace ((x * y * (1 - c) + z * s + (x * y * (1 - c) - z * s)) / (2 * (e * x) * (1 - c))) with (e * y).
    2: { apply Rmult_eq_reg_l with (2 * (e * x) * (1 - c)); [|repeat apply Rmult_integral_contrapositive_currified; lra].
         transitivity (e * e * (2 * x * y * (1 - c))); [ring|]. rewrite Ee. field. auto. }
    replace ((z * x * (1 - c) + y * s + (z * x * (1 - c) - y * s)) / (2 * (e * x) * (1 - c))) with (e * z).
    2: { apply Rmult_eq_reg_l with (2 * (e * x) * (1 - c)); [|repeat apply Rmult_integral_contrapositive_currified; lra].
         transitivity (e * e * (2 * x * z * (1 - c))); [ring|]. rewrite Ee. field. auto. }
    rewrite renorm_ok; [reflexivity| |]; replace (e * x * (e * x)) with (x * x) by (transitivity (e * e * (x * x)); [rewrite Ee|]; ring); [|nra].
    transitivity (e * e * (y * y + z * z)); [ring|]. rewrite Ee. lra.
  - destruct (gtabs b a && gtabs b d) eqn:E2.
    + apply andb_true_iff in E2 as [E2 _]. apply gtabs_spec in E2. pose proof (abs_nonzero _ _ E2) as Nb.
      destruct (abs_sign _ _ Hb) as (e & He & -> & He1). exists e. split; [exact He|]. split; [auto|].
      assert (e <> 0 /\ e * e = 1 /\ y <> 0) as (Ne & Ee & Ny).
      { destruct He as [->| ->]; repeat split; try lra; intros ->; apply Nb; ring. }
      rewrite !ndiv_some by (repeat apply Rmult_integral_contrapositive_currified; lra). cbn [nbind]. ent.
      replace ((x * y * (1 - c) + z * s + (x * y * (1 - c) - z * s)) / (2 * (e * y) * (1 - c))) with (e * x).
      2: { apply Rmult_eq_reg_l with (2 * (e * y) * (1 - c)); [|repeat apply Rmult_integral_contrapositive_currified; lra].
           transitivity (e * e * (2 * x * y * (1 - c))); [ring|]. rewrite Ee. field. auto. }
      replace ((y * z * (1 - c) - x * s + (y * z * (1 - c) + x * s)) / (2 * (e * y) * (1 - c))) with (e * z).
      2: { apply Rmult_eq_reg_l with (2 * (e * y) * (1 - c)); [|repeat apply Rmult_integral_contrapositive_currified; lra].
           transitivity (e * e * (2 * y * z * (1 - c))); [ring|]. rewrite Ee. field. auto. }
      rewrite renorm_ok; [reflexivity| |]; replace (e * y * (e * y)) with (y * y) by (transitivity (e * e * (y * y)); [rewrite Ee|]; ring); [|nra].
      transitivity (e * e * (x * x + z * z)); [ring|]. rewrite Ee. lra.
    + (* the last branch: the z component is not zero *)
      assert (z <> 0) as Nz.
      { destruct Hz as [?|Hz]; [assumption|]. intros ->. rewrite Rabs_R0 in Hd.
        apply andb_false_iff in E1, E2. rewrite <- !not_true_iff_false, !gtabs_spec in E1, E2. rewrite Ha, Hb, Hd in *.
        pose proof (Rabs_pos x). pose proof (Rabs_pos y). lra. }
      destruct (abs_sign _ _ Hd) as (e & He & -> & He1). exists e. split; [exact He|]. split; [auto|].
      assert (e <> 0 /\ e * e = 1) as (Ne & Ee) by (destruct He as [->| ->]; split; lra).
      rewrite !ndiv_some by (repeat apply Rmult_integral_contrapositive_currified; lra). cbn [nbind]. ent.
      replace ((z * x * (1 - c) + y * s + (z * x * (1 - c) - y * s)) / (2 * (e * z) * (1 - c))) with (e * x).
      2: { apply Rmult_eq_reg_l with (2 * (e * z) * (1 - c)); [|repeat apply Rmult_integral_contrapositive_currified; lra].
           transitivity (e * e * (2 * x * z * (1 - c))); [ring|]. rewrite Ee. field. auto. }
      replace ((y * z * (1 - c) - x * s + (y * z * (1 - c) + x * s)) / (2 * (e * z) * (1 - c))) with (e * y).
      2: { apply Rmult_eq_reg_l with (2 * (e * z) * (1 - c)); [|repeat apply Rmult_integral_contrapositive_currified; lra].
           transitivity (e * e * (2 * y * z * (1 - c))); [ring|]. rewrite Ee. field. auto. }
      rewrite renorm_ok; [reflexivity| |]; replace (e * z * (e * z)) with (z * z) by (transitivity (e * e * (z * z)); [rewrite Ee|]; ring); [|nra].
      transitivity (e * e * (x * x + y * y)); [ring|]. rewrite Ee. lra.
Qed.
(** with equal first components and no third one the last branch divides by zero *)
Lemma axis2_nan m v a b d : Rabs a = Rabs b -> d = 0 -> axis2 m v a b d = None.
Proof.
  intros H ->. unfold axis2.
  replace (gtabs a b) with false by (symmetry; rewrite <- not_true_iff_false, gtabs_spec; lra).
  replace (gtabs b a) with false by (symmetry; rewrite <- not_true_iff_false, gtabs_spec; lra). cbn [andb].
  replace (2 * 0 * v) with 0 by ring. rewrite ndiv_zero. reflexivity.
Qed.
Lemma last_norm e x y z : (e = 1 \/ e = -1) -> x * x + y * y + z * z = 1 ->
  nbind (nsqrt (e * x * (e * x) + e * y * (e * y) + e * z * (e * z))) (fun norm =>
    nbind (ndiv (e * x) norm) (fun kx => nbind (ndiv (e * y) norm) (fun ky => nbind (ndiv (e * z) norm) (fun kz => Some (kx, ky, kz))))) =
  Some (e * x, e * y, e * z).
Proof.
  intros He H. replace (e * x * (e * x) + e * y * (e * y) + e * z * (e * z)) with (1 * 1) by (destruct He as [->| ->]; lra).
  rewrite nsqrt_sq, Rabs_R1. cbn [nbind]. rewrite !ndiv_some by lra. cbn [nbind]. f_equal. f_equal; [f_equal|]; field.
Qed.
Lemma parts x y z c s : x * x + y * y + z * z = 1 -> let m := rotR x y z c s in
  m 2%nat 1%nat - m 1%nat 2%nat = 2 * s * x /\ m 0%nat 2%nat - m 2%nat 0%nat = 2 * s * y /\ m 1%nat 0%nat - m 0%nat 1%nat = 2 * s * z /\
  m 0%nat 0%nat + m 1%nat 1%nat + m 2%nat 2%nat - 1 = 2 * c /\
  m 0%nat 0%nat - c = x * x * (1 - c) /\ m 1%nat 1%nat - c = y * y * (1 - c) /\ m 2%nat 2%nat - c = z * z * (1 - c).
Proof. intros H m. unfold m. ent. repeat split; try ring. replace (z * z) with (1 - x * x - y * y) by lra. ring. Qed.
Lemma sn2_eq x y z s : x * x + y * y + z * z = 1 -> 0 <= s ->
  sqrt (2 * s * x * (2 * s * x) + 2 * s * y * (2 * s * y) + 2 * s * z * (2 * s * z)) = 2 * s.
Proof.
  intros H Hs. replace (2 * s * x * (2 * s * x) + 2 * s * y * (2 * s * y) + 2 * s * z * (2 * s * z)) with (Rsqr (2 * s)).
  - rewrite sqrt_Rsqr_abs. apply Rabs_right. lra.
  - unfold Rsqr. transitivity (4 * s * s * (x * x + y * y + z * z)); [rewrite H; ring|ring].
Qed.
Lemma sign_pos s x : 0 < s -> (if negative (2 * s * x) then - Rabs x else Rabs x) = x.
Proof.
  intros Hs. unfold negative. destruct (Rlt_dec (2 * s * x) 0) as [L|L].
  - rewrite Rabs_left by nra. ring.
  - rewrite Rabs_right by nra. reflexivity.
Qed.
(** the first axis: the axis itself, or its absolute values for half a turn *)
Lemma axis1_ok below x y z c s : x * x + y * y + z * z = 1 -> 1 - c <> 0 -> 0 <= s -> (below = true -> s <> 0) -> let m := rotR x y z c s in
  exists a b d, axis1 below m (2 * s * x) (2 * s * y) (2 * s * z) (2 * s) c (1 - c) = Some (a, b, d) /\
    Rabs a = Rabs x /\ Rabs b = Rabs y /\ Rabs d = Rabs z /\ (s <> 0 -> a = x /\ b = y /\ d = z).
Proof.
  intros H Hv Hs Hb m. destruct (parts x y z c s H) as (_ & _ & _ & _ & P1 & P2 & P3). fold m in P1, P2, P3.
  unfold axis1. destruct below.
  - specialize (Hb eq_refl). rewrite !ndiv_some by lra. cbn [nbind]. exists x, y, z.
    split; [|tauto]. f_equal. f_equal; [f_equal|]; field; exact Hb.
  - rewrite P1, P2, P3, !ndiv_some by exact Hv.
    assert (forall q, q * (1 - c) / (1 - c) = q) as Q by (intros q; field; exact Hv).
    rewrite !Q. cbn [nbind]. rewrite !nsqrt_sq. cbn [nbind]. do 3 eexists. split; [reflexivity|].
    assert (forall b q, Rabs (if b : bool then - Rabs q else Rabs q) = Rabs q) as Qa.
    { intros [|] q; [rewrite Rabs_Ropp|]; apply Rabs_Rabsolu. }
    split; [apply Qa|]. split; [apply Qa|]. split; [apply Qa|]. intros Ns. rewrite !sign_pos by lra. auto.
Qed.
Lemma ROTANGLE_ok none below x y z c s : x * x + y * y + z * z = 1 -> 1 - c <> 0 -> 0 <= s ->
  none (2 * s) (2 * c) = false -> (s = 0 -> below (2 * s) (2 * c) = false) -> z <> 0 \/ Rabs x <> Rabs y ->
  exists e, (e = 1 \/ e = -1) /\ (s <> 0 -> e = 1) /\ ROTANGLE none below (rotR x y z c s) = Turn (2 * s) (2 * c) (e * x) (e * y) (e * z).
Proof.
  intros H Hv Hs Hn Hb Hz. destruct (parts x y z c s H) as (P1 & P2 & P3 & P4 & _).
  unfold ROTANGLE. rewrite P1, P2, P3, P4, (sn2_eq x y z s H Hs), Hn.
  replace (2 * c / 2) with c by field.
  destruct (axis1_ok (below (2 * s) (2 * c)) x y z c s H Hv Hs) as (a & b & d & E1 & A1 & A2 & A3 & A4).
  { intros E ->. rewrite Hb in E by reflexivity. discriminate. }
  cbn zeta in E1. rewrite E1. cbn [nbind].
  destruct (axis2_ok x y z c s a b d H Hv A1 A2 A3 Hz) as (e & He & He1 & E2). rewrite E2. cbn [nbind].
  rewrite (last_norm e x y z He H). exists e. split; [exact He|]. split; [|reflexivity].
  intros Ns. destruct (A4 Ns) as (? & ? & ?). auto.
Qed.
Lemma ROTANGLE_nan none below x y z c s : x * x + y * y + z * z = 1 -> 1 - c <> 0 -> 0 <= s ->
  none (2 * s) (2 * c) = false -> (s = 0 -> below (2 * s) (2 * c) = false) -> z = 0 -> Rabs x = Rabs y ->
  ROTANGLE none below (rotR x y z c s) = NaN.
Proof.
  intros H Hv Hs Hn Hb Hz Hxy. destruct (parts x y z c s H) as (P1 & P2 & P3 & P4 & _).
  unfold ROTANGLE. rewrite P1, P2, P3, P4, (sn2_eq x y z s H Hs), Hn.
  replace (2 * c / 2) with c by field.
  destruct (axis1_ok (below (2 * s) (2 * c)) x y z c s H Hv Hs) as (a & b & d & E1 & A1 & A2 & A3 & A4).
  { intros E ->. rewrite Hb in E by reflexivity. discriminate. }
  cbn zeta in E1. rewrite E1. cbn [nbind]. rewrite axis2_nan; [reflexivity|congruence|].
  rewrite Hz, Rabs_R0 in A3. destruct (Req_EM_T d 0); [assumption|]. apply Rabs_no_R0 in n. contradiction.
Qed.
