(** Proofs about rotation matrices over a field. *)
From Coq Require Import List Arith Bool Lia Field.
From Verif Require Import MatModel MatSpec MatProofs MatProofs2 RotModel RotSpec.
Import ListNotations.

Ltac all3 := let i := fresh in let j := fresh in intros [|[|[|i]]] [|[|[|j]]] ? ?; try lia.
Section Proofs.
Variables (F : Type) (zero one : F) (add mul sub : F -> F -> F) (neg : F -> F) (div : F -> F -> F) (inv : F -> F) (sqrt : F -> F) (small : F -> bool).
Hypothesis fth : field_theory zero one add mul sub neg div inv (@eq F).
Add Field Ff : fth.
Notation "0" := zero. Notation "1" := one. Infix "+" := add. Infix "*" := mul. Infix "-" := sub. Infix "/" := div.
Notation ROT := (ROTATION_MATRIX F zero one add sub mul div sqrt small).

(** the matrix for an axis of length one *)
Definition rot1 (x y z c s : F) : mat F :=
  let v := 1 - c in
  of_list F zero 3 [x * x * v + c; x * y * v - z * s; z * x * v + y * s;
                    x * y * v + z * s; y * y * v + c; y * z * v - x * s;
                    z * x * v - y * s; y * z * v + x * s; z * z * v + c].
Lemma ROT_unit x y z c s R : ROT x y z c s = Some R -> small 0 = true ->
  sqrt (x * x + y * y + z * z) * sqrt (x * x + y * y + z * z) = x * x + y * y + z * z ->
  exists n u v w, n <> 0 /\ x = n * u /\ y = n * v /\ z = n * w /\ u * u + v * v + w * w = 1 /\ R = rot1 u v w c s.
Proof.
  unfold ROTATION_MATRIX. intros H H0 Hn. set (n := sqrt (x * x + y * y + z * z)) in *.
  destruct (small n) eqn:En; [discriminate|]. assert (n <> 0) as Hn0 by (intros E; rewrite E in En; congruence).
  injection H as <-. exists n, (x / n), (y / n), (z / n). split; [exact Hn0|]. repeat (split; [field; exact Hn0|]). split; [|reflexivity].
  transitivity ((x * x + y * y + z * z) / (n * n)); [field; exact Hn0|]. rewrite Hn. field. rewrite <- Hn.
  intros E. apply Hn0. transitivity ((n * n) / n); [field; exact Hn0|]. rewrite E. field. exact Hn0.
Qed.
Lemma unit_last u v w : u * u + v * v + w * w = 1 -> w * w = 1 - u * u - v * v.
Proof. intros H. rewrite <- H. ring. Qed.
Lemma cs_last c s : c * c + s * s = 1 -> s * s = 1 - c * c.
Proof. intros H. rewrite <- H. ring. Qed.
Ltac ent := unfold prod3, flip, rot1, of_list; cbn [Nat.mul Nat.add nth].
Lemma rot1_app u v w c s p q r : app3 add mul (rot1 u v w c s) (p, q, r) = turned one add sub mul u v w c s p q r.
Proof. unfold app3, turned. ent. f_equal; [f_equal|]; ring. Qed.
Lemma rot1_orth u v w c s : u * u + v * v + w * w = 1 -> c * c + s * s = 1 ->
  eq3 (prod3 add mul (rot1 u v w c s) (flip (rot1 u v w c s))) (unit3 zero one) /\
  eq3 (prod3 add mul (flip (rot1 u v w c s)) (rot1 u v w c s)) (unit3 zero one).
Proof.
  intros H1%unit_last H2%cs_last. split; all3; ent; unfold unit3; cbn [Nat.eqb]; ring [H1 H2].
Qed.
Lemma rot1_det u v w c s : u * u + v * v + w * w = 1 -> c * c + s * s = 1 -> det3 add sub mul (rot1 u v w c s) = 1.
Proof. intros H1%unit_last H2%cs_last. unfold det3. ent. ring [H1 H2]. Qed.
Lemma rot1_add u v w c1 s1 c2 s2 : u * u + v * v + w * w = 1 ->
  eq3 (prod3 add mul (rot1 u v w c1 s1) (rot1 u v w c2 s2)) (rot1 u v w (c1 * c2 - s1 * s2) (s1 * c2 + c1 * s2)).
Proof. intros H1%unit_last. all3; ent; ring [H1]. Qed.

(** ** Turning a matrix in memory *)
Notation elt := (elt zero). Notation entry := (entry zero). Notation ar := (ar F). Notation state := (state F). Notation bind := (MatModel.bind F).
Notation part := (part F zero).
Ltac step E := rewrite (bind_done _ _ _ _ _ _ E).
Lemma copy_ok m r (s : state) : (9 <= length (ar s m))%nat -> (9 <= length (ar s r))%nat -> exists s1,
  for_ F 9 0 (fun i => bind (get F m i) (fun x => put F r i x)) s = Done F tt s1 /\
  part s s1 r (elt s m) (fun x => (x < 9)%nat) (fun x => (9 <= x)%nat).
Proof.
  intros Hm Hr.
  destruct (for_inv F (fun i s1 => part s s1 r (elt s m) (fun x => (x < i)%nat) (fun x => (i <= x)%nat))
    (fun i => bind (get F m i) (fun x => put F r i x)) 9 0 s) as (s1 & E & P).
  - intros i s1 _ Hi P. cbn [Nat.add] in Hi.
    rewrite (bind_done _ _ _ _ _ _ (part_get F zero _ _ _ _ _ _ m i P ltac:(intros _; apply le_n) ltac:(lia))).
    destruct (part_put F zero _ _ _ _ _ _ (fun x => (x < S i)%nat) (fun x => (S i <= x)%nat) i P) as (s2 & E2 & P2 & _);
      [lia|intros; lia|intros; lia|]. exists s2. auto.
  - apply part_start; [reflexivity|]. intros; lia.
  - exists s1. auto.
Qed.
(** one turn of the loop: two elements combined *)
Lemma pair_ok r p1 p2 c s1 s2 (s : state) : (p1 < length (ar s r))%nat -> (p2 < length (ar s r))%nat -> p1 <> p2 ->
  exists s', bind (get F r p1) (fun x => bind (get F r p2) (fun y => bind (get F r p1) (fun x' => bind (get F r p2) (fun y' =>
      bind (put F r p1 (x * c + y * s1)) (fun _ => put F r p2 (x' * s2 + y' * c)))))) s = Done F tt s' /\
    (forall v, v <> r -> ar s' v = ar s v) /\ length (ar s' r) = length (ar s r) /\
    forall q, elt s' r q = if q =? p1 then elt s r p1 * c + elt s r p2 * s1 else if q =? p2 then elt s r p1 * s2 + elt s r p2 * c else elt s r q.
Proof.
  intros H1 H2 Hn.
  pose proof (get_eq F zero r p1 s H1) as G1. pose proof (get_eq F zero r p2 s H2) as G2.
  step G1. step G2. step G1. step G2.
  set (L := fun q => if q =? p1 then elt s r p1 * c + elt s r p2 * s1 else elt s r p1 * s2 + elt s r p2 * c).
  pose proof (part_start F zero s s r L (fun _ => False) (fun _ => True) (fun _ => eq_refl) (fun _ H => H)) as P0.
  destruct (part_put F zero _ _ _ _ _ _ (fun q => q = p1) (fun q => q <> p1) p1 P0) as (sa & Ea & Pa & _); [lia|auto|auto|].
  destruct (part_put F zero _ _ _ _ _ _ (fun q => q = p1 \/ q = p2) (fun q => q <> p1 /\ q <> p2) p2 Pa) as (sb & Eb & Pb & _);
    [lia|intros; tauto|intros; tauto|].
  unfold L in Ea at 1. rewrite Nat.eqb_refl in Ea. unfold L in Eb at 1. destruct (Nat.eqb_spec p2 p1); [congruence|].
  step Ea. exists sb. split; [exact Eb|]. destruct Pb as (A1 & A2 & A3 & A4). split; [exact A1|]. split; [exact A2|].
  intros q. destruct (Nat.eqb_spec q p1) as [->|N1].
  - rewrite (A3 p1) by auto. unfold L. rewrite Nat.eqb_refl. reflexivity.
  - destruct (Nat.eqb_spec q p2) as [->|N2]; [|apply A4; auto].
    rewrite (A3 p2) by auto. unfold L. destruct (Nat.eqb_spec p2 p1); [congruence|]. reflexivity.
Qed.
(** the loop: three independent pairs *)
Lemma pairs_ok r (p1 p2 : nat -> nat) c s1 s2 (s : state) :
  (forall i, (i < 3)%nat -> (p1 i < length (ar s r))%nat /\ (p2 i < length (ar s r))%nat) ->
  (forall i j, (i < 3)%nat -> (j < 3)%nat -> p1 i <> p2 j) ->
  (forall i j, (i < 3)%nat -> (j < 3)%nat -> i <> j -> p1 i <> p1 j /\ p2 i <> p2 j) ->
  exists s', for_ F 3 0 (fun i => bind (get F r (p1 i)) (fun x => bind (get F r (p2 i)) (fun y => bind (get F r (p1 i)) (fun x' => bind (get F r (p2 i)) (fun y' =>
      bind (put F r (p1 i) (x * c + y * s1)) (fun _ => put F r (p2 i) (x' * s2 + y' * c))))))) s = Done F tt s' /\
    (forall v, v <> r -> ar s' v = ar s v) /\ length (ar s' r) = length (ar s r) /\
    (forall i, (i < 3)%nat -> elt s' r (p1 i) = elt s r (p1 i) * c + elt s r (p2 i) * s1 /\ elt s' r (p2 i) = elt s r (p1 i) * s2 + elt s r (p2 i) * c) /\
    (forall q, (forall i, (i < 3)%nat -> q <> p1 i /\ q <> p2 i) -> elt s' r q = elt s r q).
Proof.
  intros Hlen H12 Hinj.
  match goal with |- exists s', for_ F 3 0 ?body s = _ /\ _ =>
    destruct (for_inv F (fun k s' => (forall v, v <> r -> ar s' v = ar s v) /\ length (ar s' r) = length (ar s r) /\
      (forall i, (i < 3)%nat -> (i < k)%nat -> elt s' r (p1 i) = elt s r (p1 i) * c + elt s r (p2 i) * s1 /\ elt s' r (p2 i) = elt s r (p1 i) * s2 + elt s r (p2 i) * c) /\
      (forall q, (forall i, (i < 3)%nat -> (i < k)%nat -> q <> p1 i /\ q <> p2 i) -> elt s' r q = elt s r q)) body 3 0%nat s) as (s' & E & K1 & K2 & K3 & K4) end.
  - intros k s0 _ Hk (K1 & K2 & K3 & K4). cbn [Nat.add] in Hk. destruct (Hlen k Hk) as [L1 L2].
    destruct (pair_ok r (p1 k) (p2 k) c s1 s2 s0 ltac:(lia) ltac:(lia) (H12 k k Hk Hk)) as (s'' & E & V1 & V2 & V3).
    exists s''. split; [exact E|]. split; [intros v Hv; rewrite V1, K1 by exact Hv; reflexivity|]. split; [congruence|].
    assert (elt s0 r (p1 k) = elt s r (p1 k)) as Ek1.
    { apply K4. intros i Hi Hik. split; [apply Hinj; lia|]. apply H12; lia. }
    assert (elt s0 r (p2 k) = elt s r (p2 k)) as Ek2.
    { apply K4. intros i Hi Hik. split; [apply not_eq_sym, H12; lia|apply Hinj; lia]. }
    split.
    + intros i Hi Hik. rewrite !V3. destruct (Nat.eq_dec i k) as [->|Ni].
      * rewrite !Nat.eqb_refl. destruct (Nat.eqb_spec (p2 k) (p1 k)) as [E'|_]; [symmetry in E'; apply H12 in E'; [destruct E'|lia|lia]|].
        rewrite Ek1, Ek2. auto.
      * destruct (Hinj i k Hi Hk Ni) as [I1 I2]. pose proof (H12 i k Hi Hk). pose proof (H12 k i Hk Hi).
        destruct (Nat.eqb_spec (p1 i) (p1 k)); [congruence|]. destruct (Nat.eqb_spec (p1 i) (p2 k)); [congruence|].
        destruct (Nat.eqb_spec (p2 i) (p1 k)); [congruence|]. destruct (Nat.eqb_spec (p2 i) (p2 k)); [congruence|]. apply K3; lia.
    + intros q Hq. rewrite V3. destruct (Hq k Hk ltac:(lia)) as [Q1 Q2]. destruct (Nat.eqb_spec q (p1 k)); [congruence|].
      destruct (Nat.eqb_spec q (p2 k)); [congruence|]. apply K4. intros i Hi Hik. apply Hq; lia.
  - split; [reflexivity|]. split; [reflexivity|]. split; [intros; lia|reflexivity].
  - exists s'. split; [exact E|]. split; [exact K1|]. split; [exact K2|]. split; [intros i Hi; apply K3; exact Hi|]. intros q Hq. apply K4. auto.
Qed.
Lemma ROTMAT_ok same m c sn a (negative worldp : bool) r (s : state) : a <> ANil -> rows m = 3%nat -> cols m = 3%nat -> rows r = 3%nat -> cols r = 3%nat ->
  fits s m -> fits s r -> (same = true -> r = m) ->
  let R := ROTATION_AXIS F zero one neg a negative c sn in let M := entry s m in
  fills zero r (fun i j => if worldp then prod3 add mul R M i j else prod3 add mul M R i j) s (ROTMAT F add mul neg same m c sn a negative worldp r s).
Proof.
  intros Ha Hm1 Hm2 Hr1 Hr2 Fm Fr Hs R M. unfold fits in *. rewrite Hm1, Hm2 in Fm. rewrite Hr1, Hr2 in Fr. cbn [Nat.mul Nat.add] in Fm, Fr.
  unfold ROTMAT. rewrite Hm2. cbn [Nat.mul Nat.add].
  (* after the copy the result holds the matrix *)
  assert (exists s1, (if same then ret F tt else for_ F 9 0 (fun i => bind (get F (ent m) i) (fun x => put F (ent r) i x))) s = Done F tt s1 /\
    (forall v, v <> ent r -> ar s1 v = ar s v) /\ length (ar s1 (ent r)) = length (ar s (ent r)) /\
    (forall x, (x < 9)%nat -> elt s1 (ent r) x = elt s (ent m) x) /\ (forall x, (9 <= x)%nat -> elt s1 (ent r) x = elt s (ent r) x))
    as (s1 & E1 & C1 & C2 & C3 & C4).
  { destruct same.
    - rewrite (Hs eq_refl). exists s. auto.
    - destruct (copy_ok (ent m) (ent r) s Fm Fr) as (s1 & E & (P1 & P2 & P3 & P4)). exists s1. split; [exact E|]. split; [exact P1|]. split; [exact P2|].
      split; [|exact P4]. intros x Hx. apply P3; lia. }
  destruct (mat_axis F neg a negative worldp sn) as [[[k1 k2] t1] t2] eqn:Ea. step E1.
  assert (forall k, (k < 3)%nat -> forall i, (i < 3)%nat -> ((if worldp then k * 3 + i else i * 3 + k) < 9)%nat) as Hb by (intros; destruct worldp; lia).
  assert (k1 < k2 /\ k2 < 3)%nat as [Hk1 Hk2].
  { destruct a; [| | |congruence]; unfold mat_axis in Ea; destruct (xorb worldp negative); injection Ea as <- <- _ _; lia. }
  edestruct (pairs_ok (ent r) (fun i => if worldp then (k1 * 3 + i)%nat else (i * 3 + k1)%nat) (fun i => if worldp then (k2 * 3 + i)%nat else (i * 3 + k2)%nat) c t1 t2 s1)
    as (s2 & E2 & V1 & V2 & V3 & V4).
  - intros i Hi. rewrite C2. pose proof (Hb k1 ltac:(lia) i Hi). pose proof (Hb k2 ltac:(lia) i Hi). lia.
  - intros i j Hi Hj. destruct worldp; lia.
  - intros i j Hi Hj Hn. destruct worldp; lia.
  - eapply eq_ind_r with (P := fills zero r _ s); [|apply (bind_done F _ _ _ _ _ E2)].
    split; [reflexivity|]. split; [intros v Hv; rewrite V1, C1 by exact Hv; reflexivity|]. split; [congruence|]. split.
    + rewrite Hr1, Hr2. unfold MatSpec.entry at 1. rewrite Hr2.
      assert (forall i, (i < 3)%nat -> let P1 := (if worldp then k1 * 3 + i else i * 3 + k1)%nat in let P2 := (if worldp then k2 * 3 + i else i * 3 + k2)%nat in
        elt s2 (ent r) P1 = elt s (ent m) P1 * c + elt s (ent m) P2 * t1 /\ elt s2 (ent r) P2 = elt s (ent m) P1 * t2 + elt s (ent m) P2 * c) as W3.
      { intros i Hi P1 P2. destruct (V3 i Hi) as [W1 W2]. unfold P1, P2. rewrite W1, W2, !C3 by (apply Hb; lia). auto. }
      assert (forall q, (q < 9)%nat -> (forall i, (i < 3)%nat -> q <> (if worldp then k1 * 3 + i else i * 3 + k1)%nat /\ q <> (if worldp then k2 * 3 + i else i * 3 + k2)%nat) ->
        elt s2 (ent r) q = elt s (ent m) q) as W4.
      { intros q Hq Hqi. rewrite (V4 q Hqi). apply C3. exact Hq. }
      clear - W3 W4 Ha Ea fth Hm2.
      unfold R, M, prod3, ROTATION_AXIS, of_list, MatSpec.entry. rewrite Hm2.
      pose proof (W3 0%nat ltac:(lia)) as [A0 B0]. pose proof (W3 1%nat ltac:(lia)) as [A1 B1]. pose proof (W3 2%nat ltac:(lia)) as [A2 B2].
      destruct a; [| | |congruence]; destruct worldp, negative; cbn [mat_axis xorb] in Ea; injection Ea as <- <- <- <-;
        cbn [Nat.mul Nat.add] in *; all3; cbn [Nat.mul Nat.add nth];
        first [rewrite A0; ring|rewrite B0; ring|rewrite A1; ring|rewrite B1; ring|rewrite A2; ring|rewrite B2; ring|
               rewrite W4 by (first [lia|intros [|[|[|i]]] Hi; lia]); ring].
    + rewrite Hr1, Hr2. cbn [Nat.mul Nat.add]. intros x Hx. rewrite V4; [apply C4; exact Hx|].
      intros i Hi. pose proof (Hb k1 ltac:(lia) i Hi). pose proof (Hb k2 ltac:(lia) i Hi). lia.
Qed.
End Proofs.
