(** C86: linear equations, inverses and determinants by LU decomposition, over any field (exact arithmetic). *)
From Coq Require Import List Arith Bool Lia Field QArith Qcanon Qabs.
From Verif Require Import MatModel MatSpec MatProofs LuModel LuSpec LuProofs LuProofs2 LuProofs3.
Import ListNotations.
Open Scope nat_scope.

Section Any.
Variables (F : Type) (zero one : F) (add mul sub : F -> F -> F) (neg : F -> F) (div : F -> F -> F) (inv : F -> F).
Hypothesis fth : field_theory zero one add mul sub neg div inv (@eq F).
(** the comparison of absolute values is arbitrary (any choice of pivots); zero counts as too small for a pivot *)
Variables (gt_abs : F -> F -> bool) (tiny : F -> bool).
Hypothesis tiny_zero : tiny zero = true.
Notation decompose := (decompose F one sub mul div gt_abs tiny). Notation elt := (elt zero). Notation len s v := (length (ar F s v)).
Notation solves := (solves zero add mul). Notation singular := (singular zero add mul).

(** lu-decompose returns a permutation *)
Theorem C86_permutation : forall A n a p, decompose A n = Some (a, p) -> perm n p.
Proof. intros A n a p H. apply (decompose_ok F zero one add mul sub neg div inv fth gt_abs tiny tiny_zero) in H. apply H. Qed.

(** lu-solve on what lu-decompose made finds the one solution, for every right side, and changes nothing but the result *)
Theorem C86_solve : forall A n a p b x (s : state F), decompose A n = Some (a, p) -> len s b = n -> len s x = n -> b <> x ->
  exists s', LU_SOLVE F sub mul a p n b x s = Done F x s' /\ (forall v, v <> x -> ar F s' v = ar F s v) /\ len s' x = n /\
    solves n A (elt s' x) (elt s b) /\ forall z, solves n A z (elt s b) -> forall i, i < n -> z i = elt s' x i.
Proof.
  intros A n a p b x s H Hb Hx Hne. apply (decompose_ok F zero one add mul sub neg div inv fth gt_abs tiny tiny_zero) in H.
  destruct (LU_SOLVE_ok F zero one add mul sub neg div inv fth A a p n b x s H Hb Hx Hne) as (s' & E & [O1 O2] & S1).
  exists s'. split; [exact E|]. split; [exact O1|]. split; [congruence|]. split; [exact S1|].
  intros z Hz. apply (INV_unique F zero one add mul sub neg div inv fth n A a p z (elt s' x) H).
  intros i Hi. rewrite (Hz i Hi), (S1 i Hi). reflexivity.
Qed.
(** simultaneous-equation: the one solution, or an error *)
Theorem C86_equation : forall A n b x (s : state F), len s b = n -> len s x = n -> b <> x ->
  match simultaneous_equation F one sub mul div gt_abs tiny A n b x s with
  | Done _ r s' => r = x /\ (forall v, v <> x -> ar F s' v = ar F s v) /\ solves n A (elt s' x) (elt s b) /\
      forall z, solves n A z (elt s b) -> forall i, i < n -> z i = elt s' x i
  | Error _ => decompose A n = None
  | Stray _ => False
  end.
Proof.
  intros A n b x s Hb Hx Hne. unfold simultaneous_equation. destruct (decompose A n) as [[a p]|] eqn:E; [|reflexivity].
  destruct (C86_solve A n a p b x s E Hb Hx Hne) as (s' & Es & K1 & _ & K2 & K3). rewrite Es. auto.
Qed.
(** inverse-matrix: an inverse from both sides, or 'degenerated.  The three vectors are those it makes itself. *)
Theorem C86_inverse : forall A n vec rvec res (s : state F), vec <> rvec -> vec <> res -> rvec <> res ->
  len s vec = n -> (forall i, i < n -> elt s vec i = zero) -> len s rvec = n -> len s res = n * n ->
  match inverse_matrix F zero one sub mul div gt_abs tiny A n vec rvec res s with
  | Done _ true s' => let B := fun i j => elt s' res (i * n + j) in inverse_of zero one add mul n A B /\ inverse_of zero one add mul n B A /\
      (forall v, v <> vec -> v <> rvec -> v <> res -> ar F s' v = ar F s v)
  | Done _ false s' => decompose A n = None /\ s' = s
  | Error _ | Stray _ => False
  end.
Proof.
  intros A n vec rvec res s N1 N2 N3 L1 Z L2 L3. destruct (decompose A n) as [[a p]|] eqn:E.
  - destruct (inverse_ok F zero one add mul sub neg div inv fth gt_abs tiny tiny_zero A n vec rvec res s a p E N1 N2 N3 L1 Z L2 L3)
      as (s' & Es & K1 & _ & K2). rewrite Es. cbn zeta.
    destruct (inverse_both F zero one add mul sub neg div inv fth gt_abs tiny tiny_zero A n a p _ E K2) as [I1 I2]. auto.
  - unfold inverse_matrix. rewrite E. cbn. auto.
Qed.
(** a singular matrix is always refused *)
Theorem C86_singular : forall A n, singular n A -> decompose A n = None.
Proof.
  intros A n H. destruct (decompose A n) as [[a p]|] eqn:E; [|reflexivity].
  destruct (decompose_regular F zero one add mul sub neg div inv fth gt_abs tiny tiny_zero n A a p E H).
Qed.
(** The full statement is that only singular matrices are refused.  It is false for the bound 1e-10 of the code
    (C86_regular_refuted); it holds when only zero is too small and the comparison tells zero from other numbers. *)
Theorem C86_regular_partial : (forall x, tiny x = true -> x = zero) -> (forall x, x <> zero -> gt_abs x zero = true) ->
  (forall x y, gt_abs x y = true -> x <> zero) -> (forall x : F, x = zero \/ x <> zero) ->
  forall A n, decompose A n = None -> singular n A.
Proof.
  intros H1 H2 H3 H4 A n. apply (decompose_none F zero one add mul sub neg div inv fth gt_abs tiny tiny_zero n A H1 H2 H3 H4).
Qed.
(** The full statement is D A = lu-determinant; it is false (C86_determinant_refuted).  It holds up to the determinant of the
    permutation, which is 1 or -1. *)
Theorem C86_determinant_partial : forall n D A a p, determinant zero one add mul neg n D -> decompose A n = Some (a, p) ->
  let sg := D (fun i j => unit_matrix zero one (p i) j) in (sg = one \/ sg = neg one) /\ D A = mul sg (LU_DETERMINANT F one mul div a p n).
Proof.
  intros n D A a p HD H. exact (lu_determinant_ok F zero one add mul sub neg div inv fth gt_abs tiny tiny_zero n D HD A a p H).
Qed.
End Any.

(** ** The rational numbers, with the comparison and the bound of the code *)
Definition C86_gt (x y : Qc) : bool := negb (Qle_bool (Qabs x) (Qabs y)).
Definition C86_tiny (x : Qc) : bool := negb (Qle_bool (1 # 10000000000) (Qabs x)).
Definition C86_lu (A : nat -> nat -> Qc) (n : nat) := decompose Qc (Q2Qc 1) Qcminus Qcmult Qcdiv C86_gt C86_tiny A n.
Definition C86_of (rows : list (list Q)) (i j : nat) : Qc := Q2Qc (nth j (nth i rows []) 0%Q).
Definition C86_st (vs : list (list Q)) : state Qc := St Qc (fun v => map Q2Qc (nth v vs [])) [].
Definition C86_seen {A} (v : nat) (o : res Qc A) : option (list Q) := match o with Done _ _ s => Some (map this (ar Qc s v)) | _ => None end.

Example C86_ex_tiny : C86_tiny (Q2Qc 0) = true.
Proof. reflexivity. Qed.
Definition C86_A := C86_of [[0; 1; 2]; [1; 1; 1]; [2; 0; 4]]%Q.
Example C86_ex_decompose : match C86_lu C86_A 3 with Some (_, p) => Some (p 0, p 1, p 2) | None => None end = Some (2, 1, 0).
Proof. vm_compute. reflexivity. Qed.
Example C86_ex_equation :
  C86_seen 1 (simultaneous_equation Qc (Q2Qc 1) Qcminus Qcmult Qcdiv C86_gt C86_tiny C86_A 3 0 1 (C86_st [[8; 6; 14]; [0; 0; 0]]%Q))
  = Some [1; 2; 3]%Q.
Proof. vm_compute. reflexivity. Qed.
Example C86_ex_inverse :
  C86_seen 2 (inverse_matrix Qc (Q2Qc 0) (Q2Qc 1) Qcminus Qcmult Qcdiv C86_gt C86_tiny (C86_of [[0; 1]; [2; 4]]%Q) 2 0 1 2 (C86_st [[0; 0]; [0; 0]; [0; 0; 0; 0]]%Q))
  = Some [-2; 1 # 2; 1; 0]%Q.
Proof. vm_compute. reflexivity. Qed.
Example C86_ex_singular : C86_lu (C86_of [[1; 2]; [2; 4]]%Q) 2 = None /\ singular (Q2Qc 0) Qcplus Qcmult 2 (C86_of [[1; 2]; [2; 4]]%Q).
Proof.
  split; [vm_compute; reflexivity|]. exists (fun i => match i with 0 => Q2Qc (-2) | _ => Q2Qc 1 end). split.
  - exists 1. split; [lia|]. intros H. apply (f_equal this) in H. vm_compute in H. discriminate H.
  - intros [|[|i]] Hi; try lia; apply Qc_is_canon; vm_compute; reflexivity.
Qed.
(** the determinant of 2 by 2 matrices is one in the sense of the specification *)
Definition C86_D (A : mat Qc) : Qc := Qcminus (Qcmult (A 0 0) (A 1 1)) (Qcmult (A 0 1) (A 1 0)).
Lemma C86_ex_determinant : determinant (Q2Qc 0) (Q2Qc 1) Qcplus Qcmult Qcopp 2 C86_D.
Proof.
  split; [|split; [|split]].
  - intros A B H. unfold C86_D. rewrite !H by lia. reflexivity.
  - intros A [|[|k]] [|[|l]] Hk Hl Hn; try lia; unfold C86_D, swap_rows; cbn [Nat.eqb]; ring.
  - intros A [|[|k]] c [|[|l]] Hk Hl Hn; try lia; unfold C86_D, add_row; cbn [Nat.eqb]; ring.
  - intros A H. unfold C86_D. rewrite (H 1 0) by lia. cbn [diagonal]. change (Q2Qc 1) with 1%Qc. ring.
Qed.

(** lu-determinant forgets the sign of the permutation *)
Theorem C86_determinant_refuted : exists A a p, C86_lu A 2 = Some (a, p) /\
  LU_DETERMINANT Qc (Q2Qc 1) Qcmult Qcdiv a p 2 <> C86_D A /\ C86_D A = Qcopp (LU_DETERMINANT Qc (Q2Qc 1) Qcmult Qcdiv a p 2).
Proof.
  set (A := C86_of [[0; 1]; [2; 3]]%Q). destruct (C86_lu A 2) as [[a p]|] eqn:E; [|vm_compute in E; discriminate E].
  exists A, a, p. split; [exact E|].
  assert (this (LU_DETERMINANT Qc (Q2Qc 1) Qcmult Qcdiv a p 2) = 2%Q) as H.
  { assert (match C86_lu A 2 with Some (a, p) => this (LU_DETERMINANT Qc (Q2Qc 1) Qcmult Qcdiv a p 2) | None => 0%Q end = 2%Q) as K
      by (vm_compute; reflexivity). rewrite E in K. exact K. }
  split.
  - intros H2. rewrite H2 in H. vm_compute in H. discriminate H.
  - apply Qc_is_canon. unfold Qcopp. cbn [this]. rewrite H. vm_compute. reflexivity.
Qed.
(** a matrix with an inverse is refused when its elements are small *)
Theorem C86_regular_refuted : exists A, C86_lu A 1 = None /\ ~ singular (Q2Qc 0) Qcplus Qcmult 1 A.
Proof.
  exists (C86_of [[1 # 100000000000]]%Q). split; [vm_compute; reflexivity|]. intros (z & (i & Hi & Hz) & H).
  apply Hz. assert (i = 0) as -> by lia. specialize (H 0 ltac:(lia)). unfold row_times in H. cbn [sum] in H.
  change (C86_of [[1 # 100000000000]]%Q 0 0) with (Q2Qc (1 # 100000000000)) in H.
  transitivity (Qcmult (Q2Qc 100000000000) (Qcplus (Q2Qc 0) (Qcmult (Q2Qc (1 # 100000000000)) (z 0)))).
  - assert (Qcmult (Q2Qc 100000000000) (Q2Qc (1 # 100000000000)) = Q2Qc 1) as E by (apply Qc_is_canon; vm_compute; reflexivity).
    change (Q2Qc 0) with 0%Qc. change (Q2Qc 1) with 1%Qc in E. rewrite Qcplus_0_l, Qcmult_assoc, E, Qcmult_1_l. reflexivity.
  - rewrite H. change (Q2Qc 0) with 0%Qc. ring.
Qed.
(** lu-solve with the right side as its result is wrong when rows were exchanged *)
Theorem C86_solve_in_place_refuted : exists A a p (s : state Qc), C86_lu A 2 = Some (a, p) /\ length (ar Qc s 0) = 2 /\
  match LU_SOLVE Qc Qcminus Qcmult a p 2 0 0 s with
  | Done _ _ s' => ~ solves (Q2Qc 0) Qcplus Qcmult 2 A (MatSpec.elt (Q2Qc 0) s' 0) (MatSpec.elt (Q2Qc 0) s 0)
  | _ => False
  end.
Proof.
  set (A := C86_of [[0; 1]; [1; 0]]%Q). destruct (C86_lu A 2) as [[a p]|] eqn:E; [|vm_compute in E; discriminate E].
  exists A, a, p, (C86_st [[5; 7]]%Q). split; [exact E|]. split; [reflexivity|].
  assert (match C86_lu A 2 with Some (a, p) => C86_seen 0 (LU_SOLVE Qc Qcminus Qcmult a p 2 0 0 (C86_st [[5; 7]]%Q)) | None => None end
    = Some [7; 7]%Q) as K by (vm_compute; reflexivity).
  rewrite E in K. destruct (LU_SOLVE Qc Qcminus Qcmult a p 2 0 0 (C86_st [[5; 7]]%Q)) as [r s'| |]; try discriminate K.
  cbn [C86_seen] in K. injection K as K. intros H. specialize (H 0 ltac:(lia)). unfold row_times, MatSpec.elt in H.
  destruct (ar Qc s' 0) as [|u [|v [|w l]]]; try discriminate K. injection K as K1 K2. cbn [sum nth] in H.
  apply (f_equal this) in H. change (this (nth 0 (ar Qc (C86_st [[5; 7]]%Q) 0) (Q2Qc 0))) with (5)%Q in H.
  assert (u = Q2Qc 7) as -> by (apply Qc_is_canon; rewrite K1; reflexivity). assert (v = Q2Qc 7) as -> by (apply Qc_is_canon; rewrite K2; reflexivity).
  vm_compute in H. discriminate H.
Qed.

Print Assumptions C86_permutation.
Print Assumptions C86_solve.
Print Assumptions C86_equation.
Print Assumptions C86_inverse.
Print Assumptions C86_singular.
Print Assumptions C86_regular_partial.
Print Assumptions C86_regular_refuted.
Print Assumptions C86_determinant_partial.
Print Assumptions C86_determinant_refuted.
Print Assumptions C86_solve_in_place_refuted.
