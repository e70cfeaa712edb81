(** C85: the vector and matrix functions with a result argument compute from the values the operands had at the call, also
    when the result is one of the operands.  The arithmetic is left open: nothing is assumed about it, so the statements hold
    for floating point as it is. *)
From Coq Require Import List Arith Bool Lia ZArith.
From Verif Require Import MatModel MatSpec MatProofs MatProofs2.
Import ListNotations.

Section Any.
Variables (F : Type) (zero one : F) (add sub mul div : F -> F -> F) (neg sqrt : F -> F).
Notation elt := (elt zero). Notation len s v := (length (ar F s v)). Notation entry := (entry zero). Notation dot := (dot zero add mul).

(** Any of the numbers a, b, r may be equal: the call may name the same vector twice. *)
Theorem C85_plus : forall a b r (s : state F), len s a = len s b -> len s r = len s a ->
  delivers zero r r (len s a) (fun i => add (elt s a i) (elt s b i)) s (VPLUS F add a b r s).
Proof. apply VPLUS_ok. Qed.
Theorem C85_minus : forall a b r (s : state F), len s a = len s b -> len s r = len s a ->
  delivers zero r r (len s a) (fun i => sub (elt s a i) (elt s b i)) s (VMINUS F sub a b r s).
Proof. apply VMINUS_ok. Qed.
Theorem C85_negate : forall a r (s : state F), len s r = len s a ->
  delivers zero r r (len s a) (fun i => neg (elt s a i)) s (VNEGATE F neg a r s).
Proof. apply VNEGATE_ok. Qed.
Theorem C85_scale : forall c a r (s : state F), len s r = len s a ->
  delivers zero r r (len s a) (fun i => mul c (elt s a i)) s (SCALEVEC F mul c a r s).
Proof. apply SCALEVEC_ok. Qed.
Theorem C85_midpoint : forall p a b r (s : state F), len s a = len s b -> len s r = len s a ->
  delivers zero r r (len s a) (fun i => add (mul (elt s a i) (sub one p)) (mul (elt s b i) p)) s (MIDPOINT F one add sub mul p a b r s).
Proof. apply MIDPOINT_ok. Qed.
Theorem C85_normalize : forall a r (s : state F), len s r = len s a ->
  delivers zero r r (len s a) (fun i => div (elt s a i) (sqrt (dot (len s a) (elt s a) (elt s a)))) s
    (VNORMALIZE F zero add mul div sqrt a r s).
Proof. apply VNORMALIZE_ok. Qed.
Theorem C85_direction : forall a b r (s : state F), len s a = len s b -> len s r = len s a ->
  let d := fun i => sub (elt s b i) (elt s a i) in
  delivers zero r r (len s a) (fun i => div (d i) (sqrt (dot (len s a) d d))) s (VDIRECTION F zero add sub mul div sqrt a b r s).
Proof. apply VDIRECTION_ok. Qed.
(** (v++ a p1 p2 ...): the sum is taken from the last argument to the first, into a vector of its own *)
Theorem C85_sum : forall a ps r (s : state F), ps <> [] -> len s r = len s a ->
  (forall p, In p ps -> len s p = len s a /\ p <> r) ->
  delivers zero r r (len s a) (total zero add s a (rev ps)) s (VPLUSPLUS F add a ps r s).
Proof. apply VPLUSPLUS_ok. Qed.
(** The full statement has no hypotheses r <> a, r <> b: C85_cross_refuted. *)
Theorem C85_cross_partial : forall a b r (s : state F), len s a = 3 -> len s b = 3 -> len s r = 3 -> r <> a -> r <> b ->
  let c := fun i j => sub (mul (elt s a i) (elt s b j)) (mul (elt s a j) (elt s b i)) in
  delivers zero r r 3 (fun i => match i with 0 => c 1 2 | 1 => c 2 0 | _ => c 0 1 end) s (VCROSSPRODUCT F sub mul a b r s).
Proof. apply VCROSSPRODUCT_ok. Qed.
(** The full statement is without the last hypothesis: C85_mtimes_refuted.  The result may be the second operand, or the first
    if the product has as many columns as it and the second is stored elsewhere. *)
Theorem C85_mtimes_partial : forall A B R (s : state F), fits s A -> fits s B -> fits s R ->
  cols A = rows B -> rows R = rows A -> cols R = cols B ->
  (ent R = ent A -> cols A = cols R /\ ent R <> ent B) ->
  fills zero R (fun i j => dot (cols A) (entry s A i) (fun k => entry s B k j)) s (MATTIMES F zero add mul A B R s).
Proof. apply MATTIMES_ok. Qed.
(** (transform m v r) and (transform v m r); r may be v, and even the entity of m *)
Theorem C85_transform : forall A v r (s : state F), fits s A -> len s v = cols A -> len s r = rows A ->
  delivers zero r r (rows A) (fun i => dot (cols A) (entry s A i) (elt s v)) s (TRANSFORM_mv F zero add mul A v r s).
Proof. apply TRANSFORM_mv_ok. Qed.
Theorem C85_transform_vec : forall v A r (s : state F), fits s A -> len s v = rows A -> len s r = cols A ->
  delivers zero r r (cols A) (fun j => dot (rows A) (fun i => entry s A i j) (elt s v)) s (TRANSFORM_vm F zero add mul v A r s).
Proof. apply TRANSFORM_vm_ok. Qed.
(** The full statement is without the hypothesis on the entities when the two are different objects: C85_transpose_refuted. *)
Theorem C85_transpose_partial : forall same A R (s : state F), fits s A -> fits s R -> rows R = cols A -> cols R = rows A ->
  (same = true -> R = A) -> (same = false -> ent R <> ent A) ->
  fills zero R (fun i j => entry s A j i) s (TRANSPOSE F same A R s).
Proof.
  intros [|] A R s FA FR H1 H2 Hs Hd.
  - rewrite (Hs eq_refl) in *. apply TRANSPOSE_same_ok; assumption.
  - apply TRANSPOSE_new_ok; auto.
Qed.
(** The full statement has, in place of the first two hypotheses, that too short a vector is an error: C85_rotate_refuted. *)
Theorem C85_rotate_partial : forall v c sn a r (s : state F), let n := match a with ANil => 2 | _ => 3 end in
  n <= len s v -> n <= len s r -> let x := elt s v 0 in let y := elt s v 1 in let z := elt s v 2 in
  delivers zero r r n (fun i => nth i match a with
    | AX => [x; add (mul c y) (mul (neg sn) z); add (mul sn y) (mul c z)]
    | AY => [add (mul c x) (mul sn z); y; add (mul (neg sn) x) (mul c z)]
    | AZ => [add (mul c x) (mul (neg sn) y); add (mul sn x) (mul c y); z]
    | ANil => [add (mul c x) (mul (neg sn) y); add (mul sn x) (mul c y)]
    end zero) s (ROTVEC F add mul neg v c sn a r s).
Proof. intros v c sn a r s n Hv Hr. exact (ROTVEC_ok F zero add sub mul div neg sqrt v c sn a r s Hv Hr). Qed.

(** Operands or results of the wrong size are refused before anything is written. *)
Lemma ckvsize_err a b (s : state F) : len s a <> len s b -> ckvsize F a b s = Error F.
Proof.
  intros H. unfold ckvsize, MatModel.bind, vecsize. destruct (Nat.eqb_spec (len s a) (len s b)); [congruence|]. reflexivity.
Qed.
Lemma cksize_err a n (s : state F) : len s a <> n -> cksize F a n s = Error F.
Proof. intros H. unfold cksize, MatModel.bind, vecsize. destruct (Nat.eqb_spec (len s a) n); [congruence|]. reflexivity. Qed.
Lemma bind_err {A B} (m : M F A) (k : A -> M F B) s : m s = Error F -> MatModel.bind F m k s = Error F.
Proof. intros H. unfold MatModel.bind. rewrite H. reflexivity. Qed.
Lemma two_sizes {B} a b r (k : nat -> M F B) (s : state F) : ~ (len s a = len s b /\ len s r = len s a) ->
  MatModel.bind F (ckvsize F a b) (fun n => MatModel.bind F (cksize F r n) (fun _ => k n)) s = Error F.
Proof.
  intros H. destruct (Nat.eq_dec (len s a) (len s b)) as [E|N]; [|apply bind_err, ckvsize_err, N].
  rewrite (bind_done _ _ _ _ _ _ (ckvsize_eq F a b s E)). apply bind_err, cksize_err. tauto.
Qed.
Theorem C85_sizes : forall a b r (s : state F), ~ (len s a = len s b /\ len s r = len s a) ->
  VPLUS F add a b r s = Error F /\ VMINUS F sub a b r s = Error F /\ (forall p, MIDPOINT F one add sub mul p a b r s = Error F) /\
  VDIRECTION F zero add sub mul div sqrt a b r s = Error F.
Proof.
  intros a b r s H. split; [|split; [|split]]; [..|intros p|]; unfold VPLUS, VMINUS, MIDPOINT, VDIRECTION; apply two_sizes; exact H.
Qed.
Theorem C85_sizes_one : forall a r (s : state F), len s r <> len s a ->
  VNEGATE F neg a r s = Error F /\ (forall c, SCALEVEC F mul c a r s = Error F) /\
  VNORMALIZE F zero add mul div sqrt a r s = Error F.
Proof.
  intros a r s H. split; [|split]; [|intros c|]; unfold VNEGATE, SCALEVEC, VNORMALIZE;
  (rewrite (bind_done _ _ _ _ _ _ (eq_refl : vecsize F a s = Done F (len s a) s)); apply bind_err, cksize_err, H).
Qed.
Theorem C85_sizes_cross : forall a b r (s : state F), ~ (len s a = 3 /\ len s b = 3 /\ len s r = 3) ->
  VCROSSPRODUCT F sub mul a b r s = Error F.
Proof.
  intros a b r s H. unfold VCROSSPRODUCT. destruct (Nat.eq_dec (len s a) (len s b)) as [E|N]; [|apply bind_err, ckvsize_err, N].
  rewrite (bind_done _ _ _ _ _ _ (ckvsize_eq F a b s E)). destruct (Nat.eqb_spec (len s a) 3) as [E3|]; [|reflexivity].
  apply bind_err, cksize_err. intros E4. apply H. lia.
Qed.
Theorem C85_sizes_matrix : forall A B R (s : state F),
  (~ (cols A = rows B /\ rows R = rows A /\ cols R = cols B) -> MATTIMES F zero add mul A B R s = Error F) /\
  (forall same, ~ (rows R = cols A /\ cols R = rows A) -> TRANSPOSE F same A R s = Error F) /\
  (forall v r, ~ (len s v = cols A /\ len s r = rows A) -> TRANSFORM_mv F zero add mul A v r s = Error F) /\
  (forall v r, ~ (len s v = rows A /\ len s r = cols A) -> TRANSFORM_vm F zero add mul v A r s = Error F).
Proof.
  intros A B R s. split; [|split; [|split]].
  - intros H. unfold MATTIMES. destruct (Nat.eqb_spec (cols A) (rows B)) as [E|]; [|reflexivity].
    destruct (Nat.eqb_spec (rows A) (rows R)) as [E1|]; [|reflexivity].
    destruct (Nat.eqb_spec (cols B) (cols R)) as [E2|]; [|reflexivity]. exfalso. apply H. auto.
  - intros same H. unfold TRANSPOSE. destruct (Nat.eqb_spec (rows R) (cols A)) as [E1|]; [|reflexivity].
    destruct (Nat.eqb_spec (cols R) (rows A)) as [E2|]; [|reflexivity]. exfalso. apply H. auto.
  - intros v r H. unfold TRANSFORM_mv. destruct (Nat.eq_dec (len s v) (cols A)) as [E|N]; [|apply bind_err, cksize_err, N].
    rewrite (bind_done _ _ _ _ _ _ (cksize_eq F v (cols A) s E)). apply bind_err, cksize_err. tauto.
  - intros v r H. unfold TRANSFORM_vm. destruct (Nat.eq_dec (len s v) (rows A)) as [E|N]; [|apply bind_err, cksize_err, N].
    rewrite (bind_done _ _ _ _ _ _ (cksize_eq F v (rows A) s E)). apply bind_err, cksize_err. tauto.
Qed.
End Any.

(** ** Concrete cases, over the integers *)
Open Scope Z_scope.
Definition C85_st : state Z := St Z (fun v => match v with
  | 0%nat => [1; 2; 3] | 1%nat => [4; 5; 6] | 2%nat => [1; 2; 3; 4] | 3%nat => [5; 6; 7; 8] | 4%nat => [1; 2] | 5%nat => [1;2;3;4;5;6]
  | _ => [] end) [].
Definition C85_seen {A} (v : nat) (o : res Z A) : option (list Z) := match o with Done _ _ s => Some (ar Z s v) | _ => None end.

Example C85_ex_plus : C85_seen 0 (VPLUS Z Z.add 0 0 0 C85_st) = Some [2; 4; 6].
Proof. reflexivity. Qed.
Example C85_ex_minus : C85_seen 1 (VMINUS Z Z.sub 0 1 1 C85_st) = Some [-3; -3; -3].
Proof. reflexivity. Qed.
Example C85_ex_direction : C85_seen 1 (VDIRECTION Z 0 Z.add Z.sub Z.mul Z.div (fun x => x) 0 1 1 C85_st) = Some [3 / 27; 3 / 27; 3 / 27].
Proof. reflexivity. Qed.
Example C85_ex_sum : C85_seen 9 (VPLUSPLUS Z Z.add 0 [1; 0]%nat 9 (St Z (fun v => if Nat.eqb v 9 then [0; 0; 0] else ar Z C85_st v) [])) = Some [6; 9; 12].
Proof. reflexivity. Qed.
Example C85_ex_cross : C85_seen 2 (VCROSSPRODUCT Z Z.sub Z.mul 0 1 2 (St Z (fun v => if Nat.eqb v 2 then [0; 0; 0] else ar Z C85_st v) [])) = Some [-3; 6; -3].
Proof. reflexivity. Qed.
(** the product into the first and into the second operand *)
Definition C85_A := Mx 2 2 2. Definition C85_B := Mx 3 2 2.
Definition C85_tm (A B R : matrix) := MATTIMES Z 0 Z.add Z.mul A B R C85_st.
Lemma C85_tm_value R : R = C85_A \/ R = C85_B ->
  fills 0 R (fun i j => nth (i * 2 + j) [19; 22; 43; 50] 0) C85_st (C85_tm C85_A C85_B R).
Proof.
  intros H.
  assert (fills 0 R (fun i j => MatSpec.dot 0 Z.add Z.mul 2 (MatSpec.entry 0 C85_st C85_A i) (fun k => MatSpec.entry 0 C85_st C85_B k j))
    C85_st (C85_tm C85_A C85_B R)) as K.
  { apply C85_mtimes_partial; destruct H as [-> | ->]; unfold fits; cbn; try lia; auto. }
  assert (forall i j, (i < 2)%nat -> (j < 2)%nat ->
    MatSpec.dot 0 Z.add Z.mul 2 (MatSpec.entry 0 C85_st C85_A i) (fun k => MatSpec.entry 0 C85_st C85_B k j)
      = nth (i * 2 + j) [19; 22; 43; 50] 0) as E.
  { intros [|[|i]] [|[|j]]; try lia; reflexivity. }
  unfold fills in *. destruct (C85_tm C85_A C85_B R); try exact K. destruct K as (K1 & K2 & K3 & K4 & K5).
  repeat (split; [assumption|]). split; [|exact K5]. intros i j Hi Hj.
  assert (rows R = 2 /\ cols R = 2)%nat as [R1 R2] by (destruct H as [-> | ->]; split; reflexivity).
  rewrite K4 by assumption. apply E; lia.
Qed.
Example C85_ex_transform : C85_seen 4 (TRANSFORM_mv Z 0 Z.add Z.mul C85_A 4 4
   (St Z (ar Z C85_st) [])) = Some [5; 11].
Proof. vm_compute. reflexivity. Qed.
Example C85_ex_transform_vec : C85_seen 4 (TRANSFORM_vm Z 0 Z.add Z.mul 4 C85_A 4 C85_st) = Some [7; 10].
Proof. vm_compute. reflexivity. Qed.
Example C85_ex_transpose : C85_seen 2 (TRANSPOSE Z true C85_A C85_A C85_st) = Some [1; 3; 2; 4].
Proof. reflexivity. Qed.
Example C85_ex_rotate : C85_seen 0 (ROTVEC Z Z.add Z.mul Z.opp 0 0 1 AZ 0 C85_st) = Some [-2; 1; 3].
Proof. reflexivity. Qed.
Example C85_ex_sizes : VPLUS Z Z.add 0 4 0 C85_st = Error Z /\ length (ar Z C85_st 0) <> length (ar Z C85_st 4).
Proof. split; [reflexivity|cbn; lia]. Qed.

(** (v* a b a): the second and third elements are computed from the result so far *)
Theorem C85_cross_refuted : exists (s : state Z) a b r, length (ar Z s a) = 3%nat /\ length (ar Z s b) = 3%nat /\ length (ar Z s r) = 3%nat /\
  let e := MatSpec.elt 0 s in let c := fun i j => e a i * e b j - e a j * e b i in
  ~ delivers 0 r r 3 (fun i => match i with 0%nat => c 1%nat 2%nat | 1%nat => c 2%nat 0%nat | _ => c 0%nat 1%nat end) s
      (VCROSSPRODUCT Z Z.sub Z.mul a b r s).
Proof.
  exists C85_st, 0%nat, 1%nat, 0%nat. repeat (split; [reflexivity|]). cbn zeta. intros H.
  destruct H as (_ & _ & _ & H & _). specialize (H 1%nat ltac:(lia)). vm_compute in H. discriminate H.
Qed.
(** (m* a a a): the first column is overwritten while it is still needed as a column of the first operand *)
Theorem C85_mtimes_refuted : exists (s : state Z) A B R, fits s A /\ fits s B /\ fits s R /\
  cols A = rows B /\ rows R = rows A /\ cols R = cols B /\
  ~ fills 0 R (fun i j => MatSpec.dot 0 Z.add Z.mul (cols A) (MatSpec.entry 0 s A i) (fun k => MatSpec.entry 0 s B k j)) s
      (MATTIMES Z 0 Z.add Z.mul A B R s).
Proof.
  exists C85_st, C85_A, C85_A, C85_A. repeat (split; [unfold fits; cbn; lia|]). intros H.
  assert (MatSpec.entry 0 match MATTIMES Z 0 Z.add Z.mul C85_A C85_A C85_A C85_st with Done _ _ s => s | _ => C85_st end C85_A 0 1
    <> MatSpec.dot 0 Z.add Z.mul 2 (MatSpec.entry 0 C85_st C85_A 0) (fun k => MatSpec.entry 0 C85_st C85_A k 1%nat)) as N
    by (vm_compute; discriminate).
  apply N. destruct (MATTIMES Z 0 Z.add Z.mul C85_A C85_A C85_A C85_st) as [x s'| |]; [|destruct H|destruct H].
  destruct H as (-> & _ & _ & H & _). apply (H 0%nat 1%nat); cbn; lia.
Qed.
(** two matrices of one entity (make-matrix with :displaced-to), transposed into one another *)
Theorem C85_transpose_refuted : exists (s : state Z) A R, fits s A /\ fits s R /\ rows R = cols A /\ cols R = rows A /\
  ~ fills 0 R (fun i j => MatSpec.entry 0 s A j i) s (TRANSPOSE Z false A R s).
Proof.
  exists C85_st, C85_A, C85_A. repeat (split; [unfold fits; cbn; lia|]). intros H.
  destruct H as (_ & _ & _ & H & _). specialize (H 0%nat 1%nat ltac:(cbn; lia) ltac:(cbn; lia)). vm_compute in H. discriminate H.
Qed.
(** (rotate-vector #f(1 2) a :z) reads and writes beyond the vector *)
Theorem C85_rotate_refuted : exists (s : state Z) v c sn r, (length (ar Z s v) = 2 /\ length (ar Z s r) = 2)%nat /\
  ROTVEC Z Z.add Z.mul Z.opp v c sn AZ r s = Stray Z.
Proof. exists C85_st, 4%nat, 1, 0, 4%nat. split; [split; reflexivity|reflexivity]. Qed.

Print Assumptions C85_plus.
Print Assumptions C85_minus.
Print Assumptions C85_negate.
Print Assumptions C85_scale.
Print Assumptions C85_midpoint.
Print Assumptions C85_normalize.
Print Assumptions C85_direction.
Print Assumptions C85_sum.
Print Assumptions C85_cross_partial.
Print Assumptions C85_cross_refuted.
Print Assumptions C85_mtimes_partial.
Print Assumptions C85_mtimes_refuted.
Print Assumptions C85_transform.
Print Assumptions C85_transform_vec.
Print Assumptions C85_transpose_partial.
Print Assumptions C85_transpose_refuted.
Print Assumptions C85_rotate_partial.
Print Assumptions C85_rotate_refuted.
Print Assumptions C85_sizes.
Print Assumptions C85_sizes_one.
Print Assumptions C85_sizes_cross.
Print Assumptions C85_sizes_matrix.
