(** Properties C46-C49 and C61. *)
From Verif Require Import VecModel VecProofs.
Open Scope Z_scope.

(** ** C46: for general, string and integer vectors, aset changes one element and no other *)
Theorem C46_aset_partial : forall v n x, wf_vec v -> is_bit v = false -> fits v x -> 0 <= n < Z.of_nat (vecsize v) -> Z.of_nat (vecsize v) <= 2147483647 ->
  exists v', ASET_vec v (Int n) x = Ret v' /\ wf_vec v' /\ AREF_vec v' (Int n) = Ret x /\
    forall m, m <> n -> 0 <= m < Z.of_nat (vecsize v) -> AREF_vec v' (Int m) = AREF_vec v (Int m).
Proof.
  intros v n x W B F H M. destruct (vset_ok v n x W B F H) as [v' [E0 [E1 [E2 [E3 [E4 E5]]]]]]. exists v'.
  assert (R : forall u m, wf_vec u -> 0 <= m < Z.of_nat (vecsize v) -> vecsize u = vecsize v -> AREF_vec u (Int m) = Ret (nth (Z.to_nat m) (elements u) (Int 0))).
  { intros u m Wu Hm S. unfold AREF_vec. rewrite ckintval_small by lia. cbn [bind]. rewrite to_int_small by lia. apply vref_ok; [exact Wu|lia]. }
  pose proof (elements_length v W).
  split; [|split; [exact E2|split]].
  - unfold ASET_vec. rewrite ckintval_small by lia. cbn [bind]. rewrite to_int_small by lia. exact E0.
  - rewrite R by auto. rewrite E1, nth_update_same by lia. reflexivity.
  - intros m N Hm. rewrite !R by auto. rewrite E1, update_nth by lia. destruct (Nat.eqb_spec (Z.to_nat m) (Z.to_nat n)); [lia|reflexivity].
Qed.
Print Assumptions C46_aset_partial.
Example C46_aset_ex : wf_vec (VByte 3 [97; 98; 99; 0; 0; 0; 0; 0]) /\ fits (VByte 3 [97; 98; 99; 0; 0; 0; 0; 0]) (Int 255) /\
  ASET_vec (VByte 3 [97; 98; 99; 0; 0; 0; 0; 0]) (Int 1) (Int 255) = Ret (VByte 3 [97; 255; 99; 0; 0; 0; 0; 0]).
Proof. split; [split; [reflexivity|rewrite Forall_forall; cbn; intros; lia]|]. split; [cbn; lia|reflexivity]. Qed.
(** aref reads the elements, for every element type *)
Theorem C46_aref : forall v n, wf_vec v -> 0 <= n < Z.of_nat (vecsize v) -> Z.of_nat (vecsize v) <= 2147483647 ->
  AREF_vec v (Int n) = Ret (nth (Z.to_nat n) (elements v) (Int 0)).
Proof. intros v n W H M. unfold AREF_vec. rewrite ckintval_small by lia. cbn [bind]. rewrite to_int_small by lia. apply vref_ok; assumption. Qed.
Print Assumptions C46_aref.
(** bit vectors: setbit and the sequence functions' store are right everywhere *)
Theorem C46_setbit : forall s ws n z, wf_vec (VBit s ws) -> z = 0 \/ z = 1 -> 0 <= n < Z.of_nat s -> n < 2147483648 ->
  exists v', SETBIT (VBit s ws) (Int n) (Int z) = Ret (v', Int z) /\ elements v' = update (elements (VBit s ws)) (Z.to_nat n) (Int z) /\ wf_vec v' /\ vecsize v' = s.
Proof. exact SETBIT_ok. Qed.
Print Assumptions C46_setbit.
Theorem C46_bit : forall s ws n, wf_vec (VBit s ws) -> 0 <= n < Z.of_nat s -> n < 2147483648 -> BIT (VBit s ws) (Int n) = Ret (nth (Z.to_nat n) (elements (VBit s ws)) (Int 0)).
Proof. exact BIT_ok. Qed.
Print Assumptions C46_bit.
Theorem C46_fastvset : forall v n x, wf_vec v -> fits v x -> (n < vecsize v)%nat ->
  exists v', fastvset v n x = Ret v' /\ elements v' = update (elements v) n x /\ wf_vec v' /\ vecsize v' = vecsize v.
Proof. exact fastvset_ok. Qed.
Print Assumptions C46_fastvset.
Example C46_bit_ex : wf_vec (VBit 70 [2 ^ 63; 0]) /\ exists v', SETBIT (VBit 70 [2 ^ 63; 0]) (Int 64) (Int 1) = Ret (v', Int 1) /\ v' = VBit 70 [2 ^ 63; 1].
Proof. split; [split; [reflexivity|rewrite Forall_forall; cbn [In]; intros; lia]|]. eexists. split; [vm_compute; reflexivity|reflexivity]. Qed.
(** aset on a bit vector is right on the low 31 positions of each 64-bit word only *)
Theorem C46_aset_bit_partial : forall s ws n z, wf_vec (VBit s ws) -> z = 0 \/ z = 1 -> 0 <= n < Z.of_nat s -> n mod 64 < 31 ->
  exists v', vset (VBit s ws) n (Int z) = Ret v' /\ elements v' = update (elements (VBit s ws)) (Z.to_nat n) (Int z) /\ wf_vec v' /\ vecsize v' = s.
Proof. exact vset_bit_ok. Qed.
Print Assumptions C46_aset_bit_partial.
(** storing 1 at index 31 sets indices 31 to 63; storing at index 40 does nothing *)
Theorem C46_aset_bit_refuted :
  (exists v v', wf_vec v /\ ASET_vec v (Int 31) (Int 1) = Ret v' /\ AREF_vec v (Int 40) = Ret (Int 0) /\ AREF_vec v' (Int 40) = Ret (Int 1)) /\
  (exists v v', wf_vec v /\ ASET_vec v (Int 40) (Int 1) = Ret v' /\ AREF_vec v' (Int 40) = Ret (Int 0)).
Proof.
  split; (exists (VBit 64 [0]); eexists; split; [split; [reflexivity|constructor; [lia|constructor]]|]; split; [vm_compute; reflexivity|]).
  - split; [vm_compute; reflexivity|vm_compute; reflexivity].
  - vm_compute; reflexivity.
Qed.
Print Assumptions C46_aset_bit_refuted.

(** ** C47.  Subscripts 0 <= s < d of each dimension give the row-major index, which is injective and stays within the
    array's part of the storage. *)
Theorem C47_index : forall a subs, in_range (a_dims a) subs -> product (a_dims a) <= int_max -> 0 <= a_off a -> a_off a + product (a_dims a) <= int_max ->
  exists i, arrayindex a (map Int subs) = Ret i /\ i = a_off a + row_major (a_dims a) subs /\ a_off a <= i < a_off a + product (a_dims a).
Proof. intros a subs H P O OP. eexists. split; [apply arrayindex_ok; assumption|]. split; [reflexivity|]. pose proof (row_major_bound _ _ H). lia. Qed.
Print Assumptions C47_index.
Theorem C47_injective : forall a s t i, in_range (a_dims a) s -> in_range (a_dims a) t -> product (a_dims a) <= int_max -> 0 <= a_off a -> a_off a + product (a_dims a) <= int_max ->
  arrayindex a (map Int s) = Ret i -> arrayindex a (map Int t) = Ret i -> s = t.
Proof.
  intros a s t i Rs Rt P O OP Es Et. rewrite arrayindex_ok in Es, Et by assumption. apply (row_major_inj (a_dims a)); auto. injection Es as Es. injection Et as Et. lia.
Qed.
Print Assumptions C47_injective.
Theorem C47_aset_aref : forall a subs x, subs <> [] -> wf_vec (a_ent a) -> is_bit (a_ent a) = false -> fits (a_ent a) x -> in_range (a_dims a) subs -> 0 <= a_off a -> a_off a + product (a_dims a) <= Z.min int_max (Z.of_nat (vecsize (a_ent a))) ->
  exists a', ASET a (map Int subs) x = Ret a' /\ AREF a' (map Int subs) = Ret x /\
    (forall t, in_range (a_dims a) t -> t <> subs -> AREF a' (map Int t) = AREF a (map Int t)) /\ a_dims a' = a_dims a /\
    (forall i, Z.of_nat i < a_off a \/ a_off a + product (a_dims a) <= Z.of_nat i -> nth i (elements (a_ent a')) (Int 0) = nth i (elements (a_ent a)) (Int 0)).
Proof. exact ASET_ok. Qed.
Print Assumptions C47_aset_aref.
(** a 2x3 array displaced by 1 into a vector of 8 *)
Definition demo_arr := mkArr [2; 3] None 1 (VPtr (map Int [0; 1; 2; 3; 4; 5; 6; 7])).
Example C47_ex : in_range (a_dims demo_arr) [1; 2] /\ AREF demo_arr (map Int [1; 2]) = Ret (Int 6) /\
  exists a', ASET demo_arr (map Int [0; 1]) (Int 99) = Ret a' /\ elements (a_ent a') = map Int [0; 1; 99; 3; 4; 5; 6; 7].
Proof. split; [cbn; lia|]. split; [reflexivity|]. eexists. split; [vm_compute; reflexivity|vm_compute; reflexivity]. Qed.
(** subscripts at or beyond the dimension, below 2^31, and a wrong number of subscripts, are reported *)
Theorem C47_out_of_range_partial : forall a subs, (length subs <> length (a_dims a) \/ (Forall (fun d => 0 <= d <= int_max) (a_dims a) /\ too_big (a_dims a) subs)) ->
  arrayindex a (map Int subs) = Error.
Proof. exact arrayindex_big. Qed.
Print Assumptions C47_out_of_range_partial.
Example C47_out_of_range_ex : too_big (a_dims demo_arr) [0; 3] /\ AREF demo_arr (map Int [0; 3]) = Error /\ AREF demo_arr (map Int [0]) = Error.
Proof. split; [cbn; unfold int_max; lia|]. split; reflexivity. Qed.
(** negative subscripts and subscripts of 2^32 and more are accepted: (aref a 1 -1), (aref a 0 4294967297) *)
Theorem C47_out_of_range_refuted :
  (exists a subs x, ~ in_range (a_dims a) subs /\ length subs = length (a_dims a) /\ AREF a (map Int subs) = Ret x /\ subs = [1; -1]) /\
  (exists a subs x, ~ in_range (a_dims a) subs /\ length subs = length (a_dims a) /\ AREF a (map Int subs) = Ret x /\ subs = [0; 4294967297]) /\
  (exists v x, AREF_vec v (Int (2 ^ 32)) = Ret x /\ vecsize v = 1%nat).
Proof.
  split; [|split].
  - exists demo_arr, [1; -1]. eexists. split; [cbn; lia|]. split; [reflexivity|]. split; [vm_compute; reflexivity|vm_compute; reflexivity].
  - exists demo_arr, [0; 4294967297]. eexists. split; [cbn; lia|]. split; [reflexivity|]. split; [vm_compute; reflexivity|vm_compute; reflexivity].
  - exists (VPtr [Int 5]). eexists. split; [vm_compute; reflexivity|vm_compute; reflexivity].
Qed.
Print Assumptions C47_out_of_range_refuted.

(** ** C48.  The result may be one of the arguments; no other vector changes. *)
Theorem C48_bit_op : forall o m a b res, wf_bv (m a) -> wf_bv (m b) -> fst (m a) = fst (m b) -> result_ok m res (fst (m a)) [a; b] ->
  exists m', BITOP o m a b res = Ret (m', place res) /\ (forall c, c <> place res -> m' c = m c) /\ wf_bv (m' (place res)) /\
    bits (m' (place res)) = map2 (bool_op o) (bits (m a)) (bits (m b)).
Proof. exact BITOP_ok. Qed.
Print Assumptions C48_bit_op.
Theorem C48_bit_not : forall m a res, wf_bv (m a) -> result_ok m res (fst (m a)) [a] ->
  exists m', BITNOT m a res = Ret (m', place res) /\ (forall c, c <> place res -> m' c = m c) /\ wf_bv (m' (place res)) /\
    bits (m' (place res)) = map negb (bits (m a)).
Proof. exact BITNOT_ok. Qed.
Print Assumptions C48_bit_not.
Theorem C48_size_mismatch : forall o m a b res, fst (m a) <> fst (m b) -> BITOP o m a b res = Error.
Proof. intros o m a b res H. unfold BITOP. apply Nat.eqb_neq in H. rewrite H. reflexivity. Qed.
Print Assumptions C48_size_mismatch.
Example C48_ex : let m := fun a => match a with O => (4%nat, [12]) | 1%nat => (4%nat, [10]) | _ => (4%nat, [0]) end in
  result_ok m (inl 0%nat) 4 [0%nat; 1%nat] /\
  exists m', BITOP Nand m 0 1 (inl 0%nat) = Ret (m', 0%nat) /\ bits (m' 0%nat) = [true; true; true; false] /\ bits (m 0%nat) = [false; false; true; true].
Proof. split; [split; reflexivity|]. eexists. split; [vm_compute; reflexivity|]. split; [vm_compute; reflexivity|vm_compute; reflexivity]. Qed.

(** ** C49.  Every history of pushes and pops on a one-dimensional, non-displaced array of general, string or
    integer elements agrees with a stack; the pushed elements can be read back with aref at every moment. *)
Theorem C49_stack_partial : forall ops a cap l, represents a cap l -> Forall (op_fits (a_ent a)) ops -> Z.of_nat (Nat.max cap (2 * (length l + length ops))) <= 1073741823 ->
  match spec_run ops (cap, l) with
  | None => run ops a = Error
  | Some (cap', l', out) => exists a', run ops a = Ret (a', out) /\ represents a' cap' l'
  end.
Proof. exact run_ok. Qed.
Print Assumptions C49_stack_partial.
Theorem C49_readable : forall a cap l i x, represents a cap l -> Z.of_nat cap <= 1073741823 -> nth_error l i = Some x -> AREF a [Int (Z.of_nat i)] = Ret x.
Proof.
  intros a cap l i x [W [B [O [D [S [P [Fp [Le E]]]]]]]] M N. assert (Hi : (i < length l)%nat) by (apply nth_error_Some; congruence).
  change [Int (Z.of_nat i)] with (map Int [Z.of_nat i]). rewrite AREF_ok; rewrite ?D, ?O; auto; try lia; try discriminate.
  - cbn [row_major product fold_right]. rewrite Z.mul_1_r, !Z.add_0_r, Z.add_0_l, Nat2Z.id. f_equal.
    rewrite <- (firstn_skipn (length l) (elements (a_ent a))), E. rewrite app_nth1 by exact Hi. apply nth_error_nth. exact N.
  - cbn. lia.
  - cbn [product fold_right]. rewrite Z.mul_1_r. unfold int_max. lia.
Qed.
Print Assumptions C49_readable.
Definition demo_stack := mkArr [2] (Some 1) 0 (VInt [7; 0]).
Example C49_ex : represents demo_stack 2 [Int 7] /\ exists a',
  run [PushExt (Int 8); PushExt (Int 9); Push (Int 10); Pop; Pop] demo_stack = Ret (a', [Int 8; Int 9; Int 10; Int 10; Int 9]) /\ a_dims a' = [4].
Proof.
  split; [|eexists; split; [vm_compute; reflexivity|vm_compute; reflexivity]]. unfold represents. cbn [demo_stack a_ent a_off a_dims a_fp wf_vec].
  assert (F : Forall in_long [7; 0]) by (rewrite Forall_forall; cbn [In]; unfold in_long; intros; lia).
  cbn [vecsize length elements map firstn is_bit]. repeat split; auto; try lia.
Qed.
(** bit vectors lose pushed elements beyond the 32nd; a displaced array is extended into the wrong place; pushing writes
    past the array's own dimension; an element pushed on an empty array cannot be read *)
Theorem C49_refuted :
  (exists a a' b, a_fp a = Some 40 /\ VECTORPUSH (Int 1) a = Ret (a', Int 1) /\ VECTORPOP a' = Ret (b, Int 0)) /\
  (exists a a' b, a_off a = 2 /\ VECTOREXPUSH (Int 9) a = Ret (a', Int 9) /\ VECTORPOP a' = Ret (b, Int 0)) /\
  (exists a a' , a_dims a = [1] /\ a_fp a = Some 1 /\ VECTORPUSH (Int 9) a = Ret (a', Int 9) /\ AREF a' [Int 1] = Error /\ elements (a_ent a') = map Int [0; 9; 0]) /\
  (exists a a', make_array (fun n => VPtr (repeat (Int 0) n)) [0] (Seq []) = Ret a /\ VECTORPUSH (Int 9) (mkArr (a_dims a) (Some 0) (a_off a) (a_ent a)) = Ret (a', Int 9) /\ AREF a' [Int 0] = Error).
Proof.
  split; [|split; [|split]].
  - exists (mkArr [64] (Some 40) 0 (VBit 64 [0])). eexists. eexists. split; [reflexivity|]. split; [vm_compute; reflexivity|vm_compute; reflexivity].
  - exists (mkArr [4] (Some 1) 2 (VPtr (map Int [0; 0; 0; 0; 0; 0]))). eexists. eexists. split; [reflexivity|]. split; [vm_compute; reflexivity|vm_compute; reflexivity].
  - exists (mkArr [1] (Some 1) 0 (VPtr (map Int [0; 0; 0]))). eexists. split; [reflexivity|]. split; [reflexivity|]. split; [vm_compute; reflexivity|]. split; [vm_compute; reflexivity|vm_compute; reflexivity].
  - eexists. eexists. split; [vm_compute; reflexivity|]. split; [vm_compute; reflexivity|vm_compute; reflexivity].
Qed.
Print Assumptions C49_refuted.

(** ** C61 *)
Theorem C61_initial_contents_partial : forall mk dims c, dims <> [] -> shaped dims c -> Forall (fun d => 0 <= d) dims -> Z.max 1 (product dims) <= int_max ->
  (forall n, wf_vec (mk n) /\ is_bit (mk n) = false /\ vecsize (mk n) = n) -> all_fit (mk (Z.to_nat (Z.max 1 (product dims)))) c ->
  exists a, make_array mk dims c = Ret a /\ a_dims a = dims /\ forall subs, in_range dims subs -> exists x, at_ c subs = Some x /\ AREF a (map Int subs) = Ret x.
Proof. exact make_array_ok. Qed.
Print Assumptions C61_initial_contents_partial.
(** Contents with too few rows or with a row that is too long never make an array. *)
Theorem C61_misshapen : forall mk dims c a, make_array mk dims c = Ret a -> accepted dims c.
Proof. exact make_array_accepted. Qed.
Print Assumptions C61_misshapen.
Example C61_misshapen_ex : make_array (fun n => VPtr (repeat (Obj 0) n)) [2; 1] (Seq [Seq [Leaf (Int 1)]; Seq [Leaf (Int 2); Leaf (Int 3)]]) = Error /\
  make_array (fun n => VPtr (repeat (Obj 0) n)) [2; 1] (Seq [Seq [Leaf (Int 1)]]) = Error.
Proof. split; vm_compute; reflexivity. Qed.
(** Missing elements and superfluous rows are not noticed. *)
Theorem C61_ragged_refuted : exists c a, ~ shaped [2; 2] c /\ make_array (fun n => VPtr (repeat (Obj 0) n)) [2; 2] c = Ret a.
Proof.
  exists (Seq [Seq [Leaf (Int 1)]; Seq [Leaf (Int 2); Leaf (Int 3)]; Seq []]). eexists. split; [|vm_compute; reflexivity].
  intros (l & E & L & _). inversion E; subst. discriminate L.
Qed.
Print Assumptions C61_ragged_refuted.
Definition demo_contents := Seq [Seq [Leaf (Int 1); Leaf (Int 2); Leaf (Int 3)]; Seq [Leaf (Int 4); Leaf (Int 5); Leaf (Int 6)]].
Example C61_ex : shaped [2; 3] demo_contents /\ at_ demo_contents [1; 0] = Some (Int 4) /\
  exists a, make_array (fun n => VPtr (repeat (Obj 0) n)) [2; 3] demo_contents = Ret a /\ AREF a (map Int [1; 0]) = Ret (Int 4).
Proof.
  split; [|split; [reflexivity|eexists; split; [vm_compute; reflexivity|vm_compute; reflexivity]]].
  eexists. split; [reflexivity|]. split; [reflexivity|]. repeat constructor; (eexists; split; [reflexivity|]; split; [reflexivity|]; repeat constructor; eexists; reflexivity).
Qed.
(** a bit array whose contents have a 1 at index 33 reads 0 there *)
Theorem C61_bit_refuted : exists c a, shaped [1; 40] c /\ at_ c [0; 33] = Some (Int 1) /\
  make_array (fun n => VBit n (repeat 0 (bv_words n))) [1; 40] c = Ret a /\ AREF a (map Int [0; 33]) = Ret (Int 0).
Proof.
  exists (Seq [Seq (repeat (Leaf (Int 0)) 33 ++ [Leaf (Int 1)] ++ repeat (Leaf (Int 0)) 6)]). eexists.
  split; [|split; [reflexivity|split; [vm_compute; reflexivity|vm_compute; reflexivity]]].
  eexists. split; [reflexivity|]. split; [reflexivity|]. repeat constructor. eexists. split; [reflexivity|]. split; [reflexivity|]. repeat constructor; eexists; reflexivity.
Qed.
Print Assumptions C61_bit_refuted.
