(** Specification and proofs for C46-C49 and C61. *)
From Verif Require Export VecModel.
Open Scope Z_scope.

(** ** Specification: the list of elements of a vector *)
Definition word_bit (ws : list Z) (i : nat) : bool := Z.testbit (nth (i / 64)%nat ws 0) (Z.of_nat (i mod 64)).
Definition b2z (b : bool) : Z := if b then 1 else 0.
Definition elements (v : vec) : list value :=
  match v with
  | VBit s ws => map (fun i => Int (b2z (word_bit ws i))) (seq 0 s)
  | VByte s bs => map Int (firstn s bs)
  | VInt ws => map Int ws
  | VPtr vs => vs
  end.
(** enough words are allocated and the words are in range *)
Definition wf_vec (v : vec) : Prop :=
  match v with
  | VBit s ws => length ws = bv_words s /\ Forall (fun w => 0 <= w < 2 ^ 64) ws
  | VByte s bs => length bs = (8 * ((s + 8) / 8))%nat /\ Forall (fun b => 0 <= b < 256) bs
  | VInt ws => Forall in_long ws
  | VPtr _ => True
  end.
(** the values that elements of this type can hold *)
Definition fits (v : vec) (x : value) : Prop :=
  match v, x with
  | VBit _ _, Int z => z = 0 \/ z = 1
  | VByte _ _, Int z => 0 <= z < 256
  | VInt _, Int z => in_long z
  | VPtr _, _ => True
  | _, Obj _ => False
  end.

(** ** Words and bits *)
Lemma div64_lt : forall i s, (i < s)%nat -> (i / 64 < bv_words s)%nat.
Proof.
  intros i s H. unfold bv_words. apply Nat.div_lt_upper_bound; [lia|].
  pose proof (Nat.div_mod (s + 63) 64 ltac:(lia)). pose proof (Nat.mod_upper_bound (s + 63) 64 ltac:(lia)). lia.
Qed.
Lemma byte_lt : forall s, (s <= 8 * ((s + 8) / 8))%nat.
Proof. intro s. pose proof (Nat.div_mod (s + 8) 8 ltac:(lia)). pose proof (Nat.mod_upper_bound (s + 8) 8 ltac:(lia)). lia. Qed.
Lemma mod64 : forall i, (i mod 64 < 64)%nat.
Proof. intro. apply Nat.mod_upper_bound. lia. Qed.
Lemma u64_bits : forall z k, 0 <= k < 64 -> Z.testbit (u64 z) k = Z.testbit z k.
Proof. intros z k H. unfold u64. apply Z.mod_pow2_bits_low. lia. Qed.
Lemma u64_range : forall z, 0 <= u64 z < 2 ^ 64.
Proof. intro. unfold u64. apply Z.mod_pos_bound. reflexivity. Qed.
Lemma shiftl1_bits : forall k j, 0 <= k -> 0 <= j -> Z.testbit (Z.shiftl 1 k) j = (k =? j).
Proof. intros k j Hk Hj. rewrite Z.shiftl_1_l. destruct (Z.eqb_spec k j) as [->|N]; [apply Z.pow2_bits_true; lia|apply Z.pow2_bits_false; lia]. Qed.
Lemma mask_bits : forall k j, 0 <= k < 64 -> 0 <= j < 64 -> Z.testbit (u64 (Z.shiftl 1 k)) j = (k =? j).
Proof. intros. rewrite u64_bits by lia. apply shiftl1_bits; lia. Qed.
Lemma mask_val : forall k, 0 <= k < 64 -> u64 (Z.shiftl 1 k) = 2 ^ k.
Proof. intros k H. unfold u64. rewrite Z.shiftl_1_l. apply Z.mod_small. split; [lia|]. apply Z.pow_lt_mono_r; lia. Qed.
Lemma land_mask : forall w k, 0 <= k < 64 -> (if Z.land w (u64 (Z.shiftl 1 k)) =? 0 then 0 else 1) = b2z (Z.testbit w k).
Proof.
  intros w k H. rewrite mask_val by exact H. destruct (Z.testbit w k) eqn:T.
  - destruct (Z.eqb_spec (Z.land w (2 ^ k)) 0) as [E|]; [|reflexivity]. exfalso.
    assert (Z.testbit (Z.land w (2 ^ k)) k = false) by (rewrite E; apply Z.bits_0). rewrite Z.land_spec, T, Z.pow2_bits_true in H0 by lia. discriminate.
  - replace (Z.land w (2 ^ k)) with 0; [reflexivity|]. symmetry. apply Z.bits_inj'. intros j Hj. rewrite Z.land_spec, Z.bits_0.
    destruct (Z.eq_dec k j) as [<-|N]; [rewrite T; reflexivity|]. rewrite Z.pow2_bits_false by lia. apply andb_false_r.
Qed.

(** ** List updates *)
Lemma update_length : forall {A} (l : list A) n x, length (update l n x) = length l.
Proof. induction l; intros [|n] x; cbn; auto. Qed.
Lemma update_nth : forall {A} (l : list A) n x m d, (n < length l)%nat -> nth m (update l n x) d = if Nat.eqb m n then x else nth m l d.
Proof. induction l as [|a l IH]; intros [|n] x [|m] d H; cbn in *; try lia; try reflexivity. apply IH. lia. Qed.
Lemma update_Forall : forall {A} (P : A -> Prop) l n x, Forall P l -> P x -> Forall P (update l n x).
Proof. intros A P. induction l as [|a l IH]; intros [|n] x F Px; cbn; inversion F; subst; auto. Qed.
Lemma map_update : forall {A B} (f : A -> B) l n x, map f (update l n x) = update (map f l) n (f x).
Proof. induction l; intros [|n] x; cbn; f_equal; auto. Qed.
Lemma firstn_update : forall {A} s (l : list A) n x, firstn s (update l n x) = update (firstn s l) n x.
Proof. induction s; intros [|a l] [|n] x; cbn; f_equal; auto. Qed.
Lemma update_out : forall {A} (l : list A) n x, (length l <= n)%nat -> update l n x = l.
Proof. induction l; intros [|n] x H; cbn in *; try lia; f_equal; auto with arith. Qed.
Lemma nth_ext' : forall {A} (l l' : list A) d, length l = length l' -> (forall i, (i < length l)%nat -> nth i l d = nth i l' d) -> l = l'.
Proof. intros. eapply nth_ext; eauto. Qed.
Lemma load_ok : forall {A} (l : list A) n d, (n < length l)%nat -> load l n = Ret (nth n l d).
Proof. intros A l n d H. unfold load. rewrite (nth_error_nth' l d H). reflexivity. Qed.
Lemma store_ok : forall {A} (l : list A) n (x : A), (n < length l)%nat -> store l n x = Ret (update l n x).
Proof. intros A l n x H. unfold store. apply Nat.ltb_lt in H. rewrite H. reflexivity. Qed.

Lemma elements_length : forall v, wf_vec v -> length (elements v) = vecsize v.
Proof.
  intros [s ws|s bs|ws|vs] W; cbn; rewrite ?map_length, ?seq_length, ?firstn_length; try reflexivity.
  destruct W as [W _]. rewrite W. pose proof (byte_lt s). lia.
Qed.

(** a word with bit [k] replaced, seen as elements *)
Lemma bit_elements : forall s ws k w' (b : bool), length ws = bv_words s -> (k < s)%nat ->
  (forall j, 0 <= j < 64 -> Z.testbit w' j = if Z.of_nat (k mod 64) =? j then b else Z.testbit (nth (k / 64) ws 0) j) ->
  elements (VBit s (update ws (k / 64) w')) = update (elements (VBit s ws)) k (Int (b2z b)).
Proof.
  intros s ws k w' b L Hk Hw. apply (nth_ext' _ _ (Int 0)).
  - rewrite update_length. cbn. rewrite !map_length. reflexivity.
  - intros i Hi. cbn [elements] in *. rewrite map_length, seq_length in Hi.
    rewrite update_nth by (rewrite map_length, seq_length; exact Hk).
    rewrite (nth_indep _ (Int 0) (Int (b2z (word_bit (update ws (k / 64) w') 0)))) by (rewrite map_length, seq_length; exact Hi).
    rewrite (map_nth (fun i => Int (b2z (word_bit (update ws (k / 64) w') i)))), seq_nth by exact Hi. cbn [Nat.add].
    unfold word_bit. rewrite update_nth by (rewrite L; apply div64_lt; exact Hk).
    destruct (Nat.eqb_spec i k) as [->|N].
    + rewrite Nat.eqb_refl, Hw by (pose proof (mod64 k); lia). rewrite Z.eqb_refl. reflexivity.
    + rewrite (nth_indep _ (Int 0) (Int (b2z (word_bit ws 0)))) by (rewrite map_length, seq_length; exact Hi).
      rewrite (map_nth (fun i => Int (b2z (word_bit ws i)))), seq_nth by exact Hi. cbn [Nat.add]. unfold word_bit.
      destruct (Nat.eqb_spec (i / 64) (k / 64)) as [E|]; [|reflexivity].
      rewrite Hw by (pose proof (mod64 i); lia). destruct (Z.eqb_spec (Z.of_nat (k mod 64)) (Z.of_nat (i mod 64))) as [E2|]; [|rewrite E; reflexivity].
      exfalso. apply N. rewrite (Nat.div_mod i 64), (Nat.div_mod k 64) by lia. lia.
Qed.

(** ** vref and fastvref *)
Lemma fastvref_ok : forall v n, wf_vec v -> (n < vecsize v)%nat -> fastvref v n = Ret (nth n (elements v) (Int 0)).
Proof.
  intros [s ws|s bs|ws|vs] n W H; cbn in H; cbn [fastvref].
  - destruct W as [W1 W2]. rewrite (load_ok _ _ 0) by (rewrite W1; apply div64_lt; exact H). cbn [bind].
    rewrite land_mask by (pose proof (mod64 n); lia). cbn [elements].
    rewrite (nth_indep _ (Int 0) (Int (b2z (word_bit ws 0)))) by (rewrite map_length, seq_length; exact H).
    rewrite (map_nth (fun i => Int (b2z (word_bit ws i)))), seq_nth by exact H. reflexivity.
  - destruct W as [W1 W2]. pose proof (byte_lt s). rewrite (load_ok _ _ 0) by lia. cbn [bind elements].
    rewrite (map_nth Int). f_equal. f_equal. rewrite <- (firstn_skipn s bs) at 1. rewrite app_nth1; [reflexivity|]. rewrite firstn_length. lia.
  - rewrite (load_ok _ _ 0) by exact H. cbn [bind elements]. rewrite (map_nth Int). reflexivity.
  - apply load_ok. exact H.
Qed.
Lemma vref_ok : forall v n, wf_vec v -> 0 <= n < Z.of_nat (vecsize v) -> vref v n = Ret (nth (Z.to_nat n) (elements v) (Int 0)).
Proof.
  intros v n W H. unfold vref. destruct (Z.ltb_spec n 0); [lia|]. destruct (Z.leb_spec (Z.of_nat (vecsize v)) n); [lia|]. cbn [orb].
  apply fastvref_ok; [exact W|lia].
Qed.
Lemma vref_out : forall v n, (n < 0 \/ Z.of_nat (vecsize v) <= n) -> vref v n = Error.
Proof. intros v n H. unfold vref. destruct (Z.ltb_spec n 0); [reflexivity|]. destruct (Z.leb_spec (Z.of_nat (vecsize v)) n); [reflexivity|lia]. Qed.
Lemma vset_out : forall v n x, (n < 0 \/ Z.of_nat (vecsize v) <= n) -> vset v n x = Error.
Proof. intros v n x H. unfold vset. destruct (Z.ltb_spec n 0); [reflexivity|]. destruct (Z.leb_spec (Z.of_nat (vecsize v)) n); [reflexivity|lia]. Qed.

Lemma wrap64_id : forall z, in_long z -> wrap64 z = z.
Proof. intros z H. unfold wrap64, in_long in *. rewrite Z.mod_small by lia. lia. Qed.
Lemma ckintval_small : forall z, - 2 ^ 62 <= z < 2 ^ 62 -> ckintval (Int z) = Ret z.
Proof.
  intros z H. unfold ckintval. destruct (Z.leb_spec (- 2 ^ 126) z); [|lia]. destruct (Z.ltb_spec z (2 ^ 64)); [|lia]. cbn [andb].
  rewrite wrap64_id; [reflexivity|]. unfold in_long. lia.
Qed.
Lemma land1 : forall z, z = 0 \/ z = 1 -> Z.land z 1 = z.
Proof. intros z [->| ->]; reflexivity. Qed.

(** ** vset outside bit vectors *)
Definition is_bit (v : vec) : bool := match v with VBit _ _ => true | _ => false end.
Lemma vset_ok : forall v n x, wf_vec v -> is_bit v = false -> fits v x -> 0 <= n < Z.of_nat (vecsize v) ->
  exists v', vset v n x = Ret v' /\ elements v' = update (elements v) (Z.to_nat n) x /\ wf_vec v' /\ vecsize v' = vecsize v /\ is_bit v' = false /\
    (forall y, fits v' y <-> fits v y).
Proof.
  intros v n x W B F H. unfold vset. destruct (Z.ltb_spec n 0); [lia|]. destruct (Z.leb_spec (Z.of_nat (vecsize v)) n); [lia|]. cbn [orb].
  destruct v as [s ws|s bs|ws|vs]; [discriminate B| | |]; cbn [vecsize] in *.
  - destruct x as [z|]; [|destruct F]. cbn [fits] in F. destruct W as [W1 W2]. pose proof (byte_lt s). rewrite ckintval_small by lia. cbn [bind].
    rewrite store_ok by lia. cbn [bind]. rewrite Z.mod_small by lia. eexists. split; [reflexivity|]. cbn [elements].
    rewrite firstn_update, map_update. split; [reflexivity|]. split; [split; [rewrite update_length; exact W1|apply update_Forall; auto]|]. cbn. repeat split; auto.
  - destruct x as [z|]; [|destruct F]. cbn [fits coerceintval bind] in *. rewrite store_ok by lia. cbn [bind]. rewrite wrap64_id by exact F.
    eexists. split; [reflexivity|]. cbn [elements]. rewrite map_update. split; [reflexivity|]. split; [apply update_Forall; auto|]. cbn. rewrite update_length. repeat split; auto.
  - rewrite store_ok by lia. cbn [bind]. eexists. split; [reflexivity|]. split; [reflexivity|]. split; [exact Logic.I|]. cbn. rewrite update_length. repeat split; auto.
Qed.
Lemma to_int_small : forall z, - 2147483648 <= z < 2147483648 -> to_int z = z.
Proof. intros z H. unfold to_int. rewrite Z.mod_small by lia. lia. Qed.
(** bit vectors: only the low 31 positions of each word *)
Lemma vset_bit_ok : forall s ws n z, wf_vec (VBit s ws) -> z = 0 \/ z = 1 -> 0 <= n < Z.of_nat s -> n mod 64 < 31 ->
  exists v', vset (VBit s ws) n (Int z) = Ret v' /\ elements v' = update (elements (VBit s ws)) (Z.to_nat n) (Int z) /\ wf_vec v' /\ vecsize v' = s.
Proof.
  intros s ws n z W F H Hn. unfold vset. cbn [vecsize]. destruct (Z.ltb_spec n 0); [lia|]. destruct (Z.leb_spec (Z.of_nat s) n); [lia|]. cbn [orb].
  destruct W as [W1 W2]. set (k := Z.to_nat n) in *. assert (Hk : (k < s)%nat) by lia. assert (Hd := div64_lt k s Hk).
  rewrite ckintval_small by lia. cbn [bind]. rewrite (load_ok _ _ 0) by lia. cbn [bind]. rewrite store_ok by lia. cbn [bind].
  assert (Em : n mod 64 = Z.of_nat (k mod 64)). { unfold k. rewrite Nat2Z.inj_mod, Z2Nat.id by lia. reflexivity. }
  assert (R0 : 0 <= n mod 64) by (apply Z.mod_pos_bound; lia).
  assert (P : 0 <= 2 ^ (n mod 64) <= 2 ^ 30). { split; [lia|]. apply Z.pow_le_mono_r; lia. }
  rewrite (to_int_small (Z.shiftl 1 (n mod 64))) by (rewrite Z.shiftl_1_l; lia).
  rewrite land1 by exact F.
  rewrite (to_int_small (Z.shiftl z (n mod 64))) by (rewrite Z.shiftl_mul_pow2 by lia; destruct F as [->| ->]; lia).
  eexists. split; [reflexivity|]. split; [|split; [split; [rewrite update_length; exact W1|apply update_Forall; [exact W2|apply u64_range]]|reflexivity]].
  replace (Int z) with (Int (b2z (Z.testbit z 0))) by (destruct F as [->| ->]; reflexivity).
  apply bit_elements; [exact W1|exact Hk|]. intros j Hj. rewrite u64_bits by exact Hj.
  rewrite Z.lor_spec, Z.land_spec, Z.lnot_spec, shiftl1_bits by lia. rewrite <- Em. destruct (Z.eqb_spec (n mod 64) j) as [Ej|Nj].
  - rewrite andb_false_r. cbn [orb]. rewrite Z.shiftl_spec by lia. f_equal. lia.
  - rewrite andb_true_r. replace (Z.testbit (Z.shiftl z (n mod 64)) j) with false; [apply orb_false_r|].
    symmetry. destruct F as [->| ->]; [rewrite Z.shiftl_0_l; apply Z.bits_0|]. rewrite shiftl1_bits by lia. apply Z.eqb_neq. exact Nj.
Qed.
Lemma setclear_bits : forall w k b j, 0 <= k < 64 -> 0 <= j < 64 -> b = 0 \/ b = 1 ->
  Z.testbit (if b =? 0 then u64 (Z.land w (Z.lnot (u64 (Z.shiftl 1 k)))) else u64 (Z.lor w (u64 (Z.shiftl 1 k)))) j =
  if k =? j then Z.testbit b 0 else Z.testbit w j.
Proof.
  intros w k b j Hk Hj [->| ->]; cbn [Z.eqb]; rewrite u64_bits by exact Hj.
  - rewrite Z.land_spec, Z.lnot_spec, mask_bits by lia. destruct (Z.eqb_spec k j); [apply andb_false_r|apply andb_true_r].
  - rewrite Z.lor_spec, mask_bits by lia. destruct (Z.eqb_spec k j); [apply orb_true_r|apply orb_false_r].
Qed.
Lemma setclear_range : forall w m b, 0 <= (if b =? 0 then u64 (Z.land w (Z.lnot m)) else u64 (Z.lor w m)) < 2 ^ 64.
Proof. intros. destruct (b =? 0); apply u64_range. Qed.

(** fastvset: every element type *)
Lemma fastvset_ok : forall v n x, wf_vec v -> fits v x -> (n < vecsize v)%nat ->
  exists v', fastvset v n x = Ret v' /\ elements v' = update (elements v) n x /\ wf_vec v' /\ vecsize v' = vecsize v.
Proof.
  intros v n x W F H. destruct v as [s ws|s bs|ws|vs]; cbn [vecsize] in *; cbn [fastvset].
  - destruct x as [z|]; [|destruct F]. cbn [fits coerceintval bind] in *. destruct W as [W1 W2]. assert (Hd := div64_lt n s H).
    rewrite (load_ok _ _ 0) by lia. cbn [bind]. rewrite store_ok by lia. cbn [bind]. rewrite wrap64_id by (unfold in_long; lia).
    rewrite land1 by exact F.
    eexists. split; [reflexivity|]. split; [|split; [split; [rewrite update_length; exact W1|apply update_Forall; [exact W2|apply setclear_range]]|reflexivity]].
    replace (Int z) with (Int (b2z (Z.testbit z 0))) by (destruct F as [->| ->]; reflexivity).
    apply bit_elements; [exact W1|exact H|]. intros j Hj. apply setclear_bits; [pose proof (mod64 n); lia|exact Hj|exact F].
  - destruct x as [z|]; [|destruct F]. cbn [fits coerceintval bind] in *. destruct W as [W1 W2]. pose proof (byte_lt s). rewrite store_ok by lia. cbn [bind].
    rewrite wrap64_id by (unfold in_long; lia). rewrite Z.mod_small by lia. eexists. split; [reflexivity|]. cbn [elements].
    rewrite firstn_update, map_update. split; [reflexivity|]. split; [split; [rewrite update_length; exact W1|apply update_Forall; auto]|]. reflexivity.
  - destruct x as [z|]; [|destruct F]. cbn [fits coerceintval bind] in *. rewrite store_ok by lia. cbn [bind]. rewrite wrap64_id by exact F.
    eexists. split; [reflexivity|]. cbn [elements]. rewrite map_update. split; [reflexivity|]. split; [apply update_Forall; auto|]. cbn. apply update_length.
  - rewrite store_ok by lia. cbn [bind]. eexists. split; [reflexivity|]. split; [reflexivity|]. split; [exact Logic.I|]. cbn. apply update_length.
Qed.
Lemma SETBIT_ok : forall s ws n z, wf_vec (VBit s ws) -> z = 0 \/ z = 1 -> 0 <= n < Z.of_nat s -> n < 2147483648 ->
  exists v', SETBIT (VBit s ws) (Int n) (Int z) = Ret (v', Int z) /\ elements v' = update (elements (VBit s ws)) (Z.to_nat n) (Int z) /\ wf_vec v' /\ vecsize v' = s.
Proof.
  intros s ws n z W F H Hn. unfold SETBIT. rewrite !ckintval_small by lia. cbn [bind]. rewrite to_int_small, land1 by (assumption || lia).
  destruct (Z.ltb_spec n 0); [lia|]. destruct (Z.leb_spec (Z.of_nat s) n); [lia|]. cbn [orb].
  destruct W as [W1 W2]. set (k := Z.to_nat n) in *. assert (Hk : (k < s)%nat) by lia. assert (Hd := div64_lt k s Hk).
  rewrite (load_ok _ _ 0) by lia. cbn [bind]. rewrite store_ok by lia. cbn [bind].
  assert (Em : n mod 64 = Z.of_nat (k mod 64)). { unfold k. rewrite Nat2Z.inj_mod, Z2Nat.id by lia. reflexivity. }
  eexists. split; [reflexivity|]. split; [|split; [split; [rewrite update_length; exact W1|apply update_Forall; [exact W2|apply setclear_range]]|reflexivity]].
  replace (Int z) with (Int (b2z (Z.testbit z 0))) by (destruct F as [->| ->]; reflexivity).
  apply bit_elements; [exact W1|exact Hk|]. intros j Hj. rewrite Em. apply setclear_bits; [pose proof (mod64 k); lia|exact Hj|exact F].
Qed.
Lemma BIT_ok : forall s ws n, wf_vec (VBit s ws) -> 0 <= n < Z.of_nat s -> n < 2147483648 -> BIT (VBit s ws) (Int n) = Ret (nth (Z.to_nat n) (elements (VBit s ws)) (Int 0)).
Proof.
  intros s ws n W H Hn. rewrite <- fastvref_ok by (auto; cbn; lia). unfold BIT. rewrite ckintval_small by lia. cbn [bind]. rewrite to_int_small by lia.
  destruct (Z.ltb_spec n 0); [lia|]. destruct (Z.leb_spec (Z.of_nat s) n); [lia|]. cbn [orb fastvref].
  replace (Z.of_nat (Z.to_nat n mod 64)) with (n mod 64); [reflexivity|]. rewrite Nat2Z.inj_mod, Z2Nat.id by lia. reflexivity.
Qed.

(** ** Bit-vector operations *)
Definition bits (p : nat * list Z) : list bool := map (word_bit (snd p)) (seq 0 (fst p)).
Definition bool_op (o : bitop) : bool -> bool -> bool :=
  match o with And => andb | Ior => orb | Xor => xorb | Eqv => Bool.eqb | Nand => fun x y => negb (x && y) | Nor => fun x y => negb (x || y) end.
Fixpoint map2 (f : bool -> bool -> bool) (x y : list bool) : list bool :=
  match x, y with a :: r, b :: s => f a b :: map2 f r s | _, _ => [] end.
Definition wf_bv (p : nat * list Z) : Prop := length (snd p) = bv_words (fst p).

Lemma word_op_bits : forall o x y k, Z.testbit (word_op o x y) k = bool_op o (Z.testbit x k) (Z.testbit y k) \/ k < 0.
Proof.
  intros o x y k. destruct (Z.ltb_spec k 0) as [|H]; [right; lia|left]. destruct o; cbn [word_op bool_op]; rewrite ?Z.lnot_spec by exact H;
    rewrite ?Z.land_spec, ?Z.lor_spec, ?Z.lxor_spec; try reflexivity. destruct (Z.testbit x k), (Z.testbit y k); reflexivity.
Qed.
Lemma bv_put_same : forall m a ws, bv_put m a ws a = (fst (m a), ws).
Proof. intros. unfold bv_put. rewrite Nat.eqb_refl. reflexivity. Qed.
Lemma bv_put_other : forall m a ws b, b <> a -> bv_put m a ws b = m b.
Proof. intros m a ws b H. unfold bv_put. apply Nat.eqb_neq in H. rewrite H. reflexivity. Qed.
(** the loop from word [i]: words below [i] stay, words from [i] on are computed from the words there before *)
Lemma bv_loop_ok : forall op a b r n m i, (i + n <= length (snd (m a)))%nat -> (i + n <= length (snd (m b)))%nat -> (i + n <= length (snd (m r)))%nat ->
  exists m', bv_loop op m a b r i n = Ret m' /\ (forall c, c <> r -> m' c = m c) /\ fst (m' r) = fst (m r) /\ length (snd (m' r)) = length (snd (m r)) /\
    forall j, nth j (snd (m' r)) 0 = if (i <=? j)%nat && (j <? i + n)%nat then u64 (op (nth j (snd (m a)) 0) (nth j (snd (m b)) 0)) else nth j (snd (m r)) 0.
Proof.
  intros op a b r. induction n as [|n IH]; intros m i Ha Hb Hr.
  - exists m. split; [reflexivity|]. repeat split; auto. intro j. destruct (Nat.leb_spec i j), (Nat.ltb_spec j (i + 0)); cbn; try reflexivity. lia.
  - cbn [bv_loop]. rewrite (load_ok (snd (m a)) i 0) by lia. cbn [bind]. rewrite (load_ok (snd (m b)) i 0) by lia. cbn [bind]. rewrite store_ok by lia. cbn [bind].
    set (w := u64 (op (nth i (snd (m a)) 0) (nth i (snd (m b)) 0))). set (m1 := bv_put m r (update (snd (m r)) i w)).
    assert (N1 : forall c j, nth j (snd (m1 c)) 0 = if Nat.eqb c r && Nat.eqb j i then w else nth j (snd (m c)) 0).
    { intros c j. unfold m1. destruct (Nat.eqb_spec c r) as [->|Nc].
      - rewrite bv_put_same. cbn [snd andb]. apply update_nth. lia.
      - rewrite bv_put_other by exact Nc. reflexivity. }
    assert (L1 : forall c, length (snd (m1 c)) = length (snd (m c))).
    { intro c. unfold m1. destruct (Nat.eqb_spec c r) as [->|Nc]; [rewrite bv_put_same; cbn; apply update_length|rewrite bv_put_other by exact Nc; reflexivity]. }
    destruct (IH m1 (S i)) as [m' [E [E1 [E2 [E3 E4]]]]]; [rewrite L1; lia|rewrite L1; lia|rewrite L1; lia|].
    exists m'. split; [exact E|]. split; [intros c Hc; rewrite E1 by exact Hc; apply bv_put_other; exact Hc|].
    split; [rewrite E2; unfold m1; rewrite bv_put_same; reflexivity|]. split; [rewrite E3; apply L1|].
    intro j. rewrite E4, !N1. destruct (Nat.eqb_spec j i) as [->|Nj].
    + rewrite andb_true_r, Nat.eqb_refl. destruct (Nat.leb_spec (S i) i); [lia|]. cbn [andb].
      destruct (Nat.leb_spec i i); [|lia]. destruct (Nat.ltb_spec i (i + S n)); [|lia]. reflexivity.
    + rewrite !andb_false_r. destruct (Nat.leb_spec (S i) j), (Nat.leb_spec i j); try lia; cbn [andb]; try reflexivity.
      destruct (Nat.ltb_spec j (S i + n)), (Nat.ltb_spec j (i + S n)); try lia; reflexivity.
Qed.
Lemma map2_map : forall f (g h : nat -> bool) l, map2 f (map g l) (map h l) = map (fun i => f (g i) (h i)) l.
Proof. induction l; cbn; f_equal; auto. Qed.
Lemma bv_loop_bits : forall op f m a b r s, (forall x y k, 0 <= k -> Z.testbit (op x y) k = f (Z.testbit x k) (Z.testbit y k)) ->
  fst (m a) = s -> fst (m b) = s -> fst (m r) = s -> wf_bv (m a) -> wf_bv (m b) -> wf_bv (m r) ->
  exists m', bv_loop op m a b r 0 (bv_words s) = Ret m' /\ (forall c, c <> r -> m' c = m c) /\ wf_bv (m' r) /\ bits (m' r) = map2 f (bits (m a)) (bits (m b)).
Proof.
  intros op f m a b r s Hop Sa Sb Sr Wa Wb Wr. unfold wf_bv in *. rewrite Sa in Wa. rewrite Sb in Wb. rewrite Sr in Wr.
  destruct (bv_loop_ok op a b r (bv_words s) m 0) as [m' [E [E1 [E2 [E3 E4]]]]]; [lia|lia|lia|].
  exists m'. split; [exact E|]. split; [exact E1|]. split; [congruence|]. unfold bits. rewrite E2, Sr, Sa, Sb, map2_map. apply map_ext_in.
  intros i Hi. apply in_seq in Hi. unfold word_bit. rewrite E4. pose proof (div64_lt i s ltac:(lia)).
  replace ((0 <=? i / 64)%nat && (i / 64 <? 0 + bv_words s)%nat) with true; [rewrite u64_bits by (pose proof (mod64 i); lia); apply Hop; lia|].
  symmetry. apply andb_true_intro. split; [apply Nat.leb_le; lia|apply Nat.ltb_lt; lia].
Qed.
Lemma bv_make_same : forall m r s, bv_make m r s r = (s, repeat 0 (bv_words s)).
Proof. intros. unfold bv_make. rewrite Nat.eqb_refl. reflexivity. Qed.
Lemma bv_make_other : forall m r s b, b <> r -> bv_make m r s b = m b.
Proof. intros m r s b H. unfold bv_make. apply Nat.eqb_neq in H. rewrite H. reflexivity. Qed.

Definition result_ok (m : bvmem) (res : nat + nat) (s : nat) (args : list nat) : Prop :=
  match res with inl r => fst (m r) = s /\ wf_bv (m r) | inr r => ~ In r args end.
Definition place (res : nat + nat) : nat := match res with inl r | inr r => r end.
Lemma BITOP_ok : forall o m a b res, wf_bv (m a) -> wf_bv (m b) -> fst (m a) = fst (m b) -> result_ok m res (fst (m a)) [a; b] ->
  exists m', BITOP o m a b res = Ret (m', place res) /\ (forall c, c <> place res -> m' c = m c) /\ wf_bv (m' (place res)) /\
    bits (m' (place res)) = map2 (bool_op o) (bits (m a)) (bits (m b)).
Proof.
  intros o m a b res Wa Wb S R. unfold BITOP. rewrite <- S, Nat.eqb_refl. cbn [negb].
  assert (Hop : forall x y k, 0 <= k -> Z.testbit (word_op o x y) k = bool_op o (Z.testbit x k) (Z.testbit y k)).
  { intros x y k Hk. destruct (word_op_bits o x y k); [assumption|lia]. }
  destruct res as [r|r]; cbn [result_ok place] in *.
  - destruct R as [R1 R2]. rewrite R1, Nat.eqb_refl. cbn [negb].
    destruct (bv_loop_bits (word_op o) (bool_op o) m a b r (fst (m a)) Hop) as [m' [E [E1 [E2 E3]]]]; auto.
    rewrite E. cbn [bind]. exists m'. auto.
  - assert (Na : a <> r) by (intro; subst; apply R; cbn; auto). assert (Nb : b <> r) by (intro; subst; apply R; cbn; auto).
    destruct (bv_loop_bits (word_op o) (bool_op o) (bv_make m r (fst (m a))) a b r (fst (m a)) Hop) as [m' [E [E1 [E2 E3]]]];
      rewrite ?bv_make_same, ?(bv_make_other m r _ a Na), ?(bv_make_other m r _ b Nb) in *; auto.
    { unfold wf_bv. cbn. apply repeat_length. }
    rewrite E. cbn [bind]. exists m'. split; [reflexivity|]. split; [|auto]. intros c Hc. rewrite E1 by exact Hc. apply bv_make_other. exact Hc.
Qed.
Lemma BITNOT_ok : forall m a res, wf_bv (m a) -> result_ok m res (fst (m a)) [a] ->
  exists m', BITNOT m a res = Ret (m', place res) /\ (forall c, c <> place res -> m' c = m c) /\ wf_bv (m' (place res)) /\
    bits (m' (place res)) = map negb (bits (m a)).
Proof.
  intros m a res Wa R. unfold BITNOT.
  assert (Hop : forall x y k, 0 <= k -> Z.testbit ((fun x _ : Z => Z.lnot x) x y) k = (fun x _ => negb x) (Z.testbit x k) (Z.testbit y k)).
  { intros x y k Hk. apply Z.lnot_spec. exact Hk. }
  assert (M : forall l, map2 (fun x _ => negb x) l l = map negb l) by (induction l; cbn; f_equal; auto).
  destruct res as [r|r]; cbn [result_ok place] in *.
  - destruct R as [R1 R2]. rewrite R1, Nat.eqb_refl. cbn [negb].
    destruct (bv_loop_bits (fun x _ => Z.lnot x) (fun x _ => negb x) m a a r (fst (m a)) Hop) as [m' [E [E1 [E2 E3]]]]; auto.
    rewrite E. cbn [bind]. exists m'. rewrite M in E3. auto.
  - assert (Na : a <> r) by (intro; subst; apply R; cbn; auto).
    destruct (bv_loop_bits (fun x _ => Z.lnot x) (fun x _ => negb x) (bv_make m r (fst (m a))) a a r (fst (m a)) Hop) as [m' [E [E1 [E2 E3]]]];
      rewrite ?bv_make_same, ?(bv_make_other m r _ a Na) in *; auto.
    { unfold wf_bv. cbn. apply repeat_length. }
    rewrite E. cbn [bind]. exists m'. rewrite M in E3. split; [reflexivity|]. split; [|auto]. intros c Hc. rewrite E1 by exact Hc. apply bv_make_other. exact Hc.
Qed.

(** ** Array subscripts *)
Fixpoint in_range (dims subs : list Z) : Prop :=
  match dims, subs with [], [] => True | d :: ds, s :: ss => 0 <= s < d /\ in_range ds ss | _, _ => False end.
Fixpoint row_major (dims subs : list Z) : Z :=
  match dims, subs with d :: ds, s :: ss => s * product ds + row_major ds ss | _, _ => 0 end.
Definition int_max : Z := 2147483647.

Lemma product_pos : forall dims subs, in_range dims subs -> 1 <= product dims.
Proof. induction dims as [|d ds IH]; intros [|s ss] H; cbn in *; try tauto; try lia. destruct H as [H1 H2]. apply IH in H2. unfold product in H2. nia. Qed.
Lemma row_major_bound : forall dims subs, in_range dims subs -> 0 <= row_major dims subs < product dims.
Proof.
  induction dims as [|d ds IH]; intros [|s ss] H; cbn [in_range row_major] in *; try tauto; [cbn; lia|]. destruct H as [H1 H2].
  pose proof (IH ss H2). pose proof (product_pos ds ss H2). change (product (d :: ds)) with (d * product ds). nia.
Qed.
Lemma row_major_inj : forall dims s t, in_range dims s -> in_range dims t -> row_major dims s = row_major dims t -> s = t.
Proof.
  induction dims as [|d ds IH]; intros [|s ss] [|t ts] Hs Ht E; cbn [in_range row_major] in *; try tauto.
  destruct Hs as [Hs1 Hs2]. destruct Ht as [Ht1 Ht2]. pose proof (row_major_bound ds ss Hs2). pose proof (row_major_bound ds ts Ht2).
  assert (s = t) by nia. subst t. f_equal. apply IH; auto. lia.
Qed.
Lemma in_range_length : forall dims subs, in_range dims subs -> length subs = length dims.
Proof. induction dims; intros [|s ss] H; cbn in *; try tauto. f_equal. apply IHdims. tauto. Qed.
Lemma arrayindex_loop_ok : forall dims subs index, in_range dims subs -> 0 <= index -> (index + 1) * product dims <= int_max ->
  arrayindex_loop dims (map Int subs) index = Ret (index * product dims + row_major dims subs).
Proof.
  unfold int_max. induction dims as [|d ds IH]; intros [|s ss] index H Hi Hp; cbn [in_range map] in *; try tauto.
  - cbn. f_equal. lia.
  - destruct H as [H1 H2]. cbn [arrayindex_loop row_major]. change (product (d :: ds)) with (d * product ds) in *.
    pose proof (product_pos ds ss H2).
    assert (Hd : (index + 1) * d <= 2147483647) by nia. assert (0 <= index * d) by (apply Z.mul_nonneg_nonneg; lia).
    assert (d <= 2147483647) by nia.
    rewrite ckintval_small by lia. cbn [bind]. rewrite (to_int_small s), (to_int_small d) by lia. destruct (Z.leb_spec d s); [lia|].
    rewrite (to_int_small (index * d + s)) by lia. rewrite IH; [f_equal; ring|exact H2|lia|]. nia.
Qed.
Lemma arrayindex_ok : forall a subs, in_range (a_dims a) subs -> product (a_dims a) <= int_max -> 0 <= a_off a -> a_off a + product (a_dims a) <= int_max ->
  arrayindex a (map Int subs) = Ret (a_off a + row_major (a_dims a) subs).
Proof.
  intros a subs H P O OP. unfold arrayindex. rewrite map_length, (in_range_length _ _ H), Nat.eqb_refl. cbn [negb].
  rewrite arrayindex_loop_ok by (auto; lia). cbn [bind]. pose proof (row_major_bound _ _ H). rewrite to_int_small by (unfold int_max in *; lia). f_equal. lia.
Qed.
(** a non-negative subscript beyond its dimension is reported, and so is a wrong number of subscripts *)
Fixpoint too_big (dims subs : list Z) : Prop :=
  match dims, subs with d :: ds, s :: ss => d <= s <= int_max \/ too_big ds ss | _, _ => False end.
Lemma arrayindex_loop_big : forall dims subs index, too_big dims subs -> Forall (fun d => 0 <= d <= int_max) dims -> arrayindex_loop dims (map Int subs) index = Error.
Proof.
  unfold int_max. induction dims as [|d ds IH]; intros [|s ss] index H F; cbn [too_big map] in *; try tauto. inversion F as [|? ? Fd Fds]; subst. cbn [arrayindex_loop].
  destruct (ckintval (Int s)) as [z| | |] eqn:E; cbn [bind]; try (unfold ckintval in E; destruct ((- 2 ^ 126 <=? s) && (s <? 2 ^ 64)); discriminate E); [|reflexivity].
  destruct (Z.leb_spec (to_int d) (to_int z)) as [|L]; [reflexivity|]. destruct H as [H|H]; [exfalso|apply IH; auto].
  unfold int_max in *. rewrite ckintval_small in E by lia. injection E as <-. rewrite !to_int_small in L by lia. lia.
Qed.
Lemma arrayindex_big : forall a subs, (length subs <> length (a_dims a) \/ (Forall (fun d => 0 <= d <= int_max) (a_dims a) /\ too_big (a_dims a) subs)) -> arrayindex a (map Int subs) = Error.
Proof.
  intros a subs H. unfold arrayindex. rewrite map_length. destruct (Nat.eqb_spec (length subs) (length (a_dims a))); [|reflexivity]. cbn [negb].
  destruct H as [|[H1 H2]]; [contradiction|]. rewrite arrayindex_loop_big by assumption. reflexivity.
Qed.
Lemma AREF_ok : forall a subs, subs <> [] -> wf_vec (a_ent a) -> in_range (a_dims a) subs -> 0 <= a_off a -> a_off a + product (a_dims a) <= Z.min int_max (Z.of_nat (vecsize (a_ent a))) ->
  AREF a (map Int subs) = Ret (nth (Z.to_nat (a_off a + row_major (a_dims a) subs)) (elements (a_ent a)) (Int 0)).
Proof.
  intros a subs N W R O P. unfold AREF. destruct subs as [|s ss]; [contradiction|]. pose proof (product_pos _ _ R) as Pp. pose proof (row_major_bound _ _ R) as Rb.
  rewrite arrayindex_ok by (auto; unfold int_max in *; lia). cbn [map].
  destruct (a_dims a) as [|d ds] eqn:D; [destruct R|]. assert (s < d /\ 0 <= s /\ d <= int_max).
  { destruct R as [R1 R2]. pose proof (product_pos ds ss R2). change (product (d :: ds)) with (d * product ds) in *. unfold int_max in *. nia. }
  rewrite ckintval_small by (unfold int_max in *; lia). cbn [bind]. apply vref_ok; [exact W|]. lia.
Qed.
Lemma nth_update_same : forall {A} (l : list A) n x d, (n < length l)%nat -> nth n (update l n x) d = x.
Proof. intros. rewrite update_nth by assumption. rewrite Nat.eqb_refl. reflexivity. Qed.
Lemma ASET_ok : forall a subs x, subs <> [] -> wf_vec (a_ent a) -> is_bit (a_ent a) = false -> fits (a_ent a) x -> in_range (a_dims a) subs -> 0 <= a_off a -> a_off a + product (a_dims a) <= Z.min int_max (Z.of_nat (vecsize (a_ent a))) ->
  exists a', ASET a (map Int subs) x = Ret a' /\ AREF a' (map Int subs) = Ret x /\
    (forall t, in_range (a_dims a) t -> t <> subs -> AREF a' (map Int t) = AREF a (map Int t)) /\ a_dims a' = a_dims a /\
    (forall i, Z.of_nat i < a_off a \/ a_off a + product (a_dims a) <= Z.of_nat i -> nth i (elements (a_ent a')) (Int 0) = nth i (elements (a_ent a)) (Int 0)).
Proof.
  intros a subs x N W B F R O P. pose proof (product_pos _ _ R) as Pp. pose proof (row_major_bound _ _ R) as Rb.
  destruct (vset_ok (a_ent a) (a_off a + row_major (a_dims a) subs) x W B F) as [e [E [E1 [E2 [E3 [E4 E5]]]]]]; [lia|].
  assert (L := elements_length _ W).
  exists (mkArr (a_dims a) (a_fp a) (a_off a) e). split; [|split; [|split; [|split]]].
  - unfold ASET. destruct subs as [|s ss]; [contradiction|]. cbn [map]. change (Int s :: map Int ss) with (map Int (s :: ss)).
    rewrite arrayindex_ok by (auto; unfold int_max in *; lia). cbn [bind]. rewrite E. reflexivity.
  - rewrite AREF_ok; cbn [a_ent a_dims a_off]; auto; [|rewrite E3; exact P]. rewrite E1. rewrite nth_update_same; [reflexivity|]. lia.
  - intros t Rt Nt. pose proof (row_major_bound _ _ Rt). assert (Nnil : t <> []) by (intros ->; destruct subs; [contradiction|]; destruct (a_dims a); [destruct R|destruct Rt]).
    rewrite !AREF_ok; cbn [a_ent a_dims a_off]; auto; [|rewrite E3; exact P]. rewrite E1, update_nth by lia.
    destruct (Nat.eqb_spec (Z.to_nat (a_off a + row_major (a_dims a) t)) (Z.to_nat (a_off a + row_major (a_dims a) subs))); [|reflexivity].
    exfalso. apply Nt. apply (row_major_inj (a_dims a)); auto. lia.
  - reflexivity.
  - intros i Hi. cbn [a_ent]. rewrite E1, update_nth by lia. destruct (Nat.eqb_spec i (Z.to_nat (a_off a + row_major (a_dims a) subs))); [lia|reflexivity].
Qed.

(** ** Stacks *)
Inductive stack_op := Push (x : value) | PushExt (x : value) | Pop.
Definition do_op (o : stack_op) (a : arr) : out (arr * value) :=
  match o with Push x => VECTORPUSH x a | PushExt x => VECTOREXPUSH x a | Pop => VECTORPOP a end.
(** run a history; stop at the first error *)
Fixpoint run (ops : list stack_op) (a : arr) : out (arr * list value) :=
  match ops with
  | [] => Ret (a, [])
  | o :: r => do p <- do_op o a; do q <- run r (fst p); Ret (fst q, snd p :: snd q)
  end.
(** specification: a stack (bottom first) of bounded capacity; extending doubles the fill count *)
Definition spec_op (o : stack_op) (s : nat * list value) : option (nat * list value * value) :=
  let '(cap, l) := s in
  match o with
  | Push x => if (length l <? cap)%nat then Some (cap, l ++ [x], x) else None
  | PushExt x => Some (if (length l <? cap)%nat then cap else (2 * length l)%nat, l ++ [x], x)
  | Pop => match rev l with [] => None | x :: r => Some (cap, rev r, x) end
  end.
Fixpoint spec_run (ops : list stack_op) (s : nat * list value) : option (nat * list value * list value) :=
  match ops with
  | [] => Some (s, [])
  | o :: r => match spec_op o s with
              | None => None
              | Some (s', x) => match spec_run r s' with None => None | Some (s'', xs) => Some (s'', x :: xs) end
              end
  end.
Definition op_fits (v : vec) (o : stack_op) : Prop := match o with Push x | PushExt x => fits v x | Pop => True end.
(** the array is a non-displaced one with nonzero storage and holds the stack [l] *)
Definition represents (a : arr) (cap : nat) (l : list value) : Prop :=
  wf_vec (a_ent a) /\ is_bit (a_ent a) = false /\ a_off a = 0 /\ a_dims a = [Z.of_nat cap] /\ vecsize (a_ent a) = cap /\ (0 < cap)%nat /\
  a_fp a = Some (Z.of_nat (length l)) /\ (length l <= cap)%nat /\ firstn (length l) (elements (a_ent a)) = l.

Lemma copy_words_ok : forall {A} n (src dst : list A), (n <= length src)%nat -> (n <= length dst)%nat -> copy_words n src dst = Ret (firstn n src ++ skipn n dst).
Proof.
  induction n as [|n IH]; intros [|x src] [|y dst] H1 H2; cbn in *; try lia; try reflexivity.
  rewrite IH by lia. reflexivity.
Qed.
Lemma grow_ok : forall v n, wf_vec v -> is_bit v = false -> (vecsize v <= n)%nat ->
  exists v', grow v n = Ret v' /\ wf_vec v' /\ is_bit v' = false /\ vecsize v' = n /\ firstn (vecsize v) (elements v') = elements v /\ (forall x, fits v' x <-> fits v x).
Proof.
  intros [s ws|s bs|ws|vs] n W B H; [discriminate B| | |]; cbn [vecsize] in H; cbn [grow].
  - destruct W as [W1 W2]. pose proof (byte_lt s). assert (D : ((s + 8) / 8 <= (n + 8) / 8)%nat) by (apply Nat.div_le_mono; lia).
    rewrite copy_words_ok by (rewrite ?repeat_length; lia). cbn [bind]. eexists. split; [reflexivity|].
    rewrite (firstn_all2 bs) by lia.
    assert (L : length (bs ++ skipn (8 * ((s + 8) / 8)) (repeat 0 (8 * ((n + 8) / 8)))) = (8 * ((n + 8) / 8))%nat).
    { rewrite app_length, skipn_length, repeat_length. lia. }
    repeat split; auto.
    + apply Forall_app. split; [exact W2|]. apply Forall_forall. intros x Hx. apply (f_equal (fun l => In x l)) in L || idtac.
      assert (In x (repeat 0 (8 * ((n + 8) / 8)))). { rewrite <- (firstn_skipn (8 * ((s + 8) / 8))). apply in_or_app. right. exact Hx. }
      apply repeat_spec in H1. lia.
    + cbn [vecsize elements]. rewrite firstn_map. f_equal. rewrite firstn_firstn. replace (Nat.min s n) with s by lia. rewrite firstn_app.
      replace (s - length bs)%nat with 0%nat by lia. rewrite firstn_O, app_nil_r. reflexivity.
  - rewrite copy_words_ok by (rewrite ?repeat_length; lia). cbn [bind]. eexists. split; [reflexivity|]. rewrite firstn_all.
    repeat split; auto.
    + cbn. apply Forall_app. split; [exact W|]. apply Forall_forall. intros x Hx.
      assert (In x (repeat 0 n)). { rewrite <- (firstn_skipn (length ws)). apply in_or_app. right. exact Hx. } apply repeat_spec in H0. subst. unfold in_long. lia.
    + cbn. rewrite app_length, skipn_length, repeat_length. lia.
    + cbn [vecsize elements]. rewrite map_app, firstn_app, map_length, Nat.sub_diag, firstn_O, app_nil_r, firstn_all2 by (rewrite map_length; lia). reflexivity.
  - rewrite copy_words_ok by (rewrite ?repeat_length; lia). cbn [bind]. eexists. split; [reflexivity|]. rewrite firstn_all.
    repeat split; auto.
    + cbn. rewrite app_length, skipn_length, repeat_length. lia.
    + cbn [vecsize elements]. rewrite firstn_app, Nat.sub_diag, firstn_O, app_nil_r, firstn_all. reflexivity.
Qed.
Lemma firstn_update_next : forall {A} (l : list A) n x, (n < length l)%nat -> firstn (S n) (update l n x) = firstn n l ++ [x].
Proof. induction l as [|y l IH]; intros [|n] x H; cbn [length] in *; try lia; [reflexivity|]. cbn [update]. rewrite firstn_cons. rewrite IH by lia. reflexivity. Qed.

Lemma push_into : forall e x l, wf_vec e -> is_bit e = false -> fits e x -> (length l < vecsize e)%nat -> firstn (length l) (elements e) = l ->
  exists e', vset e (Z.of_nat (length l)) x = Ret e' /\ wf_vec e' /\ is_bit e' = false /\ vecsize e' = vecsize e /\ firstn (length (l ++ [x])) (elements e') = l ++ [x] /\ (forall y, fits e' y <-> fits e y).
Proof.
  intros e x l W B F H E. destruct (vset_ok e (Z.of_nat (length l)) x W B F) as [e' [E0 [E1 [E2 [E3 [E4 E5]]]]]]; [lia|].
  exists e'. repeat split; auto; try apply E5. rewrite E1, app_length. cbn [length]. rewrite Nat.add_1_r, Nat2Z.id. rewrite firstn_update_next by (rewrite elements_length; auto).
  rewrite E. reflexivity.
Qed.
Lemma do_op_ok : forall o a cap l, represents a cap l -> op_fits (a_ent a) o -> Z.of_nat cap <= 1073741823 ->
  match spec_op o (cap, l) with
  | None => do_op o a = Error
  | Some (cap', l', x) => exists a', do_op o a = Ret (a', x) /\ represents a' cap' l' /\ (forall y, fits (a_ent a') y <-> fits (a_ent a) y) /\ (cap' <= Nat.max cap (2 * length l))%nat
  end.
Proof.
  intros o a cap l [W [B [O [D [S [P [Fp [Le E]]]]]]]] F Hc. destruct o as [x|x|]; cbn [do_op spec_op op_fits] in *.
  - unfold VECTORPUSH. rewrite D, Fp, O. cbn [length Nat.eqb negb]. rewrite !to_int_small by (rewrite ?to_int_small; lia). rewrite Z.add_0_r.
    destruct (Nat.ltb_spec (length l) cap) as [L|L].
    + destruct (push_into (a_ent a) x l) as [e' [E0 [E1 [E2 [E3 [E4 E5]]]]]]; auto; [lia|]. rewrite E0. cbn [bind].
      eexists. split; [reflexivity|]. split; [|split; [exact E5|lia]]. unfold represents. cbn [a_ent a_off a_dims a_fp].
      rewrite app_length. cbn [length]. repeat split; auto; try lia; try congruence. { f_equal. lia. } rewrite app_length in E4. exact E4.
    + rewrite vset_out by lia. reflexivity.
  - unfold VECTOREXPUSH. rewrite D, Fp, O. cbn [length Nat.eqb negb]. rewrite !(to_int_small (Z.of_nat (length l))) by lia. rewrite S.
    destruct (Nat.ltb_spec (length l) cap) as [L|L].
    + destruct (Z.leb_spec (Z.of_nat cap) (Z.of_nat (length l))); [lia|]. cbn [bind fst snd].
      destruct (push_into (a_ent a) x l) as [e' [E0 [E1 [E2 [E3 [E4 E5]]]]]]; auto; [lia|]. rewrite E0. cbn [bind].
      eexists. split; [reflexivity|]. split; [|split; [exact E5|lia]]. unfold represents. cbn [a_ent a_off a_dims a_fp].
      rewrite to_int_small by lia. rewrite app_length in *. cbn [length] in *. repeat split; auto; try lia; try congruence. f_equal. lia.
    + assert (length l = cap) by lia. destruct (Z.leb_spec (Z.of_nat cap) (Z.of_nat (length l))); [|lia]. rewrite !(to_int_small (Z.of_nat (length l) * 2)) by lia.
      destruct (grow_ok (a_ent a) (Z.to_nat (Z.of_nat (length l) * 2)) W B) as [g [G0 [G1 [G2 [G3 [G4 G5]]]]]]; [lia|]. rewrite G0. cbn [bind fst snd].
      destruct (push_into g x l) as [e' [E0 [E1 [E2 [E3 [E4 E5]]]]]]; auto; [apply G5; exact F|lia| |].
      { rewrite S in G4. rewrite H, G4. rewrite <- E. rewrite firstn_all2; [reflexivity|]. rewrite elements_length by exact W. lia. }
      rewrite E0. cbn [bind]. eexists. split; [reflexivity|]. split; [|split; [intro y; rewrite E5; apply G5|lia]]. unfold represents. cbn [a_ent a_off a_dims a_fp].
      rewrite to_int_small by lia. rewrite app_length in *. cbn [length] in *. repeat split; auto; try lia; try congruence; try (f_equal; lia).
  - unfold VECTORPOP. rewrite D, Fp, O. cbn [length Nat.eqb negb]. rewrite !(to_int_small (Z.of_nat (length l))) by lia.
    destruct (rev l) as [|x r] eqn:R.
    + assert (l = []) by (rewrite <- (rev_involutive l), R; reflexivity). subst l. reflexivity.
    + assert (El : l = rev r ++ [x]) by (rewrite <- (rev_involutive l), R; reflexivity).
      assert (Ll : length l = Datatypes.S (length (rev r))) by (rewrite El, app_length; cbn; lia).
      destruct (Z.eqb_spec (Z.of_nat (length l)) 0); [lia|]. rewrite Z.add_0_r, to_int_small by lia.
      rewrite vref_ok by (auto; lia). cbn [bind].
      assert (Nx : nth (Z.to_nat (Z.of_nat (length l) - 1)) (elements (a_ent a)) (Int 0) = x).
      { replace (Z.to_nat (Z.of_nat (length l) - 1)) with (length (rev r)) by lia. rewrite <- (firstn_skipn (length l) (elements (a_ent a))).
        rewrite E. rewrite app_nth1 by lia. rewrite El at 1. rewrite app_nth2 by lia. rewrite Nat.sub_diag. reflexivity. }
      rewrite Nx. eexists. split; [reflexivity|]. split; [|split; [reflexivity|lia]]. unfold represents. cbn [a_ent a_off a_dims a_fp].
      repeat split; auto; try lia. { f_equal. lia. }
      replace (firstn (length (rev r)) (elements (a_ent a))) with (firstn (length (rev r)) (firstn (length l) (elements (a_ent a)))) by (rewrite firstn_firstn; f_equal; lia).
      rewrite E, El, firstn_app, Nat.sub_diag, firstn_O, app_nil_r, firstn_all. reflexivity.
Qed.
Lemma spec_len : forall o cap l cap' l' x, spec_op o (cap, l) = Some (cap', l', x) -> (length l' <= S (length l))%nat.
Proof.
  intros [x|x|] cap l cap' l' y H; cbn [spec_op] in H.
  - destruct (length l <? cap)%nat; [|discriminate]. injection H as <- <- <-. rewrite app_length. cbn. lia.
  - injection H as <- <- <-. rewrite app_length. cbn. lia.
  - destruct (rev l) eqn:R; [discriminate|]. injection H as <- <- <-. apply (f_equal (@length value)) in R. rewrite rev_length in *. cbn in R. lia.
Qed.
Lemma run_ok : forall ops a cap l, represents a cap l -> Forall (op_fits (a_ent a)) ops -> Z.of_nat (Nat.max cap (2 * (length l + length ops))) <= 1073741823 ->
  match spec_run ops (cap, l) with
  | None => run ops a = Error
  | Some (cap', l', out) => exists a', run ops a = Ret (a', out) /\ represents a' cap' l'
  end.
Proof.
  induction ops as [|o ops IH]; intros a cap l R F H; cbn [spec_run run]; [exists a; auto|].
  inversion F as [|? ? Fo Fos]; subst. pose proof (do_op_ok o a cap l R Fo ltac:(lia)) as K. destruct (spec_op o (cap, l)) as [[[cap1 l1] x]|] eqn:So.
  - destruct K as [a1 [K1 [K2 [K3 K4]]]]. rewrite K1. cbn [bind fst snd]. pose proof (spec_len _ _ _ _ _ _ So). cbn [length] in H.
    specialize (IH a1 cap1 l1 K2). assert (F1 : Forall (op_fits (a_ent a1)) ops).
    { eapply Forall_impl; [|exact Fos]. intros [y|y|] Hy; cbn in *; auto; apply K3; exact Hy. }
    specialize (IH F1 ltac:(lia)). destruct (spec_run ops (cap1, l1)) as [[[cap2 l2] out]|].
    + destruct IH as [a2 [E1 E2]]. rewrite E1. cbn [bind fst snd]. exists a2. auto.
    + rewrite IH. reflexivity.
  - rewrite K. reflexivity.
Qed.

(** ** make-array with initial contents *)
Fixpoint shaped (dims : list Z) (c : contents) : Prop :=
  match dims with
  | [] => exists x, c = Leaf x
  | d :: ds => exists l, c = Seq l /\ Z.of_nat (length l) = d /\ Forall (shaped ds) l
  end.
(** the element of nested sequences at a list of subscripts *)
Fixpoint at_ (c : contents) (subs : list Z) : option value :=
  match subs with
  | [] => match c with Leaf x => Some x | Seq _ => None end
  | s :: ss => match c with Seq l => match nth_error l (Z.to_nat s) with Some e => at_ e ss | None => None end | Leaf _ => None end
  end.
Inductive all_fit (v : vec) : contents -> Prop :=
| af_leaf x : fits v x -> all_fit v (Leaf x)
| af_seq l : Forall (all_fit v) l -> all_fit v (Seq l).

Fixpoint flat (c : contents) : list value := match c with Leaf x => [x] | Seq l => flat_map flat l end.
Definition splice {A} (l : list A) (off : nat) (new : list A) : list A := firstn off l ++ new ++ skipn (off + length new) l.

Lemma splice_length : forall {A} (l : list A) off new, (off + length new <= length l)%nat -> length (splice l off new) = length l.
Proof. intros. unfold splice. rewrite !app_length, firstn_length, skipn_length. lia. Qed.
Lemma splice_nil : forall {A} (l : list A) off, splice l off [] = l.
Proof. intros. unfold splice. cbn [length app]. rewrite Nat.add_0_r. apply firstn_skipn. Qed.
Lemma splice_nth : forall {A} (l : list A) off new i d, (off + length new <= length l)%nat ->
  nth i (splice l off new) d = if (off <=? i)%nat && (i <? off + length new)%nat then nth (i - off) new d else nth i l d.
Proof.
  intros A l off new i d H. unfold splice. destruct (Nat.leb_spec off i) as [H1|H1]; cbn [andb].
  - rewrite app_nth2 by (rewrite firstn_length; lia). rewrite firstn_length, Nat.min_l by lia. destruct (Nat.ltb_spec i (off + length new)) as [H2|H2].
    + apply app_nth1. lia.
    + rewrite app_nth2 by lia. rewrite <- (firstn_skipn (off + length new) l) at 2. rewrite app_nth2 by (rewrite firstn_length; lia). rewrite firstn_length. f_equal. lia.
  - rewrite app_nth1 by (rewrite firstn_length; lia). rewrite <- (firstn_skipn off l) at 2. rewrite app_nth1 by (rewrite firstn_length; lia). reflexivity.
Qed.
Lemma splice_app : forall {A} (l : list A) off a b, (off + length a + length b <= length l)%nat -> splice (splice l off a) (off + length a) b = splice l off (a ++ b).
Proof.
  intros A l off a b H. destruct l as [|d0 l0] eqn:El; [destruct a, b; try (cbn in H; lia); cbn; rewrite ?splice_nil; reflexivity|]. rewrite <- El in *. clear El l0.
  assert (L : length (splice l off a) = length l) by (apply splice_length; lia).
  apply (nth_ext' _ _ d0).
  - rewrite !splice_length; rewrite ?app_length; lia.
  - intros i Hi. rewrite !splice_nth by (rewrite ?app_length; lia). rewrite app_length.
    destruct (Nat.leb_spec (off + length a) i), (Nat.ltb_spec i (off + length a + length b)), (Nat.leb_spec off i), (Nat.ltb_spec i (off + length a)), (Nat.ltb_spec i (off + (length a + length b)));
      cbn [andb]; try lia; try reflexivity.
    + rewrite app_nth2 by lia. f_equal. lia.
    + rewrite app_nth1 by lia. reflexivity.
Qed.
Lemma update_splice : forall {A} (l : list A) n x, (n < length l)%nat -> update l n x = splice l n [x].
Proof. induction l as [|y l IH]; intros [|n] x H; cbn [length] in H; try lia; [reflexivity|]. cbn [update]. rewrite IH by lia. reflexivity. Qed.

Lemma shaped_flat_length : forall dims c, shaped dims c -> Forall (fun d => 0 <= d) dims -> Z.of_nat (length (flat c)) = product dims.
Proof.
  induction dims as [|d ds IH]; intros c H F; cbn [shaped] in H.
  - destruct H as [x ->]. reflexivity.
  - destruct H as [l [-> [L Fl]]]. inversion F as [|? ? F1 F2]; subst. cbn [flat]. change (product (Z.of_nat (length l) :: ds)) with (Z.of_nat (length l) * product ds).
    clear F F1. induction l as [|c l IHl]; [reflexivity|]. inversion Fl; subst. cbn [flat_map]. rewrite app_length, Nat2Z.inj_add, IH, IHl by assumption. cbn [length]. lia.
Qed.
Lemma flat_at : forall dims c subs, shaped dims c -> in_range dims subs -> exists x, at_ c subs = Some x /\ nth_error (flat c) (Z.to_nat (row_major dims subs)) = Some x.
Proof.
  induction dims as [|d ds IH]; intros c [|s ss] H R; cbn [in_range shaped] in *; try tauto.
  - destruct H as [x ->]. exists x. split; reflexivity.
  - destruct H as [l [-> [L Fl]]]. destruct R as [R1 R2]. cbn [row_major at_].
    assert (Fd : Forall (fun d => 0 <= d) ds). { clear - R2. revert ss R2. induction ds; intros [|s ss] R; cbn in R; try tauto; constructor; [lia|]. eapply IHds. apply R. }
    pose proof (row_major_bound ds ss R2) as Rb.
    destruct (nth_error l (Z.to_nat s)) as [e|] eqn:E; [|apply nth_error_None in E; lia].
    destruct (IH e ss) as [x [X1 X2]]; [|exact R2|]. { rewrite Forall_forall in Fl. apply Fl. eapply nth_error_In; eauto. }
    exists x. split; [exact X1|]. cbn [flat]. clear X1 L. assert (Hs : s = Z.of_nat (Z.to_nat s)) by lia. rewrite Hs. set (k := Z.to_nat s) in *. clearbody k. clear R1 Hs.
    revert l Fl E. induction k as [|k IHk]; intros [|c l] Fl E; cbn in E; try discriminate; inversion Fl; subst; cbn [flat_map].
    + injection E as ->. cbn [Z.of_nat]. rewrite Z.mul_0_l, Z.add_0_l. rewrite nth_error_app1; [exact X2|]. apply nth_error_Some. congruence.
    + pose proof (shaped_flat_length ds c ltac:(assumption) Fd). rewrite nth_error_app2 by nia. rewrite <- (IHk l) by assumption. f_equal. nia.
Qed.
(** results of the filling functions *)
Definition filled (v : vec) (off : Z) (new : list value) (r : out vec) : Prop :=
  exists v', r = Ret v' /\ elements v' = splice (elements v) (Z.to_nat off) new /\ wf_vec v' /\ is_bit v' = false /\ vecsize v' = vecsize v /\ (forall y, fits v' y <-> fits v y).
Lemma ASET_vec_ok : forall v off x, wf_vec v -> is_bit v = false -> fits v x -> 0 <= off < Z.of_nat (vecsize v) -> Z.of_nat (vecsize v) <= int_max -> filled v off [x] (ASET_vec v (Int off) x).
Proof.
  intros v off x W B F H M. unfold int_max in M. unfold ASET_vec. rewrite ckintval_small by lia. cbn [bind]. rewrite to_int_small by lia.
  destruct (vset_ok v off x W B F H) as [v' [E0 [E1 [E2 [E3 [E4 E5]]]]]]. exists v'. repeat split; auto; try apply E5.
  rewrite E1. apply update_splice. rewrite elements_length by exact W. lia.
Qed.
Lemma filled_then : forall v off a v1 b r, 0 <= off -> wf_vec v -> off + Z.of_nat (length a + length b) <= Z.of_nat (vecsize v) ->
  elements v1 = splice (elements v) (Z.to_nat off) a -> vecsize v1 = vecsize v -> (forall y, fits v1 y <-> fits v y) ->
  filled v1 (off + Z.of_nat (length a)) b r -> filled v off (a ++ b) r.
Proof.
  intros v off a v1 b r O W H E1 S F [v' [E0 [E2 [E3 [E4 [E5 E6]]]]]]. exists v'. split; [exact E0|]. split; [|split; [exact E3|split; [exact E4|split; [congruence|]]]].
  - rewrite E2, E1. replace (Z.to_nat (off + Z.of_nat (length a))) with (Z.to_nat off + length a)%nat by lia. apply splice_app. rewrite elements_length by exact W. lia.
  - intro y. rewrite E6. apply F.
Qed.
Lemma fill_row_ok : forall xs v off inc major, wf_vec v -> is_bit v = false -> Forall (fits v) xs -> 0 <= off -> off + Z.of_nat (length xs) <= Z.of_nat (vecsize v) -> Z.of_nat (vecsize v) <= int_max ->
  inc + Z.of_nat (length xs) <= major -> filled v off xs (fill_row v off (map Leaf xs) inc major).
Proof.
  induction xs as [|x xs IH]; intros v off inc major W B F O H M Hm; cbn [map fill_row].
  - exists v. repeat split; auto. symmetry. apply splice_nil.
  - inversion F as [|? ? F1 F2]; subst. cbn [length] in *. destruct (ASET_vec_ok v off x W B F1) as [v1 [E0 [E1 [E2 [E3 [E4 E5]]]]]]; [lia|exact M|].
    rewrite E0. cbn [bind]. destruct (Z.gtb_spec (inc + 1) major); [lia|].
    apply (filled_then v off [x] v1 xs); [exact O|exact W|cbn [length]; lia|exact E1|exact E4|exact E5|]. change (Z.of_nat (length [x])) with 1. apply IH; auto; rewrite ?E4; try lia.
    eapply Forall_impl; [|exact F2]. intros y Hy. apply E5. exact Hy.
Qed.
Lemma all_fit_ext : forall v v' c, (forall y, fits v' y <-> fits v y) -> all_fit v c -> all_fit v' c.
Proof.
  intros v v' c E. revert c. fix IH 2. intros c [x Fx|l Fl]; constructor; [apply E; exact Fx|].
  induction Fl as [|c' l' H _ IHl]; constructor; [apply IH; exact H|exact IHl].
Qed.
Lemma fill_contents_ok : forall dims c v off, dims <> [] -> shaped dims c -> Forall (fun d => 0 <= d) dims -> wf_vec v -> is_bit v = false -> all_fit v c -> 0 <= off ->
  off + product dims <= Z.of_nat (vecsize v) -> Z.of_nat (vecsize v) <= int_max -> filled v off (flat c) (fill_contents v off dims c).
Proof.
  induction dims as [|d ds IH]; intros c v off N Sh Fd W B Fc O H M; [contradiction|]. pose proof (shaped_flat_length _ _ Sh Fd) as Lf. cbn [shaped] in Sh. destruct Sh as [l [-> [L Fl]]].
  inversion Fd as [|? ? Fd1 Fd2]; subst. inversion Fc as [|? Fcl]; subst. cbn [fill_contents]. destruct ds as [|d' ds'] eqn:Eds.
  - assert (exists xs, l = map Leaf xs /\ flat_map flat l = xs /\ Forall (fits v) xs) as [xs [-> [E Fx]]].
    { clear - Fl Fcl. induction l as [|c l IHl]; [exists []; auto|]. inversion Fl as [|? ? [x ->] Fl']; subst. inversion Fcl as [|? ? A Fcl']; subst. destruct (IHl Fl' Fcl') as [xs [-> [E Fx]]].
      exists (x :: xs). inversion A; subst. cbn. rewrite E. auto. }
    cbn [flat]. rewrite E. cbn [product fold_right] in H. rewrite map_length in *. apply fill_row_ok; auto; lia.
  - rewrite <- Eds in *. assert (Nds : ds <> []) by (rewrite Eds; discriminate). clear Eds d' ds'.
    rewrite Nat2Z.id. cbn [flat]. change (product (Z.of_nat (length l) :: ds)) with (Z.of_nat (length l) * product ds) in *.
    assert (Pp : 0 <= product ds). { clear - Fd2. induction Fd2; cbn; [lia|]. unfold product in *. nia. }
    assert (G : forall n i v off, (i + n = length l)%nat -> wf_vec v -> is_bit v = false -> Forall (all_fit v) l -> 0 <= off ->
      off + Z.of_nat n * product ds <= Z.of_nat (vecsize v) -> Z.of_nat (vecsize v) <= int_max ->
      filled v off (flat_map flat (skipn i l)) ((fix rows (n : nat) (i : nat) (v : vec) (offset : Z) {struct n} : out vec :=
                match n with
                | O => Ret v
                | S n' => do e <- elt (Seq l) i; do v' <- fill_contents v offset ds e; rows n' (S i) v' (offset + product ds)
                end) n i v off)).
    { induction n as [|n IHn]; intros i u o Hi Wu Bu Fu Ou Hu Mu.
      - rewrite skipn_all2 by lia. exists u. repeat split; auto. symmetry. apply splice_nil.
      - cbn [elt]. destruct (nth_error l i) as [e|] eqn:E; [|apply nth_error_None in E; lia]. cbn [bind].
        assert (Ie : In e l) by (eapply nth_error_In; eauto).
        assert (She : shaped ds e) by (rewrite Forall_forall in Fl; auto). assert (Fe : all_fit u e) by (rewrite Forall_forall in Fu; auto).
        pose proof (shaped_flat_length ds e She Fd2) as Le.
        destruct (IH e u o) as [v1 [E0 [E1 [E2 [E3 [E4 E5]]]]]]; auto; [nia|]. rewrite E0. cbn [bind].
        assert (Sk : skipn i l = e :: skipn (S i) l).
        { clear - E. revert i E. induction l as [|a l IHl]; intros [|i] E; cbn in *; try discriminate; [congruence|]. apply IHl. exact E. }
        rewrite Sk. cbn [flat_map].
        assert (Lr : Z.of_nat (length (flat_map flat (skipn (S i) l))) = Z.of_nat n * product ds).
        { clear - Fl Hi Fd2. assert (Forall (shaped ds) (skipn (S i) l)). { rewrite <- (firstn_skipn (S i) l) in Fl. apply Forall_app in Fl. tauto. }
          assert (length (skipn (S i) l) = n) by (rewrite skipn_length; lia). clear Hi Fl. revert n H0. induction H as [|c r Hc Hr IHr]; intros n Hn; cbn in *; [subst; lia|].
          rewrite app_length, Nat2Z.inj_add, (shaped_flat_length ds c) by assumption. destruct n; [lia|]. rewrite (IHr n) by lia. lia. }
        rewrite Nat2Z.inj_succ in Hu. apply (filled_then u o (flat e) v1); [exact Ou|exact Wu|rewrite Nat2Z.inj_add, Le, Lr; lia|exact E1|exact E4|exact E5|]. rewrite Le. apply IHn; auto; rewrite ?E4; try lia.
        eapply Forall_impl; [|exact Fu]. intros c Hc. eapply all_fit_ext; [exact E5|exact Hc]. }
    apply (G (length l) 0%nat); auto.
Qed.
Lemma make_array_ok : forall mk dims c, dims <> [] -> shaped dims c -> Forall (fun d => 0 <= d) dims -> Z.max 1 (product dims) <= int_max ->
  (forall n, wf_vec (mk n) /\ is_bit (mk n) = false /\ vecsize (mk n) = n) -> all_fit (mk (Z.to_nat (Z.max 1 (product dims)))) c ->
  exists a, make_array mk dims c = Ret a /\ a_dims a = dims /\ forall subs, in_range dims subs -> exists x, at_ c subs = Some x /\ AREF a (map Int subs) = Ret x.
Proof.
  intros mk dims c N Sh Fd M Mk Fc. unfold make_array. set (n := Z.to_nat (Z.max 1 (product dims))) in *. destruct (Mk n) as [W [B S]].
  destruct (fill_contents_ok dims c (mk n) 0 N Sh Fd W B Fc) as [v [E0 [E1 [E2 [E3 [E4 E5]]]]]]; [lia|rewrite S; lia|rewrite S; lia|].
  rewrite E0. cbn [bind]. eexists. split; [reflexivity|]. split; [reflexivity|]. intros subs R. destruct (flat_at dims c subs Sh R) as [x [X1 X2]]. exists x. split; [exact X1|].
  pose proof (row_major_bound _ _ R) as Rb. pose proof (shaped_flat_length _ _ Sh Fd) as Lf.
  rewrite AREF_ok; cbn [a_ent a_dims a_off]; auto; [| |lia|rewrite E4, S; lia].
  - rewrite Z.add_0_l, E1, splice_nth by (rewrite elements_length by exact W; lia). cbn [Nat.leb].
    replace (Z.to_nat 0) with 0%nat by reflexivity. destruct (Nat.ltb_spec (Z.to_nat (row_major dims subs)) (0 + length (flat c))); [|lia]. cbn [andb Nat.leb].
    rewrite Nat.sub_0_r. f_equal. apply nth_error_nth. exact X2.
  - intros ->. destruct dims; [contradiction|destruct R].
Qed.

(** ** Contents that do not fit the dimensions *)
(** The shape accepted: enough rows in every dimension but the last, and no row of the last dimension too long. *)
Fixpoint accepted (dims : list Z) (c : contents) : Prop :=
  match dims with
  | [] => False
  | d :: ds => match ds with
               | [] => exists l, c = Seq l /\ Z.of_nat (length l) <= Z.max 0 d
               | _ => forall i, (i < Z.to_nat d)%nat -> exists l x, c = Seq l /\ nth_error l i = Some x /\ accepted ds x
               end
  end.
Lemma fill_row_accepted : forall l v off inc major v', 0 <= inc -> fill_row v off l inc major = Ret v' ->
  l = [] \/ inc + Z.of_nat (length l) <= major.
Proof.
  induction l as [|c l IH]; intros v off inc major v' Hi E; [left; reflexivity|right]. destruct c as [x|?]; cbn [fill_row] in E; [|discriminate].
  destruct (ASET_vec v (Int off) x) as [v1| | |]; cbn [bind] in E; try discriminate. destruct (Z.gtb_spec (inc + 1) major); [discriminate|].
  cbn [length]. apply IH in E; [|lia]. destruct E as [-> |E]; cbn [length]; lia.
Qed.
Lemma fill_contents_accepted : forall dims c v off v', fill_contents v off dims c = Ret v' -> accepted dims c.
Proof.
  induction dims as [|d ds IH]; intros c v off v' E; [discriminate|]. cbn [fill_contents] in E. cbn [accepted]. destruct ds as [|d' ds'] eqn:Eds.
  - destruct c as [x|l]; [discriminate|]. exists l. split; [reflexivity|]. apply fill_row_accepted in E; [|lia]. destruct E as [-> |E]; cbn [length]; lia.
  - rewrite <- Eds in *. clear Eds d' ds'.
    assert (K : forall n i v off v', (fix rows (n i : nat) (v : vec) (offset : Z) {struct n} : out vec :=
                match n with
                | O => Ret v
                | S n' => do e <- elt c i; do v' <- fill_contents v offset ds e; rows n' (S i) v' (offset + product ds)
                end) n i v off = Ret v' -> forall j, (i <= j < i + n)%nat -> exists l x, c = Seq l /\ nth_error l j = Some x /\ accepted ds x).
    { induction n as [|n IHn]; intros i u o u' Er j Hj; [lia|].
      destruct (elt c i) as [e| | |] eqn:Ee; cbn [bind] in Er; try discriminate.
      destruct (fill_contents u o ds e) as [u1| | |] eqn:Ef; cbn [bind] in Er; try discriminate.
      destruct (Nat.eq_dec j i) as [-> |N]; [|eapply IHn; [exact Er|lia]].
      unfold elt in Ee. destruct c as [?|l]; [discriminate|]. destruct (nth_error l i) as [x|] eqn:En; [|discriminate].
      inversion Ee; subst. exists l, e. split; [reflexivity|]. split; [exact En|]. eapply IH. exact Ef. }
    intros i Hi. eapply K; [exact E|lia].
Qed.
Lemma make_array_accepted : forall mk dims c a, make_array mk dims c = Ret a -> accepted dims c.
Proof.
  intros mk dims c a E. unfold make_array in E. destruct (fill_contents _ 0 dims c) as [e| | |] eqn:Ef; cbn [bind] in E; try discriminate.
  eapply fill_contents_accepted. exact Ef.
Qed.
