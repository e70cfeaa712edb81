(** Proofs for C95: rounding floats to integers. *)
From Coq Require Import Lia.
From Verif Require Import Word BigModel BigSpec BigProofs3 BigProperties RoundModel RoundSpec.
Open Scope Z_scope.

Lemma pow_pos : forall k, 0 <= k -> 0 < 2 ^ k.
Proof. intros k K. apply Z.pow_pos_nonneg; lia. Qed.
Lemma pow_split : forall a b, 0 <= a -> a <= b -> 2 ^ b = 2 ^ a * 2 ^ (b - a).
Proof. intros a b A B. rewrite <- Z.pow_add_r by lia. f_equal. lia. Qed.
Lemma bits_spec : forall m, m <> 0 -> 1 <= bits m /\ 2 ^ (bits m - 1) <= Z.abs m < 2 ^ bits m.
Proof.
  intros m N. unfold bits. destruct (Z.eqb_spec m 0); [lia|].
  pose proof (Z.log2_nonneg (Z.abs m)). pose proof (Z.log2_spec (Z.abs m) ltac:(lia)) as [L1 L2].
  replace (Z.log2 (Z.abs m) + 1 - 1) with (Z.log2 (Z.abs m)) by lia. unfold Z.succ in L2. lia.
Qed.
Lemma bits_le : forall m k, 0 <= k -> Z.abs m < 2 ^ k -> bits m <= k.
Proof.
  intros m k K H. destruct (Z.eq_dec m 0) as [->|N]; [unfold bits; cbn; lia|].
  destruct (bits_spec m N) as [B1 [B2 _]]. assert (bits m - 1 < k); [|lia].
  apply (Z.pow_lt_mono_r_iff 2); lia.
Qed.
Lemma bits_ge : forall m k, 0 <= k -> 2 ^ k <= Z.abs m -> k + 1 <= bits m.
Proof.
  intros m k K H. pose proof (pow_pos k K). destruct (bits_spec m ltac:(lia)) as [B1 [_ B2]].
  assert (k < bits m); [|lia]. apply (Z.pow_lt_mono_r_iff 2); lia.
Qed.
Lemma bits_shift : forall m k, 0 <= k -> m <> 0 -> bits (m * 2 ^ k) = bits m + k.
Proof.
  intros m k K N. pose proof (pow_pos k K). destruct (bits_spec m N) as [B1 [B2 B3]].
  apply Z.le_antisymm.
  - apply bits_le; [lia|]. rewrite Z.abs_mul, (Z.abs_eq (2 ^ k)) by lia. rewrite Z.pow_add_r by lia. nia.
  - pose proof (bits_ge (m * 2 ^ k) (bits m - 1 + k) ltac:(lia)) as G. rewrite Z.pow_add_r in G by lia.
    rewrite Z.abs_mul, (Z.abs_eq (2 ^ k)) in G by lia. specialize (G ltac:(nia)). lia.
Qed.
Lemma half_even_spec : forall m d, 0 < d ->
  2 * Z.abs (half_even m d * 2 ^ d - m) <= 2 ^ d /\ (2 * Z.abs (half_even m d * 2 ^ d - m) = 2 ^ d -> Z.even (half_even m d) = true).
Proof.
  intros m d D. pose proof (pow_pos d ltac:(lia)) as P. unfold half_even.
  pose proof (Z.div_mod m (2 ^ d) ltac:(lia)) as E. pose proof (Z.mod_pos_bound m (2 ^ d) P) as B.
  set (q := m / 2 ^ d) in *. set (r := m mod 2 ^ d) in *. set (t := 2 ^ d) in *. clearbody q r t.
  assert (E1 : q * t - m = - r) by lia. assert (E2 : (q + 1) * t - m = t - r) by lia.
  destruct (Z.ltb_spec (2 * r) t); [rewrite E1; split; [lia | intros; lia]|].
  destruct (Z.ltb_spec t (2 * r)); [rewrite E2; split; [lia | intros; lia]|].
  destruct (Z.even q) eqn:Q; [rewrite E1; split; [lia | intros _; exact Q]|].
  rewrite E2. split; [lia|]. intros _. replace (q + 1) with (Z.succ q) by lia. rewrite Z.even_succ, <- Z.negb_even, Q. reflexivity.
Qed.
Lemma half_even_exact : forall q d, 0 < d -> half_even (q * 2 ^ d) d = q.
Proof.
  intros q d D. pose proof (pow_pos d ltac:(lia)). unfold half_even.
  rewrite Z.div_mul, Z.mod_mul by lia. destruct (Z.ltb_spec (2 * 0) (2 ^ d)); lia.
Qed.
Lemma half_even_bounds : forall m d p, 0 < d -> 0 <= p -> bits m = p + d -> 0 < p ->
  2 ^ (p - 1) <= Z.abs (half_even m d) <= 2 ^ p.
Proof.
  intros m d p D P0 B P. pose proof (pow_pos d ltac:(lia)) as PD. pose proof (pow_pos (p - 1) ltac:(lia)) as PP.
  assert (N : m <> 0) by (intros ->; unfold bits in B; cbn in B; lia).
  destruct (bits_spec m N) as [_ [B1 B2]]. rewrite B in *.
  replace (p + d - 1) with (p - 1 + d) in B1 by lia. rewrite Z.pow_add_r in B1, B2 by lia.
  destruct (half_even_spec m d D) as [H _]. set (h := half_even m d) in *. clearbody h. set (t := 2 ^ d) in *. clearbody t.
  set (u := 2 ^ (p - 1)) in *. assert (E : 2 ^ p = 2 * u) by (unfold u; rewrite <- Z.pow_succ_r by lia; f_equal; lia). rewrite E in *.
  clearbody u. split; nia.
Qed.

(** * conversion to single precision *)
Lemma single_exact : forall m e, digits24 m -> exists m1 e1,
  single (F m e) = F m1 e1 /\ e <= e1 /\ m = m1 * 2 ^ (e1 - e) /\ Z.abs m1 < 2 ^ 24.
Proof.
  intros m e [a [k [K [A E]]]]. unfold single, round_to. cbn [mant expo].
  destruct (Z.leb_spec (bits m - 24) 0) as [L|L].
  - exists m, e. split; [reflexivity|]. split; [lia|]. rewrite Z.sub_diag. split; [cbn; lia|].
    destruct (Z.eq_dec m 0) as [->|N]; [cbn; lia|]. destruct (bits_spec m N) as [_ [_ B]].
    assert (2 ^ bits m <= 2 ^ 24) by (apply Z.pow_le_mono_r; lia). lia.
  - set (d := bits m - 24) in *.
    assert (N : m <> 0) by (intros ->; unfold d, bits in L; cbn in L; lia).
    assert (DK : d <= k).
    { assert (BB : bits m <= 24 + k); [|unfold d; lia]. apply bits_le; [lia|]. rewrite E, Z.abs_mul, (Z.abs_eq (2 ^ k)) by (apply Z.lt_le_incl, pow_pos; lia).
      rewrite Z.pow_add_r by lia. pose proof (pow_pos k K). nia. }
    assert (Q : m = a * 2 ^ (k - d) * 2 ^ d) by (rewrite E, <- Z.mul_assoc, <- Z.pow_add_r by lia; f_equal; f_equal; lia).
    exists (a * 2 ^ (k - d)), (e + d). rewrite Q at 1. rewrite half_even_exact by lia.
    split; [reflexivity|]. split; [lia|]. replace (e + d - e) with d by lia. split; [exact Q|].
    destruct (bits_spec m N) as [_ [_ B]]. rewrite Q in B at 1. rewrite Z.abs_mul, (Z.abs_eq (2 ^ d)) in B by (apply Z.lt_le_incl, pow_pos; lia).
    replace (bits m) with (24 + d) in B by (unfold d; lia). rewrite Z.pow_add_r in B by lia. pose proof (pow_pos d ltac:(lia)). nia.
Qed.
(** what single precision keeps of an integer *)
Lemma single_int : forall m e, 0 <= e -> exists m1 e1,
  single (F m e) = F m1 e1 /\ 0 <= e1 /\ Z.abs (m1 * 2 ^ e1 - m * 2 ^ e) * 2 ^ 24 <= Z.abs (m * 2 ^ e) /\ (m = 0 -> m1 = 0) /\
  (m <> 0 -> 2 ^ (bits (m * 2 ^ e) - 1) <= Z.abs (m1 * 2 ^ e1) <= 2 ^ bits (m * 2 ^ e)) /\ (0 <= m -> 0 <= m1) /\ (m <= 0 -> m1 <= 0).
Proof.
  intros m e E. pose proof (pow_pos e E) as PE. unfold single, round_to. cbn [mant expo].
  destruct (Z.leb_spec (bits m - 24) 0) as [L|L].
  - exists m, e. split; [reflexivity|]. split; [exact E|]. rewrite Z.sub_diag. split; [cbn; lia|]. split; [auto|]. split; [|auto].
    intros N. assert (NN : m * 2 ^ e <> 0) by nia. destruct (bits_spec _ NN) as [_ B]. lia.
  - set (d := bits m - 24) in *. assert (N : m <> 0) by (intros ->; unfold d, bits in L; cbn in L; lia).
    exists (half_even m d), (e + d). split; [reflexivity|]. split; [lia|].
    pose proof (pow_pos d ltac:(lia)) as PD. rewrite (Z.add_comm e d), Z.pow_add_r by lia.
    destruct (half_even_spec m d ltac:(lia)) as [H _]. pose proof (half_even_bounds m d 24 ltac:(lia) ltac:(lia) ltac:(lia) ltac:(lia)) as HB.
    destruct (bits_spec m N) as [_ [B1 B2]]. rewrite (bits_shift m e E N). replace (bits m) with (24 + d) in * by lia.
    replace (24 + d - 1) with (23 + d) in B1 by lia. rewrite Z.pow_add_r in B1, B2 by lia.
    replace (24 + d + e - 1) with (23 + (d + e)) by lia. replace (24 + d + e) with (24 + (d + e)) by lia.
    rewrite !(Z.pow_add_r 2 _ (d + e)), (Z.pow_add_r 2 d e) by lia. change (24 - 1) with 23 in HB.
    set (h := half_even m d) in *. clearbody h. set (t := 2 ^ d) in *. clearbody t. set (u := 2 ^ e) in *. clearbody u. clearbody d.
    assert (S : 0 < m -> 0 < h) by (intros; nia). assert (S2 : m < 0 -> h < 0) by (intros; nia).
    split; [|split; [lia|split; [|split; lia]]].
    + replace (h * (t * u) - m * u) with ((h * t - m) * u) by ring. rewrite !Z.abs_mul, (Z.abs_eq u) by lia.
      assert (Z.abs (h * t - m) * 2 ^ 24 <= Z.abs m) by lia. nia.
    + intros _. rewrite Z.abs_mul, (Z.abs_eq (t * u)) by nia. split; nia.
Qed.

Lemma fle_int : forall m e n, 0 <= e -> fle (F m e) n = (m * 2 ^ e <=? n).
Proof. intros m e n E. unfold fle. cbn [mant expo]. destruct (Z.leb_spec 0 e); [reflexivity | lia]. Qed.
Lemma c_int_int : forall m e, 0 <= e -> - 2 ^ 31 <= m * 2 ^ e < 2 ^ 31 -> c_int (F m e) = Some (m * 2 ^ e).
Proof.
  intros m e E H. unfold c_int. cbn [mant expo]. destruct (Z.leb_spec 0 e); [|lia].
  destruct (Z.leb_spec (- 2 ^ 31) (m * 2 ^ e)); [|lia]. destruct (Z.ltb_spec (m * 2 ^ e) (2 ^ 31)); [reflexivity | lia].
Qed.
Lemma value_makeint : forall v, - 2 ^ 61 <= v < 2 ^ 61 -> value (makeint v) = v.
Proof. intros v H. apply C01_boxing. unfold in_long. lia. Qed.

(** the conversion of a single-precision number that is an integer *)
Lemma to_big_small : forall x m1 e1, single x = F m1 e1 -> 0 <= e1 -> Z.abs (m1 * 2 ^ e1) < 2 ^ 31 ->
  exists o, eusfloat_to_big x = Ok o /\ value o = m1 * 2 ^ e1.
Proof.
  intros x m1 e1 S E H. pose proof (pow_pos e1 E) as P. unfold eusfloat_to_big. rewrite S. unfold flt0. cbn [mant].
  destruct (Z.ltb_spec m1 0) as [N|N].
  - unfold fneg. cbn [mant expo]. rewrite fle_int by exact E. destruct (Z.leb_spec (- m1 * 2 ^ e1) (2 ^ 61)); [|lia].
    rewrite c_int_int by lia. eexists. split; [reflexivity|]. rewrite value_makeint by lia. lia.
  - rewrite fle_int by exact E. destruct (Z.leb_spec (m1 * 2 ^ e1) (2 ^ 61)); [|lia].
    rewrite c_int_int by lia. eexists. split; [reflexivity|]. apply value_makeint. lia.
Qed.
Lemma to_big_undefined : forall x m1 e1, single x = F m1 e1 -> 0 <= e1 -> 2 ^ 31 <= Z.abs (m1 * 2 ^ e1) <= 2 ^ 61 ->
  eusfloat_to_big x = UB.
Proof.
  intros x m1 e1 S E H. pose proof (pow_pos e1 E) as P. unfold eusfloat_to_big. rewrite S. unfold flt0. cbn [mant].
  assert (G : forall k, 2 ^ 31 <= k * 2 ^ e1 -> c_int (F k e1) = None).
  { intros k Q. unfold c_int. cbn [mant expo]. destruct (Z.leb_spec 0 e1); [|lia].
    destruct (Z.ltb_spec (k * 2 ^ e1) (2 ^ 31)); [lia|]. rewrite andb_false_r. reflexivity. }
  destruct (Z.ltb_spec m1 0) as [N|N].
  - unfold fneg. cbn [mant expo]. rewrite fle_int by exact E. destruct (Z.leb_spec (- m1 * 2 ^ e1) (2 ^ 61)); [|lia].
    rewrite G by lia. reflexivity.
  - rewrite fle_int by exact E. destruct (Z.leb_spec (m1 * 2 ^ e1) (2 ^ 61)); [|lia]. rewrite G by lia. reflexivity.
Qed.
Lemma to_big_large : forall x m1 e1, single x = F m1 e1 -> 0 <= e1 -> Z.abs m1 < 2 ^ 24 -> 2 ^ 86 <= Z.abs (m1 * 2 ^ e1) < 2 ^ 94 ->
  exists o, eusfloat_to_big x = Ok o /\ value o = m1 * 2 ^ e1.
Proof.
  intros x m1 e1 S E A H. pose proof (pow_pos e1 E) as P.
  assert (G : forall k, 0 < k -> k < 2 ^ 24 -> 2 ^ 86 <= k * 2 ^ e1 < 2 ^ 94 ->
    let exp := bits k + e1 in let iz := k * 2 ^ (24 - bits k) in let j := exp - 24 - 63 in
    bits k <= 24 /\ 87 <= exp <= 94 /\ 0 <= j <= 7 /\ 0 <= iz < 2 ^ 24 /\ iz * 2 ^ j < 2 ^ 31 /\ iz * 2 ^ j * 2 ^ 63 = k * 2 ^ e1).
  { intros k K0 K HK exp iz j. destruct (bits_spec k ltac:(lia)) as [B1 [B2 B3]].
    assert (BK : bits k <= 24) by (apply bits_le; lia).
    assert (EX : exp = bits (k * 2 ^ e1)) by (unfold exp; rewrite bits_shift by lia; reflexivity).
    assert (E1 : 87 <= exp) by (rewrite EX; apply (bits_ge _ 86); lia).
    assert (E2 : exp <= 94) by (rewrite EX; apply (bits_le _ 94); lia).
    assert (IZ : 0 <= iz < 2 ^ 24).
    { unfold iz. pose proof (pow_pos (24 - bits k) ltac:(lia)). replace (2 ^ 24) with (2 ^ bits k * 2 ^ (24 - bits k)) by (rewrite <- Z.pow_add_r by lia; f_equal; lia). nia. }
    assert (PJ : 2 ^ j <= 2 ^ 7) by (apply Z.pow_le_mono_r; unfold j; lia).
    split; [exact BK|]. split; [lia|]. split; [unfold j; lia|]. split; [exact IZ|]. split.
    - pose proof (pow_pos j ltac:(unfold j; lia)). change (2 ^ 31) with (2 ^ 24 * 2 ^ 7). nia.
    - unfold iz. rewrite <- !Z.mul_assoc. f_equal. rewrite <- !Z.pow_add_r by (unfold j; lia). f_equal. unfold j, exp. lia. }
  unfold eusfloat_to_big. rewrite S. unfold flt0. cbn [mant].
  assert (W : forall neg k, 0 < k -> k < 2 ^ 24 -> 2 ^ 86 <= k * 2 ^ e1 < 2 ^ 94 -> exists o,
    (if fle (F k e1) (2 ^ 61) then
      match c_int (F k e1) with None => UB | Some i => Ok (makeint (if neg : bool then - i else i)) end
    else
      let exp := bits (mant (F k e1)) + expo (F k e1) in
      if 128 <? exp then UB
      else
        let iz := if bits (mant (F k e1)) <=? 24 then mant (F k e1) * 2 ^ (24 - bits (mant (F k e1))) else mant (F k e1) / 2 ^ (bits (mant (F k e1)) - 24) in
        let bsize := (exp + 62) / 63 in
        let exp := exp - 24 in let i := exp / 63 in let j := exp mod 63 in
        let b := repeat 0 (Z.to_nat bsize) in
        if (32 <=? j) || (2 ^ 31 <=? iz * 2 ^ j) then UB
        else
          match put b (Z.to_nat i) (Z.land (iz * 2 ^ j) MASK) with
          | None => UB
          | Some b =>
              let done := fun b => Ok (Big (if neg then complement_big b else b)) in
              if 31 <? j + 24 then
                if 32 <=? 63 - j then UB
                else match put b (Z.to_nat (i + 1)) (Z.land (Z.shiftr iz (63 - j)) MASK) with None => UB | Some b => done b end
              else done b
          end) = Ok o /\ value o = if neg then - (k * 2 ^ e1) else k * 2 ^ e1).
  { intros neg k K0 K HK. destruct (G k K0 K HK) as [BK [EX [J [IZ [SH V]]]]].
    set (iz := k * 2 ^ (24 - bits k)) in *.
    rewrite fle_int by exact E. destruct (Z.leb_spec (k * 2 ^ e1) (2 ^ 61)); [lia|]. cbn [mant expo]. cbv zeta.
    destruct (Z.leb_spec (bits k) 24); [|lia]. fold iz.
    destruct (Z.ltb_spec 128 (bits k + e1)); [lia|].
    assert (Q1 : (bits k + e1 - 24) / 63 = 1) by (symmetry; apply (Z.div_unique _ 63 1 (bits k + e1 - 24 - 63)); lia).
    assert (Q2 : (bits k + e1 - 24) mod 63 = bits k + e1 - 24 - 63) by (symmetry; apply (Z.mod_unique _ 63 1); lia).
    assert (Q3 : (bits k + e1 + 62) / 63 = 2) by (symmetry; apply (Z.div_unique _ 63 2 (bits k + e1 + 62 - 126)); lia).
    rewrite Q1, Q2, Q3. set (j := bits k + e1 - 24 - 63) in *. clearbody j iz.
    destruct (Z.leb_spec 32 j); [lia|]. destruct (Z.leb_spec (2 ^ 31) (iz * 2 ^ j)); [lia|].
    cbn [orb]. change (Z.to_nat 2) with 2%nat. change (Z.to_nat 1) with 1%nat. cbn [repeat put].
    destruct (Z.ltb_spec 31 (j + 24)); [lia|].
    assert (MK : Z.land (iz * 2 ^ j) MASK = iz * 2 ^ j).
    { change MASK with (Z.ones 63). rewrite Z.land_ones by lia. apply Z.mod_small. pose proof (pow_pos j ltac:(lia)). split; [nia|].
      apply Z.lt_trans with (2 ^ 31); [assumption | reflexivity]. }
    rewrite MK. eexists. split; [reflexivity|]. cbn [value].
    assert (PJ : 0 <= iz * 2 ^ j) by (pose proof (pow_pos j ltac:(lia)); nia).
    destruct neg.
    - destruct (C04_negation [0; iz * 2 ^ j]) as [C _]; [cbn [wf]; unfold in_long; lia|].
      unfold big_minus in C. rewrite C. cbn [bigval]. lia.
    - cbn [bigval]. lia. }
  destruct (Z.ltb_spec m1 0) as [N|N].
  - destruct (W true (- m1)) as [o [O1 O2]]; [lia | lia | lia |]. exists o. split; [exact O1 | rewrite O2; lia].
  - destruct (W false m1) as [o [O1 O2]]; [| lia | lia |].
    + destruct (Z.eq_dec m1 0) as [->|]; [cbn in H; lia | lia].
    + exists o. split; [exact O1 | exact O2].
Qed.

(** * the C library's functions give the integers *)
Definition whole (x : flo) (n : Z) : Prop := 0 <= expo x /\ mant x * 2 ^ expo x = n.
Lemma max0_neg : forall e, e < 0 -> Z.max 0 e = 0 /\ Z.max 0 (- e) = - e.
Proof. intros; lia. Qed.
Lemma max0_pos : forall e, 0 <= e -> Z.max 0 e = e /\ Z.max 0 (- e) = 0.
Proof. intros; lia. Qed.
Lemma floor_whole : forall x n, is_floor n x -> whole (c_floor x) n.
Proof.
  intros [m e] n. unfold is_floor, num, den, c_floor. cbn [mant expo]. destruct (Z.leb_spec 0 e) as [E|E].
  - destruct (max0_pos e E) as [-> ->]. intros H. unfold whole. cbn [mant expo]. lia.
  - destruct (max0_neg e E) as [-> ->]. intros H. unfold whole. cbn [mant expo]. split; [lia|].
    rewrite Z.pow_0_r in *. rewrite Z.mul_1_r in *. symmetry. pose proof (pow_pos (- e) ltac:(lia)).
    apply (Z.div_unique _ _ n (m - n * 2 ^ (- e))); lia.
Qed.
Lemma ceil_whole : forall x n, is_ceiling n x -> whole (c_ceil x) n.
Proof.
  intros x n H. assert (W : whole (c_floor (fneg x)) (- n)).
  { apply floor_whole. destruct x as [m e]. unfold is_ceiling, is_floor, num, den, fneg in *. cbn [mant expo] in *. lia. }
  unfold c_ceil. destruct (c_floor (fneg x)) as [m e]. unfold whole, fneg in *. cbn [mant expo] in *. split; [apply W|].
  destruct W as [_ W]. rewrite Z.mul_opp_l, W. lia.
Qed.
Lemma round_whole : forall x n, is_round n x -> whole (c_rint x) n.
Proof.
  intros [m e] n. unfold is_round, num, den, c_rint. cbn [mant expo]. destruct (Z.leb_spec 0 e) as [E|E].
  - destruct (max0_pos e E) as [-> ->]. intros [H _]. unfold whole. cbn [mant expo]. lia.
  - destruct (max0_neg e E) as [-> ->]. rewrite Z.pow_0_r, Z.mul_1_r. intros [H1 H2]. unfold whole. cbn [mant expo]. split; [lia|].
    rewrite Z.pow_0_r, Z.mul_1_r. pose proof (pow_pos (- e) ltac:(lia)) as P.
    destruct (half_even_spec m (- e) ltac:(lia)) as [G1 G2]. set (h := half_even m (- e)) in *. clearbody h.
    set (t := 2 ^ (- e)) in *. clearbody t.
    destruct (Z.eq_dec h n) as [Q|Q]; [exact Q|]. exfalso.
    assert (D : Z.abs (h - n) * t <= Z.abs (h * t - m) + Z.abs (n * t - m)) by nia.
    assert (Z.abs (h - n) = 1) by nia.
    assert (K1 : 2 * Z.abs (h * t - m) = t) by nia. assert (K2 : 2 * Z.abs (n * t - m) = t) by nia.
    specialize (G2 K1). specialize (H2 K2). apply Z.even_spec in G2, H2. destruct G2 as [a ->], H2 as [b ->]. lia.
Qed.
Lemma digits24_shift : forall m e n, 0 <= e -> m * 2 ^ e = n -> digits24 n -> digits24 m.
Proof.
  intros m e n E <- [a [k [K [A H]]]]. pose proof (pow_pos e E).
  destruct (Z_le_gt_dec e k) as [L|L].
  - exists a, (k - e). split; [lia|]. split; [exact A|]. rewrite (pow_split e k E L) in H.
    apply Z.mul_reg_r with (2 ^ e); [lia|]. lia.
  - exists m, 0. split; [lia|]. split; [|cbn; lia]. rewrite (pow_split k e K) in H by lia.
    pose proof (pow_pos k K). pose proof (pow_pos (e - k) ltac:(lia)). assert (a = m * 2 ^ (e - k)) by nia. nia.
Qed.
Lemma whole_result : forall x n, whole x n -> digits24 n -> Z.abs n < 2 ^ 31 \/ 2 ^ 86 <= Z.abs n < 2 ^ 94 ->
  exists o, eusfloat_to_big x = Ok o /\ value o = n.
Proof.
  intros [m e] n [E N] D H. cbn [mant expo] in *. pose proof (digits24_shift m e n E N D) as D'.
  destruct (single_exact m e D') as [m1 [e1 [S [E1 [M A]]]]].
  assert (V : m1 * 2 ^ e1 = n).
  { rewrite <- N, M. rewrite <- Z.mul_assoc, <- Z.pow_add_r by lia. f_equal. f_equal. lia. }
  rewrite <- V in *. destruct H as [H|H].
  - apply to_big_small; [exact S | lia | exact H].
  - apply to_big_large; [exact S | lia | exact A | exact H].
Qed.
Lemma whole_near : forall x n, whole x n -> Z.abs n < 2 ^ 31 - 128 ->
  exists o, eusfloat_to_big x = Ok o /\ Z.abs (value o - n) * 2 ^ 24 <= Z.abs n.
Proof.
  intros [m e] n [E N] H. cbn [mant expo] in *. destruct (single_int m e E) as [m1 [e1 [S [E1 [C _]]]]]. rewrite N in C.
  destruct (to_big_small (F m e) m1 e1 S E1) as [o [O V]].
  - change (2 ^ 31) with (2147483648) in *. change (2 ^ 24) with 16777216 in *. lia.
  - exists o. split; [exact O|]. rewrite V. exact C.
Qed.
Lemma whole_undefined : forall x n, whole x n -> 2 ^ 31 <= Z.abs n < 2 ^ 61 -> eusfloat_to_big x = UB.
Proof.
  intros [m e] n [E N] H. cbn [mant expo] in *. destruct (single_int m e E) as [m1 [e1 [S [E1 [_ [_ [B _]]]]]]]. rewrite N in B.
  assert (NZ : m <> 0) by (intros ->; rewrite Z.mul_0_l in N; subst n; cbn in H; lia). specialize (B NZ).
  apply (to_big_undefined _ m1 e1 S E1).
  pose proof (bits_ge n 31 ltac:(lia) ltac:(lia)) as G. pose proof (bits_le n 61 ltac:(lia) ltac:(lia)) as L.
  assert (2 ^ 31 <= 2 ^ (bits n - 1)) by (apply Z.pow_le_mono_r; lia). assert (2 ^ bits n <= 2 ^ 61) by (apply Z.pow_le_mono_r; lia). lia.
Qed.
(** truncation happens in the conversion itself *)
Lemma c_int_frac : forall m e n, 0 <= m -> is_floor n (F m e) -> 0 <= n < 2 ^ 31 ->
  c_int (F m e) = Some n /\ fle (F m e) (2 ^ 61) = true.
Proof.
  intros m e n M H N. unfold is_floor, num, den in H. cbn [mant expo] in H. unfold c_int, fle. cbn [mant expo].
  destruct (Z.leb_spec 0 e) as [E|E].
  - destruct (max0_pos e E) as [Q1 Q2]. rewrite Q1, Q2, Z.pow_0_r in H. assert (V : m * 2 ^ e = n) by lia. rewrite V.
    destruct (Z.leb_spec (- 2 ^ 31) n); [|lia]. destruct (Z.ltb_spec n (2 ^ 31)); [|lia]. split; [reflexivity|]. apply Z.leb_le. lia.
  - destruct (max0_neg e E) as [Q1 Q2]. rewrite Q1, Q2, Z.pow_0_r, Z.mul_1_r in H. pose proof (pow_pos (- e) ltac:(lia)) as P.
    assert (V : Z.quot m (2 ^ (- e)) = n).
    { rewrite Z.quot_div_nonneg by lia. symmetry. apply (Z.div_unique _ _ n (m - n * 2 ^ (- e))); lia. }
    rewrite V. destruct (Z.leb_spec (- 2 ^ 31) n); [|lia]. destruct (Z.ltb_spec n (2 ^ 31)); [|lia]. split; [reflexivity|]. apply Z.leb_le.
    set (t := 2 ^ (- e)) in *. clearbody t. assert (n + 1 <= 2 ^ 61) by lia. nia.
Qed.
Lemma floor_scale : forall m e m1 e1 n, e <= e1 -> m = m1 * 2 ^ (e1 - e) -> is_floor n (F m e) -> is_floor n (F m1 e1).
Proof.
  intros m e m1 e1 n L M. pose proof (pow_pos (e1 - e) ltac:(lia)) as P. unfold is_floor, num, den. cbn [mant expo].
  destruct (Z_le_gt_dec 0 e) as [E|E].
  - destruct (max0_pos e E) as [-> ->]. destruct (max0_pos e1 ltac:(lia)) as [-> ->]. rewrite M, <- Z.mul_assoc, <- Z.pow_add_r by lia.
    replace (e1 - e + e) with e1 by lia. auto.
  - destruct (max0_neg e ltac:(lia)) as [-> ->]. rewrite Z.pow_0_r, Z.mul_1_r. destruct (Z_le_gt_dec 0 e1) as [E1|E1].
    + destruct (max0_pos e1 E1) as [-> ->]. rewrite Z.pow_0_r, M. replace (e1 - e) with (e1 + - e) by lia. rewrite Z.pow_add_r by lia.
      pose proof (pow_pos (- e) ltac:(lia)). intros [H1 H2]. rewrite Z.mul_assoc in H1, H2. nia.
    + destruct (max0_neg e1 ltac:(lia)) as [-> ->]. rewrite Z.pow_0_r, Z.mul_1_r, M. replace (- e) with ((e1 - e) + - e1) by lia. rewrite Z.pow_add_r by lia.
      replace (e1 - e + - e1 + e1) with (e1 - e) by lia. pose proof (pow_pos (- e1) ltac:(lia)). intros [H1 H2]. split; nia.
Qed.
Lemma trunc_result : forall x n, digits24 (mant x) -> is_truncate n x -> Z.abs n < 2 ^ 31 ->
  exists o, eusfloat_to_big x = Ok o /\ value o = n.
Proof.
  intros [m e] n D [T1 T2] N. cbn [mant] in D. destruct (single_exact m e D) as [m1 [e1 [S [L [M A]]]]].
  pose proof (pow_pos (e1 - e) ltac:(lia)) as P. unfold eusfloat_to_big. rewrite S. unfold flt0. cbn [mant].
  assert (SG : (0 <= num (F m e) <-> 0 <= m) ).
  { unfold num. cbn [mant expo]. pose proof (pow_pos (Z.max 0 e) ltac:(lia)). split; intros; nia. }
  destruct (Z.ltb_spec m1 0) as [C|C].
  - assert (m < 0) by nia. assert (C' : is_ceiling n (F m e)) by (apply T2; lia).
    assert (Fl : is_floor (- n) (F (- m) e)).
    { unfold is_ceiling, is_floor, num, den in *. cbn [mant expo] in *. lia. }
    assert (n <= 0).
    { unfold is_ceiling, num, den in C'. cbn [mant expo] in C'. pose proof (pow_pos (Z.max 0 e) ltac:(lia)). pose proof (pow_pos (Z.max 0 (- e)) ltac:(lia)). nia. }
    pose proof (floor_scale (- m) e (- m1) e1 (- n) L ltac:(lia) Fl) as Fl1.
    unfold fneg. cbn [mant expo]. destruct (c_int_frac (- m1) e1 (- n) ltac:(lia) Fl1 ltac:(lia)) as [-> ->].
    eexists. split; [reflexivity|]. rewrite value_makeint by lia. lia.
  - assert (0 <= m) by nia. assert (Fl : is_floor n (F m e)) by (apply T1; lia).
    assert (0 <= n).
    { unfold is_floor, num, den in Fl. cbn [mant expo] in Fl. pose proof (pow_pos (Z.max 0 e) ltac:(lia)). pose proof (pow_pos (Z.max 0 (- e)) ltac:(lia)). nia. }
    pose proof (floor_scale m e m1 e1 n L M Fl) as Fl1.
    destruct (c_int_frac m1 e1 n C Fl1 ltac:(lia)) as [-> ->].
    eexists. split; [reflexivity|]. rewrite value_makeint by lia. reflexivity.
Qed.
