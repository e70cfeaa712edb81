From Verif Require Import Word BigModel BigSpec BigProofs BigProofs2 BigProofs3 BigProofs4 BitsModel.

(** * bits *)
Lemma tb_mod a n i : 0 <= n -> 0 <= i -> Z.testbit (a mod 2 ^ n) i = (i <? n) && Z.testbit a i.
Proof.
  intros Hn Hi. destruct (Z.ltb_spec i n); cbn [andb].
  - apply Z.mod_pow2_bits_low. lia.
  - apply Z.mod_pow2_bits_high. lia.
Qed.

Lemma tb_u64 a i : 0 <= i -> Z.testbit (u64 a) i = (i <? 64) && Z.testbit a i.
Proof. intros. unfold u64. apply tb_mod; lia. Qed.

Lemma tb_wrap64 a i : 0 <= i < 64 -> Z.testbit (wrap64 a) i = Z.testbit a i.
Proof.
  intros Hi. destruct (wrap64_eqm a) as [k Ek].
  rewrite <- (Z.mod_pow2_bits_low (wrap64 a) 64 i), <- (Z.mod_pow2_bits_low a 64 i) by lia.
  rewrite Ek, Z.mod_add by lia. reflexivity.
Qed.

Lemma low64_eq a b : (forall i, 0 <= i < 64 -> Z.testbit a i = Z.testbit b i) <-> a mod 2 ^ 64 = b mod 2 ^ 64.
Proof.
  split.
  - intros H. apply Z.bits_inj'. intros i Hi. rewrite !tb_mod by lia.
    destruct (Z.ltb_spec i 64); cbn [andb]; [apply H; lia|reflexivity].
  - intros H i Hi. rewrite <- (Z.mod_pow2_bits_low a 64 i), <- (Z.mod_pow2_bits_low b 64 i) by lia.
    rewrite H. reflexivity.
Qed.

Lemma wrap64_low a b : a mod 2 ^ 64 = b mod 2 ^ 64 -> wrap64 a = wrap64 b.
Proof.
  intros H. unfold wrap64. f_equal. rewrite Z.add_mod, H, <- Z.add_mod by lia. reflexivity.
Qed.

(** * reading an argument *)
Definition fits_word (v : Z) : Prop := - 2 ^ 63 <= v < 2 ^ 64.


(** The two-word case: bigintval keeps the low 64 bits *)
Lemma bigintval_low ds : wf ds -> bigintval ds mod 2 ^ 64 = bigval ds mod 2 ^ 64 /\ in_long (bigintval ds).
Proof.
  intros W. destruct ds as [|d0 [|d1 r]]; [destruct W| |].
  - cbn [bigintval bigval wf] in *. rewrite Z.mul_0_r, Z.add_0_r. auto.
  - cbn [bigintval]. apply wf_cons in W; [|congruence]. destruct W as [H0 _].
    set (t := wrap64 (Z.shiftl d1 63)).
    assert (Ht : t = - 2 ^ 63 * (d1 mod 2)).
    { unfold t, wrap64. rewrite Z.shiftl_mul_pow2 by lia. lia. }
    assert (E : Z.lor t d0 = t + d0).
    { rewrite Ht. assert (C : d1 mod 2 = 0 \/ d1 mod 2 = 1) by lia. destruct C as [-> | ->].
      - rewrite Z.mul_0_r. reflexivity.
      - rewrite <- Z.lxor_lor, <- Z.add_nocarry_lxor; [reflexivity| |];
          apply Z.bits_inj'; intros i Hi; rewrite Z.land_spec, Z.bits_0;
          change (- 2 ^ 63 * 1) with (-1 * 2 ^ 63); rewrite <- Z.shiftl_mul_pow2, Z.shiftl_spec by lia;
          (destruct (Z.ltb_spec i 63); [rewrite (Z.testbit_neg_r (-1)) by lia; reflexivity|]);
          rewrite <- (Z.mod_small d0 (2 ^ 63)), Z.mod_pow2_bits_high by lia; apply andb_false_r. }
    rewrite E, !bigval_cons. split.
    + rewrite Ht. set (b := bigval r). clearbody b.
      replace (d0 + 2 ^ 63 * (d1 + 2 ^ 63 * b)) with
        (- 2 ^ 63 * (d1 mod 2) + d0 + (d1 mod 2 + d1 / 2 + 2 ^ 62 * b) * 2 ^ 64).
      * rewrite Z.mod_add by lia. reflexivity.
      * pose proof (Z.div_mod d1 2). lia.
    + rewrite Ht. unfold in_long. lia.
Qed.

Lemma digits_small2 d0 d1 r : wf (d0 :: d1 :: r) -> canonical (Big (d0 :: d1 :: r)) ->
  fits_word (bigval (d0 :: d1 :: r)) -> r = [] /\ d1 < 2.
Proof.
  intros W (_ & _ & C) F. unfold fits_word in F.
  destruct r as [|d2 r].
  - split; [reflexivity|]. cbn [wf bigval] in *. lia.
  - exfalso. specialize (C ltac:(cbn [length]; lia)). apply C.
    assert (2 ^ 126 <= 2 ^ (63 * (Z.of_nat (length (d0 :: d1 :: d2 :: r)) - 1))).
    { apply Z.pow_le_mono_r; [lia|]. cbn [length]. lia. }
    lia.
Qed.

(** A fixnum word of either tag, or a canonical bignum. *)
Definition argument (o : intobj) : Prop := match o with Imm _ => legal o | Big _ => canonical o end.

Lemma ckintval_spec o : argument o -> fits_word (value o) ->
  exists v, ckintval o = Some v /\ in_long v /\ v mod 2 ^ 64 = value o mod 2 ^ 64 /\
            (in_long (value o) -> v = value o).
Proof.
  intros L F. destruct o as [w|ds].
  - cbn [argument] in L. assert (I : in_long (value (Imm w))).
    { cbn [value]. destruct L as [L1 L2]. unfold in_long in *. destruct (Z.eqb_spec (w mod 4) 2); lia. }
    exists (value (Imm w)). split; [cbn [ckintval]; f_equal; apply (intval_exact (Imm w) L I Logic.I)|]. split; [exact I|]. split; [reflexivity|intros _; reflexivity].
  - cbn [argument] in L. pose proof L as (W & _ & _). cbn [value] in *.
    destruct (bigintval_low ds W) as [B1 B2]. exists (bigintval ds).
    split; [|split; [assumption|split; [assumption|]]].
    + destruct ds as [|d0 [|d1 r]]; [destruct W|reflexivity|].
      destruct (digits_small2 d0 d1 r W L F) as [-> H]. cbn [ckintval].
      destruct (Z.ltb_spec d1 2); [reflexivity|lia].
    + intros I. rewrite <- (wrap64_id _ B2), <- (wrap64_id _ I). apply wrap64_low, B1.
Qed.

Lemma makeint_argument v : in_long v -> argument (makeint v) /\ value (makeint v) = v.
Proof.
  intros H. destruct (makeint_exact v H) as [E L]. split; [|exact E].
  destruct (makeint v) as [w|ds] eqn:EQ; [exact L|]. cbn [argument canonical value legal] in *.
  assert (D : ds = [v]).
  { unfold makeint in EQ. destruct ((v >? MAXPOSFIXNUM) || (v <? MINNEGFIXNUM)); [|discriminate].
    destruct (negb (Z.land v 7 =? 0)); [|discriminate]. destruct (mkbigint_big v); congruence. }
  subst ds. split; [exact L|]. split; [|cbn; lia].
  intros Fx. cbn [bigval] in Fx. rewrite Z.mul_0_r, Z.add_0_r in Fx. rewrite (makeint_fix v Fx) in EQ. discriminate.
Qed.

(** * LDB, DPB *)
Definition field_ok (p w : Z) : Prop := 0 <= p /\ 1 <= w /\ p + w <= 64.

Lemma ldb_word_spec v p w : field_ok p w ->
  exists r, ldb_word v p w = Ok r /\ 0 <= r < 2 ^ 64 /\
    forall i, 0 <= i -> Z.testbit r i = (i <? w) && Z.testbit v (i + p).
Proof.
  intros (P & Q & R). unfold ldb_word, shift_ok.
  assert ((0 <=? 64 - p - w) && (64 - p - w <? 64) && ((0 <=? 64 - w) && (64 - w <? 64)) = true) as -> by lia.
  eexists. split; [reflexivity|].
  assert (B : forall i, 0 <= i -> Z.testbit (shr64 (shl64 (u64 v) (64 - p - w)) (64 - w)) i =
                                  (i <? w) && Z.testbit v (i + p)).
  { intros i Hi. unfold shr64, shl64. rewrite Z.shiftr_spec, tb_u64, Z.shiftl_spec, tb_u64 by lia.
    replace (i + (64 - w) - (64 - p - w)) with (i + p) by lia.
    destruct (Z.ltb_spec i w).
    - assert ((i + (64 - w) <? 64) = true) as -> by lia. assert ((i + p <? 64) = true) as -> by lia. reflexivity.
    - assert ((i + (64 - w) <? 64) = false) as -> by lia. reflexivity. }
  split; [|exact B]. unfold shr64, shl64, u64. rewrite Z.shiftr_div_pow2 by lia.
  assert (0 < 2 ^ (64 - w)) by (apply Z.pow_pos_nonneg; lia).
  pose proof (Z.mod_pos_bound (Z.shiftl (v mod 2 ^ 64) (64 - p - w)) (2 ^ 64) ltac:(lia)).
  split; [apply Z.div_pos; lia|]. apply Z.div_lt_upper_bound; nia.
Qed.

Lemma dpb_word_spec v t p w : field_ok p w ->
  exists r, dpb_word v t p w = Ok r /\ 
    forall i, 0 <= i -> Z.testbit r i =
      (i <? 64) && (if (p <=? i) && (i <? p + w) then Z.testbit v (i - p) else Z.testbit t i).
Proof.
  intros (P & Q & R). unfold dpb_word, shift_ok.
  assert ((0 <=? 64 - (p + w)) && (64 - (p + w) <? 64) && ((0 <=? 64 - w) && (64 - w <? 64)) &&
          ((0 <=? p) && (p <? 64)) = true) as -> by lia.
  eexists. split; [reflexivity|]. intros i Hi.
  assert (M : forall j, 0 <= j -> Z.testbit (shr64 (shl64 (u64 (-1)) (64 - (p + w))) (64 - w)) j = (j <? w)).
  { intros j Hj. unfold shr64, shl64. rewrite Z.shiftr_spec, tb_u64, Z.shiftl_spec, tb_u64 by lia.
    replace (j + (64 - w) - (64 - (p + w))) with (j + p) by lia. rewrite Z.bits_m1 by lia.
    destruct (Z.ltb_spec j w); lia. }
  set (m := shr64 (shl64 (u64 (-1)) (64 - (p + w))) (64 - w)) in *. clearbody m.
  unfold shl64. rewrite Z.lor_spec, Z.land_spec, !tb_u64, Z.lnot_spec, tb_u64, !Z.shiftl_spec by lia.
  destruct (Z.ltb_spec i 64); cbn [andb]; [|reflexivity].
  destruct (Z.leb_spec p i); cbn [andb].
  - rewrite Z.land_spec, tb_u64, !M by lia. assert ((i - p <? 64) = true) as -> by lia. cbn [andb].
    destruct (Z.ltb_spec (i - p) w); destruct (Z.ltb_spec i (p + w)); try lia; cbn [negb];
      rewrite ?andb_true_r, ?andb_false_r, ?orb_false_r; reflexivity.
  - rewrite (Z.testbit_neg_r m (i - p)), (Z.testbit_neg_r (Z.land _ _) (i - p)) by lia. cbn [negb]. rewrite andb_true_r, orb_false_r. reflexivity.
Qed.

(** The field [p, p+w) of an integer *)
Definition bitfield (v p w : Z) : Z := (v / 2 ^ p) mod 2 ^ w.

(** A byte specifier given by two integer objects *)
Definition byte_spec (po wo : intobj) (p w : Z) : Prop :=
  argument po /\ argument wo /\ value po = p /\ value wo = w /\ field_ok p w.

Lemma byte_spec_ck po wo p w : byte_spec po wo p w -> ckintval po = Some p /\ ckintval wo = Some w.
Proof.
  intros (A1 & A2 & V1 & V2 & (F1 & F2 & F3)).
  destruct (ckintval_spec po A1) as (v1 & E1 & _ & _ & I1); [unfold fits_word; lia|].
  destruct (ckintval_spec wo A2) as (v2 & E2 & _ & _ & I2); [unfold fits_word; lia|].
  rewrite E1, E2, I1, I2 by (unfold in_long; lia). rewrite V1, V2. auto.
Qed.

Lemma LDB_spec v po wo p w : argument v -> fits_word (value v) -> byte_spec po wo p w ->
  exists r, LDB v po wo = Ok r /\ argument r /\ value r = wrap64 (bitfield (value v) p w).
Proof.
  intros A F B. destruct (byte_spec_ck _ _ _ _ B) as [E1 E2]. destruct B as (_ & _ & _ & _ & Fo).
  destruct (ckintval_spec v A F) as (x & Ex & Ix & Mx & _).
  unfold LDB. rewrite Ex, E1, E2. destruct (ldb_word_spec x p w Fo) as (r & -> & Rr & Br).
  destruct (makeint_argument (wrap64 r) (wrap64_range r)) as [A' V']. eexists. split; [reflexivity|].
  split; [exact A'|]. rewrite V'. apply wrap64_low. apply low64_eq. intros i Hi. rewrite Br by lia.
  unfold bitfield. destruct Fo as (F1 & F2 & F3). rewrite tb_mod, <- Z.shiftr_div_pow2, Z.shiftr_spec by lia.
  destruct (Z.ltb_spec i w); cbn [andb]; [|reflexivity].
  apply (proj2 (low64_eq x (value v)) Mx). lia.
Qed.

Lemma DPB_spec v t po wo p w : argument v -> fits_word (value v) -> argument t -> fits_word (value t) ->
  byte_spec po wo p w ->
  exists r, DPB v t po wo = Ok r /\ argument r /\ in_long (value r) /\
    forall i, 0 <= i < 64 -> Z.testbit (value r) i =
      if (p <=? i) && (i <? p + w) then Z.testbit (value v) (i - p) else Z.testbit (value t) i.
Proof.
  intros A F A2 F2 B. destruct (byte_spec_ck _ _ _ _ B) as [E1 E2]. destruct B as (_ & _ & _ & _ & Fo).
  destruct (ckintval_spec v A F) as (x & Ex & Ix & Mx & _).
  destruct (ckintval_spec t A2 F2) as (y & Ey & Iy & My & _).
  unfold DPB. rewrite Ex, Ey, E1, E2. destruct (dpb_word_spec x y p w Fo) as (r & -> & Br).
  destruct (makeint_argument (wrap64 r) (wrap64_range r)) as [A' V']. eexists. split; [reflexivity|].
  split; [exact A'|]. rewrite V'. split; [apply wrap64_range|]. intros i Hi.
  rewrite tb_wrap64, Br by lia. assert ((i <? 64) = true) as -> by lia. cbn [andb].
  destruct Fo as (P1 & P2 & P3).
  destruct ((p <=? i) && (i <? p + w)) eqn:G.
  - apply (proj2 (low64_eq x (value v)) Mx). lia.
  - apply (proj2 (low64_eq y (value t)) My). lia.
Qed.

Lemma in_long_fits v : in_long v -> fits_word v.
Proof. unfold in_long, fits_word. lia. Qed.

Theorem ldb_dpb v t po wo p w : argument v -> fits_word (value v) -> argument t -> fits_word (value t) ->
  byte_spec po wo p w ->
  exists d r, DPB v t po wo = Ok d /\ LDB d po wo = Ok r /\
    (* the deposited field reads back *)
    value r = wrap64 (bitfield (value v) 0 w) /\
    (* the bits outside the field are those of the target *)
    (forall i, 0 <= i < 64 -> ~ (p <= i < p + w) -> Z.testbit (value d) i = Z.testbit (value t) i).
Proof.
  intros A F A2 F2 B. destruct (DPB_spec v t po wo p w A F A2 F2 B) as (d & Ed & Ad & Id & Bd).
  destruct (LDB_spec d po wo p w Ad (in_long_fits _ Id) B) as (r & Er & Ar & Vr).
  exists d, r. split; [exact Ed|]. split; [exact Er|]. destruct B as (_ & _ & _ & _ & (P1 & P2 & P3)). split.
  - rewrite Vr. apply wrap64_low, low64_eq. intros i Hi. unfold bitfield.
    rewrite !tb_mod, <- !Z.shiftr_div_pow2, !Z.shiftr_spec by lia.
    destruct (Z.ltb_spec i w); cbn [andb]; [|reflexivity]. rewrite Bd by lia.
    assert ((p <=? i + p) && (i + p <? p + w) = true) as -> by lia. f_equal. lia.
  - intros i Hi Ho. rewrite Bd by lia. destruct ((p <=? i) && (i <? p + w)) eqn:G; [lia|reflexivity].
Qed.

Theorem dpb_ldb t po wo p w : argument t -> fits_word (value t) -> byte_spec po wo p w ->
  exists f r, LDB t po wo = Ok f /\ DPB f t po wo = Ok r /\ value r = wrap64 (value t).
Proof.
  intros A F B. destruct (LDB_spec t po wo p w A F B) as (f & Ef & Af & Vf).
  assert (Ff : fits_word (value f)) by (rewrite Vf; apply in_long_fits, wrap64_range).
  destruct (DPB_spec f t po wo p w Af Ff A F B) as (r & Er & Ar & Ir & Br).
  exists f, r. split; [exact Ef|]. split; [exact Er|]. rewrite <- (wrap64_id _ Ir).
  apply wrap64_low, low64_eq. intros i Hi. rewrite Br by lia.
  destruct B as (_ & _ & _ & _ & (P1 & P2 & P3)).
  destruct ((p <=? i) && (i <? p + w)) eqn:G; [|reflexivity].
  rewrite Vf, tb_wrap64 by lia. unfold bitfield.
  rewrite tb_mod, <- Z.shiftr_div_pow2, Z.shiftr_spec by lia. assert ((i - p <? w) = true) as -> by lia.
  cbn [andb]. f_equal. lia.
Qed.
