(** Proofs about #x and #o numerals. *)
From Coq Require Import List ZArith Bool Lia.
From Verif Require Import Word BigModel BigSpec BigProofs BigProofs2 BigProofs3 IntTextModel IntTextProofs HexModel.
Import ListNotations.
Open Scope Z_scope.

(** * Specification vocabulary *)

(** A hexadecimal digit and its number, upper or lower case *)
Definition hex_digit (c d : Z) : Prop :=
  (0 <= d < 10 /\ c = 48 + d) \/ (10 <= d < 16 /\ (c = 55 + d \/ c = 87 + d)).
Definition octal_digit (c d : Z) : Prop := 0 <= d < 8 /\ c = 48 + d.

(** [f] does not go on with a digit *)
Definition ends (digit : Z -> Z -> Prop) (f : list Z) : Prop := forall c r d, f = c :: r -> ~ digit c d.

Lemma hexval_ok c d : hex_digit c d -> isxdigit c = true /\ hexval c = d.
Proof.
  intros H. split; [unfold isxdigit; destruct H as [[Hd ->]|[Hd [-> | ->]]]; lia|]. unfold hexval.
  destruct H as [[Hd ->]|[Hd [-> | ->]]].
  - destruct (Z.leb_spec 97 (48 + d)); [lia|]. cbn [andb]. destruct (Z.leb_spec (48 + d) 57); lia.
  - destruct (Z.leb_spec 97 (55 + d)); [lia|]. cbn [andb]. destruct (Z.leb_spec (55 + d) 57); lia.
  - destruct (Z.leb_spec 97 (87 + d)); [|lia]. destruct (Z.leb_spec (87 + d) 122); [|lia]. cbn [andb].
    destruct (Z.leb_spec (87 + d - 32) 57); lia.
Qed.

Lemma isxdigit_inv c : isxdigit c = true -> exists d, hex_digit c d.
Proof.
  unfold isxdigit. intros H. rewrite !orb_true_iff, !andb_true_iff, !Z.leb_le in H. destruct H as [[H|H]|H].
  - exists (c - 48). left. lia.
  - exists (c - 55). right. split; [lia|left; lia].
  - exists (c - 87). right. split; [lia|right; lia].
Qed.

Lemma octal_hex c d : octal_digit c d -> isodigit c = true /\ hexval c = d.
Proof.
  intros [Hd ->]. split; [unfold isodigit; lia|]. apply (hexval_ok (48 + d) d). left. lia.
Qed.

Lemma take_digits_ok ok : forall n txt rest, Forall (fun c => ok c = true) txt -> (length txt <= n)%nat ->
  (length txt = n \/ forall c r, rest = c :: r -> ok c = false) ->
  take_digits ok n (txt ++ rest) = (txt, rest).
Proof.
  induction n as [|n IH]; intros txt rest F L E.
  - destruct txt; [|cbn in L; lia]. reflexivity.
  - destruct txt as [|c txt].
    + cbn [app take_digits]. destruct rest as [|c r]; [reflexivity|]. destruct E as [E|E]; [discriminate|].
      rewrite (E c r eq_refl). reflexivity.
    + inversion F; subst. cbn [app take_digits]. rewrite H1, (IH txt rest); [reflexivity|assumption|cbn in L; lia|].
      destruct E as [E|E]; [left; cbn in E; lia|right; exact E].
Qed.

Lemma ends_hex f : ends hex_digit f -> forall c r, f = c :: r -> isxdigit c = false.
Proof.
  intros H c r E. destruct (isxdigit c) eqn:X; [|reflexivity]. destruct (isxdigit_inv c X) as [d D].
  exfalso. exact (H c r d E D).
Qed.

Lemma ends_octal f : ends octal_digit f -> forall c r, f = c :: r -> isodigit c = false.
Proof.
  intros H c r E. destruct (isodigit c) eqn:X; [|reflexivity]. exfalso. apply (H c r (c - 48) E).
  unfold isodigit in X. unfold octal_digit. lia.
Qed.

Lemma scan_ok base txt ds : Forall2 (fun c d => hexval c = d) txt ds -> scan base txt = eval base ds.
Proof.
  unfold scan, eval. generalize 0. intros v H. revert v. induction H as [|c d txt ds E H IH]; intros v; [reflexivity|].
  cbn [fold_left]. rewrite E. apply IH.
Qed.

(** * Packing *)

Lemma set_word_length n l v : length (set_word n l v) = length l.
Proof. revert n. induction l as [|y l IH]; intros [|n]; cbn [set_word length]; [reflexivity|reflexivity|reflexivity|]. rewrite IH. reflexivity. Qed.

Lemma bigval_set n : forall l v, (n < length l)%nat -> bigval (set_word n l v) = bigval l + (v - nth n l 0) * 2 ^ (63 * Z.of_nat n).
Proof.
  induction n as [|n IH]; intros [|y l] v L; cbn [length] in L; [lia| |lia|].
  - cbn [set_word bigval nth]. change (63 * Z.of_nat 0) with 0. rewrite Z.pow_0_r. lia.
  - cbn [set_word bigval nth]. rewrite IH by lia.
    replace (63 * Z.of_nat (S n)) with (63 + 63 * Z.of_nat n) by lia. rewrite Z.pow_add_r by lia.
    generalize (2 ^ (63 * Z.of_nat n)). intros w. lia.
Qed.

Lemma digits_set n : forall l v, digits l -> 0 <= v < 2 ^ 63 -> digits (set_word n l v).
Proof.
  induction n as [|n IH]; intros [|y l] v D V; cbn [set_word]; try assumption; inversion D; subst; constructor; try assumption.
  apply IH; assumption.
Qed.

Lemma bigval_nonneg l : digits l -> 0 <= bigval l.
Proof. induction 1; cbn [bigval]; lia. Qed.

Lemma nth_word n : forall l, digits l -> 0 <= nth n l 0 /\ nth n l 0 * 2 ^ (63 * Z.of_nat n) <= bigval l.
Proof.
  induction n as [|n IH]; intros [|y l] D; cbn [nth bigval].
  - split; lia.
  - inversion D; subst. change (63 * Z.of_nat 0) with 0. rewrite Z.pow_0_r. pose proof (bigval_nonneg l ltac:(assumption)). lia.
  - split; lia.
  - inversion D; subst. destruct (IH l ltac:(assumption)) as [A B]. split; [exact A|].
    replace (63 * Z.of_nat (S n)) with (63 + 63 * Z.of_nat n) by lia. rewrite Z.pow_add_r by lia.
    generalize dependent (2 ^ (63 * Z.of_nat n)). intros w B. lia.
Qed.

Lemma lor_add a x q : 0 <= q -> 0 <= a < 2 ^ q -> Z.lor a (x * 2 ^ q) = a + x * 2 ^ q.
Proof.
  intros Q A. rewrite <- Z.shiftl_mul_pow2 by lia. symmetry. rewrite <- Z.lxor_lor; [apply Z.add_nocarry_lxor|].
  - apply Z.bits_inj'. intros n Hn. rewrite Z.land_spec, Z.bits_0. destruct (Z.lt_ge_cases n q).
    + rewrite Z.shiftl_spec_low by lia. apply andb_false_r.
    + replace (Z.testbit a n) with false; [reflexivity|]. symmetry.
      destruct (Z.eq_dec a 0) as [->|]; [apply Z.bits_0|]. apply Z.bits_above_log2; [lia|].
      apply Z.log2_lt_pow2; [lia|]. assert (2 ^ q <= 2 ^ n) by (apply Z.pow_le_mono_r; lia). lia.
  - apply Z.bits_inj'. intros n Hn. rewrite Z.land_spec, Z.bits_0. destruct (Z.lt_ge_cases n q).
    + rewrite Z.shiftl_spec_low by lia. apply andb_false_r.
    + replace (Z.testbit a n) with false; [reflexivity|]. symmetry.
      destruct (Z.eq_dec a 0) as [->|]; [apply Z.bits_0|]. apply Z.bits_above_log2; [lia|].
      apply Z.log2_lt_pow2; [lia|]. assert (2 ^ q <= 2 ^ n) by (apply Z.pow_le_mono_r; lia). lia.
Qed.

Lemma mask_wrap z : Z.land (wrap64 z) MASK = z mod 2 ^ 63.
Proof.
  unfold MASK. replace (2 ^ 63 - 1) with (Z.ones 63) by reflexivity. rewrite Z.land_ones by lia. unfold wrap64.
  change (2 ^ 64) with (2 * 2 ^ 63). set (m := 2 ^ 63). assert (0 < m) by (subst m; lia). clearbody m.
  rewrite (Z.mod_eq (z + m)) by lia. replace (z + m - 2 * m * ((z + m) / (2 * m)) - m) with (z + (- 2 * ((z + m) / (2 * m))) * m) by ring.
  apply Z.mod_add. lia.
Qed.

(** low digits first *)
Fixpoint low_value (ds : list Z) : Z := match ds with [] => 0 | d :: r => d + 16 * low_value r end.

Lemma low_value_nonneg ds : Forall (fun d => 0 <= d < 16) ds -> 0 <= low_value ds.
Proof. induction 1; cbn [low_value]; lia. Qed.

Lemma step_arith bv x k q : digits bv -> 0 <= x < 16 -> 0 <= q < 63 -> (k < length bv)%nat ->
  bigval bv < 2 ^ (63 * Z.of_nat k + q) ->
  let lo := set_word k bv (Z.lor (nth k bv 0) (Z.land (wrap64 (Z.shiftl x q)) MASK)) in
  digits lo /\ nth (k + 1) lo 0 = 0 /\
  bigval lo + (x * 2 ^ q / 2 ^ 63) * 2 ^ (63 * Z.of_nat (k + 1)) = bigval bv + x * 2 ^ (63 * Z.of_nat k + q).
Proof.
  intros D X Q K V lo. destruct (nth_word k bv D) as [N0 N1].
  rewrite Z.pow_add_r in V by lia.
  assert (P : 0 < 2 ^ (63 * Z.of_nat k)) by (apply Z.pow_pos_nonneg; lia).
  assert (N2 : nth k bv 0 < 2 ^ q) by nia.
  assert (Q1 : 2 ^ q <= 2 ^ 62) by (apply Z.pow_le_mono_r; lia).
  assert (M : Z.land (wrap64 (Z.shiftl x q)) MASK = (x * 2 ^ q) mod 2 ^ 63) by (rewrite mask_wrap, Z.shiftl_mul_pow2 by lia; reflexivity).
  assert (M2 : (x * 2 ^ q) mod 2 ^ 63 = (x mod 2 ^ (63 - q)) * 2 ^ q).
  { replace (2 ^ 63) with (2 ^ (63 - q) * 2 ^ q) by (rewrite <- Z.pow_add_r by lia; f_equal; lia).
    rewrite Z.mul_mod_distr_r; [reflexivity| |]; apply Z.pow_nonzero; lia. }
  assert (L : Z.lor (nth k bv 0) (Z.land (wrap64 (Z.shiftl x q)) MASK) = nth k bv 0 + (x * 2 ^ q) mod 2 ^ 63).
  { rewrite M, M2. apply lor_add; lia. }
  assert (B : nth k bv 0 + (x * 2 ^ q) mod 2 ^ 63 < 2 ^ 63).
  { rewrite M2. assert (R : 0 <= x mod 2 ^ (63 - q) < 2 ^ (63 - q)) by (apply Z.mod_pos_bound, Z.pow_pos_nonneg; lia).
    replace (2 ^ 63) with (2 ^ (63 - q) * 2 ^ q) by (rewrite <- Z.pow_add_r by lia; f_equal; lia). nia. }
  assert (R0 : 0 <= (x * 2 ^ q) mod 2 ^ 63) by (apply Z.mod_pos_bound; lia).
  split; [|split].
  - subst lo. apply digits_set; [exact D|]. rewrite L. lia.
  - subst lo. assert (E : forall n l v, nth (n + 1) (set_word n l v) 0 = nth (n + 1) l 0).
    { clear. induction n as [|n IH]; intros [|y l] v; try reflexivity. apply IH. }
    rewrite E. destruct (nth_word (k + 1) bv D) as [A1 A2].
    replace (63 * Z.of_nat (k + 1)) with (63 * Z.of_nat k + 63) in A2 by lia. rewrite Z.pow_add_r in A2 by lia.
    assert (2 ^ q < 2 ^ 63) by lia. nia.
  - subst lo. rewrite L, bigval_set by exact K.
    replace (63 * Z.of_nat (k + 1)) with (63 * Z.of_nat k + 63) by lia. rewrite !Z.pow_add_r by lia.
    pose proof (Z.div_mod (x * 2 ^ q) (2 ^ 63) ltac:(lia)) as DM.
    set (w := 2 ^ (63 * Z.of_nat k)) in *. set (y := x * 2 ^ q) in *.
    replace (x * (w * 2 ^ q)) with (w * y) by (subst y; ring). clearbody w y. nia.
Qed.

Lemma pack_ok : forall cs ds bv p, Forall2 (fun c d => hexval c = d) cs ds -> Forall (fun d => 0 <= d < 16) ds ->
  digits bv -> 0 <= p -> bigval bv < 2 ^ p ->
  (cs <> [] -> p + 4 * (Z.of_nat (length cs) - 1) < 63 * Z.of_nat (length bv)) ->
  bigval bv + low_value ds * 2 ^ p < 2 ^ (63 * Z.of_nat (length bv)) ->
  exists bv', pack cs bv p (p mod 63) = Some bv' /\ digits bv' /\ length bv' = length bv /\
    bigval bv' = bigval bv + low_value ds * 2 ^ p.
Proof.
  induction cs as [|c cs IH]; intros ds bv p F D G P V I T; inversion F as [|c' d cs' ds' E F']; subst.
  - exists bv. split; [reflexivity|]. split; [exact G|]. split; [reflexivity|]. cbn [low_value]. lia.
  - inversion D as [|d0 ds0 X D']; subst. cbn [pack]. cbv zeta. set (x := hexval c) in *.
    assert (Q : 0 <= p mod 63 < 63) by (apply Z.mod_pos_bound; lia).
    pose proof (Z.div_mod p 63 ltac:(lia)) as DM.
    assert (K0 : 0 <= p / 63) by (apply Z.div_pos; lia).
    set (k := Z.to_nat (p / 63)). assert (Kk : p = 63 * Z.of_nat k + p mod 63) by (subst k; lia).
    specialize (I ltac:(discriminate)). cbn [length] in I.
    assert (K : (k < length bv)%nat) by lia.
    destruct (Nat.leb_spec (length bv) k); [lia|]. cbn [low_value] in T |- *.
    pose proof (low_value_nonneg ds' D') as LV.
    assert (PP : 0 < 2 ^ p) by (apply Z.pow_pos_nonneg; lia).
    assert (V' : bigval bv < 2 ^ (63 * Z.of_nat k + p mod 63)) by (rewrite <- Kk; exact V).
    destruct (step_arith bv x k (p mod 63) G X Q K V') as (D1 & N1 & S1). cbv zeta in D1, N1, S1.
    rewrite <- Kk in S1.
    set (lo := set_word k bv (Z.lor (nth k bv 0) (Z.land (wrap64 (Z.shiftl x (p mod 63))) MASK))) in *.
    assert (Ll : length lo = length bv) by apply set_word_length.
    assert (Q4 : (p mod 63 + 4) mod 63 = (p + 4) mod 63) by (rewrite Z.add_mod_idemp_l by lia; reflexivity).
    assert (P4 : 2 ^ (p + 4) = 16 * 2 ^ p) by (rewrite Z.pow_add_r by lia; lia).
    assert (Vn : bigval bv + x * 2 ^ p < 2 ^ (p + 4)) by (rewrite P4; nia).
    assert (SH : Z.shiftr x (63 - p mod 63) = x * 2 ^ (p mod 63) / 2 ^ 63).
    { rewrite Z.shiftr_div_pow2 by lia. replace (2 ^ 63) with (2 ^ (63 - p mod 63) * 2 ^ (p mod 63)) by (rewrite <- Z.pow_add_r by lia; f_equal; lia).
      rewrite Z.div_mul_cancel_r; [reflexivity| |]; apply Z.pow_nonzero; lia. }
    destruct ((60 <=? p mod 63) && negb (Z.shiftr x (63 - p mod 63) =? 0)) eqn:C.
    + apply andb_true_iff in C. destruct C as [C1 C2]. rewrite negb_true_iff, Z.eqb_neq, SH in C2.
      assert (S0 : 0 <= x * 2 ^ (p mod 63) / 2 ^ 63) by (apply Z.div_pos; [apply Z.mul_nonneg_nonneg; [lia|apply Z.pow_nonneg; lia]|lia]).
      assert (K1 : (k + 1 < length bv)%nat).
      { destruct (Nat.le_gt_cases (length bv) (k + 1)) as [H1|H1]; [|exact H1]. exfalso.
        assert (B1 : 2 ^ (63 * Z.of_nat (length bv)) <= 2 ^ (63 * Z.of_nat (k + 1))) by (apply Z.pow_le_mono_r; lia).
        assert (B2 : 0 < 2 ^ (63 * Z.of_nat (k + 1))) by (apply Z.pow_pos_nonneg; lia).
        pose proof (bigval_nonneg lo D1). nia. }
      destruct (Nat.leb_spec (length lo) (k + 1)); [lia|]. rewrite SH, Q4.
      assert (B63 : x * 2 ^ (p mod 63) / 2 ^ 63 < 2 ^ 63).
      { apply Z.div_lt_upper_bound; [lia|]. assert (2 ^ (p mod 63) <= 2 ^ 62) by (apply Z.pow_le_mono_r; lia). nia. }
      assert (S2 : bigval (set_word (k + 1) lo (x * 2 ^ (p mod 63) / 2 ^ 63)) = bigval bv + x * 2 ^ p).
      { rewrite bigval_set by lia. rewrite N1. lia. }
      destruct (IH ds' (set_word (k + 1) lo (x * 2 ^ (p mod 63) / 2 ^ 63)) (p + 4)) as (bv' & E1 & E2 & E3 & E4);
        [exact F'|exact D'|apply digits_set; [exact D1|lia]|lia|rewrite S2; exact Vn| | |].
      * intros _. rewrite set_word_length. destruct cs; cbn [length] in *; lia.
      * rewrite set_word_length, Ll, S2, P4. lia.
      * exists bv'. split; [exact E1|]. split; [exact E2|]. split; [rewrite E3, set_word_length; exact Ll|].
        rewrite E4, S2, P4. lia.
    + rewrite Q4.
      assert (S0 : x * 2 ^ (p mod 63) / 2 ^ 63 = 0).
      { apply andb_false_iff in C. destruct C as [C|C].
        - apply Z.leb_gt in C. apply Z.div_small. split; [apply Z.mul_nonneg_nonneg; [lia|apply Z.pow_nonneg; lia]|].
          assert (2 ^ (p mod 63) <= 2 ^ 59) by (apply Z.pow_le_mono_r; lia). clear - X H0. nia.
        - rewrite negb_false_iff, Z.eqb_eq, SH in C. exact C. }
      rewrite S0 in S1.
      assert (S2 : bigval lo = bigval bv + x * 2 ^ p) by lia.
      destruct (IH ds' lo (p + 4)) as (bv' & E1 & E2 & E3 & E4); [exact F'|exact D'|exact D1|lia|rewrite S2; exact Vn| | |].
      * intros _. rewrite Ll. destruct cs; cbn [length] in *; lia.
      * rewrite Ll, S2, P4. lia.
      * exists bv'. split; [exact E1|]. split; [exact E2|]. split; [rewrite E3; exact Ll|]. rewrite E4, S2, P4. lia.
Qed.

Lemma low_value_rev ds : low_value (rev ds) = eval 16 ds.
Proof.
  induction ds as [|d ds IH] using rev_ind; [reflexivity|]. rewrite rev_app_distr, eval_snoc. cbn [rev app low_value].
  rewrite IH. lia.
Qed.

Lemma Forall2_rev' {A B} (R : A -> B -> Prop) a b : Forall2 R a b -> Forall2 R (rev a) (rev b).
Proof.
  induction 1; [constructor|]. cbn [rev]. apply Forall2_app; [assumption|]. constructor; [assumption|constructor].
Qed.

Lemma Forall2_len {A B} (R : A -> B -> Prop) a b : Forall2 R a b -> length a = length b.
Proof. induction 1; cbn [length]; congruence. Qed.

Lemma eval_cons d ds : eval 16 (d :: ds) = d * 16 ^ Z.of_nat (length ds) + eval 16 ds.
Proof.
  induction ds as [|e ds IH] using rev_ind; [cbn; lia|].
  change (d :: ds ++ [e]) with ((d :: ds) ++ [e]). rewrite !eval_snoc, IH, app_length. cbn [length].
  replace (Z.of_nat (length ds + 1)) with (Z.of_nat (length ds) + 1) by lia. rewrite Z.pow_add_r by lia. ring.
Qed.

Lemma hex_digit_range c d : hex_digit c d -> 0 <= d < 16.
Proof. intros [[H _]|[H _]]; lia. Qed.

Theorem read_hex_ok val txt ds rest : Forall2 hex_digit txt ds -> ds <> [] -> (length txt <= 64)%nat ->
  (length txt = 64%nat \/ ends hex_digit rest) ->
  exists o, read_sharp_hex val (txt ++ rest) = Ok (o, rest) /\ canonical o /\ value o = eval 16 ds.
Proof.
  intros F NE L E. unfold read_sharp_hex.
  assert (F1 : Forall (fun c => isxdigit c = true) txt).
  { clear -F. induction F as [|c d txt ds H F IH]; constructor; [apply (hexval_ok c d H)|exact IH]. }
  assert (F2 : Forall2 (fun c d => hexval c = d) txt ds).
  { clear -F. induction F as [|c d txt ds H F IH]; constructor; [apply (hexval_ok c d H)|exact IH]. }
  assert (R : Forall (fun d => 0 <= d < 16) ds).
  { clear -F. induction F as [|c d txt ds H F IH]; constructor; [exact (hex_digit_range c d H)|exact IH]. }
  rewrite take_digits_ok; [|exact F1|exact L|destruct E as [E|E]; [left; exact E|right; apply ends_hex; exact E]].
  cbv zeta. cbn [fst snd].
  destruct F as [|c d txt ds H F]; [contradiction|]. cbn [nth].
  set (sh := if c <? 50 then 3 else if c <? 52 then 2 else if c <? 56 then 1 else 0).
  assert (SH : 0 <= sh <= 3 /\ d < 2 ^ (4 - sh)).
  { subst sh. destruct H as [[Hd ->]|[Hd [-> | ->]]].
    - destruct (Z.ltb_spec (48 + d) 50); [lia|]. destruct (Z.ltb_spec (48 + d) 52); [lia|].
      destruct (Z.ltb_spec (48 + d) 56); lia.
    - destruct (Z.ltb_spec (55 + d) 50); [lia|]. destruct (Z.ltb_spec (55 + d) 52); [lia|]. destruct (Z.ltb_spec (55 + d) 56); lia.
    - destruct (Z.ltb_spec (87 + d) 50); [lia|]. destruct (Z.ltb_spec (87 + d) 52); [lia|]. destruct (Z.ltb_spec (87 + d) 56); lia. }
  destruct SH as [SH1 SH2]. clearbody sh.
  inversion R as [|d' ds' Rd Rds]; subst d' ds'.
  pose proof (Forall2_len _ _ _ F) as LL.
  set (j := Z.of_nat (length (c :: txt)) * 4 - sh).
  assert (J : j = 4 * Z.of_nat (length ds) + (4 - sh)) by (subst j; cbn [length]; lia).
  assert (VB : 0 <= eval 16 (d :: ds) < 2 ^ j).
  { rewrite eval_cons. pose proof (eval_bounds 16 ds ltac:(lia) Rds) as B.
    rewrite J, Z.pow_add_r by lia. replace (2 ^ (4 * Z.of_nat (length ds))) with (16 ^ Z.of_nat (length ds)).
    - set (w := 16 ^ Z.of_nat (length ds)) in *. set (u := 2 ^ (4 - sh)) in *. clearbody w u. nia.
    - rewrite Z.pow_mul_r by lia. reflexivity. }
  clearbody j.
  destruct (Z.ltb_spec j 62).
  - rewrite (scan_ok 16 (c :: txt) (d :: ds) F2).
    assert (B61 : 2 ^ j <= 2 ^ 61) by (apply Z.pow_le_mono_r; lia).
    assert (FR : fixnum_range (eval 16 (d :: ds))) by (unfold fixnum_range; lia).
    eexists. split; [reflexivity|]. destruct (makeint_fix_regular _ FR) as [V Rg].
    split; [|exact V]. rewrite makeint_fix in * by exact FR. exact Rg.
  - assert (N : j <= 63 * ((j + 62) / 63) < j + 63).
    { pose proof (Z.div_mod (j + 62) 63 ltac:(lia)). pose proof (Z.mod_pos_bound (j + 62) 63 ltac:(lia)). lia. }
    set (n := (j + 62) / 63) in *. clearbody n.
    assert (Z0 : forall m, bigval (repeat 0 m) = 0) by (intros m; induction m; cbn [repeat bigval]; lia).
    assert (ZD : forall m, digits (repeat 0 m)) by (intros m; induction m; cbn [repeat]; constructor; [lia|assumption]).
    assert (JN : 2 ^ j <= 2 ^ (63 * n)) by (apply Z.pow_le_mono_r; lia).
    destruct (pack_ok (rev (c :: txt)) (rev (d :: ds)) (repeat 0 (Z.to_nat n)) 0) as (bv & E1 & E2 & E3 & E4).
    + apply Forall2_rev'. exact F2.
    + apply Forall_rev. exact R.
    + apply ZD.
    + lia.
    + rewrite Z0. lia.
    + intros _. rewrite rev_length, repeat_length. cbn [length]. lia.
    + rewrite Z0, low_value_rev, repeat_length, Z.pow_0_r. rewrite Z2Nat.id by lia. lia.
    + change (0 mod 63) with 0 in E1. rewrite E1. rewrite low_value_rev, Z0, Z.pow_0_r in E4. rewrite repeat_length in E3.
      assert (W : wf bv) by (apply digits_wf; [exact E2|destruct bv; [cbn in E3; lia|discriminate]]).
      destruct (normalize_bignum_spec bv W) as (V & _ & _).
      eexists. split; [reflexivity|]. split; [apply normalize_bignum_canonical_pos; [exact W|lia]|]. rewrite V. lia.
Qed.

Theorem read_octal_ok txt ds rest : Forall2 octal_digit txt ds -> ds <> [] -> (length txt < 32)%nat -> ends octal_digit rest ->
  eval 8 ds < 2 ^ 63 ->
  exists o, read_sharp_octal (txt ++ rest) = Ok (o, rest) /\ legal o /\ value o = eval 8 ds /\ (eval 8 ds < 2 ^ 61 -> canonical o).
Proof.
  intros F NE L E B. unfold read_sharp_octal.
  assert (F1 : Forall (fun c => isodigit c = true) txt).
  { clear -F. induction F as [|c d txt ds H F IH]; constructor; [apply (octal_hex c d H)|exact IH]. }
  assert (F2 : Forall2 (fun c d => hexval c = d) txt ds).
  { clear -F. induction F as [|c d txt ds H F IH]; constructor; [apply (octal_hex c d H)|exact IH]. }
  assert (R : Forall (fun d => 0 <= d < 8) ds).
  { clear -F. induction F as [|c d txt ds H F IH]; constructor; [exact (proj1 H)|exact IH]. }
  rewrite take_digits_ok; [|exact F1|lia|right; apply ends_octal; exact E]. cbv zeta. cbn [fst snd].
  destruct (Nat.leb_spec 32 (length txt)); [lia|].
  rewrite (scan_ok 8 txt ds F2). pose proof (eval_bounds 8 ds ltac:(lia) R) as EB.
  destruct (Z.leb_spec (2 ^ 63) (eval 8 ds)); [lia|].
  assert (X : match txt with [] => 0 | _ => eval 8 ds end = eval 8 ds) by (destruct F; [contradiction|reflexivity]). rewrite X.
  eexists. split; [reflexivity|]. destruct (makeint_exact (eval 8 ds) ltac:(unfold in_long; lia)) as [V Lg].
  split; [exact Lg|]. split; [exact V|]. intros B1.
  assert (FR : fixnum_range (eval 8 ds)) by (unfold fixnum_range; lia).
  destruct (makeint_fix_regular _ FR) as [_ Rg]. rewrite makeint_fix in * by exact FR. exact Rg.
Qed.

(** Text printed in base 16 *)
Lemma digit_char_hex down d : 0 <= d < 16 -> hex_digit (digit_char 16 down d) d.
Proof.
  intros H. unfold digit_char, hex_digit. cbn [Z.leb Z.compare Pos.compare Pos.compare_cont orb].
  destruct (Z.ltb_spec d 10); [left; lia|]. right. split; [lia|]. destruct down; [right; lia|left; lia].
Qed.

Lemma eval_head dl : Forall (fun d => 0 <= d < 16) dl -> forall d, 1 <= d -> 16 ^ Z.of_nat (length dl) <= eval 16 (d :: dl).
Proof.
  intros F d D. rewrite eval_cons. pose proof (eval_bounds 16 dl ltac:(lia) F) as B.
  set (w := 16 ^ Z.of_nat (length dl)) in *. clearbody w. nia.
Qed.

(** #o2000 0000 0000 0000 00000 is 2^61, but not the bignum 2^61 of the arithmetic functions. *)
Lemma octal_canonical_refuted : exists txt ds o, Forall2 octal_digit txt ds /\ read_sharp_octal txt = Ok (o, []) /\
  value o = 2 ^ 61 /\ eval 8 ds = 2 ^ 61 /\ ~ canonical o.
Proof.
  exists (50 :: repeat 48 20), (2 :: repeat 0 20), (makeint (2 ^ 61)).
  split; [constructor; [split; lia|]; repeat (constructor; [split; lia|]); constructor|].
  split; [vm_compute; reflexivity|]. split; [vm_compute; reflexivity|]. split; [vm_compute; reflexivity|].
  intros [_ C]. vm_compute in C. discriminate.
Qed.

Lemma octal_long_refuted : exists txt ds, Forall2 octal_digit txt ds /\ (length txt < 32)%nat /\ read_sharp_octal txt = UB.
Proof.
  exists (49 :: repeat 48 21), (1 :: repeat 0 21). split; [constructor; [split; lia|]; cbn [repeat]; repeat (constructor; [split; lia|]); constructor|].
  split; [cbn; lia|vm_compute; reflexivity].
Qed.

Lemma octal_buffer_refuted : exists txt ds, Forall2 octal_digit txt ds /\ read_sharp_octal txt = UB.
Proof.
  exists (repeat 48 32), (repeat 0 32). split; [cbn [repeat]; repeat (constructor; [split; lia|]); constructor|vm_compute; reflexivity].
Qed.

(** 65 digits: the last one is left in the stream. *)
Lemma hex_long_refuted : exists txt ds o, Forall2 hex_digit txt ds /\ read_sharp_hex 0 txt = Ok (o, [48]) /\
  value o <> eval 16 ds.
Proof.
  exists (49 :: repeat 48 64), (1 :: repeat 0 64). eexists.
  split; [constructor; [left; lia|]; cbn [repeat]; repeat (constructor; [left; lia|]); constructor|].
  split; [vm_compute; reflexivity|vm_compute; discriminate].
Qed.

(** * A number printed in base 16 *)

Lemma printint_len base down : 2 <= base -> forall fuel k num acc r, printint_loop fuel base down num acc = Some r ->
  0 <= num < base ^ Z.of_nat (S k) -> (length r <= S k + length acc)%nat.
Proof.
  intros Hb. induction fuel as [|f IH]; intros k num acc r E B; [discriminate|]. cbn [printint_loop] in E. cbv zeta in E.
  destruct (Z.eqb_spec (num / base) 0) as [e|e]; [inversion E; subst; cbn [length]; lia|].
  assert (0 <= num / base) by (apply Z.div_pos; lia).
  assert (Hq : num / base < base ^ Z.of_nat k).
  { apply Z.div_lt_upper_bound; [lia|]. rewrite Nat2Z.inj_succ, Z.pow_succ_r in B by lia. lia. }
  destruct k as [|k]; [cbn in Hq; lia|]. apply (IH k) in E; [cbn [length] in E; lia|lia].
Qed.

Lemma printbig_len base down : 2 <= base < 2 ^ 63 -> forall fuel k ds acc r, printbig_loop fuel base down ds acc = Some r ->
  digits ds -> ds <> [] -> bigval ds < base ^ Z.of_nat k -> (length r <= k + length acc)%nat.
Proof.
  intros Hb. induction fuel as [|f IH]; intros k ds acc r E D N B; cbn [printbig_loop] in E;
    rewrite big_zerop_spec in E by exact D; pose proof (digits_bound ds D) as DB;
    (destruct (Z.eqb_spec (bigval ds) 0) as [e|e]; [inversion E; subst; lia|]); [discriminate|].
  destruct (div_int_big_digits base ds ltac:(lia) D N) as (Ev & Br & D2 & L2). cbv zeta in E.
  set (t := div_int_big base ds) in *. clearbody t.
  destruct k as [|k]; [cbn in B; lia|]. rewrite Nat2Z.inj_succ, Z.pow_succ_r in B by lia.
  pose proof (digits_bound _ D2). apply (IH k) in E; [cbn [length] in E; lia|exact D2| |nia].
  intros e2. rewrite e2 in L2. destruct ds; [congruence|discriminate].
Qed.

Lemma print_len down o txt k : canonical o -> 0 <= value o < 16 ^ Z.of_nat (S k) -> print_integer 16 down o = Some txt ->
  (length txt <= S k)%nat.
Proof.
  intros C B E. destruct o as [w|ds].
  - destruct (intval_imm w (canonical_regular _ C)) as [Ei Hv]. unfold print_integer, printint in E. rewrite Ei in E.
    set (v := value (Imm w)) in *. clearbody v. unfold fixnum_range in Hv.
    destruct (Z.ltb_spec v 0); [lia|]. rewrite Z.mod_small in E by lia.
    destruct (printint_loop 65 16 down v []) as [r|] eqn:P; [|discriminate]. inversion E; subst. cbn [app].
    apply (printint_len 16 down ltac:(lia) 65 k) in P; [cbn [length] in P; lia|exact B].
  - destruct C as (W & Fx & _). unfold print_integer, printbig, big_sign in E. cbv zeta in E.
    pose proof (top_sign ds W) as TS. change (value (Big ds)) with (bigval ds) in B.
    destruct (Z.ltb_spec (last ds 0) 0); [lia|].
    destruct (printbig_loop (64 * length ds) 16 down ds []) as [r|] eqn:P; [|discriminate]. inversion E; subst. cbn [app].
    apply (printbig_len 16 down ltac:(lia) _ (S k)) in P; [cbn [length] in P; lia|exact (wf_digits ds W ltac:(lia))|apply wf_nonempty; exact W|lia].
Qed.

Theorem print_read_hex down val o txt rest : canonical o -> 0 <= value o < 16 ^ 64 -> print_integer 16 down o = Some txt ->
  ends hex_digit rest -> exists o', read_sharp_hex val (txt ++ rest) = Ok (o', rest) /\ canonical o' /\ value o' = value o.
Proof.
  intros C B E R. pose proof (print_len down o txt 63 C B E) as L.
  destruct (print_integer_spec 16 down o ltac:(lia) C) as (dl & P & F & V & N). rewrite E in P.
  destruct (Z.ltb_spec (value o) 0); [lia|]. cbn [app] in P. inversion P; subst txt.
  destruct (read_hex_ok val (map (digit_char 16 down) dl) dl rest) as (o' & E1 & E2 & E3).
  - clear -F. induction F as [|d dl H F IH]; constructor; [apply digit_char_hex; exact H|exact IH].
  - exact N.
  - exact L.
  - right. exact R.
  - exists o'. split; [exact E1|]. split; [exact E2|]. rewrite E3, V. lia.
Qed.
