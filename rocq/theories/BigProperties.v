(** Integer properties C01-C11, C57-C60.  Statements are in terms of [value] (the number an object
    stands for), [legal]/[regular]/[canonical] (which objects are meant), and the model's entry
    points only. *)
From Verif Require Import Word BigModel BigSpec BigProofs BigProofs2 BigProofs3 BigProofs4 IntTextProofs BigDivProofs.

(** ** C01 boxing *)
Theorem C01_boxing : forall v, in_long v ->
  value (makeint v) = v /\ legal (makeint v) /\ intval (makeint v) = v /\
  match makeint v with Imm w => isint_word w = true | Big _ => True end.
Proof. exact boxing. Qed.
Print Assumptions C01_boxing.

(** fixnum range, tag-3 range and one-word bignum are all exercised *)
Example C01_ex1 : makeint (-5) = Imm (-18) /\ intval (Imm (-18)) = -5.
Proof. vm_compute. auto. Qed.
Example C01_ex2 : makeint (2 ^ 62) = Imm (2 ^ 62 + 3) /\ makeint (2 ^ 62 + 1) = Big [2 ^ 62 + 1].
Proof. vm_compute. auto. Qed.

(** ** C02 one integer, one representation: false for the code as it stands *)
Theorem C02_one_representation_refuted : exists a b r,
  canonical a /\ canonical b /\ TIMES [a; b] = Ok r /\
  exists m, canonical m /\ value r = value m /\ NUMEQUAL2 r m = false.
Proof. exact one_representation_refuted. Qed.
Print Assumptions C02_one_representation_refuted.

(** What holds: on canonical objects [=] is equality of numbers, a number has one canonical object,
    and normalisation produces it for every non-negative number.  Missing: negative numbers (the loop
    strips at most one redundant word) and the primitives that skip normalisation. *)
Theorem C02_one_representation_partial :
  (forall a b, canonical a -> canonical b -> NUMEQUAL2 a b = (value a =? value b)) /\
  (forall a b, canonical a -> canonical b -> value a = value b -> a = b) /\
  (forall ds, wf ds -> 0 <= bigval ds ->
     canonical (normalize_bignum (Big ds)) /\ value (normalize_bignum (Big ds)) = bigval ds).
Proof. exact one_representation_partial. Qed.
Print Assumptions C02_one_representation_partial.

Example C02_ex : normalize_bignum (Big [7; 0; 0]) = makeint 7 /\ canonical (Big [0; 1]).
Proof. split; [reflexivity|]. cbn. unfold in_long, fixnum_range. lia. Qed.

(** normalisation also fails on its own: -1 with two redundant words stays a bignum *)
Theorem C02_normalize_negative_refuted : exists ds, wf ds /\ fixnum_range (bigval ds) /\
  ~ canonical (normalize_bignum (Big ds)).
Proof. exact normalize_negative_refuted. Qed.
Print Assumptions C02_normalize_negative_refuted.

(** ** C03 *)
Theorem C03_add_sub_int_big : forall ds c, wf ds -> 0 <= c < 2 ^ 63 ->
  bigval (add_int_big c ds) = bigval ds + c /\ wf (add_int_big c ds) /\
  bigval (sub_int_big c ds) = bigval ds - c /\ wf (sub_int_big c ds).
Proof. exact add_sub_int_big. Qed.
Print Assumptions C03_add_sub_int_big.

Example C03_ex : add_int_big 1 [MASK; MASK; MASK] = [0; 0; 0; 1] /\
                 sub_int_big 1 [0; 0; - 2 ^ 63] = [MASK; MASK; MASK; -2].
Proof. vm_compute. auto. Qed.

(** ** C04 *)
Theorem C04_negation : forall ds, wf ds ->
  bigval (big_minus ds) = - bigval ds /\ wf (big_minus ds) /\
  bigval (big_minus (big_minus ds)) = bigval ds.
Proof. exact negation. Qed.
Print Assumptions C04_negation.

Example C04_ex : big_minus [0; 5; - 2 ^ 63] = [0; 2 ^ 63 - 5; MASK] /\ big_minus [0; - 2 ^ 63] = [0; 0; 1].
Proof. vm_compute. auto. Qed.

(** ** C05 *)
Theorem C05_double_word : forall d q r, 0 <= d < 2 ^ 63 -> 0 <= q < 2 ^ 63 -> 0 <= r < 2 ^ 63 ->
  (let '(hi, lo) := extended_mul d q r in
   hi * 2 ^ 63 + lo = d * q + r /\ 0 <= lo < 2 ^ 63 /\ 0 <= hi < 2 ^ 63) /\
  (q < d -> let '(quo, rem) := extended_div d q r in
   quo = (q * 2 ^ 63 + r) / d /\ rem = (q * 2 ^ 63 + r) mod d).
Proof. exact double_word. Qed.
Print Assumptions C05_double_word.

Example C05_ex : extended_mul MASK MASK MASK = (MASK, 0) /\ extended_div MASK (MASK - 1) MASK = (MASK, MASK - 1).
Proof. vm_compute. auto. Qed.

(** ** C06, C07 *)
Theorem C06_mul_int_big : forall c ds, 0 <= c < 2 ^ 63 -> wf ds -> 0 <= bigval ds ->
  bigval (mul_int_big c ds) = c * bigval ds /\ wf (mul_int_big c ds).
Proof. exact mul_int_big_exact. Qed.
Print Assumptions C06_mul_int_big.

Example C06_ex : mul_int_big MASK [MASK; MASK] = [1; MASK; 2 ^ 63 - 2].
Proof. vm_compute. reflexivity. Qed.

Theorem C07_div_int_big : forall c ds, 0 < c < 2 ^ 63 -> wf ds -> 0 <= bigval ds ->
  bigval (fst (div_int_big c ds)) = bigval ds / c /\ snd (div_int_big c ds) = bigval ds mod c /\
  wf (fst (div_int_big c ds)).
Proof. exact div_int_big_floor. Qed.
Print Assumptions C07_div_int_big.

Example C07_ex : div_int_big 10 [5; 7; 1] = ([2 ^ 62; 922337203685477581; 0], 5).
Proof. vm_compute. reflexivity. Qed.

(** ** C08 *)
Theorem C08_big_plus : forall x y, wf x -> wf y ->
  bigval (big_plus x y) = bigval x + bigval y /\ wf (big_plus x y).
Proof. exact big_plus_exact. Qed.
Print Assumptions C08_big_plus.

Example C08_ex : big_plus [5; - 2 ^ 63] [MASK; - 2 ^ 63] = [4; 1; -2] /\ big_plus [-1] [0; 0; 1] = [MASK; MASK; 0].
Proof. vm_compute. auto. Qed.

(** ** C09 integer +: undefined behaviour is reachable *)
Theorem C09_plus_refuted : exists args, Forall canonical args /\ PLUS args = UB.
Proof. exact plus_refuted. Qed.
Print Assumptions C09_plus_refuted.

(** Whenever [+] answers, it answers with the exact sum; it always answers for two arguments and for
    any number of non-negative arguments.  Missing: totality for three or more mixed-sign arguments
    (false, see above). *)
Theorem C09_plus_partial :
  (forall args r, Forall regular args -> PLUS args = Ok r -> value r = sum args /\ regular r) /\
  (forall a b, regular a -> regular b -> exists r, PLUS [a; b] = Ok r) /\
  (forall args, Forall (fun o => canonical o /\ 0 <= value o) args -> exists r, PLUS args = Ok r).
Proof. exact (conj PLUS_sound (conj PLUS2_total PLUS_nonneg_total)). Qed.
Print Assumptions C09_plus_partial.

Example C09_ex : PLUS [makeint (2 ^ 61 - 1); makeint 5; Big [3; 9]; makeint (-7)] = Ok (Big [2 ^ 61; 9]).
Proof. vm_compute. reflexivity. Qed.

(** ** C10 bignum product: wrong *)
Theorem C10_big_times_refuted : exists x y r, wf x /\ wf y /\ 0 <= bigval x /\ 0 <= bigval y /\
  big_times x y = Some r /\ bigval r <> bigval x * bigval y.
Proof. exact big_times_refuted. Qed.
Print Assumptions C10_big_times_refuted.

(** The algorithm is right, and exact when every digit of the first factor fits an [int]; with a
    64-bit [m] it is exact for all non-negative factors.  Missing: digits above 2^31 (truncated by
    [int m]) and negative factors (the sign is dropped by TIMES). *)
Theorem C10_big_times_partial :
  (forall x y, Forall (fun d => 0 <= d < 2 ^ 31) x -> digits y ->
     exists r, big_times x y = Some r /\ bigval r = bigval x * bigval y /\ digits r) /\
  (forall x y, digits x -> digits y ->
     exists r, big_times_with (fun d => d) x y = Some r /\ bigval r = bigval x * bigval y /\ digits r).
Proof. exact big_times_partial. Qed.
Print Assumptions C10_big_times_partial.

Example C10_ex : big_times [3; 2] [MASK; MASK] = Some [2 ^ 63 - 3; 2 ^ 63 - 3; 2; 2].
Proof. vm_compute. reflexivity. Qed.

(** ** C11 comparison *)
Theorem C11_compare_refuted : exists a b, canonical a /\ canonical b /\
  value a < value b /\ LESSP2 a b = false /\ GREATERP2 a b = true.
Proof. exact compare_refuted. Qed.
Print Assumptions C11_compare_refuted.

(** Exact for all canonical pairs except two negative bignums of equal length >= 2 with equal top words. *)
Theorem C11_compare_partial : forall a b, canonical a -> canonical b ->
  match a, b with
  | Big x, Big y => 0 <= bigval x \/ 0 <= bigval y \/ length x <> length y \/
                    last x 0 <> last y 0 \/ length x = 1%nat
  | _, _ => True
  end ->
  GREATERP2 a b = (value a >? value b) /\ LESSP2 a b = (value a <? value b) /\
  GREQP2 a b = (value a >=? value b) /\ LSEQP2 a b = (value a <=? value b).
Proof. exact compare_exact. Qed.
Print Assumptions C11_compare_partial.

Example C11_ex : LESSP2 (Big [0; 1; -2]) (Big [5; 1; -3]) = false /\
                 LESSP2 (Big [5; 0; 1]) (Big [4; 1; 1]) = true /\
                 LESSP2 (makeint (-3)) (Big [-(2 ^ 61) - 1]) = false.
Proof. vm_compute. auto. Qed.

(** ** C57 integer - *)
Theorem C57_minus : forall a args, regular a -> Forall regular args ->
  exists r, MINUS (a :: args) = Ok r /\ regular r /\
    value r = match args with [] => - value a | _ => value a - sum args end.
Proof. exact MINUS_exact. Qed.
Print Assumptions C57_minus.

Example C57_ex : MINUS [makeint (- 2 ^ 61); makeint 1; Big [0; 1]; Big [0; -1]] = Ok (Big [- 2 ^ 61 - 1]).
Proof. vm_compute. reflexivity. Qed.

(** ** C58 integer * with at most one bignum factor, in first or second position *)
Theorem C58_times_sign_refuted : exists a b r, canonical a /\ canonical b /\ isint b = true /\
  TIMES [a; b] = Ok r /\ value r <> value a * value b.
Proof. exact times_sign_refuted. Qed.
Print Assumptions C58_times_sign_refuted.

Theorem C58_times_bigbig_refuted : exists a b r, canonical a /\ canonical b /\
  TIMES [a; b] = Ok r /\ value r = - (value a * value b) /\ value r <> 0.
Proof. exact times_bigbig_refuted. Qed.
Print Assumptions C58_times_bigbig_refuted.

(** Missing: bignum x bignum, and a negative factor meeting a partial product whose top word is
    -2^63 ([min_top]; C negates that word to itself). *)
Theorem C58_times_partial :
  (forall a args, canonical a -> Forall (fun o => regular o /\ isint o = true) args ->
    partials_safe (value a) args ->
    exists r, TIMES (a :: args) = Ok r /\ value r = value a * prod args /\ regular r) /\
  (forall w ds args, regular (Imm w) -> canonical (Big ds) ->
    Forall (fun o => regular o /\ isint o = true) args ->
    (value (Imm w) < 0 -> ~ min_top (bigval ds)) ->
    partials_safe (value (Imm w) * bigval ds) args ->
    exists r, TIMES (Imm w :: Big ds :: args) = Ok r /\
      value r = value (Imm w) * bigval ds * prod args /\ regular r).
Proof. exact (conj TIMES_exact TIMES_exact_fb). Qed.
Print Assumptions C58_times_partial.

Example C58_ex : TIMES [makeint (-3); makeint (2 ^ 60); makeint (-5)] = Ok (Big [15 * 2 ^ 60 - 2 ^ 63; 1]).
Proof. vm_compute. reflexivity. Qed.
Example C58_ex_hyp : partials_safe (-3) [makeint (2 ^ 60); makeint (-5)].
Proof. exact times_ex_hyp. Qed.

(** ** C59 integer / *)
Theorem C59_quotient_partial : forall a b args, regular a ->
  Forall (fun o => regular o /\ isint o = true /\ value o <> 0) (b :: args) ->
  exists r, QUOTIENT (a :: b :: args) = Ok r /\
    value r = fold_left (fun q o => Z.quot q (value o)) (b :: args) (value a).
Proof. exact QUOTIENT_exact. Qed.
Print Assumptions C59_quotient_partial.

(** a fixnum divided by a bignum is always 0, although -2^61 / 2^61 is -1 *)
Theorem C59_quotient_refuted : exists a b r, canonical a /\ canonical b /\ value b <> 0 /\
  QUOTIENT [a; b] = Ok r /\ value r <> Z.quot (value a) (value b).
Proof. exact quotient_refuted. Qed.
Print Assumptions C59_quotient_refuted.

(** A bignum divided by a bignum: right when the top digit of the divisor is at least 2^31 and the quotient below
    2^31. *)
Theorem C59_bignum_divisor_partial : forall a b n, canonical a -> isint a = false -> canonical b ->
  2 ^ (63 * Z.of_nat n + 31) <= value b < 2 ^ (63 * (Z.of_nat n + 1)) -> isint b = false ->
  2 ^ (63 * Z.of_nat n) <= Z.abs (value a) < 2 ^ 31 * value b ->
  exists r, QUOTIENT [a; b] = Ok r /\ canonical r /\ value r = Z.quot (value a) (value b).
Proof. exact QUOTIENT_bignum_exact. Qed.
Print Assumptions C59_bignum_divisor_partial.

Theorem C59_bignum_divisor_refuted :
  (exists a b r, canonical a /\ canonical b /\ value a = 2 ^ 103 /\ value b = 2 ^ 65 /\
    QUOTIENT [a; b] = Ok r /\ value r = 0) /\
  (exists a b r, canonical a /\ canonical b /\ value a = 2 ^ 103 /\ value b = 2 ^ 101 /\
    QUOTIENT [a; b; makeint 2] = Ok r /\ value r = 4) /\
  (exists a b, canonical a /\ canonical b /\ value a = 2 ^ 63 /\ value b = 2 ^ 126 /\ QUOTIENT [a; b] = UB) /\
  (exists a b, canonical a /\ canonical b /\ value a = 100 * 2 ^ 63 /\ value b = 2 ^ 64 - 1 /\
    QUOTIENT [a; b] = UB) /\
  (exists a b, canonical a /\ canonical b /\ value a = 5 * 2 ^ 63 /\ value b = - 2 ^ 64 /\ QUOTIENT [a; b] = UB).
Proof. exact quotient_bignum_refuted. Qed.
Print Assumptions C59_bignum_divisor_refuted.

Example C59_bignum_ex : QUOTIENT [Big [7; - 2 ^ 39]; Big [12345; 2 ^ 38]] = Ok (makeint (-1)) /\
  QUOTIENT [Big [7; 2 ^ 60]; Big [12345; 2 ^ 38]] = Ok (makeint 4194303) /\
  QUOTIENT [Big [0; 1]; Big [2 ^ 62]] = Ok (makeint 2).
Proof. vm_compute. auto. Qed.

Example C59_ex : QUOTIENT [Big [5; 7; -2]; makeint (-10); makeint 3] =
  Ok (Big [2767011611056432742; 614891469123651720]).
Proof. vm_compute. reflexivity. Qed.

(** ** C60 1+, 1-, abs *)
Theorem C60_succ_pred_abs : forall a, regular a ->
  value (ADD1 a) = value a + 1 /\ value (SUB1 a) = value a - 1 /\ value (ABS a) = Z.abs (value a) /\
  regular (ADD1 a) /\ regular (SUB1 a) /\ regular (ABS a).
Proof. exact succ_pred_abs. Qed.
Print Assumptions C60_succ_pred_abs.

Example C60_ex : ADD1 (makeint (2 ^ 61 - 1)) = Big [2 ^ 61] /\ SUB1 (Big [2 ^ 61]) = makeint (2 ^ 61 - 1) /\
  ABS (makeint (- 2 ^ 61)) = Big [2 ^ 61] /\ ADD1 (Big [MASK]) = Big [0; 1].
Proof. vm_compute. auto. Qed.
