(** Properties C63 (ratio arithmetic), C64 (equality of rationals) and C65 (printed ratios read back). *)
From Coq Require Import QArith.
From Verif Require Import Word BigModel IntTextModel RatioModel RatioProofs RatioProofs2.
Open Scope Z_scope.

(** ** C63: + - * / on ratios and fixnums are exact and give lowest terms.

    The full statement is false for the code because numerators and denominators go through C ints (and for (/ 1/2));
    it holds as long as every argument and intermediate result fits in 31 bits, for + and - over the least common
    denominator of each step. *)
Theorem C63_plus_partial : forall args, Forall canonical args -> chain Qplus sum_small 0 args ->
  exists r, PLUS args = Val r /\ canonical r /\ (value r == total Qplus 0 args)%Q.
Proof. exact PLUS_ok. Qed.
Print Assumptions C63_plus_partial.

Theorem C63_minus_partial : forall a args, args <> [] -> canonical a -> Forall canonical args -> small (value a) ->
  chain Qminus (fun p q => sum_small p (- q)) (value a) args ->
  exists r, MINUS (a :: args) = Val r /\ canonical r /\ (value r == total Qminus (value a) args)%Q.
Proof. exact MINUS_ok. Qed.
Print Assumptions C63_minus_partial.

(** -2^61 becomes a bignum (C57). *)
Theorem C63_negate : forall a, canonical a -> (forall z, a = Fix z -> z <> - 2 ^ 61) ->
  exists r, MINUS [a] = Val r /\ canonical r /\ (value r == - value a)%Q.
Proof. exact MINUS_one. Qed.
Print Assumptions C63_negate.

Theorem C63_times_partial : forall a args, canonical a -> Forall canonical args -> small (value a) ->
  chain Qmult (fun p q => small (p * q)) (value a) args ->
  exists r, TIMES (a :: args) = Val r /\ canonical r /\ (value r == total Qmult (value a) args)%Q.
Proof. exact TIMES_ok. Qed.
Print Assumptions C63_times_partial.

(** Two integers in front are divided with truncation (C59). *)
Theorem C63_quotient_partial : forall a b args, is_rat a \/ is_rat b -> canonical a -> Forall canonical (b :: args) ->
  small (value a) -> chain Qdiv (fun p q => ~ (q == 0)%Q /\ small (p / q)) (value a) (b :: args) ->
  exists r, QUOTIENT (a :: b :: args) = Val r /\ canonical r /\ (value r == total Qdiv (value a) (b :: args))%Q.
Proof. exact QUOTIENT_ok. Qed.
Print Assumptions C63_quotient_partial.

(** (+ 1/6 1/10 -4/15 3) = 3, (- 1/6 5/6 1) = -5/3, the product of -4/15, 5/2, 3 is -2, (/ -4/15 -8/5 1/3) = 1/2 *)
Example C63_ex :
  (Forall canonical [Rat 1 6; Rat 1 10; Rat (-4) 15; Fix 3] /\ chain Qplus sum_small 0 [Rat 1 6; Rat 1 10; Rat (-4) 15; Fix 3] /\
   PLUS [Rat 1 6; Rat 1 10; Rat (-4) 15; Fix 3] = Val (Fix 3)) /\
  (canonical (Rat 1 6) /\ small (value (Rat 1 6)) /\
   chain Qminus (fun p q => sum_small p (- q)) (value (Rat 1 6)) [Rat 5 6; Fix 1] /\
   MINUS [Rat 1 6; Rat 5 6; Fix 1] = Val (Rat (-5) 3)) /\
  (chain Qmult (fun p q => small (p * q)) (value (Rat (-4) 15)) [Rat 5 2; Fix 3] /\
   TIMES [Rat (-4) 15; Rat 5 2; Fix 3] = Val (Fix (-2))) /\
  (chain Qdiv (fun p q => ~ (q == 0)%Q /\ small (p / q)) (value (Rat (-4) 15)) [Rat (-8) 5; Rat 1 3] /\
   QUOTIENT [Rat (-4) 15; Rat (-8) 5; Rat 1 3] = Val (Rat 1 2)).
Proof.
  repeat split; try reflexivity; try (intros X; discriminate X); repeat constructor; try reflexivity; intros X; discriminate X.
Qed.

(** The sum 239635126/15 + 465567463/3 = 855824147/5 fits, but the gcd of a truncated intermediate is taken. *)
Theorem C63_plus_refuted : exists a b c, canonical a /\ canonical b /\ canonical c /\ (value a + value b == value c)%Q /\
  exists r, PLUS [a; b] = Val r /\ ~ (value r == value c)%Q.
Proof.
  exists (Rat 239635126 15), (Rat 465567463 3), (Rat 855824147 5).
  split; [repeat split; try reflexivity; intros X; discriminate X|].
  split; [repeat split; try reflexivity; intros X; discriminate X|].
  split; [repeat split; try reflexivity; intros X; discriminate X|].
  split; [reflexivity|]. eexists. split; [vm_compute; reflexivity|]. vm_compute. intros X. discriminate X.
Qed.
Print Assumptions C63_plus_refuted.

(** An integer next to a ratio is cut to 32 bits: (+ 4294967296 1/2) = 1/2. *)
Theorem C63_integer_refuted : exists z q, canonical (Fix z) /\ canonical q /\ exists r, PLUS [Fix z; q] = Val r /\
  ~ (value r == value (Fix z) + value q)%Q.
Proof.
  exists (2 ^ 32), (Rat 1 2). split; [cbn [canonical]; lia|].
  split; [repeat split; try reflexivity; intros X; discriminate X|].
  eexists. split; [vm_compute; reflexivity|]. vm_compute. intros X. discriminate X.
Qed.
Print Assumptions C63_integer_refuted.

(** (/ 1/2) = 1/2 *)
Theorem C63_reciprocal_refuted : exists q, canonical q /\ exists r, QUOTIENT [q] = Val r /\ ~ (value r * value q == 1)%Q.
Proof.
  exists (Rat 1 2). split; [repeat split; try reflexivity; intros X; discriminate X|].
  eexists. split; [vm_compute; reflexivity|]. vm_compute. intros X. discriminate X.
Qed.
Print Assumptions C63_reciprocal_refuted.

(** Division by zero is not reported: (/ 1/2 0) makes a ratio with denominator 0. *)
Theorem C63_zero_refuted : exists q n, canonical q /\ QUOTIENT [q; Fix 0] = Val (Rat n 0).
Proof.
  exists (Rat 1 2), 1. split; [repeat split; try reflexivity; intros X; discriminate X|]. vm_compute. reflexivity.
Qed.
Print Assumptions C63_zero_refuted.

(** ** C64: = and /= on fixnums and ratios compare the numbers. *)
Theorem C64_equal : forall args, (2 <= length args)%nat -> Forall canonical args ->
  exists b, NUMEQUAL args = Val b /\ (b = true <-> forall x y, In x args -> In y args -> (value x == value y)%Q).
Proof. exact NUMEQUAL_ok. Qed.
Print Assumptions C64_equal.

Theorem C64_not_equal : forall args, (2 <= length args)%nat -> Forall canonical args ->
  exists b, NUMNEQUAL args = Val b /\
    (b = true <-> forall i j x y, (i < j)%nat -> nth_error args i = Some x -> nth_error args j = Some y -> ~ (value x == value y)%Q).
Proof. exact NUMNEQUAL_ok. Qed.
Print Assumptions C64_not_equal.

Example C64_ex : NUMEQUAL [Rat 1 2; Rat 1 2] = Val true /\ NUMEQUAL [Fix 3; Rat 1 2; Fix 3] = Val false /\
  NUMEQUAL [Rat 1 2; Fix 1] = Val false /\ NUMNEQUAL [Fix 1; Rat 1 2; Rat 2 3] = Val true /\
  NUMNEQUAL [Rat 1 2; Fix 1; Rat 1 2] = Val false.
Proof. repeat split. Qed.

(** ** C65: a printed ratio reads back as the same ratio. *)
Theorem C65_print_read : forall base down n d, 2 <= base <= 36 -> canonical (Rat n d) ->
  exists txt, printratio base down n d = Some txt /\ read_ratio_token base txt = Some (Val (Rat n d)).
Proof. exact print_read_ratio. Qed.
Print Assumptions C65_print_read.

(** -17/30 in bases 10 and 16 *)
Example C65_ex : canonical (Rat (-17) 30) /\ printratio 10 false (-17) 30 = Some [45; 49; 55; 47; 51; 48] /\
  printratio 16 true (-17) 30 = Some [45; 49; 49; 47; 49; 101] /\
  read_ratio_token 16 [45; 49; 49; 47; 49; 101] = Some (Val (Rat (-17) 30)) /\
  read_ratio_token 10 [52; 47; 50] = Some (Val (Fix 2)).
Proof. repeat split; try (vm_compute; reflexivity); intros X; discriminate X. Qed.
