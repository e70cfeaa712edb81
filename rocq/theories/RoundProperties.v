(** C95: floor, ceiling, round and truncate give the right integer.
    C96: mod gives the remainder and max and min give an extreme argument. *)
From Coq Require Import Lia.
From Verif Require Import Word BigModel BigSpec RoundModel RoundSpec RoundProofs RoundProofs2.
Open Scope Z_scope.

(** * C95 *)
(** where the right integer has at most 24 binary digits and fits in 31 bits, or lies between 2^86 and 2^94, it is the result *)
Theorem C95_round_partial : forall x n, digits24 n -> Z.abs n < 2 ^ 31 \/ 2 ^ 86 <= Z.abs n < 2 ^ 94 ->
  (is_floor n x -> exists o, FLOOR (Flo x) = Ok o /\ value o = n) /\
  (is_ceiling n x -> exists o, CEILING (Flo x) = Ok o /\ value o = n) /\
  (is_round n x -> exists o, ROUND (Flo x) = Ok o /\ value o = n).
Proof.
  intros x n D R. split; [|split]; intros H; cbn [FLOOR CEILING ROUND].
  - exact (whole_result _ n (floor_whole x n H) D R).
  - exact (whole_result _ n (ceil_whole x n H) D R).
  - exact (whole_result _ n (round_whole x n H) D R).
Qed.
Print Assumptions C95_round_partial.
(** minus seven halves: -4, -3 and -4 *)
Example C95_round_ex : let x := F (-7) (-1) in
  is_floor (-4) x /\ is_ceiling (-3) x /\ is_round (-4) x /\ digits24 (-4) /\ digits24 (-3) /\
  FLOOR (Flo x) = Ok (makeint (-4)) /\ CEILING (Flo x) = Ok (makeint (-3)) /\ ROUND (Flo x) = Ok (makeint (-4)).
Proof.
  cbv zeta. split; [vm_compute; split; congruence|]. split; [vm_compute; split; congruence|]. split; [vm_compute; split; [congruence | reflexivity]|].
  split; [exists (-4), 0; split; [lia | split; lia]|]. split; [exists (-3), 0; split; [lia | split; lia]|].
  vm_compute. auto.
Qed.
(** three times 2^86 *)
Example C95_round_ex2 : is_floor (3 * 2 ^ 86) (F 3 86) /\ digits24 (3 * 2 ^ 86) /\ FLOOR (Flo (F 3 86)) = Ok (Big [0; 3 * 2 ^ 23]).
Proof.
  split; [vm_compute; split; congruence|]. split; [|vm_compute; reflexivity].
  exists 3, 86. split; [lia | split; lia].
Qed.

(** short of 2^31 there is always a result, and it is off by no more than one part in 2^24 *)
Theorem C95_near : forall x n, Z.abs n < 2 ^ 31 - 128 ->
  (is_floor n x -> exists o, FLOOR (Flo x) = Ok o /\ Z.abs (value o - n) * 2 ^ 24 <= Z.abs n) /\
  (is_ceiling n x -> exists o, CEILING (Flo x) = Ok o /\ Z.abs (value o - n) * 2 ^ 24 <= Z.abs n) /\
  (is_round n x -> exists o, ROUND (Flo x) = Ok o /\ Z.abs (value o - n) * 2 ^ 24 <= Z.abs n).
Proof.
  intros x n R. split; [|split]; intros H; cbn [FLOOR CEILING ROUND].
  - exact (whole_near _ n (floor_whole x n H) R).
  - exact (whole_near _ n (ceil_whole x n H) R).
  - exact (whole_near _ n (round_whole x n H) R).
Qed.
Print Assumptions C95_near.
Example C95_near_ex : is_floor 1000000001 (F (4 * 1000000001 + 3) (-2)) /\ FLOOR (Flo (F (4 * 1000000001 + 3) (-2))) = Ok (makeint 1000000000).
Proof. split; [vm_compute; split; congruence | vm_compute; reflexivity]. Qed.

(** from 2^31 up to 2^61 the conversion overflows a C int *)
Theorem C95_undefined : forall x n, 2 ^ 31 <= Z.abs n < 2 ^ 61 ->
  (is_floor n x -> FLOOR (Flo x) = UB) /\ (is_ceiling n x -> CEILING (Flo x) = UB) /\ (is_round n x -> ROUND (Flo x) = UB).
Proof.
  intros x n R. split; [|split]; intros H; cbn [FLOOR CEILING ROUND].
  - exact (whole_undefined _ n (floor_whole x n H) R).
  - exact (whole_undefined _ n (ceil_whole x n H) R).
  - exact (whole_undefined _ n (round_whole x n H) R).
Qed.
Print Assumptions C95_undefined.
(** 3000000000.5 *)
Example C95_undefined_ex : is_round 3000000000 (F 6000000001 (-1)) /\ ROUND (Flo (F 6000000001 (-1))) = UB.
Proof. split; [vm_compute; split; [congruence | reflexivity] | vm_compute; reflexivity]. Qed.

(** truncate is right for numbers that are single-precision numbers *)
Theorem C95_truncate_partial : forall x n, digits24 (mant x) -> is_truncate n x -> Z.abs n < 2 ^ 31 ->
  exists o, TRUNCATE (Flo x) = Ok o /\ value o = n.
Proof. exact trunc_result. Qed.
Print Assumptions C95_truncate_partial.
Example C95_truncate_ex : digits24 (-7) /\ is_truncate (-3) (F (-7) (-1)) /\ TRUNCATE (Flo (F (-7) (-1))) = Ok (makeint (-3)).
Proof.
  split; [exists (-7), 0; split; [lia | split; lia]|]. split; [|vm_compute; reflexivity].
  split; intros H; vm_compute in H |- *; [congruence | split; congruence].
Qed.

(** integers are their own roundings *)
Theorem C95_integers : forall o, ROUND (Int o) = Ok o /\ FLOOR (Int o) = Ok o /\ CEILING (Int o) = Ok o /\ TRUNCATE (Int o) = Ok o.
Proof. intros o. repeat split. Qed.
Print Assumptions C95_integers.

(** the full claim fails: 16777217.0 has the floor 16777216, truncating (2^51-1)/2^51 gives 1, and 2147483648.0 has no floor *)
Theorem C95_refuted :
  (is_floor 16777217 (F 16777217 0) /\ FLOOR (Flo (F 16777217 0)) = Ok (makeint 16777216)) /\
  (is_truncate 0 (F (2 ^ 51 - 1) (-51)) /\ TRUNCATE (Flo (F (2 ^ 51 - 1) (-51))) = Ok (makeint 1)) /\
  (is_floor (2 ^ 31) (F 1 31) /\ FLOOR (Flo (F 1 31)) = UB).
Proof.
  split; [split; [vm_compute; split; congruence | vm_compute; reflexivity]|].
  split; [split; [split; intros H; vm_compute in H |- *; [split; congruence | congruence] | vm_compute; reflexivity]|].
  split; [vm_compute; split; congruence | vm_compute; reflexivity].
Qed.
Print Assumptions C95_refuted.

(** * C96 *)
Theorem C96_mod_partial :
  (forall x y, canonical x -> canonical y -> in_long (value x) -> in_long (value y) -> value y <> 0 ->
    ~ (value x = - 2 ^ 63 /\ value y = -1) ->
    exists r, MOD (Int x) (Int y) = Ok (Some (Int r)) /\ remainder (Int x) (Int y) (Int r)) /\
  (forall a b, held a -> held b -> top b <> 0 -> (exists x, a = Flo x) \/ (exists y, b = Flo y) ->
    exists r, MOD a b = Ok (Some (Flo r)) /\ remainder a b (Flo r)).
Proof. split; [exact mod_int | exact mod_held]. Qed.
Print Assumptions C96_mod_partial.
(** -7 mod 3 is -1, and 7.5 mod -2 is 1.5 *)
Example C96_mod_ex : MOD (Int (makeint (-7))) (Int (makeint 3)) = Ok (Some (Int (makeint (-1)))) /\
  held (Flo (F 15 (-1))) /\ held (Int (makeint (-2))) /\ MOD (Flo (F 15 (-1))) (Int (makeint (-2))) = Ok (Some (Flo (F 3 (-1)))).
Proof. split; [reflexivity|]. split; [vm_compute; congruence|]. split; [|reflexivity]. vm_compute. repeat split; congruence. Qed.
(** there is one remainder only *)
Theorem C96_mod_unique : forall x y r s, value y <> 0 -> remainder (Int x) (Int y) (Int r) -> remainder (Int x) (Int y) (Int s) ->
  value r = value s.
Proof.
  intros x y r s. unfold remainder. cbn [top bottom]. intros N [[q Q] [L G]] [[p P] [L2 G2]].
  set (a := value x) in *. set (b := value y) in *. set (u := value r) in *. set (v := value s) in *. clearbody a b u v.
  assert (E : u - v = (p - q) * b) by lia.
  destruct (Z.eq_dec p q) as [->|D]; [lia|]. exfalso.
  assert (BD : Z.abs b <= Z.abs (u - v)) by (rewrite E, Z.abs_mul; nia).
  assert (SG : u * v < 0) by (destruct (Z.lt_ge_cases (u * v) 0); [assumption | exfalso; nia]).
  destruct (Z.lt_trichotomy a 0) as [A|[A|A]]; [nia | | nia].
  subst a. assert (u = - q * b) by lia. assert (v = - p * b) by lia. subst u v.
  assert (q = 0) by nia. assert (p = 0) by nia. lia.
Qed.
Print Assumptions C96_mod_unique.
(** mod of integers of more than a word is wrong: 2^64 + 1 mod 5 is 2; and dividing by zero is undefined *)
Theorem C96_mod_refuted :
  (canonical (Big [1; 2]) /\ value (Big [1; 2]) = 2 ^ 64 + 1 /\ MOD (Int (Big [1; 2])) (Int (makeint 5)) = Ok (Some (Int (makeint 1))) /\
   remainder (Int (Big [1; 2])) (Int (makeint 5)) (Int (makeint 2))) /\
  MOD (Int (makeint 5)) (Int (makeint 0)) = UB.
Proof.
  split; [|reflexivity]. split.
  { cbn [canonical wf]. unfold in_long, fixnum_range. cbn [bigval length]. split; [vm_compute; repeat split; congruence|]. split.
    - intros [_ H]. vm_compute in H. congruence.
    - intros _ [_ H]. vm_compute in H. congruence. }
  split; [reflexivity|]. split; [reflexivity|]. unfold remainder. split; [exists ((2 ^ 64 + 1 - 2) / 5); reflexivity|]. split; vm_compute; congruence.
Qed.
Print Assumptions C96_mod_refuted.

Theorem C96_max_min_partial :
  (forall args, args <> [] -> Forall fixnum args ->
    (exists r, MAX args = Ok r /\ In r args /\ largest args r) /\ (exists r, MIN args = Ok r /\ In r args /\ smallest args r)) /\
  (forall args, args <> [] -> Forall held args ->
    (exists r, MAX args = Ok r /\ largest args r) /\ (exists r, MIN args = Ok r /\ smallest args r)) /\
  MAX [] = Err /\ MIN [] = Err.
Proof.
  split; [|split; [|split; reflexivity]]; intros args N H; (split; [|]).
  - apply max_fix; assumption.
  - apply min_fix; assumption.
  - apply max_held; assumption.
  - apply min_held; assumption.
Qed.
Print Assumptions C96_max_min_partial.
Example C96_max_min_ex : let l := [Int (makeint 3); Flo (F 7 (-1)); Int (makeint (-2))] in
  Forall held l /\ MAX l = Ok (Flo (F 7 (-1))) /\ MIN l = Ok (Flo (F (-2) 0)).
Proof. cbv zeta. split; [|split; reflexivity]. repeat constructor; vm_compute; congruence. Qed.
Example C96_max_min_ex2 : let l := [Int (makeint 3); Int (makeint 9); Int (makeint (-2))] in
  Forall fixnum l /\ MAX l = Ok (Int (makeint 9)) /\ MIN l = Ok (Int (makeint (-2))).
Proof. cbv zeta. split; [|split; reflexivity]. repeat constructor; vm_compute; congruence. Qed.
(** beyond that the answer need not be one of the arguments: the larger of the bignum 2^61+1 and 0 is the float 2^61, and of the
    fixnum 2^60+1 and 0.0 the float 2^60 *)
Theorem C96_max_refuted :
  (canonical (Big [2 ^ 61 + 1]) /\ exists r, MAX [Int (Big [2 ^ 61 + 1]); Int (makeint 0)] = Ok (Flo r) /\ ~ largest [Int (Big [2 ^ 61 + 1]); Int (makeint 0)] (Flo r)) /\
  (exists r, MAX [Int (makeint (2 ^ 60 + 1)); Flo (F 0 0)] = Ok (Flo r) /\ ~ largest [Int (makeint (2 ^ 60 + 1)); Flo (F 0 0)] (Flo r)).
Proof.
  split; [split|].
  - cbn [canonical wf]. unfold in_long, fixnum_range. cbn [bigval length]. split; [vm_compute; repeat split; congruence|]. split.
    + intros [_ H]. vm_compute in H. congruence.
    + intros H. vm_compute in H. congruence.
  - eexists. split; [reflexivity|]. intros [_ H]. specialize (H (Int (Big [2 ^ 61 + 1])) (or_introl eq_refl)). vm_compute in H. congruence.
  - eexists. split; [reflexivity|]. intros [_ H]. specialize (H (Int (makeint (2 ^ 60 + 1))) (or_introl eq_refl)). vm_compute in H. congruence.
Qed.
Print Assumptions C96_max_refuted.
