(** Properties C12, C13, C14, C15, C56. *)
From Verif Require Import Word BigModel BigSpec BigProofs3 BigProofs4 BitsModel BitsProofs BitsProofs2 BitsProofs3
  IntTextModel IntTextProofs ExptModel ExptProofs.

(** ** C12 deposit/extract *)
Theorem C12_extract : forall v po wo p w, argument v -> fits_word (value v) -> byte_spec po wo p w ->
  exists r, LDB v po wo = Ok r /\ argument r /\ value r = wrap64 (bitfield (value v) p w).
Proof. exact LDB_spec. Qed.
Print Assumptions C12_extract.

Theorem C12_deposit_then_extract : forall v t po wo p w,
  argument v -> fits_word (value v) -> argument t -> fits_word (value t) -> byte_spec po wo p w ->
  exists d r, DPB v t po wo = Ok d /\ LDB d po wo = Ok r /\
    value r = wrap64 (bitfield (value v) 0 w) /\
    (forall i, 0 <= i < 64 -> ~ (p <= i < p + w) -> Z.testbit (value d) i = Z.testbit (value t) i).
Proof. exact ldb_dpb. Qed.
Print Assumptions C12_deposit_then_extract.

Theorem C12_extract_then_deposit : forall t po wo p w,
  argument t -> fits_word (value t) -> byte_spec po wo p w ->
  exists f r, LDB t po wo = Ok f /\ DPB f t po wo = Ok r /\ value r = wrap64 (value t).
Proof. exact dpb_ldb. Qed.
Print Assumptions C12_extract_then_deposit.

Example C12_ex : DPB (makeint 1023) (makeint (-1)) (makeint 4) (makeint 8) = Ok (makeint (-1)) /\
  DPB (makeint 0) (makeint (-1)) (makeint 4) (makeint 8) = Ok (makeint (-4081)) /\
  LDB (Big [2 ^ 62 + 5]) (makeint 0) (makeint 64) = Ok (Big [2 ^ 62 + 5]) /\
  LDB (makeint (-1)) (makeint 60) (makeint 4) = Ok (makeint 15).
Proof. vm_compute. auto. Qed.
Example C12_hyp : byte_spec (makeint 4) (makeint 8) 4 8 /\ argument (Big [2 ^ 62 + 5]) /\
  fits_word (value (Big [2 ^ 62 + 5])).
Proof. vm_compute. intuition congruence. Qed.

(** ** C13 bitwise operations *)
Theorem C13_logand_refuted : exists a r, canonical a /\ LOGAND [a; a] = Ok r /\
  value r <> Z.land (value a) (value a).
Proof. exact logand_refuted. Qed.
Theorem C13_logand_mixed_refuted : exists a b r, canonical a /\ canonical b /\ LOGAND [a; b] = Ok r /\
  value r <> Z.land (value a) (value b).
Proof. exact logand_mixed_refuted. Qed.
Theorem C13_logior_refuted : exists a b, canonical a /\ canonical b /\
  value (LOGIOR [a; b]) <> Z.lor (value a) (value b).
Proof. exact logior_refuted. Qed.
Theorem C13_logxor_refuted : exists a b, canonical a /\ canonical b /\ LOGXOR [a; b] = Err /\ LOGNOT a = Err.
Proof. exact logxor_refuted. Qed.
Print Assumptions C13_logand_refuted.
Print Assumptions C13_logand_mixed_refuted.
Print Assumptions C13_logior_refuted.
Print Assumptions C13_logxor_refuted.

(** logior of integers that fit a word *)
Theorem C13_logior_partial : forall args, Forall (fun o => argument o /\ in_long (value o)) args ->
  value (LOGIOR args) = fold_right (fun o r => Z.lor (value o) r) 0 args /\ canonical (LOGIOR args).
Proof. exact LOGIOR_exact. Qed.
Print Assumptions C13_logior_partial.

(** the other operations on fixnums (bignums are rejected with an error) *)
Theorem C13_logxor_partial : forall args, fixargs args -> exists r, LOGXOR args = Ok r /\ canonical r /\
  value r = fold_left (fun r o => Z.lxor r (value o)) args 0.
Proof. exact LOGXOR_exact. Qed.
Print Assumptions C13_logxor_partial.
Theorem C13_logeqv_partial : forall args, fixargs args -> exists r, LOGEQV args = Ok r /\ canonical r /\
  value r = Z.lnot (fold_left (fun r o => Z.lxor r (value o)) args 0).
Proof. exact LOGEQV_exact. Qed.
Print Assumptions C13_logeqv_partial.
Theorem C13_lognand_partial : forall args, fixargs args -> exists r, LOGNAND args = Ok r /\ canonical r /\
  value r = Z.lnot (fold_left (fun r o => Z.land r (value o)) args (-1)).
Proof. exact LOGNAND_exact. Qed.
Print Assumptions C13_lognand_partial.
Theorem C13_lognor_partial : forall args, fixargs args -> exists r, LOGNOR args = Ok r /\ canonical r /\
  value r = Z.lnot (fold_left (fun r o => Z.lor r (value o)) args 0).
Proof. exact LOGNOR_exact. Qed.
Print Assumptions C13_lognor_partial.
Theorem C13_lognot_partial : forall w, regular (Imm w) -> exists r, LOGNOT (Imm w) = Ok r /\ canonical r /\
  value r = Z.lnot (value (Imm w)).
Proof. exact LOGNOT_exact. Qed.
Print Assumptions C13_lognot_partial.
Theorem C13_logtest_partial : forall x y, regular (Imm x) -> regular (Imm y) ->
  exists b, LOGTEST (Imm x) (Imm y) = Ok b /\ (b = true <-> Z.land (value (Imm x)) (value (Imm y)) <> 0).
Proof. exact LOGTEST_exact. Qed.
Print Assumptions C13_logtest_partial.
Theorem C13_logbitp_partial : forall i v, argument i -> argument v -> 0 <= value i < 64 -> in_long (value v) ->
  LOGBITP i v = Ok (Z.testbit (value v) (value i)).
Proof. exact LOGBITP_exact. Qed.
Print Assumptions C13_logbitp_partial.

(** logand: any mixture of arguments after a bignum; fixnums that fit a C int *)
Theorem C13_logand_bignum_partial : forall ds b args, wf ds -> Forall argument (b :: args) ->
  exists r, LOGAND (Big ds :: b :: args) = Ok r /\ regular r /\
    value r = fold_left (fun a o => Z.land a (value o)) (b :: args) (bigval ds).
Proof. exact LOGAND_big_exact. Qed.
Print Assumptions C13_logand_bignum_partial.
Theorem C13_logand_int32_partial : forall a args, fixargs (a :: args) ->
  Forall (fun o => int32 (value o)) (a :: args) ->
  exists r, LOGAND (a :: args) = Ok r /\ canonical r /\
    value r = fold_left (fun a o => Z.land a (value o)) args (value a).
Proof. exact LOGAND_int32_exact. Qed.
Print Assumptions C13_logand_int32_partial.

Example C13_ex : LOGAND [Big [5; -3]; Big [7; 3; 1]; makeint (-2)] = Ok (Big [4; 1; 1]) /\
  LOGXOR [makeint 12; makeint (-7)] = Ok (makeint (-11)) /\
  LOGIOR [Big [2 ^ 62]; makeint 5] = Big [2 ^ 62 + 5] /\
  LOGEQV [makeint 12; makeint 10] = Ok (makeint (-7)) /\
  LOGTEST (makeint 12) (makeint 3) = Ok false /\ LOGBITP (makeint 63) (Big [- 2 ^ 62]) = Ok true.
Proof. vm_compute. intuition. Qed.
Example C13_hyp : wf [5; -3] /\ Forall argument [Big [7; 3; 1]; makeint (-2)].
Proof. split; [vm_compute; intuition congruence|]. repeat constructor; vm_compute; intuition congruence. Qed.

(** ** C14 arithmetic shift *)
Theorem C14_ash_refuted : exists a k r, canonical a /\ canonical k /\ ASH a k = Ok r /\
  value r <> floor_shift (value a) (value k).
Proof. exact ash_refuted. Qed.
Print Assumptions C14_ash_refuted.
Theorem C14_ash_overrun_refuted : ASH (makeint 1) (makeint 63) = UB /\
  forall ds, ds <> [] -> ASH (Big ds) (makeint 0) = UB.
Proof. exact ash_overrun. Qed.
Print Assumptions C14_ash_overrun_refuted.
Theorem C14_ash_carry_refuted : exists a k r, canonical a /\ canonical k /\ ASH a k = Ok r /\ ~ legal r.
Proof. exact ash_carry_refuted. Qed.
Print Assumptions C14_ash_carry_refuted.

(** fixnums: every right shift by less than a word, every left shift whose result fits a word *)
Theorem C14_ash_fixnum_partial : forall a k, regular a -> isint a = true -> argument k -> -63 <= value k <= 63 ->
  in_long (floor_shift (value a) (value k)) ->
  exists r, ASH a k = Ok r /\ value r = floor_shift (value a) (value k) /\ legal r.
Proof. exact ASH_fixnum. Qed.
Print Assumptions C14_ash_fixnum_partial.

(** bignums: right shifts that leave at least one word; left shifts without carry between words *)
Theorem C14_ash_bignum_partial : forall ds k, wf ds -> argument k -> in_long (value k) ->
  (value k < 0 /\ - value k / 63 < Z.of_nat (length ds) \/
   0 < value k /\ value k mod 63 <> 0 /\ Forall (fun x => 0 <= x < 2 ^ (63 - value k mod 63)) ds) ->
  exists r, ASH (Big ds) k = Ok r /\ value r = floor_shift (bigval ds) (value k) /\ regular r.
Proof. exact ASH_bignum. Qed.
Print Assumptions C14_ash_bignum_partial.

Example C14_ex : ASH (Big [5; 7; -1]) (makeint (-65)) = Ok (Big [2 ^ 62 + 2 ^ 61 + 1; -1]) /\
  ASH (makeint (-5)) (makeint (-1)) = Ok (makeint (-3)) /\ ASH (makeint 1) (makeint 62) = Ok (Big [2 ^ 62]) /\
  ASH (Big [3; 4]) (makeint 66) = Ok (Big [0; 24; 32]).
Proof. vm_compute. auto. Qed.

(** ** C15 printed integers read back *)
Theorem C15_print_read_base36_refuted : exists base down o txt, 2 <= base <= 36 /\ canonical o /\
  print_integer base down o = Some txt /\ (length txt < 1024)%nat /\
  exists o', read_integer_token base txt = Some o' /\ value o' <> value o.
Proof. exact print_read_base36_refuted. Qed.
Print Assumptions C15_print_read_base36_refuted.
Theorem C15_print_read_long_refuted : exists o txt, canonical o /\
  print_integer 2 false o = Some txt /\ read_integer_token 2 txt = None.
Proof. exact print_read_long_refuted. Qed.
Print Assumptions C15_print_read_long_refuted.

(** printing always succeeds, and reading the text back gives the same object: bases 2..21, text below
    the reader's token limit of 1024 characters *)
Theorem C15_print_read_partial : forall base down o txt, 2 <= base <= 21 -> canonical o ->
  print_integer base down o = Some txt -> (length txt < 1024)%nat -> read_integer_token base txt = Some o.
Proof. exact print_read_integer. Qed.
Print Assumptions C15_print_read_partial.
Theorem C15_print_total : forall base down o, 2 <= base <= 36 -> canonical o ->
  exists dl, print_integer base down o =
      Some ((if value o <? 0 then [45] else []) ++ map (digit_char base down) dl) /\
    Forall (fun d => 0 <= d < base) dl /\ eval base dl = Z.abs (value o) /\ dl <> [].
Proof. exact print_integer_spec. Qed.
Print Assumptions C15_print_total.

Example C15_ex : print_integer 16 true (Big [255; -3]) =
    Some [45; 49; 55; 102; 102; 102; 102; 102; 102; 102; 102; 102; 102; 102; 102; 102; 48; 49] /\
  read_integer_token 10 [45; 49; 50; 51; 52; 53; 54; 55; 56; 57] = Some (makeint (-123456789)).
Proof. vm_compute. auto. Qed.

(** ** C56 expt *)
Theorem C56_expt_refuted : exists a x r, canonical a /\ 0 <= x /\ EXPT a x = Ok r /\ value r <> value a ^ x.
Proof. exact expt_refuted. Qed.
Print Assumptions C56_expt_refuted.

(** for any associative product the loop computes the n-fold product *)
Theorem C56_expt_assoc : forall (A : Type) (mul : A -> A -> A) (one a : A) (n : nat),
  (forall p q r, mul p (mul q r) = mul (mul p q) r) ->
  expt (fun p q => Ok (mul p q)) one a (Z.of_nat (S n)) = Ok (npow mul a n).
Proof. exact (fun A => @expt_assoc A). Qed.
Print Assumptions C56_expt_assoc.

(** integers: exact whenever half the power still is a fixnum (so no bignum gets squared) *)
Theorem C56_expt_partial : forall a x h, canonical a -> isint a = true -> 0 <= x <= 2 * h + 1 ->
  Z.abs (value a) ^ h < 2 ^ 61 -> (value a < 0 -> forall e, 0 < e < x -> ~ min_top (value a ^ e)) ->
  exists r, EXPT a x = Ok r /\ value r = value a ^ x /\ regular r.
Proof. exact EXPT_exact. Qed.
Print Assumptions C56_expt_partial.

Example C56_ex : EXPT (makeint 10) 37 = Ok (Big [- (10 ^ 37 / 2 ^ 63) * 2 ^ 63 + 10 ^ 37; 10 ^ 37 / 2 ^ 63]) /\
  Z.abs 10 ^ 18 < 2 ^ 61.
Proof. vm_compute. auto. Qed.
