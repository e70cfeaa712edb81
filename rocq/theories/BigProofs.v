(** Proofs about BigModel. *)
From Verif Require Import Word BigModel BigSpec.

(** * Words *)

Lemma wrap64_pos u : 0 <= u < 2 ^ 64 -> wrap64 u = if u <? 2 ^ 63 then u else u - 2 ^ 64.
Proof. intros. unfold wrap64. destruct (Z.ltb_spec u (2 ^ 63)); lia. Qed.

Lemma wrap64_mod u n : 0 <= n <= 64 -> wrap64 u mod 2 ^ n = u mod 2 ^ n.
Proof.
  intros. destruct (wrap64_eqm u) as [k ->].
  replace (2 ^ 64) with (2 ^ (64 - n) * 2 ^ n) by (rewrite <- Z.pow_add_r by lia; f_equal; lia).
  rewrite Z.mul_assoc. apply Z.mod_add. apply Z.pow_nonzero; lia.
Qed.

Lemma field u k n m : 0 <= k -> 0 <= n -> k + n <= 64 -> m = 2 ^ n - 1 ->
  Z.land (Z.shiftr (wrap64 u) k) m = (u / 2 ^ k) mod 2 ^ n.
Proof.
  intros. rewrite (land_ones_mod _ n m) by lia. rewrite Z.shiftr_div_pow2 by lia.
  destruct (wrap64_eqm u) as [j ->].
  replace (j * 2 ^ 64) with (j * 2 ^ (64 - k) * 2 ^ k).
  2:{ rewrite <- Z.mul_assoc, <- Z.pow_add_r by lia. do 2 f_equal; lia. }
  rewrite Z.div_add by (apply Z.pow_nonzero; lia).
  replace (2 ^ (64 - k)) with (2 ^ (64 - k - n) * 2 ^ n).
  2:{ rewrite <- Z.pow_add_r by lia. f_equal; lia. }
  rewrite Z.mul_assoc, Z.mod_add; [reflexivity | apply Z.pow_nonzero; lia].
Qed.

Lemma land_neg_pow z n : 0 <= n -> Z.land z (- 2 ^ n) = z - z mod 2 ^ n.
Proof.
  intros. replace (- 2 ^ n) with (Z.lnot (Z.ones n)) by (rewrite Z.ones_equiv; unfold Z.lnot; lia).
  change (Z.land z (Z.lnot (Z.ones n))) with (Z.land z (Z.lnot (Z.ones n))).
  rewrite <- Z.ldiff_land, Z.ldiff_ones_r by lia. rewrite Z.shiftl_mul_pow2, Z.shiftr_div_pow2 by lia.
  pose proof (Z.div_mod z (2 ^ n) ltac:(apply Z.pow_nonzero; lia)). lia.
Qed.

Lemma lor_top z n : 0 <= n -> 0 <= z < 2 ^ n -> Z.lor z (- 2 ^ n) = z - 2 ^ n.
Proof.
  intros Hn Hz.
  assert (Z.land z (- 2 ^ n) = 0) by (rewrite land_neg_pow, Z.mod_small by lia; lia).
  rewrite <- Z.lxor_lor, <- Z.add_nocarry_lxor by assumption. lia.
Qed.

Lemma msb_land u : 0 <= u < 2 ^ 64 ->
  Z.land (wrap64 u) (- 2 ^ 63) = if u <? 2 ^ 63 then 0 else - 2 ^ 63.
Proof.
  intros. rewrite land_neg_pow, wrap64_mod by lia. rewrite wrap64_pos by lia.
  destruct (Z.ltb_spec u (2 ^ 63)); lia.
Qed.

Lemma pos_fields d : 0 <= d < 2 ^ 63 ->
  Z.land d 4294967295 = d mod 2 ^ 32 /\
  Z.land (Z.shiftr d 32) 2147483647 = d / 2 ^ 32.
Proof.
  intros. split. apply (land_ones_mod d 32); lia.
  rewrite (land_ones_mod _ 31) by lia. rewrite Z.shiftr_div_pow2 by lia. rewrite Z.mod_small; lia.
Qed.

Theorem extended_mul_exact d q r : 0 <= d < 2 ^ 63 -> 0 <= q < 2 ^ 63 -> 0 <= r < 2 ^ 63 ->
  fst (extended_mul d q r) * 2 ^ 63 + snd (extended_mul d q r) = d * q + r /\
  0 <= snd (extended_mul d q r) < 2 ^ 63 /\ 0 <= fst (extended_mul d q r) < 2 ^ 63.
Proof.
  intros Hd Hq Hr. unfold extended_mul.
  destruct (pos_fields d Hd) as [-> ->]. destruct (pos_fields q Hq) as [-> ->].
  cbv zeta. cbn [fst snd].
  set (ld := d mod 2 ^ 32). set (hd := d / 2 ^ 32). set (lq := q mod 2 ^ 32). set (hq := q / 2 ^ 32).
  assert (Bld : 0 <= ld < 2 ^ 32) by (unfold ld; lia).
  assert (Blq : 0 <= lq < 2 ^ 32) by (unfold lq; lia).
  assert (Bhd : 0 <= hd < 2 ^ 31) by (unfold hd; lia).
  assert (Bhq : 0 <= hq < 2 ^ 31) by (unfold hq; lia).
  assert (Ed : d = hd * 2 ^ 32 + ld) by (unfold hd, ld; lia).
  assert (Eq : q = hq * 2 ^ 32 + lq) by (unfold hq, lq; lia).
  clearbody ld hd lq hq.
  assert (B1 : 0 <= ld * lq <= (2 ^ 32 - 1) * (2 ^ 32 - 1)) by nia.
  assert (B2 : 0 <= lq * hd <= (2 ^ 32 - 1) * (2 ^ 31 - 1)) by nia.
  assert (B3 : 0 <= hq * ld <= (2 ^ 32 - 1) * (2 ^ 31 - 1)) by nia.
  assert (B4 : 0 <= hq * hd <= (2 ^ 31 - 1) * (2 ^ 31 - 1)) by nia.
  assert (E : d * q + r = (hq * hd) * 2 ^ 64 + (lq * hd + hq * ld) * 2 ^ 32 + ld * lq + r) by (subst; ring).
  assert (Bdq : d * q + r < 2 ^ 63 * 2 ^ 63) by nia.
  rewrite E in *. clear E Ed Eq.
  remember (ld * lq) as A. remember (lq * hd) as B. remember (hq * ld) as C. remember (hq * hd) as D.
  clear HeqA HeqB HeqC HeqD Bld Blq Bhd Bhq Hd Hq d q ld lq hd hq.
  (* first word *)
  rewrite msb_land by lia.
  rewrite !land_MASK. rewrite (wrap64_mod A) by lia.
  set (m1 := A mod 2 ^ 63 + r). assert (Bm1 : 0 <= m1 < 2 ^ 64) by (unfold m1; lia).
  rewrite (land_ones_mod (wrap64 m1) 32 4294967295) by lia. rewrite (wrap64_mod m1) by lia.
  rewrite (field m1 32 32) by lia.
  set (hm1 := Z.land (Z.shiftr (if A <? 2 ^ 63 then 0 else - 2 ^ 63) 32) 2147483648).
  assert (Ehm1 : hm1 = if A <? 2 ^ 63 then 0 else 2 ^ 31).
  { unfold hm1. destruct (A <? 2 ^ 63); reflexivity. }
  clearbody hm1.
  set (m2 := (m1 / 2 ^ 32) mod 2 ^ 32 + hm1).
  assert (Bm2 : 0 <= m2 < 2 ^ 33) by (unfold m2; destruct (A <? 2 ^ 63); lia).
  rewrite (wrap64_id m2) by (unfold in_long; lia).
  rewrite (wrap64_id B) by (unfold in_long; lia).
  rewrite (wrap64_id C) by (unfold in_long; lia).
  rewrite msb_land by lia.
  rewrite (wrap64_mod (m2 + B)) by lia.
  set (hm2 := Z.land (Z.shiftr (if m2 + B <? 2 ^ 63 then 0 else - 2 ^ 63) 31) 8589934591).
  assert (Ehm2 : hm2 = if m2 + B <? 2 ^ 63 then 0 else 2 ^ 32).
  { unfold hm2. destruct (m2 + B <? 2 ^ 63); reflexivity. }
  clearbody hm2.
  set (m3 := (m2 + B) mod 2 ^ 63 + C).
  assert (Bm3 : 0 <= m3 < 2 ^ 64) by (unfold m3; lia).
  rewrite (land_ones_mod (wrap64 m3) 31 2147483647) by lia. rewrite (wrap64_mod m3) by lia.
  rewrite (field m3 31 33) by lia.
  rewrite Z.shiftl_mul_pow2 by lia.
  rewrite (wrap64_id (m3 mod 2 ^ 31 * 2 ^ 32)) by (unfold in_long; lia).
  rewrite (wrap64_id (m1 mod 2 ^ 32 + _)) by (unfold in_long; lia).
  rewrite (wrap64_id (D * 2)) by (unfold in_long; lia).
  assert (Em3 : (m3 / 2 ^ 31) mod 2 ^ 33 = m3 / 2 ^ 31) by (apply Z.mod_small; lia).
  rewrite Em3.
  assert (Bh2 : 0 <= hm2 <= 2 ^ 32) by (rewrite Ehm2; destruct (m2 + B <? 2 ^ 63); lia).
  rewrite (wrap64_id (m3 / 2 ^ 31 + hm2)) by (unfold in_long; lia).
  assert (M2 : m2 = m1 / 2 ^ 32 + hm1) by (unfold m2; f_equal; apply Z.mod_small; lia).
  assert (F1 : A mod 2 ^ 63 + hm1 * 2 ^ 32 = A) by (rewrite Ehm1; destruct (Z.ltb_spec A (2 ^ 63)); lia).
  assert (F2 : m2 * 2 ^ 32 + m1 mod 2 ^ 32 = A + r).
  { assert (m1 = A mod 2 ^ 63 + r) by reflexivity. clearbody m1 m2. lia. }
  assert (F3 : m3 + hm2 * 2 ^ 31 = m2 + B + C).
  { unfold m3. rewrite Ehm2. clearbody m2. destruct (Z.ltb_spec (m2 + B) (2 ^ 63)); lia. }
  clearbody m1 m2 m3.
  assert (F4 : (m3 / 2 ^ 31 + hm2 + D * 2) * 2 ^ 63 + (m1 mod 2 ^ 32 + m3 mod 2 ^ 31 * 2 ^ 32)
               = D * 2 ^ 64 + (B + C) * 2 ^ 32 + A + r) by lia.
  assert (0 <= m3 / 2 ^ 31 + hm2 + D * 2 < 2 ^ 63) by lia.
  rewrite (wrap64_id (m3 / 2 ^ 31 + hm2 + D * 2)) by (unfold in_long; lia).
  split; [exact F4|]. split; lia.
Qed.
