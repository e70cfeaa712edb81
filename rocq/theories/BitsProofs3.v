From Verif Require Import Word BigModel BigSpec BigProofs BigProofs2 BigProofs3 BigProofs4 BitsModel BitsProofs BitsProofs2.

(** * ASH, right shift of digit vectors *)
Lemma lor_disjoint a b n : 0 <= n -> 0 <= a < 2 ^ n -> Z.lor a (b * 2 ^ n) = a + b * 2 ^ n.
Proof.
  intros Hn Ha. assert (L : Z.land a (b * 2 ^ n) = 0).
  { apply Z.bits_inj'. intros i Hi. rewrite Z.land_spec, Z.bits_0, <- Z.shiftl_mul_pow2, Z.shiftl_spec by lia.
    destruct (Z.ltb_spec i n).
    - rewrite (Z.testbit_neg_r b) by lia. apply andb_false_r.
    - rewrite <- (Z.mod_small a (2 ^ n)), Z.mod_pow2_bits_high by lia. reflexivity. }
  rewrite <- Z.lxor_lor by exact L. rewrite <- Z.add_nocarry_lxor by exact L. reflexivity.
Qed.

Lemma digit_shift x y k : 0 <= x < 2 ^ 63 -> 0 <= k < 63 ->
  Z.lor (Z.shiftr x k) (Z.land (wrap64 (Z.shiftl y (63 - k))) MASK) = x / 2 ^ k + 2 ^ (63 - k) * (y mod 2 ^ k) /\
  0 <= x / 2 ^ k + 2 ^ (63 - k) * (y mod 2 ^ k) < 2 ^ 63.
Proof.
  intros Hx Hk.
  assert (Pk : 0 < 2 ^ k) by (apply Z.pow_pos_nonneg; lia).
  assert (Pq : 0 < 2 ^ (63 - k)) by (apply Z.pow_pos_nonneg; lia).
  assert (S63 : 2 ^ 63 = 2 ^ k * 2 ^ (63 - k)) by (rewrite <- Z.pow_add_r by lia; f_equal; lia).
  assert (Hq : 0 <= x / 2 ^ k < 2 ^ (63 - k)).
  { split; [apply Z.div_pos; lia|]. apply Z.div_lt_upper_bound; lia. }
  pose proof (Z.mod_pos_bound y (2 ^ k) Pk).
  assert (E : Z.land (wrap64 (Z.shiftl y (63 - k))) MASK = (y mod 2 ^ k) * 2 ^ (63 - k)).
  { rewrite land_MASK, Z.shiftl_mul_pow2 by lia. destruct (wrap64_eqm (y * 2 ^ (63 - k))) as [c ->].
    replace (y * 2 ^ (63 - k) + c * 2 ^ 64) with (y * 2 ^ (63 - k) + (2 * c) * 2 ^ 63) by lia.
    rewrite Z.mod_add by lia. rewrite S63. rewrite Z.mul_mod_distr_r by lia. reflexivity. }
  rewrite E, Z.shiftr_div_pow2 by lia. rewrite lor_disjoint by lia. split; [lia|nia].
Qed.

Lemma ash_right_loop_spec k av : 0 <= k < 63 -> wf av ->
  wf (ash_right_loop k av) /\ bigval (ash_right_loop k av) = bigval av / 2 ^ k /\
  length (ash_right_loop k av) = length av.
Proof.
  intros Hk W. assert (Pk : 0 < 2 ^ k) by (apply Z.pow_pos_nonneg; lia).
  assert (S63 : 2 ^ 63 = 2 ^ k * 2 ^ (63 - k)) by (rewrite <- Z.pow_add_r by lia; f_equal; lia).
  assert (Pq : 0 < 2 ^ (63 - k)) by (apply Z.pow_pos_nonneg; lia).
  pattern av. apply wf_ind'; [| |exact W]; clear av W.
  - intros d Hd. cbn [ash_right_loop wf bigval length]. rewrite !Z.mul_0_r, !Z.add_0_r, Z.shiftr_div_pow2 by lia.
    split; [|auto]. unfold in_long in *. split; [apply Z.div_le_lower_bound; nia|apply Z.div_lt_upper_bound; nia].
  - intros d e r Hd We IH. destruct IH as (W & V & L).
    change (ash_right_loop k (d :: e :: r)) with
      (Z.lor (Z.shiftr d k) (Z.land (wrap64 (Z.shiftl e (63 - k))) MASK) :: ash_right_loop k (e :: r)).
    destruct (digit_shift d e k Hd Hk) as [E B]. rewrite E.
    split; [|split].
    + apply wf_cons; [apply wf_nonempty, W|]. auto.
    + rewrite (bigval_cons _ (ash_right_loop k (e :: r))), V, (bigval_cons d).
      set (R := bigval (e :: r)) in *.
      assert (Rm : R mod 2 ^ k = e mod 2 ^ k).
      { unfold R. rewrite bigval_cons, S63.
        replace (e + 2 ^ k * 2 ^ (63 - k) * bigval r) with (e + (2 ^ (63 - k) * bigval r) * 2 ^ k) by ring.
        apply Z.mod_add. lia. }
      rewrite <- Rm. clearbody R. clear Rm.
      replace (d + 2 ^ 63 * R) with (d + (2 ^ (63 - k) * R) * 2 ^ k) by (rewrite S63; ring).
      rewrite Z.div_add by lia. pose proof (Z.div_mod R (2 ^ k) ltac:(lia)) as DM.
      rewrite S63. transitivity (d / 2 ^ k + 2 ^ (63 - k) * (2 ^ k * (R / 2 ^ k) + R mod 2 ^ k)); [ring|].
      rewrite <- DM. reflexivity.
    + cbn [length] in *. lia.
Qed.

Lemma skipn_wf j av : wf av -> (j < length av)%nat ->
  wf (skipn j av) /\ bigval (skipn j av) = bigval av / P63 j /\ length (skipn j av) = (length av - j)%nat.
Proof.
  revert av. induction j as [|j IH]; intros av W L.
  - cbn [skipn]. change (P63 0) with 1. rewrite Z.div_1_r, Nat.sub_0_r. auto.
  - destruct av as [|d r]; [cbn in L; lia|]. cbn [length] in L.
    assert (Nr : r <> []) by (intros ->; cbn in L; lia). apply wf_cons in W; [|exact Nr]. destruct W as [Hd W].
    cbn [skipn]. destruct (IH r W ltac:(lia)) as (W1 & V1 & L1). split; [exact W1|].
    split; [|cbn [length]; lia]. rewrite V1, P63_S, bigval_cons.
    rewrite <- Z.div_div by (try lia; apply P63_pos). f_equal. lia.
Qed.

(** zero words above a vector disappear in normalisation, whatever its sign *)
Lemma strip_zeros n xr : strip_rev 0 (repeat 0 n ++ xr) = strip_rev 0 xr.
Proof. induction n; [reflexivity|]. cbn [repeat app strip_rev]. rewrite Z.eqb_refl. exact IHn. Qed.

Lemma rev_repeat (a : Z) n : rev (repeat a n) = repeat a n.
Proof.
  induction n; [reflexivity|]. cbn [repeat rev]. rewrite IHn. clear. 
  induction n; [reflexivity|]. cbn [repeat app]. rewrite IHn. reflexivity.
Qed.

Lemma normalize_padded ds n : wf ds ->
  value (normalize_bignum (Big (ds ++ repeat 0 n))) = bigval ds /\
  regular (normalize_bignum (Big (ds ++ repeat 0 n))).
Proof.
  intros W. destruct n as [|n].
  { rewrite app_nil_r. destruct (normalize_bignum_spec ds W) as (V & R & _). auto. }
  assert (E : normalize_big (ds ++ repeat 0 (S n)) = if last ds 0 <? 0 then ds else normalize_big ds).
  { unfold normalize_big. rewrite rev_app_distr, rev_repeat, strip_zeros.
    assert (last (ds ++ repeat 0 (S n)) 0 = 0) as ->.
    { cbn [repeat]. rewrite repeat_cons, app_assoc. apply last_last. }
    cbn [Z.geb Z.compare]. destruct (Z.ltb_spec (last ds 0) 0).
    - destruct (wf_snoc_inv ds W) as (lo & t & -> & _ & _). rewrite last_snoc in *.
      rewrite rev_unit. cbn [strip_rev]. destruct (Z.eqb_spec t 0); [lia|].
      rewrite <- rev_unit. apply rev_involutive.
    - destruct (Z.geb_spec (last ds 0) 0); [reflexivity|lia]. }
  cbn [normalize_bignum]. cbv zeta. rewrite E. destruct (Z.ltb_spec (last ds 0) 0) as [H|H].
  - destruct ds as [|y [|y2 r]]; [destruct W| |cbn [value regular]; auto].
    cbn [wf last bigval] in *. rewrite Z.mul_0_r, Z.add_0_r. rewrite msb3_spec by assumption.
    destruct ((- 2 ^ 61 <=? y) && (y <? 2 ^ 61)) eqn:G.
    + apply makeint_fix_regular. unfold fixnum_range. lia.
    + cbn [value bigval regular wf]. rewrite Z.mul_0_r, Z.add_0_r. auto.
  - pose proof (normalize_bignum_spec ds W) as (V & R & _). cbn [normalize_bignum] in V, R. cbv zeta in V, R. auto.
Qed.

Theorem ash_right_exact c ds : wf ds -> 0 < c -> c / 63 < Z.of_nat (length ds) ->
  exists r, map_outcome (fun b => normalize_bignum (Big b)) (ash_right c ds) = Ok r /\
    value r = bigval ds / 2 ^ c /\ regular r.
Proof.
  intros W Hc L. unfold ash_right. cbv zeta.
  destruct (Z.ltb_spec (Z.of_nat (length ds) - c / 63 - 1) 0); [lia|]. cbn [map_outcome].
  eexists. split; [reflexivity|].
  destruct (skipn_wf (Z.to_nat (c / 63)) ds W) as (W1 & V1 & L1); [lia|].
  destruct (ash_right_loop_spec (c mod 63) (skipn (Z.to_nat (c / 63)) ds)) as (W2 & V2 & L2); [lia|exact W1|].
  match goal with |- context [repeat 0 ?n] => destruct (normalize_padded _ n W2) as [V R] end.
  split; [|exact R]. rewrite V, V2, V1. rewrite Z.div_div by (try (apply Z.pow_pos_nonneg; lia); pose proof (P63_pos (Z.to_nat (c / 63))); lia).
  f_equal. rewrite <- Z.pow_add_r by lia. f_equal. lia.
Qed.

(** * ASH, left shift of digit vectors *)
Lemma shift_left_loop_spec k av : 0 < k < 63 -> Forall (fun x => 0 <= x < 2 ^ (63 - k)) av ->
  ash_left_loop k av (repeat 0 (length av + 1)) = Some (map (fun x => x * 2 ^ k) av ++ [0]).
Proof.
  intros Hk. assert (S63 : 2 ^ 63 = 2 ^ k * 2 ^ (63 - k)) by (rewrite <- Z.pow_add_r by lia; f_equal; lia).
  assert (Pk : 0 < 2 ^ k) by (apply Z.pow_pos_nonneg; lia).
  induction 1 as [|x av Hx _ IH]; [reflexivity|].
  cbn [length Nat.add repeat]. rewrite Nat.add_1_r in *. cbn [repeat ash_left_loop] in *.
  assert (Z.shiftr x (63 - k) = 0) as -> by (rewrite Z.shiftr_div_pow2 by lia; apply Z.div_small; lia).
  rewrite IH, Z.lor_0_l, Z.shiftl_mul_pow2, wrap64_id by (unfold in_long; nia). reflexivity.
Qed.

Lemma bigval_map_mul c av : bigval (map (fun x => x * c) av) = bigval av * c.
Proof. induction av as [|x av IH]; [reflexivity|]. cbn [map]. rewrite !bigval_cons, IH. ring. Qed.

Theorem ash_left_exact c ds : ds <> [] -> 0 < c -> c mod 63 <> 0 ->
  Forall (fun x => 0 <= x < 2 ^ (63 - c mod 63)) ds ->
  exists r, map_outcome (fun b => normalize_bignum (Big b)) (ash_left c ds) = Ok r /\
    value r = bigval ds * 2 ^ c /\ canonical r.
Proof.
  intros N Hc Hm F. unfold ash_left. cbv zeta.
  replace (Z.to_nat (Z.of_nat (length ds) + (c + 62) / 63 - c / 63)) with (length ds + 1)%nat by lia.
  rewrite shift_left_loop_spec by (assumption || lia). cbn [map_outcome]. eexists. split; [reflexivity|].
  set (z := repeat 0 (Z.to_nat (c / 63)) ++ map (fun x => x * 2 ^ (c mod 63)) ds ++ [0]).
  assert (S63 : 2 ^ 63 = 2 ^ (c mod 63) * 2 ^ (63 - c mod 63)) by (rewrite <- Z.pow_add_r by lia; f_equal; lia).
  assert (Pk : 0 < 2 ^ (c mod 63)) by (apply Z.pow_pos_nonneg; lia).
  assert (D : digits z).
  { unfold z. repeat (apply Forall_app; split).
    - apply Forall_forall. intros x Hx. apply repeat_spec in Hx. lia.
    - apply Forall_map. eapply Forall_impl; [|exact F]. cbn beta. intros x Hx. nia.
    - constructor; [lia|constructor]. }
  assert (V : bigval z = bigval ds * 2 ^ c).
  { unfold z. rewrite !bigval_app, repeat_length, bigval_map_mul.
    assert (Z0 : forall n, bigval (repeat 0 n) = 0).
    { clear. induction n; [reflexivity|]. cbn [repeat]. rewrite bigval_cons. lia. }
    rewrite Z0. replace (bigval [0]) with 0 by reflexivity. rewrite Z.mul_0_r, Z.add_0_r, Z.add_0_l.
    rewrite Z.mul_comm, <- Z.mul_assoc, <- Z.pow_add_r by lia. do 2 f_equal. lia. }
  assert (Wz : wf z).
  { apply digits_wf; [exact D|]. unfold z. destruct (repeat 0 (Z.to_nat (c / 63))), ds; discriminate. }
  pose proof (digits_bound z D) as B.
  destruct (normalize_bignum_spec z Wz) as (V3 & _). rewrite V3, V. split; [reflexivity|].
  apply normalize_bignum_canonical_pos; [exact Wz|lia].
Qed.

(** * ASH *)
Definition floor_shift (n k : Z) : Z := if k <? 0 then n / 2 ^ (- k) else n * 2 ^ k.

Lemma ffs_pos_bound p : 1 <= ffs_pos p /\ 2 ^ (ffs_pos p - 1) <= Zpos p.
Proof.
  induction p as [p IH|p IH|]; cbn [ffs_pos]; [change (1 - 1) with 0; lia| |cbn; lia].
  split; [lia|]. replace (1 + ffs_pos p - 1) with (Z.succ (ffs_pos p - 1)) by lia.
  rewrite Z.pow_succ_r by lia. lia.
Qed.

Theorem ASH_fixnum a k : regular a -> isint a = true -> argument k -> -63 <= value k <= 63 ->
  in_long (floor_shift (value a) (value k)) ->
  exists r, ASH a k = Ok r /\ value r = floor_shift (value a) (value k) /\ legal r.
Proof.
  intros Ra Ia Ak Hk Hf. unfold ASH.
  destruct (ckintval_spec k Ak) as (x & -> & _ & _ & Ex); [unfold fits_word; lia|].
  rewrite Ex by (unfold in_long; lia). clear x Ex. set (c := value k) in *. clearbody c. clear k Ak.
  destruct a as [w|]; [|discriminate]. destruct (intval_imm w Ra) as [-> Fx].
  set (v := value (Imm w)) in *. clearbody v. clear w Ra Ia. unfold floor_shift in *.
  destruct (Z.leb_spec c 0).
  - assert (shift_ok (- c) = true) as -> by (unfold shift_ok; lia).
    rewrite Z.shiftr_div_pow2 by lia. eexists. split; [reflexivity|].
    assert (E : v / 2 ^ (- c) = if c <? 0 then v / 2 ^ (- c) else v * 2 ^ c).
    { destruct (Z.ltb_spec c 0); [reflexivity|]. replace c with 0 by lia. cbn. lia. }
    rewrite <- E in *. destruct (makeint_exact _ Hf) as [V L]. auto.
  - destruct (Z.ltb_spec c 0); [lia|].
    assert (SH : Z.shiftl v c = v * 2 ^ c) by (apply Z.shiftl_mul_pow2; lia).
    destruct (Z.leb_spec v 0).
    + assert (shift_ok c = true) as -> by (unfold shift_ok; lia).
      rewrite SH, wrap64_id by assumption. eexists. split; [reflexivity|].
      destruct (makeint_exact _ Hf) as [V L]. auto.
    + destruct (Z.ltb_spec (ffsl v + c) 62).
      * rewrite SH, wrap64_id by assumption. eexists. split; [reflexivity|].
        destruct (makeint_exact _ Hf) as [V L]. auto.
      * assert (Hc : c < 63).
        { destruct (Z.eq_dec c 63) as [->|]; [unfold in_long in Hf; lia|lia]. }
        assert (Hm : c mod 63 = c) by (apply Z.mod_small; lia).
        unfold ash_big. destruct (Z.geb_spec c 0); [|lia].
        destruct (ash_left_exact c [v]) as (r & E & V & C); try lia; [congruence| |].
        { rewrite Hm. constructor; [|constructor]. split; [lia|]. unfold in_long in Hf.
          assert (S63 : 2 ^ 63 = 2 ^ c * 2 ^ (63 - c)) by (rewrite <- Z.pow_add_r by lia; f_equal; lia).
          assert (0 < 2 ^ c) by (apply Z.pow_pos_nonneg; lia). nia. }
        exists r. split; [exact E|]. split; [|apply regular_legal, canonical_regular, C].
        rewrite V. cbn [bigval]. lia.
Qed.

Theorem ASH_bignum ds k : wf ds -> argument k -> in_long (value k) -> 
  (value k < 0 /\ - value k / 63 < Z.of_nat (length ds) \/
   0 < value k /\ value k mod 63 <> 0 /\ Forall (fun x => 0 <= x < 2 ^ (63 - value k mod 63)) ds) ->
  exists r, ASH (Big ds) k = Ok r /\ value r = floor_shift (bigval ds) (value k) /\ regular r.
Proof.
  intros W Ak Ik H. unfold ASH.
  destruct (ckintval_spec k Ak) as (x & -> & _ & _ & Ex); [apply in_long_fits, Ik|].
  rewrite Ex by assumption. clear x Ex. set (c := value k) in *. clearbody c. clear k Ak.
  unfold ash_big, floor_shift. destruct H as [[H1 H2]|(H1 & H2 & H3)].
  - destruct (Z.geb_spec c 0); [lia|]. destruct (Z.ltb_spec c 0); [|lia].
    apply ash_right_exact; [assumption|lia|assumption].
  - destruct (Z.geb_spec c 0); [|lia]. destruct (Z.ltb_spec c 0); [lia|].
    destruct (ash_left_exact c ds (wf_nonempty ds W) H1 H2 H3) as (r & E & V & C).
    exists r. split; [exact E|]. split; [exact V|apply canonical_regular, C].
Qed.

Lemma ash_refuted : exists a k r, canonical a /\ canonical k /\ ASH a k = Ok r /\
  value r <> floor_shift (value a) (value k).
Proof.
  exists (makeint 15), (makeint 60). eexists. split; [vm_compute; intuition congruence|].
  split; [vm_compute; intuition congruence|]. split; [vm_compute; reflexivity|]. vm_compute. congruence.
Qed.

(** (ash 1 63) writes outside the freshly allocated vector; so does (ash b 0) for a bignum b *)
Lemma ash_overrun : ASH (makeint 1) (makeint 63) = UB /\
  forall ds, ds <> [] -> ASH (Big ds) (makeint 0) = UB.
Proof.
  split; [vm_compute; reflexivity|]. intros ds N. unfold ASH. change (ckintval (makeint 0)) with (Some 0).
  cbv iota beta. unfold ash_big, ash_left. change (0 >=? 0) with true. cbv iota zeta.
  change (0 mod 63) with 0. change (0 / 63) with 0. change ((0 + 62) / 63) with 0.
  replace (Z.to_nat (Z.of_nat (length ds) + 0 - 0)) with (length ds) by lia.
  assert (G : forall l bv, l <> [] -> length bv = length l -> ash_left_loop 0 l bv = None).
  { clear. induction l as [|x l IH]; intros bv N L; [congruence|]. destruct bv as [|b0 [|b1 bv]]; try discriminate; [reflexivity|].
    cbn [ash_left_loop]. rewrite IH; [reflexivity| |cbn [length] in *; lia]. intros ->. discriminate. }
  rewrite G; [reflexivity|exact N|apply repeat_length].
Qed.

(** a left shift that carries between the words gives a malformed vector *)
Lemma ash_carry_refuted : exists a k r, canonical a /\ canonical k /\ ASH a k = Ok r /\
  ~ legal r.
Proof.
  exists (Big [2 ^ 62]), (makeint 1). eexists. split; [vm_compute; intuition congruence|].
  split; [vm_compute; intuition congruence|]. split; [vm_compute; reflexivity|]. cbn. lia.
Qed.
