From Verif Require Import Word BigModel BigSpec BigProofs BigProofs2 BigProofs3 BigProofs4 IntTextModel.

Definition eval (base : Z) (dl : list Z) : Z := fold_left (fun v d => v * base + d) dl 0.

Lemma eval_snoc base dl d : eval base (dl ++ [d]) = eval base dl * base + d.
Proof. unfold eval. rewrite fold_left_app. reflexivity. Qed.

Lemma eval_bounds base dl : 2 <= base -> Forall (fun d => 0 <= d < base) dl ->
  0 <= eval base dl < base ^ Z.of_nat (length dl).
Proof.
  intros Hb. induction dl as [|d dl IH] using rev_ind; intros H.
  - cbn. lia.
  - apply Forall_app in H. destruct H as [H1 H2]. inversion H2; subst. specialize (IH H1).
    rewrite eval_snoc, app_length. cbn [length]. rewrite Nat.add_1_r, Nat2Z.inj_succ, Z.pow_succ_r by lia. nia.
Qed.

Lemma printint_loop_spec base down : 2 <= base -> forall fuel num acc, 0 <= num < base ^ Z.of_nat fuel ->
  (0 < fuel)%nat ->
  exists dl, printint_loop fuel base down num acc = Some (map (digit_char base down) dl ++ acc) /\
    Forall (fun d => 0 <= d < base) dl /\ eval base dl = num /\ dl <> [].
Proof.
  intros Hb. induction fuel as [|f IH]; intros num acc Hn Hf; [lia|].
  cbn [printint_loop]. cbv zeta.
  pose proof (Z.div_mod num base ltac:(lia)) as DM. pose proof (Z.mod_pos_bound num base ltac:(lia)) as MB.
  destruct (Z.eqb_spec (num / base) 0) as [e|e].
  - exists [num mod base]. split; [reflexivity|]. split; [constructor; [assumption|constructor]|].
    split; [cbn; lia|congruence].
  - assert (0 <= num / base) by (apply Z.div_pos; lia).
    assert (Hq : num / base < base ^ Z.of_nat f).
    { apply Z.div_lt_upper_bound; [lia|]. rewrite Nat2Z.inj_succ, Z.pow_succ_r in Hn by lia. lia. }
    destruct f as [|f]; [cbn in Hq; lia|].
    destruct (IH (num / base) (digit_char base down (num mod base) :: acc)) as (dl & E & F & V & N); [lia|lia|].
    exists (dl ++ [num mod base]). rewrite E. split.
    + f_equal. rewrite map_app, <- app_assoc. reflexivity.
    + split; [apply Forall_app; split; [assumption|constructor; [assumption|constructor]]|].
      split; [rewrite eval_snoc; lia|destruct dl; discriminate].
Qed.

Lemma big_zerop_spec ds : digits ds -> big_zerop ds = (bigval ds =? 0).
Proof.
  induction 1 as [|d r Hd Hr IH]; [reflexivity|]. cbn [big_zerop forallb].
  change (forallb (fun d0 => d0 =? 0) r) with (big_zerop r). rewrite IH, bigval_cons.
  pose proof (digits_bound r Hr). lia.
Qed.

Lemma printbig_loop_spec base down : 2 <= base < 2 ^ 63 -> forall fuel ds acc, digits ds -> ds <> [] ->
  bigval ds < base ^ Z.of_nat fuel ->
  exists dl, printbig_loop fuel base down ds acc = Some (map (digit_char base down) dl ++ acc) /\
    Forall (fun d => 0 <= d < base) dl /\ eval base dl = bigval ds /\ (bigval ds <> 0 -> dl <> []).
Proof.
  intros Hb. induction fuel as [|f IH]; intros ds acc D N B.
  - pose proof (digits_bound ds D). cbn [printbig_loop]. change (base ^ Z.of_nat 0) with 1 in B.
    rewrite big_zerop_spec by assumption. destruct (Z.eqb_spec (bigval ds) 0); [|lia].
    exists []. split; [reflexivity|]. split; [constructor|]. split; [cbn; lia|lia].
  - pose proof (digits_bound ds D). cbn [printbig_loop].
    rewrite big_zerop_spec by assumption. destruct (Z.eqb_spec (bigval ds) 0) as [e|e].
    { exists []. split; [reflexivity|]. split; [constructor|]. split; [cbn; lia|lia]. }
    destruct (div_int_big_digits base ds ltac:(lia) D N) as (E & Br & D2 & L2). cbv zeta.
    set (t := div_int_big base ds) in *. clearbody t.
    rewrite Nat2Z.inj_succ, Z.pow_succ_r in B by lia.
    pose proof (digits_bound _ D2).
    destruct (IH (fst t) (digit_char base down (snd t) :: acc) D2) as (dl & E2 & F & V & _).
    { intros e2. rewrite e2 in L2. destruct ds; [congruence|discriminate]. }
    { nia. }
    exists (dl ++ [snd t]). rewrite E2. split; [f_equal; rewrite map_app, <- app_assoc; reflexivity|].
    split; [apply Forall_app; split; [assumption|constructor; [assumption|constructor]]|].
    split; [rewrite eval_snoc; lia|]. intros _. destruct dl; discriminate.
Qed.

(** what printing produces, in one statement *)
Lemma print_integer_spec base down o : 2 <= base <= 36 -> canonical o ->
  exists dl, print_integer base down o =
      Some ((if value o <? 0 then [45] else []) ++ map (digit_char base down) dl) /\
    Forall (fun d => 0 <= d < base) dl /\ eval base dl = Z.abs (value o) /\ dl <> [].
Proof.
  intros Hb C. destruct o as [w|ds].
  - destruct (intval_imm w (canonical_regular _ C)) as [Ei Hv]. unfold print_integer, printint. rewrite Ei.
    set (v := value (Imm w)) in *. clearbody v. unfold fixnum_range in Hv.
    assert (Eu : (if v <? 0 then wrap64 (- v) else v) mod 2 ^ 64 = Z.abs v).
    { destruct (Z.ltb_spec v 0); [rewrite wrap64_id by (unfold in_long; lia)|]; rewrite Z.mod_small; lia. }
    rewrite Eu.
    destruct (printint_loop_spec base down ltac:(lia) 65 (Z.abs v) []) as (dl & E & F & V & N); [|lia|].
    { split; [lia|]. apply Z.lt_le_trans with (2 ^ 65); [lia|]. apply (Z.pow_le_mono_l 2 base 65). lia. }
    rewrite E, app_nil_r. exists dl. auto.
  - destruct C as (W & Fx & _). unfold print_integer, printbig, big_sign. cbv zeta.
    pose proof (top_sign ds W) as TS. unfold fixnum_range in Fx.
    set (b := if last ds 0 <? 0 then big_minus ds else ds).
    assert (Hb1 : wf b /\ bigval b = Z.abs (bigval ds)).
    { unfold b. destruct (complement_big_exact ds W) as [V W']. fold (big_minus ds) in V, W'.
      destruct (Z.ltb_spec (last ds 0) 0); split; try assumption; lia. }
    clearbody b. destruct Hb1 as [Wb Vb].
    pose proof (wf_digits b Wb ltac:(lia)) as D. pose proof (digits_bound b D) as B.
    destruct (printbig_loop_spec base down ltac:(lia) (64 * length b) b [] D (wf_nonempty b Wb))
      as (dl & E & F & V & N).
    { apply Z.lt_le_trans with (2 ^ (63 * Z.of_nat (length b))); [lia|].
      apply Z.le_trans with (2 ^ Z.of_nat (64 * length b)); [apply Z.pow_le_mono_r; lia|].
      apply Z.pow_le_mono_l. lia. }
    rewrite E, app_nil_r. exists dl. change (value (Big ds)) with (bigval ds).
    replace (bigval ds <? 0) with (last ds 0 <? 0) by lia.
    split; [reflexivity|]. split; [assumption|]. split; [lia|]. apply N. lia.
Qed.

(** characters *)
Lemma digit_char_up base down d : 2 <= base <= 36 -> 0 <= d < base ->
  to_upper (digit_char base down d) = digit_char base false d /\
  is_digit base (digit_char base false d) = true /\
  char_digit (digit_char base false d) = Some d /\
  digit_char base false d <> 43 /\ digit_char base false d <> 45.
Proof.
  intros Hb Hd. unfold digit_char, to_upper, is_digit, char_digit.
  destruct (Z.leb_spec base 10); cbn [orb].
  - assert ((97 <=? 48 + d) && (48 + d <=? 122) = false) as -> by lia.
    assert ((48 + d <? 48) = false) as -> by lia.
    assert ((48 + d <? 48 + base) = true) as -> by lia.
    assert ((48 <=? 48 + d) && (48 + d <=? 57) = true) as -> by lia.
    repeat split; try lia. f_equal. lia.
  - destruct (Z.ltb_spec d 10).
    + assert ((97 <=? 48 + d) && (48 + d <=? 122) = false) as -> by lia.
      assert ((48 + d <? 48) = false) as -> by lia.
      assert ((48 + d <=? 57) = true) as -> by lia.
      assert ((48 <=? 48 + d) = true) as -> by lia. cbn [andb].
      repeat split; try lia. f_equal. lia.
    + assert ((65 + d - 10 <? 48) = false) as -> by lia.
      assert ((65 + d - 10 <=? 57) = false) as -> by lia.
      rewrite andb_false_r.
      assert ((65 <=? 65 + d - 10) && (65 + d - 10 <? 65 + base - 10) = true) as -> by lia.
      assert ((65 <=? 65 + d - 10) && (65 + d - 10 <=? 90) = true) as -> by lia.
      destruct down.
      * assert ((97 <=? 97 + d - 10) && (97 + d - 10 <=? 122) = true) as -> by lia.
        repeat split; try lia. f_equal. lia.
      * assert ((97 <=? 65 + d - 10) && (65 + d - 10 <=? 122) = false) as -> by lia.
        repeat split; try lia. f_equal. lia.
Qed.

Lemma map_upper base down dl : 2 <= base <= 36 -> Forall (fun d => 0 <= d < base) dl ->
  map to_upper (map (digit_char base down) dl) = map (digit_char base false) dl /\
  forallb (is_digit base) (map (digit_char base false) dl) = true.
Proof.
  intros Hb. induction 1 as [|d dl Hd _ [IH1 IH2]]; [auto|]. cbn [map forallb].
  destruct (digit_char_up base down d Hb Hd) as (-> & -> & _). rewrite IH1, IH2. auto.
Qed.

Lemma strtol_digits_spec base dl : 2 <= base <= 36 -> Forall (fun d => 0 <= d < base) dl -> forall v,
  strtol_digits base v (map (digit_char base false) dl) = fold_left (fun v d => v * base + d) dl v.
Proof.
  intros Hb. induction 1 as [|d dl Hd _ IH]; intros v; [reflexivity|]. cbn [map strtol_digits fold_left].
  destruct (digit_char_up base false d Hb Hd) as (_ & _ & -> & _).
  destruct (Z.ltb_spec d base); [|lia]. apply IH.
Qed.

(** the reading loop keeps a non-negative number without redundant top zeros *)
Definition minimal_pos (b : list Z) : Prop :=
  digits b /\ b <> [] /\ (bigval b = 0 /\ b = [0] \/ P63 (length b - 1) <= bigval b).

Lemma mul_int_big_minimal c b : 2 <= c < 2 ^ 63 -> minimal_pos b ->
  minimal_pos (mul_int_big c b) /\ bigval (mul_int_big c b) = c * bigval b.
Proof.
  intros Hc (D & N & M).
  destruct (mul_int_big_exact c b ltac:(lia) (digits_wf b D N)) as [V W]; [apply (digits_bound b D)|].
  split; [|exact V].
  pose proof (mul_int_loop_exact c b ltac:(lia) D 0 ltac:(lia)) as (E & D2 & B & L).
  unfold mul_int_big in *. destruct (mul_int_loop c 0 b) as [z h]. cbn [fst snd] in *.
  assert (Nz : z <> []) by (intros ->; destruct b; [congruence|discriminate]).
  pose proof (digits_bound z D2) as Bz.
  destruct (Z.gtb_spec h 0).
  - split; [apply Forall_app; split; [assumption|constructor; [lia|constructor]]|].
    split; [destruct z; discriminate|]. right. rewrite bigval_snoc, app_length. cbn [length].
    replace (length z + 1 - 1)%nat with (length z) by lia. pose proof (P63_pos (length z)). nia.
  - assert (h = 0) by lia. subst h. split; [assumption|]. split; [assumption|].
    destruct M as [[M ->]|M].
    + left. split; [lia|]. destruct z as [|a [|]]; try discriminate. f_equal. cbn [bigval] in V. lia.
    + right. rewrite L. nia.
Qed.

Lemma add_int_big_minimal k b : 0 <= k < 2 ^ 63 -> minimal_pos b ->
  minimal_pos (add_int_big k b) /\ bigval (add_int_big k b) = bigval b + k.
Proof.
  intros Hk (D & N & M). destruct (add_int_big_exact b (digits_wf b D N) k Hk) as [V W].
  pose proof (digits_bound b D) as B. split; [|exact V].
  pose proof (wf_digits _ W ltac:(lia)) as D2. split; [assumption|]. split; [apply wf_nonempty, W|].
  assert (L : length (add_int_big k b) = length b \/
              (length (add_int_big k b) = S (length b) /\ P63 (length b) <= bigval (add_int_big k b))).
  { clear V M B N D2. revert k Hk W. induction D as [|d r Hd Hr IH]; intros k Hk W; [left; reflexivity|].
    destruct r as [|e r].
    - cbn [add_int_big]. destruct (d >=? 0); [|left; reflexivity].
      destruct (wrap64 (d + k) <? 0); [|left; reflexivity]. right. split; [reflexivity|].
      cbn [bigval length]. rewrite land_MASK. change (P63 1) with (2 ^ 63). lia.
    - change (add_int_big k (d :: e :: r)) with
        (if wrap64 (d + k) <? 0 then Z.land (wrap64 (d + k)) MASK :: add_int_big 1 (e :: r)
         else wrap64 (d + k) :: e :: r) in *.
      destruct (wrap64 (d + k) <? 0); [|left; reflexivity].
      apply wf_cons in W; [|apply add_int_big_nonempty; congruence]. destruct W as [Hd1 W].
      destruct (IH 1 ltac:(lia) W) as [L|[L P]].
      + left. cbn [length] in *. lia.
      + right. split; [cbn [length] in *; lia|]. rewrite bigval_cons. cbn [length]. rewrite P63_S.
        cbn [length] in P. nia. }
  destruct M as [[M ->]|M].
  - destruct L as [L|[L P]].
    + destruct (add_int_big k [0]) as [|x [|]]; try discriminate. cbn [bigval] in *. 
      destruct (Z.eq_dec k 0) as [->|]; [left; split; [lia|f_equal; lia]|right]. cbn. lia.
    + right. rewrite L. cbn [length] in *. replace (2 - 1)%nat with 1%nat by lia. exact P.
  - right. destruct L as [L|[L P]]; rewrite L.
    + lia.
    + replace (S (length b) - 1)%nat with (length b) by lia. assumption.
Qed.

Lemma readint_loop_spec base dl : 2 <= base <= 36 -> Forall (fun d => 0 <= d < base) dl -> forall b,
  minimal_pos b ->
  exists b', readint_loop base (map (digit_char base false) dl) b = Some b' /\ minimal_pos b' /\
             bigval b' = fold_left (fun v d => v * base + d) dl (bigval b).
Proof.
  intros Hb. induction 1 as [|d dl Hd _ IH]; intros b Mb; [exists b; auto|].
  cbn [map readint_loop fold_left]. destruct (digit_char_up base false d Hb Hd) as (_ & _ & -> & _).
  destruct (mul_int_big_minimal base b ltac:(lia) Mb) as [M1 V1].
  destruct (add_int_big_minimal d _ ltac:(lia) M1) as [M2 V2].
  destruct (IH _ M2) as (b' & E & M' & V'). exists b'. split; [exact E|]. split; [exact M'|].
  rewrite V', V2, V1. f_equal. ring.
Qed.

(** negative normalisation reaches the canonical form when at most one word is redundant *)
Lemma normalize_bignum_canonical_neg x : wf x -> bigval x < 0 ->
  ((length x <= 1)%nat \/ bigval x < - P63 (length x - 2)) -> canonical (normalize_bignum (Big x)).
Proof.
  intros W Hv Hr. pose proof (normalize_bignum_spec x W) as (V & R & K).
  destruct (normalize_bignum (Big x)) as [w|ds] eqn:EQ; [exact R|].
  cbn [regular] in R. subst ds. cbn [value] in V.
  assert (NF : length (normalize_big x) = 1%nat -> ~ fixnum_range (bigval x)).
  { intros L1. cbn [normalize_bignum] in EQ. destruct (normalize_big x) as [|y [|]]; try discriminate.
    cbn [bigval] in V. rewrite msb3_spec in EQ by exact R.
    destruct ((- 2 ^ 61 <=? y) && (y <? 2 ^ 61)) eqn:G; [|unfold fixnum_range; lia].
    rewrite makeint_fix in EQ by (unfold fixnum_range; lia). discriminate. }
  assert (M : (1 < length (normalize_big x))%nat -> bigval x < - P63 (length (normalize_big x) - 1)).
  { unfold normalize_big. assert (Ht : last x 0 < 0) by (pose proof (top_sign x W); lia).
    destruct (Z.geb_spec (last x 0) 0); [lia|].
    destruct (Nat.eqb_spec (length x) 1); [lia|].
    destruct (wf_snoc_inv x W) as (lo & t & Ex & D & T). rewrite Ex in *. clear Ex x W. rewrite last_snoc in *.
    rewrite app_length in *. cbn [length] in *.
    rewrite rev_unit. cbn [strip_rev]. destruct (Z.eqb_spec t (-1)).
    - subst t. rewrite strip_rev_neg by (apply Forall_rev, D). rewrite rev_involutive.
      destruct (Nat.eqb_spec (length lo) (length lo + 1)); [lia|].
      destruct (exists_last (l := lo)) as (l1 & u & ->); [intros ->; cbn in *; lia|].
      rewrite last_snoc, set_last_snoc, !app_length in *. cbn [length] in *. intros _.
      destruct Hr as [Hr|Hr]; [lia|].
      replace (length l1 + 1 - 1)%nat with (length l1 + 1 + 1 - 2)%nat by lia. exact Hr.
    - rewrite <- rev_unit, rev_involutive, app_length. cbn [length]. rewrite Nat.eqb_refl, app_length.
      intros _. cbn [length]. replace (length lo + 1 - 1)%nat with (length lo) by lia. rewrite bigval_snoc.
      pose proof (digits_bound lo D). pose proof (P63_pos (length lo)). nia. }
  set (n := normalize_big x) in *. clearbody n. clear EQ Hr. cbn [canonical]. rewrite V.
  split; [exact R|]. destruct (Nat.le_gt_cases (length n) 1) as [L1|L1].
  - split; [|lia]. apply NF. destruct n; [destruct R|cbn in *; lia].
  - specialize (M L1). split.
    + intros Fx. unfold fixnum_range in Fx.
      assert (2 ^ (63 * 1) <= P63 (length n - 1)) by (apply Z.pow_le_mono_r; lia). lia.
    + intros _ Hx. replace (Z.of_nat (length n) - 1) with (Z.of_nat (length n - 1)) in Hx by lia. lia.
Qed.

Lemma complement_big_length x : (length (complement_big x) <= length x + 1)%nat /\
  (digits x -> length (complement_big x) = length x).
Proof.
  assert (R : forall y, length (complement_rest y) = length y).
  { induction y as [|d [|e r] IH]; [reflexivity|reflexivity|].
    change (complement_rest (d :: e :: r)) with (Z.land (Z.lnot d) MASK :: complement_rest (e :: r)).
    cbn [length] in *. lia. }
  induction x as [|d [|e r] [IH1 IH2]].
  - cbn. auto.
  - cbn [complement_big]. destruct (Z.eqb_spec d (- 2 ^ 63)); cbn [length]; split; try lia; [].
    intros H. inversion H; subst. lia.
  - change (complement_big (d :: e :: r)) with
      (if negb (d =? 0) then Z.land (wrap64 (- d)) MASK :: complement_rest (e :: r)
       else 0 :: complement_big (e :: r)).
    destruct (negb (d =? 0)); cbn [length] in *.
    + rewrite R. cbn [length]. lia.
    + split; [lia|]. intros H. inversion H; subst. rewrite IH2 by assumption. reflexivity.
Qed.

Theorem print_read_integer base down o txt : 2 <= base <= 21 -> canonical o ->
  print_integer base down o = Some txt -> (length txt < 1024)%nat ->
  read_integer_token base txt = Some o.
Proof.
  intros Hb C E L.
  destruct (print_integer_spec base down o ltac:(lia) C) as (dl & E2 & F & V & N).
  rewrite E2 in E. injection E as E. subst txt.
  destruct (map_upper base down dl ltac:(lia) F) as [U1 U2].
  set (s := if value o <? 0 then [45] else []) in *.
  assert (Us : map to_upper (s ++ map (digit_char base down) dl) = s ++ map (digit_char base false) dl).
  { rewrite map_app, U1. f_equal. unfold s. destruct (value o <? 0); reflexivity. }
  unfold read_integer_token.
  destruct (Nat.leb_spec MAXTOKENLENGTH (length (s ++ map (digit_char base down) dl))) as [H|_];
    [unfold MAXTOKENLENGTH in H; lia|]. rewrite Us. clear Us L U1.
  destruct dl as [|d0 dl']; [congruence|]. set (dl := d0 :: dl') in *.
  assert (Hhead : exists c r, map (digit_char base false) dl = c :: r /\ c <> 43 /\ c <> 45).
  { unfold dl. cbn [map]. inversion F; subst.
    destruct (digit_char_up base false d0 ltac:(lia) ltac:(assumption)) as (_ & _ & _ & ? & ?). eauto. }
  destruct Hhead as (c & r & Ec & C1 & C2).
  assert (RI : readint base (s ++ map (digit_char base false) dl) = Some o).
  { unfold readint. destruct (Nat.ltb_spec (length (s ++ map (digit_char base false) dl)) 8) as [Hs|Hs].
    - f_equal. assert (St : strtol base (s ++ map (digit_char base false) dl) = value o).
      { unfold s. unfold eval in V. destruct (Z.ltb_spec (value o) 0).
        - cbn [app strtol]. change (45 =? 43) with false. change (45 =? 45) with true. cbv iota.
          rewrite strtol_digits_spec by (try assumption; lia). lia.
        - cbn [app]. rewrite Ec. cbn [strtol]. 
          destruct (Z.eqb_spec c 43); [lia|]. destruct (Z.eqb_spec c 45); [lia|].
          rewrite <- Ec, strtol_digits_spec by (try assumption; lia). lia. }
      rewrite St. rewrite app_length, map_length in Hs.
      pose proof (eval_bounds base dl ltac:(lia) F) as B.
      assert (B7 : base ^ Z.of_nat (length dl) <= 21 ^ 7).
      { apply Z.le_trans with (21 ^ Z.of_nat (length dl)); [apply Z.pow_le_mono_l; lia|].
        apply Z.pow_le_mono_r; lia. }
      change (21 ^ 7) with 1801088541 in B7.
      rewrite wrap32_id by lia.
      assert (FR : fixnum_range (value o)) by (unfold fixnum_range; lia).
      destruct (makeint_fix_regular (value o) FR) as [V1 R1].
      apply canonical_unique; [|assumption|assumption]. rewrite makeint_fix in * by assumption. exact R1.
    - assert (M0 : minimal_pos [0]).
      { split; [constructor; [lia|constructor]|]. split; [congruence|]. left. auto. }
      destruct (readint_loop_spec base dl ltac:(lia) F [0] M0) as (b & Eb & Mb & Vb).
      cbn [bigval] in Vb. change (0 + 2 ^ 63 * 0) with 0 in Vb. fold (eval base dl) in Vb. rewrite V in Vb.
      assert (Hbody : (if match s ++ map (digit_char base false) dl with c :: _ => (c =? 43) || (c =? 45) | [] => false end
         then tl (s ++ map (digit_char base false) dl) else s ++ map (digit_char base false) dl)
         = map (digit_char base false) dl /\
         match s ++ map (digit_char base false) dl with c :: _ => c =? 45 | [] => false end = (value o <? 0)).
      { unfold s. destruct (value o <? 0); [split; reflexivity|]. cbn [app]. rewrite Ec.
        destruct (Z.eqb_spec c 43); [lia|]. destruct (Z.eqb_spec c 45); [lia|]. split; reflexivity. }
      cbv zeta. destruct Hbody as [-> ->]. rewrite Eb. f_equal.
      destruct Mb as (Db & Nb & Mb). pose proof (digits_wf b Db Nb) as Wb.
      destruct (complement_big_exact b Wb) as [VC WC]. pose proof (complement_big_length b) as [_ LC].
      specialize (LC Db). pose proof (digits_bound b Db) as Bb.
      destruct (Z.ltb_spec (value o) 0).
      + apply canonical_unique; [|assumption|].
        * apply normalize_bignum_canonical_neg; [assumption|lia|]. rewrite LC, VC.
          destruct (Nat.le_gt_cases (length b) 1); [left; assumption|right].
          destruct Mb as [[Mb _]|Mb]; [lia|].
          replace (length b - 1)%nat with (S (length b - 2)) in Mb by lia. rewrite P63_S in Mb.
          pose proof (P63_pos (length b - 2)). lia.
        * destruct (normalize_bignum_spec _ WC) as (V3 & _). rewrite V3, VC. lia.
      + apply canonical_unique; [|assumption|].
        * apply normalize_bignum_canonical_pos; [assumption|lia].
        * destruct (normalize_bignum_spec _ Wb) as (V3 & _). rewrite V3. lia. }
  assert (Body : match s ++ map (digit_char base false) dl with
                 | [] => [] | c :: r => if (c =? 43) || (c =? 45) then r else s ++ map (digit_char base false) dl end
                 = map (digit_char base false) dl).
  { unfold s. destruct (value o <? 0); [reflexivity|]. cbn [app]. rewrite Ec.
    destruct (Z.eqb_spec c 43); [lia|]. destruct (Z.eqb_spec c 45); [lia|]. reflexivity. }
  cbv zeta. rewrite Body. rewrite Ec in *. rewrite U2. exact RI.
Qed.

(** refutations *)
Lemma print_read_base36_refuted : exists base down o txt, 2 <= base <= 36 /\ canonical o /\
  print_integer base down o = Some txt /\ (length txt < 1024)%nat /\
  exists o', read_integer_token base txt = Some o' /\ value o' <> value o.
Proof.
  exists 36, false, (makeint (35 * 36 ^ 6)), [90; 48; 48; 48; 48; 48; 48].
  split; [lia|]. split; [vm_compute; intuition congruence|]. split; [vm_compute; reflexivity|].
  split; [cbn; lia|]. eexists. split; [vm_compute; reflexivity|]. vm_compute. congruence.
Qed.

Lemma print_too_long base down o txt : 2 <= base <= 36 -> canonical o ->
  base ^ 1023 <= Z.abs (value o) -> print_integer base down o = Some txt ->
  read_integer_token base txt = None.
Proof.
  intros Hb C H E. destruct (print_integer_spec base down o Hb C) as (dl & E2 & F & V & N).
  rewrite E2 in E. injection E as <-. unfold read_integer_token.
  pose proof (eval_bounds base dl ltac:(lia) F) as B.
  assert (1023 < Z.of_nat (length dl)).
  { apply (Z.pow_lt_mono_r_iff base); lia. }
  match goal with |- context [(MAXTOKENLENGTH <=? ?l)%nat] => destruct (Nat.leb_spec MAXTOKENLENGTH l) as [|L] end;
    [reflexivity|]. rewrite app_length, map_length in L. unfold MAXTOKENLENGTH in L. lia.
Qed.

Lemma print_read_long_refuted : exists o txt, canonical o /\ print_integer 2 false o = Some txt /\ read_integer_token 2 txt = None.
Proof.
  assert (C : canonical (Big (repeat 0 16 ++ [2 ^ 15]))).
  { cbn [canonical]. split; [vm_compute; intuition congruence|]. split; vm_compute; intuition congruence. }
  destruct (print_integer_spec 2 false _ ltac:(lia) C) as (dl & E & _).
  eexists _, _. split; [exact C|]. split; [exact E|].
  refine (print_too_long 2 false _ _ _ C _ E); [lia|]. vm_compute. congruence.
Qed.
