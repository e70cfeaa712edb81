(** Proofs about bignum addition, normalisation, boxing and comparison. *)
From Verif Require Import Word BigModel BigSpec BigProofs BigProofs2.

Notation P63 n := (2 ^ (63 * Z.of_nat n)).

Lemma P63_S n : P63 (S n) = 2 ^ 63 * P63 n.
Proof. replace (63 * Z.of_nat (S n)) with (63 + 63 * Z.of_nat n) by lia. apply Z.pow_add_r; lia. Qed.

Lemma P63_pos n : 0 < P63 n.
Proof. apply Z.pow_pos_nonneg; lia. Qed.

Lemma wf_app lo x : digits lo -> wf x -> wf (lo ++ x).
Proof.
  intros D W. induction D as [|d r Hd Hr IH]; [assumption|].
  cbn [app]. apply wf_cons; [|split; assumption].
  destruct r; cbn; [apply wf_nonempty, W|congruence].
Qed.

Lemma wf_snoc_inv x : wf x -> exists lo t, x = lo ++ [t] /\ digits lo /\ in_long t.
Proof.
  intros W. pattern x. revert x W. apply wf_ind'.
  - intros d Hd. exists [], d. repeat split; try apply Hd. constructor.
  - intros d e r Hd We (lo & t & E & D & T). exists (d :: lo), t. rewrite E. repeat split; try apply T.
    constructor; assumption.
Qed.

Lemma wf_snoc lo t : digits lo -> in_long t -> wf (lo ++ [t]).
Proof. intros. apply wf_app; [assumption|]. exact H0. Qed.

Lemma bigval_snoc lo t : bigval (lo ++ [t]) = bigval lo + P63 (length lo) * t.
Proof. rewrite bigval_app. cbn [bigval]. lia. Qed.

Lemma last_snoc (lo : list Z) t : last (lo ++ [t]) 0 = t.
Proof. apply last_last. Qed.

Lemma set_last_snoc lo a v : set_last (lo ++ [a]) v = lo ++ [v].
Proof.
  induction lo as [|d r IH]; [reflexivity|]. cbn [app].
  change (set_last (d :: (r ++ [a])) v) with
    (match r ++ [a] with [] => [v] | _ => d :: set_last (r ++ [a]) v end).
  rewrite IH. destruct r; reflexivity.
Qed.

(** the sign of a well-formed vector is the sign of its top digit *)
Lemma top_sign x : wf x -> (0 <= last x 0 <-> 0 <= bigval x).
Proof.
  intros W. destruct (wf_snoc_inv x W) as (lo & t & -> & D & T).
  rewrite last_snoc, bigval_snoc. pose proof (digits_bound lo D). pose proof (P63_pos (length lo)). nia.
Qed.

(** * big_plus *)

Lemma bp_low_spec x y : wf x -> wf y -> length x = length y -> forall c zl0, 0 <= c <= 1 ->
  exists lo k, 0 <= k <= 1 /\ digits lo /\ length x = S (length lo) /\
    let z := wrap64 (last x 0 + last y 0 + k) in
    bp_low x y c zl0 = (lo ++ [if z <? 0 then Z.land z MASK else z], z) /\
    bigval x + bigval y + c = bigval lo + P63 (length lo) * (last x 0 + last y 0 + k).
Proof.
  intros Wx. revert y. pattern x. revert x Wx. apply wf_ind'.
  - intros d Hd y Wy L c zl0 Hc. destruct y as [|b [|b' y]]; [destruct Wy| |discriminate].
    exists [], c. split; [assumption|]. split; [constructor|]. split; [reflexivity|].
    cbn [last]. split; [reflexivity|]. cbn [bigval length]. change (P63 0) with 1. lia.
  - intros a a' x Ha Wa IH y Wy L c zl0 Hc.
    destruct y as [|b [|b' y]]; [destruct Wy|discriminate|].
    apply wf_cons in Wy; [|congruence]. destruct Wy as [Hb Wy].
    set (z := wrap64 (a + b + c)). set (c' := if z <? 0 then 1 else 0).
    destruct (IH (b' :: y) Wy ltac:(cbn in *; lia) c' z) as (lo & k & Hk & D & Ln & E & V).
    { unfold c'. destruct (z <? 0); lia. }
    exists ((if z <? 0 then Z.land z MASK else z) :: lo), k. split; [assumption|].
    assert (Ez : (if z <? 0 then Z.land z MASK else z) + 2 ^ 63 * c' = a + b + c /\
                 0 <= (if z <? 0 then Z.land z MASK else z) < 2 ^ 63).
    { unfold c', z. rewrite land_MASK, wrap64_pos by lia.
      destruct (Z.ltb_spec (a + b + c) (2 ^ 63)).
      - destruct (Z.ltb_spec (a + b + c) 0); lia.
      - destruct (Z.ltb_spec (a + b + c - 2 ^ 64) 0); lia. }
    destruct Ez as [Ez Bz].
    split; [constructor; assumption|]. split; [cbn [length] in *; lia|].
    change (last (a :: a' :: x) 0) with (last (a' :: x) 0).
    change (last (b :: b' :: y) 0) with (last (b' :: y) 0).
    cbv zeta in *. split.
    + change (bp_low (a :: a' :: x) (b :: b' :: y) c zl0) with
        ((if z <? 0 then Z.land z MASK else z) :: fst (bp_low (a' :: x) (b' :: y) c' z),
         snd (bp_low (a' :: x) (b' :: y) c' z)).
      rewrite E. reflexivity.
    + rewrite (bigval_cons a), (bigval_cons b), (bigval_cons _ lo). cbn [length]. rewrite P63_S.
      transitivity (a + b + c + 2 ^ 63 * (bigval (a' :: x) + bigval (b' :: y))); [ring|].
      rewrite <- Ez. transitivity ((if z <? 0 then Z.land z MASK else z) +
         2 ^ 63 * (bigval (a' :: x) + bigval (b' :: y) + c')); [ring|]. rewrite V. ring.
Qed.

Lemma bp_low_app x1 x2 y c z : length x1 = length y -> bp_low (x1 ++ x2) y c z = bp_low x1 y c z.
Proof.
  revert y c z. induction x1 as [|a x1 IH]; intros [|b y] c z L; cbn in L; try discriminate.
  - cbn. destruct x2; reflexivity.
  - cbn [app bp_low]. cbv zeta. rewrite IH by lia. reflexivity.
Qed.

Lemma bp_high_spec x : wf x -> forall c, c = 1 \/ c = -1 ->
  bigval (bp_high c x) = bigval x + c /\ wf (bp_high c x).
Proof.
  intros W. pattern x. revert x W. apply wf_ind'.
  - intros d Hd c Hc. cbn [bp_high]. unfold in_long in Hd.
    assert (Ew : wrap64 (d + c) = d + c \/ (c = 1 /\ d = 2 ^ 63 - 1 /\ wrap64 (d + c) = - 2 ^ 63)
                 \/ (c = -1 /\ d = - 2 ^ 63 /\ wrap64 (d + c) = 2 ^ 63 - 1)) by (unfold wrap64; lia).
    pose proof (wrap64_range (d + c)) as R. unfold in_long in R.
    destruct Ew as [E|[(-> & -> & E)|(-> & -> & E)]].
    + rewrite E in *.
      assert ((c >=? 0) && (d >=? 0) && (d + c <? 0) = false) as -> by lia.
      assert ((c <? 0) && (d <? 0) && (d + c >=? 0) = false) as -> by lia.
      cbn [bigval]. split; [lia|]. wfsolve.
    + rewrite E. vm_compute. intuition congruence.
    + rewrite E. vm_compute. intuition congruence.
  - intros d e r Hd We IH c Hc.
    change (bp_high c (d :: e :: r)) with
      (if wrap64 (d + c) <? 0 then Z.land (wrap64 (d + c)) MASK :: bp_high c (e :: r)
       else wrap64 (d + c) :: e :: r).
    rewrite land_MASK. destruct (IH c Hc) as [E W].
    assert (Ew : (wrap64 (d + c) = d + c /\ 0 <= d + c < 2 ^ 63) \/
                 (c = 1 /\ d = 2 ^ 63 - 1 /\ wrap64 (d + c) = - 2 ^ 63)
                 \/ (c = -1 /\ d = 0 /\ wrap64 (d + c) = -1)) by (unfold wrap64; lia).
    destruct Ew as [[-> B]|[(-> & -> & ->)|(-> & -> & ->)]].
    + destruct (Z.ltb_spec (d + c) 0); [lia|]. rewrite !bigval_cons. split; [lia|].
      apply wf_cons; [congruence|]. split; assumption.
    + destruct (Z.ltb_spec (- 2 ^ 63) 0); [|lia].
      rewrite (bigval_cons _ (bp_high 1 _)), (bigval_cons (2 ^ 63 - 1)), E. split; [lia|].
      apply wf_cons; [apply wf_nonempty, W|]. split; [lia|assumption].
    + destruct (Z.ltb_spec (-1) 0); [|lia].
      rewrite (bigval_cons _ (bp_high (-1) _)), (bigval_cons 0), E. split; [lia|].
      apply wf_cons; [apply wf_nonempty, W|]. split; [lia|assumption].
Qed.

Lemma wf_split x n : wf x -> (0 < n < length x)%nat ->
  digits (firstn n x) /\ wf (skipn n x) /\ length (firstn n x) = n.
Proof.
  intros W. revert n. pattern x. revert x W. apply wf_ind'.
  - intros d Hd n Hn. cbn in Hn. lia.
  - intros d e r Hd We IH n Hn. destruct n as [|n]; [lia|]. destruct n as [|n].
    + cbn [firstn skipn length]. split; [constructor; [assumption|constructor]|]. split; [assumption|reflexivity].
    + destruct (IH (S n)) as (D & W & L); [cbn in *; lia|].
      change (firstn (S (S n)) (d :: e :: r)) with (d :: firstn (S n) (e :: r)).
      change (skipn (S (S n)) (d :: e :: r)) with (skipn (S n) (e :: r)).
      split; [constructor; assumption|]. split; [assumption|]. cbn [length]. rewrite L. reflexivity.
Qed.

Definition big_plus_ord (x y : list Z) : list Z :=
  let '(zs, zlast) := bp_low x y 0 0 in
  if (length x =? length y)%nat then
    let xt := last x 0 in let yt := last y 0 in
    if (xt >=? 0) && (yt >=? 0) && (zlast <? 0) then zs ++ [1]
    else if (xt <? 0) && (yt <? 0) && (zlast >=? 0) then zs ++ [-2]
    else if zlast <? 0 then set_last zs (Z.lor (last zs 0) (- 2 ^ 63))
    else zs
  else
    let c := if last y 0 >=? 0 then 1 else -1 in
    if zlast <? 0 then zs ++ bp_high c (skipn (length y) x)
    else zs ++ skipn (length y) x.

Lemma last_in_long x : wf x -> in_long (last x 0).
Proof. intros W. destruct (wf_snoc_inv x W) as (lo & t & -> & D & T). rewrite last_snoc. exact T. Qed.

Lemma big_plus_eq x y : wf x -> wf y -> length x = length y ->
  bigval (big_plus_ord x y) = bigval x + bigval y /\ wf (big_plus_ord x y).
Proof.
  intros Wx Wy L. unfold big_plus_ord.
  destruct (bp_low_spec x y Wx Wy L 0 0 ltac:(lia)) as (lo & k & Hk & D & Ln & E & V).
  rewrite E. rewrite L, Nat.eqb_refl. cbv zeta.
  pose proof (last_in_long x Wx) as Tx. pose proof (last_in_long y Wy) as Ty. unfold in_long in Tx, Ty.
  replace (bigval x + bigval y) with (bigval x + bigval y + 0) by lia. rewrite V.
  set (xt := last x 0) in *. set (yt := last y 0) in *. clearbody xt yt. clear V E.
  rewrite land_MASK. set (z := wrap64 (xt + yt + k)).
  assert (Ez : (z = xt + yt + k /\ -2 ^ 63 <= z < 2 ^ 63) \/
     (0 <= xt /\ 0 <= yt /\ z = xt + yt + k - 2 ^ 64 /\ -2 ^ 63 <= z < 0) \/
     (xt < 0 /\ yt < 0 /\ z = xt + yt + k + 2 ^ 64 /\ 0 <= z < 2 ^ 63)) by (unfold z, wrap64; lia).
  clearbody z. destruct Ez as [[Ez B]|[(P1 & P2 & Ez & B)|(P1 & P2 & Ez & B)]].
  - assert ((xt >=? 0) && (yt >=? 0) && (z <? 0) = false) as -> by lia.
    assert ((xt <? 0) && (yt <? 0) && (z >=? 0) = false) as -> by lia.
    destruct (Z.ltb_spec z 0).
    + rewrite last_snoc, set_last_snoc, lor_top by lia. rewrite bigval_snoc, <- Ez.
      split; [f_equal; f_equal; lia|]. apply wf_snoc; [assumption|]. unfold in_long. lia.
    + rewrite bigval_snoc, <- Ez. split; [reflexivity|]. apply wf_snoc; [assumption|]. unfold in_long. lia.
  - assert ((xt >=? 0) && (yt >=? 0) && (z <? 0) = true) as -> by lia.
    destruct (Z.ltb_spec z 0); [|lia].
    assert (Em : z mod 2 ^ 63 = xt + yt + k - 2 ^ 63) by lia. rewrite Em.
    rewrite bigval_snoc, bigval_snoc, app_length. cbn [length]. rewrite Nat.add_1_r, P63_S.
    split; [ring|]. rewrite <- app_assoc. apply wf_app; [assumption|]. wfsolve.
  - assert ((xt >=? 0) && (yt >=? 0) && (z <? 0) = false) as -> by lia.
    assert ((xt <? 0) && (yt <? 0) && (z >=? 0) = true) as -> by lia.
    destruct (Z.ltb_spec z 0); [lia|].
    rewrite bigval_snoc, bigval_snoc, app_length. cbn [length]. rewrite Nat.add_1_r, P63_S, Ez.
    split; [change (2 ^ 64) with (2 * 2 ^ 63); ring|]. rewrite <- app_assoc. apply wf_app; [assumption|]. wfsolve.
Qed.

Lemma big_plus_gt x y : wf x -> wf y -> (length y < length x)%nat ->
  bigval (big_plus_ord x y) = bigval x + bigval y /\ wf (big_plus_ord x y).
Proof.
  intros Wx Wy L. unfold big_plus_ord.
  assert (Ly : (0 < length y)%nat) by (destruct y; [destruct Wy|cbn; lia]).
  destruct (wf_split x (length y) Wx ltac:(lia)) as (D1 & W2 & L1).
  destruct (Nat.eqb_spec (length x) (length y)); [lia|].
  assert (Ex : x = firstn (length y) x ++ skipn (length y) x) by (symmetry; apply firstn_skipn).
  set (x1 := firstn (length y) x) in *. set (x2 := skipn (length y) x) in *. clearbody x1 x2.
  rewrite Ex. clear Wx L n Ex x. rewrite bp_low_app by assumption.
  assert (W1 : wf x1) by (apply digits_wf; [assumption|]; destruct x1; [cbn in L1; lia|congruence]).
  destruct (bp_low_spec x1 y W1 Wy L1 0 0 ltac:(lia)) as (lo & k & Hk & D & Ln & E & V).
  rewrite E. cbv zeta.
  assert (Tx : 0 <= last x1 0 < 2 ^ 63).
  { destruct (wf_snoc_inv x1 W1) as (l1 & t & -> & _ & T). rewrite last_snoc.
    apply Forall_app in D1. destruct D1 as [_ D1]. inversion D1; assumption. }
  pose proof (last_in_long y Wy) as Ty. unfold in_long in Ty.
  rewrite bigval_app.
  replace (bigval x1 + P63 (length x1) * bigval x2 + bigval y)
     with (bigval x1 + bigval y + 0 + P63 (length x1) * bigval x2) by lia.
  rewrite V, Ln, P63_S.
  set (xt := last x1 0) in *. set (yt := last y 0) in *. clearbody xt yt. clear V E.
  rewrite land_MASK. set (z := wrap64 (xt + yt + k)).
  set (c := if yt >=? 0 then 1 else -1).
  assert (Ez : exists b, (b = 0 \/ b = c) /\ (b = 0 <-> z >= 0) /\ 
    (if z <? 0 then z mod 2 ^ 63 else z) + 2 ^ 63 * b = xt + yt + k /\
    0 <= (if z <? 0 then z mod 2 ^ 63 else z) < 2 ^ 63).
  { unfold c, z. destruct (Z.geb_spec yt 0).
    - rewrite wrap64_pos by lia. destruct (Z.ltb_spec (xt + yt + k) (2 ^ 63)).
      + exists 0. destruct (Z.ltb_spec (xt + yt + k) 0); lia.
      + exists 1. destruct (Z.ltb_spec (xt + yt + k - 2 ^ 64) 0); lia.
    - rewrite wrap64_id by (unfold in_long; lia). destruct (Z.ltb_spec (xt + yt + k) 0).
      + exists (-1). lia.
      + exists 0. lia. }
  destruct Ez as (b & Hb & Hz & Ez & Bz).
  set (w := if z <? 0 then z mod 2 ^ 63 else z) in *. clearbody w.
  assert (F : exists x2', (if z <? 0 then (lo ++ [w]) ++ bp_high c x2 else (lo ++ [w]) ++ x2) = lo ++ w :: x2'
     /\ bigval x2' = bigval x2 + b /\ wf x2').
  { destruct (Z.ltb_spec z 0).
    - exists (bp_high c x2). rewrite <- app_assoc. split; [reflexivity|].
      assert (b = c) by lia. subst b. apply bp_high_spec; [assumption|]. unfold c. destruct (yt >=? 0); auto.
    - exists x2. rewrite <- app_assoc. split; [reflexivity|]. split; [lia|assumption]. }
  destruct F as (x2' & -> & V2 & W2'). split.
  - rewrite bigval_app, bigval_cons, V2, <- Ez. ring.
  - apply wf_app; [assumption|]. apply wf_cons; [apply wf_nonempty, W2'|]. split; assumption.
Qed.

Theorem big_plus_exact x y : wf x -> wf y ->
  bigval (big_plus x y) = bigval x + bigval y /\ wf (big_plus x y).
Proof.
  intros Wx Wy. unfold big_plus. destruct (Nat.ltb_spec (length x) (length y)).
  - fold (big_plus_ord y x). destruct (big_plus_gt y x Wy Wx) as [E W]; [lia|]. split; [lia|assumption].
  - fold (big_plus_ord x y). destruct (Nat.eq_dec (length x) (length y)).
    + apply big_plus_eq; assumption.
    + apply big_plus_gt; [assumption|assumption|lia].
Qed.

(** * normalisation *)

Lemma strip_rev_0 xr : exists n, xr = repeat 0 n ++ strip_rev 0 xr.
Proof.
  induction xr as [|d r [n IH]]; [exists O; reflexivity|]. cbn [strip_rev].
  destruct (Z.eqb_spec d 0).
  - exists (S n). cbn [repeat app]. rewrite <- IH. subst d. reflexivity.
  - exists O. reflexivity.
Qed.

Lemma strip_rev_head w xr : match strip_rev w xr with [] => True | d :: _ => d <> w end.
Proof.
  induction xr as [|d r IH]; [exact I|]. cbn [strip_rev]. destruct (Z.eqb_spec d w); [assumption|assumption].
Qed.

Lemma bigval_zeros x n : bigval (x ++ repeat 0 n) = bigval x.
Proof.
  rewrite bigval_app. assert (bigval (repeat 0 n) = 0) as -> by (induction n; cbn [repeat bigval]; lia). lia.
Qed.

(** non-negative case: same number, digits, and a non-zero top digit unless empty *)
Lemma normalize_pos x : wf x -> 0 <= bigval x ->
  bigval (normalize_big x) = bigval x /\ digits (normalize_big x) /\
  (normalize_big x = [] \/ 0 < last (normalize_big x) 0).
Proof.
  intros W Hv. unfold normalize_big. apply (top_sign x W) in Hv as Ht.
  destruct (Z.geb_spec (last x 0) 0); [|lia].
  destruct (strip_rev_0 (rev x)) as [n E]. pose proof (strip_rev_head 0 (rev x)) as Hh.
  set (s := strip_rev 0 (rev x)) in *. clearbody s.
  assert (Ex : x = rev s ++ repeat 0 n).
  { rewrite <- (rev_involutive x), E, rev_app_distr. f_equal.
    clear. induction n; [reflexivity|]. cbn [repeat rev]. rewrite IHn.
    clear. induction n; [reflexivity|]. cbn [repeat app]. rewrite IHn. reflexivity. }
  pose proof (wf_digits x W Hv) as D. rewrite Ex in D. apply Forall_app in D. destruct D as [D _].
  split; [|split; [exact D|]].
  - rewrite Ex at 1. rewrite bigval_zeros. reflexivity.
  - destruct s as [|d s]; [left; reflexivity|right]. cbn [rev] in *. rewrite last_snoc.
    apply Forall_app in D. destruct D as [_ D]. inversion D; subst. lia.
Qed.

Lemma strip_rev_neg xr : Forall (fun d => 0 <= d < 2 ^ 63) xr -> strip_rev (-1) xr = xr.
Proof. destruct 1 as [|d r Hd Hr]; [reflexivity|]. cbn [strip_rev]. destruct (Z.eqb_spec d (-1)); [lia|reflexivity]. Qed.

Lemma normalize_neg x : wf x -> bigval x < 0 ->
  bigval (normalize_big x) = bigval x /\ wf (normalize_big x).
Proof.
  intros W Hv. unfold normalize_big.
  assert (Ht : last x 0 < 0) by (pose proof (top_sign x W); lia).
  destruct (Z.geb_spec (last x 0) 0); [lia|].
  destruct (Nat.eqb_spec (length x) 1); [split; [reflexivity|assumption]|].
  destruct (wf_snoc_inv x W) as (lo & t & -> & D & T). rewrite last_snoc in *.
  rewrite rev_unit. cbn [strip_rev]. destruct (Z.eqb_spec t (-1)).
  - subst t. rewrite strip_rev_neg by (apply Forall_rev, D). rewrite rev_involutive.
    destruct (Nat.eqb_spec (length lo) (length (lo ++ [-1]))); [rewrite app_length in *; cbn in *; lia|].
    destruct (exists_last (l := lo)) as (l1 & u & ->).
    { intros ->. cbn in *. lia. }
    rewrite last_snoc, set_last_snoc. apply Forall_app in D. destruct D as [D Du].
    inversion Du as [|? ? Hu _]; subst. rewrite lor_top by lia.
    rewrite !bigval_snoc, app_length. cbn [length]. rewrite Nat.add_1_r, P63_S. split; [ring|].
    apply wf_snoc; [assumption|]. unfold in_long. lia.
  - rewrite <- rev_unit, rev_involutive, Nat.eqb_refl. split; [reflexivity|assumption].
Qed.

(** * boxing *)

Definition regular (o : intobj) : Prop :=
  match o with
  | Imm w => in_long w /\ w mod 4 = 2
  | Big ds => wf ds
  end.

Lemma canonical_regular o : canonical o -> regular o.
Proof. destruct o; cbn; tauto. Qed.

Lemma regular_legal o : regular o -> legal o.
Proof. destruct o; cbn; tauto. Qed.

Lemma land_shiftl_r z a n : 0 <= n -> Z.land z (Z.shiftl a n) = Z.shiftl (Z.land (Z.shiftr z n) a) n.
Proof.
  intros Hn. apply Z.bits_inj'. intros m Hm. rewrite Z.land_spec.
  destruct (Z.lt_ge_cases m n).
  - rewrite !Z.shiftl_spec_low by lia. apply andb_false_r.
  - rewrite !Z.shiftl_spec by lia. rewrite Z.land_spec, Z.shiftr_spec by lia.
    f_equal. f_equal. lia.
Qed.

Lemma shiftl_eq0 a n : 0 <= n -> (Z.shiftl a n =? 0) = (a =? 0).
Proof.
  intros. rewrite Z.shiftl_mul_pow2 by lia. assert (0 < 2 ^ n) by (apply Z.pow_pos_nonneg; lia).
  destruct (Z.eqb_spec a 0); destruct (Z.eqb_spec (a * 2 ^ n) 0); try reflexivity; nia.
Qed.

Lemma mkbigint_big_spec y : in_long y ->
  mkbigint_big y = negb ((- 2 ^ 61 <=? y) && (y <? 2 ^ 61)).
Proof.
  intros Hy. unfold in_long in Hy. unfold mkbigint_big. f_equal.
  rewrite land_shiftl_r, shiftl_eq0, Z.shiftr_lxor, Z.shiftr_shiftr by lia.
  change (1 + 61) with (61 + 1). rewrite <- (Z.shiftr_shiftr y 61 1) by lia.
  assert (Hk : Z.shiftr y 61 = y / 2 ^ 61) by (apply Z.shiftr_div_pow2; lia).
  set (k := Z.shiftr y 61) in *. clearbody k.
  assert (K : k = -4 \/ k = -3 \/ k = -2 \/ k = -1 \/ k = 0 \/ k = 1 \/ k = 2 \/ k = 3) by lia.
  destruct K as [-> | [-> | [-> | [-> | [-> | [-> | [-> | ->]]]]]]];
  match goal with |- ?l = _ => let l' := eval vm_compute in l in change l with l' end; lia.
Qed.

Lemma fix_overflow_spec y : - 2 ^ 62 <= y < 2 ^ 62 ->
  fix_overflow y = negb ((- 2 ^ 61 <=? y) && (y <? 2 ^ 61)).
Proof.
  intros Hy. unfold fix_overflow. f_equal.
  rewrite land_shiftl_r, shiftl_eq0, Z.shiftr_lxor, Z.shiftr_shiftr by lia.
  change (1 + 61) with (61 + 1). rewrite <- (Z.shiftr_shiftr y 61 1) by lia.
  assert (Hk : Z.shiftr y 61 = y / 2 ^ 61) by (apply Z.shiftr_div_pow2; lia).
  set (k := Z.shiftr y 61) in *. clearbody k.
  assert (K : k = -2 \/ k = -1 \/ k = 0 \/ k = 1) by lia.
  destruct K as [-> | [-> | [-> | ->]]];
  match goal with |- ?l = _ => let l' := eval vm_compute in l in change l with l' end; lia.
Qed.

Lemma makeint_fix v : fixnum_range v -> makeint v = Imm (4 * v + 2).
Proof.
  unfold fixnum_range, makeint, MAXPOSFIXNUM, MINNEGFIXNUM. intros.
  assert ((v >? 2 ^ 61 - 1) || (v <? - 2 ^ 61) = false) as -> by lia.
  rewrite Z.shiftl_mul_pow2, wrap64_id by (unfold in_long; lia). f_equal. lia.
Qed.

Lemma land_low z n m : 0 <= n -> m = 2 ^ n - 1 -> Z.land z m = z mod 2 ^ n.
Proof. apply land_ones_mod. Qed.

Lemma lor3 v : v mod 4 = 0 -> Z.lor v 3 = v + 3.
Proof.
  intros. assert (Z.land v 3 = 0) by (rewrite (land_ones_mod v 2) by lia; assumption).
  rewrite <- Z.lxor_lor, <- Z.add_nocarry_lxor by assumption. reflexivity.
Qed.

Theorem makeint_exact v : in_long v -> value (makeint v) = v /\ legal (makeint v).
Proof.
  intros Hv. destruct (Z.leb_spec (- 2 ^ 61) v), (Z.ltb_spec v (2 ^ 61)).
  1:{ rewrite makeint_fix by (unfold fixnum_range; lia). cbn [value legal]. unfold in_long in *.
      destruct (Z.eqb_spec ((4 * v + 2) mod 4) 2); lia. }
  all: unfold makeint, MAXPOSFIXNUM, MINNEGFIXNUM; unfold in_long in Hv.
  all: replace ((v >? 2 ^ 61 - 1) || (v <? - 2 ^ 61)) with true by lia.
  all: rewrite (land_ones_mod v 3 7) by lia.
  all: destruct (Z.eqb_spec (v mod 2 ^ 3) 0); cbn [negb].
  all: try (rewrite mkbigint_big_spec by (unfold in_long; lia);
            replace (negb ((- 2 ^ 61 <=? v) && (v <? 2 ^ 61))) with true by lia;
            cbn [value legal bigval]; split; [lia|]; cbn; unfold in_long; lia).
  all: rewrite lor3 by lia; cbn [value legal]; unfold in_long;
       destruct (Z.eqb_spec ((v + 3) mod 4) 2); lia.
Qed.

Theorem intval_exact o : legal o -> in_long (value o) ->
  match o with Imm _ => True | Big ds => length ds = 1%nat end -> intval o = value o.
Proof.
  destruct o as [w|ds]; cbn [legal value intval]; intros H1 H2 H3.
  - rewrite (land_ones_mod w 2 3) by lia. change (2 ^ 2) with 4.
    destruct (Z.eqb_spec (w mod 4) 3).
    + destruct (Z.eqb_spec (w mod 4) 2); [lia|].
      change (Z.lnot 3) with (- 2 ^ 2). rewrite land_neg_pow by lia. change (2 ^ 2) with 4. lia.
    + destruct (Z.eqb_spec (w mod 4) 2); [|lia]. rewrite Z.shiftr_div_pow2 by lia. reflexivity.
  - destruct ds as [|d [|e r]]; cbn in *; try lia.
Qed.

Lemma intval_imm w : regular (Imm w) -> intval (Imm w) = value (Imm w) /\ fixnum_range (value (Imm w)).
Proof.
  intros H. split.
  - apply intval_exact; [apply regular_legal, H| |exact I].
    cbn in *. unfold in_long in *. destruct (Z.eqb_spec (w mod 4) 2); lia.
  - cbn in *. unfold in_long, fixnum_range in *. destruct (Z.eqb_spec (w mod 4) 2); lia.
Qed.

Lemma makeint_fix_regular v : fixnum_range v -> value (makeint v) = v /\ regular (makeint v).
Proof.
  intros. rewrite makeint_fix by assumption. unfold fixnum_range in *. cbn [value regular]. unfold in_long.
  destruct (Z.eqb_spec ((4 * v + 2) mod 4) 2); lia.
Qed.

(** the msb3 test of normalize_bignum *)
Lemma msb3_spec y : in_long y ->
  (Z.land (Z.shiftr y 61) 7 =? 0) || (Z.land (Z.shiftr y 61) 7 =? 7) = (- 2 ^ 61 <=? y) && (y <? 2 ^ 61).
Proof.
  intros Hy. unfold in_long in Hy. rewrite (land_ones_mod _ 3 7), Z.shiftr_div_pow2 by lia. lia.
Qed.

Lemma normalize_bignum_spec x : wf x ->
  value (normalize_bignum (Big x)) = bigval x /\ regular (normalize_bignum (Big x)) /\
  match normalize_bignum (Big x) with
  | Imm _ => fixnum_range (bigval x)
  | Big ds => ds = normalize_big x
  end.
Proof.
  intros W. cbn [normalize_bignum]. cbv zeta.
  assert (N : bigval (normalize_big x) = bigval x /\ (normalize_big x = [] \/ wf (normalize_big x))).
  { destruct (Z.le_gt_cases 0 (bigval x)).
    - destruct (normalize_pos x W H) as (E & D & _). split; [assumption|].
      destruct (normalize_big x) eqn:?; [left; reflexivity|right]. apply digits_wf; [assumption|congruence].
    - destruct (normalize_neg x W H). auto. }
  destruct N as [E Wn]. destruct (normalize_big x) as [|y [|y' r]].
  - cbn in E. rewrite makeint_fix by (unfold fixnum_range; lia). cbn. unfold in_long, fixnum_range. lia.
  - destruct Wn as [|Wn]; [congruence|]. cbn [wf] in Wn. rewrite msb3_spec by assumption.
    cbn [bigval] in E. destruct ((- 2 ^ 61 <=? y) && (y <? 2 ^ 61)) eqn:F.
    + assert (FR : fixnum_range y) by (unfold fixnum_range; lia).
      destruct (makeint_fix_regular y FR) as [V R]. rewrite V. split; [lia|]. split; [assumption|].
      rewrite makeint_fix by assumption. replace (bigval x) with y by lia. assumption.
    + cbn [value regular bigval wf]. split; [lia|]. split; [assumption|reflexivity].
  - destruct Wn as [|Wn]; [congruence|]. cbn [value regular]. split; [assumption|]. split; [assumption|reflexivity].
Qed.

(** normalisation yields the canonical representation for non-negative numbers *)
Lemma normalize_bignum_canonical_pos x : wf x -> 0 <= bigval x -> canonical (normalize_bignum (Big x)).
Proof.
  intros W Hv. pose proof (normalize_bignum_spec x W) as (V & R & K).
  destruct (normalize_pos x W Hv) as (E & D & L).
  destruct (normalize_bignum (Big x)) as [w|ds] eqn:EQ; [exact R|].
  cbn [canonical]. cbn [regular] in R. split; [assumption|]. subst ds.
  cbn [normalize_bignum] in EQ.
  destruct L as [L|L]; [rewrite L in R; destruct R|].
  set (n := normalize_big x) in *. clearbody n.
  destruct (wf_snoc_inv n R) as (lo & t & -> & Dl & T). rewrite last_snoc in L.
  rewrite bigval_snoc in *. pose proof (digits_bound lo Dl) as B. pose proof (P63_pos (length lo)) as PP.
  rewrite app_length. cbn [length].
  split.
  - destruct lo as [|a lo].
    + cbn [app] in EQ. rewrite msb3_spec in EQ by assumption.
      cbn [bigval length] in *. change (P63 0) with 1. unfold fixnum_range.
      destruct ((- 2 ^ 61 <=? t) && (t <? 2 ^ 61)) eqn:F; [|lia].
      rewrite makeint_fix in EQ by (unfold fixnum_range; lia). discriminate.
    + unfold fixnum_range. cbn [length] in *. rewrite P63_S in *. pose proof (P63_pos (length lo)). nia.
  - intros _. replace (Z.of_nat (length lo + 1) - 1) with (Z.of_nat (length lo)) by lia. nia.
Qed.
