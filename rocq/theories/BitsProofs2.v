From Verif Require Import Word BigModel BigSpec BigProofs BigProofs2 BigProofs3 BigProofs4 BitsModel BitsProofs.

(** * signed ranges under bit operations *)
Lemma srange_shift n v : 0 <= n -> (- 2 ^ n <= v < 2 ^ n <-> Z.shiftr v n = 0 \/ Z.shiftr v n = -1).
Proof.
  intros Hn. rewrite Z.shiftr_div_pow2 by lia. assert (0 < 2 ^ n) by (apply Z.pow_pos_nonneg; lia).
  pose proof (Z.div_mod v (2 ^ n) ltac:(lia)). pose proof (Z.mod_pos_bound v (2 ^ n) ltac:(lia)).
  split; intros.
  - assert (-1 <= v / 2 ^ n) by (apply Z.div_le_lower_bound; lia).
    assert (v / 2 ^ n < 1) by (apply Z.div_lt_upper_bound; lia). lia.
  - destruct H2 as [E|E]; rewrite E in *; lia.
Qed.

Lemma srange_op f g n a b : (forall x y, Z.shiftr (f x y) n = f (Z.shiftr x n) (Z.shiftr y n)) ->
  g = f -> (f 0 0 = 0 \/ f 0 0 = -1) -> (f 0 (-1) = 0 \/ f 0 (-1) = -1) -> (f (-1) 0 = 0 \/ f (-1) 0 = -1) ->
  (f (-1) (-1) = 0 \/ f (-1) (-1) = -1) ->
  0 <= n -> - 2 ^ n <= a < 2 ^ n -> - 2 ^ n <= b < 2 ^ n -> - 2 ^ n <= f a b < 2 ^ n.
Proof.
  intros S -> H1 H2 H3 H4 Hn Ha Hb. apply srange_shift in Ha; [|assumption]. apply srange_shift in Hb; [|assumption].
  apply srange_shift; [assumption|]. rewrite S. destruct Ha as [-> | ->], Hb as [-> | ->]; assumption.
Qed.

Lemma lor_range n a b : 0 <= n -> - 2 ^ n <= a < 2 ^ n -> - 2 ^ n <= b < 2 ^ n -> - 2 ^ n <= Z.lor a b < 2 ^ n.
Proof. apply (srange_op Z.lor Z.lor); auto. intros. apply Z.shiftr_lor. Qed.
Lemma land_range n a b : 0 <= n -> - 2 ^ n <= a < 2 ^ n -> - 2 ^ n <= b < 2 ^ n -> - 2 ^ n <= Z.land a b < 2 ^ n.
Proof. apply (srange_op Z.land Z.land); auto. intros. apply Z.shiftr_land. Qed.
Lemma lxor_range n a b : 0 <= n -> - 2 ^ n <= a < 2 ^ n -> - 2 ^ n <= b < 2 ^ n -> - 2 ^ n <= Z.lxor a b < 2 ^ n.
Proof. apply (srange_op Z.lxor Z.lxor); auto. intros. apply Z.shiftr_lxor. Qed.
Lemma lnot_range n a : - 2 ^ n <= a < 2 ^ n -> - 2 ^ n <= Z.lnot a < 2 ^ n.
Proof. unfold Z.lnot. lia. Qed.

(** * LOGIOR *)
Lemma intbits_spec o : argument o -> in_long (value o) -> intbits o = value o.
Proof.
  intros A I. destruct o as [w|ds].
  - cbn [intbits]. apply (intval_exact (Imm w) A I Logic.I).
  - cbn [intbits value] in *. destruct A as (W & _). destruct (bigintval_low ds W) as [B1 B2].
    rewrite <- (wrap64_id _ B2), <- (wrap64_id _ I). apply wrap64_low, B1.
Qed.

Lemma mkbigint_exact y : in_long y -> value (mkbigint y) = y /\ canonical (mkbigint y).
Proof.
  intros H. unfold mkbigint. rewrite mkbigint_big_spec by assumption.
  destruct (negb ((- 2 ^ 61 <=? y) && (y <? 2 ^ 61))) eqn:E.
  - cbn [value bigval canonical wf length]. rewrite Z.mul_0_r, Z.add_0_r. unfold fixnum_range.
    split; [reflexivity|]. split; [assumption|]. split; [lia|]. cbn. lia.
  - destruct (makeint_fix_regular y) as [V R]; [unfold fixnum_range; lia|]. split; [exact V|].
    rewrite makeint_fix in * by (unfold fixnum_range; lia). exact R.
Qed.

Theorem LOGIOR_exact args : Forall (fun o => argument o /\ in_long (value o)) args ->
  value (LOGIOR args) = fold_right (fun o r => Z.lor (value o) r) 0 args /\ canonical (LOGIOR args).
Proof.
  intros H. unfold LOGIOR.
  assert (G : forall acc, in_long acc ->
    fold_left (fun r o => Z.lor r (intbits o)) args acc =
      Z.lor acc (fold_right (fun o r => Z.lor (value o) r) 0 args) /\
    in_long (fold_left (fun r o => Z.lor r (intbits o)) args acc)).
  { induction H as [|o args [A I] _ IH]; intros acc Ha; cbn [fold_left fold_right].
    - rewrite Z.lor_0_r. auto.
    - rewrite intbits_spec by assumption. destruct (IH (Z.lor acc (value o))) as [E1 E2].
      { apply (lor_range 63); assumption || lia. }
      rewrite E1 at 1. rewrite Z.lor_assoc. auto. }
  destruct (G 0) as [E I]; [unfold in_long; lia|]. rewrite Z.lor_0_l in E.
  destruct (mkbigint_exact _ I) as [V C]. rewrite V. auto.
Qed.

(** * the fixnum-only operations *)
Lemma fix_fold_spec f args : (forall a b, fixnum_range a -> fixnum_range b -> fixnum_range (f a b)) ->
  Forall (fun o => regular o /\ isint o = true) args -> forall acc, fixnum_range acc ->
  exists r, fix_fold f acc args = Ok r /\ r = fold_left (fun r o => f r (value o)) args acc /\ fixnum_range r.
Proof.
  intros Hf. induction 1 as [|o args [R I] _ IH]; intros acc Ha; cbn [fix_fold fold_left].
  - exists acc. auto.
  - rewrite I. destruct o as [w|]; [|discriminate]. destruct (intval_imm w R) as [-> F]. apply IH. auto.
Qed.

Definition fixargs (args : list intobj) : Prop := Forall (fun o => regular o /\ isint o = true) args.

Lemma box_fix f acc args g : (forall a b, fixnum_range a -> fixnum_range b -> fixnum_range (f a b)) ->
  (forall a, fixnum_range a -> fixnum_range (g a)) -> fixargs args -> fixnum_range acc ->
  exists r, map_outcome (fun x => makeint (g x)) (fix_fold f acc args) = Ok r /\ canonical r /\
    value r = g (fold_left (fun r o => f r (value o)) args acc).
Proof.
  intros Hf Hg H Ha. destruct (fix_fold_spec f args Hf H acc Ha) as (x & E & Ex & Fx).
  rewrite E. cbn [map_outcome]. eexists. split; [reflexivity|].
  destruct (makeint_fix_regular (g x) (Hg x Fx)) as [V R].
  rewrite makeint_fix in * by (apply Hg, Fx). split; [exact R|]. rewrite V, Ex. reflexivity.
Qed.

Theorem LOGXOR_exact args : fixargs args -> exists r, LOGXOR args = Ok r /\ canonical r /\
  value r = fold_left (fun r o => Z.lxor r (value o)) args 0.
Proof.
  intros H. apply (box_fix Z.lxor 0 args (fun x => x)); auto; try (unfold fixnum_range; lia).
  intros. apply (lxor_range 61); auto; lia.
Qed.

Lemma fold_lxor_acc l acc : fold_left (fun r o => Z.lxor r (value o)) l acc =
  Z.lxor acc (fold_left (fun r o => Z.lxor r (value o)) l 0).
Proof.
  revert acc. induction l as [|o l IH]; intros acc; cbn [fold_left]; [rewrite Z.lxor_0_r; reflexivity|].
  rewrite IH, (IH (Z.lxor 0 (value o))), Z.lxor_0_l, Z.lxor_assoc. reflexivity.
Qed.

Lemma fold_lxor_rev l : fold_left (fun r o => Z.lxor r (value o)) (rev l) 0 =
  fold_left (fun r o => Z.lxor r (value o)) l 0.
Proof.
  induction l as [|o l IH]; [reflexivity|]. cbn [rev]. rewrite fold_left_app. cbn [fold_left].
  rewrite IH, fold_lxor_acc, (fold_lxor_acc l (Z.lxor 0 (value o))), Z.lxor_0_l. apply Z.lxor_comm.
Qed.

Theorem LOGEQV_exact args : fixargs args -> exists r, LOGEQV args = Ok r /\ canonical r /\
  value r = Z.lnot (fold_left (fun r o => Z.lxor r (value o)) args 0).
Proof.
  intros H. rewrite <- (fold_lxor_rev args).
  apply (box_fix Z.lxor 0 (rev args) Z.lnot); auto; try (unfold fixnum_range; lia).
  - intros. apply (lxor_range 61); auto; lia.
  - intros. apply (lnot_range 61); auto.
  - apply Forall_rev, H.
Qed.

Theorem LOGNAND_exact args : fixargs args -> exists r, LOGNAND args = Ok r /\ canonical r /\
  value r = Z.lnot (fold_left (fun r o => Z.land r (value o)) args (-1)).
Proof.
  intros H. apply (box_fix Z.land (-1) args Z.lnot); auto; try (unfold fixnum_range; lia).
  - intros. apply (land_range 61); auto; lia.
  - intros. apply (lnot_range 61); auto.
Qed.

Theorem LOGNOR_exact args : fixargs args -> exists r, LOGNOR args = Ok r /\ canonical r /\
  value r = Z.lnot (fold_left (fun r o => Z.lor r (value o)) args 0).
Proof.
  intros H. apply (box_fix Z.lor 0 args Z.lnot); auto; try (unfold fixnum_range; lia).
  - intros. apply (lor_range 61); auto; lia.
  - intros. apply (lnot_range 61); auto.
Qed.

Theorem LOGNOT_exact w : regular (Imm w) -> exists r, LOGNOT (Imm w) = Ok r /\ canonical r /\
  value r = Z.lnot (value (Imm w)).
Proof.
  intros R. unfold LOGNOT. cbn [isint]. destruct (intval_imm w R) as [-> F].
  eexists. split; [reflexivity|]. apply (lnot_range 61) in F.
  destruct (makeint_fix_regular _ F) as [V R']. split; [|exact V].
  rewrite makeint_fix in * by exact F. exact R'.
Qed.

Theorem LOGTEST_exact x y : regular (Imm x) -> regular (Imm y) ->
  exists b, LOGTEST (Imm x) (Imm y) = Ok b /\ (b = true <-> Z.land (value (Imm x)) (value (Imm y)) <> 0).
Proof.
  intros [Hx Tx] [Hy Ty]. cbn [LOGTEST value]. rewrite Tx, Ty. rewrite !Z.eqb_refl.
  eexists. split; [reflexivity|].
  assert (E : Z.land (Z.land x y) (Z.lnot 3) = 4 * Z.land (x / 4) (y / 4)).
  { change (Z.lnot 3) with (- 2 ^ 2). rewrite land_neg_pow by lia.
    assert (G : Z.land x y / 4 = Z.land (x / 4) (y / 4)).
    { change 4 with (2 ^ 2). rewrite <- !Z.shiftr_div_pow2 by lia. apply Z.shiftr_land. }
    change (2 ^ 2) with 4. rewrite <- G. lia. }
  rewrite E. destruct (Z.eqb_spec (4 * Z.land (x / 4) (y / 4)) 0); cbn [negb]; split; intros; lia || congruence.
Qed.

Theorem LOGBITP_exact i v : argument i -> argument v -> 0 <= value i < 64 -> in_long (value v) ->
  LOGBITP i v = Ok (Z.testbit (value v) (value i)).
Proof.
  intros Ai Av Hi Hv. unfold LOGBITP.
  destruct (ckintval_spec i Ai) as (x & -> & _ & _ & Ex); [unfold fits_word; lia|].
  rewrite Ex by (unfold in_long; lia).
  destruct (ckintval_spec v Av) as (y & -> & _ & _ & Ey); [apply in_long_fits, Hv|]. rewrite Ey by assumption.
  destruct (Z.ltb_spec (value i) 0); [lia|].
  assert (shift_ok (value i) = true) as -> by (unfold shift_ok; lia). f_equal.
  change 1 with (Z.ones 1). rewrite Z.land_ones by lia. change (2 ^ 1) with 2.
  rewrite Z.testbit_odd. rewrite Zmod_odd. destruct (Z.odd (Z.shiftr (value v) (value i))); reflexivity.
Qed.

(** * LOGAND *)
Lemma wf_ind2 (P : list Z -> Prop) :
  (forall d, in_long d -> P [d]) ->
  (forall d r, 0 <= d < 2 ^ 63 -> wf r -> P r -> P (d :: r)) ->
  forall ds, wf ds -> P ds.
Proof. intros H1 H2. apply wf_ind'; [exact H1|]. intros. apply H2; assumption. Qed.

Lemma land_split u v : Z.land u v = Z.land (u mod 2 ^ 63) (v mod 2 ^ 63) + 2 ^ 63 * Z.land (u / 2 ^ 63) (v / 2 ^ 63).
Proof.
  rewrite (Z.div_mod (Z.land u v) (2 ^ 63)) at 1 by lia.
  rewrite <- !(Z.shiftr_div_pow2 _ 63) by lia. rewrite Z.shiftr_land.
  assert (Z.land u v mod 2 ^ 63 = Z.land (u mod 2 ^ 63) (v mod 2 ^ 63)) as ->; [|lia].
  apply Z.bits_inj'. intros i Hi. rewrite Z.land_spec, !tb_mod, Z.land_spec by lia.
  destruct (i <? 63), (Z.testbit u i), (Z.testbit v i); reflexivity.
Qed.

Lemma land_split_dig a b X Y : 0 <= a < 2 ^ 63 -> 0 <= b < 2 ^ 63 ->
  Z.land (a + 2 ^ 63 * X) (b + 2 ^ 63 * Y) = Z.land a b + 2 ^ 63 * Z.land X Y.
Proof.
  intros Ha Hb. rewrite land_split.
  replace ((a + 2 ^ 63 * X) mod 2 ^ 63) with a by lia.
  replace ((b + 2 ^ 63 * Y) mod 2 ^ 63) with b by lia.
  replace ((a + 2 ^ 63 * X) / 2 ^ 63) with X by lia.
  replace ((b + 2 ^ 63 * Y) / 2 ^ 63) with Y by lia. reflexivity.
Qed.

(** a word against a digit *)
Lemma land_word_dig a b : in_long a -> 0 <= b < 2 ^ 63 ->
  Z.land a b = Z.land (a mod 2 ^ 63) b /\ 0 <= Z.land a b < 2 ^ 63.
Proof.
  intros Ha Hb. rewrite land_split. rewrite (Z.mod_small b), (Z.div_small b), Z.land_0_r by lia.
  rewrite Z.mul_0_r, Z.add_0_r. split; [reflexivity|].
  pose proof (land_range 63 (a mod 2 ^ 63) b ltac:(lia) ltac:(lia) ltac:(lia)).
  assert (0 <= Z.land (a mod 2 ^ 63) b); [|lia]. apply Z.land_nonneg. lia.
Qed.

Lemma neg_word a : in_long a -> a < 0 -> a = a mod 2 ^ 63 + 2 ^ 63 * (-1).
Proof. unfold in_long. intros. lia. Qed.

Lemma land_pos a b : 0 <= a < 2 ^ 63 -> 0 <= b < 2 ^ 63 -> 0 <= Z.land a b < 2 ^ 63.
Proof. intros. apply (proj2 (land_word_dig a b ltac:(unfold in_long; lia) ltac:(lia))). Qed.

Lemma and_zip_eq r p : wf r -> wf p -> length r = length p ->
  bigval (and_zip r p) = Z.land (bigval r) (bigval p) /\ wf (and_zip r p) /\ length (and_zip r p) = length r.
Proof.
  intros Wr. revert p. pattern r. apply wf_ind2; [| |exact Wr]; clear r Wr.
  - intros a Ha p Wp L. destruct p as [|b [|]]; try discriminate. cbn [and_zip bigval wf length] in *.
    rewrite !Z.mul_0_r, !Z.add_0_r. split; [reflexivity|]. split; [|reflexivity].
    apply (land_range 63); assumption || lia.
  - intros a r Ha Wr IH p Wp L. destruct p as [|b p]; [discriminate|].
    pose proof (wf_nonempty r Wr) as Nr.
    assert (Np : p <> []) by (intros ->; destruct r; [congruence|discriminate]).
    apply wf_cons in Wp; [|exact Np]. destruct Wp as [Hb Wp]. injection L as L.
    destruct (IH p Wp L) as (E & W & L2). cbn [and_zip]. rewrite !bigval_cons, E.
    rewrite land_split_dig by assumption. split; [reflexivity|].
    split; [|cbn [length]; lia]. apply wf_cons.
    + intros e. rewrite e in L2. destruct r; [congruence|discriminate].
    + split; [apply land_pos; assumption|exact W].
Qed.

(** [p] shorter than [r] and negative: the rest of [r] stays *)
Lemma and_zip_neg p : wf p -> forall r, wf r -> (length p < length r)%nat -> bigval p < 0 ->
  bigval (and_zip r p) = Z.land (bigval r) (bigval p) /\ wf (and_zip r p) /\ length (and_zip r p) = length r.
Proof.
  intros Wp. pattern p. apply wf_ind2; [| |exact Wp]; clear p Wp.
  - intros b Hb r Wr L N. destruct r as [|a [|a2 r]]; try (cbn in L; lia).
    apply wf_cons in Wr; [|congruence]. destruct Wr as [Ha Wr]. cbn [and_zip]. rewrite !bigval_cons in *.
    cbn [bigval] in N. rewrite Z.mul_0_r, Z.add_0_r in *. cbn [bigval] in *. rewrite ?Z.mul_0_r, ?Z.add_0_r in *.
    rewrite (neg_word b Hb N) at 2. rewrite land_split_dig by (lia || assumption). rewrite Z.land_m1_r.
    destruct (land_word_dig b a Hb Ha) as [E1 E2]. rewrite (Z.land_comm a b), E1, (Z.land_comm a). 
    split; [reflexivity|]. split; [|reflexivity]. apply wf_cons; [congruence|]. split; [lia|exact Wr].
  - intros b p Hb Wp IH r Wr L N. destruct r as [|a r]; [cbn in L; lia|].
    pose proof (wf_nonempty p Wp).
    assert (Nr : r <> []) by (intros ->; destruct p; [congruence|cbn in L; lia]).
    apply wf_cons in Wr; [|exact Nr]. destruct Wr as [Ha Wr]. cbn [length] in L. rewrite bigval_cons in N.
    destruct (IH r Wr ltac:(lia) ltac:(lia)) as (E & W & L2). cbn [and_zip]. rewrite !bigval_cons, E.
    rewrite land_split_dig by assumption. split; [reflexivity|]. split; [|cbn [length]; lia].
    apply wf_cons; [intros e; rewrite e in L2; destruct r; [congruence|discriminate]|].
    split; [apply land_pos; assumption|exact W].
Qed.

Lemma bigval_const0 l : bigval (map (fun _ : Z => 0) l) = 0.
Proof. induction l; [reflexivity|]. cbn [map]. rewrite bigval_cons. lia. Qed.
Lemma digits_const0 (l : list Z) : digits (map (fun _ : Z => 0) l).
Proof. induction l; constructor; [lia|assumption]. Qed.

(** [p] shorter than [r] and positive: the rest of [r] is cleared *)
Lemma and_zip_pos p : wf p -> forall r, wf r -> (length p < length r)%nat -> 0 <= bigval p ->
  let z := firstn (length p) (and_zip r p) ++ map (fun _ => 0) (skipn (length p) (and_zip r p)) in
  bigval z = Z.land (bigval r) (bigval p) /\ wf z.
Proof.
  intros Wp. pattern p. apply wf_ind2; [| |exact Wp]; clear p Wp.
  - intros b Hb r Wr L N. destruct r as [|a [|a2 r]]; try (cbn in L; lia).
    apply wf_cons in Wr; [|congruence]. destruct Wr as [Ha Wr].
    cbv zeta. cbn [length and_zip firstn skipn app]. rewrite !bigval_cons, bigval_const0.
    cbn [bigval] in *. rewrite ?Z.mul_0_r, ?Z.add_0_r in *.
    assert (Hb' : 0 <= b < 2 ^ 63) by (unfold in_long in Hb; lia). split.
    + replace b with (b + 2 ^ 63 * 0) at 2 by lia. rewrite land_split_dig by assumption.
      rewrite Z.land_0_r. lia.
    + apply digits_wf; [|congruence]. constructor; [apply land_pos; assumption|apply digits_const0].
  - intros b p Hb Wp IH r Wr L N. destruct r as [|a r]; [cbn in L; lia|].
    pose proof (wf_nonempty p Wp).
    assert (Nr : r <> []) by (intros ->; destruct p; [congruence|cbn in L; lia]).
    apply wf_cons in Wr; [|exact Nr]. destruct Wr as [Ha Wr]. cbn [length] in L. rewrite bigval_cons in N.
    destruct (IH r Wr ltac:(lia) ltac:(lia)) as (E & W). cbv zeta in *.
    cbn [length and_zip firstn skipn app]. rewrite !bigval_cons, E.
    rewrite land_split_dig by assumption. split; [reflexivity|].
    apply wf_cons; [apply wf_nonempty, W|]. split; [apply land_pos; assumption|exact W].
Qed.

(** [r] shorter than [p] and non-negative *)
Lemma and_zip_short r : wf r -> forall p, wf p -> (length r < length p)%nat -> 0 <= bigval r ->
  bigval (and_zip r p) = Z.land (bigval r) (bigval p) /\ wf (and_zip r p).
Proof.
  intros Wr. pattern r. apply wf_ind2; [| |exact Wr]; clear r Wr.
  - intros a Ha p Wp L N. destruct p as [|b [|b2 p]]; try (cbn in L; lia).
    apply wf_cons in Wp; [|congruence]. destruct Wp as [Hb Wp]. cbn [and_zip]. rewrite (bigval_cons b).
    cbn [bigval] in *. rewrite ?Z.mul_0_r, ?Z.add_0_r in *.
    assert (Ha' : 0 <= a < 2 ^ 63) by (unfold in_long in Ha; lia). split.
    + replace a with (a + 2 ^ 63 * 0) at 2 by lia. rewrite land_split_dig by assumption.
      rewrite Z.land_0_l. lia.
    + cbn [wf]. pose proof (land_pos a b Ha' Hb). unfold in_long. lia.
  - intros a r Ha Wr IH p Wp L N. destruct p as [|b p]; [cbn in L; lia|].
    pose proof (wf_nonempty r Wr).
    assert (Np : p <> []) by (intros ->; destruct r; [congruence|cbn in L; lia]).
    apply wf_cons in Wp; [|exact Np]. destruct Wp as [Hb Wp]. cbn [length] in L. rewrite bigval_cons in N.
    destruct (IH p Wp ltac:(lia) ltac:(lia)) as (E & W). cbn [and_zip]. rewrite !bigval_cons, E.
    rewrite land_split_dig by assumption. split; [reflexivity|].
    apply wf_cons; [apply wf_nonempty, W|]. split; [apply land_pos; assumption|exact W].
Qed.

Lemma and_masks p : wf p -> forall n, length p = S n -> and_zip (repeat MASK n ++ [-1]) p = p.
Proof.
  intros Wp. pattern p. apply wf_ind2; [| |exact Wp]; clear p Wp.
  - intros b Hb n L. injection L as <-. cbn [repeat app and_zip]; rewrite Z.land_m1_l; reflexivity.
  - intros b p Hb Wp IH n L. pose proof (wf_nonempty p Wp). destruct n as [|n]; [destruct p; [congruence|discriminate]|].
    injection L as L. cbn [repeat app and_zip]. rewrite IH by assumption. f_equal.
    rewrite Z.land_comm, land_MASK. apply Z.mod_small. lia.
Qed.

(** [r] shorter than [p] and negative: [r] is extended first *)
Lemma and_zip_ext r : wf r -> forall p, wf p -> (length r < length p)%nat -> bigval r < 0 ->
  let z := and_zip (r ++ repeat MASK (length p - length r - 1) ++ [-1]) p in
  bigval z = Z.land (bigval r) (bigval p) /\ wf z.
Proof.
  intros Wr. pattern r. apply wf_ind2; [| |exact Wr]; clear r Wr.
  - intros a Ha p Wp L N. destruct p as [|b [|b2 p]]; try (cbn in L; lia).
    apply wf_cons in Wp; [|congruence]. destruct Wp as [Hb Wp]. cbv zeta. cbn [app and_zip].
    rewrite and_masks; [|exact Wp|cbn [length]; lia]. rewrite !bigval_cons.
    cbn [bigval] in *. rewrite ?Z.mul_0_r, ?Z.add_0_r in *. split.
    + rewrite (neg_word a Ha N) at 2. rewrite land_split_dig by (lia || assumption). rewrite Z.land_m1_l.
      destruct (land_word_dig a b Ha Hb) as [-> _]. reflexivity.
    + apply wf_cons; [congruence|]. split; [exact (proj2 (land_word_dig a b Ha Hb))|exact Wp].
  - intros a r Ha Wr IH p Wp L N. destruct p as [|b p]; [cbn in L; lia|].
    pose proof (wf_nonempty r Wr).
    assert (Np : p <> []) by (intros ->; destruct r; [congruence|cbn in L; lia]).
    apply wf_cons in Wp; [|exact Np]. destruct Wp as [Hb Wp]. cbn [length] in L. rewrite bigval_cons in N.
    destruct (IH p Wp ltac:(lia) ltac:(lia)) as (E & W). cbv zeta in *. cbn [app and_zip length Nat.sub].
    rewrite !bigval_cons, E. rewrite land_split_dig by assumption. split; [reflexivity|].
    apply wf_cons; [apply wf_nonempty, W|]. split; [apply land_pos; assumption|exact W].
Qed.

Lemma canonical_sign pd : canonical (Big pd) -> (big_sign pd >? 0) = (0 <=? bigval pd).
Proof.
  intros (W & F & M). unfold big_sign. pose proof (top_sign pd W) as T.
  assert (last pd 0 <> 0); [|lia]. intros E0.
  destruct (wf_snoc_inv pd W) as (lo & t & -> & D & _). rewrite last_snoc in E0. subst t.
  rewrite bigval_snoc, Z.mul_0_r, Z.add_0_r, app_length in *. pose proof (digits_bound lo D) as B.
  cbn [length] in *. destruct lo as [|d lo].
  - apply F. unfold fixnum_range. cbn. lia.
  - apply M; [cbn [length]; lia|].
    replace (Z.of_nat (length (d :: lo) + 1) - 1) with (Z.of_nat (length (d :: lo))) by lia. 
    pose proof (P63_pos (length (d :: lo))). lia.
Qed.

Lemma bigand_step_spec r p : wf r -> argument p ->
  wf (bigand_step r p) /\ bigval (bigand_step r p) = Z.land (bigval r) (value p).
Proof.
  intros Wr Ap. destruct p as [w|pd].
  - cbn [bigand_step]. cbn [argument] in Ap. assert (I : in_long (value (Imm w))).
    { cbn [value]. destruct Ap as [L1 L2]. unfold in_long in *. destruct (Z.eqb_spec (w mod 4) 2); lia. }
    rewrite (intval_exact (Imm w) Ap I Logic.I). set (v := value (Imm w)) in *. clearbody v. clear Ap.
    destruct r as [|d [|d2 r]]; [destruct Wr| |].
    + cbn [wf bigval map] in *. rewrite !Z.mul_0_r, !Z.add_0_r.
      assert (H : wf [Z.land d v]) by (cbn [wf]; apply (land_range 63); assumption || lia).
      destruct (v >=? 0); cbn [bigval]; rewrite Z.mul_0_r, Z.add_0_r; auto.
    + apply wf_cons in Wr; [|congruence]. destruct Wr as [Hd Wr]. rewrite bigval_cons, (bigval_cons d).
      destruct (land_word_dig v d I Hd) as [E1 E2]. rewrite (Z.land_comm d v).
      destruct (Z.geb_spec v 0) as [Hv|Hv].
      * rewrite bigval_const0. split.
        -- apply digits_wf; [|congruence]. constructor; [assumption|apply digits_const0].
        -- assert (Hv' : 0 <= v < 2 ^ 63) by (unfold in_long in I; lia).
           replace v with (v + 2 ^ 63 * 0) at 2 by lia. rewrite land_split_dig by assumption.
           rewrite Z.land_0_r, (Z.land_comm d). lia.
      * split; [apply wf_cons; [congruence|auto]|].
        rewrite (neg_word v I ltac:(lia)) at 2. rewrite land_split_dig by (lia || assumption).
        rewrite Z.land_m1_r, E1, (Z.land_comm d). reflexivity.
  - cbn [argument] in Ap. pose proof Ap as (Wp & _). cbn [bigand_step value].
    destruct (Nat.leb_spec (length pd) (length r)) as [L|L].
    + cbv zeta. rewrite canonical_sign by assumption.
      destruct (Nat.ltb_spec (length pd) (length r)) as [L2|L2]; cbn [andb].
      * destruct (Z.leb_spec 0 (bigval pd)) as [H|H].
        -- destruct (and_zip_pos pd Wp r Wr L2 H). auto.
        -- destruct (and_zip_neg pd Wp r Wr L2 H) as (? & ? & ?). auto.
      * destruct (and_zip_eq r pd Wr Wp ltac:(lia)) as (? & ? & ?). auto.
    + unfold extend_big, big_sign. pose proof (top_sign r Wr). destruct (Z.ltb_spec (last r 0) 0).
      * destruct (and_zip_ext r Wr pd Wp L ltac:(lia)). auto.
      * destruct (and_zip_short r Wr pd Wp L ltac:(lia)). auto.
Qed.

Lemma bigand_fold args : Forall argument args -> forall r, wf r ->
  wf (fold_left bigand_step args r) /\
  bigval (fold_left bigand_step args r) = fold_left (fun a o => Z.land a (value o)) args (bigval r).
Proof.
  induction 1 as [|p args A _ IH]; intros r W; cbn [fold_left]; [auto|].
  destruct (bigand_step_spec r p W A) as [W' E]. rewrite <- E. apply IH, W'.
Qed.

(** a bignum in first position *)
Theorem LOGAND_big_exact ds b args : wf ds -> Forall argument (b :: args) ->
  exists r, LOGAND (Big ds :: b :: args) = Ok r /\ regular r /\
    value r = fold_left (fun a o => Z.land a (value o)) (b :: args) (bigval ds).
Proof.
  intros W A. cbn [LOGAND]. eexists. split; [reflexivity|].
  destruct (bigand_fold (b :: args) A ds W) as [W' E].
  destruct (normalize_bignum_spec _ W') as (V & R & _). rewrite V, E. auto.
Qed.

(** all arguments fit a C int *)
Definition int32 (v : Z) : Prop := - 2 ^ 31 <= v < 2 ^ 31.

Theorem LOGAND_int32_exact a args : fixargs (a :: args) -> Forall (fun o => int32 (value o)) (a :: args) ->
  exists r, LOGAND (a :: args) = Ok r /\ canonical r /\
    value r = fold_left (fun a o => Z.land a (value o)) args (value a).
Proof.
  intros F I. inversion F as [|? ? [R0 I0] F']; subst. inversion I as [|? ? J0 I']; subst.
  destruct a as [w|]; [|discriminate]. cbn [LOGAND]. destruct (intval_imm w R0) as [-> _].
  unfold int32 in J0. rewrite wrap32_id by assumption.
  set (k := value (Imm w)) in *. clearbody k. clear F I I0 R0. rename w into w0.
  revert k J0 I'. induction F' as [|o args [R Ho] _ IH]; intros k J0 I'; cbn [logand_fix fold_left].
  - assert (Fx : fixnum_range k) by (unfold fixnum_range; lia). eexists. split; [reflexivity|].
    destruct (makeint_fix_regular k Fx) as [V Rr]. split; [|exact V]. rewrite makeint_fix in * by assumption. exact Rr.
  - inversion I' as [|? ? J1 I'']; subst. destruct o as [w|]; [|discriminate].
    destruct (intval_imm w R) as [-> _]. unfold int32 in J1.
    pose proof (land_range 31 k (value (Imm w)) ltac:(lia) J0 J1) as B. rewrite wrap32_id by assumption.
    apply IH; assumption.
Qed.

Lemma logand_refuted : exists a r, canonical a /\ LOGAND [a; a] = Ok r /\ value r <> Z.land (value a) (value a).
Proof.
  exists (makeint (2 ^ 32)). eexists. split; [vm_compute; intuition congruence|].
  split; [vm_compute; reflexivity|]. vm_compute. congruence.
Qed.

Lemma logand_mixed_refuted : exists a b r, canonical a /\ canonical b /\ LOGAND [a; b] = Ok r /\
  value r <> Z.land (value a) (value b).
Proof.
  exists (makeint 1), (Big [2 ^ 62 + 1]). eexists. split; [vm_compute; intuition congruence|].
  split; [vm_compute; intuition congruence|].
  split; [vm_compute; reflexivity|]. vm_compute. congruence.
Qed.

Lemma logior_refuted : exists a b, canonical a /\ canonical b /\
  value (LOGIOR [a; b]) <> Z.lor (value a) (value b).
Proof.
  exists (Big [0; 1]), (makeint 0). split; [vm_compute; intuition congruence|].
  split; [vm_compute; intuition congruence|]. vm_compute. congruence.
Qed.

Lemma logxor_refuted : exists a b, canonical a /\ canonical b /\ LOGXOR [a; b] = Err /\ LOGNOT a = Err.
Proof.
  exists (Big [2 ^ 61]), (makeint 0). split; [vm_compute; intuition congruence|].
  split; [vm_compute; intuition congruence|]. vm_compute. auto.
Qed.
