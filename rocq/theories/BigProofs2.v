(** Proofs about the digit-vector routines. *)
From Verif Require Import Word BigModel BigSpec BigProofs.

(** * extended_div *)

Lemma div_step_exact d ans lh ll : 0 < d < 2 ^ 63 -> 0 <= lh < d -> 0 <= ans < 2 ^ 62 ->
  exists ans' lh',
    extended_div_step d (ans, lh, ll) = (ans', lh', wrap64 (2 * ll)) /\
    0 <= lh' < d /\ 2 * ans <= ans' <= 2 * ans + 1 /\
    ans' * d + lh' = 2 * (ans * d + lh) + (if wrap64 (2 * ll) <? 0 then 1 else 0).
Proof.
  intros Hd Hlh Ha. unfold extended_div_step.
  rewrite !Z.shiftl_mul_pow2 by lia. change (2 ^ 1) with 2.
  rewrite (Z.mul_comm ll 2). rewrite (wrap64_id (ans * 2)) by (unfold in_long; lia).
  set (b := wrap64 (2 * ll) <? 0).
  set (u := lh * 2 + if b then 1 else 0).
  assert (Bu : 0 <= u < 2 * d) by (unfold u; destruct b; lia).
  assert (Elh : (if b then wrap64 (wrap64 (lh * 2) + 1) else wrap64 (lh * 2)) = wrap64 u).
  { unfold u. destruct b.
    - destruct (wrap64_eqm (lh * 2)) as [k ->].
      replace (lh * 2 + k * 2 ^ 64 + 1) with (lh * 2 + 1 + k * 2 ^ 64) by lia. apply wrap64_add_64.
    - f_equal. lia. }
  rewrite Elh. assert (Eu : u = lh * 2 + if b then 1 else 0) by reflexivity. clearbody u. clear Elh.
  rewrite (wrap64_pos u) by lia.
  destruct (Z.ltb_spec u (2 ^ 63)).
  - destruct (Z.geb_spec u d).
    + rewrite (wrap64_id (ans * 2 + 1)) by (unfold in_long; lia).
      rewrite (wrap64_id (u - d)) by (unfold in_long; lia).
      destruct (Z.ltb_spec (u - d) 0); [lia|].
      exists (ans * 2 + 1), (u - d). split; [reflexivity|]. split; [lia|]. split; [lia|]. subst u. lia.
    + destruct (Z.ltb_spec u 0); [lia|].
      exists (ans * 2), u. split; [reflexivity|]. split; [lia|]. split; [lia|]. subst u. lia.
  - destruct (Z.geb_spec (u - 2 ^ 64) d); [lia|].
    destruct (Z.ltb_spec (u - 2 ^ 64) 0); [|lia].
    rewrite (wrap64_id (ans * 2 + 1)) by (unfold in_long; lia).
    rewrite land_MASK. unfold MASK. rewrite (wrap64_id (2 ^ 63 - 1 - d)) by (unfold in_long; lia).
    replace ((u - 2 ^ 64) mod 2 ^ 63) with (u - 2 ^ 63) by lia.
    rewrite (wrap64_id (2 ^ 63 - 1 - d + (u - 2 ^ 63) + 1)) by (unfold in_long; lia).
    exists (ans * 2 + 1), (u - d). split; [f_equal; f_equal; lia|]. split; [lia|]. split; [lia|].
    subst u. lia.
Qed.

Lemma iter_S {A} n (f : A -> A) x : iter (S n) f x = f (iter n f x).
Proof. revert x. induction n; intros; [reflexivity|]. cbn [iter] in *. rewrite <- IHn. reflexivity. Qed.

Lemma top_bit l k : 0 <= l < 2 ^ 63 -> 0 <= k < 63 ->
  l / 2 ^ (62 - k) = 2 * (l / 2 ^ (63 - k)) + (if wrap64 (2 * wrap64 (l * 2 ^ k)) <? 0 then 1 else 0).
Proof.
  intros Hl Hk.
  assert (Ew : wrap64 (2 * wrap64 (l * 2 ^ k)) = wrap64 (l * 2 ^ (k + 1))).
  { destruct (wrap64_eqm (l * 2 ^ k)) as [j ->]. rewrite Z.pow_add_r by lia. change (2 ^ 1) with 2.
    replace (2 * (l * 2 ^ k + j * 2 ^ 64)) with (l * (2 ^ k * 2) + (2 * j) * 2 ^ 64) by lia.
    apply wrap64_add_64. }
  rewrite Ew. clear Ew.
  set (P := 2 ^ (62 - k)). assert (0 < P) by (apply Z.pow_pos_nonneg; lia).
  set (Q := 2 ^ (k + 1)). assert (0 < Q) by (apply Z.pow_pos_nonneg; lia).
  assert (PQ : P * Q = 2 ^ 63) by (unfold P, Q; rewrite <- Z.pow_add_r by lia; f_equal; lia).
  replace (2 ^ (63 - k)) with (P * 2).
  2:{ unfold P. change 2 with (2 ^ 1) at 2. rewrite <- Z.pow_add_r by lia. f_equal; lia. }
  rewrite <- Z.div_div by lia.
  pose proof (Z.div_mod l P ltac:(lia)) as DM. pose proof (Z.mod_pos_bound l P ltac:(lia)) as MB.
  set (a := l / P) in *. set (m := l mod P) in *. clearbody a m.
  assert (Hmod : 0 <= m * Q < 2 ^ 63) by nia.
  replace (l * Q) with (a * 2 ^ 63 + m * Q) by (rewrite DM, <- PQ; ring).
  set (r := m * Q) in *. clearbody r. clear - Hmod.
  unfold wrap64. destruct (Z.ltb_spec ((a * 2 ^ 63 + r + 2 ^ 63) mod 2 ^ 64 - 2 ^ 63) 0); lia.
Qed.

Theorem extended_div_exact d h l : 0 <= h < d -> d < 2 ^ 63 -> 0 <= l < 2 ^ 63 ->
  fst (extended_div d h l) * d + snd (extended_div d h l) = h * 2 ^ 63 + l /\
  0 <= snd (extended_div d h l) < d /\ 0 <= fst (extended_div d h l) < 2 ^ 63.
Proof.
  intros Hh Hd Hl.
  assert (I : forall n, (n <= 63)%nat -> let k := Z.of_nat n in exists ans lh,
     iter n (extended_div_step d) (0, h, l) = (ans, lh, wrap64 (l * 2 ^ k)) /\
     0 <= ans < 2 ^ k /\ 0 <= lh < d /\ ans * d + lh = h * 2 ^ k + l / 2 ^ (63 - k)).
  { induction n; intros Hn k.
    - exists 0, h. subst k. cbn [iter Z.of_nat]. change (2 ^ 0) with 1. rewrite Z.mul_1_r.
      rewrite wrap64_id by (unfold in_long; lia). split; [reflexivity|].
      change (63 - 0) with 63. rewrite (Z.div_small l) by lia. lia.
    - destruct IHn as (ans & lh & E & Ba & Bl & EQ); [lia|].
      set (k' := Z.of_nat n) in *.
      assert (2 ^ k' <= 2 ^ 62) by (apply Z.pow_le_mono_r; lia).
      destruct (div_step_exact d ans lh (wrap64 (l * 2 ^ k'))) as (a' & lh' & E' & B1 & B2 & EQ');
        [lia|lia|lia|].
      assert (Ek : k = k' + 1) by (unfold k, k'; lia).
      assert (E2 : 2 ^ k = 2 * 2 ^ k') by (rewrite Ek, Z.pow_add_r by lia; lia).
      exists a', lh'. rewrite iter_S, E, E'. split; [|split; [lia|split; [lia|]]].
      + f_equal. rewrite E2. destruct (wrap64_eqm (l * 2 ^ k')) as [j ->].
        replace (2 * (l * 2 ^ k' + j * 2 ^ 64)) with (l * (2 * 2 ^ k') + (2 * j) * 2 ^ 64) by lia.
        apply wrap64_add_64.
      + rewrite EQ', EQ, E2. replace (63 - k) with (62 - k') by lia.
        rewrite (top_bit l k') by (unfold k'; lia). lia. }
  destruct (I 63%nat ltac:(lia)) as (ans & lh & E & Ba & Bl & EQ).
  unfold extended_div. rewrite E. cbn [fst snd].
  change (Z.of_nat 63) with 63 in *. change (63 - 63) with 0 in EQ. change (2 ^ 0) with 1 in EQ.
  rewrite Z.div_1_r in EQ. lia.
Qed.

(** * wf helpers *)

Lemma wf_cons d r : r <> [] -> (wf (d :: r) <-> 0 <= d < 2 ^ 63 /\ wf r).
Proof. destruct r; [congruence|reflexivity]. Qed.

Lemma wf_nonempty ds : wf ds -> ds <> [].
Proof. destruct ds; cbn; congruence. Qed.

Lemma wf_ind' (P : list Z -> Prop) :
  (forall d, in_long d -> P [d]) ->
  (forall d e r, 0 <= d < 2 ^ 63 -> wf (e :: r) -> P (e :: r) -> P (d :: e :: r)) ->
  forall ds, wf ds -> P ds.
Proof.
  intros H1 H2. induction ds as [|d r IH]; intros H; [destruct H|].
  destruct r as [|e r]; [apply H1, H|]. destruct H as [Hd Hr]. apply H2; auto.
Qed.

Lemma bigval_cons d r : bigval (d :: r) = d + 2 ^ 63 * bigval r.
Proof. reflexivity. Qed.

Lemma bigval_app x y : bigval (x ++ y) = bigval x + 2 ^ (63 * Z.of_nat (length x)) * bigval y.
Proof.
  induction x as [|d r IH].
  - cbn [app length bigval]. change (63 * Z.of_nat 0) with 0. lia.
  - cbn [app length bigval]. rewrite IH.
    replace (63 * Z.of_nat (S (length r))) with (63 + 63 * Z.of_nat (length r)) by lia.
    rewrite (Z.pow_add_r 2 63) by lia. ring.
Qed.

Ltac wfsolve := cbn [wf]; unfold in_long in *; repeat split; try lia.

(** * add_int_big, sub_int_big, complement *)

Lemma add_int_big_nonempty c x : x <> [] -> add_int_big c x <> [].
Proof. destruct x as [|d [|e r]]; [congruence| |]; intros _; cbn [add_int_big];
  repeat match goal with |- context [if ?b then _ else _] => destruct b end; congruence. Qed.

Lemma sub_int_big_nonempty c x : x <> [] -> sub_int_big c x <> [].
Proof. destruct x as [|d [|e r]]; [congruence| |]; intros _; cbn [sub_int_big];
  repeat match goal with |- context [if ?b then _ else _] => destruct b end; congruence. Qed.

Theorem add_int_big_exact x : wf x -> forall c, 0 <= c < 2 ^ 63 ->
  bigval (add_int_big c x) = bigval x + c /\ wf (add_int_big c x).
Proof.
  intros W. pattern x. revert x W. apply wf_ind'.
  - intros d Hd c Hc. cbn [add_int_big bigval].
    destruct (Z.geb_spec d 0).
    + unfold in_long in Hd. rewrite wrap64_pos by lia. destruct (Z.ltb_spec (d + c) (2 ^ 63)).
      * destruct (Z.ltb_spec (d + c) 0); [lia|]. cbn [bigval]. split; [lia|]. wfsolve.
      * destruct (Z.ltb_spec (d + c - 2 ^ 64) 0); [|lia]. rewrite land_MASK. cbn [bigval].
        split; [lia|]. wfsolve.
    + rewrite wrap64_id by (unfold in_long in *; lia). cbn [bigval]. split; [lia|]. wfsolve.
  - intros d e r Hd We IH c Hc. cbn [add_int_big]. fold (add_int_big 1 (e :: r)).
    change (match r with [] => _ | _ => _ end) with (add_int_big 1 (e :: r)).
    rewrite wrap64_pos by lia.
    destruct (Z.ltb_spec (d + c) (2 ^ 63)).
    + destruct (Z.ltb_spec (d + c) 0); [lia|]. rewrite !bigval_cons. split; [lia|].
      apply wf_cons; [congruence|]. split; [lia|assumption].
    + destruct (Z.ltb_spec (d + c - 2 ^ 64) 0); [|lia]. rewrite land_MASK.
      destruct (IH 1 ltac:(lia)) as [E1 W1].
      rewrite (bigval_cons _ (add_int_big 1 (e :: r))), E1, (bigval_cons d). split; [lia|].
      apply wf_cons; [apply add_int_big_nonempty; congruence|]. split; [lia|assumption].
Qed.

Theorem sub_int_big_exact x : wf x -> forall c, 0 <= c < 2 ^ 63 ->
  bigval (sub_int_big c x) = bigval x - c /\ wf (sub_int_big c x).
Proof.
  intros W. pattern x. revert x W. apply wf_ind'.
  - intros d Hd c Hc. cbn [sub_int_big bigval]. unfold in_long in Hd.
    destruct (Z.ltb_spec d 0).
    + assert (Ew : wrap64 (d - c) = if d - c <? - 2 ^ 63 then d - c + 2 ^ 64 else d - c).
      { unfold wrap64. destruct (Z.ltb_spec (d - c) (- 2 ^ 63)); lia. }
      rewrite Ew. clear Ew. destruct (Z.ltb_spec (d - c) (- 2 ^ 63)).
      * destruct (Z.geb_spec (d - c + 2 ^ 64) 0); [|lia]. rewrite land_MASK. cbn [bigval].
        split; [lia|]. wfsolve.
      * destruct (Z.geb_spec (d - c) 0); [lia|]. cbn [bigval]. split; [lia|]. wfsolve.
    + rewrite wrap64_id by (unfold in_long in *; lia). cbn [bigval]. split; [lia|]. wfsolve.
  - intros d e r Hd We IH c Hc. cbn [sub_int_big]. fold (sub_int_big 1 (e :: r)).
    change (match r with [] => _ | _ => _ end) with (sub_int_big 1 (e :: r)).
    rewrite wrap64_id by (unfold in_long in *; lia).
    destruct (Z.ltb_spec (d - c) 0).
    + rewrite land_MASK. destruct (IH 1 ltac:(lia)) as [E1 W1].
      rewrite (bigval_cons _ (sub_int_big 1 (e :: r))), E1, (bigval_cons d). split; [lia|].
      apply wf_cons; [apply sub_int_big_nonempty; congruence|]. split; [lia|assumption].
    + rewrite !bigval_cons. split; [lia|]. apply wf_cons; [congruence|]. split; [lia|assumption].
Qed.

Lemma complement_rest_exact x : wf x ->
  bigval (complement_rest x) = - bigval x - 1 /\ wf (complement_rest x) /\ complement_rest x <> [].
Proof.
  intros W. pattern x. revert x W. apply wf_ind'.
  - intros d Hd. cbn [complement_rest bigval wf]. unfold Z.lnot, in_long in *. split; [lia|].
    split; [lia|congruence].
  - intros d e r Hd We (E & W & N). 
    change (complement_rest (d :: e :: r)) with (Z.land (Z.lnot d) MASK :: complement_rest (e :: r)).
    rewrite land_MASK. rewrite (bigval_cons _ (complement_rest (e :: r))), E, (bigval_cons d).
    assert (Em : Z.lnot d mod 2 ^ 63 = 2 ^ 63 - 1 - d) by (unfold Z.lnot; lia). rewrite Em.
    split; [lia|]. split; [|congruence]. apply wf_cons; [assumption|]. split; [lia|assumption].
Qed.

Theorem complement_big_exact x : wf x ->
  bigval (complement_big x) = - bigval x /\ wf (complement_big x).
Proof.
  intros W. pattern x. revert x W. apply wf_ind'.
  - intros d Hd. cbn [complement_big bigval]. unfold in_long in Hd.
    destruct (Z.eqb_spec d (- 2 ^ 63)).
    + cbn [bigval]. split; [lia|]. wfsolve.
    + rewrite wrap64_id by (unfold in_long; lia). cbn [bigval]. split; [lia|]. wfsolve.
  - intros d e r Hd We (E & W).
    change (complement_big (d :: e :: r)) with
      (if negb (d =? 0) then Z.land (wrap64 (- d)) MASK :: complement_rest (e :: r)
       else 0 :: complement_big (e :: r)).
    destruct (Z.eqb_spec d 0); cbn [negb].
    + rewrite (bigval_cons 0), E, (bigval_cons d). split; [lia|].
      apply wf_cons; [|split; [lia|assumption]].
      destruct (complement_big (e :: r)); [destruct W|congruence].
    + destruct (complement_rest_exact (e :: r) We) as (E1 & W1 & N1).
      rewrite (bigval_cons _ (complement_rest _)), E1, (bigval_cons d), land_MASK, wrap64_id by (unfold in_long; lia).
      assert (Em : (- d) mod 2 ^ 63 = 2 ^ 63 - d) by lia. rewrite Em.
      split; [lia|]. apply wf_cons; [assumption|]. split; [lia|assumption].
Qed.

(** * mul_int_big, div_int_big *)

Lemma digits_bound x : digits x -> 0 <= bigval x < 2 ^ (63 * Z.of_nat (length x)).
Proof.
  induction 1 as [|d r Hd _ IH].
  - cbn. lia.
  - cbn [bigval length]. replace (63 * Z.of_nat (S (length r))) with (63 + 63 * Z.of_nat (length r)) by lia.
    rewrite Z.pow_add_r by lia. nia.
Qed.

Global Opaque extended_mul extended_div.

Lemma mul_int_loop_cons c h d r : mul_int_loop c h (d :: r) =
  (snd (extended_mul c d h) :: fst (mul_int_loop c (fst (extended_mul c d h)) r),
   snd (mul_int_loop c (fst (extended_mul c d h)) r)).
Proof. reflexivity. Qed.

Lemma div_int_big_cons c d e r : div_int_big c (d :: e :: r) =
  (fst (extended_div c (snd (div_int_big c (e :: r))) d) :: fst (div_int_big c (e :: r)),
   snd (extended_div c (snd (div_int_big c (e :: r))) d)).
Proof. reflexivity. Qed.

Lemma mul_int_loop_exact c x : 0 <= c < 2 ^ 63 -> digits x -> forall h, 0 <= h < 2 ^ 63 ->
  bigval (fst (mul_int_loop c h x)) + 2 ^ (63 * Z.of_nat (length x)) * snd (mul_int_loop c h x)
    = c * bigval x + h /\
  digits (fst (mul_int_loop c h x)) /\ 0 <= snd (mul_int_loop c h x) < 2 ^ 63 /\
  length (fst (mul_int_loop c h x)) = length x.
Proof.
  intros Hc. induction 1 as [|d r Hd Hr IH]; intros h Hh.
  - cbn [mul_int_loop fst snd bigval length]. change (2 ^ (63 * Z.of_nat 0)) with 1.
    split; [lia|]. split; [constructor|]. split; [lia|reflexivity].
  - destruct (extended_mul_exact c d h) as (E & B1 & B2); [lia|lia|lia|].
    rewrite mul_int_loop_cons. set (p := extended_mul c d h) in *. clearbody p.
    destruct (IH (fst p) B2) as (E2 & D2 & B3 & L2). set (t := mul_int_loop c (fst p) r) in *. clearbody t.
    cbn [fst snd]. rewrite !bigval_cons. cbn [length]. 
    replace (63 * Z.of_nat (S (length r))) with (63 + 63 * Z.of_nat (length r)) by lia.
    rewrite Z.pow_add_r by lia. split.
    + transitivity (snd p + 2 ^ 63 * (bigval (fst t) + 2 ^ (63 * Z.of_nat (length r)) * snd t)); [ring|].
      rewrite E2. transitivity ((fst p * 2 ^ 63 + snd p) + c * (2 ^ 63 * bigval r)); [ring|].
      rewrite E. ring.
    + split; [constructor; assumption|]. split; [assumption|]. cbn [length]. rewrite L2. reflexivity.
Qed.

Lemma digits_wf x : digits x -> x <> [] -> wf x.
Proof.
  induction 1 as [|d r Hd Hr IH]; [congruence|]. intros _. destruct r as [|e r].
  - cbn. unfold in_long. lia.
  - apply wf_cons; [congruence|]. split; [assumption|]. apply IH. congruence.
Qed.

Lemma wf_digits x : wf x -> 0 <= bigval x -> digits x.
Proof.
  intros W Hv. revert Hv. pattern x. revert x W. apply wf_ind'.
  - intros d Hd Hv. cbn [bigval] in Hv. unfold in_long in Hd. constructor; [lia|constructor].
  - intros d e r Hd We IH Hv. constructor; [lia|]. apply IH. rewrite bigval_cons in Hv. lia.
Qed.

Theorem mul_int_big_exact c x : 0 <= c < 2 ^ 63 -> wf x -> 0 <= bigval x ->
  bigval (mul_int_big c x) = c * bigval x /\ wf (mul_int_big c x).
Proof.
  intros Hc W Hv. pose proof (wf_digits x W Hv) as D.
  destruct (mul_int_loop_exact c x Hc D 0 ltac:(lia)) as (E & D2 & B & L).
  unfold mul_int_big. destruct (mul_int_loop c 0 x) as [z h]. cbn [fst snd] in *.
  assert (N : z <> []) by (destruct z; [cbn in L; destruct x; [destruct W|cbn in L; lia]|congruence]).
  destruct (Z.gtb_spec h 0).
  - rewrite bigval_app, L. cbn [bigval]. split; [lia|]. apply digits_wf; [|destruct z; discriminate].
    apply Forall_app. split; [assumption|]. constructor; [lia|constructor].
  - assert (h = 0) by lia. subst h. split; [lia|]. apply digits_wf; assumption.
Qed.

Lemma div_int_big_digits c x : 0 < c < 2 ^ 63 -> digits x -> x <> [] ->
  bigval x = c * bigval (fst (div_int_big c x)) + snd (div_int_big c x) /\
  0 <= snd (div_int_big c x) < c /\ digits (fst (div_int_big c x)) /\
  length (fst (div_int_big c x)) = length x.
Proof.
  intros Hc. induction 1 as [|d r Hd Hr IH]; intros N; [congruence|].
  destruct r as [|e r].
  - cbn [div_int_big fst snd bigval length].
    rewrite Z.quot_div_nonneg, Z.rem_mod_nonneg by lia.
    pose proof (Z.div_mod d c ltac:(lia)). pose proof (Z.mod_pos_bound d c ltac:(lia)).
    split; [lia|]. split; [lia|]. split; [|reflexivity]. constructor; [|constructor].
    split; [apply Z.div_pos; lia|]. apply Z.div_lt_upper_bound; nia.
  - destruct IH as (E & B & D & L); [congruence|].
    rewrite div_int_big_cons. set (t := div_int_big c (e :: r)) in *. clearbody t.
    destruct (extended_div_exact c (snd t) d) as (E2 & B2 & B3); [lia|lia|lia|].
    set (p := extended_div c (snd t) d) in *. clearbody p. cbn [fst snd].
    rewrite (bigval_cons d), E, bigval_cons. split.
    { transitivity (snd t * 2 ^ 63 + d + 2 ^ 63 * (c * bigval (fst t))); [ring|]. rewrite <- E2. ring. }
    split; [assumption|].
    split; [constructor; assumption|]. cbn [length]. rewrite L. reflexivity.
Qed.

Theorem div_int_big_exact c x : 0 < c < 2 ^ 63 -> wf x -> 0 <= bigval x ->
  bigval x = c * bigval (fst (div_int_big c x)) + snd (div_int_big c x) /\
  0 <= snd (div_int_big c x) < c /\ wf (fst (div_int_big c x)) /\ 0 <= bigval (fst (div_int_big c x)).
Proof.
  intros Hc W Hv.
  destruct (div_int_big_digits c x Hc (wf_digits x W Hv) (wf_nonempty x W)) as (E & B & D & L).
  split; [assumption|]. split; [assumption|]. split.
  - apply digits_wf; [assumption|]. destruct (fst (div_int_big c x)); [|congruence].
    destruct x; [destruct W|discriminate].
  - apply digits_bound in D. lia.
Qed.
