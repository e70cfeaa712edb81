(** Division of a bignum by a bignum: [div_big_big] and the bignum-divisor branch of [QUOTIENT]. *)
From Verif Require Import Word BigModel BigSpec BigProofs BigProofs2 BigProofs3 BigProofs4 IntTextProofs.

Lemma sub_prop_exact y : digits y -> forall hi, 0 <= hi < 2 ^ 63 -> hi <= bigval y ->
  exists r, sub_prop hi y = Some r /\ digits r /\ length r = length y /\ bigval r = bigval y - hi.
Proof.
  induction 1 as [|d r Hd Hr IH]; intros hi Hh Hle; cbn [sub_prop bigval] in *.
  - destruct (Z.gtb_spec hi 0); [lia|]. exists []. repeat split; [constructor|cbn [bigval]; lia].
  - destruct (Z.gtb_spec hi 0).
    + rewrite wrap64_id by (unfold in_long; lia).
      destruct (Z.ltb_spec (d - hi) 0).
      * destruct (IH 1) as (r' & E & D & L & V); [lia|lia|].
        rewrite E. eexists. split; [reflexivity|].
        assert (M : Z.land (d - hi) MASK = d - hi + 2 ^ 63).
        { rewrite (land_low _ 63) by (reflexivity || lia).
          symmetry. apply (Z.mod_unique _ _ (-1)); lia. }
        rewrite M. split; [constructor; [lia|exact D]|]. cbn [length bigval]. split; [lia|]. rewrite V. lia.
      * eexists. split; [reflexivity|]. split; [constructor; [lia|exact Hr]|]. cbn [length bigval]. lia.
    + assert (hi = 0) by lia. subst hi. eexists. split; [reflexivity|].
      split; [constructor; assumption|]. cbn [bigval]. lia.
Qed.

Lemma sub_ibb_exact c x : 0 <= c < 2 ^ 63 -> digits x -> forall y hi, digits y -> (length x <= length y)%nat ->
  0 <= hi <= c -> c * bigval x + hi <= bigval y ->
  exists r, sub_ibb c hi x y = Some r /\ digits r /\ length r = length y /\
    bigval r = bigval y - c * bigval x - hi.
Proof.
  intros Hc. induction 1 as [|a x Ha Hx IH]; intros y hi Hy L Hh Hle.
  - cbn [sub_ibb bigval] in *. destruct (sub_prop_exact y Hy hi) as (r & E & D & Lr & V); [lia|lia|].
    exists r. split; [exact E|]. split; [exact D|]. split; [exact Lr|lia].
  - destruct y as [|b y]; [cbn in L; lia|]. inversion Hy as [|? ? Hb Hy']; subst.
    cbn [sub_ibb]. cbn [length] in L.
    destruct (extended_mul_exact c a hi) as (E & R1 & R2); [lia|lia|lia|].
    set (p := extended_mul c a hi) in *. clearbody p. destruct p as [hi' lo]. cbn [fst snd] in *.
    rewrite wrap64_id by (unfold in_long; lia).
    cbn [bigval] in Hle.
    set (k := if b - lo <? 0 then 1 else 0).
    set (dg := b - lo + k * 2 ^ 63).
    assert (K : (if b - lo <? 0 then Z.land (b - lo) MASK else b - lo) = dg /\
                (if b - lo <? 0 then hi' + 1 else hi') = hi' + k /\ 0 <= dg < 2 ^ 63 /\
                0 <= k <= 1 /\ (k = 1 -> lo > 0)).
    { unfold dg, k. destruct (Z.ltb_spec (b - lo) 0).
      - rewrite (land_low _ 63) by (reflexivity || lia). split; [|lia].
        symmetry. apply (Z.mod_unique _ _ (-1)); lia.
      - lia. }
    destruct K as (K1 & K2 & K3 & K4 & K5). rewrite K1, K2. clearbody k.
    assert (Hhi : 0 <= hi' + k <= c).
    { clear - E R1 R2 Hc Ha Hh K4 K5.
      assert (c * a + hi <= c * 2 ^ 63) by nia.
      assert (hi' <= c) by nia.
      destruct (Z.eq_dec k 1) as [->|]; [|lia]. specialize (K5 eq_refl).
      assert (hi' < c) by nia. lia. }
    assert (Hn : c * bigval x + (hi' + k) <= bigval y).
    { unfold dg in K3. clear - E Hle K3.
      assert (c * (a + 2 ^ 63 * bigval x) = c * a + 2 ^ 63 * (c * bigval x)) by ring. lia. }
    destruct (IH y (hi' + k) Hy' ltac:(lia) Hhi Hn) as (r & Er & D & Lr & V).
    rewrite Er. eexists. split; [reflexivity|]. split; [constructor; [exact K3|exact D]|].
    cbn [length bigval]. split; [lia|]. rewrite V. unfold dg.
    assert (c * (a + 2 ^ 63 * bigval x) = c * a + 2 ^ 63 * (c * bigval x)) by ring. lia.
Qed.

(** digits, without leading zeros *)
Definition norm (y : list Z) : Prop := digits y /\ (y = [] \/ 0 < last y 0).

Lemma norm_low y : norm y -> y <> [] -> P63 (length y - 1) <= bigval y.
Proof.
  intros [D [->|L]] N; [congruence|]. destruct (exists_last N) as (lo & t & ->).
  rewrite last_snoc in L. rewrite bigval_snoc, app_length. cbn [length].
  replace (length lo + 1 - 1)%nat with (length lo) by lia.
  apply Forall_app in D. destruct D as [D _]. pose proof (digits_bound lo D). pose proof (P63_pos (length lo)). nia.
Qed.

Lemma P63_mono n m : (n <= m)%nat -> P63 n <= P63 m.
Proof. intros. unfold P63. apply Z.pow_le_mono_r; lia. Qed.

Lemma norm_len x y : norm x -> norm y -> (length x < length y)%nat -> bigval x < bigval y.
Proof.
  intros Nx Ny L. pose proof (digits_bound x (proj1 Nx)) as B.
  pose proof (norm_low y Ny) as Y. fold (P63 (length x)) in B.
  assert (y <> []) by (intros ->; cbn in L; lia). specialize (Y H).
  pose proof (P63_mono (length x) (length y - 1) ltac:(lia)). lia.
Qed.

Lemma norm_last x : norm x -> 0 <= last x 0.
Proof. intros [_ [->|?]]; cbn; lia. Qed.

Lemma big_compare_norm x y : norm x -> norm y ->
  big_compare x y = match bigval x ?= bigval y with Lt => -1 | Eq => 0 | Gt => 1 end.
Proof.
  intros Nx Ny. unfold big_compare. pose proof (norm_last x Nx). pose proof (norm_last y Ny).
  destruct (Z.ltb_spec (last x 0) 0); [lia|]. destruct (Z.geb_spec (last x 0) 0); [|lia].
  destruct (Z.ltb_spec (last y 0) 0); [lia|]. cbn [andb].
  destruct (Nat.ltb_spec (length y) (length x)) as [L|L].
  - pose proof (norm_len y x Ny Nx L). destruct (Z.compare_spec (bigval x) (bigval y)); lia.
  - destruct (Nat.ltb_spec (length x) (length y)) as [L2|L2].
    + pose proof (norm_len x y Nx Ny L2). destruct (Z.compare_spec (bigval x) (bigval y)); lia.
    + apply cmp_down_pos_spec; [apply Nx|apply Ny|lia].
Qed.

Lemma norm_length_le x y : norm x -> norm y -> bigval x <= bigval y -> (length x <= length y)%nat.
Proof.
  intros Nx Ny Hle. destruct (Nat.le_gt_cases (length x) (length y)) as [|G]; [assumption|].
  pose proof (norm_len y x Ny Nx G). lia.
Qed.

Lemma sub_int_big_big_exact c x y : 0 <= c < 2 ^ 63 -> norm x -> x <> [] -> norm y ->
  (length x <= length y)%nat -> c * bigval x <= bigval y ->
  exists r, sub_int_big_big c x y = Some r /\ norm r /\ bigval r = bigval y - c * bigval x.
Proof.
  intros Hc Nx Ne Ny L Hle. unfold sub_int_big_big.
  destruct (sub_ibb_exact c x Hc (proj1 Nx) y 0 (proj1 Ny) L) as (r & E & D & Lr & V); [lia|lia|].
  rewrite E. eexists. split; [reflexivity|].
  assert (r <> []) by (intros ->; destruct x; [congruence|cbn in *; lia]).
  pose proof (digits_wf r D H) as W. pose proof (digits_bound r D).
  destruct (normalize_pos r W) as (V2 & D2 & L2); [lia|].
  split; [split; [exact D2|exact L2]|]. rewrite V2, V. lia.
Qed.

(** ** Rounds *)
Fixpoint nrounds {A B} (n : nat) (step : A -> A + B) (s : A) : A + B :=
  match n with
  | O => inl s
  | S n => match step s with inl s' => nrounds n step s' | inr r => inr r end
  end.

Lemma nrounds_add {A B} n m (step : A -> A + B) s : nrounds (n + m) step s =
  match nrounds n step s with inl s' => nrounds m step s' | inr r => inr r end.
Proof.
  revert s. induction n as [|n IH]; intros s; [reflexivity|]. cbn [Nat.add nrounds].
  destruct (step s); [apply IH|reflexivity].
Qed.

Lemma rounds_nat {A B} p (step : A -> A + B) s : rounds p step s = nrounds (Pos.to_nat p) step s.
Proof.
  revert s. induction p as [p IH|p IH|]; intros s; cbn [rounds].
  - rewrite Pos2Nat.inj_xI. cbn [nrounds]. destruct (step s) as [s'|r]; [|reflexivity].
    replace (2 * Pos.to_nat p)%nat with (Pos.to_nat p + Pos.to_nat p)%nat by lia.
    rewrite nrounds_add, IH. destruct (nrounds (Pos.to_nat p) step s'); [apply IH|reflexivity].
  - rewrite Pos2Nat.inj_xO. replace (2 * Pos.to_nat p)%nat with (Pos.to_nat p + Pos.to_nat p)%nat by lia.
    rewrite nrounds_add, IH. destruct (nrounds (Pos.to_nat p) step s); [apply IH|reflexivity].
  - rewrite Pos2Nat.inj_1. cbn [nrounds]. destruct (step s); reflexivity.
Qed.

Lemma rounds_enough {A B} p n (step : A -> A + B) s r : (n <= Pos.to_nat p)%nat ->
  nrounds n step s = inr r -> rounds p step s = inr r.
Proof.
  intros L E. rewrite rounds_nat. replace (Pos.to_nat p) with (n + (Pos.to_nat p - n))%nat by lia.
  rewrite nrounds_add, E. reflexivity.
Qed.

Lemma dbb_loop x n : norm x -> x <> [] -> forall q y, norm y -> 0 <= q ->
  q + bigval y / bigval x < 2 ^ 63 -> bigval y / bigval x < Z.of_nat n ->
  nrounds n (dbb_step x) (q, y) = inr (Some (q + bigval y / bigval x)).
Proof.
  intros Nx Ne. pose proof (norm_low x Nx Ne) as Hx. pose proof (P63_pos (length x - 1)) as HP.
  induction n as [|n IH]; intros q y Ny Hq Hb Hn.
  - assert (0 <= bigval y / bigval x).
    { apply Z.div_pos; [apply digits_bound, Ny|lia]. } lia.
  - cbn [nrounds]. unfold dbb_step at 1. cbn [fst snd]. rewrite big_compare_norm by assumption.
    pose proof (digits_bound y (proj1 Ny)) as By.
    destruct (Z.leb_spec (match bigval x ?= bigval y with Lt => -1 | Eq => 0 | Gt => 1 end) 0) as [C|C].
    + assert (Hle : bigval x <= bigval y) by (destruct (Z.compare_spec (bigval x) (bigval y)); lia).
      destruct (sub_int_big_big_exact 1 x y) as (r & E & Nr & V);
        [lia|exact Nx|exact Ne|exact Ny|apply norm_length_le; assumption|lia|].
      rewrite E.
      assert (Dv : bigval r / bigval x = bigval y / bigval x - 1).
      { rewrite V. replace (bigval y - 1 * bigval x) with (bigval y + (-1) * bigval x) by lia.
        rewrite Z.div_add by lia. lia. }
      assert (0 <= bigval r / bigval x).
      { apply Z.div_pos; [apply digits_bound, Nr|lia]. }
      rewrite wrap64_id by (unfold in_long; lia). rewrite IH; [f_equal; f_equal; lia|exact Nr|lia|lia|lia].
    + assert (bigval y < bigval x) by (destruct (Z.compare_spec (bigval x) (bigval y)); lia).
      rewrite Z.div_small by lia. do 2 f_equal. lia.
Qed.

(** The estimate from the top digits: never too small, and at most one too big when the top digit of the divisor
    exceeds the quotient. *)
Lemma estimate P xl t yl yh : 0 < P -> 0 <= xl < P -> 0 < t -> 0 <= yl < P -> 0 <= yh ->
  let X := xl + P * t in let Y := yl + P * yh in
  Y / X + 1 <= t -> Y / X <= yh / t <= Y / X + 1.
Proof.
  intros HP Hxl Ht Hyl Hyh X Y HQ.
  pose proof (Z.div_mod yh t ltac:(lia)) as Dy. pose proof (Z.mod_pos_bound yh t Ht) as My.
  assert (HX : 0 < X) by (unfold X; nia).
  pose proof (Z.div_mod Y X ltac:(lia)) as DY. pose proof (Z.mod_pos_bound Y X HX) as MY.
  set (qh := yh / t) in *. set (Q := Y / X) in *. clearbody qh Q.
  assert (0 <= qh) by nia. assert (0 <= Q) by (unfold Y in *; nia).
  split.
  - destruct (Z.le_gt_cases Q qh) as [|G]; [assumption|exfalso].
    assert (yh + 1 <= (qh + 1) * t) by lia.
    assert (Y < P * ((qh + 1) * t)) by (unfold Y; nia).
    assert ((qh + 1) * X <= Q * X) by nia.
    assert (P * ((qh + 1) * t) <= (qh + 1) * X).
    { unfold X. replace (P * ((qh + 1) * t)) with ((qh + 1) * (P * t)) by ring.
      apply Z.mul_le_mono_nonneg_l; lia. }
    lia.
  - destruct (Z.le_gt_cases qh (Q + 1)) as [|G]; [assumption|exfalso].
    assert ((Q + 2) * t <= yh) by nia.
    assert (Y1 : P * ((Q + 2) * t) <= Y) by (unfold Y; nia).
    assert (Y2 : Y < (Q + 1) * X) by lia.
    assert (X1 : (Q + 1) * X <= (Q + 1) * (P * (t + 1))).
    { apply Z.mul_le_mono_nonneg_l; [lia|]. unfold X. lia. }
    assert (P * ((Q + 2) * t) < P * ((Q + 1) * (t + 1))).
    { replace (P * ((Q + 1) * (t + 1))) with ((Q + 1) * (P * (t + 1))) by ring. lia. }
    assert ((Q + 2) * t < (Q + 1) * (t + 1)) by nia. nia.
Qed.

Lemma nth_snoc (l : list Z) t : nth (length l) (l ++ [t]) 0 = t.
Proof. rewrite app_nth2, Nat.sub_diag by lia. reflexivity. Qed.

Lemma norm_digit_last lo t : norm (lo ++ [t]) -> digits lo /\ 0 < t < 2 ^ 63.
Proof.
  intros [D L]. apply Forall_app in D. destruct D as [D1 D2]. inversion D2; subst.
  destruct L as [E|L]; [destruct lo; discriminate|]. rewrite last_snoc in L. split; [exact D1|lia].
Qed.

Theorem div_big_big_exact x y : norm x -> x <> [] -> norm y ->
  length y = length x \/ length y = S (length x) ->
  bigval y / bigval x + 1 <= last x 0 ->
  div_big_big x y = Some (bigval y / bigval x).
Proof.
  intros Nx Ne Ny L HQ.
  destruct (exists_last Ne) as (xl & t & ->). rewrite last_snoc in HQ.
  destruct (norm_digit_last xl t Nx) as [Dxl Ht].
  pose proof (digits_bound xl Dxl) as Bxl. fold (P63 (length xl)) in Bxl. pose proof (P63_pos (length xl)) as HP.
  assert (Lx : (length (xl ++ [t]) - 1)%nat = length xl) by (rewrite app_length; cbn; lia).
  assert (VX : bigval (xl ++ [t]) = bigval xl + P63 (length xl) * t) by apply bigval_snoc.
  assert (HX : 0 < bigval (xl ++ [t])) by nia.
  pose proof (digits_bound y (proj1 Ny)) as By.
  assert (HQ0 : 0 <= bigval y / bigval (xl ++ [t])) by (apply Z.div_pos; lia).
  (* the quotient estimate *)
  assert (EST : exists qh, bigval y / bigval (xl ++ [t]) <= qh <= bigval y / bigval (xl ++ [t]) + 1 /\
    forall (F : option Z -> option Z), F (
      if (length y =? length (xl ++ [t]))%nat then
        if t =? 0 then None else Some (wrap64 (Z.quot (nth (length xl) y 0) t - 2))
      else if (length y <? length (xl ++ [t]))%nat then None
      else if nth (length (xl ++ [t])) y 0 >=? t then Some (MASK - 1)
      else Some (wrap64 (fst (extended_div t (nth (length (xl ++ [t])) y 0) (nth (length xl) y 0)) - 2)))
    = F (Some (qh - 2))).
  { destruct L as [L|L].
    - assert (Yn : y <> []) by (intros ->; rewrite app_length in L; cbn in L; lia).
      destruct (exists_last Yn) as (yl & u & ->).
      assert (Ll : length yl = length xl) by (rewrite !app_length in L; cbn in L; lia).
      destruct (norm_digit_last yl u Ny) as [Dyl Hu].
      pose proof (digits_bound yl Dyl) as Byl. fold (P63 (length yl)) in Byl. rewrite Ll in Byl.
      rewrite VX, bigval_snoc, Ll in HQ |- *.
      pose proof (estimate (P63 (length xl)) (bigval xl) t (bigval yl) u HP Bxl ltac:(lia) Byl ltac:(lia) HQ) as ES.
      exists (u / t). split; [exact ES|]. intros F. f_equal.
      rewrite L, Nat.eqb_refl. destruct (Z.eqb_spec t 0); [lia|]. rewrite <- Ll, nth_snoc.
      rewrite Z.quot_div_nonneg by lia. rewrite wrap64_id; [reflexivity|].
      assert (0 <= u / t <= u) by (split; [apply Z.div_pos; lia|apply Z.div_le_upper_bound; [lia|clear - Hu Ht; nia]]).
      unfold in_long. lia.
    - assert (Yn : y <> []) by (intros ->; cbn in L; lia).
      destruct (exists_last Yn) as (yl1 & w & ->).
      assert (Yn1 : yl1 <> []) by (intros ->; rewrite !app_length in L; cbn in L; lia).
      destruct (norm_digit_last yl1 w Ny) as [Dyl1 Hw].
      destruct (exists_last Yn1) as (yl & u & ->).
      apply Forall_app in Dyl1. destruct Dyl1 as [Dyl Du]. inversion Du as [|? ? Hu _]; subst.
      assert (Ll : length yl = length xl) by (rewrite !app_length in L; cbn in L; lia).
      pose proof (digits_bound yl Dyl) as Byl. fold (P63 (length yl)) in Byl. rewrite Ll in Byl.
      assert (VY : bigval ((yl ++ [u]) ++ [w]) = bigval yl + P63 (length xl) * (w * 2 ^ 63 + u)).
      { rewrite !bigval_snoc, app_length. cbn [length]. rewrite Nat.add_1_r, P63_S, Ll. ring. }
      rewrite VX, VY in HQ |- *.
      pose proof (estimate (P63 (length xl)) (bigval xl) t (bigval yl) (w * 2 ^ 63 + u) HP Bxl ltac:(lia) Byl
                    ltac:(lia) HQ) as ES.
      exists ((w * 2 ^ 63 + u) / t). split; [exact ES|]. intros F. f_equal.
      assert (Hwt : w < t).
      { destruct (Z.lt_ge_cases w t) as [|G]; [assumption|exfalso].
        assert (t * 2 ^ 63 <= w * 2 ^ 63 + u) by lia.
        assert (2 ^ 63 <= (w * 2 ^ 63 + u) / t) by (apply Z.div_le_lower_bound; lia). lia. }
      rewrite L.
      destruct (Nat.eqb_spec (S (length (xl ++ [t]))) (length (xl ++ [t]))); [lia|].
      destruct (Nat.ltb_spec (S (length (xl ++ [t]))) (length (xl ++ [t]))); [lia|].
      assert (N1 : nth (length (xl ++ [t])) ((yl ++ [u]) ++ [w]) 0 = w).
      { replace (length (xl ++ [t])) with (length (yl ++ [u])) by (rewrite !app_length, Ll; reflexivity).
        apply nth_snoc. }
      assert (N2 : nth (length xl) ((yl ++ [u]) ++ [w]) 0 = u).
      { rewrite app_nth1 by (rewrite app_length; cbn; lia). rewrite <- Ll. apply nth_snoc. }
      rewrite N1, N2. destruct (Z.geb_spec w t); [lia|].
      pose proof (extended_div_exact t w u (conj (Z.lt_le_incl _ _ (proj1 Hw)) Hwt) (proj2 Ht) Hu) as (ED & R1 & R2).
      assert (EF : fst (extended_div t w u) = (w * 2 ^ 63 + u) / t).
      { apply Z.div_unique with (r := snd (extended_div t w u)); lia. }
      rewrite EF. rewrite wrap64_id; [reflexivity|]. unfold in_long. lia. }
  destruct EST as (qh & ES & EQ).
  unfold div_big_big. cbv zeta. rewrite Lx, nth_snoc.
  refine (eq_trans (EQ (fun o => match o with
      | Some q => match (if q <=? 0 then Some (0, y) else
           match sub_int_big_big q (xl ++ [t]) y with Some y' => Some (q, y') | None => None end) with
         | Some s => match rounds (2 ^ 64)%positive (dbb_step (xl ++ [t])) s with inr r => r | inl _ => None end
         | None => None end
      | None => None end)) _).
  cbv beta iota.
  destruct (Z.leb_spec (qh - 2) 0) as [Q0|Q0].
  - erewrite (rounds_enough _ 4); [reflexivity| |].
    + pose proof (Pos2Nat.inj_le 4 (2 ^ 64)). assert ((4 <= 2 ^ 64)%positive) by (vm_compute; discriminate).
      apply H in H0. change (Pos.to_nat 4) with 4%nat in H0. exact H0.
    + rewrite dbb_loop; [rewrite Z.add_0_l; reflexivity|exact Nx|exact Ne|exact Ny|lia|lia|lia].
  - destruct (sub_int_big_big_exact (qh - 2) (xl ++ [t]) y) as (r & E & Nr & V);
      [lia|exact Nx|exact Ne|exact Ny|lia| |].
    + pose proof (Z.mul_div_le (bigval y) (bigval (xl ++ [t])) HX).
      assert ((qh - 2) * bigval (xl ++ [t]) <= bigval y / bigval (xl ++ [t]) * bigval (xl ++ [t]))
        by (apply Z.mul_le_mono_nonneg_r; lia). lia.
    + rewrite E.
      assert (DV : bigval r / bigval (xl ++ [t]) = bigval y / bigval (xl ++ [t]) - (qh - 2)).
      { rewrite V. replace (bigval y - (qh - 2) * bigval (xl ++ [t])) with
          (bigval y + (- (qh - 2)) * bigval (xl ++ [t])) by ring. rewrite Z.div_add by lia. lia. }
      erewrite (rounds_enough _ 4); [reflexivity| |].
      * pose proof (Pos2Nat.inj_le 4 (2 ^ 64)). assert ((4 <= 2 ^ 64)%positive) by (vm_compute; discriminate).
        apply H in H0. change (Pos.to_nat 4) with 4%nat in H0. exact H0.
      * rewrite dbb_loop; [do 2 f_equal; lia|exact Nx|exact Ne|exact Nr|lia|lia|lia].
Qed.

(** ** QUOTIENT with a bignum divisor *)
Lemma canonical_norm ds : canonical (Big ds) -> 0 <= bigval ds -> norm ds.
Proof.
  intros C Hv. destruct (canonical_top' ds C) as [_ T]. pose proof (canonical_top ds C) as P.
  destruct C as (W & F & _). split; [apply wf_digits; assumption|]. right. apply P.
  unfold fixnum_range in F. lia.
Qed.

Lemma complement_big_longer x : length (complement_big x) = (length x + 1)%nat -> last (complement_big x) 0 = 1.
Proof.
  assert (R : forall y, length (complement_rest y) = length y).
  { induction y as [|d [|e r] IH]; [reflexivity|reflexivity|].
    change (complement_rest (d :: e :: r)) with (Z.land (Z.lnot d) MASK :: complement_rest (e :: r)).
    cbn [length] in *. lia. }
  induction x as [|d [|e r] IH]; intros L.
  - cbn in L. lia.
  - cbn [complement_big] in *. destruct (Z.eqb_spec d (- 2 ^ 63)); cbn [length] in L; [reflexivity|lia].
  - change (complement_big (d :: e :: r)) with
      (if negb (d =? 0) then Z.land (wrap64 (- d)) MASK :: complement_rest (e :: r)
       else 0 :: complement_big (e :: r)) in *.
    destruct (negb (d =? 0)).
    + cbn [length] in L. rewrite R in L. cbn [length] in L. lia.
    + cbn [length] in L. specialize (IH ltac:(cbn [length]; lia)).
      destruct (complement_big (e :: r)); [cbn in IH; lia|]. exact IH.
Qed.

Lemma complement_norm ds : canonical (Big ds) -> bigval ds < 0 ->
  norm (complement_big ds) /\ bigval (complement_big ds) = - bigval ds.
Proof.
  intros C Hv. destruct (canonical_top' ds C) as [T0 _]. destruct C as (W & F & M).
  destruct (complement_big_exact ds W) as [V Wc]. split; [|exact V].
  assert (D : digits (complement_big ds)) by (apply wf_digits; [exact Wc|lia]).
  split; [exact D|]. right. 
  destruct (exists_last (wf_nonempty _ Wc)) as (lo & t & E). rewrite E in *. rewrite last_snoc.
  apply Forall_app in D. destruct D as [D1 D2]. inversion D2 as [|? ? Ht _]; subst.
  destruct (Z.eq_dec t 0) as [->|]; [exfalso|lia].
  rewrite bigval_snoc in V. rewrite Z.mul_0_r, Z.add_0_r in V.
  pose proof (digits_bound lo D1) as B.
  assert (L : (length lo + 1 <= length ds + 1)%nat).
  { pose proof (proj1 (complement_big_length ds)). rewrite E, app_length in H. cbn in H. lia. }
  destruct (wf_snoc_inv ds W) as (dl & top & -> & Dd & Ttop). rewrite app_length in *. cbn [length] in *.
  rewrite last_snoc in T0. rewrite bigval_snoc in *.
  pose proof (digits_bound dl Dd) as Bd. pose proof (P63_pos (length dl)).
  destruct (Nat.eq_dec (length lo) (length dl + 1)) as [El|].
  - pose proof (complement_big_longer (dl ++ [top])) as CL.
    rewrite E, last_snoc, !app_length in CL. cbn [length] in CL. specialize (CL ltac:(lia)). lia.
  - assert (length lo <= length dl)%nat by lia. pose proof (P63_mono _ _ H0).
    destruct dl as [|d0 dl'].
    + destruct lo; [|cbn in H0; lia]. cbn [bigval] in *. unfold fixnum_range in F. lia.
    + specialize (M ltac:(cbn [length]; lia)). apply M.
      replace (Z.of_nat (length (d0 :: dl') + 1) - 1) with (Z.of_nat (length (d0 :: dl'))) by lia. lia.
Qed.

Lemma norm_length_bounds y n : norm y -> 2 ^ (63 * Z.of_nat n) <= bigval y -> (n < length y)%nat.
Proof.
  intros Ny H. pose proof (digits_bound y (proj1 Ny)) as B.
  destruct (Nat.lt_ge_cases n (length y)) as [|G]; [assumption|]. pose proof (P63_mono _ _ G). lia.
Qed.

Lemma norm_length_upper y n : norm y -> bigval y < 2 ^ (63 * Z.of_nat n) -> (length y <= n)%nat.
Proof.
  intros Ny H. destruct (Nat.le_gt_cases (length y) n) as [|G]; [assumption|exfalso].
  assert (N : y <> []) by (intros ->; cbn in G; lia). pose proof (norm_low y Ny N) as B.
  pose proof (P63_mono n (length y - 1) ltac:(lia)). lia.
Qed.

Lemma quo_big_bignum s da rs n rest : (s = 1 \/ s = -1) -> norm da -> norm rs ->
  2 ^ (63 * Z.of_nat n + 31) <= bigval da < 2 ^ (63 * (Z.of_nat n + 1)) ->
  2 ^ (63 * Z.of_nat n) <= bigval rs < 2 ^ 31 * bigval da ->
  exists r, quo_big s rs (Big da :: rest) = Ok r /\ canonical r /\ value r = s * (bigval rs / bigval da).
Proof.
  intros Hs Na Nr Ha Hr. cbn [quo_big].
  assert (Q : 0 <= bigval rs / bigval da < 2 ^ 31).
  { assert (0 < bigval da) by (assert (0 < 2 ^ (63 * Z.of_nat n + 31)) by (apply Z.pow_pos_nonneg; lia); lia).
    pose proof (P63_pos n). split; [apply Z.div_pos; lia|apply Z.div_lt_upper_bound; lia]. }
  assert (L1 : (n < length da)%nat).
  { apply norm_length_bounds; [exact Na|].
    assert (2 ^ (63 * Z.of_nat n) <= 2 ^ (63 * Z.of_nat n + 31)) by (apply Z.pow_le_mono_r; lia). lia. }
  assert (L2 : (length da <= n + 1)%nat).
  { apply norm_length_upper; [exact Na|]. replace (Z.of_nat (n + 1)) with (Z.of_nat n + 1) by lia. lia. }
  assert (L3 : (n < length rs)%nat) by (apply norm_length_bounds; [exact Nr|lia]).
  assert (L4 : (length rs <= n + 2)%nat).
  { apply norm_length_upper; [exact Nr|].
    replace (63 * Z.of_nat (n + 2)) with (63 + 63 * (Z.of_nat n + 1)) by lia. rewrite Z.pow_add_r by lia.
    assert (2 ^ 31 * bigval da < 2 ^ 31 * 2 ^ (63 * (Z.of_nat n + 1))) by lia.
    assert (2 ^ 31 * 2 ^ (63 * (Z.of_nat n + 1)) <= 2 ^ 63 * 2 ^ (63 * (Z.of_nat n + 1))).
    { apply Z.mul_le_mono_nonneg_r; [apply Z.pow_nonneg; lia|vm_compute; discriminate]. }
    lia. }
  assert (T : 2 ^ 31 <= last da 0).
  { assert (N : da <> []) by (intros ->; cbn in L1; lia). destruct (exists_last N) as (lo & t & E).
    rewrite E in *. rewrite last_snoc. destruct (norm_digit_last lo t Na) as [Dl Ht].
    rewrite app_length in *. cbn [length] in *. assert (length lo = n) by lia. 
    rewrite bigval_snoc in Ha. pose proof (digits_bound lo Dl) as B. rewrite H in *.
    rewrite Z.pow_add_r in Ha by lia. pose proof (P63_pos n).
    destruct (Z.le_gt_cases (2 ^ 31) t) as [|G]; [assumption|exfalso].
    assert (P63 n * (t + 1) <= P63 n * 2 ^ 31) by (apply Z.mul_le_mono_nonneg_l; lia). lia. }
  rewrite div_big_big_exact; [|exact Na|intros ->; cbn in L1; lia|exact Nr|lia|lia].
  set (q := bigval rs / bigval da) in *. clearbody q.
  assert (W : wrap32 (s * q) = s * q).
  { unfold wrap32. destruct Hs as [-> | ->]; rewrite Z.mod_small; lia. }
  rewrite W. exists (makeint (s * q)).
  assert (F : fixnum_range (s * q)) by (unfold fixnum_range; destruct Hs as [-> | ->]; lia).
  split.
  - unfold mkbigint. rewrite mkbigint_big_spec by (unfold in_long; unfold fixnum_range in F; lia).
    unfold fixnum_range in F. destruct (Z.leb_spec (- 2 ^ 61) (s * q)); [|lia].
    destruct (Z.ltb_spec (s * q) (2 ^ 61)); [reflexivity|lia].
  - destruct (makeint_fix_regular _ F) as [V R]. split; [|exact V].
    rewrite makeint_fix in * by exact F. cbn [regular canonical] in *. exact R.
Qed.

Theorem QUOTIENT_bignum_exact a b n : canonical a -> isint a = false -> canonical b ->
  2 ^ (63 * Z.of_nat n + 31) <= value b < 2 ^ (63 * (Z.of_nat n + 1)) -> isint b = false ->
  2 ^ (63 * Z.of_nat n) <= Z.abs (value a) < 2 ^ 31 * value b ->
  exists r, QUOTIENT [a; b] = Ok r /\ canonical r /\ value r = Z.quot (value a) (value b).
Proof.
  intros Ca Ia Cb Hb Ib Ha. destruct a as [|ds]; [discriminate|]. destruct b as [|db]; [discriminate|].
  rewrite !value_big in *. cbn [QUOTIENT].
  assert (P : 0 < 2 ^ (63 * Z.of_nat n + 31)) by (apply Z.pow_pos_nonneg; lia).
  pose proof (canonical_norm db Cb ltac:(lia)) as Nb.
  assert (S0 : big_sign ds < 0 <-> bigval ds < 0).
  { unfold big_sign. apply canonical_top'. exact Ca. }
  destruct (Z.ltb_spec (big_sign ds) 0) as [G|G].
  - apply S0 in G. destruct (complement_norm ds Ca G) as [Nc Vc].
    destruct (quo_big_bignum (-1) db (complement_big ds) n [] (or_intror eq_refl) Nb Nc Hb) as (r & E & C & V);
      [rewrite Vc; lia|].
    exists r. split; [exact E|]. split; [exact C|]. rewrite V, Vc.
    rewrite <- (Z.opp_involutive (bigval ds)) at 2. rewrite Z.quot_opp_l by lia.
    rewrite Z.quot_div_nonneg by lia. lia.
  - destruct (quo_big_bignum 1 db ds n [] (or_introl eq_refl) Nb (canonical_norm ds Ca ltac:(lia)) Hb)
      as (r & E & C & V); [lia|].
    exists r. split; [exact E|]. split; [exact C|]. rewrite V, Z.quot_div_nonneg by lia. lia.
Qed.

Lemma canonical_dec2 d t : 0 <= d < 2 ^ 63 -> 0 < t < 2 ^ 63 -> canonical (Big [d; t]).
Proof.
  intros Hd Ht. cbn [canonical wf length bigval]. unfold fixnum_range, in_long.
  replace (Z.of_nat 2 - 1) with 1 by lia. rewrite Z.mul_1_r. lia.
Qed.

(** Outside that region: the quotient is cut to 32 bits, arguments after a bignum divisor are ignored, and a divisor
    that is longer than the dividend, or whose small top digit makes the estimate too big, or that is negative, makes
    the code read or write outside the digit vectors. *)
Lemma quotient_bignum_refuted :
  (exists a b r, canonical a /\ canonical b /\ value a = 2 ^ 103 /\ value b = 2 ^ 65 /\
    QUOTIENT [a; b] = Ok r /\ value r = 0) /\
  (exists a b r, canonical a /\ canonical b /\ value a = 2 ^ 103 /\ value b = 2 ^ 101 /\
    QUOTIENT [a; b; makeint 2] = Ok r /\ value r = 4) /\
  (exists a b, canonical a /\ canonical b /\ value a = 2 ^ 63 /\ value b = 2 ^ 126 /\ QUOTIENT [a; b] = UB) /\
  (exists a b, canonical a /\ canonical b /\ value a = 100 * 2 ^ 63 /\ value b = 2 ^ 64 - 1 /\
    QUOTIENT [a; b] = UB) /\
  (exists a b, canonical a /\ canonical b /\ value a = 5 * 2 ^ 63 /\ value b = - 2 ^ 64 /\ QUOTIENT [a; b] = UB).
Proof.
  assert (C3 : canonical (Big [0; 0; 1])).
  { cbn [canonical wf length bigval]. unfold fixnum_range, in_long. split; [lia|]. split; [vm_compute; intuition congruence|].
    intros _ [_ H]. vm_compute in H. discriminate. }
  assert (C2 : canonical (Big [0; -2])).
  { cbn [canonical wf length bigval]. unfold fixnum_range, in_long. replace (Z.of_nat 2 - 1) with 1 by lia. lia. }
  split; [|split; [|split; [|split]]].
  - exists (Big [0; 2 ^ 40]), (Big [0; 4]). eexists. repeat (split; [apply canonical_dec2; lia|]).
    split; [reflexivity|]. split; [reflexivity|]. split; [vm_compute; reflexivity|reflexivity].
  - exists (Big [0; 2 ^ 40]), (Big [0; 2 ^ 38]). eexists. repeat (split; [apply canonical_dec2; lia|]).
    split; [reflexivity|]. split; [reflexivity|]. split; [vm_compute; reflexivity|reflexivity].
  - exists (Big [0; 1]), (Big [0; 0; 1]). split; [apply canonical_dec2; lia|]. split; [exact C3|].
    split; [reflexivity|]. split; [reflexivity|]. vm_compute. reflexivity.
  - exists (Big [0; 100]), (Big [2 ^ 63 - 1; 1]). repeat (split; [apply canonical_dec2; lia|]).
    split; [reflexivity|]. split; [reflexivity|]. vm_compute. reflexivity.
  - exists (Big [0; 5]), (Big [0; -2]). split; [apply canonical_dec2; lia|]. split; [exact C2|].
    split; [reflexivity|]. split; [reflexivity|]. vm_compute. reflexivity.
Qed.
