(** Proofs about the arith.c entry points. *)
From Verif Require Import Word BigModel BigSpec BigProofs BigProofs2 BigProofs3.

Lemma value_big x : value (Big x) = bigval x.
Proof. reflexivity. Qed.

Lemma sum_cons a l : sum (a :: l) = value a + sum l.
Proof. reflexivity. Qed.

(** add or subtract a fixnum *)
Lemma add_fix_exact j x : fixnum_range j -> wf x ->
  let y := if j >? 0 then add_int_big j x else if j <? 0 then sub_int_big (- j) x else x in
  bigval y = bigval x + j /\ wf y.
Proof.
  intros Hj W. unfold fixnum_range in Hj. cbv zeta.
  destruct (Z.gtb_spec j 0); [apply add_int_big_exact; [assumption|lia]|].
  destruct (Z.ltb_spec j 0).
  - destruct (sub_int_big_exact x W (- j)) as [E W']; [lia|]. split; [lia|assumption].
  - split; [lia|assumption].
Qed.

Lemma sub_fix_exact j x : fixnum_range j -> wf x ->
  let y := if j >? 0 then sub_int_big j x else if j <? 0 then add_int_big (- j) x else x in
  bigval y = bigval x - j /\ wf y.
Proof.
  intros Hj W. unfold fixnum_range in Hj. cbv zeta.
  destruct (Z.gtb_spec j 0); [apply sub_int_big_exact; [assumption|lia]|].
  destruct (Z.ltb_spec j 0).
  - destruct (add_int_big_exact x W (- j)) as [E W']; [lia|]. split; [lia|assumption].
  - split; [lia|assumption].
Qed.

Lemma plus_big_sound args : Forall regular args -> forall b r, regular b -> plus_big b args = Ok r ->
  value r = value b + sum args /\ regular r.
Proof.
  induction 1 as [|a l Ha Hl IH]; intros b r Hb E.
  - cbn in E. injection E as <-. cbn. split; [lia|assumption].
  - rewrite sum_cons. destruct a as [w|da].
    + destruct (intval_imm w Ha) as [Ei Hi]. cbn [plus_big] in E. rewrite Ei in E.
      destruct b as [wb|ds].
      * destruct (Z.eqb_spec (value (Imm w)) 0); [|discriminate].
        destruct (IH (Imm wb) r Hb E) as [V R]. split; [lia|assumption].
      * destruct (add_fix_exact (value (Imm w)) ds Hi Hb) as [V W]. cbv zeta in V, W.
        destruct (normalize_bignum_spec _ W) as (V2 & R2 & _).
        destruct (IH _ r R2 E) as [V3 R3]. split; [|assumption]. rewrite V3, V2, V, ?value_big. lia.
    + cbn [plus_big] in E. destruct b as [wb|ds]; [discriminate|].
      destruct (big_plus_exact da ds Ha Hb) as [V W].
      destruct (normalize_bignum_spec _ W) as (V2 & R2 & _).
      destruct (IH _ r R2 E) as [V3 R3]. split; [|assumption]. rewrite V3, V2, V, ?value_big. lia.
Qed.

Lemma plus_enter_num is ds : fixnum_range is \/ (- 2 ^ 62 <= is < 2 ^ 62) -> wf ds ->
  let y := if is >=? 0 then add_int_big is ds else sub_int_big (- is) ds in
  bigval y = is + bigval ds /\ wf y.
Proof.
  intros Hi W. assert (H : - 2 ^ 62 <= is < 2 ^ 62) by (unfold fixnum_range in Hi; lia). cbv zeta.
  destruct (Z.geb_spec is 0).
  - destruct (add_int_big_exact ds W is) as [E W']; [lia|]. split; [lia|assumption].
  - destruct (sub_int_big_exact ds W (- is)) as [E W']; [lia|]. split; [lia|assumption].
Qed.

Lemma plus_loop_sound args : Forall regular args -> forall is r, fixnum_range is ->
  plus_loop is args = Ok r -> value r = is + sum args /\ regular r.
Proof.
  induction 1 as [|a l Ha Hl IH]; intros is r Hi E.
  - cbn [plus_loop] in E. injection E as <-. destruct (makeint_fix_regular is Hi) as [V R].
    split; [cbn [sum fold_right]; lia|assumption].
  - rewrite sum_cons. destruct a as [w|da]; cbn [plus_loop] in E.
    + destruct (intval_imm w Ha) as [Ei Hv]. rewrite Ei in E. unfold fixnum_range in Hi, Hv.
      rewrite wrap64_id in E by (unfold in_long; lia). rewrite fix_overflow_spec in E by lia.
      destruct ((- 2 ^ 61 <=? is + value (Imm w)) && (is + value (Imm w) <? 2 ^ 61)) eqn:F; cbn [negb] in E.
      * destruct (IH (is + value (Imm w)) r) as [V R]; [unfold fixnum_range; lia|exact E|]. split; [lia|assumption].
      * unfold plus_enter in E. 
        destruct (plus_enter_num (is + value (Imm w)) [0]) as [V W]; [right; lia|cbn; unfold in_long; lia|].
        cbv zeta in V, W.
        destruct (plus_big_sound l Hl (Big _) r W E) as [V2 R2]. split; [|assumption].
        rewrite V2, value_big, V. cbn [bigval]. lia.
    + unfold plus_enter in E. destruct (plus_enter_num is da (or_introl Hi) Ha) as [V W]. cbv zeta in V, W.
      destruct (plus_big_sound l Hl (Big _) r W E) as [V2 R2]. split; [|assumption].
      rewrite V2, !value_big, V. lia.
Qed.

Theorem PLUS_sound args r : Forall regular args -> PLUS args = Ok r -> value r = sum args /\ regular r.
Proof. intros H E. apply (plus_loop_sound args H 0 r) in E; [|unfold fixnum_range; lia]. assumption. Qed.

Theorem PLUS2_total a b : regular a -> regular b -> exists r, PLUS [a; b] = Ok r.
Proof.
  intros Ha Hb. unfold PLUS. destruct a as [w|da].
  - destruct (intval_imm w Ha) as [Ei Hv]. cbn [plus_loop]. rewrite Ei. unfold fixnum_range in Hv.
    rewrite wrap64_id by (unfold in_long; lia). rewrite fix_overflow_spec by lia. rewrite Z.add_0_l.
    assert ((- 2 ^ 61 <=? value (Imm w)) && (value (Imm w) <? 2 ^ 61) = true) as -> by lia. cbn [negb].
    destruct b as [wb|db]; [|eexists; reflexivity].
    destruct (fix_overflow _); eexists; reflexivity.
  - cbn [plus_loop]. unfold plus_enter. cbn [Z.geb Z.compare]. destruct b as [wb|db]; eexists; reflexivity.
Qed.

(** a canonical bignum that is not negative is at least 2^61 *)
Lemma canonical_big_ge ds : canonical (Big ds) -> 0 <= bigval ds -> 2 ^ 61 <= bigval ds.
Proof. intros (W & F & _) H. unfold fixnum_range in F. lia. Qed.

Lemma normalize_stays_big ds : wf ds -> 2 ^ 61 <= bigval ds ->
  exists ds', normalize_bignum (Big ds) = Big ds' /\ wf ds' /\ bigval ds' = bigval ds.
Proof.
  intros W H. destruct (normalize_bignum_spec ds W) as (V & R & K).
  destruct (normalize_bignum (Big ds)) as [w|ds'].
  - unfold fixnum_range in K. lia.
  - exists ds'. cbn [value regular] in *. auto.
Qed.

Lemma plus_big_nonneg args : Forall (fun o => regular o /\ 0 <= value o) args -> forall ds, wf ds ->
  2 ^ 61 <= bigval ds -> exists r, plus_big (Big ds) args = Ok r.
Proof.
  induction 1 as [|a l [Ha Va] Hl IH]; intros ds W H; [eexists; reflexivity|].
  destruct a as [w|da]; cbn [plus_big].
  - destruct (intval_imm w Ha) as [Ei Hv]. rewrite Ei.
    destruct (add_fix_exact (value (Imm w)) ds Hv W) as [V W2]. cbv zeta in V, W2.
    destruct (normalize_stays_big _ W2) as (ds' & -> & W3 & V3); [lia|]. apply IH; [assumption|lia].
  - destruct (big_plus_exact da ds Ha W) as [V W2]. cbn [value] in Va.
    destruct (normalize_stays_big _ W2) as (ds' & -> & W3 & V3); [lia|]. apply IH; [assumption|lia].
Qed.

Theorem PLUS_nonneg_total args : Forall (fun o => canonical o /\ 0 <= value o) args ->
  exists r, PLUS args = Ok r.
Proof.
  intros H. unfold PLUS. assert (G : forall is, 0 <= is < 2 ^ 61 -> exists r, plus_loop is args = Ok r);
    [|apply G; lia].
  induction H as [|a l [Ha Va] Hl IH]; intros is Hi; [eexists; reflexivity|].
  assert (Hl' : Forall (fun o => regular o /\ 0 <= value o) l).
  { eapply Forall_impl; [|exact Hl]. intros o [C V]. split; [apply canonical_regular, C|exact V]. }
  pose proof (canonical_regular a Ha) as Ra.
  destruct a as [w|da]; cbn [plus_loop].
  - destruct (intval_imm w Ra) as [Ei Hv]. rewrite Ei. unfold fixnum_range in Hv.
    rewrite wrap64_id by (unfold in_long; lia). rewrite fix_overflow_spec by lia.
    destruct ((- 2 ^ 61 <=? is + value (Imm w)) && (is + value (Imm w) <? 2 ^ 61)) eqn:F; cbn [negb].
    + apply IH. lia.
    + unfold plus_enter.
      destruct (plus_enter_num (is + value (Imm w)) [0]) as [V W]; [right; lia|cbn; unfold in_long; lia|].
      cbv zeta in V, W. apply plus_big_nonneg; [assumption|assumption|]. rewrite V. cbn [bigval]. lia.
  - unfold plus_enter. cbn [value] in Va. pose proof (canonical_big_ge da Ha Va).
    destruct (plus_enter_num is da) as [V W]; [right; lia|exact Ra|]. cbv zeta in V, W.
    apply plus_big_nonneg; [assumption|assumption|]. lia.
Qed.

(** * MINUS *)

Definition acc_val (acc : Z + list Z) : Z := match acc with inl is => is | inr b => bigval b end.
Definition acc_ok (acc : Z + list Z) : Prop := match acc with inl is => fixnum_range is | inr b => wf b end.

Lemma to_acc_spec x : wf x -> acc_val (to_acc x) = bigval x /\ acc_ok (to_acc x).
Proof.
  intros W. unfold to_acc. destruct (normalize_bignum_spec x W) as (V & R & K).
  destruct (normalize_bignum (Big x)) as [w|ds].
  - destruct (intval_imm w R) as [E F]. cbn [acc_val acc_ok]. rewrite E. split; assumption.
  - cbn. split; assumption.
Qed.

Lemma minus_step_exact acc a : acc_ok acc -> regular a ->
  acc_val (minus_step acc a) = acc_val acc - value a /\ acc_ok (minus_step acc a).
Proof.
  intros Ho Ha. destruct acc as [is|b], a as [w|da]; cbn [minus_step].
  - destruct (intval_imm w Ha) as [Ei Hv]. rewrite Ei. cbn [acc_ok acc_val] in *.
    unfold fixnum_range in Ho, Hv. rewrite wrap64_id by (unfold in_long; lia).
    cbv zeta. rewrite fix_overflow_spec by lia.
    destruct ((- 2 ^ 61 <=? is - value (Imm w)) && (is - value (Imm w) <? 2 ^ 61)) eqn:F; cbn [negb].
    + cbn [acc_val acc_ok]. unfold fixnum_range. lia.
    + cbn [acc_val acc_ok bigval wf]. unfold in_long. lia.
  - destruct (complement_big_exact da Ha) as [V W]. fold (big_minus da) in V, W.
    destruct (add_fix_exact is (big_minus da) Ho W) as [V2 W2]. cbv zeta in V2, W2.
    destruct (to_acc_spec _ W2) as [V3 W3]. rewrite V3. split; [|assumption]. cbn [acc_val value]. lia.
  - destruct (intval_imm w Ha) as [Ei Hv]. rewrite Ei. cbn [acc_ok] in Ho. cbv zeta.
    destruct (sub_fix_exact _ b Hv Ho) as [V W]. cbv zeta in V, W.
    destruct (to_acc_spec _ W) as [V3 W3]. rewrite V3. split; [|assumption]. exact V.
  - destruct (complement_big_exact da Ha) as [V W]. fold (big_minus da) in V, W.
    destruct (big_plus_exact b (big_minus da) Ho W) as [V2 W2].
    destruct (to_acc_spec _ W2) as [V3 W3]. rewrite V3. split; [|assumption]. cbn [acc_val value]. lia.
Qed.

Lemma acc_obj_spec acc : acc_ok acc -> value (acc_obj acc) = acc_val acc /\ regular (acc_obj acc).
Proof.
  destruct acc as [is|b]; cbn [acc_ok acc_obj acc_val]; intros H; [apply makeint_fix_regular, H|].
  split; [reflexivity|exact H].
Qed.

Lemma minus_loop_exact args : Forall regular args -> forall acc, acc_ok acc ->
  value (minus_loop acc args) = acc_val acc - sum args /\ regular (minus_loop acc args).
Proof.
  unfold minus_loop. induction 1 as [|a l Ha Hl IH]; intros acc Ho.
  - cbn [fold_left sum fold_right]. destruct (acc_obj_spec acc Ho) as [V R]. split; [lia|assumption].
  - cbn [fold_left]. destruct (minus_step_exact acc a Ho Ha) as [V O].
    destruct (IH _ O) as [V2 R2]. rewrite sum_cons. split; [lia|assumption].
Qed.

Theorem MINUS_exact a args : regular a -> Forall regular args ->
  exists r, MINUS (a :: args) = Ok r /\ regular r /\
    value r = match args with [] => - value a | _ => value a - sum args end.
Proof.
  intros Ha Hl. destruct args as [|b l].
  - exists (minus_one a). split; [destruct a; reflexivity|]. destruct a as [w|ds]; cbn [minus_one].
    + destruct (intval_imm w Ha) as [Ei Hv]. rewrite Ei.
      change (wrap64 (Z.shiftl MINNEGFIXNUM 2 + 2)) with (- 2 ^ 63 + 2).
      cbn [regular] in Ha. assert (Ew : value (Imm w) = w / 4).
      { cbn [value]. destruct Ha as [_ ->]. reflexivity. }
      rewrite Ew in *. destruct (Z.eqb_spec w (- 2 ^ 63 + 2)).
      * cbn [regular value bigval wf]. unfold in_long. lia.
      * unfold fixnum_range, in_long in *. rewrite wrap64_id by (unfold in_long; lia).
        destruct (makeint_fix_regular (- (w / 4))) as [V R]; [unfold fixnum_range; lia|]. split; assumption.
    + destruct (complement_big_exact ds Ha) as [V W]. destruct (normalize_bignum_spec _ W) as (V2 & R & _).
      split; [exact R|]. rewrite value_big, <- V. exact V2.
  - destruct a as [w|ds].
    + exists (minus_loop (inl (intval (Imm w))) (b :: l)). split; [reflexivity|].
      destruct (intval_imm w Ha) as [Ei Hv]. rewrite Ei.
      destruct (minus_loop_exact (b :: l) Hl (inl (value (Imm w))) Hv) as [V R]. split; [exact R|exact V].
    + exists (minus_loop (inr ds) (b :: l)). split; [reflexivity|].
      destruct (minus_loop_exact (b :: l) Hl (inr ds) Ha) as [V R]. split; [exact R|exact V].
Qed.

Lemma fix_word w : regular (Imm w) -> value (Imm w) = w / 4 /\ w = 4 * value (Imm w) + 2.
Proof. intros [_ H]. cbn [value]. rewrite H. cbn [Z.eqb Pos.eqb]. lia. Qed.

Theorem SUB1_exact a : regular a -> value (SUB1 a) = value a - 1 /\ regular (SUB1 a).
Proof.
  intros Ha. destruct a as [w|ds]; cbn [SUB1].
  - destruct (fix_word w Ha) as [E1 E2]. destruct (intval_imm w Ha) as [_ Hv].
    set (v := value (Imm w)) in *. clearbody v. unfold fixnum_range in Hv.
    change (wrap64 (Z.shiftl MINNEGFIXNUM 2 + 2)) with (- 2 ^ 63 + 2).
    destruct (Z.eqb_spec w (- 2 ^ 63 + 2)).
    + cbn [value regular bigval wf]. unfold in_long. lia.
    + rewrite wrap64_id by (unfold in_long; lia). cbn [value regular]. unfold in_long.
      destruct (Z.eqb_spec ((w - 4) mod 4) 2); lia.
  - destruct (sub_int_big_exact ds Ha 1) as [V W]; [lia|].
    destruct (normalize_bignum_spec _ W) as (V2 & R & _). split; [|exact R]. rewrite V2. exact V.
Qed.

Theorem ADD1_exact a : regular a -> value (ADD1 a) = value a + 1 /\ regular (ADD1 a).
Proof.
  intros Ha. destruct a as [w|ds]; cbn [ADD1].
  - destruct (fix_word w Ha) as [E1 E2]. destruct (intval_imm w Ha) as [_ Hv].
    set (v := value (Imm w)) in *. clearbody v. unfold fixnum_range in Hv.
    change (wrap64 (Z.shiftl MAXPOSFIXNUM 2 + 2)) with (2 ^ 63 - 2).
    destruct (Z.eqb_spec w (2 ^ 63 - 2)).
    + cbn [value regular bigval wf]. unfold in_long. lia.
    + rewrite wrap64_id by (unfold in_long; lia). cbn [value regular]. unfold in_long.
      destruct (Z.eqb_spec ((w + 4) mod 4) 2); lia.
  - destruct (add_int_big_exact ds Ha 1) as [V W]; [lia|]. split; [exact V|exact W].
Qed.

Theorem ABS_exact a : regular a -> value (ABS a) = Z.abs (value a) /\ regular (ABS a).
Proof.
  intros Ha. destruct a as [w|ds]; cbn [ABS].
  - destruct (fix_word w Ha) as [E1 E2]. destruct (intval_imm w Ha) as [Ei Hv]. rewrite Ei.
    set (v := value (Imm w)) in *. clearbody v. unfold fixnum_range in Hv.
    change (wrap64 (Z.shiftl MINNEGFIXNUM 2 + 2)) with (- 2 ^ 63 + 2).
    destruct (Z.eqb_spec w (- 2 ^ 63 + 2)).
    + cbn [value regular bigval wf]. unfold in_long. lia.
    + apply makeint_fix_regular. unfold fixnum_range. lia.
  - unfold big_sign. pose proof (top_sign ds Ha). destruct (Z.ltb_spec (last ds 0) 0).
    + destruct (complement_big_exact ds Ha) as [V W]. cbn [value regular]. split; [lia|assumption].
    + cbn [value regular]. split; [lia|assumption].
Qed.

(** * TIMES *)

Definition small_digit (tr : Z -> Z) (d : Z) : Prop := 0 <= d < 2 ^ 63 /\ tr d = d.

Lemma bt_prop_exact z : digits z -> forall hi, 0 <= hi < 2 ^ 63 -> bigval z + hi < P63 (length z) ->
  exists z', bt_prop z hi = Some z' /\ bigval z' = bigval z + hi /\ digits z' /\ length z' = length z.
Proof.
  induction 1 as [|d r Hd Hr IH]; intros hi Hh B.
  - cbn [bigval length] in B. change (P63 0) with 1 in B. exists []. cbn [bt_prop].
    destruct (Z.gtb_spec hi 0); [lia|]. split; [reflexivity|]. split; [lia|]. split; [constructor|reflexivity].
  - cbn [bt_prop]. destruct (Z.gtb_spec hi 0).
    + rewrite land_MASK, wrap64_pos by lia. destruct (Z.ltb_spec (d + hi) (2 ^ 63)).
      * destruct (Z.ltb_spec (d + hi) 0); [lia|]. exists (d + hi :: r). split; [reflexivity|].
        rewrite !bigval_cons. split; [lia|]. split; [constructor; [lia|assumption]|reflexivity].
      * destruct (Z.ltb_spec (d + hi - 2 ^ 64) 0); [|lia].
        rewrite bigval_cons in B. cbn [length] in B. rewrite P63_S in B.
        destruct (IH 1) as (z' & E & V & D & L); [lia|nia|]. rewrite E. cbn [option_map].
        assert (Em : (d + hi - 2 ^ 64) mod 2 ^ 63 = d + hi - 2 ^ 63) by lia. rewrite Em.
        eexists. split; [reflexivity|]. rewrite !bigval_cons, V. split; [lia|].
        split; [constructor; [lia|assumption]|]. cbn [length]. lia.
    + exists (d :: r). split; [reflexivity|]. split; [lia|]. split; [constructor; assumption|reflexivity].
Qed.

Lemma bt_inner_exact m y : 0 <= m < 2 ^ 63 -> digits y -> forall z hi, digits z -> 0 <= hi < 2 ^ 63 ->
  (length y <= length z)%nat -> bigval z + m * bigval y + hi < P63 (length z) ->
  exists z', bt_inner m hi y z = Some z' /\ bigval z' = bigval z + m * bigval y + hi /\ digits z' /\
             length z' = length z.
Proof.
  intros Hm. induction 1 as [|b y Hb Hy IH]; intros z hi Dz Hh L B.
  - cbn [bigval] in *. cbn [bt_inner]. destruct (bt_prop_exact z Dz hi Hh) as (z' & E & V & D & Lz); [lia|].
    exists z'. split; [destruct z; exact E|]. split; [lia|]. split; assumption.
  - destruct Dz as [|d z Hd Dz]; [cbn in L; lia|].
    destruct (extended_mul_exact m b hi Hm Hb Hh) as (E & B1 & B2).
    cbn [bt_inner]. cbv zeta. set (p := extended_mul m b hi) in *. clearbody p.
    rewrite land_MASK.
    assert (Bp : fst p * 2 ^ 63 + snd p <= (2 ^ 63 - 1) * (2 ^ 63 - 1) + (2 ^ 63 - 1)) by (rewrite E; nia).
    set (s := wrap64 (d + snd p)).
    set (d1 := if s <? 0 then s mod 2 ^ 63 else s).
    set (h1 := if s <? 0 then wrap64 (fst p + 1) else fst p).
    assert (F : d1 + 2 ^ 63 * h1 = d + snd p + 2 ^ 63 * fst p /\ 0 <= d1 < 2 ^ 63 /\ 0 <= h1 < 2 ^ 63).
    { unfold d1, h1, s. rewrite (wrap64_pos (d + snd p)) by lia.
      destruct (Z.ltb_spec (d + snd p) (2 ^ 63)).
      - destruct (Z.ltb_spec (d + snd p) 0); lia.
      - destruct (Z.ltb_spec (d + snd p - 2 ^ 64) 0); [|lia].
        rewrite wrap64_id by (unfold in_long; lia). lia. }
    clearbody d1 h1. destruct F as (F & Bd & Bh).
    rewrite !bigval_cons in *. cbn [length] in B, L. rewrite P63_S in B.
    assert (V0 : d + 2 ^ 63 * bigval z + m * (b + 2 ^ 63 * bigval y) + hi
                 = d1 + 2 ^ 63 * (bigval z + m * bigval y + h1)).
    { transitivity (d + (m * b + hi) + 2 ^ 63 * (bigval z + m * bigval y)); [ring|].
      rewrite <- E. transitivity ((d + snd p + 2 ^ 63 * fst p) + 2 ^ 63 * (bigval z + m * bigval y)); [ring|].
      rewrite <- F. ring. }
    destruct (IH z h1 Dz Bh) as (z' & Ez & Vz & Dz' & Lz); [lia| |].
    { rewrite V0 in B. lia. }
    rewrite Ez. cbn [option_map]. eexists. split; [reflexivity|]. rewrite bigval_cons, Vz, V0.
    split; [reflexivity|]. split; [constructor; assumption|]. cbn [length]. lia.
Qed.

Lemma bt_outer_exact tr y : digits y -> forall x, Forall (small_digit tr) x -> forall z, digits z ->
  length z = (length x + length y)%nat -> bigval z + bigval x * bigval y < P63 (length z) ->
  exists z', bt_outer tr x y z = Some z' /\ bigval z' = bigval z + bigval x * bigval y /\ digits z' /\
             length z' = length z.
Proof.
  intros Dy. induction 1 as [|a x [Ha Ta] Hx IH]; intros z Dz L B.
  - exists z. cbn [bt_outer bigval] in *. split; [reflexivity|]. split; [lia|]. split; [assumption|reflexivity].
  - cbn [bt_outer]. rewrite Ta. rewrite bigval_cons in *. cbn [length] in L.
    assert (Dx : digits x) by (eapply Forall_impl; [|exact Hx]; intros ? []; assumption).
    pose proof (digits_bound x Dx) as Bx. pose proof (digits_bound y Dy) as By.
    destruct (bt_inner_exact a y Ha Dy z 0 Dz) as (z' & E & V & D & Lz); [lia|lia|nia|].
    rewrite E. destruct D as [|d z' Hd D]; [cbn in Lz; lia|].
    rewrite bigval_cons in V. rewrite <- Lz in B. cbn [length] in *. rewrite P63_S in B.
    assert (V1 : bigval z + (a + 2 ^ 63 * bigval x) * bigval y =
                 d + 2 ^ 63 * (bigval z' + bigval x * bigval y)) by lia.
    destruct (IH z' D) as (z'' & E2 & V2 & D2 & L2); [lia|rewrite V1 in B; lia|].
    rewrite E2. cbn [option_map]. eexists. split; [reflexivity|]. rewrite bigval_cons, V2, V1.
    split; [reflexivity|]. split; [constructor; assumption|]. cbn [length]. lia.
Qed.

Theorem big_times_with_exact tr x y : Forall (small_digit tr) x -> digits y ->
  exists z, big_times_with tr x y = Some z /\ bigval z = bigval x * bigval y /\ digits z /\
            length z = (length x + length y)%nat.
Proof.
  intros Hx Dy. unfold big_times_with.
  assert (Dx : digits x) by (eapply Forall_impl; [|exact Hx]; intros ? []; assumption).
  pose proof (digits_bound x Dx) as Bx. pose proof (digits_bound y Dy) as By.
  set (n := (length x + length y)%nat).
  assert (Z0 : bigval (repeat 0 n) = 0) by (pose proof (bigval_zeros [] n) as H; exact H).
  destruct (bt_outer_exact tr y Dy x Hx (repeat 0 n)) as (z & E & V & D & L).
  - clear. induction n; cbn [repeat]; constructor; [lia|assumption].
  - apply repeat_length.
  - rewrite repeat_length, Z0. unfold n. rewrite Nat2Z.inj_add, Z.mul_add_distr_l, Z.pow_add_r by lia. nia.
  - exists z. rewrite repeat_length in L. rewrite Z0 in V. auto.
Qed.

Lemma big_mul_int_exact is b : - 2 ^ 63 < is < 2 ^ 63 -> wf b -> (0 < bigval b -> 0 < last b 0) ->
  (is < 0 -> last b 0 <> - 2 ^ 63) ->
  bigval (fst (big_mul_int is b)) = is * bigval b /\ wf (fst (big_mul_int is b)).
Proof.
  intros Hi W Hp Hm. unfold big_mul_int, big_sign. cbv zeta. cbn [fst snd].
  pose proof (top_sign b W) as TS. pose proof (last_in_long b W) as TL. unfold in_long in TL.
  destruct (complement_big_exact b W) as [VC WC].
  set (b1 := if last b 0 <? 0 then complement_big b else b).
  assert (B1 : bigval b1 = Z.abs (bigval b) /\ wf b1).
  { unfold b1. destruct (Z.ltb_spec (last b 0) 0); split; try assumption; lia. }
  clearbody b1. destruct B1 as [V1 W1].
  set (i1 := if is <? 0 then wrap64 (- is) else is).
  assert (E1 : i1 = Z.abs is).
  { unfold i1. destruct (Z.ltb_spec is 0); [rewrite wrap64_id by (unfold in_long; lia)|]; lia. }
  clearbody i1. subst i1.
  destruct (mul_int_big_exact (Z.abs is) b1) as [V2 W2]; [lia|assumption|lia|].
  set (b2 := mul_int_big (Z.abs is) b1) in *. clearbody b2.
  set (s1 := if is <? 0 then wrap64 (- last b 0) else last b 0).
  destruct (complement_big_exact b2 W2) as [VC2 WC2].
  assert (S1 : (s1 < 0 /\ (is * bigval b <= 0)) \/ (0 <= s1 /\ (0 <= is * bigval b))).
  { unfold s1. destruct (Z.ltb_spec is 0).
    - rewrite wrap64_id by (unfold in_long; lia).
      destruct (Z.lt_trichotomy (last b 0) 0) as [|[|]]; [right|right|left]; nia.
    - destruct (Z.ltb_spec (last b 0) 0); [left|right]; nia. }
  rewrite V1, <- Z.abs_mul in V2.
  destruct (Z.ltb_spec s1 0); split; try assumption; lia.
Qed.

(** The multiplier's invariant on (sign, accumulator). *)
Definition times_inv (sign : Z) (acc : Z + list Z) : Prop :=
  match acc with
  | inl is => fixnum_range is /\ (0 < is -> sign = 1)
  | inr b => wf b /\ 2 ^ 61 <= Z.abs (bigval b) /\ (0 < bigval b -> 0 < last b 0)
  end.

(** numbers whose (minimal) top word is -2^63 *)
Definition min_top (p : Z) : Prop :=
  exists n, - 2 ^ (63 * Z.of_nat (S n)) <= p < - 2 ^ (63 * Z.of_nat (S n)) + 2 ^ (63 * Z.of_nat n).

Lemma min_top_last b : wf b -> last b 0 = - 2 ^ 63 -> min_top (bigval b).
Proof.
  intros W E. destruct (wf_snoc_inv b W) as (lo & t & -> & D & T). rewrite last_snoc in E. subst t.
  exists (length lo). rewrite bigval_snoc, P63_S. pose proof (digits_bound lo D). lia.
Qed.

Lemma to_acc_times s x p : wf x -> bigval x = p -> (p = 0 \/ 2 ^ 61 <= Z.abs p) ->
  times_inv s (to_acc x) /\ acc_val (to_acc x) = p.
Proof.
  intros W E Hp. destruct (to_acc_spec x W) as [V O]. split; [|lia].
  unfold to_acc in *. destruct (normalize_bignum_spec x W) as (V2 & R & K).
  destruct (normalize_bignum (Big x)) as [w|ds] eqn:EQ.
  - cbn [acc_val acc_ok times_inv] in *. split; [exact O|]. unfold fixnum_range in O. lia.
  - cbn [acc_val acc_ok times_inv] in *. split; [exact O|].
    destruct Hp as [Hp|Hp].
    + exfalso. subst ds. destruct (normalize_pos x W) as (E3 & D3 & [L3|L3]); [lia| |].
      * rewrite L3 in O. destruct O.
      * destruct (wf_snoc_inv _ O) as (lo & t & E4 & Dl & T).
        rewrite E4 in L3, E3. rewrite last_snoc in L3. rewrite bigval_snoc in E3.
        pose proof (digits_bound lo Dl). pose proof (P63_pos (length lo)). nia.
    + split; [lia|]. intros Hpos. subst ds. destruct (normalize_pos x W) as (E3 & D3 & [L3|L3]); [lia| |exact L3].
      rewrite L3 in O. destruct O.
Qed.

Lemma times_fix_exact sign is s : times_inv sign (inl is) -> fixnum_range s -> is <> 0 -> s <> 0 ->
  exists st, times_fix sign is s = Some st /\ times_inv (fst st) (snd st) /\ acc_val (snd st) = is * s.
Proof.
  intros [Hi Hsg] Hs Ni Ns. unfold times_fix. unfold fixnum_range in Hi, Hs.
  destruct (Z.eqb_spec s 0); [lia|]. destruct (Z.eqb_spec is 0); [lia|]. cbn [orb]. cbv zeta.
  set (sign1 := if is <? 0 then -1 else sign).
  assert (E1 : sign1 = Z.sgn is) by (unfold sign1; destruct (Z.ltb_spec is 0); lia). clearbody sign1. subst sign1.
  set (is1 := if is <? 0 then wrap64 (- is) else is).
  assert (E1 : is1 = Z.abs is).
  { unfold is1. destruct (Z.ltb_spec is 0); [rewrite wrap64_id by (unfold in_long; lia)|]; lia. }
  clearbody is1. subst is1.
  set (s2 := if s <? 0 then wrap64 (- s) else s).
  assert (E1 : s2 = Z.abs s).
  { unfold s2. destruct (Z.ltb_spec s 0); [rewrite wrap64_id by (unfold in_long; lia)|]; lia. }
  clearbody s2. subst s2.
  set (sign2 := if s <? 0 then wrap64 (- Z.sgn is) else Z.sgn is).
  assert (E1 : sign2 = Z.sgn (is * s)).
  { unfold sign2. rewrite Z.sgn_mul. destruct (Z.ltb_spec s 0); [rewrite wrap64_id by (unfold in_long; lia)|]; lia. }
  clearbody sign2. subst sign2.
  destruct (extended_mul_exact (Z.abs is) (Z.abs s) 0) as (E & B1 & B2); [lia|lia|lia|].
  set (p := extended_mul (Z.abs is) (Z.abs s) 0) in *. clearbody p.
  rewrite <- Z.abs_mul, Z.add_0_r in E.
  assert (NZ : is * s <> 0) by nia. set (q := is * s) in *. clearbody q. clear - E B1 B2 NZ Hi Hs.
  rewrite land_neg_pow by lia.
  destruct (Z.eqb_spec (fst p) 0) as [e|e]; cbn [negb orb].
  - destruct (Z.eqb_spec (snd p - snd p mod 2 ^ 61) 0) as [f|f]; cbn [negb].
    + eexists. split; [reflexivity|]. cbn [fst snd times_inv acc_val].
      assert (snd p * Z.sgn q = q) as -> by lia. rewrite wrap64_id by (unfold in_long; lia).
      unfold fixnum_range. lia.
    + rewrite land_MASK, Z.mod_small, e by lia. eexists. split; [reflexivity|]. cbn [fst snd].
      assert (W : wf [snd p; 0]) by (cbn; unfold in_long; lia).
      assert (V : bigval [snd p; 0] = Z.abs q) by (cbn [bigval]; lia).
      destruct (normalize_pos _ W) as (E3 & D3 & L3); [lia|].
      set (nb := normalize_big [snd p; 0]) in *. clearbody nb.
      assert (Wn : wf nb) by (apply digits_wf; [assumption|intros ->; cbn [bigval] in E3; lia]).
      destruct L3 as [->|L3]; [destruct Wn|].
      destruct (complement_big_exact nb Wn) as [VC WC].
      cbn [times_inv acc_val]. destruct (Z.ltb_spec (Z.sgn q) 0); (split; [split; [assumption|]|]); lia.
  - rewrite land_MASK, Z.mod_small by lia. eexists. split; [reflexivity|]. cbn [fst snd].
    assert (W : wf [snd p; fst p]) by (cbn; unfold in_long; lia).
    assert (V : bigval [snd p; fst p] = Z.abs q) by (cbn [bigval]; lia).
    destruct (normalize_pos _ W) as (E3 & D3 & L3); [lia|].
    set (nb := normalize_big [snd p; fst p]) in *. clearbody nb.
    assert (Wn : wf nb) by (apply digits_wf; [assumption|intros ->; cbn [bigval] in E3; lia]).
    destruct L3 as [->|L3]; [destruct Wn|].
    destruct (complement_big_exact nb Wn) as [VC WC].
    cbn [times_inv acc_val]. destruct (Z.ltb_spec (Z.sgn q) 0); (split; [split; [assumption|]|]); lia.
Qed.

(** every partial product is safe for the next negative factor *)
Fixpoint partials_safe (p : Z) (args : list intobj) : Prop :=
  match args with
  | [] => True
  | a :: l => (value a < 0 -> ~ min_top p) /\ partials_safe (p * value a) l
  end.

Lemma times_inv_obj sign acc : times_inv sign acc -> value (acc_obj acc) = acc_val acc /\ regular (acc_obj acc).
Proof. intros H. apply acc_obj_spec. destruct acc; cbn in *; tauto. Qed.

(** what products look like: good first factors for the next multiplication *)
Definition tsafe (o : intobj) : Prop :=
  match o with
  | Imm w => regular o
  | Big b => wf b /\ 2 ^ 61 <= Z.abs (bigval b) /\ (0 < bigval b -> 0 < last b 0)
  end.

Lemma tsafe_regular o : tsafe o -> regular o.
Proof. destruct o; cbn [tsafe]; [auto|intros (W & _); exact W]. Qed.

Lemma makeint_tsafe v : fixnum_range v -> tsafe (makeint v).
Proof. intros F. destruct (makeint_fix_regular v F) as [_ R]. rewrite makeint_fix in * by assumption. exact R. Qed.

Lemma times_inv_tsafe sign acc : times_inv sign acc -> tsafe (acc_obj acc).
Proof.
  destruct acc as [is|b]; cbn [times_inv acc_obj].
  - intros [F _]. apply makeint_tsafe, F.
  - intros H. exact H.
Qed.

Lemma times_loop_tsafe args : Forall (fun o => regular o /\ isint o = true) args ->
  forall sign acc, times_inv sign acc -> partials_safe (acc_val acc) args ->
  exists r, times_loop sign acc args = Ok r /\ value r = acc_val acc * prod args /\ tsafe r.
Proof.
  induction 1 as [|a l [Ha Ia] Hl IH]; intros sign acc Hinv Hs.
  - exists (acc_obj acc). split; [reflexivity|]. destruct (times_inv_obj _ _ Hinv) as [V _].
    pose proof (times_inv_tsafe _ _ Hinv) as R.
    cbn [prod fold_right]. split; [lia|assumption].
  - destruct a as [w|]; [|discriminate]. destruct (intval_imm w Ha) as [Ei Hv].
    change (prod (Imm w :: l)) with (value (Imm w) * prod l).
    destruct Hs as [Hs1 Hs2]. set (v := value (Imm w)) in *. clearbody v.
    destruct acc as [is|b]; cbn [times_loop]; rewrite Ei.
    + cbn [acc_val] in *. destruct (Z.eq_dec is 0) as [->|Ni]; [|destruct (Z.eq_dec v 0) as [->|Nv]].
      * exists (makeint 0). unfold times_fix. rewrite Z.eqb_refl, orb_true_r. split; [reflexivity|].
        destruct (makeint_fix_regular 0) as [V _]; [unfold fixnum_range; lia|]. split; [lia|].
        apply makeint_tsafe; unfold fixnum_range; lia.
      * exists (makeint 0). unfold times_fix. rewrite Z.eqb_refl. cbn [orb]. split; [reflexivity|].
        destruct (makeint_fix_regular 0) as [V _]; [unfold fixnum_range; lia|]. split; [lia|].
        apply makeint_tsafe; unfold fixnum_range; lia.
      * destruct (times_fix_exact sign is v Hinv Hv Ni Nv) as (st & -> & Hinv2 & V2).
        rewrite <- V2 in Hs2. destruct (IH (fst st) (snd st) Hinv2 Hs2) as (r & Er & Vr & Rr).
        exists r. split; [exact Er|]. split; [|exact Rr]. rewrite Vr, V2. ring.
    + destruct Hinv as (W & Hb & Ht). cbn [acc_val] in *. cbv zeta.
      destruct (big_mul_int_exact v b) as [V2 W2].
      { unfold fixnum_range in Hv. lia. } { assumption. } { assumption. }
      { intros Hn He. apply (Hs1 Hn). apply min_top_last; assumption. }
      destruct (to_acc_times (snd (big_mul_int v b)) _ (v * bigval b) W2 V2) as [Hinv2 V3].
      { destruct (Z.eq_dec v 0); [left; lia|right]. rewrite Z.abs_mul. nia. }
      rewrite <- (Z.mul_comm v), <- V3 in Hs2.
      destruct (IH _ _ Hinv2 Hs2) as (r & Er & Vr & Rr).
      exists r. split; [exact Er|]. split; [|exact Rr]. rewrite Vr, V3. ring.
Qed.

Lemma times_loop_exact args : Forall (fun o => regular o /\ isint o = true) args ->
  forall sign acc, times_inv sign acc -> partials_safe (acc_val acc) args ->
  exists r, times_loop sign acc args = Ok r /\ value r = acc_val acc * prod args /\ regular r.
Proof.
  intros H sign acc Hi Hs. destruct (times_loop_tsafe args H sign acc Hi Hs) as (r & E & V & T).
  exists r. split; [exact E|]. split; [exact V|apply tsafe_regular, T].
Qed.

Theorem TIMES_tsafe a args : tsafe a -> Forall (fun o => regular o /\ isint o = true) args ->
  partials_safe (value a) args ->
  exists r, TIMES (a :: args) = Ok r /\ value r = value a * prod args /\ tsafe r.
Proof.
  intros Ha Hl Hs. destruct a as [w|ds]; cbn [TIMES].
  - destruct (intval_imm w Ha) as [Ei Hv]. rewrite Ei.
    apply (times_loop_tsafe args Hl 1 (inl (value (Imm w)))); [|exact Hs]. split; [exact Hv|reflexivity].
  - apply (times_loop_tsafe args Hl 1 (inr ds)); [exact Ha|exact Hs].
Qed.

(** the top word of a canonical bignum carries its sign and is not zero *)
Lemma canonical_top ds : canonical (Big ds) -> 0 < bigval ds -> 0 < last ds 0.
Proof.
  intros (W & F & M) Hp. destruct (wf_snoc_inv ds W) as (lo & t & -> & D & T). rewrite last_snoc.
  rewrite bigval_snoc in *. rewrite app_length in M. cbn [length] in M.
  pose proof (digits_bound lo D) as B. pose proof (P63_pos (length lo)) as PP.
  destruct (Z.le_gt_cases t 0) as [Hle|]; [|lia]. exfalso.
  assert (t = 0) by nia. subst t. rewrite Z.mul_0_r, Z.add_0_r in *.
  destruct lo as [|a lo]; [cbn in *; lia|].
  apply M; [cbn [length]; lia|].
  replace (Z.of_nat (length (a :: lo) + 1) - 1) with (Z.of_nat (length (a :: lo))) by lia. lia.
Qed.

Theorem TIMES_exact a args : canonical a -> Forall (fun o => regular o /\ isint o = true) args ->
  partials_safe (value a) args ->
  exists r, TIMES (a :: args) = Ok r /\ value r = value a * prod args /\ regular r.
Proof.
  intros Ha Hl Hs. destruct a as [w|ds]; cbn [TIMES].
  - destruct (intval_imm w (canonical_regular _ Ha)) as [Ei Hv]. rewrite Ei.
    apply (times_loop_exact args Hl 1 (inl (value (Imm w)))); [|exact Hs]. split; [exact Hv|reflexivity].
  - apply (times_loop_exact args Hl 1 (inr ds)); [|exact Hs].
    pose proof (canonical_top ds Ha). destruct Ha as (W & F & _). split; [exact W|].
    unfold fixnum_range in F. split; [lia|assumption].
Qed.

(** fixnum first, bignum second, then fixnums *)
Theorem TIMES_exact_fb w ds args : regular (Imm w) -> canonical (Big ds) ->
  Forall (fun o => regular o /\ isint o = true) args ->
  (value (Imm w) < 0 -> ~ min_top (bigval ds)) ->
  partials_safe (value (Imm w) * bigval ds) args ->
  exists r, TIMES (Imm w :: Big ds :: args) = Ok r /\
    value r = value (Imm w) * bigval ds * prod args /\ regular r.
Proof.
  intros Hw Hd Hl H1 Hs. cbn [TIMES times_loop]. destruct (intval_imm w Hw) as [Ei Hv]. rewrite Ei.
  set (v := value (Imm w)) in *. clearbody v. cbv zeta.
  pose proof (canonical_top ds Hd) as Ht. destruct Hd as (W & F & _).
  destruct (big_mul_int_exact v ds) as [V2 W2].
  { unfold fixnum_range in Hv. lia. } { assumption. } { assumption. }
  { intros Hn He. apply (H1 Hn). apply min_top_last; assumption. }
  destruct (to_acc_times (snd (big_mul_int v ds)) _ (v * bigval ds) W2 V2) as [Hinv2 V3].
  { unfold fixnum_range in F. destruct (Z.eq_dec v 0); [left; lia|right]. rewrite Z.abs_mul. nia. }
  rewrite <- V3 in *. apply times_loop_exact; assumption.
Qed.

(** * QUOTIENT *)

Lemma quo_fix_exact args : Forall (fun o => regular o /\ isint o = true /\ value o <> 0) args ->
  forall is, - 2 ^ 61 <= is <= 2 ^ 61 ->
  exists r, quo_fix is args = Ok r /\ value r = fold_left (fun q o => Z.quot q (value o)) args is.
Proof.
  induction 1 as [|a l (Ha & Ia & Na) Hl IH]; intros is Hi.
  - exists (makeint is). split; [reflexivity|]. destruct (makeint_exact is) as [V _]; [unfold in_long; lia|exact V].
  - destruct a as [w|]; [|discriminate]. destruct (intval_imm w Ha) as [Ei Hv]. cbn [quo_fix fold_left].
    rewrite Ei. destruct (Z.eqb_spec (value (Imm w)) 0); [lia|].
    set (v := value (Imm w)) in *. clearbody v.
    assert (B : - 2 ^ 61 <= Z.quot is v <= 2 ^ 61).
    { assert (Z.abs (Z.quot is v) <= Z.abs is); [|lia].
      rewrite <- Z.quot_abs by assumption.
      apply Z.quot_le_upper_bound; nia. }
    rewrite wrap64_id by (unfold in_long; lia). apply IH, B.
Qed.

Lemma quot_sign s v d : (s = 1 \/ s = -1) -> 0 <= v -> d <> 0 ->
  Z.quot (s * v) d = (if d <? 0 then - s else s) * (v / Z.abs d).
Proof.
  intros Hs Hv Hd. destruct (Z.ltb_spec d 0).
  - replace d with (- Z.abs d) at 1 by lia. rewrite Z.quot_opp_r by lia.
    destruct Hs as [-> | ->].
    + rewrite Z.mul_1_l, Z.quot_div_nonneg by lia. lia.
    + replace (-1 * v) with (- v) by lia. rewrite Z.quot_opp_l, Z.quot_div_nonneg by lia. lia.
  - replace d with (Z.abs d) at 1 by lia. destruct Hs as [-> | ->].
    + rewrite Z.mul_1_l, Z.quot_div_nonneg by lia. lia.
    + replace (-1 * v) with (- v) by lia. rewrite Z.quot_opp_l, Z.quot_div_nonneg by lia. lia.
Qed.

Lemma quo_big_exact args : Forall (fun o => regular o /\ isint o = true /\ value o <> 0) args ->
  forall s rs, (s = 1 \/ s = -1) -> wf rs -> 0 <= bigval rs ->
  exists r, quo_big s rs args = Ok r /\ regular r /\
    value r = fold_left (fun q o => Z.quot q (value o)) args (s * bigval rs).
Proof.
  induction 1 as [|a l (Ha & Ia & Na) Hl IH]; intros s rs Hs W Hv.
  - eexists. split; [reflexivity|]. cbn [fold_left].
    destruct (complement_big_exact rs W) as [VC WC].
    destruct (Z.ltb_spec s 0).
    + destruct (normalize_bignum_spec _ WC) as (V & R & _). split; [exact R|]. rewrite V. lia.
    + destruct (normalize_bignum_spec _ W) as (V & R & _). split; [exact R|]. rewrite V. lia.
  - destruct a as [w|]; [|discriminate]. destruct (intval_imm w Ha) as [Ei Hw]. cbn [quo_big fold_left].
    rewrite Ei. cbv zeta. destruct (Z.eqb_spec (value (Imm w)) 0); [lia|].
    set (v := value (Imm w)) in *. clearbody v. unfold fixnum_range in Hw.
    rewrite quot_sign by assumption.
    assert (Ea : (if v <? 0 then wrap64 (- v) else v) = Z.abs v).
    { destruct (Z.ltb_spec v 0); [rewrite wrap64_id by (unfold in_long; lia)|]; lia. }
    rewrite Ea. destruct (div_int_big_exact (Z.abs v) rs) as (E & B & W2 & P2); [lia|assumption|assumption|].
    assert (EQ : bigval rs / Z.abs v = bigval (fst (div_int_big (Z.abs v) rs))).
    { symmetry. apply Z.div_unique with (r := snd (div_int_big (Z.abs v) rs)); lia. }
    rewrite EQ. apply IH; [destruct (v <? 0); lia|assumption|assumption].
Qed.

Theorem QUOTIENT_exact a b args : regular a ->
  Forall (fun o => regular o /\ isint o = true /\ value o <> 0) (b :: args) ->
  exists r, QUOTIENT (a :: b :: args) = Ok r /\
    value r = fold_left (fun q o => Z.quot q (value o)) (b :: args) (value a).
Proof.
  intros Ha Hl. destruct a as [w|ds]; cbn [QUOTIENT].
  - destruct (intval_imm w Ha) as [Ei Hw]. rewrite Ei. apply quo_fix_exact; [assumption|].
    unfold fixnum_range in Hw. lia.
  - unfold big_sign. pose proof (top_sign ds Ha) as TS. destruct (Z.ltb_spec (last ds 0) 0).
    + destruct (complement_big_exact ds Ha) as [VC WC].
      destruct (quo_big_exact (b :: args) Hl (-1) (complement_big ds)) as (r & E & R & V); [lia|assumption|lia|].
      exists r. split; [exact E|]. rewrite V, VC. f_equal. cbn [value]. lia.
    + destruct (quo_big_exact (b :: args) Hl 1 ds) as (r & E & R & V); [lia|assumption|lia|].
      exists r. split; [exact E|]. rewrite V. f_equal. cbn [value]. lia.
Qed.

(** * Comparison *)

Lemma cmp_down_pos_spec x y : digits x -> digits y -> length x = length y ->
  cmp_down_pos (rev x) (rev y) = match bigval x ?= bigval y with Lt => -1 | Eq => 0 | Gt => 1 end.
Proof.
  revert y. induction x as [|a x IH] using rev_ind; intros y Dx Dy L.
  - destruct y; [reflexivity|discriminate].
  - destruct (exists_last (l := y)) as (y' & b & ->).
    { intros ->. rewrite app_length in L. cbn in L. lia. }
    apply Forall_app in Dx, Dy. destruct Dx as [Dx Da], Dy as [Dy Db]. inversion Da; inversion Db; subst.
    rewrite !app_length in L. cbn [length] in L. assert (L' : length x = length y') by lia.
    rewrite !rev_unit. cbn [cmp_down_pos]. rewrite !bigval_snoc, <- L', IH by assumption.
    pose proof (digits_bound x Dx) as Bx. pose proof (digits_bound y' Dy) as By. rewrite <- L' in By.
    set (P := P63 (length x)) in *. clearbody P.
    destruct (Z.gtb_spec a b); [|destruct (Z.ltb_spec a b)].
    + destruct (Z.compare_spec (bigval x + P * a) (bigval y' + P * b)); [nia|nia|reflexivity].
    + destruct (Z.compare_spec (bigval x + P * a) (bigval y' + P * b)); [nia|reflexivity|nia].
    + assert (a = b) by lia. subst b.
      destruct (Z.compare_spec (bigval x) (bigval y'));
      destruct (Z.compare_spec (bigval x + P * a) (bigval y' + P * a)); lia.
Qed.

(** magnitude of canonical bignums of different lengths *)
Lemma canonical_len x y : canonical (Big x) -> canonical (Big y) -> (length x < length y)%nat ->
  (0 <= bigval y -> bigval x < bigval y) /\ (bigval y < 0 -> bigval y < bigval x).
Proof.
  intros (Wx & _ & _) (Wy & _ & My) L.
  destruct (wf_snoc_inv x Wx) as (lo & t & -> & D & T). rewrite bigval_snoc.
  pose proof (digits_bound lo D) as B. pose proof (P63_pos (length lo)) as PP.
  rewrite app_length in L. cbn [length] in L.
  assert (My' : ~ (- P63 (S (length lo)) <= bigval y < P63 (S (length lo)))).
  { intros H. apply My; [lia|].
    assert (P63 (S (length lo)) <= 2 ^ (63 * (Z.of_nat (length y) - 1))) by (apply Z.pow_le_mono_r; lia). lia. }
  rewrite P63_S in My'. unfold in_long in T. nia.
Qed.

Theorem big_compare_spec x y : canonical (Big x) -> canonical (Big y) ->
  (0 <= bigval x \/ 0 <= bigval y \/ length x <> length y \/ last x 0 <> last y 0 \/ length x = 1%nat) ->
  big_compare x y = match bigval x ?= bigval y with Lt => -1 | Eq => 0 | Gt => 1 end.
Proof.
  intros Cx Cy H. unfold big_compare.
  assert (Wx : wf x) by apply Cx. assert (Wy : wf y) by apply Cy.
  pose proof (top_sign x Wx) as Sx. pose proof (top_sign y Wy) as Sy.
  destruct (Z.ltb_spec (last x 0) 0), (Z.geb_spec (last y 0) 0); cbn [andb].
  - destruct (Z.compare_spec (bigval x) (bigval y)); lia.
  - destruct (Z.geb_spec (last x 0) 0); [lia|]. cbn [andb].
    destruct (Nat.ltb_spec (length y) (length x)).
    { destruct (canonical_len y x Cy Cx ltac:(assumption)).
      destruct (Z.compare_spec (bigval x) (bigval y)); lia. }
    destruct (Nat.ltb_spec (length x) (length y)).
    { destruct (canonical_len x y Cx Cy ltac:(assumption)).
      destruct (Z.compare_spec (bigval x) (bigval y)); lia. }
    destruct (wf_snoc_inv x Wx) as (lx & tx & -> & Dx & Tx).
    destruct (wf_snoc_inv y Wy) as (ly & ty & -> & Dy & Ty).
    rewrite !last_snoc in *. rewrite !app_length in *. cbn [length] in *. rewrite !bigval_snoc in *.
    assert (L : length lx = length ly) by lia.
    pose proof (digits_bound lx Dx) as Bx. pose proof (digits_bound ly Dy) as By. rewrite <- L in *.
    set (P := P63 (length lx)) in *. assert (PP : 0 < P) by apply P63_pos. 
    destruct (Z.ltb_spec tx ty).
    { destruct (Z.compare_spec (bigval lx + P * tx) (bigval ly + P * ty)); nia. }
    destruct (Z.gtb_spec tx ty).
    { destruct (Z.compare_spec (bigval lx + P * tx) (bigval ly + P * ty)); nia. }
    assert (tx = ty) by lia. subst ty.
    assert (length lx = 0%nat) by lia. destruct lx; [|discriminate]. destruct ly; [|discriminate].
    cbn. rewrite Z.compare_refl. reflexivity.
  - destruct (Z.geb_spec (last x 0) 0); [|lia]. destruct (Z.ltb_spec (last y 0) 0); [lia|]. cbn [andb].
    destruct (Nat.ltb_spec (length y) (length x)).
    { destruct (canonical_len y x Cy Cx ltac:(assumption)).
      destruct (Z.compare_spec (bigval x) (bigval y)); lia. }
    destruct (Nat.ltb_spec (length x) (length y)).
    { destruct (canonical_len x y Cx Cy ltac:(assumption)).
      destruct (Z.compare_spec (bigval x) (bigval y)); lia. }
    apply cmp_down_pos_spec; [apply wf_digits; [assumption|lia]|apply wf_digits; [assumption|lia]|lia].
  - destruct (Z.geb_spec (last x 0) 0); [|lia]. destruct (Z.ltb_spec (last y 0) 0); [|lia]. cbn [andb].
    destruct (Z.compare_spec (bigval x) (bigval y)); lia.
Qed.

(** the order test region where big_compare is right *)
Definition comparable (a b : intobj) : Prop :=
  match a, b with
  | Big x, Big y => 0 <= bigval x \/ 0 <= bigval y \/ length x <> length y \/ last x 0 <> last y 0 \/ length x = 1%nat
  | _, _ => True
  end.

Lemma canonical_top' ds : canonical (Big ds) -> (last ds 0 < 0 <-> bigval ds < 0) /\ last ds 0 <> 0.
Proof.
  intros C. pose proof (canonical_top ds C). destruct C as (W & F & _). pose proof (top_sign ds W).
  unfold fixnum_range in F. split; [lia|]. intros E. lia.
Qed.

Theorem compare_exact a b : canonical a -> canonical b -> comparable a b ->
  GREATERP2 a b = (value a >? value b) /\ LESSP2 a b = (value a <? value b) /\
  GREQP2 a b = (value a >=? value b) /\ LSEQP2 a b = (value a <=? value b).
Proof.
  intros Ca Cb Hc. destruct a as [wa|da], b as [wb|db]; cbn [GREATERP2 LESSP2 GREQP2 LSEQP2]; unfold big_sign.
  - destruct (fix_word wa Ca) as [_ Ea]. destruct (fix_word wb Cb) as [_ Eb].
    set (va := value (Imm wa)) in *. set (vb := value (Imm wb)) in *. clearbody va vb. lia.
  - destruct (intval_imm wa Ca) as [_ Fa]. destruct (canonical_top' db Cb) as [Tb Nb].
    destruct Cb as (W & F & _). unfold fixnum_range in *. cbn [value].
    change (if wa mod 4 =? 2 then wa / 4 else wa - 3) with (value (Imm wa)).
    set (va := value (Imm wa)) in *. clearbody va. lia.
  - destruct (intval_imm wb Cb) as [_ Fb]. destruct (canonical_top' da Ca) as [Ta Na].
    destruct Ca as (W & F & _). unfold fixnum_range in *. cbn [value].
    change (if wb mod 4 =? 2 then wb / 4 else wb - 3) with (value (Imm wb)).
    set (vb := value (Imm wb)) in *. clearbody vb. lia.
  - cbn [value]. rewrite (big_compare_spec da db Ca Cb Hc).
    destruct (Z.compare_spec (bigval da) (bigval db)); lia.
Qed.

(** numeric equality on canonical representations *)
Lemma forallb_eq x y : length x = length y ->
  forallb (fun p => fst p =? snd p) (combine x y) = true <-> x = y.
Proof.
  revert y. induction x as [|a x IH]; intros [|b y] L; cbn in *; try discriminate; [tauto|].
  rewrite andb_true_iff, IH by lia. rewrite Z.eqb_eq. split; [intros [-> ->]; reflexivity|].
  intros [= -> ->]. auto.
Qed.

Lemma wf_inj x y : wf x -> wf y -> length x = length y -> bigval x = bigval y -> x = y.
Proof.
  intros Wx. revert y. pattern x. revert x Wx. apply wf_ind'.
  - intros d Hd y Wy L E. destruct y as [|b [|c y]]; try discriminate. cbn in E. f_equal. lia.
  - intros d e r Hd We IH y Wy L E. destruct y as [|b [|c y]]; try discriminate.
    apply wf_cons in Wy; [|congruence]. destruct Wy as [Hb Wy].
    rewrite (bigval_cons d), (bigval_cons b) in E.
    assert (d = b /\ bigval (e :: r) = bigval (c :: y)) as [-> E2] by lia.
    f_equal. apply IH; [assumption|cbn in *; lia|assumption].
Qed.

Theorem numequal_exact a b : canonical a -> canonical b -> NUMEQUAL2 a b = (value a =? value b).
Proof.
  intros Ca Cb. destruct a as [wa|da], b as [wb|db]; cbn [NUMEQUAL2].
  - destruct (fix_word wa Ca) as [_ Ea]. destruct (fix_word wb Cb) as [_ Eb].
    set (va := value (Imm wa)) in *. set (vb := value (Imm wb)) in *. clearbody va vb. lia.
  - destruct (intval_imm wa Ca) as [_ Fa]. destruct Cb as (W & F & _). unfold fixnum_range in *.
    cbn [value] in *. lia.
  - destruct (intval_imm wb Cb) as [_ Fb]. destruct Ca as (W & F & _). unfold fixnum_range in *.
    cbn [value] in *. lia.
  - cbn [value]. destruct (Nat.eqb_spec (length db) (length da)) as [L|L]; cbn [negb].
    + destruct (Z.eqb_spec (bigval da) (bigval db)) as [E|E].
      * apply forallb_eq; [assumption|]. apply wf_inj; [apply Cb|apply Ca|assumption|lia].
      * destruct (forallb _ _) eqn:G; [|reflexivity]. apply forallb_eq in G; [subst; lia|assumption].
    + destruct (Z.eqb_spec (bigval da) (bigval db)) as [E|E]; [|reflexivity]. exfalso.
      destruct (Nat.lt_total (length da) (length db)) as [H|[H|H]]; [|lia|].
      * destruct (canonical_len da db Ca Cb H). lia.
      * destruct (canonical_len db da Cb Ca H). lia.
Qed.

(** canonical objects with the same value are the same object *)
Theorem canonical_unique a b : canonical a -> canonical b -> value a = value b -> a = b.
Proof.
  intros Ca Cb E. destruct a as [wa|da], b as [wb|db].
  - destruct (fix_word wa Ca). destruct (fix_word wb Cb). f_equal. lia.
  - pose proof (numequal_exact _ _ Ca Cb) as H. cbn [NUMEQUAL2] in H. lia.
  - pose proof (numequal_exact _ _ Ca Cb) as H. cbn [NUMEQUAL2] in H. lia.
  - pose proof (numequal_exact _ _ Ca Cb) as H. cbn [NUMEQUAL2] in H. rewrite E, Z.eqb_refl in H.
    destruct (Nat.eqb_spec (length db) (length da)); cbn [negb] in H; [|discriminate].
    apply forallb_eq in H; congruence.
Qed.

(** * Statements used by BigProperties *)

Lemma boxing v : in_long v ->
  value (makeint v) = v /\ legal (makeint v) /\ intval (makeint v) = v /\
  match makeint v with Imm w => isint_word w = true | Big _ => True end.
Proof.
  intros Hv. destruct (makeint_exact v Hv) as [V L]. split; [exact V|]. split; [exact L|]. split.
  - rewrite <- V at 2. apply intval_exact; [exact L|rewrite V; exact Hv|].
    unfold makeint. repeat match goal with |- context [if ?b then _ else _] => destruct b end; auto.
  - destruct (makeint v) as [w|]; [|exact I]. cbn [legal] in L. unfold isint_word.
    rewrite (land_ones_mod w 2 3) by lia. change (2 ^ 2) with 4. lia.
Qed.

Lemma one_representation_refuted : exists a b r,
  canonical a /\ canonical b /\ TIMES [a; b] = Ok r /\
  exists m, canonical m /\ value r = value m /\ NUMEQUAL2 r m = false.
Proof.
  exists (makeint (- 2 ^ 30)), (makeint (2 ^ 31)), (Big [- 2 ^ 61]).
  split; [vm_compute; intuition congruence|]. split; [vm_compute; intuition congruence|].
  split; [vm_compute; reflexivity|]. exists (makeint (- 2 ^ 61)).
  split; [vm_compute; intuition congruence|]. split; vm_compute; reflexivity.
Qed.

Lemma one_representation_partial :
  (forall a b, canonical a -> canonical b -> NUMEQUAL2 a b = (value a =? value b)) /\
  (forall a b, canonical a -> canonical b -> value a = value b -> a = b) /\
  (forall ds, wf ds -> 0 <= bigval ds ->
     canonical (normalize_bignum (Big ds)) /\ value (normalize_bignum (Big ds)) = bigval ds).
Proof.
  split; [exact numequal_exact|]. split; [exact canonical_unique|]. intros ds W H.
  split; [apply normalize_bignum_canonical_pos; assumption|]. apply (normalize_bignum_spec ds W).
Qed.

Lemma normalize_negative_refuted : exists ds, wf ds /\ fixnum_range (bigval ds) /\
  ~ canonical (normalize_bignum (Big ds)).
Proof.
  exists [MASK; MASK; -1]. split; [vm_compute; intuition congruence|].
  split; [vm_compute; intuition congruence|]. intros (_ & H & _). apply H. vm_compute. intuition congruence.
Qed.

Lemma add_sub_int_big ds c : wf ds -> 0 <= c < 2 ^ 63 ->
  bigval (add_int_big c ds) = bigval ds + c /\ wf (add_int_big c ds) /\
  bigval (sub_int_big c ds) = bigval ds - c /\ wf (sub_int_big c ds).
Proof.
  intros W H. destruct (add_int_big_exact ds W c H). destruct (sub_int_big_exact ds W c H). auto.
Qed.

Lemma negation ds : wf ds ->
  bigval (big_minus ds) = - bigval ds /\ wf (big_minus ds) /\
  bigval (big_minus (big_minus ds)) = bigval ds.
Proof.
  intros W. destruct (complement_big_exact ds W) as [V W']. fold (big_minus ds) in V, W'.
  destruct (complement_big_exact _ W') as [V2 _]. fold (big_minus (big_minus ds)) in V2.
  split; [assumption|]. split; [assumption|lia].
Qed.

Lemma double_word d q r : 0 <= d < 2 ^ 63 -> 0 <= q < 2 ^ 63 -> 0 <= r < 2 ^ 63 ->
  (let '(hi, lo) := extended_mul d q r in
   hi * 2 ^ 63 + lo = d * q + r /\ 0 <= lo < 2 ^ 63 /\ 0 <= hi < 2 ^ 63) /\
  (q < d -> let '(quo, rem) := extended_div d q r in
   quo = (q * 2 ^ 63 + r) / d /\ rem = (q * 2 ^ 63 + r) mod d).
Proof.
  intros Hd Hq Hr. split.
  - pose proof (extended_mul_exact d q r Hd Hq Hr) as H. destruct (extended_mul d q r). exact H.
  - intros L. pose proof (extended_div_exact d q r ltac:(lia) ltac:(lia) Hr) as (E & B & _).
    destruct (extended_div d q r) as [a b]. cbn [fst snd] in *. split.
    + apply Z.div_unique with (r := b); lia.
    + apply Z.mod_unique with (q := a); lia.
Qed.

Lemma div_int_big_floor c ds : 0 < c < 2 ^ 63 -> wf ds -> 0 <= bigval ds ->
  bigval (fst (div_int_big c ds)) = bigval ds / c /\ snd (div_int_big c ds) = bigval ds mod c /\
  wf (fst (div_int_big c ds)).
Proof.
  intros Hc W H. destruct (div_int_big_exact c ds Hc W H) as (E & B & W2 & _).
  split; [apply Z.div_unique with (r := snd (div_int_big c ds)); lia|]. split; [|assumption].
  apply Z.mod_unique with (q := bigval (fst (div_int_big c ds))); lia.
Qed.

Lemma plus_refuted : exists args, Forall canonical args /\ PLUS args = UB.
Proof.
  exists [Big [2 ^ 61]; Big [- 2 ^ 61 - 1]; makeint 5].
  split; [|vm_compute; reflexivity].
  repeat constructor; vm_compute; intuition congruence.
Qed.

Lemma big_times_refuted : exists x y r, wf x /\ wf y /\ 0 <= bigval x /\ 0 <= bigval y /\
  big_times x y = Some r /\ bigval r <> bigval x * bigval y.
Proof.
  exists [2 ^ 62], [2 ^ 62], [0; 0]. repeat split; vm_compute; congruence.
Qed.

Lemma big_times_partial :
  (forall x y, Forall (fun d => 0 <= d < 2 ^ 31) x -> digits y ->
     exists r, big_times x y = Some r /\ bigval r = bigval x * bigval y /\ digits r) /\
  (forall x y, digits x -> digits y ->
     exists r, big_times_with (fun d => d) x y = Some r /\ bigval r = bigval x * bigval y /\ digits r).
Proof.
  split; intros x y Hx Hy.
  - destruct (big_times_with_exact wrap32 x y) as (z & E & V & D & _); [|assumption|exists z; auto].
    eapply Forall_impl; [|exact Hx]. intros d Hd. cbv beta in Hd. split; [lia|apply wrap32_id; lia].
  - destruct (big_times_with_exact (fun d => d) x y) as (z & E & V & D & _); [|assumption|exists z; auto].
    eapply Forall_impl; [|exact Hx]. intros d Hd. split; [assumption|reflexivity].
Qed.

Lemma compare_refuted : exists a b, canonical a /\ canonical b /\
  value a < value b /\ LESSP2 a b = false /\ GREATERP2 a b = true.
Proof.
  exists (Big [0; -2]), (Big [1; -2]). repeat split; vm_compute; intuition congruence.
Qed.

Lemma times_sign_refuted : exists a b r, canonical a /\ canonical b /\ isint b = true /\
  TIMES [a; b] = Ok r /\ value r <> value a * value b.
Proof.
  exists (Big [- 2 ^ 63]), (makeint (-1)), (Big [- 2 ^ 63]).
  repeat split; vm_compute; intuition congruence.
Qed.

Lemma times_bigbig_refuted : exists a b r, canonical a /\ canonical b /\
  TIMES [a; b] = Ok r /\ value r = - (value a * value b) /\ value r <> 0.
Proof.
  exists (Big [0; 1]), (Big [0; -2]), (Big [0; 0; 2]).
  repeat split; vm_compute; intuition congruence.
Qed.

Lemma times_ex_hyp : partials_safe (-3) [makeint (2 ^ 60); makeint (-5)].
Proof.
  cbn [partials_safe]. split; [|split; [|exact I]].
  - intros H. vm_compute in H. discriminate.
  - intros _ [n H]. replace (-3 * value (makeint (2 ^ 60))) with (-3 * 2 ^ 60) in H by (vm_compute; reflexivity).
    destruct n as [|n].
    + change (P63 1) with (2 ^ 63) in H. change (P63 0) with 1 in H. lia.
    + rewrite (P63_S (S n)), (P63_S n) in H. pose proof (P63_pos n). lia.
Qed.

Lemma quotient_refuted : exists a b r, canonical a /\ canonical b /\ value b <> 0 /\
  QUOTIENT [a; b] = Ok r /\ value r <> Z.quot (value a) (value b).
Proof.
  exists (makeint (- 2 ^ 61)), (Big [2 ^ 61]), (makeint 0).
  repeat split; vm_compute; intuition congruence.
Qed.

Lemma succ_pred_abs a : regular a ->
  value (ADD1 a) = value a + 1 /\ value (SUB1 a) = value a - 1 /\ value (ABS a) = Z.abs (value a) /\
  regular (ADD1 a) /\ regular (SUB1 a) /\ regular (ABS a).
Proof.
  intros H. destruct (ADD1_exact a H). destruct (SUB1_exact a H). destruct (ABS_exact a H). auto.
  repeat split; assumption.
Qed.
