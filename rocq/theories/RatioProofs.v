(** Ratios: exactness of the four operations, equality, printing and reading. *)
From Coq Require Import QArith Qreduction Znumtheory.
From Verif Require Import Word BigModel BigProofs BigProofs2 BigProofs3 IntTextModel IntTextProofs RatioModel.
Open Scope Z_scope.

(** * Specification *)

(** The rational number an argument stands for. *)
Definition value (a : num) : Q :=
  match a with
  | Fix z => inject_Z z
  | Rat n d => n # Z.to_pos d
  end.

(** Fixnums, and fractions in lowest terms whose parts fit in 32 bits. *)
Definition canonical (a : num) : Prop :=
  match a with
  | Fix z => - 2 ^ 61 <= z < 2 ^ 61
  | Rat n d => Z.abs n < 2 ^ 31 /\ 2 <= d < 2 ^ 31 /\ Z.gcd n d = 1
  end.

(** A rational number whose numerator and denominator, in lowest terms, are below 2^31. *)
Definition small (q : Q) : Prop :=
  Z.abs (Qnum (Qred q)) < 2 ^ 31 /\ Z.pos (Qden (Qred q)) < 2 ^ 31.

(** The numerators over the least common denominator add up to less than 2^31. *)
Definition sum_small (p q : Q) : Prop :=
  let a := Qred p in
  let b := Qred q in
  let l := Z.lcm (Z.pos (Qden a)) (Z.pos (Qden b)) in
  l < 2 ^ 31 /\ Z.abs (Qnum a * (l / Z.pos (Qden a)) + Qnum b * (l / Z.pos (Qden b))) < 2 ^ 31.

(** Every step of a chain of operations from [q] on stays small. *)
Fixpoint chain (op : Q -> Q -> Q) (ok : Q -> Q -> Prop) (q : Q) (l : list num) : Prop :=
  match l with
  | [] => True
  | a :: r => small (value a) /\ ok q (value a) /\ chain op ok (op q (value a)) r
  end.

Definition total (op : Q -> Q -> Q) (q : Q) (l : list num) : Q := fold_left (fun q a => op q (value a)) l q.

(** * gcd *)

Lemma wrap32_id z : - 2 ^ 31 <= z < 2 ^ 31 -> wrap32 z = z.
Proof. intros H. unfold wrap32. rewrite Z.mod_small; lia. Qed.

Lemma gcd_loop_ok : forall k fuel u v, 0 <= v <= u -> v < 2 ^ Z.of_nat k -> (2 * k < fuel)%nat ->
  gcd_loop fuel u v = Z.gcd u v.
Proof.
  induction k as [|k IH]; intros fuel u v H B F.
  - change (2 ^ Z.of_nat 0) with 1 in B. assert (v = 0) by lia. subst v.
    destruct fuel as [|f]; [lia|]. cbn [gcd_loop Z.eqb]. rewrite Z.gcd_0_r. lia.
  - destruct fuel as [|[|[|f]]]; [lia|lia|lia|]. cbn [gcd_loop].
    destruct (Z.eqb_spec v 0) as [->|Nv]; [rewrite Z.gcd_0_r; lia|].
    rewrite Z.rem_mod_nonneg by lia. pose proof (Z.mod_pos_bound u v ltac:(lia)) as M.
    assert (G1 : Z.gcd v (u mod v) = Z.gcd u v) by (rewrite (Z.gcd_comm v), Z.gcd_mod by lia; apply Z.gcd_comm).
    destruct (Z.eqb_spec (u mod v) 0) as [E0|N0].
    + rewrite <- G1, E0, Z.gcd_0_r. lia.
    + rewrite Z.rem_mod_nonneg by lia. set (w := u mod v) in *.
      pose proof (Z.mod_pos_bound v w ltac:(lia)) as M2.
      assert (2 * (v mod w) < v).
      { pose proof (Z.div_mod v w ltac:(lia)). assert (1 <= v / w) by (apply Z.div_le_lower_bound; lia). nia. }
      rewrite Nat2Z.inj_succ, Z.pow_succ_r in B by lia.
      change (if v mod w =? 0 then w else gcd_loop f (v mod w) (Z.rem w (v mod w))) with (gcd_loop (S f) w (v mod w)).
      rewrite IH; [|lia|lia|lia]. rewrite (Z.gcd_comm w), Z.gcd_mod by lia. rewrite <- G1. apply Z.gcd_comm.
Qed.

Lemma gcd_ok u v : Z.abs u < 2 ^ 31 -> Z.abs v < 2 ^ 31 -> gcd u v = Val (Z.gcd u v).
Proof.
  intros Hu Hv. unfold gcd. rewrite !wrap32_id by lia.
  destruct (Z.eqb_spec u (- 2 ^ 31)); [lia|]. destruct (Z.eqb_spec v (- 2 ^ 31)); [lia|]. cbn [orb]. cbv zeta.
  assert (A : forall z, (if z <? 0 then - z else z) = Z.abs z) by (intros z; destruct (Z.ltb_spec z 0); lia).
  rewrite !A. f_equal. rewrite <- (Z.gcd_abs_l u), <- (Z.gcd_abs_r _ v).
  destruct (Z.ltb_spec (Z.abs u) (Z.abs v)).
  - rewrite (gcd_loop_ok 31); [apply Z.gcd_comm|lia|change (Z.of_nat 31) with 31; lia|lia].
  - rewrite (gcd_loop_ok 31); [reflexivity|lia|change (Z.of_nat 31) with 31; lia|lia].
Qed.

Lemma quot_ok a b : b <> 0 -> quot a b = Val (Z.quot a b).
Proof. intros H. unfold quot. destruct (Z.eqb_spec b 0); [contradiction|reflexivity]. Qed.

Lemma quot_mul a b : b <> 0 -> Z.quot (a * b) b = a.
Proof. intros H. apply Z.quot_mul. assumption. Qed.

(** * Fractions in lowest terms *)

Definition red (n d : Z) : Prop := Z.abs n < 2 ^ 31 /\ 0 < d < 2 ^ 31 /\ Z.gcd n d = 1.

Lemma lowest_unique n d m e : 0 < d -> 0 < e -> Z.gcd n d = 1 -> Z.gcd m e = 1 -> n * e = m * d -> n = m /\ d = e.
Proof.
  intros Hd He G1 G2 E.
  assert (D1 : (d | e)).
  { apply (Z.gauss d n e); [exists m; lia|rewrite Z.gcd_comm; exact G1]. }
  assert (D2 : (e | d)).
  { apply (Z.gauss e m d); [exists n; lia|rewrite Z.gcd_comm; exact G2]. }
  assert (d = e) by (apply Z.divide_antisym_nonneg; lia || assumption). subst e. split; [|reflexivity].
  apply (Z.mul_reg_r _ _ d); lia.
Qed.

Lemma qred_gcd q : Z.gcd (Qnum (Qred q)) (Z.pos (Qden (Qred q))) = 1.
Proof.
  pose proof (Qred_complete (Qred q) q (Qred_correct q)) as E. destruct q as [a b].
  unfold Qred. pose proof (Z.ggcd_gcd a (Zpos b)) as G. pose proof (Z.ggcd_correct_divisors a (Zpos b)) as D.
  destruct (Z.ggcd a (Zpos b)) as [g [aa bb]]. cbn [fst snd] in *. destruct D as [D1 D2]. cbn [Qnum Qden].
  assert (0 < g). { pose proof (Z.gcd_nonneg a (Zpos b)). assert (g <> 0) by (intros ->; lia). lia. }
  assert (0 < bb) by nia. rewrite Z2Pos.id by assumption. rewrite D1, D2 in G.
  rewrite Z.gcd_mul_mono_l_nonneg in G by lia. pose proof (Z.gcd_nonneg aa bb). nia.
Qed.

(** A number in lowest terms is its own reduction. *)
Lemma qred_lowest q n d : 0 < d -> Z.gcd n d = 1 -> (q == n # Z.to_pos d)%Q -> Qnum (Qred q) = n /\ Z.pos (Qden (Qred q)) = d.
Proof.
  intros Hd G E. assert (C : (Qred q == n # Z.to_pos d)%Q) by (rewrite Qred_correct; exact E). unfold Qeq in C. cbn [Qnum Qden] in C.
  rewrite Z2Pos.id in C by assumption.
  apply lowest_unique; [lia|assumption|apply qred_gcd|assumption|exact C].
Qed.

Lemma red_small q n d : 0 < d -> Z.gcd n d = 1 -> (q == n # Z.to_pos d)%Q -> small q -> red n d.
Proof.
  intros Hd G E [S1 S2]. destruct (qred_lowest q n d Hd G E) as [E1 E2]. rewrite E1 in S1. rewrite E2 in S2.
  split; [assumption|]. split; [lia|assumption].
Qed.

Lemma canonical_as_ratio a : canonical a -> small (value a) ->
  red (fst (as_ratio a)) (snd (as_ratio a)) /\ (value a == fst (as_ratio a) # Z.to_pos (snd (as_ratio a)))%Q.
Proof.
  intros C S. destruct a as [z|n d]; cbn [as_ratio fst snd value] in *.
  - destruct (qred_lowest (inject_Z z) z 1) as [E1 E2]; [lia|apply Z.gcd_1_r|reflexivity|].
    unfold small in S. rewrite E1 in S. rewrite wrap32_id by lia.
    split; [|reflexivity]. split; [lia|]. split; [lia|apply Z.gcd_1_r].
  - destruct C as (C1 & C2 & C3). split; [|reflexivity]. split; [assumption|]. split; [lia|assumption].
Qed.

(** ** Sums *)

Lemma coprime_sum n1 a n2 b : Z.gcd n1 a = 1 -> Z.gcd a b = 1 -> Z.gcd (n1 * b + n2 * a) a = 1.
Proof.
  intros H1 H2. rewrite Z.gcd_comm, Z.gcd_add_mult_diag_r.
  apply Zgcd_1_rel_prime. apply rel_prime_mult; apply Zgcd_1_rel_prime; [rewrite Z.gcd_comm|]; assumption.
Qed.

Lemma gcd_factor n a g : Z.gcd n (a * g) = 1 -> Z.gcd n a = 1.
Proof.
  intros H. apply Zgcd_1_rel_prime. apply rel_prime_sym. apply (rel_prime_div (a * g)).
  - apply rel_prime_sym. apply Zgcd_1_rel_prime. assumption.
  - exists g. lia.
Qed.

Lemma gcd_split d1 d2 : 0 < d1 -> 0 < d2 -> exists a b, d1 = a * Z.gcd d1 d2 /\ d2 = b * Z.gcd d1 d2 /\ 0 < a /\ 0 < b /\
  Z.gcd a b = 1 /\ 0 < Z.gcd d1 d2.
Proof.
  intros H1 H2. set (g := Z.gcd d1 d2). assert (G : 0 < g).
  { pose proof (Z.gcd_nonneg d1 d2). assert (g <> 0); [|unfold g in *; lia].
    intros E. apply Z.gcd_eq_0_l in E. lia. }
  destruct (Z.gcd_divide_l d1 d2) as [a Ea]. destruct (Z.gcd_divide_r d1 d2) as [b Eb]. fold g in Ea, Eb.
  exists a, b. split; [assumption|]. split; [assumption|]. split; [nia|]. split; [nia|]. split; [|assumption].
  assert (E : Z.gcd (a * g) (b * g) = g) by (rewrite <- Ea, <- Eb; reflexivity).
  rewrite Z.gcd_mul_mono_r_nonneg in E by lia. pose proof (Z.gcd_nonneg a b). nia.
Qed.

(** Knuth's reduction of a sum; [s] is 1 or -1. *)
Lemma sum_core n1 d1 n2 d2 a b g s :
  d1 = a * g -> d2 = b * g -> 0 < a -> 0 < b -> 0 < g -> Z.gcd a b = 1 -> Z.gcd n1 d1 = 1 -> Z.gcd n2 d2 = 1 ->
  s = 1 \/ s = -1 ->
  let t := n1 * b + s * (n2 * a) in
  let e := Z.gcd t g in
  exists t' g', t = t' * e /\ g = g' * e /\ 0 < g' /\ 0 < e /\ Z.gcd t' (a * (b * g')) = 1 /\
                t' * (d1 * (b * g)) = (n1 * d2 + s * (n2 * d1)) * (a * (b * g')).
Proof.
  intros E1 E2 Ha Hb Hg Gab G1 G2 Hs t e.
  assert (He : 0 < e).
  { pose proof (Z.gcd_nonneg t g). assert (e <> 0); [|unfold e in *; lia].
    intros E. apply Z.gcd_eq_0_r in E. lia. }
  destruct (Z.gcd_divide_l t g) as [t' Et]. destruct (Z.gcd_divide_r t g) as [g' Eg]. fold e in Et, Eg.
  exists t', g'. split; [assumption|]. split; [assumption|].
  assert (Hg' : 0 < g') by nia. split; [assumption|]. split; [assumption|].
  assert (Ga : Z.gcd t a = 1).
  { unfold t. replace (n1 * b + s * (n2 * a)) with (n1 * b + (s * n2) * a) by ring.
    apply coprime_sum; [|assumption]. apply (gcd_factor n1 a g). rewrite <- E1. assumption. }
  assert (Gb : Z.gcd t b = 1).
  { unfold t. replace (n1 * b + s * (n2 * a)) with ((s * n2) * a + n1 * b) by ring.
    apply coprime_sum; [|rewrite Z.gcd_comm; assumption]. apply (gcd_factor (s * n2) b g). rewrite <- E2.
    destruct Hs as [-> | ->]; [rewrite Z.mul_1_l; assumption|].
    replace (-1 * n2) with (- n2) by ring. rewrite Z.gcd_opp_l. assumption. }
  assert (Gg : Z.gcd t' g' = 1).
  { assert (E : Z.gcd (t' * e) (g' * e) = e) by (rewrite <- Et, <- Eg; reflexivity).
    rewrite Z.gcd_mul_mono_r_nonneg in E by lia. pose proof (Z.gcd_nonneg t' g'). nia. }
  split.
  - apply Zgcd_1_rel_prime. apply rel_prime_mult; [|apply rel_prime_mult].
    + apply (rel_prime_div t); [apply Zgcd_1_rel_prime; assumption|exists e; lia].
    + apply (rel_prime_div t); [apply Zgcd_1_rel_prime; assumption|exists e; lia].
    + apply Zgcd_1_rel_prime. assumption.
  - assert (X : n1 * d2 + s * (n2 * d1) = t * g) by (unfold t; rewrite E1, E2; ring).
    rewrite X, E1, Et. rewrite Eg. ring.
Qed.

Lemma wrap64_small z : - 2 ^ 63 <= z < 2 ^ 63 -> wrap64 z = z.
Proof. intros H. apply wrap64_id. exact H. Qed.

Lemma mul_bound a b p q : Z.abs a < p -> Z.abs b < q -> Z.abs (a * b) < p * q.
Proof. intros Ha Hb. rewrite Z.abs_mul. pose proof (Z.abs_nonneg a). pose proof (Z.abs_nonneg b). nia. Qed.


Lemma wrap64_prod a b : Z.abs a < 2 ^ 31 -> Z.abs b < 2 ^ 31 -> wrap64 (a * b) = a * b.
Proof. clear. intros Ha Hb. apply wrap64_small. pose proof (mul_bound a b _ _ Ha Hb). lia. Qed.

Lemma le_mul a g : 0 < a -> 0 < g -> a <= a * g.
Proof. clear. nia. Qed.

Lemma mul_pos_r g' e : 0 < g' * e -> 0 < e -> 0 < g'.
Proof. clear. nia. Qed.

Lemma abs_le_mul t e : 0 < e -> Z.abs t <= Z.abs (t * e).
Proof. clear. intros H. rewrite Z.abs_mul, (Z.abs_eq e) by lia. pose proof (Z.abs_nonneg t). nia. Qed.

(** The two readings of the hypothesis [sum_small]. *)
Lemma sum_small_parts p q n1 d1 n2 d2 a b g :
  0 < d1 -> 0 < d2 -> Z.gcd n1 d1 = 1 -> Z.gcd n2 d2 = 1 -> (p == n1 # Z.to_pos d1)%Q -> (q == n2 # Z.to_pos d2)%Q ->
  d1 = a * g -> d2 = b * g -> 0 < a -> 0 < b -> 0 < g -> Z.gcd a b = 1 ->
  sum_small p q -> a * (b * g) < 2 ^ 31 /\ Z.abs (n1 * b + n2 * a) < 2 ^ 31.
Proof.
  intros H1 H2 G1 G2 Ep Eq E1 E2 Ha Hb Hg Gab S. unfold sum_small in S.
  cbv zeta in S. destruct (qred_lowest p n1 d1 H1 G1 Ep) as [P1 P2]. destruct (qred_lowest q n2 d2 H2 G2 Eq) as [Q1 Q2].
  rewrite P1, P2, Q1, Q2 in S. assert (L : Z.lcm d1 d2 = a * (b * g)).
  { unfold Z.lcm. rewrite E1, E2, Z.gcd_mul_mono_r_nonneg by lia. rewrite Gab, Z.mul_1_l.
    rewrite Z.div_mul by lia. rewrite Z.abs_eq by nia. ring. }
  rewrite L in S. destruct S as [S1 S2]. split; [assumption|].
  replace (a * (b * g) / d1) with b in S2; [|rewrite E1; replace (a * (b * g)) with (b * (a * g)) by ring; symmetry; apply Z.div_mul; nia].
  replace (a * (b * g) / d2) with a in S2; [|rewrite E2; symmetry; apply Z.div_mul; nia].
  assumption.
Qed.

Lemma frac_eq n d m e : 0 < d -> 0 < e -> n * e = m * d -> (n # Z.to_pos d == m # Z.to_pos e)%Q.
Proof. intros Hd He E. unfold Qeq. cbn [Qnum Qden]. rewrite !Z2Pos.id by assumption. exact E. Qed.

Lemma frac_sum n1 d1 n2 d2 : 0 < d1 -> 0 < d2 ->
  ((n1 # Z.to_pos d1) + (n2 # Z.to_pos d2) == (n1 * d2 + n2 * d1) # Z.to_pos (d1 * d2))%Q.
Proof.
  intros H1 H2. unfold Qplus, Qeq. cbn [Qnum Qden]. rewrite Pos2Z.inj_mul, !Z2Pos.id by nia. ring.
Qed.

Lemma ratio_plus_ok p q n1 d1 n2 d2 : red n1 d1 -> red n2 d2 ->
  (p == n1 # Z.to_pos d1)%Q -> (q == n2 # Z.to_pos d2)%Q -> sum_small p q ->
  exists n d, ratio_plus n1 d1 n2 d2 = Val (Rat n d) /\ red n d /\ (p + q == n # Z.to_pos d)%Q.
Proof.
  intros (B1 & D1 & G1) (B2 & D2 & G2) Ep Eq S.
  destruct (gcd_split d1 d2 ltac:(lia) ltac:(lia)) as (a & b & E1 & E2 & Ha & Hb & Gab & Hg).
  set (g := Z.gcd d1 d2) in *.
  destruct (sum_small_parts p q n1 d1 n2 d2 a b g) as [S1 S2]; try assumption; try lia.
  destruct (sum_core n1 d1 n2 d2 a b g 1 E1 E2 Ha Hb Hg Gab G1 G2 (or_introl eq_refl)) as (t' & g' & Et & Eg & Hg' & He & Gr & V).
  rewrite Z.mul_1_l in Et, Eg, He. set (t := n1 * b + n2 * a) in *. set (e := Z.gcd t g) in *.
  assert (R : ratio_plus n1 d1 n2 d2 = Val (Rat t' (a * (b * g'))) /\ red t' (a * (b * g'))).
  { assert (Bt : Z.abs t' < 2 ^ 31) by (pose proof (abs_le_mul t' e He) as X; rewrite <- Et in X; lia).
    assert (Bg : a * (b * g') < 2 ^ 31).
    { apply Z.le_lt_trans with (a * (b * g)); [|assumption]. assert (g' <= g) by (pose proof (le_mul g' e Hg' He); lia). apply Z.mul_le_mono_nonneg_l; [lia|]. apply Z.mul_le_mono_nonneg_l; lia. }
    assert (Bp : 0 < a * (b * g')) by (apply Z.mul_pos_pos; [assumption|apply Z.mul_pos_pos; assumption]).
    split; [|split; [assumption|split; [lia|assumption]]].
    assert (Ba : a <= d1) by (rewrite E1; apply le_mul; assumption).
    assert (Bb : b <= d2) by (rewrite E2; apply le_mul; assumption).
    unfold ratio_plus. rewrite gcd_ok by lia. cbn [bind]. fold g.
    destruct (Z.eqb_spec g 1) as [G|G].
    - assert (Xa : a = d1) by (rewrite G in E1; lia). assert (Xb : b = d2) by (rewrite G in E2; lia).
      assert (X1 : e = 1) by (unfold e; rewrite G; apply Z.gcd_1_r).
      assert (Xg : g' = 1) by (rewrite X1 in Eg; lia). assert (Xt : t' = t) by (rewrite X1 in Et; lia).
      rewrite Xg, Z.mul_1_r in *. rewrite Xt. rewrite Xa, Xb in *.
      rewrite (wrap64_prod n1 d2) by lia.
      rewrite (wrap64_prod d1 n2) by lia.
      replace (n1 * d2 + d1 * n2) with t by (unfold t; rewrite Xa, Xb; ring).
      rewrite (wrap64_small t) by lia. rewrite (wrap64_small (d1 * d2)) by lia.
      unfold makeratio. rewrite !wrap32_id by lia. reflexivity.
    - rewrite E1, E2. rewrite !quot_ok by lia. cbn [bind]. rewrite !quot_mul by lia. cbv zeta. rewrite <- E2.
      rewrite (wrap64_prod n1 b) by lia.
      rewrite (wrap64_prod n2 a) by lia.
      fold t. rewrite (wrap64_small t) by lia. rewrite gcd_ok by lia. fold e. cbn [bind].
      rewrite !quot_ok by lia. cbn [bind].
      replace (Z.quot t e) with t' by (rewrite Et; symmetry; apply quot_mul; lia).
      replace (Z.quot d2 e) with (b * g') by (rewrite E2, Eg; replace (b * (g' * e)) with (b * g' * e) by ring; symmetry; apply quot_mul; lia).
      rewrite wrap64_small by lia. unfold makeratio. rewrite !wrap32_id by lia. reflexivity. }
  destruct R as [R RR]. exists t', (a * (b * g')). split; [assumption|]. split; [assumption|].
  rewrite Ep, Eq, frac_sum by lia. apply frac_eq; [apply Z.mul_pos_pos; lia|apply RR|].
  rewrite Z.mul_1_l in V. rewrite <- V. rewrite E2. ring.
Qed.

Lemma ratio_minus_ok p q n1 d1 n2 d2 : red n1 d1 -> red n2 d2 ->
  (p == n1 # Z.to_pos d1)%Q -> (q == n2 # Z.to_pos d2)%Q -> sum_small p (- q) ->
  exists n d, ratio_minus n1 d1 n2 d2 = Val (Rat n d) /\ red n d /\ (p - q == n # Z.to_pos d)%Q.
Proof.
  intros (B1 & D1 & G1) (B2 & D2 & G2) Ep Eq S.
  destruct (gcd_split d1 d2 ltac:(lia) ltac:(lia)) as (a & b & E1 & E2 & Ha & Hb & Gab & Hg).
  set (g := Z.gcd d1 d2) in *.
  destruct (sum_small_parts p (- q) n1 d1 (- n2) d2 a b g) as [S1 S2]; try assumption; try lia.
  { rewrite Z.gcd_opp_l. assumption. }
  { rewrite Eq. reflexivity. }
  destruct (sum_core n1 d1 n2 d2 a b g (-1) E1 E2 Ha Hb Hg Gab G1 G2 (or_intror eq_refl)) as (t' & g' & Et & Eg & Hg' & He & Gr & V).
  replace (n1 * b + - n2 * a) with (n1 * b + -1 * (n2 * a)) in S2 by ring.
  set (t := n1 * b + -1 * (n2 * a)) in *. set (e := Z.gcd t g) in *.
  assert (R : ratio_minus n1 d1 n2 d2 = Val (Rat t' (a * (b * g'))) /\ red t' (a * (b * g'))).
  { assert (Bt : Z.abs t' < 2 ^ 31) by (pose proof (abs_le_mul t' e He) as X; rewrite <- Et in X; lia).
    assert (Bg : a * (b * g') < 2 ^ 31).
    { apply Z.le_lt_trans with (a * (b * g)); [|assumption]. assert (g' <= g) by (pose proof (le_mul g' e Hg' He); lia). apply Z.mul_le_mono_nonneg_l; [lia|]. apply Z.mul_le_mono_nonneg_l; lia. }
    assert (Bp : 0 < a * (b * g')) by (apply Z.mul_pos_pos; [assumption|apply Z.mul_pos_pos; assumption]).
    split; [|split; [assumption|split; [lia|assumption]]].
    assert (Ba : a <= d1) by (rewrite E1; apply le_mul; assumption).
    assert (Bb : b <= d2) by (rewrite E2; apply le_mul; assumption).
    unfold ratio_minus. rewrite gcd_ok by lia. cbn [bind]. fold g.
    destruct (Z.eqb_spec g 1) as [G|G].
    - assert (Xa : a = d1) by (rewrite G in E1; lia). assert (Xb : b = d2) by (rewrite G in E2; lia).
      assert (X1 : e = 1) by (unfold e; rewrite G; apply Z.gcd_1_r).
      assert (Xg : g' = 1) by (rewrite X1 in Eg; lia). assert (Xt : t' = t) by (rewrite X1 in Et; lia).
      rewrite Xg, Z.mul_1_r in *. rewrite Xt. rewrite Xa, Xb in *.
      rewrite (wrap64_prod n1 d2) by lia.
      rewrite (wrap64_prod d1 n2) by lia.
      replace (n1 * d2 - d1 * n2) with t by (unfold t; rewrite Xa, Xb; ring).
      rewrite (wrap64_small t) by lia. rewrite (wrap64_small (d1 * d2)) by lia.
      unfold makeratio. rewrite !wrap32_id by lia. reflexivity.
    - rewrite E1, E2. rewrite !quot_ok by lia. cbn [bind]. rewrite !quot_mul by lia. cbv zeta. rewrite <- E2.
      rewrite (wrap64_prod n1 b) by lia.
      rewrite (wrap64_prod n2 a) by lia.
      replace (n1 * b - n2 * a) with t by (unfold t; ring).
      rewrite (wrap64_small t) by lia. rewrite gcd_ok by lia. fold e. cbn [bind].
      rewrite !quot_ok by lia. cbn [bind].
      replace (Z.quot t e) with t' by (rewrite Et; symmetry; apply quot_mul; lia).
      replace (Z.quot d2 e) with (b * g') by (rewrite E2, Eg; replace (b * (g' * e)) with (b * g' * e) by ring; symmetry; apply quot_mul; lia).
      rewrite wrap64_small by lia. unfold makeratio. rewrite !wrap32_id by lia. reflexivity. }
  destruct R as [R RR]. exists t', (a * (b * g')). split; [assumption|]. split; [assumption|].
  unfold Qminus. rewrite Ep, Eq. change (- (n2 # Z.to_pos d2))%Q with (- n2 # Z.to_pos d2). rewrite frac_sum by lia.
  apply frac_eq; [apply Z.mul_pos_pos; lia|apply RR|].
  replace (n1 * d2 + - n2 * d1) with (n1 * d2 + -1 * (n2 * d1)) by ring. rewrite <- V. rewrite E2. ring.
Qed.

(** ** Products and quotients *)

Lemma cross_core n1 d1 n2 d2 e1 e2 xn yd xd yn :
  n1 = xn * e1 -> d2 = yd * e1 -> d1 = xd * e2 -> n2 = yn * e2 -> Z.gcd xn yd = 1 -> Z.gcd xd yn = 1 ->
  Z.gcd n1 d1 = 1 -> Z.gcd n2 d2 = 1 -> Z.gcd (xn * yn) (xd * yd) = 1.
Proof.
  intros E1 E2 E3 E4 Ga Gb G1 G2.
  assert (P1 : rel_prime xn xd).
  { apply (rel_prime_div n1); [|exists e1; lia]. apply rel_prime_sym. apply (rel_prime_div d1); [|exists e2; lia].
    apply rel_prime_sym. apply Zgcd_1_rel_prime. assumption. }
  assert (P2 : rel_prime yn yd).
  { apply (rel_prime_div n2); [|exists e2; lia]. apply rel_prime_sym. apply (rel_prime_div d2); [|exists e1; lia].
    apply rel_prime_sym. apply Zgcd_1_rel_prime. assumption. }
  apply Zgcd_1_rel_prime. apply rel_prime_mult.
  - apply rel_prime_sym. apply rel_prime_mult; [apply rel_prime_sym; assumption|apply Zgcd_1_rel_prime; assumption].
  - apply rel_prime_sym. apply rel_prime_mult; [|apply rel_prime_sym; assumption].
    apply rel_prime_sym. apply Zgcd_1_rel_prime. assumption.
Qed.

Lemma gcd_parts u v : (u <> 0 \/ v <> 0) -> exists a b, u = a * Z.gcd u v /\ v = b * Z.gcd u v /\ Z.gcd a b = 1 /\ 0 < Z.gcd u v.
Proof.
  intros H. set (g := Z.gcd u v). assert (G : 0 < g).
  { pose proof (Z.gcd_nonneg u v). assert (g <> 0); [|unfold g in *; lia].
    intros E. destruct H as [H|H]; apply H; [apply (Z.gcd_eq_0_l _ _ E)|apply (Z.gcd_eq_0_r _ _ E)]. }
  destruct (Z.gcd_divide_l u v) as [a Ea]. destruct (Z.gcd_divide_r u v) as [b Eb]. fold g in Ea, Eb.
  exists a, b. split; [assumption|]. split; [assumption|]. split; [|assumption].
  assert (E : Z.gcd (a * g) (b * g) = g) by (rewrite <- Ea, <- Eb; reflexivity).
  rewrite Z.gcd_mul_mono_r_nonneg in E by lia. pose proof (Z.gcd_nonneg a b). nia.
Qed.

Lemma ratio_times_ok p q n1 d1 n2 d2 : red n1 d1 -> red n2 d2 ->
  (p == n1 # Z.to_pos d1)%Q -> (q == n2 # Z.to_pos d2)%Q -> small (p * q) ->
  exists n d, ratio_times n1 d1 n2 d2 = Val (Rat n d) /\ red n d /\ (p * q == n # Z.to_pos d)%Q.
Proof.
  intros (B1 & D1 & G1) (B2 & D2 & G2) Ep Eq S.
  destruct (gcd_parts n1 d2 ltac:(lia)) as (xn & yd & E1 & E2 & Ga & H1).
  destruct (gcd_parts d1 n2 ltac:(lia)) as (xd & yn & E3 & E4 & Gb & H2).
  set (e1 := Z.gcd n1 d2) in *. set (e2 := Z.gcd d1 n2) in *.
  assert (Hyd : 0 < yd) by nia. assert (Hxd : 0 < xd) by nia.
  assert (G : Z.gcd (xn * yn) (xd * yd) = 1) by (apply (cross_core n1 d1 n2 d2 e1 e2); assumption).
  assert (V : (p * q == (xn * yn) # Z.to_pos (xd * yd))%Q).
  { rewrite Ep, Eq. unfold Qmult, Qeq. cbn [Qnum Qden]. rewrite Pos2Z.inj_mul, !Z2Pos.id by nia.
    rewrite E1, E2, E3, E4. ring. }
  pose proof (red_small (p * q) (xn * yn) (xd * yd) ltac:(nia) G V S) as R.
  exists (xn * yn), (xd * yd). split; [|split; assumption].
  unfold ratio_times. rewrite !gcd_ok by lia. cbn [bind]. fold e1 e2. rewrite !quot_ok by lia. cbn [bind].
  rewrite E1, E2, E3, E4, !quot_mul by lia. destruct R as (R1 & R2 & _).
  rewrite !wrap64_small by lia. unfold makeratio. rewrite !wrap32_id by lia. reflexivity.
Qed.

Lemma ratio_divide_ok p q n1 d1 n2 d2 : red n1 d1 -> red n2 d2 ->
  (p == n1 # Z.to_pos d1)%Q -> (q == n2 # Z.to_pos d2)%Q -> ~ (q == 0)%Q -> small (p / q) ->
  exists n d, ratio_divide n1 d1 n2 d2 = Val (Rat n d) /\ red n d /\ (p / q == n # Z.to_pos d)%Q.
Proof.
  intros (B1 & D1 & G1) (B2 & D2 & G2) Ep Eq NZ S.
  assert (N2 : n2 <> 0).
  { intros E. apply NZ. rewrite Eq, E. reflexivity. }
  destruct (gcd_parts n1 n2 ltac:(lia)) as (xn & yn & E1 & E2 & Ga & H1).
  destruct (gcd_parts d1 d2 ltac:(lia)) as (xd & yd & E3 & E4 & Gb & H2).
  set (e1 := Z.gcd n1 n2) in *. set (e2 := Z.gcd d1 d2) in *.
  assert (Hyd : 0 < yd) by nia. assert (Hxd : 0 < xd) by nia. assert (Hyn : yn <> 0) by nia.
  assert (G : Z.gcd (xn * yd) (xd * yn) = 1).
  { apply (cross_core n1 d1 d2 n2 e1 e2); try assumption. rewrite Z.gcd_comm. assumption. }
  set (s := if 0 <=? n2 then 1 else -1).
  assert (Hs : (s = 1 /\ 0 < yn) \/ (s = -1 /\ yn < 0)).
  { unfold s. destruct (Z.leb_spec 0 n2); [left|right]; split; nia. }
  assert (Ay : 0 < xd * Z.abs yn) by nia.
  assert (G' : Z.gcd (xn * yd * s) (xd * Z.abs yn) = 1).
  { replace (xd * Z.abs yn) with (Z.abs (xd * yn)) by (rewrite Z.abs_mul; rewrite (Z.abs_eq xd) by lia; reflexivity).
    rewrite Z.gcd_abs_r. destruct Hs as [[-> _]|[-> _]]; [rewrite Z.mul_1_r; assumption|].
    replace (xn * yd * -1) with (- (xn * yd)) by ring. rewrite Z.gcd_opp_l. assumption. }
  assert (V : (p / q == (xn * yd * s) # Z.to_pos (xd * Z.abs yn))%Q).
  { assert (P : (p == ((xn * yd * s) # Z.to_pos (xd * Z.abs yn)) * q)%Q).
    { rewrite Ep, Eq. unfold Qmult, Qeq. cbn [Qnum Qden]. rewrite Pos2Z.inj_mul, !Z2Pos.id by lia.
      rewrite E1, E2, E3, E4. destruct Hs as [[-> Hy]|[-> Hy]];
        [rewrite (Z.abs_eq yn) by lia|rewrite (Z.abs_neq yn) by lia]; ring. }
    rewrite P. apply Qdiv_mult_l. assumption. }
  pose proof (red_small (p / q) _ _ Ay G' V S) as R.
  exists (xn * yd * s), (xd * Z.abs yn). split; [|split; assumption].
  destruct R as (R1 & R2 & _).
  assert (AA : Z.abs (xd * yn) = xd * Z.abs yn) by (rewrite Z.abs_mul, (Z.abs_eq xd) by lia; reflexivity).
  assert (A1 : Z.abs (xn * yd) < 2 ^ 31) by (destruct Hs as [[Es _]|[Es _]]; rewrite Es in R1; lia).
  unfold ratio_divide. rewrite !gcd_ok by lia. cbn [bind]. fold e1 e2. cbv zeta. fold s.
  rewrite !quot_ok by lia. cbn [bind].
  replace (Z.quot n1 e1) with xn by (rewrite E1; symmetry; apply quot_mul; lia).
  replace (Z.quot d2 e2) with yd by (rewrite E4; symmetry; apply quot_mul; lia).
  replace (Z.quot d1 e2) with xd by (rewrite E3; symmetry; apply quot_mul; lia).
  replace (Z.quot n2 e1) with yn by (rewrite E2; symmetry; apply quot_mul; lia).
  rewrite (wrap64_small (xd * yn)) by lia. rewrite (wrap32_id (xd * yn)) by lia.
  destruct (Z.eqb_spec (xd * yn) (- 2 ^ 31)); [lia|].
  rewrite (wrap64_small (xn * yd)) by lia. rewrite (wrap64_small (xn * yd * s)) by lia.
  unfold makeratio. rewrite AA. rewrite !wrap32_id by lia. reflexivity.
Qed.

(** * Argument lists *)

Lemma return_ratio_ok n d : red n d -> canonical (return_ratio (Rat n d)) /\ (value (return_ratio (Rat n d)) == n # Z.to_pos d)%Q.
Proof.
  intros (B & D & G). cbn [return_ratio]. destruct (Z.eqb_spec n 0) as [->|N].
  - split; [cbn [canonical]; lia|]. cbn [value]. unfold Qeq. cbn [Qnum Qden inject_Z]. lia.
  - destruct (Z.eqb_spec d 1) as [->|D1].
    + split; [cbn [canonical]; lia|]. reflexivity.
    + split; [|reflexivity]. cbn [canonical]. split; [assumption|]. split; [lia|assumption].
Qed.

Section Loop.
  Variable f : Z -> Z -> Z -> Z -> result num.
  Variable op : Q -> Q -> Q.
  Variable ok : Q -> Q -> Prop.
  Hypothesis f_ok : forall p q n1 d1 n2 d2, red n1 d1 -> red n2 d2 ->
    (p == n1 # Z.to_pos d1)%Q -> (q == n2 # Z.to_pos d2)%Q -> ok p q ->
    exists n d, f n1 d1 n2 d2 = Val (Rat n d) /\ red n d /\ (op p q == n # Z.to_pos d)%Q.

  Lemma rat_loop_ok : forall args q n d, red n d -> (q == n # Z.to_pos d)%Q -> Forall canonical args -> chain op ok q args ->
    exists r, rat_loop f (Rat n d) args = Val r /\ canonical r /\ (value r == total op q args)%Q.
  Proof.
    induction args as [|a args IH]; intros q n d R E C Ch.
    - destruct (return_ratio_ok n d R) as [R1 R2]. eexists. split; [reflexivity|]. split; [assumption|].
      rewrite R2. symmetry. exact E.
    - inversion C as [|a' l Ca Cl]; subst a' l. cbn [chain] in Ch. destruct Ch as (Sa & Oa & Ch).
      destruct (canonical_as_ratio a Ca Sa) as [Ra Va]. cbn [rat_loop]. unfold op2.
      destruct (f_ok q (value a) n d _ _ R Ra E Va Oa) as (n' & d' & F & R' & E').
      change (fst (as_ratio (Rat n d))) with n. change (snd (as_ratio (Rat n d))) with d. rewrite F. cbn [bind].
      destruct (IH (op q (value a)) n' d' R' E' Cl Ch) as (r & Er & Cr & Vr).
      exists r. split; [assumption|]. split; [assumption|]. exact Vr.
  Qed.
End Loop.

Lemma small_int z : small (inject_Z z) -> Z.abs z < 2 ^ 31.
Proof.
  intros [S _]. destruct (qred_lowest (inject_Z z) z 1) as [E1 E2]; [lia|apply Z.gcd_1_r|reflexivity|].
  rewrite E1 in S. exact S.
Qed.

Lemma red_int z : Z.abs z < 2 ^ 31 -> red z 1.
Proof. intros H. split; [assumption|]. split; [lia|apply Z.gcd_1_r]. Qed.

Lemma makeratio_int z : Z.abs z < 2 ^ 31 -> makeratio z 1 = Rat z 1.
Proof. intros H. unfold makeratio. rewrite !wrap32_id by lia. reflexivity. Qed.

Lemma sum_small_compat p p' q q' : (p == p')%Q -> (q == q')%Q -> sum_small p q -> sum_small p' q'.
Proof. intros E1 E2. unfold sum_small. rewrite (Qred_complete _ _ E1), (Qred_complete _ _ E2). tauto. Qed.

Lemma small_compat p p' : (p == p')%Q -> small p -> small p'.
Proof. intros E. unfold small. rewrite (Qred_complete _ _ E). tauto. Qed.

Lemma chain_compat (op : Q -> Q -> Q) (ok : Q -> Q -> Prop) (op_comp : forall p p' q, (p == p')%Q -> (op p q == op p' q)%Q)
  (ok_comp : forall p p' q, (p == p')%Q -> ok p q -> ok p' q) : forall args p p', (p == p')%Q -> chain op ok p args -> chain op ok p' args.
Proof.
  induction args as [|a args IH]; intros p p' E; cbn [chain]; [tauto|]. intros (H1 & H2 & H3).
  split; [assumption|]. split; [apply (ok_comp _ _ _ E H2)|]. apply (IH _ _ (op_comp _ _ _ E) H3).
Qed.

Lemma total_compat (op : Q -> Q -> Q) (op_comp : forall p p' q, (p == p')%Q -> (op p q == op p' q)%Q) :
  forall args p p', (p == p')%Q -> (total op p args == total op p' args)%Q.
Proof.
  induction args as [|a args IH]; intros p p' E; [exact E|]. unfold total in *. cbn [fold_left]. apply IH, op_comp, E.
Qed.

Lemma plus_comp p p' q : (p == p')%Q -> (p + q == p' + q)%Q.
Proof. intros E. rewrite E. reflexivity. Qed.
Lemma minus_comp p p' q : (p == p')%Q -> (p - q == p' - q)%Q.
Proof. intros E. rewrite E. reflexivity. Qed.
Lemma times_comp p p' q : (p == p')%Q -> (p * q == p' * q)%Q.
Proof. intros E. rewrite E. reflexivity. Qed.
Lemma div_comp p p' q : (p == p')%Q -> (p / q == p' / q)%Q.
Proof. intros E. rewrite E. reflexivity. Qed.

Definition plus_ok (p q : Q) : Prop := sum_small p q.
Definition minus_ok (p q : Q) : Prop := sum_small p (- q).
Definition times_ok (p q : Q) : Prop := small (p * q).
Definition div_ok (p q : Q) : Prop := ~ (q == 0)%Q /\ small (p / q).

Lemma minus_ok_comp p p' q : (p == p')%Q -> minus_ok p q -> minus_ok p' q.
Proof. intros E. apply sum_small_compat; [exact E|reflexivity]. Qed.
Lemma times_ok_comp p p' q : (p == p')%Q -> times_ok p q -> times_ok p' q.
Proof. intros E. apply small_compat. rewrite E. reflexivity. Qed.
Lemma div_ok_comp p p' q : (p == p')%Q -> div_ok p q -> div_ok p' q.
Proof. intros E [H1 H2]. split; [assumption|]. apply (small_compat (p / q)); [rewrite E; reflexivity|assumption]. Qed.

Lemma ratio_divide_ok' p q n1 d1 n2 d2 : red n1 d1 -> red n2 d2 ->
  (p == n1 # Z.to_pos d1)%Q -> (q == n2 # Z.to_pos d2)%Q -> div_ok p q ->
  exists n d, ratio_divide n1 d1 n2 d2 = Val (Rat n d) /\ red n d /\ (p / q == n # Z.to_pos d)%Q.
Proof. intros R1 R2 E1 E2 [N S]. apply ratio_divide_ok; assumption. Qed.

(** The integer prefix of a sum: the sum of two integers over the common denominator 1. *)
Lemma sum_small_int x y : sum_small (inject_Z x) (inject_Z y) -> Z.abs (x + y) < 2 ^ 31.
Proof.
  intros S. assert (P : forall z, (inject_Z z == z # Z.to_pos 1)%Q) by reflexivity.
  destruct (sum_small_parts (inject_Z x) (inject_Z y) x 1 y 1 1 1 1 eq_refl eq_refl (Z.gcd_1_r x) (Z.gcd_1_r y)
              (P x) (P y) eq_refl eq_refl eq_refl eq_refl eq_refl eq_refl S) as [_ H].
  rewrite !Z.mul_1_r in H. exact H.
Qed.

Lemma fix_small z : Z.abs z < 2 ^ 31 -> fix_overflow z = false.
Proof.
  intros H. rewrite fix_overflow_spec by lia. destruct (Z.leb_spec (- 2 ^ 61) z); [|lia].
  destruct (Z.ltb_spec z (2 ^ 61)); [reflexivity|lia].
Qed.

Lemma plus_loop_ok : forall args is, Z.abs is < 2 ^ 31 -> Forall canonical args -> chain Qplus plus_ok (inject_Z is) args ->
  exists r, plus_loop is args = Val r /\ canonical r /\ (value r == total Qplus (inject_Z is) args)%Q.
Proof.
  induction args as [|a args IH]; intros is B C Ch.
  - exists (Fix is). split; [reflexivity|]. split; [cbn [canonical]; lia|reflexivity].
  - inversion C as [|a' l Ca Cl]; subst a' l. destruct a as [j|n d].
    + cbn [plus_loop chain value] in *. destruct Ch as (Sa & Oa & Ch). apply sum_small_int in Oa.
      rewrite wrap64_small by lia. rewrite fix_small by lia.
      assert (E : (inject_Z is + inject_Z j == inject_Z (is + j))%Q) by (rewrite inject_Z_plus; reflexivity).
      destruct (IH (is + j) Oa Cl) as (r & Er & Cr & Vr).
      { apply (chain_compat Qplus plus_ok plus_comp) with (2 := E); [|exact Ch].
        intros p p' q X. apply sum_small_compat; [exact X|reflexivity]. }
      exists r. split; [assumption|]. split; [assumption|]. rewrite Vr. unfold total. cbn [fold_left value].
      apply (total_compat Qplus plus_comp). symmetry. exact E.
    + change (plus_loop is (Rat n d :: args)) with (rat_loop ratio_plus (makeratio is 1) (Rat n d :: args)).
      rewrite makeratio_int by assumption.
      apply (rat_loop_ok ratio_plus Qplus plus_ok ratio_plus_ok); [apply red_int; assumption|reflexivity|assumption|assumption].
Qed.

Lemma minus_loop_ok : forall args is, Z.abs is < 2 ^ 31 -> Forall canonical args -> chain Qminus minus_ok (inject_Z is) args ->
  exists r, minus_loop is args = Val r /\ canonical r /\ (value r == total Qminus (inject_Z is) args)%Q.
Proof.
  induction args as [|a args IH]; intros is B C Ch.
  - exists (Fix is). split; [reflexivity|]. split; [cbn [canonical]; lia|reflexivity].
  - inversion C as [|a' l Ca Cl]; subst a' l. destruct a as [j|n d].
    + cbn [minus_loop chain value] in *. destruct Ch as (Sa & Oa & Ch). unfold minus_ok in Oa.
      change (- inject_Z j)%Q with (inject_Z (- j)) in Oa. apply sum_small_int in Oa.
      rewrite wrap64_small by lia. rewrite fix_small by lia.
      assert (E : (inject_Z is - inject_Z j == inject_Z (is - j))%Q).
      { unfold Z.sub. rewrite inject_Z_plus. reflexivity. }
      destruct (IH (is - j) ltac:(lia) Cl) as (r & Er & Cr & Vr).
      { apply (chain_compat Qminus minus_ok minus_comp minus_ok_comp) with (1 := E). exact Ch. }
      exists r. split; [assumption|]. split; [assumption|]. rewrite Vr. unfold total. cbn [fold_left value].
      apply (total_compat Qminus minus_comp). symmetry. exact E.
    + change (minus_loop is (Rat n d :: args)) with (rat_loop ratio_minus (makeratio is 1) (Rat n d :: args)).
      rewrite makeratio_int by assumption.
      apply (rat_loop_ok ratio_minus Qminus minus_ok ratio_minus_ok); [apply red_int; assumption|reflexivity|assumption|assumption].
Qed.

Lemma times_loop_ok : forall args sign is, Z.abs is < 2 ^ 31 -> (0 < is -> sign = 1) -> sign = 1 \/ sign = -1 ->
  Forall canonical args -> chain Qmult times_ok (inject_Z is) args ->
  exists r, times_loop sign is args = Val r /\ canonical r /\ (value r == total Qmult (inject_Z is) args)%Q.
Proof.
  induction args as [|a args IH]; intros sign is B Sg S1 C Ch.
  - exists (Fix is). split; [reflexivity|]. split; [cbn [canonical]; lia|reflexivity].
  - inversion C as [|a' l Ca Cl]; subst a' l. destruct a as [j|n d].
    + cbn [times_loop chain value] in *. destruct Ch as (Sa & Oa & Ch).
      assert (E : (inject_Z is * inject_Z j == inject_Z (is * j))%Q) by (rewrite inject_Z_mult; reflexivity).
      pose proof (small_int _ (small_compat _ _ E Oa)) as Bp.
      destruct (Z.eqb_spec j 0) as [Ej|Nj]; [|destruct (Z.eqb_spec is 0) as [Ei|Ni]].
      * cbn [orb]. exists (Fix 0). split; [reflexivity|]. split; [cbn [canonical]; lia|].
        cbn [value]. unfold total. cbn [fold_left value].
        transitivity (total Qmult (inject_Z 0) args); [|apply (total_compat Qmult times_comp); rewrite E, Ej, Z.mul_0_r; reflexivity].
        clear. unfold total. change (inject_Z 0) with 0%Q. induction args as [|a args IH]; [reflexivity|].
        cbn [fold_left]. rewrite IH at 1. apply (total_compat Qmult times_comp). rewrite Qmult_0_l. reflexivity.
      * cbn [orb]. exists (Fix 0). split; [reflexivity|]. split; [cbn [canonical]; lia|].
        cbn [value]. unfold total. cbn [fold_left value].
        transitivity (total Qmult (inject_Z 0) args); [|apply (total_compat Qmult times_comp); rewrite E, Ei, Z.mul_0_l; reflexivity].
        clear. unfold total. change (inject_Z 0) with 0%Q. induction args as [|a args IH]; [reflexivity|].
        cbn [fold_left]. rewrite IH at 1. apply (total_compat Qmult times_comp). rewrite Qmult_0_l. reflexivity.
      * cbn [orb]. cbv zeta.
        set (sg := if j <? 0 then - (if is <? 0 then -1 else sign) else (if is <? 0 then -1 else sign)).
        assert (Es : Z.abs is * Z.abs j * sg = is * j).
        { unfold sg. destruct (Z.ltb_spec is 0), (Z.ltb_spec j 0).
          - rewrite !Z.abs_neq by lia. ring.
          - rewrite (Z.abs_neq is), (Z.abs_eq j) by lia. ring.
          - rewrite (Z.abs_eq is), (Z.abs_neq j), Sg by lia. ring.
          - rewrite !Z.abs_eq, Sg by lia. ring. }
        destruct (Z.leb_spec (2 ^ 61) (Z.abs is * Z.abs j)) as [L|L]; [rewrite <- Z.abs_mul in L; lia|].
        rewrite Es.
        assert (Sg1 : sg = 1 \/ sg = -1) by (unfold sg; destruct (j <? 0), (is <? 0); lia).
        assert (Sg2 : 0 < is * j -> sg = 1).
        { intros P. assert (X : 0 < Z.abs is * Z.abs j) by (apply Z.mul_pos_pos; lia).
          destruct Sg1 as [X1|X1]; [assumption|]. rewrite X1 in Es. lia. }
        destruct (IH sg (is * j) Bp Sg2 Sg1 Cl) as (r & Er & Cr & Vr).
        { apply (chain_compat Qmult times_ok times_comp times_ok_comp) with (1 := E). exact Ch. }
        exists r. split; [assumption|]. split; [assumption|]. rewrite Vr. unfold total. cbn [fold_left value].
        apply (total_compat Qmult times_comp). symmetry. exact E.
    + change (times_loop sign is (Rat n d :: args)) with (rat_loop ratio_times (makeratio is 1) (Rat n d :: args)).
      rewrite makeratio_int by assumption.
      apply (rat_loop_ok ratio_times Qmult times_ok ratio_times_ok); [apply red_int; assumption|reflexivity|assumption|assumption].
Qed.

Theorem PLUS_ok args : Forall canonical args -> chain Qplus sum_small 0 args ->
  exists r, PLUS args = Val r /\ canonical r /\ (value r == total Qplus 0 args)%Q.
Proof. intros C Ch. apply plus_loop_ok; [lia|assumption|exact Ch]. Qed.

Theorem MINUS_ok a args : args <> [] -> canonical a -> Forall canonical args -> small (value a) ->
  chain Qminus (fun p q => sum_small p (- q)) (value a) args ->
  exists r, MINUS (a :: args) = Val r /\ canonical r /\ (value r == total Qminus (value a) args)%Q.
Proof.
  intros NE Ca C Sa Ch. destruct args as [|b args]; [contradiction|]. destruct a as [z|n d].
  - change (MINUS (Fix z :: b :: args)) with (minus_loop z (b :: args)).
    apply minus_loop_ok; [apply small_int; exact Sa|assumption|exact Ch].
  - change (MINUS (Rat n d :: b :: args)) with (rat_loop ratio_minus (Rat n d) (b :: args)).
    destruct (canonical_as_ratio _ Ca Sa) as [R V].
    apply (rat_loop_ok ratio_minus Qminus minus_ok ratio_minus_ok); [exact R|exact V|assumption|exact Ch].
Qed.

Theorem MINUS_one a : canonical a -> (forall z, a = Fix z -> z <> - 2 ^ 61) ->
  exists r, MINUS [a] = Val r /\ canonical r /\ (value r == - value a)%Q.
Proof.
  intros C N. destruct a as [z|n d]; cbn [MINUS canonical] in *.
  - specialize (N z eq_refl). unfold MINNEGFIXNUM. destruct (Z.eqb_spec z (- 2 ^ 61)); [contradiction|].
    exists (Fix (- z)). split; [reflexivity|]. split; [cbn [canonical]; lia|reflexivity].
  - destruct C as (C1 & C2 & C3). exists (Rat (- n) d). split; [unfold makeratio; rewrite !wrap32_id by lia; reflexivity|].
    split; [|reflexivity]. cbn [canonical]. rewrite Z.abs_opp, Z.gcd_opp_l. split; [assumption|]. split; [lia|assumption].
Qed.

Theorem TIMES_ok a args : canonical a -> Forall canonical args -> small (value a) ->
  chain Qmult (fun p q => small (p * q)) (value a) args ->
  exists r, TIMES (a :: args) = Val r /\ canonical r /\ (value r == total Qmult (value a) args)%Q.
Proof.
  intros Ca C Sa Ch. destruct a as [z|n d].
  - change (TIMES (Fix z :: args)) with (times_loop 1 z args).
    apply times_loop_ok; [apply small_int; exact Sa|reflexivity|left; reflexivity|assumption|exact Ch].
  - change (TIMES (Rat n d :: args)) with (rat_loop ratio_times (Rat n d) args).
    destruct (canonical_as_ratio _ Ca Sa) as [R V].
    apply (rat_loop_ok ratio_times Qmult times_ok ratio_times_ok); [exact R|exact V|assumption|exact Ch].
Qed.

Definition is_rat (a : num) : Prop := match a with Rat _ _ => True | Fix _ => False end.

Theorem QUOTIENT_ok a b args : is_rat a \/ is_rat b -> canonical a -> Forall canonical (b :: args) -> small (value a) ->
  chain Qdiv (fun p q => ~ (q == 0)%Q /\ small (p / q)) (value a) (b :: args) ->
  exists r, QUOTIENT (a :: b :: args) = Val r /\ canonical r /\ (value r == total Qdiv (value a) (b :: args))%Q.
Proof.
  intros Hr Ca C Sa Ch. destruct a as [z|n d].
  - destruct b as [y|n d]; [destruct Hr as [[]|[]]|].
    change (QUOTIENT (Fix z :: Rat n d :: args)) with (rat_loop ratio_divide (makeratio z 1) (Rat n d :: args)).
    rewrite makeratio_int by (apply small_int; exact Sa).
    apply (rat_loop_ok ratio_divide Qdiv div_ok ratio_divide_ok'); [apply red_int, small_int; exact Sa|reflexivity|assumption|exact Ch].
  - change (QUOTIENT (Rat n d :: b :: args)) with (rat_loop ratio_divide (Rat n d) (b :: args)).
    destruct (canonical_as_ratio _ Ca Sa) as [R V].
    apply (rat_loop_ok ratio_divide Qdiv div_ok ratio_divide_ok'); [exact R|exact V|assumption|exact Ch].
Qed.

(** * Equality *)

Lemma value_eq_int x y : (value (Fix x) == value (Fix y))%Q <-> x = y.
Proof. cbn [value]. unfold Qeq. cbn [Qnum Qden inject_Z]. lia. Qed.

Lemma value_eq_rat n d m e : canonical (Rat n d) -> canonical (Rat m e) ->
  ((value (Rat n d) == value (Rat m e))%Q <-> n = m /\ d = e).
Proof.
  intros (A1 & A2 & A3) (B1 & B2 & B3). cbn [value]. split; [|intros [-> ->]; reflexivity].
  unfold Qeq. cbn [Qnum Qden]. rewrite !Z2Pos.id by lia. intros E. apply lowest_unique; try lia; assumption.
Qed.

Lemma value_neq n d z : canonical (Rat n d) -> ~ (value (Rat n d) == value (Fix z))%Q.
Proof.
  intros (A1 & A2 & A3) E. cbn [value] in E. unfold Qeq in E. cbn [Qnum Qden inject_Z] in E.
  rewrite Z2Pos.id in E by lia. destruct (lowest_unique n d z 1); try lia. apply Z.gcd_1_r.
Qed.

Lemma eq_rat_ok n d : canonical (Rat n d) -> forall args, Forall canonical args ->
  (eq_rat n d args = true <-> Forall (fun a => (value a == value (Rat n d))%Q) args).
Proof.
  intros C. induction args as [|a args IH]; intros H; [split; [constructor|reflexivity]|].
  inversion H as [|a' l Ca Cl]; subst a' l. cbn [eq_rat]. cbv zeta.
  assert (X : (fst (as_ratio a) =? n) && (snd (as_ratio a) =? d) = true <-> (value a == value (Rat n d))%Q).
  { destruct a as [z|m e]; cbn [as_ratio fst snd].
    - split; [|intros E; exfalso; apply (value_neq n d z C); symmetry; exact E].
      intros E. apply andb_prop in E. destruct E as [_ E]. apply Z.eqb_eq in E. destruct C as (_ & C2 & _). lia.
    - rewrite (value_eq_rat m e n d Ca C), andb_true_iff, !Z.eqb_eq. tauto. }
  destruct ((fst (as_ratio a) =? n) && (snd (as_ratio a) =? d)).
  - rewrite (IH Cl). split; [intros F; constructor; [apply X; reflexivity|exact F]|intros F; inversion F; assumption].
  - split; [discriminate|]. intros F. inversion F as [|? ? F1 F2]; subst. apply X in F1. discriminate.
Qed.

Lemma eq_int_ok x : forall args, Forall canonical args ->
  (eq_int x args = true <-> Forall (fun a => (value a == value (Fix x))%Q) args).
Proof.
  induction args as [|a args IH]; intros H; [split; [constructor|reflexivity]|].
  inversion H as [|a' l Ca Cl]; subst a' l. destruct a as [z|n d]; cbn [eq_int].
  - destruct (Z.eqb_spec z x) as [->|N].
    + rewrite (IH Cl). split; [intros F; constructor; [reflexivity|exact F]|intros F; inversion F; assumption].
    + split; [discriminate|]. intros F. apply Forall_inv in F. exfalso. apply N. apply (proj1 (value_eq_int z x) F).
  - assert (E : (d =? 1) = false) by (destruct Ca as (_ & C2 & _); apply Z.eqb_neq; lia). rewrite E, andb_false_r.
    split; [discriminate|]. intros F. inversion F as [|? ? F1 F2]; subst. exfalso. apply (value_neq n d x Ca F1).
Qed.

Lemma NUMEQUAL_snoc args x : args <> [] -> canonical x -> Forall canonical args ->
  exists b, NUMEQUAL (args ++ [x]) = Val b /\ (b = true <-> Forall (fun a => (value a == value x)%Q) args).
Proof.
  intros N Cx C. unfold NUMEQUAL. rewrite rev_app_distr. cbn [rev app].
  assert (R : Forall canonical (rev args)) by (apply Forall_rev; assumption).
  destruct (rev args) as [|a r] eqn:E.
  - exfalso. apply N. apply (f_equal (@rev num)) in E. rewrite rev_involutive in E. exact E.
  - assert (FR : forall P, Forall P (a :: r) <-> Forall P args).
    { intros P. rewrite <- E. split; intros F; [apply Forall_rev in F; rewrite rev_involutive in F; exact F|apply Forall_rev; exact F]. }
    destruct x as [z|n d].
    + exists (eq_int z (a :: r)). split; [reflexivity|]. rewrite <- FR. apply eq_int_ok. assumption.
    + exists (eq_rat n d (a :: r)). split; [reflexivity|]. rewrite <- FR. apply eq_rat_ok; assumption.
Qed.

Theorem NUMEQUAL_ok args : (2 <= length args)%nat -> Forall canonical args ->
  exists b, NUMEQUAL args = Val b /\ (b = true <-> forall x y, In x args -> In y args -> (value x == value y)%Q).
Proof.
  intros L C. destruct (rev args) as [|x r] eqn:E.
  - apply (f_equal (@rev num)) in E. rewrite rev_involutive in E. subst args. cbn in L. lia.
  - apply (f_equal (@rev num)) in E. rewrite rev_involutive in E. cbn [rev] in E. subst args.
    apply Forall_app in C. destruct C as [C1 C2]. inversion C2 as [|? ? Cx _]; subst.
    destruct (NUMEQUAL_snoc (rev r) x) as (b & Eb & Hb); [|assumption|assumption|].
    { intros E. rewrite E in L. cbn in L. lia. }
    exists b. split; [assumption|]. rewrite Hb, Forall_forall. split.
    + intros F. assert (A : forall y, In y (rev r ++ [x]) -> (value y == value x)%Q).
      { intros y Hy. apply in_app_or in Hy. destruct Hy as [Hy|[<-|[]]]; [apply F; assumption|reflexivity]. }
      intros y z Hy Hz. rewrite (A y Hy), (A z Hz). reflexivity.
    + intros F y Hy. apply F; apply in_or_app; [left; assumption|right; left; reflexivity].
Qed.
