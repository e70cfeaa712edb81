(** Proofs for C96: mod, max and min. *)
From Coq Require Import Lia.
From Verif Require Import Word BigModel BigSpec BigProofs3 BigProperties RoundModel RoundSpec RoundProofs.
Open Scope Z_scope.

Lemma den_pos : forall x, 0 < den x.
Proof. intros x. apply pow_pos. lia. Qed.
Lemma bottom_pos : forall a, 0 < bottom a.
Proof. intros [o|x]; [cbn; lia | apply den_pos]. Qed.
Lemma same_refl : forall a, same a a.
Proof. intros. reflexivity. Qed.
Lemma same_trans : forall a b c, same a b -> same b c -> same a c.
Proof.
  unfold same. intros a b c H1 H2. pose proof (bottom_pos b). apply Z.mul_reg_r with (bottom b); [lia|].
  transitivity (top a * bottom b * bottom c); [ring|]. rewrite H1. transitivity (top b * bottom c * bottom a); [ring|]. rewrite H2. ring.
Qed.
Lemma no_more_trans : forall a b c, no_more a b -> no_more b c -> no_more a c.
Proof.
  unfold no_more. intros a b c H1 H2. pose proof (bottom_pos a). pose proof (bottom_pos b). pose proof (bottom_pos c).
  apply Z.mul_le_mono_pos_r with (bottom b); [lia|].
  apply Z.le_trans with (top b * bottom a * bottom c); [|apply Z.le_trans with (top c * bottom b * bottom a)]; nia.
Qed.
Lemma same_no_more : forall a b, same a b -> no_more a b.
Proof. unfold same, no_more. lia. Qed.
Lemma same_sym : forall a b, same a b -> same b a.
Proof. unfold same. lia. Qed.

(** floats at a common scale *)
Lemma scale : forall m e k, k <= 0 -> k <= e -> num (F m e) * 2 ^ (- k) = m * 2 ^ (e - k) * den (F m e).
Proof.
  intros m e k K E. unfold num, den. cbn [mant expo]. rewrite <- !Z.mul_assoc, <- !Z.pow_add_r by lia. f_equal. f_equal. lia.
Qed.
Lemma dltb_spec : forall x y, (dltb x y = true -> no_more (Flo x) (Flo y)) /\ (dltb x y = false -> no_more (Flo y) (Flo x)).
Proof.
  intros [m e] [m2 e2]. unfold dltb, no_more. cbn [mant expo top bottom].
  set (k := Z.min (Z.min e e2) 0). set (k' := Z.min e e2).
  pose proof (scale m e k ltac:(lia) ltac:(lia)) as S1. pose proof (scale m2 e2 k ltac:(lia) ltac:(lia)) as S2.
  assert (X1 : m * 2 ^ (e - k) = m * 2 ^ (e - k') * 2 ^ (k' - k)) by (rewrite <- Z.mul_assoc, <- Z.pow_add_r by lia; f_equal; f_equal; lia).
  assert (X2 : m2 * 2 ^ (e2 - k) = m2 * 2 ^ (e2 - k') * 2 ^ (k' - k)) by (rewrite <- Z.mul_assoc, <- Z.pow_add_r by lia; f_equal; f_equal; lia).
  rewrite X1 in S1. rewrite X2 in S2. clear X1 X2.
  pose proof (den_pos (F m e)). pose proof (den_pos (F m2 e2)). pose proof (pow_pos (- k) ltac:(lia)). pose proof (pow_pos (k' - k) ltac:(lia)).
  set (A := m * 2 ^ (e - k')) in *. set (B := m2 * 2 ^ (e2 - k')) in *. set (n1 := num (F m e)) in *. set (n2 := num (F m2 e2)) in *.
  set (d1 := den (F m e)) in *. set (d2 := den (F m2 e2)) in *. set (t := 2 ^ (- k)) in *. set (u := 2 ^ (k' - k)) in *. clearbody A B n1 n2 d1 d2 t u.
  assert (0 < d1 * d2 * u) by nia.
  split; intros HL.
  - apply Z.ltb_lt in HL. apply Z.mul_le_mono_pos_r with t; [lia|]. replace (n1 * d2 * t) with (A * (d1 * d2 * u)) by nia. replace (n2 * d1 * t) with (B * (d1 * d2 * u)) by nia. nia.
  - apply Z.ltb_ge in HL. apply Z.mul_le_mono_pos_r with t; [lia|]. replace (n1 * d2 * t) with (A * (d1 * d2 * u)) by nia. replace (n2 * d1 * t) with (B * (d1 * d2 * u)) by nia. nia.
Qed.
Lemma double_small : forall m e, Z.abs m < 2 ^ 51 -> double (F m e) = F m e.
Proof.
  intros m e H. unfold double, round_to. cbn [mant expo]. pose proof (bits_le m 51 ltac:(lia) H).
  destruct (Z.leb_spec (bits m - 53) 0); [reflexivity | lia].
Qed.
Lemma makeflt_small : forall x, Z.abs (mant x) < 2 ^ 51 -> makeflt x = x.
Proof.
  intros x H. unfold makeflt. pose proof (bits_le (mant x) 51 ltac:(lia) H). destruct (Z.leb_spec (bits (mant x) - 51) 0); [reflexivity | lia].
Qed.
Lemma canonical_imm : forall w, canonical (Imm w) -> intval (Imm w) = value (Imm w) /\ w = 4 * value (Imm w) + 2 /\ fixnum_range (value (Imm w)).
Proof.
  intros w C. assert (G : intval (Imm w) = value (Imm w) /\ fixnum_range (value (Imm w))) by (apply intval_imm; destruct C; split; assumption).
  split; [apply G|]. split; [|apply G]. destruct C as [C1 C2]. cbn [value]. rewrite C2. change (2 =? 2) with true. cbv iota. pose proof (Z.div_mod w 4 ltac:(lia)). lia.
Qed.
Lemma held_int : forall o, held (Int o) -> exists w, o = Imm w /\ canonical (Imm w) /\ Z.abs (value (Imm w)) < 2 ^ 51.
Proof.
  intros [w|ds] [C H]; [exists w; auto|]. exfalso. destruct C as [_ [C _]]. apply C. cbn [value] in H. unfold fixnum_range. lia.
Qed.
Lemma int_flo : forall w, same (Flo (F (value (Imm w)) 0)) (Int (Imm w)).
Proof. intros w. unfold same. cbn [top bottom]. unfold num, den. cbn [mant expo]. change (2 ^ Z.max 0 0) with 1. change (2 ^ Z.max 0 (- 0)) with 1. lia. Qed.
Lemma ckfltval_held : forall a, held a -> same (Flo (ckfltval a)) a /\ Z.abs (mant (ckfltval a)) < 2 ^ 51.
Proof.
  intros [o|x] H; [|split; [reflexivity | exact H]].
  destruct (held_int o H) as [w [-> [C B]]]. destruct (canonical_imm w C) as [I1 _]. cbn [ckfltval]. rewrite I1, double_small by exact B.
  split; [apply int_flo | exact B].
Qed.

(** * extremes *)
Section EXT.
  Variable R : number -> number -> Prop.
  Variable lt : Z -> Z -> bool.
  Variable flt : flo -> flo -> bool.
  Hypothesis Rtrans : forall a b c, R a b -> R b c -> R a c.
  Hypothesis Rsame : forall a b, same a b -> R a b.
  Hypothesis Rflt : forall x y, (flt x y = true -> R (Flo x) (Flo y)) /\ (flt x y = false -> R (Flo y) (Flo x)).
  Hypothesis Rlt : forall w v, canonical (Imm w) -> canonical (Imm v) ->
    (lt w v = true -> R (Int (Imm w)) (Int (Imm v))) /\ (lt w v = false -> R (Int (Imm v)) (Int (Imm w))).
  Definition best (args : list number) (r : number) : Prop := (exists a, In a args /\ same r a) /\ forall b, In b args -> R b r.
  Lemma best_cons : forall a a' l r, best (a' :: l) r -> R a a' -> best (a' :: a :: l) r.
  Proof.
    intros a a' l r [[c [C S]] B] L. split.
    - exists c. split; [|exact S]. destruct C as [<-|C]; [left; reflexivity | right; right; exact C].
    - intros b [<-|[<-|Q]]; [apply B; left; reflexivity | | apply B; right; exact Q].
      apply Rtrans with a'; [exact L | apply B; left; reflexivity].
  Qed.
  Lemma best_swap : forall a a' l r, best (a :: a' :: l) r -> best (a' :: a :: l) r.
  Proof.
    intros a a' l r [[c [C S]] B]. split.
    - exists c. split; [|exact S]. cbn [In] in *. tauto.
    - intros b Q. apply B. cbn [In] in *. tauto.
  Qed.
  Lemma best_same : forall a a' l r, same a a' -> best (a :: l) r -> best (a' :: l) r.
  Proof.
    intros a a' l r Sa [[c [C S]] B]. split.
    - destruct C as [<-|C]; [exists a'; split; [left; reflexivity | apply same_trans with a; assumption] | exists c; split; [right; exact C | exact S]].
    - intros b [<-|Q]; [|apply B; right; exact Q]. apply Rtrans with a; [apply Rsame, same_sym, Sa | apply B; left; reflexivity].
  Qed.
  Lemma best_one : forall a, best [a] a.
  Proof. intros a. split; [exists a; split; [left; reflexivity | apply same_refl]|]. intros b [<-|[]]. apply Rsame, same_refl. Qed.
  Lemma ext_float_best : forall args fs, Z.abs (mant fs) < 2 ^ 51 -> Forall held args -> best (Flo fs :: args) (ext_float flt fs args).
  Proof.
    induction args as [|a r IH]; intros fs M H; cbn [ext_float].
    - rewrite makeflt_small by exact M. apply best_one.
    - inversion H as [|? ? H1 H2]; subst. destruct (ckfltval_held a H1) as [S M1]. destruct (Rflt fs (ckfltval a)) as [F1 F2].
      destruct (flt fs (ckfltval a)) eqn:Q.
      + apply best_swap. apply best_same with (Flo (ckfltval a)); [exact S|]. apply best_cons; [apply IH; assumption | apply F1; reflexivity].
      + apply best_swap, (best_same (Flo (ckfltval a))); [exact S|]. apply best_swap, best_cons; [apply IH; assumption | apply F2; reflexivity].
  Qed.
  Lemma ext_int_best : forall args is, held (Int (Imm is)) -> Forall held args -> best (Int (Imm is) :: args) (ext_int lt flt is args).
  Proof.
    induction args as [|a r IH]; intros is Hi H; [cbn [ext_int]; apply best_one|].
    assert (C : best (Int (Imm is) :: a :: r) (ext_float flt (double (F (intval (Imm is)) 0)) (a :: r))).
    { destruct (ckfltval_held _ Hi) as [S M]. apply best_same with (Flo (ckfltval (Int (Imm is)))); [exact S|]. apply ext_float_best; assumption. }
    inversion H as [|? ? H1 H2]; subst. destruct a as [[w|ds]|x]; cbn [ext_int]; [|exact C|exact C].
    destruct (Rlt is w (proj1 Hi) (proj1 H1)) as [L1 L2]. destruct (lt is w).
    - apply best_swap, best_cons; [apply IH; assumption | apply L1; reflexivity].
    - apply best_cons; [apply IH; assumption | apply L2; reflexivity].
  Qed.
  Lemma extreme_best : forall args, args <> [] -> Forall held args -> exists r, extreme lt flt args = Ok r /\ best args r.
  Proof.
    intros [|a [|b r]] N H; [congruence| |].
    - exists a. split; [destruct a as [[w|ds]|x]; reflexivity | apply best_one].
    - inversion H as [|? ? H1 H2]; subst. destruct a as [[w|ds]|x].
      + eexists. split; [reflexivity|]. apply ext_int_best; assumption.
      + destruct (held_int _ H1) as [w [Q _]]. discriminate.
      + eexists. split; [reflexivity|]. apply ext_float_best; assumption.
  Qed.
  Lemma ext_fix_best : forall args is, canonical (Imm is) -> Forall fixnum args ->
    In (ext_int lt flt is args) (Int (Imm is) :: args) /\ best (Int (Imm is) :: args) (ext_int lt flt is args).
  Proof.
    induction args as [|a r IH]; intros is Hi H; [cbn [ext_int]; split; [left; reflexivity | apply best_one]|].
    inversion H as [|? ? H1 H2]; subst. destruct a as [[w|ds]|x]; [|destruct H1|destruct H1]. cbn [ext_int].
    destruct (Rlt is w Hi H1) as [L1 L2]. destruct (lt is w).
    - destruct (IH w H1 H2) as [I1 I2]. split; [right; exact I1|]. apply best_swap, best_cons; [exact I2 | apply L1; reflexivity].
    - destruct (IH is Hi H2) as [I1 I2]. split; [destruct I1; [left; assumption | right; right; assumption]|].
      apply best_cons; [exact I2 | apply L2; reflexivity].
  Qed.
  Lemma extreme_fix_best : forall args, args <> [] -> Forall fixnum args -> exists r, extreme lt flt args = Ok r /\ In r args /\ best args r.
  Proof.
    intros [|a [|b r]] N H; [congruence| |].
    - exists a. split; [destruct a as [[w|ds]|x]; reflexivity|]. split; [left; reflexivity | apply best_one].
    - inversion H as [|? ? H1 H2]; subst. destruct a as [[w|ds]|x]; [|destruct H1|destruct H1].
      eexists. split; [reflexivity|]. apply ext_fix_best; assumption.
  Qed.
End EXT.
Lemma words_order : forall w v, canonical (Imm w) -> canonical (Imm v) ->
  (w <= v <-> no_more (Int (Imm w)) (Int (Imm v))).
Proof.
  intros w v C D. destruct (canonical_imm w C) as [_ [E _]]. destruct (canonical_imm v D) as [_ [E2 _]]. unfold no_more. cbn [top bottom].
  set (a := value (Imm w)) in *. set (b := value (Imm v)) in *. lia.
Qed.
Definition Rmax := no_more.
Definition Rmin (a b : number) : Prop := no_more b a.
Lemma max_lt : forall w v, canonical (Imm w) -> canonical (Imm v) ->
  ((w <? v) = true -> Rmax (Int (Imm w)) (Int (Imm v))) /\ ((w <? v) = false -> Rmax (Int (Imm v)) (Int (Imm w))).
Proof.
  intros w v C D. split; intros H; (refine (proj1 (words_order _ _ _ _) _); [assumption | assumption |]);
    [apply Z.ltb_lt in H | apply Z.ltb_ge in H]; lia.
Qed.
Lemma min_lt : forall w v, canonical (Imm w) -> canonical (Imm v) ->
  ((v <? w) = true -> Rmin (Int (Imm w)) (Int (Imm v))) /\ ((v <? w) = false -> Rmin (Int (Imm v)) (Int (Imm w))).
Proof.
  intros w v C D. split; intros H; (refine (proj1 (words_order _ _ _ _) _); [assumption | assumption |]);
    [apply Z.ltb_lt in H | apply Z.ltb_ge in H]; lia.
Qed.
Lemma max_held : forall args, args <> [] -> Forall held args -> exists r, MAX args = Ok r /\ largest args r.
Proof. intros args N H. apply (extreme_best Rmax Z.ltb dltb no_more_trans same_no_more dltb_spec max_lt args N H). Qed.
Lemma min_held : forall args, args <> [] -> Forall held args -> exists r, MIN args = Ok r /\ smallest args r.
Proof.
  intros args N H. apply (extreme_best Rmin (fun x y => y <? x) (fun x y => dltb y x)); try assumption.
  - intros a b c A B. exact (no_more_trans c b a B A).
  - intros a b S. apply same_no_more, same_sym, S.
  - intros x y. destruct (dltb_spec y x) as [D1 D2]. split; assumption.
  - exact min_lt.
Qed.
Lemma max_fix : forall args, args <> [] -> Forall fixnum args -> exists r, MAX args = Ok r /\ In r args /\ largest args r.
Proof. intros args N H. apply (extreme_fix_best Rmax Z.ltb dltb no_more_trans same_no_more max_lt args N H). Qed.
Lemma min_fix : forall args, args <> [] -> Forall fixnum args -> exists r, MIN args = Ok r /\ In r args /\ smallest args r.
Proof.
  intros args N H. apply (extreme_fix_best Rmin (fun x y => y <? x) (fun x y => dltb y x)); try assumption.
  - intros a b c A B. exact (no_more_trans c b a B A).
  - intros a b S. apply same_no_more, same_sym, S.
  - exact min_lt.
Qed.

(** * mod *)
Lemma mkbigint_value : forall y, in_long y -> value (mkbigint y) = y.
Proof.
  intros y Y. unfold mkbigint. destruct (mkbigint_big y); [cbn [value bigval]; lia | apply C01_boxing, Y].
Qed.
Lemma intval_canonical : forall o, canonical o -> in_long (value o) -> intval o = value o.
Proof.
  intros [w|ds] C L; [apply canonical_imm, C|]. destruct C as [W [Fx S]]. cbn [value] in L. apply intval_exact; [exact W | exact L |].
  destruct (Nat.eq_dec (length ds) 1) as [E|E]; [exact E|]. exfalso.
  destruct ds as [|d [|d2 r]]; [apply Fx; cbn [bigval]; unfold fixnum_range; lia | cbn [length] in E; lia |].
  cbn [length] in S. apply S; [lia|]. unfold in_long in L.
  assert (2 ^ 63 <= 2 ^ (63 * (Z.of_nat (Datatypes.S (Datatypes.S (length r))) - 1))) by (apply Z.pow_le_mono_r; lia). lia.
Qed.
Lemma mod_int : forall x y, canonical x -> canonical y -> in_long (value x) -> in_long (value y) -> value y <> 0 ->
  ~ (value x = - 2 ^ 63 /\ value y = -1) ->
  exists r, MOD (Int x) (Int y) = Ok (Some (Int r)) /\ remainder (Int x) (Int y) (Int r).
Proof.
  intros x y Lx Ly Ix Iy N O. unfold MOD. rewrite !intval_canonical by assumption. cbv zeta.
  destruct (Z.eqb_spec (value y) 0); [lia|]. cbn [orb].
  assert (Q : (value x =? - 2 ^ 63) && (value y =? -1) = false).
  { destruct (Z.eqb_spec (value x) (- 2 ^ 63)); [|reflexivity]. destruct (Z.eqb_spec (value y) (-1)); [exfalso; apply O; auto | reflexivity]. }
  rewrite Q. eexists. split; [reflexivity|].
  pose proof (Z.quot_rem' (value x) (value y)) as E. pose proof (Z.rem_bound_abs (value x) (value y) N) as B.
  pose proof (Z.rem_sign_mul (value x) (value y) N) as G.
  unfold remainder. cbn [top bottom]. rewrite mkbigint_value by (unfold in_long in *; lia).
  split; [|split; [lia | exact G]]. exists (Z.quot (value x) (value y)). lia.
Qed.
Lemma mod_flo : forall x y, Z.abs (mant x) < 2 ^ 51 -> Z.abs (mant y) < 2 ^ 51 -> mant y <> 0 ->
  exists r, c_fmod x y = Some r /\ Z.abs (mant r) < 2 ^ 51 /\ remainder (Flo x) (Flo y) (Flo r).
Proof.
  intros [m e] [m2 e2]. cbn [mant]. intros M M2 N. unfold c_fmod. cbn [mant expo]. destruct (Z.eqb_spec m2 0) as [|_]; [contradiction|].
  assert (KK : exists k' k, k' = Z.min e e2 /\ k <= 0 /\ k <= e /\ k <= e2 /\ k <= k' /\ k' <= e /\ k' <= e2 /\ (e <= e2 -> e - k' = 0) /\ (e2 <= e -> e2 - k' = 0))
    by (exists (Z.min e e2), (Z.min (Z.min e e2) 0); lia).
  destruct KK as [k' [k [<- [A1 [A2 [A3 [A4 [A5 [A6 [K1 K2]]]]]]]]]]. cbv zeta. eexists. split; [reflexivity|].
  pose proof (scale m e k A1 A2) as S1. pose proof (scale m2 e2 k A1 A3) as S2.
  pose proof (fun r => scale r k' k A1 A4) as S3. pose proof (pow_pos (- k) ltac:(clear - A1; lia)) as PT. pose proof (pow_pos (k' - k) ltac:(clear - A4; lia)) as PU.
  assert (E1 : 2 ^ (e - k) = 2 ^ (e - k') * 2 ^ (k' - k)) by (clear - A4 A5; rewrite <- Z.pow_add_r by lia; f_equal; lia).
  assert (E2 : 2 ^ (e2 - k) = 2 ^ (e2 - k') * 2 ^ (k' - k)) by (clear - A4 A6; rewrite <- Z.pow_add_r by lia; f_equal; lia).
  rewrite E1, Z.mul_assoc in S1. rewrite E2, Z.mul_assoc in S2. clear E1 E2.
  pose proof (pow_pos (e2 - k') ltac:(clear - A6; lia)) as PY.
  assert (NY : m2 * 2 ^ (e2 - k') <> 0) by (clear - N PY; nia).
  assert (CX : e <= e2 -> m * 2 ^ (e - k') = m) by (intros L; rewrite (K1 L); apply Z.mul_1_r).
  assert (CY : e2 <= e -> m2 * 2 ^ (e2 - k') = m2) by (intros L; rewrite (K2 L); apply Z.mul_1_r).
  set (X := m * 2 ^ (e - k')) in *. set (Y := m2 * 2 ^ (e2 - k')) in *. clearbody X Y. clear K1 K2 A1 A2 A3 A4 A5 A6 PY.
  pose proof (Z.quot_rem' X Y) as E. pose proof (Z.rem_bound_abs X Y NY) as B. pose proof (Z.rem_sign_mul X Y NY) as G.
  assert (LE : Z.abs (Z.rem X Y) <= Z.abs X) by (rewrite <- Z.rem_abs by exact NY; apply Z.rem_le; [apply Z.abs_nonneg | apply Z.abs_pos; exact NY]).
  set (r := Z.rem X Y) in *. set (q := Z.quot X Y) in *. clearbody r q. cbn [mant]. split.
  { destruct (Z.le_ge_cases e e2) as [L|L].
    - rewrite (CX L) in LE. apply Z.le_lt_trans with (Z.abs m); assumption.
    - rewrite (CY L) in B. apply Z.lt_trans with (Z.abs m2); assumption. }
  clear LE CX CY M M2 NY. specialize (S3 r). unfold remainder. cbn [top bottom].
  pose proof (den_pos (F m e)) as D1. pose proof (den_pos (F m2 e2)) as D2. pose proof (den_pos (F r k')) as D3.
  set (n1 := num (F m e)) in *. set (n2 := num (F m2 e2)) in *. set (n3 := num (F r k')) in *.
  set (d1 := den (F m e)) in *. set (d2 := den (F m2 e2)) in *. set (d3 := den (F r k')) in *.
  set (t := 2 ^ (- k)) in *. set (u := 2 ^ (k' - k)) in *. clearbody n1 n2 n3 d1 d2 d3 t u.
  split; [|split].
  - clear B G. exists q. apply Z.mul_reg_r with t; [clear - PT; lia|]. transitivity (n3 * t * d1 * d2); [ring|]. rewrite S3.
    transitivity (n1 * t * d2 * d3 - q * (n2 * t) * d1 * d3); [|ring]. rewrite S1, S2. rewrite E. ring.
  - clear E G. apply Z.mul_lt_mono_pos_r with t; [exact PT|].
    replace (Z.abs n3 * d2 * t) with (Z.abs (n3 * t) * d2) by (rewrite Z.abs_mul, (Z.abs_eq t) by (clear - PT; lia); ring).
    replace (Z.abs n2 * d3 * t) with (Z.abs (n2 * t) * d3) by (rewrite Z.abs_mul, (Z.abs_eq t) by (clear - PT; lia); ring).
    rewrite S3, S2, !Z.abs_mul, (Z.abs_eq u), (Z.abs_eq d3), (Z.abs_eq d2) by (clear - PU D2 D3; lia).
    replace (Z.abs r * u * d3 * d2) with (Z.abs r * (u * d3 * d2)) by ring. replace (Z.abs Y * u * d2 * d3) with (Z.abs Y * (u * d3 * d2)) by ring.
    apply Z.mul_lt_mono_pos_r; [|exact B]. apply Z.mul_pos_pos; [apply Z.mul_pos_pos; assumption | assumption].
  - clear E B. apply Z.mul_le_mono_pos_r with (t * t); [apply Z.mul_pos_pos; assumption|]. replace (n3 * n1 * (t * t)) with ((n3 * t) * (n1 * t)) by ring.
    rewrite S1, S3. replace (r * u * d3 * (X * u * d1)) with (r * X * (u * u * d3 * d1)) by ring. rewrite Z.mul_0_l.
    apply Z.mul_nonneg_nonneg; [exact G|]. apply Z.lt_le_incl. repeat apply Z.mul_pos_pos; assumption.
Qed.
Lemma remainder_same : forall a b r a' b', same a a' -> same b b' -> remainder a b r -> remainder a' b' r.
Proof.
  intros a b r a' b'. unfold same, remainder. pose proof (bottom_pos a) as Pa. pose proof (bottom_pos b) as Pb. pose proof (bottom_pos a') as Pa'.
  pose proof (bottom_pos b') as Pb'. pose proof (bottom_pos r) as Pr.
  set (ta := top a) in *. set (tb := top b) in *. set (ta' := top a') in *. set (tb' := top b') in *. set (tr := top r) in *.
  set (ba := bottom a) in *. set (bb := bottom b) in *. set (ba' := bottom a') in *. set (bb' := bottom b') in *. set (br := bottom r) in *.
  clearbody ta tb ta' tb' tr ba bb ba' bb' br. intros A B [[q Q] [L G]]. split; [|split].
  - exists q. apply Z.mul_reg_r with (ba * bb); [nia|].
    transitivity (tr * ba * bb * (ba' * bb')); [ring|]. rewrite Q.
    transitivity (ta * ba' * bb * bb' * br - q * (tb * bb') * ba * ba' * br); [ring|]. rewrite A, B. ring.
  - apply Z.mul_lt_mono_pos_r with bb; [lia|]. replace (Z.abs tb' * br * bb) with (Z.abs (tb' * bb) * br) by (rewrite Z.abs_mul, (Z.abs_eq bb) by lia; ring).
    rewrite <- B, Z.abs_mul, (Z.abs_eq bb') by lia. nia.
  - apply Z.mul_le_mono_pos_r with ba; [lia|]. replace (tr * ta' * ba) with (tr * (ta' * ba)) by ring. rewrite <- A. nia.
Qed.
Lemma mod_held : forall a b, held a -> held b -> top b <> 0 -> (exists x, a = Flo x) \/ (exists y, b = Flo y) ->
  exists r, MOD a b = Ok (Some (Flo r)) /\ remainder a b (Flo r).
Proof.
  intros a b Ha Hb N Fl. destruct (ckfltval_held a Ha) as [Sa Ma]. destruct (ckfltval_held b Hb) as [Sb Mb].
  assert (NB : mant (ckfltval b) <> 0).
  { intros Q. apply N. unfold same in Sb. cbn [top bottom] in Sb. unfold num in Sb. rewrite Q, !Z.mul_0_l in Sb. pose proof (den_pos (ckfltval b)). nia. }
  destruct (mod_flo _ _ Ma Mb NB) as [r [R1 [R2 R3]]]. exists r. split.
  - unfold MOD. rewrite R1, makeflt_small by exact R2. destruct a, b; try reflexivity. destruct Fl as [[? Q]|[? Q]]; discriminate.
  - exact (remainder_same _ _ _ _ _ Sa Sb R3).
Qed.
