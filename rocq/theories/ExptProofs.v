From Verif Require Import Word BigModel BigSpec BigProofs BigProofs2 BigProofs3 BigProofs4 ExptModel.

(** n-fold product *)
Fixpoint npow {A} (mul : A -> A -> A) (a : A) (n : nat) : A :=
  match n with O => a | S m => mul (npow mul a m) a end.

(** Loop rule: [P e b] says that [b] is the [e]-th power.  The squaring branch is only entered when
    the exponent so far is [y] and 2*y < x. *)
Lemma expt_loop_rule {A} (mul : A -> A -> outcome A) (a : A) (x : Z) (P : Z -> A -> Prop) :
  (forall e b, 1 <= e -> 2 * e < x -> P e b -> exists b', mul b b = Ok b' /\ P (2 * e) b') ->
  (forall e b, 1 <= e < x -> P e b -> exists b', mul b a = Ok b' /\ P (e + 1) b') ->
  forall fuel b e y ix, e + ix = x -> 1 <= y <= e -> 0 <= ix -> (ix > y -> e = y) -> (Z.to_nat ix <= fuel)%nat ->
  P e b -> exists r, expt_loop mul fuel a b y ix = Ok r /\ P x r.
Proof.
  intros Hsq Hmu. induction fuel as [|f IH]; intros b e y ix He Hy Hix Hey Hf HP; cbn [expt_loop].
  - destruct (Z.gtb_spec ix 0); [lia|]. exists b. split; [reflexivity|]. replace x with e by lia. exact HP.
  - destruct (Z.gtb_spec ix 0); [|exists b; split; [reflexivity|replace x with e by lia; exact HP]].
    destruct (Z.gtb_spec ix y).
    + assert (e = y) by (apply Hey; lia). subst e.
      destruct (Hsq y b ltac:(lia) ltac:(lia) HP) as (b' & -> & HP').
      apply (IH b' (2 * y)); try lia. exact HP'.
    + destruct (Hmu e b ltac:(lia) HP) as (b' & -> & HP').
      apply (IH b' (e + 1)); try lia. exact HP'.
Qed.

Lemma expt_rule {A} (mul : A -> A -> outcome A) (one a : A) (x : Z) (P : Z -> A -> Prop) :
  (forall e b, 1 <= e -> 2 * e < x -> P e b -> exists b', mul b b = Ok b' /\ P (2 * e) b') ->
  (forall e b, 1 <= e < x -> P e b -> exists b', mul b a = Ok b' /\ P (e + 1) b') ->
  0 <= x -> P 0 one -> P 1 a -> exists r, expt mul one a x = Ok r /\ P x r.
Proof.
  intros Hsq Hmu Hx H0 H1. unfold expt. destruct (Z.eqb_spec x 0) as [->|N]; [eauto|].
  apply (expt_loop_rule mul a x P Hsq Hmu _ a 1 1 (x - 1)); try lia. exact H1.
Qed.

(** any associative product *)
Theorem expt_assoc {A} (mul : A -> A -> A) (one a : A) (n : nat) :
  (forall p q r, mul p (mul q r) = mul (mul p q) r) ->
  expt (fun p q => Ok (mul p q)) one a (Z.of_nat (S n)) = Ok (npow mul a n).
Proof.
  intros Assoc.
  assert (Add : forall i j, mul (npow mul a i) (npow mul a j) = npow mul a (S (i + j))).
  { intros i j. revert i. induction j as [|j IH]; intros i; cbn [npow].
    - rewrite Nat.add_0_r. reflexivity.
    - rewrite Assoc, IH, Nat.add_succ_r. reflexivity. }
  destruct (expt_rule (fun p q => Ok (mul p q)) one a (Z.of_nat (S n))
              (fun e b => 1 <= e -> b = npow mul a (Z.to_nat e - 1))) as (r & E & Hr).
  - intros e b He _ Hb. eexists. split; [reflexivity|]. intros _. rewrite (Hb He), Add. f_equal. lia.
  - intros e b He Hb. eexists. split; [reflexivity|]. intros _. rewrite (Hb ltac:(lia)).
    replace (Z.to_nat (e + 1) - 1)%nat with (S (Z.to_nat e - 1)) by lia. reflexivity.
  - lia.
  - lia.
  - intros _. reflexivity.
  - rewrite E, Hr by lia. do 2 f_equal. lia.
Qed.

Lemma pow_le_fix a e h : 1 <= e <= h -> Z.abs a ^ h < 2 ^ 61 -> - 2 ^ 61 < a ^ e < 2 ^ 61.
Proof.
  intros He Hh. assert (H : Z.abs (a ^ e) < 2 ^ 61).
  { rewrite Z.abs_pow. destruct (Z.eq_dec a 0) as [->|N].
    - rewrite Z.pow_0_l by lia. lia.
    - apply Z.le_lt_trans with (Z.abs a ^ h); [|assumption]. apply Z.pow_le_mono_r; lia. }
  lia.
Qed.

(** integers, as long as no bignum has to be squared *)
Theorem EXPT_exact a x h : canonical a -> isint a = true -> 0 <= x <= 2 * h + 1 ->
  Z.abs (value a) ^ h < 2 ^ 61 -> (value a < 0 -> forall e, 0 < e < x -> ~ min_top (value a ^ e)) ->
  exists r, EXPT a x = Ok r /\ value r = value a ^ x /\ regular r.
Proof.
  intros C I Hx Hh Hn. unfold EXPT.
  destruct (expt_rule (fun p q => TIMES [p; q]) (makeint 1) a x
              (fun e b => 0 <= e /\ value b = value a ^ e /\ tsafe b)) as (r & E & _ & V & T).
  - intros e b He Hx2 (_ & Vb & Tb).
    pose proof (pow_le_fix (value a) e h ltac:(lia) Hh) as R. rewrite <- Vb in R.
    assert (Ib : isint b = true).
    { destruct b as [w|ds]; [reflexivity|]. exfalso. destruct Tb as (_ & B & _). cbn [value] in R. lia. }
    destruct (TIMES_tsafe b [b] Tb) as (r & Er & Vr & Tr).
    { constructor; [|constructor]. split; [apply tsafe_regular, Tb|exact Ib]. }
    { cbn [partials_safe]. split; [|exact Logic.I]. intros Hneg (n & Hmt).
      rewrite Nat2Z.inj_succ in Hmt. replace (63 * Z.succ (Z.of_nat n)) with (63 * Z.of_nat n + 63) in Hmt by lia.
      rewrite Z.pow_add_r in Hmt by lia. pose proof (P63_pos n). nia. }
    exists r. split; [exact Er|]. split; [lia|]. split; [|exact Tr]. cbn [prod fold_right] in Vr.
    rewrite Vr, Vb, Z.mul_1_r, <- Z.pow_add_r by lia. f_equal. lia.
  - intros e b He (_ & Vb & Tb).
    destruct (TIMES_tsafe b [a] Tb) as (r & Er & Vr & Tr).
    { constructor; [|constructor]. split; [apply canonical_regular, C|exact I]. }
    { cbn [partials_safe]. split; [|exact Logic.I]. intros Hneg. rewrite Vb. apply Hn; lia. }
    exists r. split; [exact Er|]. split; [lia|]. split; [|exact Tr]. cbn [prod fold_right] in Vr.
    rewrite Vr, Vb, Z.mul_1_r, Z.pow_add_r by lia. lia.
  - lia.
  - split; [lia|]. split; [reflexivity|]. apply makeint_tsafe. unfold fixnum_range. lia.
  - split; [lia|]. rewrite Z.pow_1_r. split; [reflexivity|]. destruct a as [w|]; [exact C|discriminate].
  - exists r. split; [exact E|]. split; [exact V|apply tsafe_regular, T].
Qed.

Lemma expt_refuted : exists a x r, canonical a /\ 0 <= x /\ EXPT a x = Ok r /\ value r <> value a ^ x.
Proof.
  exists (makeint 3), 130. eexists. split; [vm_compute; intuition congruence|]. split; [lia|].
  split; [vm_compute; reflexivity|]. vm_compute. congruence.
Qed.
