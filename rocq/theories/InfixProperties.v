(** C99: what infix expressions are translated to. *)
From Coq Require Import ZArith List Bool Arith Lia.
From Verif Require Import InfixModel InfixSpec InfixProofs InfixProofs2.
Import ListNotations.
Open Scope nat_scope.

(** Every comparison, sum, product, power, call and element of an array whose literal exponents are not negative is translated, and the form has the
    value that the expression has with the usual precedences, in every kind of arithmetic; it uses no temporary that is not bound. *)
Theorem C99_infix_partial : forall (A : arithmetic) (c : comparison), lawful A -> ok_comparison c ->
  exists pairs body, expression (w_comparison c) = Ok (pairs, body) /\ bound [] pairs body /\
    forall r, eval_let A r pairs body = v_comparison A c.
Proof.
  intros A c L Ok0. destruct (translate A L c Ok0) as (f & st & E & G). unfold expression. rewrite E. cbn [bind].
  pose proof (fun r => reconstruct_value A [] f st _ r G) as R. destruct (reconstruct (rev st) f []) as [pairs body].
  exists pairs, body. split; [reflexivity|]. split; [apply (R (fun _ => one A)) | intros r; apply R].
Qed.
Print Assumptions C99_infix_partial.

(** integers, with exact division only where it is exact *)
Definition integers : arithmetic :=
  Arith Z (fun z => z) (fun s => Z.of_nat s + 2)%Z (fun s l => fold_left Z.add l (Z.of_nat s)) (fun x l => fold_left Z.mul l x)
    Z.add Z.sub Z.opp Z.mul Z.quot Z.pow 1%Z (fun r x y => if Z.eqb x y then 1 else 0)%Z.
Lemma integers_lawful : lawful integers.
Proof.
  split; [intros x y; cbn; lia|]. intros x k L. cbn [pow lit integers N].
  assert (E : forall y j, fold_left Z.mul (repeat x j) y = (y * x ^ Z.of_nat j)%Z).
  { clear. intros y j. revert y. induction j as [|j IH]; intros y; [cbn; lia|].
    cbn [repeat fold_left]. rewrite IH, Nat2Z.inj_succ, Z.pow_succ_r by lia. ring. }
  destruct k as [|k]; [reflexivity|]. cbn [repeat product]. change (mul integers) with Z.mul. rewrite E.
  rewrite Nat2Z.inj_succ, Z.pow_succ_r by lia. reflexivity.
Qed.

(** What fails: a negative exponent gives 1; one token that follows an expression is thrown away, as is -1 in %(x -1);
    and a call that is written once is made twice where it is squared. *)
Theorem C99_refuted :
  (exists c pairs body, expression (w_comparison c) = Ok (pairs, body) /\ eval_let integers (fun _ => 0%Z) pairs body = 1%Z /\ v_comparison integers c = 0%Z) /\
  (forall s t, (forall l, t <> TList l) -> (forall o, t <> TOp o) -> expression [TSym (user s); t] = expression [TSym (user s)]) /\
  (forall f s, expression [TSym (user f); TList [TSym (user s)]; TOp Power; TNum 2] =
     Ok ([], FApp HMul [FApp (HFun (user f)) [FSym (user s)]; FApp (HFun (user f)) [FSym (user s)]])).
Proof.
  split; [|split].
  - exists (CSum (Sum None (Prod (PPow (ASym 0) (ANum (-1)%Z)) PEnd) SEnd)), [], (FApp HMul []).
    split; [reflexivity|]. split; reflexivity.
  - intros s t Nl No. unfold user. rewrite Nat.add_comm. cbn [plus]. destruct t as [n | z | o | l]; [reflexivity | reflexivity | destruct (No _ eq_refl) | destruct (Nl _ eq_refl)].
  - intros f s. unfold user. rewrite !(Nat.add_comm _ 2). reflexivity.
Qed.
Print Assumptions C99_refuted.

(** %(- a * b / c + f(a) * (2 - f(a)) ** 3 < f(f(a))): the call f(a) is made once *)
Example C99_example_tree : comparison :=
  let a := POne (ASym 0) in
  let fa := ACall 5 (AOne (Sum None (Prod a PEnd) SEnd)) in
  let two_less := AParen (Sum None (Prod (POne (ANum 2)) PEnd) (SSub (Prod (POne fa) PEnd) SEnd)) in
  CRel Rlt
    (Sum (Some true) (Prod a (PMul (POne (ASym 1)) (PDiv (POne (ASym 2)) PEnd)))
       (SAdd (Prod (POne fa) (PMul (PPow two_less (ANum 3)) PEnd)) SEnd))
    (Sum None (Prod (POne (ACall 5 (AOne (Sum None (Prod (POne fa) PEnd) SEnd)))) PEnd) SEnd).
Example C99_example : lawful integers /\ ok_comparison C99_example_tree /\
  expression (w_comparison C99_example_tree) =
    Ok ([(0, FApp (HFun 7) [FSym 2])],
        FApp (HRel Rlt)
          [FApp HAdd [FApp HNeg [FApp HDiv [FApp HMul [FSym 2; FSym 3]; FSym 4]];
                      FApp HMul [FGen 0; FTemp (FApp HAdd [FNum 2; FApp HNeg [FGen 0]]) 3]];
           FApp (HFun 7) [FGen 0]]).
Proof. split; [exact integers_lawful|]. split; [cbn; lia | reflexivity]. Qed.
