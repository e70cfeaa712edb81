(** Model of [expt] for a non-negative integer exponent, lisp/l/common.l:1009-1020.  The exponent and
    the counters [y] and [ix] are fixnums; they are modelled by [Z].  [mul] is the generic product [*];
    for integers it is [TIMES].  The branch for other exponents (1021, [exp]/[log]) is not modelled. *)
From Verif Require Import Word BigModel.

Section Expt.
  Context {A : Type} (mul : A -> A -> outcome A).

  (** the while loop; fuel is the exponent, and the counter [ix] reaches 0 before it is used up *)
  Fixpoint expt_loop (fuel : nat) (a b : A) (y ix : Z) : outcome A :=
    if ix >? 0 then
      match fuel with
      | O => Err
      | S f =>
          if ix >? y then
            match mul b b with Ok b' => expt_loop f a b' (2 * y) (ix - y) | Err => Err | UB => UB end
          else
            match mul b a with Ok b' => expt_loop f a b' y (ix - 1) | Err => Err | UB => UB end
      end
    else Ok b.

  Definition expt (one a : A) (x : Z) : outcome A :=
    if x =? 0 then Ok one else expt_loop (Z.to_nat x) a a 1 (x - 1).
End Expt.

(** [(expt a x)] on integers *)
Definition EXPT : intobj -> Z -> outcome intobj := expt (fun a b => TIMES [a; b]) (makeint 1).
