(** Specification vocabulary for integers: what number an object stands for, stated without reference
    to the functions of the model. *)
From Verif Require Import Word BigModel.

(** Value of a digit vector: base 2^63, least significant first. *)
Fixpoint bigval (ds : list Z) : Z :=
  match ds with
  | [] => 0
  | d :: r => d + 2 ^ 63 * bigval r
  end.

(** A well-formed digit vector: at least one digit; all but the last in [0,2^63), the last a long. *)
Fixpoint wf (ds : list Z) : Prop :=
  match ds with
  | [] => False
  | [d] => in_long d
  | d :: r => 0 <= d < 2 ^ 63 /\ wf r
  end.

(** Non-negative vectors as produced by the multiplication routine: every digit in [0,2^63). *)
Definition digits (ds : list Z) : Prop := Forall (fun d => 0 <= d < 2 ^ 63) ds.

(** The number a Lisp integer object stands for.  A word tagged 2 (binary 10) carries a 62-bit signed
    integer in its upper bits; a word tagged 3 (binary 11) carries a multiple of 4 in place. *)
Definition value (o : intobj) : Z :=
  match o with
  | Imm w => if w mod 4 =? 2 then w / 4 else w - 3
  | Big ds => bigval ds
  end.

(** Legal integer objects. *)
Definition legal (o : intobj) : Prop :=
  match o with
  | Imm w => in_long w /\ (w mod 4 = 2 \/ w mod 4 = 3)
  | Big ds => wf ds
  end.

Definition fixnum_range (z : Z) : Prop := - 2 ^ 61 <= z < 2 ^ 61.

(** The canonical representation: fixnum-range integers as tag-2 words, all others as well-formed
    vectors without a redundant top word (dropping the last word changes the number). *)
Definition canonical (o : intobj) : Prop :=
  match o with
  | Imm w => in_long w /\ w mod 4 = 2
  | Big ds => wf ds /\ ~ fixnum_range (bigval ds) /\
              (1 < Z.of_nat (length ds) ->
               ~ - 2 ^ (63 * (Z.of_nat (length ds) - 1)) <= bigval ds < 2 ^ (63 * (Z.of_nat (length ds) - 1)))
  end.

Definition sum (l : list intobj) : Z := fold_right (fun o s => value o + s) 0 l.
Definition prod (l : list intobj) : Z := fold_right (fun o s => value o * s) 1 l.
