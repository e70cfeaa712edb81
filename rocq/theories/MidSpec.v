(** Specification for C108: points between two others. *)
From Coq Require Import ZArith List.
From Verif Require Import HullModel CirSpec.
Import ListNotations.
Open Scope Z_scope.

(** [x] is on the segment from [a] to [b] and neither of its ends *)
Definition between (a x b : point) : Prop := in_line a x b /\ 0 < dotp (minus x a) (minus b x).
