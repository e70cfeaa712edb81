(** remove-colinears-from-circuit and colinear-p: /repo/lisp/geo/primt.l lines 124-129 and 147-153 (with v* of /repo/lisp/c/matrix.c).

    Simplifications: coordinates are integers, exact multiples of some unit, and the test of the distance from the line is against 0 instead of *coplanar-threshold*;
    of the value of colinear-p only whether it is nil. Three times the same point makes 0/0, which is not near 0. *)
From Coq Require Import ZArith List Bool.
From Verif Require Import HullModel.
Import ListNotations.
Open Scope Z_scope.

Definition vcross (a b : point) : point := Pt (py a * pz b - pz a * py b) (pz a * px b - px a * pz b) (px a * py b - py a * px b).
Definition zero (p : point) : bool := (px p =? 0) && (py p =? 0) && (pz p =? 0).
(** 124-129 *)
Definition colinear_p (p1 p2 p3 : point) : bool := let v12 := minus p2 p1 in let v13 := minus p3 p1 in zero (vcross v12 v13) && negb (zero v12 && zero v13).
(** 147-153 *)
Fixpoint remove_colinears (circuit : list point) : list point :=
  match circuit with
  | a :: ((b :: c :: _ :: _) as r) => if colinear_p a b c then a :: tl (remove_colinears r) else a :: remove_colinears r
  | _ => circuit
  end.
