(** find-colinear-points and the value of colinear-p: /repo/lisp/geo/primt.l lines 124-145.

    Simplifications: as in CirModel (integers, distance from the line compared with 0); the quotient colinear-p gives is kept as numerator and denominator, and compared as such
    (denominators are not negative; 0/0 is less than nothing). *)
From Coq Require Import ZArith List Bool.
From Verif Require Import HullModel CirModel.
Import ListNotations.
Open Scope Z_scope.

(** v. of matrix.c *)
Definition inner (a b : point) : Z := px a * px b + py a * py b + pz a * pz b.
(** 124-129 *)
Definition colinear_value (p1 p2 p3 : point) : option (Z * Z) :=
  if colinear_p p1 p2 p3 then Some (inner (minus p2 p1) (minus p3 p1), inner (minus p3 p1) (minus p3 p1)) else None.
(** 139-143 *)
Definition pick (p1 p2 p3 : point) : option point :=
  match colinear_value p1 p2 p3 with
  | Some (n, d) => Some (if n <? 0 then p1 else if n <? d then p2 else p3)
  | None => None
  end.
(** the dolist 138-144, the inner while 135-144 and the outer one 133-144 *)
Fixpoint with_p3 (p1 p2 : point) (points : list point) (result : list point) : list point :=
  match points with [] => result | p3 :: r => with_p3 p1 p2 r (match pick p1 p2 p3 with Some x => x :: result | None => result end) end.
Fixpoint with_p2 (p1 : point) (points2 result : list point) : list point := match points2 with [] => result | p2 :: r => with_p2 p1 r (with_p3 p1 p2 r result) end.
Fixpoint with_p1 (points result : list point) : list point := match points with [] => result | p1 :: r => with_p1 r (with_p2 p1 r result) end.
Definition find_colinear_points (points : list point) : list point := with_p1 points [].
