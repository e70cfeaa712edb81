(** Drawing lines with integers: class line-DDA and dda-line (lisp/geo/dda.l 10-84).  Numbers are unbounded integers; the slots of the class hold
    64-bit integers, so that the model is exact as long as the coordinates stay below 2^61 in magnitude. *)
From Coq Require Export ZArith List Bool.
Export ListNotations.
Open Scope Z_scope.

(** dda.l 10-18: the slots; the slot update-method is :update-x-major or not *)
Record dda := mkDda { count : Z; x : Z; y : Z; dx : Z; dy : Z; err : Z; errinc : Z; errdec : Z; xyinc : Z; length : Z; x_major : bool }.

(** dda.l 35-57 :init *)
Definition init (x0 y0 x1 y1 : Z) : dda :=
  let dx := x1 - x0 in let dy := y1 - y0 in
  let adx := Z.abs dx in let ady := Z.abs dy in
  let errdec := 2 * Z.abs (ady - adx) in
  let errinc := 2 * (if ady <? adx then ady else adx) in
  let length := Z.max adx ady + 1 in
  if ady <? adx
  then mkDda 0 x0 y0 dx dy (2 * ady - adx) errinc errdec (if 0 <? dy then 1 else -1) length true
  else mkDda 0 x0 y0 dx dy (2 * adx - ady) errinc errdec (if 0 <? dx then 1 else -1) length false.
(** dda.l 58-63 :update-x-major *)
Definition update_x_major (d : dda) : dda :=
  let '(y', err') := if 0 <? err d then (y d + xyinc d, err d - errdec d) else (y d, err d + errinc d) in
  mkDda (count d) (x d + if 0 <? dx d then 1 else -1) y' (dx d) (dy d) err' (errinc d) (errdec d) (xyinc d) (length d) (x_major d).
(** dda.l 64-69 :update-y-major *)
Definition update_y_major (d : dda) : dda :=
  let '(x', err') := if 0 <? err d then (x d + xyinc d, err d - errdec d) else (x d, err d + errinc d) in
  mkDda (count d) x' (y d + if 0 <? dy d then 1 else -1) (dx d) (dy d) err' (errinc d) (errdec d) (xyinc d) (length d) (x_major d).
(** dda.l 70-75 :next *)
Definition next (d : dda) : dda * option (Z * Z) :=
  let d := mkDda (count d + 1) (x d) (y d) (dx d) (dy d) (err d) (errinc d) (errdec d) (xyinc d) (length d) (x_major d) in
  if length d <? count d then (d, None)
  else ((if x_major d then update_x_major d else update_y_major d), Some (x d, y d)).
(** dda.l 79-84 dda-line; [None] when the fuel runs out *)
Fixpoint collect (fuel : nat) (d : dda) (points : list (Z * Z)) : option (list (Z * Z)) :=
  match fuel with O => None | S fuel =>
  match next d with
  | (d, Some p) => collect fuel d (p :: points)
  | (_, None) => Some (rev points)
  end end.
Definition dda_line (fuel : nat) (x0 y0 x1 y1 : Z) : option (list (Z * Z)) := collect fuel (init x0 y0 x1 y1) [].
