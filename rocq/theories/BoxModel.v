(** Bounding boxes and planes: classes [bounding-box] (/repo/lisp/geo/geopack.l lines 258-343) and [plane] (lines 789-855),
    :boxtest of polygons (lines 897-899), and VMIN, VMAX, VLESSP and MINIMALBOX of /repo/lisp/c/matrix.c (lines 563-720).

    Simplifications: floats are real numbers; vectors have three components; a quotient with a zero denominator is [None]. *)
From Coq Require Import Reals List Bool.
From Verif Require Import GeoModel.
Import ListNotations.
Local Open Scope R_scope.

Definition rmin (r v : R) : R := if ltb v r then v else r.
Definition rmax (r v : R) : R := if ltb r v then v else r.
(** one round of the loops of VMIN and VMAX: matrix.c lines 669-674 and 704-709 *)
Definition vmin2 (r v : vec) : vec := V (rmin (vx r) (vx v)) (rmin (vy r) (vy v)) (rmin (vz r) (vz v)).
Definition vmax2 (r v : vec) : vec := V (rmax (vx r) (vx v)) (rmax (vy r) (vy v)) (rmax (vz r) (vz v)).
(** VMIN and VMAX on float vectors: matrix.c lines 653-674 and 688-709; at least one argument *)
Definition VMIN (v : vec) (rest : list vec) : vec := fold_left vmin2 rest v.
Definition VMAX (v : vec) (rest : list vec) : vec := fold_left vmax2 rest v.
(** v< on float vectors: matrix.c lines 563-578 (an element that is equal passes) *)
Definition VLESSP (a b : vec) : bool :=
  if ltb (vx b) (vx a) then false else if ltb (vy b) (vy a) then false else if ltb (vz b) (vz a) then false else true.

Record box := Box { minpoint : vec; maxpoint : vec }.

(** MINIMALBOX: matrix.c lines 608-651: the two vectors it stores and the diameter it returns *)
Definition mb1 (m : R * R) (f : R) : R * R :=
  let '(lo, hi) := m in if ltb f lo then (f, hi) else if ltb hi f then (lo, f) else (lo, hi).
Definition mb_step (b : box) (v : vec) : box :=
  let '(x1, x2) := mb1 (vx (minpoint b), vx (maxpoint b)) (vx v) in
  let '(y1, y2) := mb1 (vy (minpoint b), vy (maxpoint b)) (vy v) in
  let '(z1, z2) := mb1 (vz (minpoint b), vz (maxpoint b)) (vz v) in
  Box (V x1 y1 z1) (V x2 y2 z2).
Definition MINIMALBOX (v : vec) (rest : list vec) (err : R) : box * R :=
  let b := fold_left mb_step rest (Box v v) in
  let dx := vx (maxpoint b) - vx (minpoint b) in
  let dy := vy (maxpoint b) - vy (minpoint b) in
  let dz := vz (maxpoint b) - vz (minpoint b) in
  let diameter := sqrt (dx * dx + dy * dy + dz * dz) in
  let e := diameter * err in
  (if Req_EM_T err 0 then b
   else Box (V (vx (minpoint b) - e) (vy (minpoint b) - e) (vz (minpoint b) - e))
            (V (vx (maxpoint b) + e) (vy (maxpoint b) + e) (vz (maxpoint b) + e)), diameter).

(** (:grow (s &optional abs)): geopack.l lines 294-299; the object is changed and returned *)
Definition scale3 (s : R) (a : vec) : vec := V (s * vx a) (s * vy a) (s * vz a).
Definition box_grow (b : box) (s : R) (abs : bool) : box :=
  let d := if abs then V s s s else scale3 s (vminus (maxpoint b) (minpoint b)) in
  Box (vminus (minpoint b) d) (vplus (maxpoint b) d).
Definition grow_opt (b : box) (tolerance : option R) : box :=
  match tolerance with Some t => box_grow b t false | None => b end.
(** (:init2 (v1 v2 &optional tolerance)) and (:init (v &optional tolerance)): lines 333-342 *)
Definition box_init2 (v1 v2 : vec) (tolerance : option R) : box := grow_opt (Box (VMIN v1 [v2]) (VMAX v1 [v2])) tolerance.
Definition box_init (v : vec) (rest : list vec) (tolerance : option R) : box := grow_opt (Box (VMIN v rest) (VMAX v rest)) tolerance.

(** (:inner (point)): line 269.  v> of [point] and [minpoint] is v< the other way round (VGREATERP, matrix.c lines 585-606). *)
Definition box_inner (b : box) (point : vec) : bool := VLESSP point (maxpoint b) && VLESSP (minpoint b) point.
(** (:intersection (box &optional tolerance)): lines 270-283 *)
Definition box_intersection (self b : box) (tolerance : option R) : option box :=
  let v1 := VMAX (minpoint self) [minpoint b] in
  let v2 := VMIN (maxpoint self) [maxpoint b] in
  let '(v1, v2) := match tolerance with
                   | Some t => (vminus v1 (V t t t), vplus v2 (V t t t))
                   | None => (v1, v2)
                   end in
  if VLESSP v1 v2 then Some (box_init2 v1 v2 None) else None.
(** (:union (box &optional tolerance)): lines 284-289 *)
Definition box_union (self b : box) (tolerance : option R) : box :=
  box_init2 (VMIN (minpoint self) [minpoint b]) (VMAX (maxpoint self) [maxpoint b]) tolerance.
(** (:intersection-p (box)): lines 290-293 *)
Definition box_intersection_p (self b : box) : bool :=
  VLESSP (VMAX (minpoint self) [minpoint b]) (VMIN (maxpoint self) [maxpoint b]).
(** (:extream-point (dir)): lines 303-309 *)
Definition extream_point (b : box) (dir : vec) : vec :=
  V (vx (if ltb 0 (vx dir) then maxpoint b else minpoint b))
    (vy (if ltb 0 (vy dir) then maxpoint b else minpoint b))
    (vz (if ltb 0 (vz dir) then maxpoint b else minpoint b)).
(** (:below (box2 &optional dir)): lines 310-313 *)
Definition box_below (self box2 : box) (dir : vec) : bool :=
  let ex1 := extream_point self dir in
  let ex2 := extream_point box2 (scale3 (-1) dir) in
  ltb (vdot dir ex1) (vdot dir ex2).
(** (:corners ()): lines 314-324, for three dimensions; [push] leaves the last corner first *)
Definition corner (b : box) (i : nat) : vec :=
  V (vx (if Nat.testbit i 0 then maxpoint b else minpoint b))
    (vy (if Nat.testbit i 1 then maxpoint b else minpoint b))
    (vz (if Nat.testbit i 2 then maxpoint b else minpoint b)).
Definition box_corners (b : box) : list vec := fold_left (fun r i => corner b i :: r) (seq 0 8) [].
(** (:volume ()): lines 300-302 *)
Definition box_volume (b : box) : R := let a := vminus (maxpoint b) (minpoint b) in vx a * vy a * vz a.
(** (:box (&optional tol)): lines 259-260; the object itself is grown *)
Definition box_box (b : box) (tol : option R) : box := grow_opt b tol.
(** polygon (:boxtest (box &optional tolerance)): lines 897-899: the answer, and the box given afterwards *)
Definition polygon_boxtest (b : box) (tolerance : option R) (v : vec) (rest : list vec) : option box * box :=
  let b' := box_box b tolerance in
  (box_intersection b' (box_init v rest tolerance) None, b').

(** class plane *)
Record plane := Plane { normal : vec; pdistance : R }.
(** (:init (n apoint)) with a vector: lines 847-851 *)
Definition plane_init (n apoint : vec) : plane := Plane n (- vdot n apoint).
(** (:plane-distance (point)): line 795 *)
Definition plane_distance (p : plane) (point : vec) : R := vdot point (normal p) + pdistance p.
(** (:intersection (pv nv)): lines 803-811, with ieee floating point *)
Definition plane_intersection (p : plane) (pv nv : vec) : option R :=
  let nn := vdot (normal p) nv in
  let np := vdot (normal p) pv in
  ndiv (pdistance p + np) (np - nn).
(** (:foot (point)): lines 819-823; (:project (point)), lines 830-832, is the same expression *)
Definition plane_foot (p : plane) (point : vec) : vec :=
  let numerator := vdot (normal p) point + pdistance p in
  vminus point (scale3 numerator (normal p)).
