(** Lines and segments in space: the methods of class [line] of /repo/lisp/geo/geopack.l (lines 387-567), [farthest] and
    [farthest-pair] (lines 113-130), and the primitives LINE-INTERSECTION and LINE-INTERSECTION3 of
    /repo/lisp/geo/intersection.c (lines 18-119).

    Simplifications: floats are real numbers, so nothing is rounded; vectors have three components; a quotient with a zero
    denominator is [None], which stands for the NaN or infinity the code goes on with. *)
From Coq Require Import Reals List Bool.
Import ListNotations.
Local Open Scope R_scope.

Record vec := V { vx : R; vy : R; vz : R }.

(** comparison of two floats, as a boolean *)
Definition ltb (x y : R) : bool := if Rlt_dec x y then true else false.
(** division; [None] when the denominator is zero (the code then has a NaN or an infinity) *)
Definition ndiv (x y : R) : option R := if Req_EM_T y 0 then None else Some (x / y).

(** v+, v-, scale, v. and v-star: /repo/lisp/c/matrix.c, VPLUS, VMINUS, SCALEVEC, VINNERPRODUCT, VCROSSPRODUCT, on floats *)
Definition vplus (a b : vec) : vec := V (vx a + vx b) (vy a + vy b) (vz a + vz b).
Definition vminus (a b : vec) : vec := V (vx a - vx b) (vy a - vy b) (vz a - vz b).
Definition vdot (a b : vec) : R := vx a * vx b + vy a * vy b + vz a * vz b.
Definition vcross (a b : vec) : vec :=
  V (vy a * vz b - vz a * vy b) (vz a * vx b - vx a * vz b) (vx a * vy b - vy a * vx b).
(** norm: matrix.c VNORM *)
Definition vnorm (a : vec) : R := sqrt (vdot a a).
(** distance: matrix.c lines 313-339 (VDISTANCE), on float vectors *)
Definition vdistance (a b : vec) : R := sqrt (vdot (vminus a b) (vminus a b)).
(** midpoint: matrix.c lines 476-504 (MIDPOINT), on float vectors *)
Definition midpoint (ratio : R) (p1 p2 : vec) : vec :=
  let ratio2 := 1 - ratio in
  V (vx p1 * ratio2 + vx p2 * ratio) (vy p1 * ratio2 + vy p2 * ratio) (vz p1 * ratio2 + vz p2 * ratio).

Record line := Line { pvert : vec; nvert : vec }.

(** (:parameter (point)): geopack.l lines 400-403 *)
Definition line_parameter (l : line) (point : vec) : option R :=
  let a := vminus (nvert l) (pvert l) in
  let b := vminus point (pvert l) in
  ndiv (vdot a b) (vdot a a).

(** (:point (p)): geopack.l lines 404-410 *)
Definition line_point (l : line) (p : R) : vec := midpoint p (pvert l) (nvert l).

(** (:foot (point)): geopack.l lines 443-446 *)
Definition line_foot (l : line) (point : vec) : option R :=
  let a := vminus (pvert l) (nvert l) in
  ndiv (vdot a (vminus (pvert l) point)) (vdot a a).

(** (:common-perpendicular (l)): geopack.l lines 447-465.  [*parallel-threshold*] is 0.01 unless the user sets it (line 55). *)
Inductive perp := Parallel | Pair (v1 v2 : vec).
Definition parallel_threshold : R := 1 / 100.
Definition common_perpendicular (self l : line) : option perp :=
  let c11 := vnorm (vminus (nvert l) (pvert l)) in
  let c11 := - (c11 * c11) in
  let c12 := vdot (vminus (nvert self) (pvert self)) (vminus (nvert l) (pvert l)) in
  let c21 := - c12 in
  let c22 := vnorm (vminus (nvert self) (pvert self)) in
  let c22 := c22 * c22 in
  let det := c12 * c12 + c11 * c22 in
  if ltb (Rabs det) parallel_threshold then Some Parallel
  else
    let a := vdot (vminus (nvert self) (pvert self)) (vminus (pvert l) (pvert self)) in
    let b := vdot (vminus (nvert l) (pvert l)) (vminus (pvert l) (pvert self)) in
    match ndiv (c11 * a + c12 * b) det, ndiv (c21 * a + c22 * b) det with
    | Some s, Some t => Some (Pair (line_point self s) (line_point l t))
    | _, _ => None
    end.

(** (:distance-point (p)): geopack.l lines 468-473 *)
Definition distance_point (l : line) (p : vec) : option R :=
  match line_foot l p with
  | None => None
  | Some par =>
      Some (if ltb 1 par then vdistance (nvert l) p
            else if ltb par 0 then vdistance (pvert l) p
            else vdistance (line_point l par) p)
  end.

(** (:distance-line (ln)): geopack.l lines 474-497.  The final [min] of four floats (arith.c MIN) is [Rmin], so that the result
    is a number only when all four are. *)
Definition distance_line (self ln : line) : option R :=
  let b1 := pvert ln in let b2 := nvert ln in
  let a := vminus (nvert self) (pvert self) in
  let b := vminus b2 b1 in
  let ab := vdot a b in let aa := vdot a a in let bb := vdot b b in
  let x := vminus (pvert self) b1 in
  let para := ab * ab - aa * bb in
  let ends :=
    match distance_point self b1, distance_point self b2, distance_point ln (pvert self), distance_point ln (nvert self) with
    | Some dab1, Some dab2, Some dba1, Some dba2 => Some (Rmin (Rmin (Rmin dab1 dab2) dba1) dba2)
    | _, _, _, _ => None
    end in
  if ltb (1 / 10000) (Rabs para) then
    let xa := vdot x a in let xb := vdot x b in
    let ta := (bb * xa - ab * xb) / para in
    let tb := (ab * xa - aa * xb) / para in
    if (ltb 0 ta && ltb ta 1) && (ltb 0 tb && ltb tb 1)
    then Some (vdistance (line_point self ta) (line_point ln tb))
    else ends
  else ends.

(** (:colinear-line-intersection (ln2)): geopack.l lines 520-532.  The result is [None] when a parameter is not a number, and
    otherwise [Some None] for nil or [Some (Some l)] for the overlapping line. *)
Definition colinear_line_intersection (self ln2 : line) : option (option line) :=
  match line_parameter self (pvert ln2), line_parameter self (nvert ln2) with
  | Some p2, Some n2 =>
      let '(p2, n2) := if ltb n2 p2 then (n2, p2) else (p2, n2) in
      Some (if ltb n2 0 || ltb 1 p2 then None
            else
              let p1 := Rmax 0 p2 in
              let n1 := Rmin 1 n2 in
              Some (Line (line_point self p1) (line_point self n1)))
  | _, _ => None
  end.

(** LINE-INTERSECTION: intersection.c lines 18-50.  Only the first two components of the vectors are read. *)
Definition LINE_INTERSECTION (a1 a2 b1 b2 : vec) (range_check : bool) : option (R * R) :=
  let ax := vx a2 - vx a1 in let ay := vy a2 - vy a1 in
  let bx := vx b2 - vx b1 in let by_ := vy b2 - vy b1 in
  let abx := vx b1 - vx a1 in let aby := vy b1 - vy a1 in
  let cz := ax * by_ - ay * bx in
  if Req_EM_T cz 0 then None
  else
    let u := (abx * by_ - aby * bx) / cz in
    let v := (abx * ay - aby * ax) / cz in
    if range_check && (ltb u 0 || ltb 1 u || ltb v 0 || ltb 1 v) then None else Some (u, v).

(** determinant3: intersection.c lines 70-74 *)
Definition determinant3 (a b c : vec) : R :=
  vx a * vy b * vz c - vz a * vy b * vx c + vy a * vz b * vx c - vy a * vx b * vz c + vz a * vx b * vy c - vx a * vz b * vy c.

(** LINE-INTERSECTION3: intersection.c lines 84-119.  [Some None] is NIL; [None] is a pair of numbers that are not numbers. *)
Definition LINE_INTERSECTION3 (a1 a2 b1 b2 : vec) (tolerance : R) : option (option (R * R)) :=
  let v1 := vminus a2 a1 in
  let v2 := vminus b2 b1 in
  let p2p1 := vminus b1 a1 in
  let cross := vcross v1 v2 in
  let cross2 := vx cross * vx cross + vy cross * vy cross + vz cross * vz cross in
  if ltb cross2 tolerance then Some None
  else
    match ndiv (determinant3 p2p1 v2 cross) cross2, ndiv (determinant3 p2p1 v1 cross) cross2 with
    | Some u, Some v => Some (Some (u, v))
    | _, _ => None
    end.

(** farthest: geopack.l lines 113-119.  The list has at least one point ([pop] of nil would make [distance] signal an error). *)
Fixpoint farthest_loop (p vv : vec) (dist : R) (points : list vec) : vec :=
  match points with
  | nil => vv
  | v :: r =>
      let d := vdistance p v in
      if ltb dist d then farthest_loop p v d r else farthest_loop p vv dist r
  end.
Definition farthest (p : vec) (points : list vec) : option vec :=
  match points with
  | nil => None
  | vv :: r => Some (farthest_loop p vv (vdistance p vv) r)
  end.

(** farthest-pair: geopack.l lines 121-130: the while loop over the tails of the list *)
Fixpoint farthest_pair_loop (v1 v2 : vec) (dist : R) (ps : list vec) : option (vec * vec) :=
  match ps with
  | nil => Some (v1, v2)
  | v11 :: rest =>
      match rest with
      | nil => Some (v1, v2)
      | _ :: _ =>
          match farthest v11 rest with
          | None => None
          | Some v22 =>
              let d := vdistance v11 v22 in
              if ltb dist d then farthest_pair_loop v11 v22 d rest else farthest_pair_loop v1 v2 dist rest
          end
      end
  end.
Definition farthest_pair (points : list vec) : option (vec * vec) :=
  match points with
  | nil => None
  | v1 :: ps =>
      match farthest v1 ps with
      | None => None
      | Some v2 => farthest_pair_loop v1 v2 (vdistance v1 v2) ps
      end
  end.
