(** Polygons: [triangle], [vector-mean], [face-normal-vector] (/repo/lisp/geo/geopack.l lines 68-121) and the methods :init,
    :reset-normal, :area, :centroid, :insidep (of polygons marked convex) and :set-convexp of class [polygon] (lines 917-1062).

    Simplifications: floats are real numbers; a quotient with a zero denominator is [None]; edges are not represented (the
    methods modelled read the vertices only). *)
From Coq Require Import Reals List Bool.
From Verif Require Import GeoModel BoxModel.
Import ListNotations.
Local Open Scope R_scope.

(** v.star, the scalar triple product: /repo/lisp/c/matrix.c lines 419-438 *)
Definition SCA3PROD (a b c : vec) : R :=
  vx a * vy b * vz c + vz a * vx b * vy c + vy a * vz b * vx c - vz a * vy b * vx c - vx a * vz b * vy c - vy a * vx b * vz c.
(** triangle: geopack.l lines 85-95 *)
Definition triangle (a b c normal : vec) : R := SCA3PROD (vminus b a) (vminus c b) normal.
(** vplus and vector-mean: lines 68-76 *)
Definition vsum (vs : list vec) : vec := fold_left (fun rv v => GeoModel.vplus v rv) vs (V 0 0 0).
Definition vector_mean (vs : list vec) : vec := scale3 (1 / INR (length vs)) (vsum vs).

(** the closed list of vertices that :init stores: (append (last ver) ver), lines 1038-1055 *)
Definition close (ver : list vec) : list vec := last ver (V 0 0 0) :: ver.

(** face-normal-vector: lines 110-121 (of the list without the repeated vertex); normalize-vector divides by the length *)
Fixpoint normal_loop (v1 : vec) (vlist : list vec) (acc : vec) : vec * vec :=
  match vlist with
  | [] => (v1, acc)
  | v2 :: r => normal_loop v2 r (GeoModel.vplus (vcross v1 v2) acc)
  end.
Definition normal_sum (ver : list vec) : vec :=
  match ver with
  | [] => V 0 0 0
  | v1 :: r => let '(vl, acc) := normal_loop v1 r (V 0 0 0) in GeoModel.vplus (vcross vl v1) acc
  end.
Definition normalize (a : vec) : option vec :=
  match ndiv (vx a) (vnorm a), ndiv (vy a) (vnorm a), ndiv (vz a) (vnorm a) with
  | Some x, Some y, Some z => Some (V x y z)
  | _, _, _ => None
  end.
(** :reset-normal: lines 1020-1022: the plane of the polygon *)
Definition reset_normal (ver : list vec) : option plane :=
  match normalize (normal_sum ver) with
  | None => None
  | Some n => Some (Plane n (- vdot n (hd (V 0 0 0) (close ver))))
  end.

(** :area: lines 917-922 *)
Fixpoint area_loop (vs : list vec) (c normal : vec) (s : R) : R :=
  match vs with
  | a :: (b :: _) as r => area_loop r c normal (s + triangle a b c normal)
  | _ => s
  end.
Definition polygon_area (ver : list vec) (normal : vec) : R :=
  let vs := close ver in area_loop vs (vector_mean vs) normal 0 / 2.

(** :centroid without a point: lines 928-943: the area and the centre of gravity *)
Fixpoint centroid_loop (vs : list vec) (c normal : vec) (total : R) (g : vec) : R * vec :=
  match vs with
  | a :: (b :: _) as r =>
      let s := triangle a b c normal in
      centroid_loop r c normal (total + s) (GeoModel.vplus g (scale3 (s / 3) (GeoModel.vplus c (GeoModel.vplus a b))))
  | _ => (total, g)
  end.
Definition polygon_centroid (ver : list vec) (normal : vec) : option (R * vec) :=
  let vs := close ver in
  let '(total, g) := centroid_loop vs (vector_mean vs) normal 0 (V 0 0 0) in
  match ndiv 1 total with
  | None => None
  | Some k => Some (total / 2, scale3 k g)
  end.

(** eps-zero and eps-in-range: lines 197-199, 219, 232-236 *)
Definition eps_zero (x eps : R) : bool := ltb (Rabs (x - 0)) eps.
Definition eps_in_range (a b c eps : R) : bool := negb (ltb b (a - eps)) && negb (ltb (c + eps) b).
Inductive place := Inside | Border | Outside.
(** :insidep of a polygon with convexp: lines 949-971.  A quotient that is not a number fails the test eps-zero. *)
Fixpoint inside_loop (v2 : vec) (rest : list vec) (point normal : vec) (eps : R) : place :=
  match rest with
  | [] => Inside
  | v1 :: r =>
      let th := triangle v2 v1 point normal in
      if match ndiv th (vdistance v2 v1) with Some q => eps_zero q eps | None => false end then
        let a := vminus v1 v2 in
        let b := vminus point v2 in
        if match ndiv (vdot a b) (vdot a a) with Some param => eps_in_range 0 param 1 eps | None => true end
        then Border
        else inside_loop v1 r point normal eps
      else if ltb th 0 then Outside
      else inside_loop v1 r point normal eps
  end.
Definition insidep_convex (ver : list vec) (normal point : vec) (eps : R) : place :=
  match close ver with
  | [] => Inside
  | v2 :: r => inside_loop v2 r point normal eps
  end.

(** :set-convexp: lines 1023-1029 *)
Fixpoint convexp_loop (verts : list vec) (normal : vec) : bool :=
  match verts with
  | a :: (b :: (c :: _)) as r => if ltb (triangle a b c normal) 0 then false else convexp_loop r normal
  | _ => true
  end.
Definition set_convexp (ver : list vec) (normal : vec) : bool :=
  let vertices := close ver in convexp_loop (vertices ++ [nth 1 vertices (V 0 0 0)]) normal.
