(** Specification for C91: what the nearest points of points, lines and segments are. *)
From Coq Require Import Reals List.
From Verif Require Import GeoModel.
Import ListNotations.
Local Open Scope R_scope.

(** the distance of two points (Euclid) *)
Definition far (p q : vec) : R := sqrt ((vx p - vx q) ^ 2 + (vy p - vy q) ^ 2 + (vz p - vz q) ^ 2).
(** the point t of the way from one end to the other: t = 0 is the start, t = 1 the end *)
Definition along (l : line) (t : R) : vec :=
  V (vx (pvert l) + t * (vx (nvert l) - vx (pvert l)))
    (vy (pvert l) + t * (vy (nvert l) - vy (pvert l)))
    (vz (pvert l) + t * (vz (nvert l) - vz (pvert l))).
Definition on_segment (l : line) (p : vec) : Prop := exists t, 0 <= t <= 1 /\ p = along l t.
Definition on_line (l : line) (p : vec) : Prop := exists t, p = along l t.
(** a line with two different ends *)
Definition proper (l : line) : Prop := pvert l <> nvert l.

(** d is the least distance between a point of A and a point of B *)
Definition least_distance (A B : vec -> Prop) (d : R) : Prop :=
  (exists p q, A p /\ B q /\ far p q = d) /\ (forall p q, A p -> B q -> d <= far p q).
(** p and q are the only nearest pair of A and B *)
Definition nearest_pair (A B : vec -> Prop) (p q : vec) : Prop :=
  A p /\ B q /\ (forall p' q', A p' -> B q' -> far p q <= far p' q') /\
  (forall p' q', A p' -> B q' -> far p' q' = far p q -> p' = p /\ q' = q).

(** the squared area of the parallelogram spanned by two lines: zero exactly for parallel lines *)
Definition spread (l m : line) : R :=
  let a := (vx (nvert l) - vx (pvert l), vy (nvert l) - vy (pvert l), vz (nvert l) - vz (pvert l)) in
  let b := (vx (nvert m) - vx (pvert m), vy (nvert m) - vy (pvert m), vz (nvert m) - vz (pvert m)) in
  let '(a1, a2, a3) := a in let '(b1, b2, b3) := b in
  (a2 * b3 - a3 * b2) ^ 2 + (a3 * b1 - a1 * b3) ^ 2 + (a1 * b2 - a2 * b1) ^ 2.

(** the intersection of two lines drawn in the plane (only the first two coordinates count) *)
Definition meet2 (a b : line) (u v : R) : Prop :=
  vx (along a u) = vx (along b v) /\ vy (along a u) = vy (along b v).
