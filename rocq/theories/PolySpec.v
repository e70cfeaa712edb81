(** Specification for C94: polygons. *)
From Coq Require Import Reals List.
From Verif Require Import GeoModel GeoSpec.
Import ListNotations.
Local Open Scope R_scope.

Definition dot3 (a b : vec) : R := vx a * vx b + vy a * vy b + vz a * vz b.
Definition sub3 (a b : vec) : vec := V (vx a - vx b) (vy a - vy b) (vz a - vz b).
(** how far c is to the left of the way from a to b, seen against the direction n, times the length of the way *)
Definition left_of (n a b c : vec) : R :=
  let p := sub3 b a in let q := sub3 c a in
  vx n * (vy p * vz q - vz p * vy q) + vy n * (vz p * vx q - vx p * vz q) + vz n * (vx p * vy q - vy p * vx q).
(** the plane through o with the two directions e and f, and its unit normal *)
Definition planar (o e f p : vec) : Prop := exists x y,
  p = V (vx o + x * vx e + y * vx f) (vy o + x * vy e + y * vy f) (vz o + x * vz e + y * vz f).
Definition unit_normal (e f n : vec) : Prop := dot3 n n = 1 /\ dot3 n e = 0 /\ dot3 n f = 0.

(** the edges of the polygon with the given vertices *)
Fixpoint pairs (l : list vec) : list (vec * vec) :=
  match l with
  | a :: (b :: _) as r => (a, b) :: pairs r
  | _ => []
  end.
Definition edges (ver : list vec) : list (vec * vec) :=
  match ver with
  | [] => []
  | v :: _ => pairs (ver ++ [v])
  end.
(** a convex polygon without straight corners, running counterclockwise: every vertex that is not an end of an edge is to the
    left of the edge *)
Definition convex (n : vec) (ver : list vec) : Prop :=
  (3 <= length ver)%nat /\ NoDup ver /\
  forall a b, In (a, b) (edges ver) -> forall v, In v ver -> v = a \/ v = b \/ 0 < left_of n a b v.
(** the points of the polygon: the smallest convex set with the vertices in it *)
Inductive hull (ver : list vec) : vec -> Prop :=
| hull_vertex : forall v, In v ver -> hull ver v
| hull_between : forall p q t, hull ver p -> hull ver q -> 0 <= t <= 1 -> hull ver (along (Line p q) t).
(** the point is at least eps away from the line of every edge *)
Definition clear_of (eps : R) (ver : list vec) (p : vec) : Prop :=
  forall a b, In (a, b) (edges ver) -> forall q, on_line (Line a b) q -> eps <= far q p.
(** the corners of the polygon: three vertices that follow each other *)
Fixpoint triples (l : list vec) : list (vec * vec * vec) :=
  match l with
  | a :: (b :: (c :: _)) as r => (a, b, c) :: triples r
  | _ => []
  end.
Definition corners (ver : list vec) : list (vec * vec * vec) :=
  match ver with
  | v :: w :: _ => triples (ver ++ [v; w])
  | _ => []
  end.
