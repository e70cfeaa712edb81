(** Specification for C103: the convex hull of a finite set of points of a plane in space, seen against its normal [n]. *)
From Coq Require Import ZArith List.
From Verif Require Import HullModel.
Import ListNotations.
Open Scope Z_scope.

Definition dot (a b : point) : Z := px a * px b + py a * py b + pz a * pz b.
Definition planar (n : point) (s : list point) : Prop := dot n n <> 0 /\ exists c, forall p, In p s -> dot n p = c.
(** the side of the line from [a] to [b] on which [p] is: positive for left *)
Definition cross (a b : point) : point := Pt (py a * pz b - pz a * py b) (pz a * px b - px a * pz b) (px a * py b - py a * px b).
Definition side (n a b p : point) : Z := dot (cross (minus b a) (minus p a)) n.
(** the sides of a closed polygon *)
Fixpoint pairs (l : list point) : list (point * point) := match l with a :: ((b :: _) as r) => (a, b) :: pairs r | _ => [] end.
Definition polygon_edges (l : list point) : list (point * point) := pairs (l ++ firstn 1 l).
(** no half space that contains all of [h] leaves out [p]: p is in the convex hull of h *)
Definition in_hull (h : list point) (p : point) : Prop := forall w c, (forall q, In q h -> dot w q <= c) -> dot w p <= c.
(** [h] goes once around the points [s], counter-clockwise *)
Definition hull_of (n : point) (s h : list point) : Prop :=
  NoDup h /\ incl h s /\ (forall p, In p s -> in_hull h p) /\ forall a b p, In (a, b) (polygon_edges h) -> In p s -> 0 <= side n a b p.
