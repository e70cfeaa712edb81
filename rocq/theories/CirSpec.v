(** Specification for C107: corners on a straight line can be left out of a polygon without changing it. *)
From Coq Require Import ZArith List.
From Verif Require Import HullModel.
Import ListNotations.
Open Scope Z_scope.

Definition plus (a b : point) : point := Pt (px a + px b) (py a + py b) (pz a + pz b).
Definition times (a b : point) : point := Pt (py a * pz b - pz a * py b) (pz a * px b - px a * pz b) (px a * py b - py a * px b).
(** the three points are on a line *)
Definition in_line (a b c : point) : Prop := times (minus b a) (minus c a) = Pt 0 0 0.
(** twice the area of a closed polygon, as a vector normal to it *)
Fixpoint swept (l : list point) : point := match l with a :: ((b :: _) as r) => plus (times a b) (swept r) | _ => Pt 0 0 0 end.
Definition area2 (l : list point) : point := swept (l ++ firstn 1 l).
(** some of the corners, in the same order *)
Inductive part_of : list point -> list point -> Prop :=
| part_nil : part_of [] []
| part_keep p l m : part_of l m -> part_of (p :: l) (p :: m)
| part_drop p l m : part_of l m -> part_of l (p :: m).
(** no corner is followed by itself *)
Fixpoint stepping (l : list point) : Prop := match l with a :: ((b :: _) as r) => a <> b /\ stepping r | _ => True end.
(** three corners in turn are never on a line *)
Fixpoint bends (l : list point) : Prop := match l with a :: ((b :: c :: _) as r) => ~ in_line a b c /\ bends r | _ => True end.
(** the same but for the last three *)
Fixpoint bends_inside (l : list point) : Prop := match l with a :: ((b :: c :: _ :: _) as r) => ~ in_line a b c /\ bends_inside r | _ => True end.
(** where the polygon goes on in a line, it does not turn back *)
Definition dotp (a b : point) : Z := px a * px b + py a * py b + pz a * pz b.
Fixpoint forward (l : list point) : Prop := match l with a :: ((b :: c :: _) as r) => (in_line a b c -> 0 < dotp (minus b a) (minus c b)) /\ forward r | _ => True end.
