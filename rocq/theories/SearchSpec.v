(** What the search functions of lib/llib/search.l are for: routes in a graph. *)
From Coq Require Import List.
Import ListNotations.

Section Spec.
Context {N : Type} (succ : N -> list N).
(** [route a b l]: [l] is the list of nodes met on the way from [a] to [b] *)
Inductive route : N -> N -> list N -> Prop :=
| route_here : forall a, route a a [a]
| route_step : forall a b c l, In c (succ a) -> route c b l -> route a b (a :: l).

(** the nodes that matter form a finite set *)
Definition finite_from (start : N) : Prop :=
  exists nodes, In start nodes /\ forall a b, In a nodes -> In b (succ a) -> In b nodes.

(** [x] comes before [y] in [l] *)
Definition before {A} (l : list A) (x y : A) : Prop := x <> y /\ exists l1 l2, l = l1 ++ x :: l2 /\ ~ In y l1.
End Spec.

(** what an arbitrary extension function can make of a path in [n] steps *)
Inductive derived {N : Type} (extend : list N -> list (list N)) (p : list N) : nat -> list N -> Prop :=
| derived_0 : derived extend p 0 p
| derived_S : forall n q r, derived extend p n q -> In r (extend q) -> derived extend p (S n) r.
