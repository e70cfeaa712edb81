(** Specification for C85: what a vector or matrix function with a result argument is to leave in memory. *)
From Coq Require Import List Arith Bool.
From Verif Require Import MatModel.
Import ListNotations.

Section Spec.
Context {F : Type} (zero : F) (add mul : F -> F -> F).

(** element [i] of the vector [v]; element (i,j) of a matrix, stored row by row *)
Definition elt (s : state F) (v i : nat) : F := nth i (ar F s v) zero.
Definition entry (s : state F) (m : matrix) (i j : nat) : F := elt s (ent m) (i * cols m + j).
(** the entity of a matrix holds at least its elements *)
Definition fits (s : state F) (m : matrix) : Prop := rows m * cols m <= length (ar F s (ent m)).

(** The call ends and returns [a]; the vector [r] has the elements [L] up to [n], and nothing else has changed. *)
Definition delivers {A} (a : A) (r n : nat) (L : nat -> F) (s : state F) (o : res F A) : Prop :=
  match o with
  | Done _ x s' => x = a /\ (forall v, v <> r -> ar F s' v = ar F s v) /\ length (ar F s' r) = length (ar F s r) /\
                   (forall i, i < n -> elt s' r i = L i) /\ (forall i, n <= i -> elt s' r i = elt s r i)
  | Error _ | Stray _ => False
  end.
(** the same for a matrix *)
Definition fills (m : matrix) (L : nat -> nat -> F) (s : state F) (o : res F matrix) : Prop :=
  match o with
  | Done _ x s' => x = m /\ (forall v, v <> ent m -> ar F s' v = ar F s v) /\
                   length (ar F s' (ent m)) = length (ar F s (ent m)) /\
                   (forall i j, i < rows m -> j < cols m -> entry s' m i j = L i j) /\
                   (forall x, rows m * cols m <= x -> elt s' (ent m) x = elt s (ent m) x)
  | Error _ | Stray _ => False
  end.
(** the sum of products, added up from the first *)
Fixpoint dot (n : nat) (f g : nat -> F) : F :=
  match n with O => zero | S k => add (dot k f g) (mul (f k) (g k)) end.
(** the sum of several vectors' elements *)
Definition total (s : state F) (a : nat) (ps : list nat) (i : nat) : F :=
  fold_left (fun x p => add x (elt s p i)) ps (elt s a i).
End Spec.
