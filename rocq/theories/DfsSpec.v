(** Specification for C105: plans, first things first. *)
From Coq Require Import List Arith.
From Verif Require Import DfsModel.
Import ListNotations.

(** after [a] the module is loaded, and has not been compiled since *)
Definition fresh (m : nat) (a : list trans) : Prop := exists a1 a2, a = a1 ++ Loading m :: a2 /\ ~ In (Compiling m) a2.
(** every module finds what it needs *)
Definition prepared (s : system) (p : list trans) : Prop :=
  (forall a m b, p = a ++ Loading m :: b -> forall l, In l (load_env s m) -> fresh l a) /\
  (forall a m b, p = a ++ Compiling m :: b -> forall c, In c (comp_env s m) -> fresh c a).
(** no module needs itself for loading, directly or not *)
Definition acyclic (s : system) (rank : nat -> nat) : Prop := forall m l, In l (load_env s m) -> rank l < rank m.
