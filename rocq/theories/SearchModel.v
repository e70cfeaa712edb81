(** Model of the graph search functions of lib/llib/search.l.

    A path is a list of nodes, the latest first.  Nodes are compared by eq ([eqb]); [extend] is the function given by
    the caller, taken to be pure and to return lists of non-empty paths.  The functions share cells between paths and
    sort in place, and the final nreverse destroys the cells of one path; nothing reads the destroyed cells afterwards,
    so paths are values here.  Recursion depth (each extension is one recursive call) is not bounded by the model's
    stack; fuel counts the calls. *)
From Coq Require Import List Arith Bool.
From Verif Require Import ListModel SeqModel.
Import ListNotations.

Inductive answer (N : Type) := Stuck (* fuel ran out *) | NoPath (* NIL *) | Found (p : list N) | Fail (* error signalled *).
Arguments Stuck {N}. Arguments NoPath {N}. Arguments Found {N}. Arguments Fail {N}.

Section Search.
Context {N : Type} (eqb : N -> N -> bool).

(** search.l 18-21 extend-wing, with [succ] for the method :all-wings: neighbours already on the path are removed.
    On the empty path (never met) (send NIL :all-wings) would be an error. *)
Definition memb (x : N) (l : list N) : bool := existsb (eqb x) l.
Definition extend_wing (succ : N -> list N) (path : list N) : list (list N) :=
  match path with
  | [] => []
  | n :: _ => map (fun new => new :: path) (filter (fun x => negb (memb x path)) (succ n))
  end.

(** (eq finish (first (first queue))) *)
Definition arrived (finish : N) (path : list N) : bool :=
  match path with [] => false | n :: _ => eqb finish n end.

Variables (finish : N) (extend : list N -> list (list N)).

(** search.l 23-28 *)
Fixpoint depth_first (fuel : nat) (queue : list (list N)) : answer N :=
  match fuel with
  | O => Stuck
  | S f => match queue with
           | [] => NoPath
           | p :: rest => if arrived finish p then Found (rev p) else depth_first f (extend p ++ rest)
           end
  end.

(** search.l 30-35 *)
Fixpoint breadth_first (fuel : nat) (queue : list (list N)) : answer N :=
  match fuel with
  | O => Stuck
  | S f => match queue with
           | [] => NoPath
           | p :: rest => if arrived finish p then Found (rev p) else breadth_first f (rest ++ extend p)
           end
  end.

(** The evaluator on two paths.  [evnil y] is (funcall evaluator NIL y), [None] when that is an error: merge-list asks
    for it at the end of its first list. *)
Variables (ev : list N -> list N -> bool) (evnil : list N -> option bool).
Definition pred (x y : list N) : option bool := match x with [] => evnil y | _ => Some (ev x y) end.

(** (sort paths evaluator): the cars are sorted in place by qsort, see SORT_list *)
Definition sortp (l : list (list N)) : list (list N) := SORT_vec ev (fun x => x) l.

(** search.l 53-62: (merge cons (sort (funcall extend (first queue)) evaluator) (rest queue) evaluator) *)
Fixpoint best_first (fuel : nat) (queue : list (list N)) : answer N :=
  match fuel with
  | O => Stuck
  | S f => match queue with
           | [] => NoPath
           | p :: rest => if arrived finish p then Found (rev p)
                          else match merge_list [] pred (sortp (extend p)) rest with
                               | Ret q => best_first f q
                               | _ => Fail
                               end
           end
  end.

(** search.l 64-71 *)
Fixpoint hill_climb (fuel : nat) (queue : list (list N)) : answer N :=
  match fuel with
  | O => Stuck
  | S f => match queue with
           | [] => NoPath
           | p :: rest => if arrived finish p then Found (rev p) else hill_climb f (sortp (extend p) ++ rest)
           end
  end.

(** search.l 73-81 *)
Fixpoint branch_and_bound (fuel : nat) (queue : list (list N)) : answer N :=
  match fuel with
  | O => Stuck
  | S f => match queue with
           | [] => NoPath
           | p :: rest => if arrived finish p then Found (rev p) else branch_and_bound f (sortp (extend p ++ rest))
           end
  end.
End Search.
