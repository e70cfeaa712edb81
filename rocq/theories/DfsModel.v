(** defsystem: planning what to load and compile.  /repo/lib/llib/defsystem.l, make-transformations (lines 211-216), make-compile-transformation (218-227),
    make-load-transformation (229-237), compile-filter (247-256), and the modes :load, :compile and :recompile of operate-on-system.

    Simplifications: a module is a number, its three lists functions of it (make-modules, which reads them from the description, is left out); [stale] says
    that the binary is missing or older than the source; the header cell of the list of transformations, there to be pushed behind, is left out; the recursion
    has fuel, [None] when it runs out; carrying out the plan, and the modes that ask the user, are left out. *)
From Coq Require Import List Arith Bool.
Import ListNotations.

Record system := Sys { load_env : nat -> list nat; comp_env : nat -> list nat; recomp_reasons : nat -> list nat; stale : nat -> bool }.
Inductive trans := Compiling (m : nat) | Loading (m : nat).
(** transformations are pushed, so the latest is the first *)
(** the test of make-load-transformation (230-233): the latest transformation of the module is to load it *)
Fixpoint is_loaded (m : nat) (ts : list trans) : bool :=
  match ts with
  | [] => false
  | Compiling k :: r => if k =? m then false else is_loaded m r
  | Loading k :: r => if k =? m then true else is_loaded m r
  end.
(** the test of make-compile-transformation (219-222) *)
Definition is_compiled (m : nat) (ts : list trans) : bool := existsb (fun t => match t with Compiling k => k =? m | Loading _ => false end) ts.
(** dolist over modules, the transformations being changed *)
Fixpoint each (f : nat -> list trans -> option (list trans)) (ms : list nat) (ts : list trans) : option (list trans) :=
  match ms with [] => Some ts | m :: r => match f m ts with Some ts' => each f r ts' | None => None end end.
(** 229-237 *)
Fixpoint make_load (s : system) (fuel m : nat) (ts : list trans) : option (list trans) :=
  if is_loaded m ts then Some ts
  else match fuel with
       | O => None
       | S n => match each (make_load s n) (load_env s m) ts with Some ts' => Some (Loading m :: ts') | None => None end
       end.
(** 218-227 *)
Definition make_compile (s : system) (fuel m : nat) (ts : list trans) : option (list trans) :=
  if is_compiled m ts then Some ts
  else match each (make_load s fuel) (comp_env s m) ts with Some ts' => Some (Compiling m :: ts') | None => None end.
(** 247-256 *)
Definition compile_filter (s : system) (m : nat) (ts : list trans) : bool := existsb (fun r => is_compiled r ts) (recomp_reasons s m) || stale s m.
(** 211-216 *)
Definition make_transformations (filter : nat -> list trans -> bool) (make : nat -> list trans -> option (list trans)) (modules : list nat) : option (list trans) :=
  match each (fun m ts => if filter m ts then make m ts else Some ts) modules [] with Some ts => Some (rev ts) | None => None end.
Definition plan_load (s : system) (fuel : nat) (modules : list nat) : option (list trans) := make_transformations (fun _ _ => true) (make_load s fuel) modules.
Definition plan_compile (s : system) (fuel : nat) (modules : list nat) : option (list trans) := make_transformations (compile_filter s) (make_compile s fuel) modules.
Definition plan_recompile (s : system) (fuel : nat) (modules : list nat) : option (list trans) := make_transformations (fun _ _ => true) (make_compile s fuel) modules.
