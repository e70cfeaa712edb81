(** What the control forms mean, without a stack: C35-C37. *)
From Verif Require Import ControlModel.

Definition state := ((nat -> word) * list nat)%type.      (* special variables, visible effects so far *)
Definition assign (x : nat) (v : word) (s : state) : state := (upd (fst s) x v, snd s).

(** How a form ends: with a value; with a throw to the catch reached after passing [k] enclosing catches; with a
    return from the block named [n]; with an error.  [pend]: bindings not yet undone, innermost first. *)
Inductive outcome :=
| RVal (v : word)
| RThrow (k : nat) (v : word) (pend : list (nat * word))
| RReturn (n : nat) (v : word) (pend : list (nat * word))
| RErr.

Definition leaves (o : outcome) : Prop := match o with RThrow _ _ _ | RReturn _ _ _ => True | _ => False end.
Definition no_value (o : outcome) : Prop := match o with RVal _ => False | _ => True end.

Fixpoint index (t : word) (tags : list word) : option nat :=
  match tags with
  | [] => None
  | u :: r => if Z.eqb u t then Some 0 else option_map S (index t r)
  end.

Fixpoint restore (pend : list (nat * word)) (s : state) : state :=
  match pend with [] => s | (x, old) :: r => restore r (assign x old s) end.

Section Meaning.
  Variable P : nat -> exp.
  (** [late = false]: a binding is undone when its let is left, in every way (the meaning of Common Lisp).
      [late = true]: on a throw or return it is undone only on arrival, after all cleanup forms. *)
  Variable late : bool.
  (** what is done to a value on a throw or return *)
  Variable dl : word -> word.

  Definition let_exit (x : nat) (old : word) (o : outcome) (s : state) : outcome * state :=
    match o with
    | RVal v => (RVal v, assign x old s)
    | RThrow k v pend => if late then (RThrow k v (pend ++ [(x, old)]), s) else (RThrow k v pend, assign x old s)
    | RReturn n v pend => if late then (RReturn n v (pend ++ [(x, old)]), s) else (RReturn n v pend, assign x old s)
    | RErr => (RErr, s)
    end.
  Definition catch_exit (o : outcome) (s : state) : outcome * state :=
    match o with
    | RThrow 0 v pend => (RVal (dl v), restore pend s)
    | RThrow (S k) v pend => (RThrow k v pend, s)
    | _ => (o, s)
    end.
  Definition block_exit (n : nat) (o : outcome) (s : state) : outcome * state :=
    match o with
    | RReturn m v pend => if m =? n then (RVal (dl v), restore pend s) else (o, s)
    | _ => (o, s)
    end.

  (** [ev tags blocks e s o s']: in the scope of catches with these tags (innermost first) and blocks with these
      names, e started in s ends as o in s'. *)
  Inductive ev : list word -> list nat -> exp -> state -> outcome -> state -> Prop :=
  | ev_const T L w s : ev T L (Const w) s (RVal w) s
  | ev_emit T L k s : ev T L (Emit k) s (RVal NILw) (fst s, snd s ++ [k])
  | ev_get T L x s : ev T L (Get x) s (RVal (fst s x)) s
  | ev_set T L x e s v s1 : ev T L e s (RVal v) s1 -> ev T L (SetQ x e) s (RVal v) (assign x v s1)
  | ev_set_x T L x e s o s1 : ev T L e s o s1 -> no_value o -> ev T L (SetQ x e) s o s1
  | ev_progn T L a b s v s1 o s2 : ev T L a s (RVal v) s1 -> ev T L b s1 o s2 -> ev T L (Progn a b) s o s2
  | ev_progn_x T L a b s o s1 : ev T L a s o s1 -> no_value o -> ev T L (Progn a b) s o s1
  | ev_if T L c a b s v s1 o s2 : ev T L c s (RVal v) s1 ->
      ev T L (if Z.eqb v NILw then b else a) s1 o s2 -> ev T L (If c a b) s o s2
  | ev_if_x T L c a b s o s1 : ev T L c s o s1 -> no_value o -> ev T L (If c a b) s o s1
  | ev_let T L x e b s v s1 o s2 : ev T L e s (RVal v) s1 -> ev T L b (assign x v s1) o s2 ->
      ev T L (Let x e b) s (fst (let_exit x (fst s1 x) o s2)) (snd (let_exit x (fst s1 x) o s2))
  | ev_let_x T L x e b s o s1 : ev T L e s o s1 -> no_value o -> ev T L (Let x e b) s o s1
  | ev_catch T L tag b s t s1 o s2 : ev T L tag s (RVal t) s1 -> ev (t :: T) L b s1 o s2 ->
      ev T L (Catch tag b) s (fst (catch_exit o s2)) (snd (catch_exit o s2))
  | ev_catch_x T L tag b s o s1 : ev T L tag s o s1 -> no_value o -> ev T L (Catch tag b) s o s1
  | ev_throw T L tag e s t s1 v s2 k : ev T L tag s (RVal t) s1 -> ev T L e s1 (RVal v) s2 ->
      index t T = Some k -> ev T L (Throw tag e) s (RThrow k v []) s2
  | ev_throw_none T L tag e s t s1 v s2 : ev T L tag s (RVal t) s1 -> ev T L e s1 (RVal v) s2 ->
      index t T = None -> ev T L (Throw tag e) s RErr s2
  | ev_throw_x1 T L tag e s o s1 : ev T L tag s o s1 -> no_value o -> ev T L (Throw tag e) s o s1
  | ev_throw_x2 T L tag e s t s1 o s2 : ev T L tag s (RVal t) s1 -> ev T L e s1 o s2 -> no_value o ->
      ev T L (Throw tag e) s o s2
  | ev_block T L n b s o s1 : ev T (n :: L) b s o s1 ->
      ev T L (Block n b) s (fst (block_exit n o s1)) (snd (block_exit n o s1))
  | ev_return T L n e s v s1 : In n L -> ev T L e s (RVal v) s1 -> ev T L (ReturnFrom n e) s (RReturn n v []) s1
  | ev_return_none T L n e s : ~ In n L -> ev T L (ReturnFrom n e) s RErr s
  | ev_return_x T L n e s o s1 : In n L -> ev T L e s o s1 -> no_value o -> ev T L (ReturnFrom n e) s o s1
  | ev_loop_end T L c b s s1 : ev T L c s (RVal NILw) s1 -> ev T L (Loop c b) s (RVal NILw) s1
  | ev_loop T L c b s v s1 w s2 o s3 : ev T L c s (RVal v) s1 -> v <> NILw -> ev T L b s1 (RVal w) s2 ->
      ev T L (Loop c b) s2 o s3 -> ev T L (Loop c b) s o s3
  | ev_loop_x1 T L c b s o s1 : ev T L c s o s1 -> no_value o -> ev T L (Loop c b) s o s1
  | ev_loop_x2 T L c b s v s1 o s2 : ev T L c s (RVal v) s1 -> v <> NILw -> ev T L b s1 o s2 -> no_value o ->
      ev T L (Loop c b) s o s2
  (** the cleanup form runs once when the protected form ends normally, *)
  | ev_protect T L e c s v s1 w s2 : ev T L e s (RVal v) s1 -> ev T L c s1 (RVal w) s2 ->
      ev T L (Protect e c) s (RVal v) s2
  | ev_protect_x T L e c s v s1 o s2 : ev T L e s (RVal v) s1 -> ev T L c s1 o s2 -> no_value o ->
      ev T L (Protect e c) s o s2
  (** and once when it is left; *)
  | ev_protect_l T L e c s o s1 w s2 : ev T L e s o s1 -> leaves o -> ev [] [] c s1 (RVal w) s2 ->
      ev T L (Protect e c) s o s2
  (** during a throw it may itself throw to the target of that throw or further out, or end in an error.  Nothing
      is said about a cleanup form left otherwise. *)
  | ev_protect_t T L e c s k v pend s1 k2 v2 pend2 s2 : ev T L e s (RThrow k v pend) s1 ->
      ev (skipn k T) [] c s1 (RThrow k2 v2 pend2) s2 -> ev T L (Protect e c) s (RThrow (k + k2) v2 (pend2 ++ pend)) s2
  | ev_protect_r T L e c s k v pend s1 s2 : ev T L e s (RThrow k v pend) s1 ->
      ev (skipn k T) [] c s1 RErr s2 -> ev T L (Protect e c) s RErr s2
  | ev_protect_e T L e c s s1 : ev T L e s RErr s1 -> ev T L (Protect e c) s RErr s1
  | ev_call T L g s o s1 : ev T [g] (P g) s o s1 ->
      ev T L (Call g) s (fst (block_exit g o s1)) (snd (block_exit g o s1)).
End Meaning.

(** The standard meaning, and the meaning with late unbinding and the values the code delivers. *)
Definition standard (P : nat -> exp) := ev P false (fun v => v).
Definition as_coded (P : nat -> exp) := ev P true delivered.

(** ** Where the two meanings agree *)
(** [quiet D Q c]: c uses only variables outside D, binds none and calls only functions in Q. *)
Fixpoint quiet (D Q : nat -> bool) (e : exp) : bool :=
  match e with
  | Const _ | Emit _ => true
  | Get x => negb (D x)
  | SetQ x e => negb (D x) && quiet D Q e
  | Progn a b | Catch a b | Throw a b | Loop a b | Protect a b => quiet D Q a && quiet D Q b
  | If c a b => quiet D Q c && quiet D Q a && quiet D Q b
  | Let _ _ _ => false
  | Block _ b | ReturnFrom _ b => quiet D Q b
  | Call g => Q g
  end.
(** [tame D Q e]: e binds only variables in D, its cleanup forms are quiet, and it has no literal 0.0. *)
Fixpoint tame (D Q : nat -> bool) (e : exp) : bool :=
  match e with
  | Const w => negb (Z.eqb w zero_flonum)
  | Emit _ | Get _ | Call _ => true
  | SetQ _ e | Block _ e | ReturnFrom _ e => tame D Q e
  | Progn a b | Catch a b | Throw a b | Loop a b => tame D Q a && tame D Q b
  | If c a b => tame D Q c && tame D Q a && tame D Q b
  | Let x e b => D x && tame D Q e && tame D Q b
  | Protect e c => tame D Q e && tame D Q c && quiet D Q c
  end.
Definition tame_program (D Q : nat -> bool) (P : nat -> exp) : Prop :=
  (forall g, tame D Q (P g) = true) /\ (forall g, Q g = true -> quiet D Q (P g) = true).

(** ** Variables a form leaves alone (C35) *)
(** x is not assigned by e, nor by the functions in A that e may call, except under a binding of x. *)
Fixpoint leaves_alone (x : nat) (A : nat -> bool) (e : exp) : bool :=
  match e with
  | Const _ | Emit _ | Get _ => true
  | SetQ y e => negb (y =? x) && leaves_alone x A e
  | Progn a b | Catch a b | Throw a b | Loop a b | Protect a b => leaves_alone x A a && leaves_alone x A b
  | If c a b => leaves_alone x A c && leaves_alone x A a && leaves_alone x A b
  | Let y e b => leaves_alone x A e && (if y =? x then true else leaves_alone x A b)
  | Block _ b | ReturnFrom _ b => leaves_alone x A b
  | Call g => A g
  end.

(** ** Brackets (C36) *)
(** The effect 3i marks the entry of the i-th kind of protected form, 3i+1 its cleanup, 3i+2 anything else. *)
Inductive balanced : list nat -> Prop :=
| bal_nil : balanced []
| bal_other i : balanced [3 * i + 2]
| bal_app u w : balanced u -> balanced w -> balanced (u ++ w)
| bal_wrap i w : balanced w -> balanced (3 * i :: w ++ [3 * i + 1]).

(** Entries are marked only just before a protected form, and cleanups only in its cleanup form. *)
Inductive bracketed : exp -> Prop :=
| br_const w : bracketed (Const w)
| br_emit i : bracketed (Emit (3 * i + 2))
| br_get x : bracketed (Get x)
| br_set x e : bracketed e -> bracketed (SetQ x e)
| br_progn a b : bracketed a -> bracketed b -> bracketed (Progn a b)
| br_if c a b : bracketed c -> bracketed a -> bracketed b -> bracketed (If c a b)
| br_let x e b : bracketed e -> bracketed b -> bracketed (Let x e b)
| br_catch t b : bracketed t -> bracketed b -> bracketed (Catch t b)
| br_throw t e : bracketed t -> bracketed e -> bracketed (Throw t e)
| br_block n b : bracketed b -> bracketed (Block n b)
| br_return n e : bracketed e -> bracketed (ReturnFrom n e)
| br_loop c b : bracketed c -> bracketed b -> bracketed (Loop c b)
| br_protect e c : bracketed e -> bracketed c -> bracketed (Protect e c)
| br_call g : bracketed (Call g)
| br_marked i e : bracketed e -> bracketed (Progn (Emit (3 * i)) (Protect e (Emit (3 * i + 1)))).
