(** What the macros mean, as sets of outcomes, without gensyms, tags and while loops. *)
From Coq Require Import List.
From Verif Require Import CompLang.
Import ListNotations.

Section Spec.
Variable L : lisp.

(** The form ends with this outcome. *)
Definition ends (x : exp) (e : env) (s : state L) (o : out L V) : Prop := exists n, eval L n x e s = Some o.
Definition ends_progn (l : list exp) (e : env) (s : state L) (o : out L V) : Prop := ends (Progn l) e s o.
Definition ends_args (l : list exp) (e : env) (s : state L) (o : out L (list V)) : Prop :=
  exists n, ev_args L (eval L n) l e s = Some o.

(** First [P], then [K] unless [P] ended abruptly *)
Definition seq {A B} (P : out L A -> Prop) (K : A -> env -> state L -> out L B -> Prop) (o : out L B) : Prop :=
  exists r, P r /\ match r with
                   | Normal a e s => K a e s o
                   | Exit b v e s => o = Exit b v e s
                   | Jump t e s => o = Jump t e s
                   | Err => o = Err
                   end.
Definition value (v : V) (e : env) (s : state L) (o : out L V) : Prop := o = Normal v e s.

(** A block named NIL *)
Definition block_nil (P : out L V -> Prop) (o : out L V) : Prop := exists r, P r /\ catch_block L 0 (Some r) = Some o.

(** [x] is bound to [v] while [K] runs *)
Definition with_var (x : nat) (v : V) (K : env -> state L -> out L V -> Prop) (e : env) (s : state L) (o : out L V) : Prop :=
  if special L x then
    exists r, K e (mkState L (upd (gl L s) x v) (wd L s)) r /\
      leave L (fun e => e) (fun g => upd g x (gl L s x)) (Some r) = Some o
  else exists r, K ((x, v) :: e) s r /\ leave L (@tl _) (fun g => g) (Some r) = Some o.

(** The variables are bound, at once, to the values of the forms. *)
Definition with_vars (b : list (nat * exp)) (K : env -> state L -> out L V -> Prop) (e : env) (s : state L) : out L V -> Prop :=
  seq (ends_args (map snd b) e s) (fun vs e s o =>
    let pairs := combine (map fst b) vs in
    let lex := filter (fun p => negb (special L (fst p))) pairs in
    let bs := bind_specials (filter (fun p => special L (fst p)) pairs) (gl L s) in
    exists r, K (rev lex ++ e) (mkState L (fst bs) (wd L s)) r /\
      leave L (skipn (length lex)) (restore (snd bs)) (Some r) = Some o).

(** ... one after the other *)
Fixpoint with_vars_star (b : list (nat * exp)) (K : env -> state L -> out L V -> Prop) (e : env) (s : state L) : out L V -> Prop :=
  match b with
  | [] => K e s
  | (x, a) :: r => seq (ends a e s) (fun v e s => with_var x v (with_vars_star r K) e s)
  end.

Definition prog1_spec (a : exp) (l : list exp) (e : env) (s : state L) : out L V -> Prop :=
  seq (ends a e s) (fun v e s => seq (ends_progn l e s) (fun _ => value v)).

(** psetq: all values, then all assignments *)
Fixpoint assign_all (l : list (nat * V)) (e : env) (s : state L) : env * state L :=
  match l with
  | [] => (e, s)
  | (x, v) :: r => let es := write L x v e s in assign_all r (fst es) (snd es)
  end.
Definition psetq_spec (l : list (nat * exp)) (e : env) (s : state L) : out L V -> Prop :=
  seq (ends_args (map snd l) e s) (fun vs e s o =>
    let es := assign_all (combine (map fst l) vs) e s in o = Normal NIL (fst es) (snd es)).

Definition abrupt (o : out L V) : Prop := match o with Normal _ _ _ => False | _ => True end.

(** the forms for ever *)
Inductive forever (forms : list exp) : env -> state L -> out L V -> Prop :=
| forever_exit : forall e s o, ends_progn forms e s o -> abrupt o -> forever forms e s o
| forever_turn : forall e s v e1 s1 o, ends_progn forms e s (Normal v e1 s1) -> forever forms e1 s1 o -> forever forms e s o.
Definition loop_spec (forms : list exp) (e : env) (s : state L) : out L V -> Prop := block_nil (forever forms e s).

(** the forms with [x] bound to [num i], ..., [num (k - 1)] *)
Inductive times (num : nat -> V) (x : nat) (forms : list exp) : nat -> nat -> env -> state L -> out L V -> Prop :=
| times_end : forall k e s, times num x forms k k e s (Normal NIL e s)
| times_exit : forall i k e s o, i < k -> with_var x (num i) (ends_progn forms) e s o -> abrupt o ->
    times num x forms i k e s o
| times_turn : forall i k e s v e1 s1 o, i < k -> with_var x (num i) (ends_progn forms) e s (Normal v e1 s1) ->
    times num x forms (S i) k e1 s1 o -> times num x forms i k e s o.
Definition dotimes_spec (num : nat -> V) (x : nat) (count result : exp) (forms : list exp) (e : env) (s : state L) : out L V -> Prop :=
  seq (ends count e s) (fun v e s o => exists k, v = num k /\
    seq (times num x forms 0 k e s) (fun _ e s => with_var x (num k) (ends result) e s) o).

(** the forms with [x] assigned each element in turn *)
Inductive each (x : nat) (forms : list exp) : V -> env -> state L -> out L V -> Prop :=
| each_end : forall e s, each x forms NIL e s (Normal NIL e s)
| each_bad : forall l e s, l <> NIL -> islist L l (wd L s) = false -> each x forms l e s Err
| each_exit : forall l e s o, l <> NIL -> islist L l (wd L s) = true ->
    (let es := write L x (car L l (wd L s)) e s in ends_progn forms (fst es) (snd es) o) -> abrupt o -> each x forms l e s o
| each_turn : forall l e s v e1 s1 o, l <> NIL -> islist L l (wd L s) = true ->
    (let es := write L x (car L l (wd L s)) e s in ends_progn forms (fst es) (snd es) (Normal v e1 s1)) ->
    each x forms (cdr L l (wd L s)) e1 s1 o -> each x forms l e s o.
Definition dolist_spec (x : nat) (l result : exp) (forms : list exp) (e : env) (s : state L) : out L V -> Prop :=
  seq (ends l e s) (fun v e s => with_var x NIL (fun e s =>
    seq (each x forms v e s) (fun _ e s => ends result e s)) e s).

(** do: test, forms, step *)
Inductive do_loop (test : exp) (result forms : list exp) (step : env -> state L -> out L V -> Prop) : env -> state L -> out L V -> Prop :=
| do_test_exit : forall e s o, ends test e s o -> abrupt o -> do_loop test result forms step e s o
| do_stop : forall e s v e1 s1 o, ends test e s (Normal v e1 s1) -> v <> NIL -> ends_progn result e1 s1 o ->
    do_loop test result forms step e s o
| do_body_exit : forall e s e1 s1 o, ends test e s (Normal NIL e1 s1) -> ends_progn forms e1 s1 o -> abrupt o ->
    do_loop test result forms step e s o
| do_step_exit : forall e s e1 s1 v e2 s2 o, ends test e s (Normal NIL e1 s1) -> ends_progn forms e1 s1 (Normal v e2 s2) ->
    step e2 s2 o -> abrupt o -> do_loop test result forms step e s o
| do_turn : forall e s e1 s1 v e2 s2 v' e3 s3 o, ends test e s (Normal NIL e1 s1) -> ends_progn forms e1 s1 (Normal v e2 s2) ->
    step e2 s2 (Normal v' e3 s3) -> do_loop test result forms step e3 s3 o -> do_loop test result forms step e s o.
Definition do_spec (b step : list (nat * exp)) (test : exp) (result forms : list exp) (e : env) (s : state L) : out L V -> Prop :=
  block_nil (with_vars b (do_loop test result forms (psetq_spec step)) e s).
Definition dostar_spec (b step : list (nat * exp)) (test : exp) (result forms : list exp) (e : env) (s : state L) : out L V -> Prop :=
  block_nil (with_vars_star b (do_loop test result forms (ends (Setq step))) e s).

(** case: the forms of the first clause one of whose keys is the value; [None] is t or otherwise *)
Fixpoint choose (v : V) (clauses : list (option (list V) * list exp)) : list exp :=
  match clauses with
  | [] => []
  | (None, forms) :: _ => forms
  | (Some keys, forms) :: r => if existsb (V_eqb v) keys then forms else choose v r
  end.
Definition case_spec (key : exp) (clauses : list (option (list V) * list exp)) (e : env) (s : state L) : out L V -> Prop :=
  seq (ends key e s) (fun v e s => ends_progn (choose v clauses) e s).
End Spec.
