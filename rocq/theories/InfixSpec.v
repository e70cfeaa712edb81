(** Specification for C99: infix expressions as trees, their writing, and their values in any kind of arithmetic. *)
From Coq Require Import ZArith List Bool Arith.
From Verif Require Import InfixModel.
Import ListNotations.
Open Scope nat_scope.

(** variables and functions are numbered; 0 and 1 are [aref] and [nil] in the model *)
Inductive atomic := ASym (s : nat) | ANum (z : Z) | AParen (e : sum) | ACall (s : nat) (l : args) | AAref (s : nat) (l : args)
with args := AOne (e : sum) | AMore (e : sum) (l : args)
with power := POne (a : atomic) | PPow (a b : atomic)
with prod := Prod (p : power) (l : prod_rest)
with prod_rest := PEnd | PMul (p : power) (l : prod_rest) | PDiv (p : power) (l : prod_rest)
with sum := Sum (sign : option bool) (p : prod) (l : sum_rest)
with sum_rest := SEnd | SAdd (p : prod) (l : sum_rest) | SSub (p : prod) (l : sum_rest).
Inductive comparison := CSum (e : sum) | CRel (r : relop) (a b : sum).

(** how they are written *)
Definition user (s : nat) : nat := s + 2.
Fixpoint w_atomic (a : atomic) : list tok :=
  match a with
  | ASym s => [TSym (user s)] | ANum z => [TNum z] | AParen e => [TList (w_sum e)]
  | ACall s l => [TSym (user s); TList (w_args l)] | AAref s l => [TSym (user s); TList (TSym 0 :: w_args l)]
  end
with w_args (l : args) : list tok := match l with AOne e => w_sum e | AMore e l => w_sum e ++ w_args l end
with w_power (p : power) : list tok := match p with POne a => w_atomic a | PPow a b => w_atomic a ++ TOp Power :: w_atomic b end
with w_prod (p : prod) : list tok := match p with Prod p l => w_power p ++ w_prod_rest l end
with w_prod_rest (l : prod_rest) : list tok :=
  match l with PEnd => [] | PMul p l => TOp Times :: w_power p ++ w_prod_rest l | PDiv p l => TOp Over :: w_power p ++ w_prod_rest l end
with w_sum (e : sum) : list tok :=
  match e with Sum sign p l => (match sign with Some true => [TOp Minus] | Some false => [TOp Plus] | None => [] end) ++ w_prod p ++ w_sum_rest l end
with w_sum_rest (l : sum_rest) : list tok :=
  match l with SEnd => [] | SAdd p l => TOp Plus :: w_prod p ++ w_sum_rest l | SSub p l => TOp Minus :: w_prod p ++ w_sum_rest l end.
Definition w_comparison (c : comparison) : list tok :=
  match c with CSum e => w_sum e | CRel r a b => w_sum a ++ TOp (Rel r) :: w_sum b end.

(** any kind of arithmetic *)
Record arithmetic := Arith {
  N : Type; lit : Z -> N; var : nat -> N; call : nat -> list N -> N; element : N -> list N -> N;
  add : N -> N -> N; sub : N -> N -> N; neg : N -> N; mul : N -> N -> N; div : N -> N -> N; pow : N -> N -> N; one : N;
  cmp : relop -> N -> N -> N }.
(** x * x * ... * x *)
Definition product (A : arithmetic) (l : list (N A)) : N A := match l with [] => one A | x :: r => fold_left (mul A) r x end.
(** subtracting is adding the negative, and powers up to the ninth are products *)
Definition lawful (A : arithmetic) : Prop :=
  (forall x y, sub A x y = add A x (neg A y)) /\ (forall x k, k < 10 -> pow A x (lit A (Z.of_nat k)) = product A (repeat x k)).

(** the values, with the usual precedences, and from left to right *)
Section MEANING.
  Variable A : arithmetic.
  Fixpoint v_atomic (a : atomic) : N A :=
    match a with
    | ASym s => var A s | ANum z => lit A z | AParen e => v_sum e
    | ACall s l => call A s (v_args l) | AAref s l => element A (var A s) (v_args l)
    end
  with v_args (l : args) : list (N A) := match l with AOne e => [v_sum e] | AMore e l => v_sum e :: v_args l end
  with v_power (p : power) : N A := match p with POne a => v_atomic a | PPow a b => pow A (v_atomic a) (v_atomic b) end
  with v_prod (p : prod) : N A := match p with Prod p l => v_prod_rest (v_power p) l end
  with v_prod_rest (x : N A) (l : prod_rest) : N A :=
    match l with PEnd => x | PMul p l => v_prod_rest (mul A x (v_power p)) l | PDiv p l => v_prod_rest (div A x (v_power p)) l end
  with v_sum (e : sum) : N A :=
    match e with Sum sign p l => v_sum_rest (match sign with Some true => neg A (v_prod p) | _ => v_prod p end) l end
  with v_sum_rest (x : N A) (l : sum_rest) : N A :=
    match l with SEnd => x | SAdd p l => v_sum_rest (add A x (v_prod p)) l | SSub p l => v_sum_rest (sub A x (v_prod p)) l end.
  Definition v_comparison (c : comparison) : N A :=
    match c with CSum e => v_sum e | CRel r a b => cmp A r (v_sum a) (v_sum b) end.
End MEANING.

(** Arguments are not separated, so that one after the first must begin with a name or a number.  Exponents that are written as numbers must not be negative. *)
Definition begins_well (e : sum) : Prop :=
  match e with Sum None (Prod (POne (AParen _)) _) _ | Sum None (Prod (PPow (AParen _) _) _) _ | Sum (Some _) _ _ => False | _ => True end.
Definition first_of (l : args) : sum := match l with AOne e | AMore e _ => e end.
Fixpoint literal (a : atomic) : option Z :=
  match a with
  | ANum z => Some z
  | AParen (Sum None (Prod (POne b) PEnd) SEnd) | AParen (Sum (Some false) (Prod (POne b) PEnd) SEnd) => literal b
  | _ => None
  end.
Definition not_negative (z : option Z) : Prop := match z with Some z => (0 <= z)%Z | None => True end.
Fixpoint ok_atomic (a : atomic) : Prop :=
  match a with ASym _ | ANum _ => True | AParen e => ok_sum e | ACall _ l | AAref _ l => ok_args l end
with ok_args (l : args) : Prop := match l with AOne e => ok_sum e | AMore e l => ok_sum e /\ begins_well (first_of l) /\ ok_args l end
with ok_power (p : power) : Prop := match p with POne a => ok_atomic a | PPow a b => ok_atomic a /\ ok_atomic b /\ not_negative (literal b) end
with ok_prod (p : prod) : Prop := match p with Prod p l => ok_power p /\ ok_prod_rest l end
with ok_prod_rest (l : prod_rest) : Prop := match l with PEnd => True | PMul p l | PDiv p l => ok_power p /\ ok_prod_rest l end
with ok_sum (e : sum) : Prop := match e with Sum _ p l => ok_prod p /\ ok_sum_rest l end
with ok_sum_rest (l : sum_rest) : Prop := match l with SEnd => True | SAdd p l | SSub p l => ok_prod p /\ ok_sum_rest l end.
Definition ok_comparison (c : comparison) : Prop := match c with CSum e => ok_sum e | CRel _ a b => ok_sum a /\ ok_sum b end.

(** * the value of a Lisp form, with the gensyms bound by [r] *)
Section EVAL.
  Variable A : arithmetic.
  Definition chain (f : N A -> N A -> N A) (l : list (N A)) (none : N A) : N A := match l with [] => none | x :: r => fold_left f r x end.
  Definition apply (h : head) (l : list (N A)) : N A :=
    match h, l with
    | HAdd, l => chain (add A) l (lit A 0%Z)
    | HMul, l => chain (mul A) l (one A)
    | HDiv, l => chain (div A) l (one A)
    | HNeg, [x] => neg A x
    | HExpt, [x; y] => pow A x y
    | HRel r, [x; y] => cmp A r x y
    | HFun s, l => call A (s - 2) l
    | HAref, x :: l => element A x l
    | _, _ => one A
    end.
  Fixpoint eval (r : nat -> N A) (f : form) : N A :=
    match f with
    | FSym s => var A (s - 2)
    | FNum z => lit A z
    | FGen n => r n
    | FApp h l => apply h (map (eval r) l)
    | FTemp lf n => chain (mul A) (repeat (eval r lf) n) (one A)
    end.
  (** let-star *)
  Definition update (r : nat -> N A) (n : nat) (x : N A) : nat -> N A := fun m => if m =? n then x else r m.
  Fixpoint eval_let (r : nat -> N A) (pairs : list (nat * form)) (body : form) : N A :=
    match pairs with [] => eval r body | (n, f) :: l => eval_let (update r n (eval r f)) l body end.
End EVAL.
(** the gensyms of a form, and that all of them are bound *)
Fixpoint gens (f : form) : list nat :=
  match f with FGen n => [n] | FApp _ l => flat_map gens l | FTemp lf _ => gens lf | _ => [] end.
Fixpoint bound (names : list nat) (pairs : list (nat * form)) (body : form) : Prop :=
  match pairs with
  | [] => forall n, In n (gens body) -> In n names
  | (n, f) :: l => (forall m, In m (gens f) -> In m names) /\ bound (n :: names) l body
  end.
