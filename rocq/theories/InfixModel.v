(** The % macro for infix expressions: [expression] of /repo/lisp/l/mathtran.l lines 18-119, for the right-hand side of an assignment or an
    expression that stands alone ([lhs] is nil).

    Simplifications: symbols are numbers, 0 being [aref]; gensyms are numbers in the order of their creation, and [letvar-alist] is kept in
    that order (the code conses each new entry to the front; the forms in it differ, so that the order does not matter to [assoc]). *)
From Coq Require Import ZArith List Bool Arith.
Import ListNotations.
Open Scope nat_scope.

Inductive relop := Req | Rne | Rlt | Rle | Rgt | Rge.
Inductive op := Plus | Minus | Times | Over | Power | Rel (r : relop).
(** what the reader gives: f(x + y) is two tokens, a symbol and a list *)
Inductive tok := TSym (s : nat) | TNum (z : Z) | TOp (o : op) | TList (l : list tok).
(** the Lisp form: symbols, numbers, gensyms, calls, and (let ((temp left)) ( * temp ... temp)) with n times temp *)
Inductive head := HAdd | HNeg | HMul | HDiv | HExpt | HRel (r : relop) | HFun (s : nat) | HAref.
Inductive form := FSym (s : nat) | FNum (z : Z) | FGen (n : nat) | FApp (h : head) (args : list form) | FTemp (lf : form) (n : nat).

(** equal *)
Definition relop_eqb (a b : relop) : bool :=
  match a, b with Req, Req | Rne, Rne | Rlt, Rlt | Rle, Rle | Rgt, Rgt | Rge, Rge => true | _, _ => false end.
Definition head_eqb (a b : head) : bool :=
  match a, b with
  | HAdd, HAdd | HNeg, HNeg | HMul, HMul | HDiv, HDiv | HExpt, HExpt | HAref, HAref => true
  | HRel r, HRel s => relop_eqb r s
  | HFun m, HFun n => m =? n
  | _, _ => false
  end.
Fixpoint form_eqb (a b : form) : bool :=
  match a, b with
  | FSym m, FSym n | FGen m, FGen n => m =? n
  | FNum x, FNum y => Z.eqb x y
  | FApp h l, FApp k m =>
      head_eqb h k && (fix go l m := match l, m with [], [] => true | x :: l, y :: m => form_eqb x y && go l m | _, _ => false end) l m
  | FTemp x m, FTemp y n => form_eqb x y && (m =? n)
  | _, _ => false
  end.

(** letvar: lines 21-26; the entries are forms and counts *)
Definition alist := list (form * nat).
Fixpoint letvar_at (i : nat) (st : alist) (f : form) : nat * alist :=
  match st with
  | [] => (i, [(f, 1)])
  | (g, c) :: r => if form_eqb g f then (i, (g, S c) :: r) else let '(j, r) := letvar_at (S i) r f in (j, (g, c) :: r)
  end.
Definition letvar (st : alist) (f : form) : form * alist := let '(j, st) := letvar_at 0 st f in (FGen j, st).

Inductive res (A : Type) := Ok (a : A) | Illegal | NoFuel.
Arguments Ok {A} a. Arguments Illegal {A}. Arguments NoFuel {A}.
Definition bind {A B} (x : res A) (k : A -> res B) : res B := match x with Ok a => k a | Illegal => Illegal | NoFuel => NoFuel end.
Definition parse := list tok -> alist -> res (form * list tok * alist).
Definition atom (f : form) : bool := match f with FSym _ | FNum _ | FGen _ => true | _ => false end.

(** factor1, factor, term, expr and expr-list: lines 27-95.  [pop] and [first] of an empty list give nil, which is then taken for a variable: symbol 1.
    Where an operator stands in place of an operand, or a number in place of a function, the code makes a form that has no value: the model says [Illegal]. *)
Definition nil_sym : nat := 1.
Fixpoint factor1 (n : nat) (exp : list tok) (st : alist) {struct n} : res (form * list tok * alist) :=
  match n with
  | O => NoFuel
  | S n =>
      let plain := fun (f : form) (exp : list tok) =>
        match exp with
        | TList arglist :: exp =>
            match arglist with
            | TSym 0 :: arglist =>
                bind (expr_list n arglist st []) (fun '(args, st) => let '(v, st) := letvar st (FApp HAref (f :: args)) in Ok (v, exp, st))
            | [] => Ok (f, TList [] :: exp, st)
            | _ =>
                match f with
                | FSym s => bind (expr_list n arglist st []) (fun '(args, st) => let '(v, st) := letvar st (FApp (HFun s) args) in Ok (v, exp, st))
                | _ => Illegal
                end
            end
        | _ => Ok (f, exp, st)
        end in
      match exp with
      | TList [] :: exp => plain (FSym nil_sym) exp
      | TList sub :: exp =>
          bind (expr n sub st) (fun '(f, rest, st) => match rest with [] => Ok (f, exp, st) | _ => Illegal end)
      | TSym s :: exp => plain (FSym s) exp
      | TNum z :: exp => plain (FNum z) exp
      | TOp _ :: exp => Illegal
      | [] => Ok (FSym nil_sym, [], st)
      end
  end
with factor (n : nat) (exp : list tok) (st : alist) {struct n} : res (form * list tok * alist) :=
  match n with
  | O => NoFuel
  | S n =>
      bind (factor1 n exp st) (fun '(lf, exp, st) =>
        match exp with
        | TOp Power :: exp =>
            bind (factor1 n exp st) (fun '(rt, exp, st) =>
              match rt with
              | FNum k =>
                  if Z.ltb k 10 then
                    if atom lf then let '(v, st) := letvar st (FApp HMul (repeat lf (Z.to_nat k))) in Ok (v, exp, st)
                    else Ok (FTemp lf (Z.to_nat k), exp, st)
                  else Ok (FApp HExpt [lf; rt], exp, st)
              | _ => Ok (FApp HExpt [lf; rt], exp, st)
              end)
        | _ => Ok (lf, exp, st)
        end)
  end
with term (n : nat) (exp : list tok) (st : alist) {struct n} : res (form * list tok * alist) :=
  match n with
  | O => NoFuel
  | S n => bind (factor n exp st) (fun '(lf, exp, st) => term_outer n lf exp st)
  end
(** the outer and the inner loop of [term] *)
with term_outer (n : nat) (lf : form) (exp : list tok) (st : alist) {struct n} : res (form * list tok * alist) :=
  match n with
  | O => NoFuel
  | S n =>
      match exp with
      | TOp Times :: _ => term_inner n true [lf] exp st
      | TOp Over :: _ => term_inner n false [lf] exp st
      | _ => Ok (lf, exp, st)
      end
  end
with term_inner (n : nat) (times : bool) (args : list form) (exp : list tok) (st : alist) {struct n} : res (form * list tok * alist) :=
  match n with
  | O => NoFuel
  | S n =>
      let again := fun exp => bind (factor n exp st) (fun '(rt, exp, st) => term_inner n times (args ++ [rt]) exp st) in
      let stop := term_outer n (FApp (if times then HMul else HDiv) args) exp st in
      match exp with
      | TOp Times :: rest => if times then again rest else stop
      | TOp Over :: rest => if times then stop else again rest
      | _ => stop
      end
  end
with expr (n : nat) (exp : list tok) (st : alist) {struct n} : res (form * list tok * alist) :=
  match n with
  | O => NoFuel
  | S n =>
      let '(minus, exp) := match exp with TOp Plus :: r => (false, r) | TOp Minus :: r => (true, r) | _ => (false, exp) end in
      bind (term n exp st) (fun '(lf, exp, st) =>
        let lf := if minus then FApp HNeg [lf] else lf in
        match exp with
        | TOp Plus :: _ | TOp Minus :: _ => expr_loop n [lf] exp st
        | _ => Ok (lf, exp, st)
        end)
  end
with expr_loop (n : nat) (args : list form) (exp : list tok) (st : alist) {struct n} : res (form * list tok * alist) :=
  match n with
  | O => NoFuel
  | S n =>
      match exp with
      | TOp Plus :: exp => bind (term n exp st) (fun '(rt, exp, st) => expr_loop n (args ++ [rt]) exp st)
      | TOp Minus :: exp => bind (term n exp st) (fun '(rt, exp, st) => expr_loop n (args ++ [FApp HNeg [rt]]) exp st)
      | _ => Ok (FApp HAdd args, exp, st)
      end
  end
with expr_list (n : nat) (exp : list tok) (st : alist) (result : list form) {struct n} : res (list form * alist) :=
  match n with
  | O => NoFuel
  | S n =>
      match exp with
      | [] => Ok (result, st)
      | _ => bind (expr n exp st) (fun '(temp, exp, st) => expr_list n exp st (result ++ [temp]))
      end
  end.
(** rel-expr: lines 96-106; [pop] takes the next token away whatever it is *)
Definition rel_expr (n : nat) (exp : list tok) (st : alist) : res (form * list tok * alist) :=
  bind (expr n exp st) (fun '(lf, exp, st) =>
    match exp with
    | TOp (Rel r) :: exp => bind (expr n exp st) (fun '(rt, exp, st) => Ok (FApp (HRel r) [lf; rt], exp, st))
    | _ :: exp => Ok (lf, exp, st)
    | [] => Ok (lf, [], st)
    end).
(** nsubst of a form for a gensym *)
Fixpoint subst (v : nat) (g f : form) : form :=
  match f with
  | FGen n => if n =? v then g else f
  | FApp h args => FApp h (map (subst v g) args)
  | FTemp lf n => FTemp (subst v g lf) n
  | _ => f
  end.
(** reconstruct-form: lines 107-116.  [st] is the rest of the entries, the newest first; the result is the let-star pairs and the body. *)
Fixpoint reconstruct (st : alist) (exp : form) (letpairs : list (nat * form)) : list (nat * form) * form :=
  match st with
  | [] => (letpairs, exp)
  | (f, c) :: r => if 1 <? c then reconstruct r exp ((length r, f) :: letpairs) else reconstruct r (subst (length r) f exp) letpairs
  end.
Fixpoint size (t : tok) : nat := match t with TList l => S ((fix go l := match l with [] => 0 | t :: l => size t + go l end) l) | _ => 1 end.
Fixpoint sizes (l : list tok) : nat := match l with [] => 0 | t :: l => size t + sizes l end.
(** lines 117-119 *)
Definition expression (exp : list tok) : res (list (nat * form) * form) :=
  bind (rel_expr (9 * sizes exp + 9) exp []) (fun '(result, exp, st) =>
    match exp with [] => Ok (reconstruct (rev st) result []) | _ => Illegal end).
