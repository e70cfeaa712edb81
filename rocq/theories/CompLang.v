(** The special forms that lisp/comp/comp.l compiles, and what they mean.

    This is the specification for [CompModel]: an evaluator that knows nothing of stacks, labels or registers.  Variables,
    functions, blocks and tags are named by numbers; the block NIL is number 0.  A value is NIL, T or another object.  What
    functions do is a parameter: [call] takes the global variables and the rest of the world and changes them, or fails.
    Conses are in the world; [islist] says whether an object is a cons or NIL.

    Covered: constants and quote, variables, setq, progn, if, cond, and, or, while, let, let*, block, return-from, tagbody,
    go, calls of global functions, null, eq, car, cdr and the type predicates.  Not covered: closures, flet, labels, catch,
    throw, unwind-protect, object variables, declarations (so the arithmetic for declared types), cons as an
    instruction of its own (it is a call here). *)
From Coq Require Export List Arith Bool Lia.
Export ListNotations.

Inductive V : Type := NIL | T | Obj (n : nat).
Definition V_eqb (a b : V) : bool :=
  match a, b with NIL, NIL => true | T, T => true | Obj n, Obj m => Nat.eqb n m | _, _ => false end.
Definition truth (b : bool) : V := if b then T else NIL.

Inductive exp : Type :=
| Const (v : V)
| Var (x : nat)
| Setq (l : list (nat * exp))
| Progn (l : list exp)
| If (c a b : exp)
| Cond (l : list (exp * list exp))
| And (l : list exp)
| Or (l : list exp)
| While (c : exp) (l : list exp)
| Let (b : list (nat * exp)) (l : list exp)
| LetStar (b : list (nat * exp)) (l : list exp)
| Block (name : nat) (l : list exp)
| ReturnFrom (name : nat) (e : exp)
| Tagbody (l : list (nat + exp))
| Go (tag : nat)
| Call (f : nat) (l : list exp)
| Null (e : exp)
| Eq (a b : exp)
| Car (e : exp)
| Cdr (e : exp)
| Is (p : nat) (e : exp).

Definition glob : Type := nat -> V.
Definition upd (g : glob) (x : nat) (v : V) : glob := fun y => if Nat.eqb y x then v else g y.

(** The world *)
Record lisp := mkLisp {
  W : Type;
  call : nat -> list V -> glob -> W -> option (V * glob * W);
  islist : V -> W -> bool;
  car : V -> W -> V;
  cdr : V -> W -> V;
  is : nat -> V -> bool;               (* consp, symbolp, ... *)
  special : nat -> bool                (* proclaimed special or global *)
}.

Section Eval.
Variable L : lisp.

Definition env : Type := list (nat * V).
Fixpoint assoc (x : nat) (e : env) : option V :=
  match e with [] => None | (y, v) :: r => if Nat.eqb y x then Some v else assoc x r end.
Fixpoint assign (x : nat) (v : V) (e : env) : env :=
  match e with [] => [] | (y, u) :: r => if Nat.eqb y x then (y, v) :: r else (y, u) :: assign x v r end.

Record state := mkState { gl : glob; wd : W L }.

(** How an evaluation ends: with a value, with a return-from, with a go, or with an error *)
Inductive out (A : Type) : Type :=
| Normal (a : A) (e : env) (s : state)
| Exit (b : nat) (v : V) (e : env) (s : state)
| Jump (t : nat) (e : env) (s : state)
| Err.
Arguments Normal {A}. Arguments Exit {A}. Arguments Jump {A}. Arguments Err {A}.

(** [None] is: not finished with the fuel *)
Definition obind {A B} (o : option (out A)) (k : A -> env -> state -> option (out B)) : option (out B) :=
  match o with
  | None => None
  | Some (Normal a e s) => k a e s
  | Some (Exit b v e s) => Some (Exit b v e s)
  | Some (Jump t e s) => Some (Jump t e s)
  | Some Err => Some Err
  end.

(** Leaving a scope, in whatever way *)
Definition leave {A} (fe : env -> env) (fg : glob -> glob) (o : option (out A)) : option (out A) :=
  match o with
  | Some (Normal a e s) => Some (Normal a (fe e) (mkState (fg (gl s)) (wd s)))
  | Some (Exit b v e s) => Some (Exit b v (fe e) (mkState (fg (gl s)) (wd s)))
  | Some (Jump t e s) => Some (Jump t (fe e) (mkState (fg (gl s)) (wd s)))
  | _ => o
  end.

Definition catch_block (name : nat) (o : option (out V)) : option (out V) :=
  match o with
  | Some (Exit b v e s) => if Nat.eqb b name then Some (Normal v e s) else o
  | _ => o
  end.

Definition read (x : nat) (e : env) (s : state) : V :=
  if special L x then gl s x else match assoc x e with Some v => v | None => gl s x end.
Definition write (x : nat) (v : V) (e : env) (s : state) : env * state :=
  if special L x then (e, mkState (upd (gl s) x v) (wd s))
  else match assoc x e with
       | Some _ => (assign x v e, s)
       | None => (e, mkState (upd (gl s) x v) (wd s))
       end.

Section Forms.
Variable ev : exp -> env -> state -> option (out V).

Fixpoint ev_progn (l : list exp) (e : env) (s : state) : option (out V) :=
  match l with
  | [] => Some (Normal NIL e s)
  | [a] => ev a e s
  | a :: r => obind (ev a e s) (fun _ e s => ev_progn r e s)
  end.

Fixpoint ev_args (l : list exp) (e : env) (s : state) : option (out (list V)) :=
  match l with
  | [] => Some (Normal [] e s)
  | a :: r => obind (ev a e s) (fun v e s => obind (ev_args r e s) (fun vs e s => Some (Normal (v :: vs) e s)))
  end.

Fixpoint ev_setq (l : list (nat * exp)) (e : env) (s : state) : option (out V) :=
  match l with
  | [] => Some (Normal NIL e s)
  | (x, a) :: r =>
      obind (ev a e s) (fun v e s =>
      let es := write x v e s in
      match r with
      | [] => Some (Normal v (fst es) (snd es))
      | _ => ev_setq r (fst es) (snd es)
      end)
  end.

(** (and) is left out here: see [CompModel]; it is NIL in compiled code *)
Fixpoint ev_and (l : list exp) (e : env) (s : state) : option (out V) :=
  match l with
  | [] => Some (Normal NIL e s)
  | [a] => ev a e s
  | a :: r => obind (ev a e s) (fun v e s => if V_eqb v NIL then Some (Normal NIL e s) else ev_and r e s)
  end.

Fixpoint ev_or (l : list exp) (e : env) (s : state) : option (out V) :=
  match l with
  | [] => Some (Normal NIL e s)
  | [a] => ev a e s
  | a :: r => obind (ev a e s) (fun v e s => if V_eqb v NIL then ev_or r e s else Some (Normal v e s))
  end.

Fixpoint ev_cond (l : list (exp * list exp)) (e : env) (s : state) : option (out V) :=
  match l with
  | [] => Some (Normal NIL e s)
  | (p, body) :: r =>
      obind (ev p e s) (fun v e s =>
      if V_eqb v NIL then ev_cond r e s
      else match body with [] => Some (Normal v e s) | _ => ev_progn body e s end)
  end.

(** The special variables of a let are bound after all the values have been computed, and unbound in the opposite order. *)
Definition bind_specials (l : list (nat * V)) (g : glob) : glob * list (nat * V) :=
  fold_right (fun p r => (upd (fst r) (fst p) (snd p), (fst p, fst r (fst p)) :: snd r)) (g, []) l.
Definition restore (saved : list (nat * V)) (g : glob) : glob := fold_left (fun g p => upd g (fst p) (snd p)) saved g.

Definition ev_let (b : list (nat * exp)) (body : list exp) (e : env) (s : state) : option (out V) :=
  obind (ev_args (map snd b) e s) (fun vs e s =>
  let pairs := combine (map fst b) vs in
  let lex := filter (fun p => negb (special L (fst p))) pairs in
  let bs := bind_specials (filter (fun p => special L (fst p)) pairs) (gl s) in
  leave (skipn (length lex)) (restore (snd bs)) (ev_progn body (rev lex ++ e) (mkState (fst bs) (wd s)))).

Fixpoint ev_letstar (b : list (nat * exp)) (body : list exp) (e : env) (s : state) : option (out V) :=
  match b with
  | [] => ev_progn body e s
  | (x, a) :: r =>
      obind (ev a e s) (fun v e s =>
      if special L x then
        leave (fun e => e) (fun g => upd g x (gl s x)) (ev_letstar r body e (mkState (upd (gl s) x v) (wd s)))
      else leave (@tl _) (fun g => g) (ev_letstar r body ((x, v) :: e) s))
  end.

Fixpoint ev_items (l : list (nat + exp)) (e : env) (s : state) : option (out V) :=
  match l with
  | [] => Some (Normal NIL e s)
  | inl _ :: r => ev_items r e s
  | inr a :: r => obind (ev a e s) (fun _ e s => ev_items r e s)
  end.
End Forms.

(** What follows a tag *)
Fixpoint after_tag (t : nat) (l : list (nat + exp)) : option (list (nat + exp)) :=
  match l with
  | [] => None
  | inl u :: r => if Nat.eqb u t then Some r else after_tag t r
  | inr _ :: r => after_tag t r
  end.

Definition apply1 (f : V -> V) (o : option (out V)) : option (out V) :=
  obind o (fun v e s => Some (Normal (f v) e s)).

Fixpoint eval (n : nat) (x : exp) (e : env) (s : state) {struct n} : option (out V) :=
  match n with
  | O => None
  | S n =>
      match x with
      | Const v => Some (Normal v e s)
      | Var x => Some (Normal (read x e s) e s)
      | Setq l => ev_setq (eval n) l e s
      | Progn l => ev_progn (eval n) l e s
      | If c a b => obind (eval n c e s) (fun v e s => if V_eqb v NIL then eval n b e s else eval n a e s)
      | Cond l => ev_cond (eval n) l e s
      | And l => ev_and (eval n) l e s
      | Or l => ev_or (eval n) l e s
      | While c l =>
          catch_block 0 (obind (eval n c e s) (fun v e s =>
          if V_eqb v NIL then Some (Normal NIL e s)
          else obind (ev_progn (eval n) l e s) (fun _ e s => eval n (While c l) e s)))
      | Let b l => ev_let (eval n) b l e s
      | LetStar b l => ev_letstar (eval n) b l e s
      | Block name l => catch_block name (ev_progn (eval n) l e s)
      | ReturnFrom name a => obind (eval n a e s) (fun v e s => Some (Exit name v e s))
      | Tagbody l => tagbody n l l e s
      | Go t => Some (Jump t e s)
      | Call f l => obind (ev_args (eval n) l e s) (fun vs e s =>
                    match call L f vs (gl s) (wd s) with
                    | Some (v, g, w) => Some (Normal v e (mkState g w))
                    | None => Some Err
                    end)
      | Null a => apply1 (fun v => truth (V_eqb v NIL)) (eval n a e s)
      | Eq a b => obind (eval n a e s) (fun u e s => apply1 (fun v => truth (V_eqb u v)) (eval n b e s))
      | Car a => obind (eval n a e s) (fun v e s => if islist L v (wd s) then Some (Normal (car L v (wd s)) e s) else Some Err)
      | Cdr a => obind (eval n a e s) (fun v e s => if islist L v (wd s) then Some (Normal (cdr L v (wd s)) e s) else Some Err)
      | Is p a => apply1 (fun v => truth (is L p v)) (eval n a e s)
      end
  end
with tagbody (n : nat) (all rest : list (nat + exp)) (e : env) (s : state) {struct n} : option (out V) :=
  match n with
  | O => None
  | S n =>
      match ev_items (eval n) rest e s with
      | Some (Jump t e s) => match after_tag t all with
                             | Some l => tagbody n all l e s
                             | None => Some (Jump t e s)
                             end
      | o => o
      end
  end.

(** A function with required parameters: (defun name params . body).  Too many or too few arguments are an error. *)
Definition eval_function (n : nat) (name : nat) (params : list nat) (body : list exp) (args : list V) (s : state) :
    option (out V) :=
  if Nat.eqb (length args) (length params) then
    let pairs := combine params args in
    let lex := filter (fun p => negb (special L (fst p))) pairs in
    let bs := bind_specials (rev (filter (fun p => special L (fst p)) pairs)) (gl s) in
    leave (skipn (length lex)) (restore (snd bs))
      (catch_block name (ev_progn (eval n) body (rev lex) (mkState (fst bs) (wd s))))
  else Some Err.
End Eval.
Arguments Normal {L A}. Arguments Exit {L A}. Arguments Jump {L A}. Arguments Err {L A}.

(** ** Scoping *)

Definition mem (x : nat) (l : list nat) : bool := existsb (Nat.eqb x) l.
Definition minus (l r : list nat) : list nat := filter (fun x => negb (mem x r)) l.

(** The free variables *)
Fixpoint fv (e : exp) : list nat :=
  match e with
  | Const _ | Go _ => []
  | Var x => [x]
  | Setq l => flat_map (fun p => fst p :: fv (snd p)) l
  | Progn l | And l | Or l | Block _ l | Call _ l => flat_map fv l
  | If c a b => fv c ++ fv a ++ fv b
  | Cond l => flat_map (fun p => fv (fst p) ++ flat_map fv (snd p)) l
  | While c l => fv c ++ flat_map fv l
  | Let b l => flat_map (fun p => fv (snd p)) b ++ minus (flat_map fv l) (map fst b)
  | LetStar b l =>
      (fix star (b : list (nat * exp)) : list nat :=
         match b with [] => flat_map fv l | p :: r => fv (snd p) ++ minus (star r) [fst p] end) b
  | ReturnFrom _ a | Null a | Car a | Cdr a | Is _ a => fv a
  | Tagbody l => flat_map (fun i => match i with inl _ => [] | inr a => fv a end) l
  | Eq a b => fv a ++ fv b
  end.

(** There is no let in it *)
Fixpoint letfree (e : exp) : bool :=
  match e with
  | Const _ | Go _ | Var _ => true
  | Setq l => forallb (fun p => letfree (snd p)) l
  | Progn l | And l | Or l | Block _ l | Call _ l => forallb letfree l
  | If c a b => letfree c && letfree a && letfree b
  | Cond l => forallb (fun p => letfree (fst p) && forallb letfree (snd p)) l
  | While c l => letfree c && forallb letfree l
  | Let _ _ | LetStar _ _ => false
  | ReturnFrom _ a | Null a | Car a | Cdr a | Is _ a => letfree a
  | Tagbody l => forallb (fun i => match i with inl _ => true | inr a => letfree a end) l
  | Eq a b => letfree a && letfree b
  end.

Definition tag_names (l : list (nat + exp)) : list nat := flat_map (fun i => match i with inl t => [t] | inr _ => [] end) l.
Fixpoint distinct (l : list nat) : bool := match l with [] => true | x :: r => negb (mem x r) && distinct r end.

(** The programs for which the compiler is right: a value form of a let in which a let is nested has no earlier lexical
    variable of the same let free, and the tags of a tagbody are distinct. *)
Section Plain.
Variable special : nat -> bool.
Definition clear_of (seen : list nat) (a : exp) : bool :=
  letfree a || forallb (fun y => special y || negb (mem y (fv a))) seen.
Fixpoint plain (e : exp) : bool :=
  match e with
  | Const _ | Go _ | Var _ => true
  | Setq l => forallb (fun p => plain (snd p)) l
  | Progn l | And l | Or l | Block _ l | Call _ l => forallb plain l
  | If c a b => plain c && plain a && plain b
  | Cond l => forallb (fun p => plain (fst p) && forallb plain (snd p)) l
  | While c l => plain c && forallb plain l
  | Let b l =>
      (fix inits (b : list (nat * exp)) (seen : list nat) : bool :=
         match b with [] => true | p :: r => plain (snd p) && clear_of seen (snd p) && inits r (fst p :: seen) end) b []
      && forallb plain l
  | LetStar b l => forallb (fun p => plain (snd p)) b && forallb plain l
  | ReturnFrom _ a | Null a | Car a | Cdr a | Is _ a => plain a
  | Tagbody l => distinct (tag_names l) && forallb (fun i => match i with inl _ => true | inr a => plain a end) l
  | Eq a b => plain a && plain b
  end.
End Plain.

(** Every return-from names a block around it (bl), every go a tag (tg) *)
Fixpoint scoped (bl tg : list nat) (e : exp) : bool :=
  match e with
  | Const _ | Var _ => true
  | Setq l => forallb (fun p => scoped bl tg (snd p)) l
  | Progn l | And l | Or l | Call _ l => forallb (scoped bl tg) l
  | If c a b => scoped bl tg c && scoped bl tg a && scoped bl tg b
  | Cond l => forallb (fun p => scoped bl tg (fst p) && forallb (scoped bl tg) (snd p)) l
  | While c l => scoped (0 :: bl) tg c && forallb (scoped (0 :: bl) tg) l
  | Let b l | LetStar b l => forallb (fun p => scoped bl tg (snd p)) b && forallb (scoped bl tg) l
  | Block n l => forallb (scoped (n :: bl) tg) l
  | ReturnFrom n a => mem n bl && scoped bl tg a
  | Tagbody l => forallb (fun i => match i with inl _ => true | inr a => scoped bl (tag_names l ++ tg) a end) l
  | Go t => mem t tg
  | Null a | Car a | Cdr a | Is _ a => scoped bl tg a
  | Eq a b => scoped bl tg a && scoped bl tg b
  end.
