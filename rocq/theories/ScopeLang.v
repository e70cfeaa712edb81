(* A language of variables, blocks and local functions, and what its programs
   mean.

   The programs are those the interpreter of /repo/lisp/c/eval.c runs: the
   forms are those of /repo/lisp/c/specials.c that bind variables, name blocks
   or name functions (setq 305, if 329, while 365, let 408, let* 463, flet 562,
   labels 580, block 647, return-from 670, progn), calls by name of global and
   local functions (eval.c 1488), and forms whose operator is a lambda
   expression.

   The meaning given here is the one Common Lisp gives and the manual promises:
   variables, blocks and functions are looked up in the text around them
   (lexical scope), special variables in the bindings now in force.  It is
   written with environments and a store that only grows, and knows nothing
   of stacks, frames or addresses. *)

From Coq Require Import List Bool Arith Lia.
Import ListNotations.

(* What a symbol is proclaimed to be (eus.h V_VARIABLE, V_GLOBAL, V_SPECIAL).
   Constants are left out. *)
Inductive kind := Variable_ | Global_ | Special_.

Section Lang.

Variables (V W : Type).

(* Names of variables, blocks and functions are numbers; the name NIL is 0. *)
Inductive exp :=
| Const (v : V)
| Var (x : nat)
| Setq (x : nat) (a : exp)
| Progn (l : list exp)
| If (a b c : exp)
| While (a : exp) (l : list exp)
| Let (bs : list (nat * exp)) (decl : list nat) (l : list exp)
    (* (let ((x a) ...) (declare (special decl...)) l...) *)
| LetStar (bs : list (nat * exp)) (decl : list nat) (l : list exp)
| Block (n : nat) (l : list exp)
| Return (n : nat) (a : exp)
| Flet (fns : list (nat * (list nat * list exp))) (l : list exp)
| Labels (fns : list (nat * (list nat * list exp))) (l : list exp)
| Fun (f : nat) (args : list exp)
| Lam (ps : list nat) (body : list exp) (args : list exp).
    (* ((lambda (ps...) body...) args...) *)

(* A global function: interpreted, or written in C. *)
Inductive fdef :=
| FLam (ps : list nat) (body : list exp)
| FPrim (p : nat).

Definition dynamic := nat -> option V.

Definition upd (d : dynamic) (x : nat) (v : option V) : dynamic :=
  fun y => if Nat.eqb y x then v else d y.

Variable nilv : V.
Variable isnil : V -> bool.
Variable kinds : nat -> kind.
Variable defs : nat -> option fdef.
(* A C function sees its arguments, the global values and the world. *)
Variable prim : nat -> list V -> dynamic -> W -> option (V * dynamic * W).

(* ------------------------------------------------------------------ *)
(* Environments *)

Inductive place := Loc (l : nat) | Dyn.
Definition env := list (nat * place).
Definition benv := list (nat * nat).          (* block name, block instance *)

(* Local functions.  [rec] is whether the functions see one another. *)
Inductive fenv :=
| FEnd
| FGroup (rec : bool) (fns : list (nat * (list nat * list exp)))
         (e : env) (b : benv) (rest : fenv).

Record state := mkS {
  sto : list V;            (* what the variables hold *)
  sdyn : dynamic;          (* what the special and global variables hold *)
  nb : nat;                (* block instances made so far *)
  swo : W
}.

Inductive out :=
| Val (v : V) (s : state)
| Exit (id : nat) (v : V) (s : state)
| Err.

Fixpoint assoc {A} (x : nat) (l : list (nat * A)) : option A :=
  match l with
  | [] => None
  | (y, a) :: l => if Nat.eqb y x then Some a else assoc x l
  end.

(* The innermost local function named f, with the scopes of its text. *)
Fixpoint flookup (f : nat) (fe : fenv)
  : option (list nat * list exp * env * benv * fenv) :=
  match fe with
  | FEnd => None
  | FGroup rec fns e b rest =>
      match assoc f fns with
      | Some (ps, body) => Some (ps, body, e, b, if rec then fe else rest)
      | None => flookup f rest
      end
  end.

Definition proclaimed x := match kinds x with Variable_ => false | _ => true end.

Definition read (e : env) (x : nat) (s : state) : option V :=
  if proclaimed x then sdyn s x
  else match assoc x e with
       | Some (Loc l) => nth_error (sto s) l
       | _ => sdyn s x
       end.

Fixpoint set_nth (l : list V) (i : nat) (v : V) : list V :=
  match l, i with
  | [], _ => []
  | _ :: l, O => v :: l
  | a :: l, S i => a :: set_nth l i v
  end.

Definition setd (s : state) x v := mkS (sto s) (upd (sdyn s) x v) (nb s) (swo s).

Definition write (e : env) (x : nat) (v : V) (s : state) : state :=
  if proclaimed x then setd s x (Some v)
  else match assoc x e with
       | Some (Loc l) => mkS (set_nth (sto s) l v) (sdyn s) (nb s) (swo s)
       | _ => setd s x (Some v)
       end.

(* ------------------------------------------------------------------ *)
(* Running *)

Definition bindo (r : option out) (k : V -> state -> option out) : option out :=
  match r with
  | Some (Val v s) => k v s
  | r => r
  end.

(* The old value comes back however the scope is left. *)
Definition restore x (old : option V) (r : option out) : option out :=
  match r with
  | Some (Val v s) => Some (Val v (setd s x old))
  | Some (Exit i v s) => Some (Exit i v (setd s x old))
  | r => r
  end.

(* Bind x to v around k: a special variable for the time k takes, any other
   in the text of k. *)
Definition scoped (isdyn : nat -> bool) x v
  (k : env -> state -> option out) (e : env) (s : state) : option out :=
  if isdyn x then restore x (sdyn s x) (k e (setd s x (Some v)))
  else k ((x, Loc (length (sto s))) :: e)
         (mkS (sto s ++ [v]) (sdyn s) (nb s) (swo s)).

Fixpoint binds (isdyn : nat -> bool) (l : list (nat * V))
  (k : env -> state -> option out) (e : env) (s : state) : option out :=
  match l with
  | [] => k e s
  | (x, v) :: l => scoped isdyn x v (binds isdyn l k) e s
  end.

(* A block instance around k. *)
Definition blocked (n : nat) (b : benv)
  (k : benv -> state -> option out) (s : state) : option out :=
  let id := nb s in
  match k ((n, id) :: b) (mkS (sto s) (sdyn s) (S id) (swo s)) with
  | Some (Exit i v s') => if Nat.eqb i id then Some (Val v s') else Some (Exit i v s')
  | r => r
  end.

Section Step.
Variable ev : env -> fenv -> benv -> exp -> state -> option out.

Fixpoint progn (e : env) (fe : fenv) (b : benv) (l : list exp) (v : V) (s : state)
  : option out :=
  match l with
  | [] => Some (Val v s)
  | a :: l => bindo (ev e fe b a s) (fun v s => progn e fe b l v s)
  end.

Fixpoint evals (e : env) (fe : fenv) (b : benv) (l : list exp) (s : state)
  (k : list V -> state -> option out) : option out :=
  match l with
  | [] => k [] s
  | a :: l => bindo (ev e fe b a s)
                (fun v s => evals e fe b l s (fun vs s => k (v :: vs) s))
  end.

Fixpoint loop (n : nat) (e : env) (fe : fenv) (b : benv) (a : exp) (l : list exp)
  (s : state) : option out :=
  match n with
  | O => None
  | S n => bindo (ev e fe b a s) (fun v s =>
             if isnil v then Some (Val nilv s)
             else bindo (progn e fe b l nilv s) (fun _ s => loop n e fe b a l s))
  end.

Fixpoint slet (isdyn : nat -> bool) (fe : fenv) (b : benv)
  (bs : list (nat * exp)) (k : env -> state -> option out)
  (e : env) (s : state) : option out :=
  match bs with
  | [] => k e s
  | (x, a) :: bs =>
      bindo (ev e fe b a s) (fun v s => scoped isdyn x v (slet isdyn fe b bs k) e s)
  end.

(* Apply a function: its parameters are bound in the scope of its text, and
   its body is a block of its name. *)
Definition applyf (n : option nat) (ps : list nat) (body : list exp)
  (e : env) (fe : fenv) (b : benv) (vs : list V) (s : state) : option out :=
  if Nat.eqb (length ps) (length vs) then
    binds proclaimed (combine ps vs) (fun e s =>
      match n with
      | Some n => blocked n b (fun b s => progn e fe b body nilv s) s
      | None => progn e fe b body nilv s
      end) e s
  else Some Err.
End Step.

Definition inl (x : nat) (l : list nat) : bool := existsb (Nat.eqb x) l.

(* The variables a declaration makes special that were not so already. *)
Definition declared (decl : list nat) : env :=
  map (fun x => (x, Dyn)) (filter (fun x => match kinds x with Special_ => false | _ => true end) decl).

Fixpoint eval (n : nat) (e : env) (fe : fenv) (b : benv) (ex : exp) (s : state)
  {struct n} : option out :=
  match n with
  | O => None
  | S n =>
    let ev := eval n in
    match ex with
    | Const v => Some (Val v s)
    | Var x => match read e x s with Some v => Some (Val v s) | None => Some Err end
    | Setq x a => bindo (ev e fe b a s) (fun v s => Some (Val v (write e x v s)))
    | Progn l => progn ev e fe b l nilv s
    | If a p q => bindo (ev e fe b a s) (fun v s =>
                    if isnil v then ev e fe b q s else ev e fe b p s)
    | While a l => blocked 0 b (fun b s => loop ev n e fe b a l s) s
    | Let bs decl l =>
        evals ev e fe b (map snd bs) s (fun vs s =>
          binds (fun x => proclaimed x || inl x decl) (combine (map fst bs) vs)
            (fun e s => progn ev (declared decl ++ e) fe b l nilv s) e s)
    | LetStar bs decl l =>
        slet ev (fun x => proclaimed x || inl x decl) fe b bs
          (fun e s => progn ev (declared decl ++ e) fe b l nilv s) e s
    | Block n l => blocked n b (fun b s => progn ev e fe b l nilv s) s
    | Return n a =>
        match assoc n b with
        | None => Some Err
        | Some id => bindo (ev e fe b a s) (fun v s => Some (Exit id v s))
        end
    | Flet fns l => progn ev e (FGroup false fns e b fe) b l nilv s
    | Labels fns l => progn ev e (FGroup true fns e b fe) b l nilv s
    | Fun f args =>
        match flookup f fe with
        | Some (ps, body, e', b', fe') =>
            evals ev e fe b args s (fun vs s =>
              applyf ev (Some f) ps body e' fe' b' vs s)
        | None =>
            match defs f with
            | None => Some Err
            | Some (FLam ps body) =>
                evals ev e fe b args s (fun vs s =>
                  applyf ev (Some f) ps body [] FEnd [] vs s)
            | Some (FPrim p) =>
                evals ev e fe b args s (fun vs s =>
                  match prim p vs (sdyn s) (swo s) with
                  | Some (v, d, w) => Some (Val v (mkS (sto s) d (nb s) w))
                  | None => Some Err
                  end)
            end
        end
    | Lam ps body args =>
        evals ev e fe b args s (fun vs s => applyf ev None ps body e fe b vs s)
    end
  end.

End Lang.

Arguments Const {V} v.
Arguments Var {V} x.
Arguments Setq {V} x a.
Arguments Progn {V} l.
Arguments If {V} a b c.
Arguments While {V} a l.
Arguments Let {V} bs decl l.
Arguments LetStar {V} bs decl l.
Arguments Block {V} n l.
Arguments Return {V} n a.
Arguments Flet {V} fns l.
Arguments Labels {V} fns l.
Arguments Fun {V} f args.
Arguments Lam {V} ps body args.
Arguments FLam {V} ps body.
Arguments FPrim {V} p.
Arguments FEnd {V}.
Arguments FGroup {V} rec fns e b rest.
Arguments mkS {V W}.
Arguments sto {V W} s.
Arguments sdyn {V W} s x.
Arguments nb {V W} s.
Arguments swo {V W} s.
Arguments Val {V W} v s.
Arguments Exit {V W} id v s.
Arguments Err {V W}.
Arguments upd {V} d x v y.
Arguments setd {V W} s x v.
Arguments set_nth {V} l i v.
Arguments flookup {V} f fe.
Arguments bindo {V W} r k.
Arguments restore {V W} x old r.
Arguments scoped {V W} isdyn x v k e s.
Arguments binds {V W} isdyn l k e s.
Arguments blocked {V W} n b k s.
Arguments progn {V W} ev e fe b l v s.
Arguments evals {V W} ev e fe b l s k.
Arguments slet {V W} ev isdyn fe b bs k e s.
