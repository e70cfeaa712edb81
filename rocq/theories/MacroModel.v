(** Model of the macros of lisp/l/common.l that expand to special forms, on the forms of [CompLang].

    The symbols that gensym makes are arguments here: they are new objects, so they name no variable, tag or block of the
    program and are not special.  (declare ...) is left out.  A place in setf is a variable: setf of a symbol is setq
    (lisp/l/common.l, setf).  Numbers, memq, less-than and 1+ are in the world of [CompLang]. *)
From Coq Require Import List.
From Verif Require Import CompLang.
Import ListNotations.

(** specials.c:345-366: when *)
Definition m_when (c : exp) (l : list exp) : exp := If c (Progn l) (Const NIL).

(** common.l:98-101: unless, until; not is null *)
Definition m_unless (c : exp) (l : list exp) : exp := m_when (Null c) l.
Definition m_until (c : exp) (l : list exp) : exp := While (Null c) l.

(** common.l:90-93: prog1 *)
Definition m_prog1 (first : nat) (a : exp) (l : list exp) : exp := Let [(first, a)] [Progn l; Var first].

(** common.l:102: pop of a variable *)
Definition m_pop (first s : nat) : exp := m_prog1 first (Car (Var s)) [Setq [(s, Cdr (Var s))]].

(** common.l:95-97: loop *)
Definition m_loop (tag : nat) (forms : list exp) : exp :=
  Block 0 [Tagbody (inl tag :: map inr forms ++ [inr (Go tag)])].

(** common.l:145-152: dotimes; [zero], [less], [add1] are 0 and the functions less-than and 1+ *)
Definition m_dotimes (zero : V) (less add1 endvar x : nat) (count result : exp) (forms : list exp) : exp :=
  Let [(x, Const zero); (endvar, count)]
      [While (Call less [Var x; Var endvar]) (forms ++ [Setq [(x, Call add1 [Var x])]]); result].

(** common.l:154-164: dolist *)
Definition m_dolist (lists first x : nat) (l result : exp) (forms : list exp) : exp :=
  Let [(x, Const NIL); (lists, l)]
      [Const NIL; While (Var lists) (Setq [(x, m_pop first lists)] :: forms); result].

(** common.l:212-221: psetq *)
Definition m_psetq (gvars : list nat) (l : list (nat * exp)) : exp :=
  LetStar (combine gvars (map snd l)) [Setq (combine (map fst l) (map Var gvars)); Const NIL].

(** common.l:223-259: do and do*; a variable has an initial form and perhaps a step *)
Record dovar := DoVar { dv_name : nat; dv_init : exp; dv_step : option exp }.
Definition inits (vars : list dovar) : list (nat * exp) := map (fun v => (dv_name v, dv_init v)) vars.
Definition steps (vars : list dovar) : list (nat * exp) :=
  flat_map (fun v => match dv_step v with Some s => [(dv_name v, s)] | None => [] end) vars.

Definition do_items (tag : nat) (test : exp) (result forms : list exp) (step : exp) : list (nat + exp) :=
  inl tag :: inr (If test (ReturnFrom 0 (Progn result)) (Const NIL)) :: map inr forms ++ [inr step; inr (Go tag)].

Definition m_do (tag : nat) (gvars : list nat) (vars : list dovar) (test : exp) (result forms : list exp) : exp :=
  Block 0 [Let (inits vars) [Const NIL; Tagbody (do_items tag test result forms (m_psetq gvars (steps vars)))]].

Definition m_dostar (tag : nat) (vars : list dovar) (test : exp) (result forms : list exp) : exp :=
  Block 0 [LetStar (inits vars) [Const NIL; Tagbody (do_items tag test result forms (Setq (steps vars)))]].

(** common.l:276-296: case.  A head is t or otherwise, another atom, or a quoted list. *)
Inductive head := Otherwise | Atom (v : V) | Keys (quoted : V).

Definition casebody (body : list exp) : exp :=
  match body with [] => Const NIL | [a] => a | _ => Progn body end.
Definition casehead (memq keyvar : nat) (h : head) : exp :=
  match h with
  | Otherwise => Const T
  | Atom v => Eq (Var keyvar) (Const v)
  | Keys q => Call memq [Var keyvar; Const q]
  end.
Fixpoint case1 (memq keyvar : nat) (clauses : list (head * list exp)) : exp :=
  match clauses with
  | [] => Const NIL
  | (h, body) :: r => If (casehead memq keyvar h) (casebody body) (case1 memq keyvar r)
  end.
Definition m_case (memq keyvar : nat) (key : exp) (clauses : list (head * list exp)) : exp :=
  Let [(keyvar, key)] [case1 memq keyvar clauses].
