(* Programs on which the interpreter is claimed to follow the text.

   [good] is checked on the text alone.  Each clause leaves out one thing that
   goes wrong; ScopeProperties shows by example that it must. *)

From Coq Require Import List Bool Arith.
From Verif Require Import ScopeLang.
Import ListNotations.

Section Good.
Variable V : Type.
Variable kinds : nat -> kind.
Variable local : nat -> bool.        (* names kept for local functions *)

Fixpoint nodupb (l : list nat) : bool :=
  match l with
  | [] => true
  | x :: l => negb (inl x l) && nodupb l
  end.

Definition special (x : nat) : bool :=
  match kinds x with Special_ => true | _ => false end.

(* blocks: the names return-from may use; fns: the local functions in scope *)
Fixpoint good (blocks fns : list nat) (ex : exp V) {struct ex} : bool :=
  match ex with
  | Const _ | Var _ => true
  | Setq _ a => good blocks fns a
  | Progn l => forallb (good blocks fns) l
  | If a b c => good blocks fns a && good blocks fns b && good blocks fns c
  | While a l => good (0 :: blocks) fns a && forallb (good (0 :: blocks) fns) l
  | Let bs decl l =>
      (* no variable twice; a declaration only repeats a proclamation *)
      nodupb (map fst bs) && forallb special decl
      && forallb (fun p => good blocks fns (snd p)) bs && forallb (good blocks fns) l
  | LetStar bs decl l =>
      nodupb (map fst bs) && forallb special decl
      && forallb (fun p => good blocks fns (snd p)) bs && forallb (good blocks fns) l
  | Block n l => forallb (good (n :: blocks) fns) l
  | Return n a => inl n blocks && good blocks fns a
  | Flet ds l =>
      (* a local function returns from no block outside it *)
      nodupb (map fst ds) && forallb local (map fst ds)
      && forallb (fun d => nodupb (fst (snd d))
                           && forallb (good [fst d] fns) (snd (snd d))) ds
      && forallb (good blocks (map fst ds ++ fns)) l
  | Labels ds l =>
      nodupb (map fst ds) && forallb local (map fst ds)
      && forallb (fun d => nodupb (fst (snd d))
                           && forallb (good [fst d] (map fst ds ++ fns)) (snd (snd d))) ds
      && forallb (good blocks (map fst ds ++ fns)) l
  | Fun f args => (negb (local f) || inl f fns) && forallb (good blocks fns) args
  | Lam _ _ _ => false             (* no form with a lambda as operator *)
  end.

(* Global functions have none of the names kept for local ones. *)
Definition good_defs (defs : nat -> option (fdef V)) : Prop :=
  forall f d, defs f = Some d ->
    local f = false /\
    match d with
    | FLam ps body => nodupb ps && forallb (good [f] []) body = true
    | FPrim _ => True
    end.
End Good.

Arguments good {V} kinds local blocks fns ex.
Arguments good_defs {V} kinds local defs.
