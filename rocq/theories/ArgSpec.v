(** Specification for C106: the value of an argument follows from its occurrences on the command line. *)
From Coq Require Import ZArith String List.
From Verif Require Import ArgModel.
Import ListNotations.
Open Scope Z_scope.

(** the occurrences of an argument with these flags, in order, each with the text behind its = *)
Definition occurrences (fs : list string) (argv : list string) : list (option string) :=
  flat_map (fun s => if flag_name_p s then (if in_dec string_dec (fst (split_flag s)) fs then [snd (split_flag s)] else []) else []) argv.

(** a value that passes check and choices *)
Definition fits (a : argument) (v : val) : Prop := (forall f, check a = Some f -> f v = true) /\ (choices a = [] \/ In v (choices a)).
(** what one occurrence gives *)
Definition gives (a : argument) (o : option string) (v : val) : Prop :=
  match act a, o with
  | Store, Some s | Append, Some s => match read a with Some r => r s = Some v | None => v = VStr s end
  | Call1 f, Some s => exists x, match read a with Some r => r s = Some x | None => x = VStr s end /\ f x = Some v
  | Call0 r, None => r = Some v
  | StoreTrue, None => v = VT
  | StoreFalse, None => v = VNil
  | StoreConst, None => v = const a
  | _, _ => False
  end.
Fixpoint lisp_list (l : list val) : val := match l with [] => VNil | x :: r => VCons x (lisp_list r) end.
(** the value in the end *)
Definition means (a : argument) (occ : list (option string)) (v : val) : Prop :=
  match act a with
  | Count => (occ = [] /\ v = value a) \/
      exists n, (value a = VInt n \/ value a = VNil /\ n = 0) /\ Forall (eq None) occ /\ (forall i, 0 < i <= Z.of_nat (length occ) -> fits a (VInt (n + i))) /\
                occ <> [] /\ v = VInt (n + Z.of_nat (length occ))
  | Append => (occ = [] /\ v = value a) \/
      exists l vs, value a = lisp_list l /\ Forall2 (fun o x => gives a o x /\ fits a x) occ vs /\ occ <> [] /\ v = lisp_list (l ++ vs)
  | _ => exists vs, Forall2 (fun o x => gives a o x /\ fits a x) occ vs /\ v = last vs (value a)
  end.
(** :read makes sense only where there is a text *)
Definition sensible (a : argument) : Prop := match act a with StoreTrue | StoreFalse | StoreConst | Count => read a = None | _ => True end.
