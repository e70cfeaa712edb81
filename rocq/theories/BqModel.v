(** Backquote: conv-bq, conscons and read-comma, lisp/l/readmacro.l 17-38, and the list constructors its expansions
    call: append, lisp/c/lists.c (APPEND); cons and list.

    Data read by the reader are finite trees.  Symbols are numbered; the six the code mentions have fixed numbers.
    Other atoms are numbers and vectors. *)
From Coq Require Export List Arith ZArith Lia Bool.
Export ListNotations.

Inductive datum := Nil | Sym (s : nat) | Num (z : Z) | Vec (l : list datum) | Cons (a d : datum).

Definition COMMA := 0. Definition COMMA_AT := 1. Definition QUOTE := 2.
Definition LIST := 3. Definition CONS := 4. Definition APPEND := 5.

Definition list1 (a : datum) := Cons a Nil.
Definition list2 (a b : datum) := Cons a (list1 b).
Definition list3 (a b c : datum) := Cons a (list2 b c).

(** (atom x): predicates.c ATOM *)
Definition atom (x : datum) : bool := match x with Cons _ _ => false | _ => true end.
Definition is_sym (s : nat) (x : datum) : bool := match x with Sym t => t =? s | _ => false end.
Definition car (x : datum) : datum := match x with Cons a _ => a | _ => Nil end.
Definition cdr (x : datum) : datum := match x with Cons _ d => d | _ => Nil end.

(** readmacro.l 30-33 *)
Definition conscons (x y : datum) : datum :=
  match y with Nil => list2 (Sym LIST) x | _ => list3 (Sym CONS) x y end.

(** readmacro.l 18-28 *)
Fixpoint conv_bq (x : datum) : datum :=
  match x with
  | Nil => Nil
  | Cons a d =>
      if atom a then
        if is_sym COMMA a then d else conscons (list2 (Sym QUOTE) a) (conv_bq d)
      else if is_sym COMMA (car a) then conscons (cdr a) (conv_bq d)
      else if is_sym COMMA_AT (car a) then list3 (Sym APPEND) (cdr a) (conv_bq d)
      else conscons (conv_bq a) (conv_bq d)
  | _ => list2 (Sym QUOTE) x
  end.

(** readmacro.l 35-38: the datum read for ",form" and ",@form" *)
Definition read_comma (at_sign : bool) (form : datum) : datum :=
  Cons (Sym (if at_sign then COMMA_AT else COMMA)) form.

(** lists.c APPEND with two arguments: the first must be a list; [None] is the error *)
Fixpoint append_conses (a r : datum) : datum :=
  match a with Cons x d => Cons x (append_conses d r) | _ => r end.
Definition append2 (a r : datum) : option datum :=
  match a with Nil | Cons _ _ => Some (append_conses a r) | _ => None end.
