(** Cons cells and the list functions of lisp/c/lists.c, the list branches of lisp/c/sequence.c
    (REVERSE, NREVERSE, COPYSEQ, LENGTH) and last, copy-list, nreconc of lisp/l/common.l.

    A word is NIL, a pointer to a cons cell, or any other object ([Atom]).  The heap maps addresses to
    (car, cdr); [next] is the next address the allocator hands out.  Instances of subclasses of cons are conses
    here, as for iscons/islist (eus.h 834-843).  Left out: the type-check bits of ckarg, stack overflow of
    ckpush (a circular list overflows the stack or loops: outcome [Hang]), garbage collection. *)
From Coq Require Export List Arith Lia Bool NArith ZArith.
Export ListNotations.

Inductive val := Nil | Ptr (a : nat) | Atom (n : N).
Record heap := mkHeap { mem : nat -> val * val; next : nat }.

Inductive out (A : Type) := Ret (a : A) | Error | Hang | Undef.
Arguments Ret {A}. Arguments Error {A}. Arguments Hang {A}. Arguments Undef {A}.
Definition bind {A B} (x : out A) (f : A -> out B) : out B :=
  match x with Ret a => f a | Error => Error | Hang => Hang | Undef => Undef end.
Notation "'do' x <- e ; f" := (bind e (fun x => f)) (at level 200, x pattern, right associativity).

Definition car (h : heap) (a : nat) : val := fst (mem h a).
Definition cdr (h : heap) (a : nat) : val := snd (mem h a).
Definition set_mem (h : heap) (a : nat) (c : val * val) : heap :=
  mkHeap (fun b => if Nat.eqb b a then c else mem h b) (next h).
Definition set_car (h : heap) (a : nat) (v : val) : heap := set_mem h a (v, cdr h a).
Definition set_cdr (h : heap) (a : nat) (v : val) : heap := set_mem h a (car h a, v).
(** eus.c cons *)
Definition cons_ (h : heap) (a d : val) : heap * val :=
  (mkHeap (fun b => if Nat.eqb b (next h) then (a, d) else mem h b) (S (next h)), Ptr (next h)).

Definition val_eqb (x y : val) : bool :=
  match x, y with Nil, Nil => true | Ptr a, Ptr b => Nat.eqb a b | Atom a, Atom b => N.eqb a b | _, _ => false end.

(** C conversion of a long to int (two's complement) *)
Definition to_int (z : Z) : Z := ((z + 2147483648) mod 4294967296 - 2147483648)%Z.

(** "while (i-->0 && islist(a)) a=ccdr(a);" *)
Fixpoint skip (i : nat) (h : heap) (v : val) : val :=
  match i, v with S j, Ptr a => skip j h (cdr h a) | _, _ => v end.

(** lists.c 105-117 NTH; the index is read into an int *)
Definition NTH (h : heap) (index : Z) (v : val) : out val :=
  let i := to_int index in
  if (i <? 0)%Z then Error else
  match skip (Z.to_nat i) h v with Ptr a => Ret (car h a) | Nil => Ret Nil | Atom _ => Error end.

(** lists.c 119-132 NTHCDR *)
Definition NTHCDR (h : heap) (index : Z) (v : val) : out val :=
  let i := to_int index in
  if (i <? 0)%Z then Error else
  match v with Nil => Ret Nil | Atom _ => Error | Ptr _ => Ret (skip (Z.to_nat i) h v) end.

(** common.l 431-433 last: (while (consp (cdr x)) (setq x (cdr x))); (cdr nil) is nil, (cdr atom) an error *)
Fixpoint last_loop (fuel : nat) (h : heap) (v : val) : out val :=
  match fuel with
  | O => Hang
  | S f => match v with
           | Ptr a => match cdr h a with Ptr b => last_loop f h (Ptr b) | _ => Ret v end
           | Nil => Ret Nil
           | Atom _ => Error
           end
  end.

(** "while (islist(a)) { ckpush(ccar(a)); a=ccdr(a); i++;}": the stack grows to the left of the list, so the
    result is the pushed cars, topmost first, and the non-cons tail *)
Fixpoint push_cars (fuel : nat) (h : heap) (v : val) (stk : list val) : out (list val * val) :=
  match v with
  | Ptr a => match fuel with O => Hang | S f => push_cars f h (cdr h a) (car h a :: stk) end
  | _ => Ret (stk, v)
  end.

(** "while (i-->0) r=cons(ctx,vpop(),r);" *)
Fixpoint cons_popped (h : heap) (stk : list val) (r : val) : heap * val :=
  match stk with [] => (h, r) | x :: s => let '(h1, r1) := cons_ h x r in cons_popped h1 s r1 end.

(** lists.c 197-211 APPEND, from the last argument backwards; [rargs] are the arguments before the last one,
    last first *)
Fixpoint append_loop (fuel : nat) (h : heap) (rargs : list val) (r : val) : out (heap * val) :=
  match rargs with
  | [] => Ret (h, r)
  | Atom _ :: _ => Error
  | a :: rest =>
      do (stk, _) <- push_cars fuel h a [];
      let '(h1, r1) := cons_popped h stk r in append_loop fuel h1 rest r1
  end.
Definition APPEND (fuel : nat) (h : heap) (args : list val) : out (heap * val) :=
  match rev args with [] => Ret (h, Nil) | l :: rest => append_loop fuel h rest l end.

(** lists.c 181-187 LIST *)
Definition LIST (h : heap) (args : list val) : heap * val := cons_popped h (rev args) Nil.

(** lists.c 373-388 BUTLAST; [n] is argv[1], 1 when absent *)
Definition BUTLAST (fuel : nat) (h : heap) (v : val) (n : Z) : out (heap * val) :=
  let n := to_int n in
  match v with
  | Nil => Ret (h, Nil)
  | Atom _ => Error
  | Ptr _ =>
      if (n <? 0)%Z then Error else
      do (stk, _) <- push_cars fuel h v [];
      let count := length stk in
      Ret (cons_popped h (skipn (Nat.min count (Z.to_nat n)) stk) Nil)
  end.

(** sequence.c 217-227 REVERSE of a list *)
Fixpoint reverse_loop (fuel : nat) (h : heap) (v r : val) : out (heap * val) :=
  match v with
  | Ptr a => match fuel with O => Hang | S f => let '(h1, r1) := cons_ h (car h a) r in reverse_loop f h1 (cdr h a) r1 end
  | _ => Ret (h, r)
  end.
Definition REVERSE (fuel : nat) (h : heap) (v : val) : out (heap * val) :=
  match v with Atom _ => Error | _ => reverse_loop fuel h v Nil end.

(** sequence.c 173-186 COPYSEQ of a list *)
Definition COPYSEQ (fuel : nat) (h : heap) (v : val) : out (heap * val) :=
  match v with
  | Nil => Ret (h, Nil) | Atom _ => Error
  | Ptr _ => do (stk, _) <- push_cars fuel h v []; Ret (cons_popped h stk Nil)
  end.

(** sequence.c LENGTH of a list *)
Fixpoint length_loop (fuel : nat) (h : heap) (v : val) (l : nat) : out nat :=
  match v with
  | Ptr a => match fuel with O => Hang | S f => length_loop f h (cdr h a) (S l) end
  | _ => Ret l
  end.
Definition LENGTH (fuel : nat) (h : heap) (v : val) : out nat :=
  match v with Atom _ => Error | _ => length_loop fuel h v 0 end.

(** sequence.c 249-263 NREVERSE of a list: the cars are pushed, then popped back from the front *)
Fixpoint write_cars (h : heap) (v : val) (stk : list val) : out heap :=
  match stk with
  | [] => Ret h
  | x :: s => match v with Ptr a => let h1 := set_car h a x in write_cars h1 (cdr h1 a) s | _ => Undef end
  end.
Definition NREVERSE (fuel : nat) (h : heap) (v : val) : out (heap * val) :=
  match v with
  | Nil => Ret (h, Nil) | Atom _ => Error
  | Ptr _ => do (stk, _) <- push_cars fuel h v []; do h1 <- write_cars h v stk; Ret (h1, v)
  end.

(** common.l 435 copy-list *)
Definition copy_list (fuel : nat) (h : heap) (v : val) : out (heap * val) :=
  do (h1, r) <- REVERSE fuel h v; NREVERSE fuel h1 r.

(** the last cell: "while (islist(ccdr(c))) c=ccdr(c);" *)
Fixpoint last_cell (fuel : nat) (h : heap) (a : nat) : out nat :=
  match fuel with
  | O => Hang
  | S f => match cdr h a with Ptr b => last_cell f h b | _ => Ret a end
  end.

(** lists.c 213-229 NCONC, arguments last first *)
Fixpoint nconc_loop (fuel : nat) (h : heap) (rargs : list val) (a : val) : out (heap * val) :=
  match rargs with
  | [] => Ret (h, a)
  | Ptr c :: rest => do l <- last_cell fuel h c; nconc_loop fuel (set_cdr h l a) rest (Ptr c)
  | _ :: rest => nconc_loop fuel h rest a
  end.
Fixpoint nconc_start (fuel : nat) (h : heap) (rargs : list val) : out (heap * val) :=
  match rargs with
  | [] => Ret (h, Nil)
  | Ptr c :: rest => nconc_loop fuel h rest (Ptr c)
  | _ :: rest => nconc_start fuel h rest
  end.
Definition NCONC (fuel : nat) (h : heap) (args : list val) : out (heap * val) := nconc_start fuel h (rev args).

(** "while (iscons(a)) { ckpush(a); a=ccdr(a); count++;}": the cells, last one first *)
Fixpoint push_cells (fuel : nat) (h : heap) (v : val) (stk : list nat) : out (list nat) :=
  match v with
  | Ptr a => match fuel with O => Hang | S f => push_cells f h (cdr h a) (a :: stk) end
  | _ => Ret stk
  end.

(** lists.c 390-407 NBUTLAST.  b is the word n+1 below the stack pointer; with n equal to the number of
    cells it lies below the words just pushed: whatever is there is used as a cons cell. *)
Definition NBUTLAST (fuel : nat) (h : heap) (v : val) (n : Z) : out (heap * val) :=
  let n := to_int n in
  match v with
  | Nil => Ret (h, Nil)
  | Atom _ => Error
  | Ptr _ =>
      if (n <? 0)%Z then Error else
      do stk <- push_cells fuel h v [];
      match nth_error stk (Nat.min (length stk) (Z.to_nat n)) with
      | Some b => Ret (set_cdr h b Nil, v)
      | None => Undef
      end
  end.

(** lists.c 294-315 SUPERMEMBER (and common.l 441 member); [test] stands for the chosen comparison of the
    item with the element, keys included *)
Fixpoint SUPERMEMBER (fuel : nat) (h : heap) (test : val -> bool) (v : val) : out val :=
  match v with
  | Ptr a => match fuel with O => Hang | S f => if test (car h a) then Ret v else SUPERMEMBER f h test (cdr h a) end
  | _ => Ret Nil
  end.

(** lists.c 351-371 SUPERASSOC (and common.l 443 assoc); elements that are not pairs are passed over *)
Fixpoint SUPERASSOC (fuel : nat) (h : heap) (test : val -> bool) (v : val) : out val :=
  match v with
  | Ptr a =>
      match fuel with
      | O => Hang
      | S f => match car h a with
               | Ptr p => if test (car h p) then Ret (Ptr p) else SUPERASSOC f h test (cdr h a)
               | _ => SUPERASSOC f h test (cdr h a)
               end
      end
  | _ => Ret Nil
  end.
