(** Model of the list primitives at the level at which the garbage collector sees them: which values lie on the Lisp
    stack, which only in variables of C, and where a collection may happen.  lisp/c/makes.c (cons, stacknlist,
    makevector, makeobject), lisp/c/lists.c (LIST, LIST-star, APPEND, subst, BUTLAST), lisp/c/sequence.c (call1, call2, SUBSEQ,
    COPYSEQ, REVERSE, pushsequence, makesequence, CONCATENATE, UNIREMOVE, REMOVE_DUPLICATES, SUBSTITUTE, compar, SORT),
    lisp/c/specials.c (MAPCAR) and lisp/c/reader.c (readvector, read_delimited_list).

    The collector and the allocator are a parameter [env]: asked for a cell, it may free any cells and returns a free
    address.  That it keeps what the roots reach is a hypothesis of the theorems (C20 to C24 are about the collector
    itself).  Functions called back are a parameter as well.  Reading a cell that is not allocated is [Dead].
    Simplifications: values are NIL, atoms and addresses; a cell is a cons or a vector of values; C integers do not
    overflow, and the Lisp stack is not bounded; one thread. *)
From Coq Require Import List Arith Bool.
From Verif Require SeqModel.
Import ListNotations.

Inductive val := Nil | Atom (n : nat) | Ptr (a : nat).
Inductive cell := Cons (car cdr : val) | Vec (l : list val).
Definition heap := nat -> option cell.
Definition set (h : heap) (a : nat) (c : cell) : heap := fun b => if Nat.eqb b a then Some c else h b.

(** [stk]: the part of the Lisp stack above the arguments and below them, topmost first, up to ctx->vsp; [arg]: the
    argument vector argv, itself on the Lisp stack; [last]: ctx->lastalloc; [tm] counts the calls of [env] and of the
    functions called back, so that these may behave differently each time. *)
Record state := St { hp : heap; stk : list val; arg : list val; last : val; tm : nat }.

(** [Done]: returned; [Dead]: a cell that is not allocated was read or written, or the stack ran below its bottom;
    [Fail]: error signalled; [Loop]: fuel ran out *)
Inductive res (A : Type) := Done (a : A) (s : state) | Dead | Fail | Loop.
Arguments Done {A}. Arguments Dead {A}. Arguments Fail {A}. Arguments Loop {A}.
Definition M (A : Type) := state -> res A.
Definition ret {A} (a : A) : M A := fun s => Done a s.
Definition bind {A B} (m : M A) (k : A -> M B) : M B :=
  fun s => match m s with Done a s' => k a s' | Dead => Dead | Fail => Fail | Loop => Loop end.
Notation "'let!' x := m 'in' k" := (bind m (fun x => k)) (at level 200, x pattern, m at level 100, k at level 200).
Notation "m1 ;; m2" := (bind m1 (fun _ => m2)) (at level 199, right associativity).

(** The collector and allocator: called with the time, the roots and the heap; the answer is the heap after the
    collection and a free address, or nothing (E_ALLOCATION). *)
Definition env_t := nat -> list val -> heap -> option (heap * nat).
(** A function called back, with its arguments; the answer is the heap afterwards, its value and ctx->lastalloc. *)
Definition fun_t := nat -> list val -> heap -> list val -> option (heap * val * val).

Section Prims.
(** [glob]: what markall (memory.c 520-600) marks besides the stack and lastalloc: sysobj, pkglist, the thread object,
    the special bindings and the class table. *)
Variables (env : env_t) (glob : list val).

(** memory.c 520-600 *)
Definition roots (s : state) : list val := stk s ++ arg s ++ glob ++ [last s].

(** vpush/ckpush, vpop, ctx->vsp -= n, *(vsp-1-i) and argv[i] *)
Definition push (v : val) : M unit := fun s => Done tt (St (hp s) (v :: stk s) (arg s) (last s) (tm s)).
Definition pop : M val := fun s =>
  match stk s with [] => Dead | v :: r => Done v (St (hp s) r (arg s) (last s) (tm s)) end.
Definition drop (n : nat) : M unit := fun s =>
  if length (stk s) <? n then Dead else Done tt (St (hp s) (skipn n (stk s)) (arg s) (last s) (tm s)).
Definition peek (i : nat) : M val := fun s => match nth_error (stk s) i with None => Dead | Some v => Done v s end.
Definition argv (i : nat) : M val := fun s => match nth_error (arg s) i with None => Dead | Some v => Done v s end.
Fixpoint upd (l : list val) (i : nat) (v : val) : list val :=
  match l, i with [], _ => [] | _ :: r, O => v :: r | x :: r, S j => x :: upd r j v end.
Definition set_argv (i : nat) (v : val) : M unit := fun s =>
  Done tt (St (hp s) (stk s) (upd (arg s) i v) (last s) (tm s)).

(** islist (or iscons) together with ccar and ccdr: the cell is read to find its class *)
Definition look (v : val) : M (option (val * val)) := fun s =>
  match v with
  | Ptr a => match hp s a with None => Dead | Some (Cons x d) => Done (Some (x, d)) s | Some (Vec _) => Done None s end
  | _ => Done None s
  end.
Definition store (v : val) (c : cell) : M unit := fun s =>
  match v with
  | Ptr a => match hp s a with None => Dead | Some _ => Done tt (St (set (hp s) a c) (stk s) (arg s) (last s) (tm s)) end
  | _ => Dead
  end.

(** memory.c 329- gc_alloc: a collection may come first; the cell is remembered in ctx->lastalloc.  Its fields are
    NIL (gc_alloc clears them, makevector sets them). *)
Definition alloc (c : cell) : M val := fun s =>
  match env (tm s) (roots s) (hp s) with
  | None => Fail
  | Some (h, a) => Done (Ptr a) (St (set h a c) (stk s) (arg s) (Ptr a) (S (tm s)))
  end.

(** makes.c 97-118 *)
Definition cons (a d : val) : M val :=
  push a ;; push d ;; let! c := alloc (Cons Nil Nil) in drop 2 ;; store c (Cons a d) ;; ret c.

(** makes.c 129-138 stacknlist: [j] is the distance of fsp below vsp *)
Fixpoint stacknlist_loop (n j : nat) (r : val) : M val :=
  match n with
  | O => drop j ;; ret r
  | S k => let! x := peek j in let! r' := cons x r in stacknlist_loop k (S j) r'
  end.
Definition stacknlist (n : nat) : M val := stacknlist_loop n 0 Nil.

(** while (islist(a)) { ckpush(ccar(a)); a=ccdr(a); i++;}; the count and the rest *)
Fixpoint push_all (fuel : nat) (a : val) (i : nat) : M (nat * val) :=
  match fuel with
  | O => fun _ => Loop
  | S f => let! c := look a in
           match c with None => ret (i, a) | Some (x, d) => push x ;; push_all f d (S i) end
  end.
(** while (i-->0) r=cons(ctx,vpop(),r) *)
Fixpoint pop_cons (i : nat) (r : val) : M val :=
  match i with O => ret r | S k => let! x := pop in let! r' := cons x r in pop_cons k r' end.

(** lists.c 181-195 LIST and LIST_STAR; [n] is the number of arguments *)
Fixpoint list_loop (n : nat) (r : val) : M val :=
  match n with O => ret r | S k => let! x := argv k in let! r' := cons x r in list_loop k r' end.
Definition LIST (n : nat) : M val := list_loop n Nil.
Definition LIST_STAR (n : nat) : M val := let! r := argv (n - 1) in list_loop (n - 1) r.

(** lists.c 197-211 APPEND *)
Fixpoint append_loop (fuel n : nat) (r : val) : M val :=
  match n with
  | O => ret r
  | S k => let! a := argv k in
           let! c := look a in
           match c, a with
           | None, (Atom _ | Ptr _) => fun _ => Fail
           | _, _ => let! (i, _) := push_all fuel a 0 in let! r' := pop_cons i r in append_loop fuel k r'
           end
  end.
Definition APPEND (fuel n : nat) : M val :=
  match n with O => ret Nil | S k => let! r := argv k in append_loop fuel k r end.

(** equal on conses and atoms (lists.c); reads the heap and allocates nothing *)
Fixpoint equal (fuel : nat) (x y : val) : M bool :=
  match fuel with
  | O => fun _ => Loop
  | S f => match x, y with
           | Nil, Nil => ret true
           | Atom n, Atom m => ret (Nat.eqb n m)
           | Ptr a, Ptr b =>
             if Nat.eqb a b then ret true else
             let! c := look x in let! d := look y in
             match c, d with
             | Some (x1, x2), Some (y1, y2) => let! e := equal f x1 y1 in if e then equal f x2 y2 else ret false
             | _, _ => ret false
             end
           | _, _ => ret false
           end
  end.
(** lists.c 231-241 subst and 243- SUBST *)
Fixpoint subst (fuel : nat) (x y z : val) : M val :=
  match fuel with
  | O => fun _ => Loop
  | S f => let! e := equal fuel y z in
           if e then ret x else
           let! c := look z in
           match c with
           | None => ret z
           | Some (a, d) => let! t := subst f x y a in push t ;; let! u := subst f x y d in let! w := pop in cons w u
           end
  end.
Definition SUBST (fuel : nat) : M val :=
  let! x := argv 0 in let! y := argv 1 in let! z := argv 2 in subst fuel x y z.

(** lists.c 373-388 BUTLAST, [n] the number given or 1 *)
Definition BUTLAST (fuel n : nat) : M val :=
  let! a := argv 0 in
  let! c := look a in
  match c, a with
  | None, Nil => ret Nil
  | None, _ => fun _ => Fail
  | Some _, _ => let! (count, _) := push_all fuel a 0 in
                 let m := Nat.min count n in drop m ;; stacknlist (count - m)
  end.

(** sequence.c 117-140 SUBSEQ on a list *)
Fixpoint skip_list (s : nat) (a : val) : M val :=
  match s with O => ret a
  | S k => let! c := look a in match c with None => ret a | Some (_, d) => skip_list k d end end.
(** while (count-->0 && iscons(a)) { ckpush(ccar(a)); a=ccdr(a); len++;} *)
Fixpoint push_upto (count : nat) (a : val) (i : nat) : M (nat * val) :=
  match count with
  | O => ret (i, a)
  | S k => let! c := look a in match c with None => ret (i, a) | Some (x, d) => push x ;; push_upto k d (S i) end
  end.
Definition SUBSEQ (fuel s : nat) (e : option nat) : M val :=
  if match e with Some e => e <? s | None => false end then fun _ => Fail else
  let! a := argv 0 in
  match a with
  | Nil => ret Nil
  | _ => let! a := skip_list s a in
         let! c := look a in
         match c with
         | None => fun _ => Fail
         | Some _ => let! (i, _) := match e with Some e => push_upto (e - s) a 0 | None => push_all fuel a 0 end in
                     stacknlist i
         end
  end.

(** sequence.c 173-186 COPYSEQ on a list *)
Definition COPYSEQ (fuel : nat) : M val :=
  let! a := argv 0 in let! (i, _) := push_all fuel a 0 in pop_cons i Nil.
(** sequence.c 217-227 REVERSE on a list: the rest of the argument is held in a C variable only *)
Fixpoint reverse_loop (fuel : nat) (a r : val) : M val :=
  match fuel with
  | O => fun _ => Loop
  | S f => let! c := look a in
           match c with None => ret r | Some (x, d) => let! r' := cons x r in reverse_loop f d r' end
  end.
Definition REVERSE (fuel : nat) : M val := let! a := argv 0 in reverse_loop fuel a Nil.

(** sequence.c 349-388 makesequence: for cons, for a subclass of cons (makeobject), for a vector of pointers *)
Inductive rtype := TCons | TSub | TVec.
Fixpoint makeseq_sub (n : nat) (r : val) : M val :=
  match n with
  | O => ret r
  | S k => push r ;; let! x := alloc (Cons Nil Nil) in
           let! r := pop in let! v := pop in store x (Cons v r) ;; makeseq_sub k x
  end.
Fixpoint fill_vec (n : nat) (x : val) (l : list val) : M val :=
  match n with O => store x (Vec l) ;; ret x | S k => let! v := pop in fill_vec k x (v :: l) end.
Definition makesequence (n : nat) (t : rtype) : M val :=
  match t with
  | TCons => stacknlist n
  | TSub => makeseq_sub n Nil
  | TVec => let! r := alloc (Vec (repeat Nil n)) in fill_vec n r []
  end.
(** sequence.c 390-398 CONCATENATE of [n] lists, argv[0] to argv[n-1] here (the class is given apart) *)
Fixpoint push_args (fuel k i len : nat) : M nat :=
  match k with
  | O => ret len
  | S k => let! a := argv i in let! (len, _) := push_all fuel a len in push_args fuel k (S i) len
  end.
Definition CONCATENATE (fuel n : nat) (t : rtype) : M val := let! len := push_args fuel n 0 0 in makesequence len t.

(** ** Functions that call back *)

(** sequence.c 37-52 call1 and call2: the arguments are on the stack during the call.  The function called may allocate
    and collect; on return the stack is what it was. *)
Definition call (f : fun_t) (args : list val) : M val := fun s =>
  match f (tm s) (rev args ++ roots s) (hp s) args with
  | None => Fail
  | Some (h, v, l) => Done v (St h (stk s) (arg s) l (S (tm s)))
  end.
(** testelement: without a key the element itself *)
Definition keyed (key : option fun_t) (x : val) : M val := match key with Some k => call k [x] | None => ret x end.
Definition isnil (v : val) : bool := match v with Nil => true | _ => false end.

(** specials.c 232-265 MAPCAR: arg is the function followed by [n] lists *)
Fixpoint push_cars (k i : nat) : M unit :=
  match k with
  | O => ret tt
  | S k => let! a := argv i in
           let! c := look a in
           match c with None => fun _ => Fail | Some (x, d) => push x ;; set_argv i d ;; push_cars k (S i) end
  end.
(** the arguments of the call: the topmost [n] values in the order they were pushed *)
Definition top (n : nat) : M (list val) := fun s => Done (rev (firstn n (stk s))) s.
Fixpoint mapcar_loop (f : fun_t) (fuel n rcount : nat) : M val :=
  match fuel with
  | O => fun _ => Loop
  | S fl => let! a := argv 1 in
            let! c := look a in
            match c with
            | None => stacknlist rcount
            | Some _ => push_cars n 1 ;; let! args := top n in let! r := call f args in
                        drop n ;; push r ;; mapcar_loop f fl n (S rcount)
            end
  end.
Definition MAPCAR (f : fun_t) (fuel n : nat) : M val := mapcar_loop f fuel n 0.

(** sequence.c 641-679 UNIREMOVE on a list, argv[0] the item and argv[1] the list, with :test and :key.  ([:test-not],
    [:if] and [:if-not] only exchange the call in the middle.)  [n] is end-start. *)
Fixpoint remove_loop (test : fun_t) (key : option fun_t) (item : val) (n count : nat) (seq : val) (pushcount : nat)
  : M (nat * val) :=
  match n, count with
  | S n', S c =>
    let! cl := look seq in
    match cl with
    | None => fun _ => Fail
    | Some (element, seq') =>
      let! testelement := keyed key element in
      let! r := call test [item; testelement] in
      if isnil r then push element ;; remove_loop test key item n' count seq' (S pushcount)
      else remove_loop test key item n' c seq' pushcount
    end
  | _, _ => ret (pushcount, seq)
  end.
Definition UNIREMOVE (test : fun_t) (key : option fun_t) (start end_ count : nat) : M val :=
  let! item := argv 0 in let! seq := argv 1 in
  match seq with
  | Nil => ret Nil
  | _ => let! (pc, rest) := push_upto start seq 0 in
         let! (pc, rest) := remove_loop test key item (end_ - start) count rest pc in
         pop_cons pc rest
  end.

(** sequence.c 773-813 SUBSTITUTE on a list: argv[0] the new item, argv[1] the old one, argv[2] the list *)
Fixpoint substitute_loop (test : fun_t) (key : option fun_t) (new old : val) (n count : nat) (seq : val) (pushcount : nat)
  : M (nat * val) :=
  match n, count with
  | S n', S c =>
    let! cl := look seq in
    match cl with
    | None => fun _ => Fail
    | Some (element, seq') =>
      let! testelement := keyed key element in
      let! r := call test [old; testelement] in
      if isnil r then push element ;; substitute_loop test key new old n' count seq' (S pushcount)
      else push new ;; substitute_loop test key new old n' c seq' (S pushcount)
    end
  | _, _ => ret (pushcount, seq)
  end.
Definition SUBSTITUTE (test : fun_t) (key : option fun_t) (start end_ count : nat) : M val :=
  let! new := argv 0 in let! old := argv 1 in let! seq := argv 2 in
  match seq with
  | Nil => ret Nil
  | _ => let! (pc, rest) := push_upto start seq 0 in
         let! (pc, rest) := substitute_loop test key new old (end_ - start) count rest pc in
         pop_cons pc rest
  end.

(** sequence.c 681-721 REMOVE_DUPLICATES on a list, with :test and :key.  [testelement] stays in a C variable while
    the inner loop calls the key and the test. *)
Fixpoint dup_in (test : fun_t) (key : option fun_t) (testelement : val) (n : nat) (seq2 : val) : M bool :=
  match n with
  | O => ret false
  | S k => match seq2 with
           | Nil => ret false
           | _ => let! cl := look seq2 in
                  match cl with
                  | None => fun _ => Fail
                  | Some (element2, seq2') =>
                    let! element2 := keyed key element2 in
                    let! r := call test [testelement; element2] in
                    if isnil r then dup_in test key testelement k seq2' else ret true
                  end
           end
  end.
Fixpoint dup_loop (test : fun_t) (key : option fun_t) (n : nat) (seq : val) (pushcount : nat) : M (nat * val) :=
  match n with
  | O => ret (pushcount, seq)
  | S k => match seq with
           | Nil => ret (pushcount, seq)
           | _ => let! cl := look seq in
                  match cl with
                  | None => fun _ => Fail
                  | Some (element, seq') =>
                    let! testelement := keyed key element in
                    let! d := dup_in test key testelement k seq' in
                    if d then dup_loop test key k seq' pushcount
                    else push element ;; dup_loop test key k seq' (S pushcount)
                  end
           end
  end.
Definition REMOVE_DUPLICATES (test : fun_t) (key : option fun_t) (start end_ : nat) : M val :=
  let! seq := argv 0 in
  match seq with
  | Nil => ret Nil
  | _ => let! (pc, rest) := push_upto start seq 0 in
         let! (pc, rest) := dup_loop test key (end_ - start) rest pc in
         pop_cons pc rest
  end.

(** sequence.c 953-978 compar on pointers: true is -1 *)
Definition compar (pred : fun_t) (key : option fun_t) (x y : val) : M bool :=
  match key with
  | Some k => let! xx := call k [x] in push xx ;; let! yy := call k [y] in push yy ;;
              let! r := call pred [xx; yy] in drop 2 ;; ret (negb (isnil r))
  | None => let! r := call pred [x; y] in ret (negb (isnil r))
  end.
(** libc's qsort: glibc's merge sort as in SeqModel.  It permutes the values in their place on the stack; its temporary
    array holds copies only, and the copying back calls nothing, so the values on the stack stay the same up to order
    and the model leaves them as they are. *)
Fixpoint merge (cmp : val -> val -> M bool) (l1 : list val) : list val -> M (list val) :=
  fix inner (l2 : list val) : M (list val) :=
    match l1, l2 with
    | [], _ => ret l2
    | _, [] => ret l1
    | x :: r1, y :: r2 => let! b := cmp x y in
                          if b then let! m := merge cmp r1 l2 in ret (x :: m) else let! m := inner r2 in ret (y :: m)
    end.
Fixpoint msort (fuel : nat) (cmp : val -> val -> M bool) (l : list val) : M (list val) :=
  match fuel with
  | O => ret l
  | S f => match l with
           | [] | [_] => ret l
           | _ => let n1 := length l / 2 in
                  let! a := msort f cmp (firstn n1 l) in let! b := msort f cmp (skipn n1 l) in merge cmp a b
           end
  end.
(** for (i=0; i<n; i++) { pointer_update(ccar(work),*xsp++); work=ccdr(work);} *)
Fixpoint store_cars (work : val) (l : list val) : M unit :=
  match l with
  | [] => ret tt
  | x :: r => let! c := look work in
              match c with None => fun _ => Dead | Some (_, d) => store work (Cons x d) ;; store_cars d r end
  end.
(** sequence.c 980-1015 SORT on a list *)
Definition SORT (pred : fun_t) (key : option fun_t) (fuel : nat) : M val :=
  let! seq := argv 0 in
  let! (n, _) := push_all fuel seq 0 in
  let! l := top n in
  let! l := msort n (compar pred key) l in
  store_cars seq l ;; drop n ;; ret seq.

(** reader.c 780-811 read_delimited_list without dots and labels: [rd] is read1, called [n] times; STOPPER is an atom *)
Definition STOPPER : val := Atom 0.
Fixpoint read_elements (rd : fun_t) (n : nat) : M unit :=
  match n with O => ret tt | S k => let! e := call rd [] in push e ;; read_elements rd k end.
Fixpoint cons_to_marker (fuel : nat) (result : val) : M val :=
  match fuel with
  | O => fun _ => Loop
  | S f => let! e := pop in
           match e with Atom O => ret result | _ => let! t := cons e result in cons_to_marker f t end
  end.
Definition read_delimited_list (rd : fun_t) (fuel n : nat) : M val :=
  push STOPPER ;; read_elements rd n ;; cons_to_marker fuel Nil.
(** reader.c 319-332 readvector without a size *)
Definition readvector (rd : fun_t) (n : nat) : M val :=
  read_elements rd n ;; let! r := alloc (Vec (repeat Nil n)) in fill_vec n r [].
End Prims.
