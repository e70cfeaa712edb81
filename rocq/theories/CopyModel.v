(** copy-object: copyobj, copyunmark and COPYOBJ, lisp/c/leo.c 538-652.

    The contents of a cell are a class number, an element type, a size (vectors) and a function from positions to
    words.  Position i is c.obj.iv[i] for fixed-size objects and c.vec.v[i] for vectors; the words past the last
    slot are those of the unused part of the cell, which alloc fills with NULL (memory.c 391-398) and which always
    contains position 1 of an object and position 0 of a vector because a cell has at least three words
    (memory.c 347).  An immediate number, and each word of a raw vector, is [WNum].  A fresh cell has the next
    unused address: that the allocator hands out a disjoint cell is C31, and collections in the middle of the
    copy are left out.  ELM_FOREIGN vectors are left out, and the element type of a vector is that of its class.
    The mark is pmark, which is 0 outside of copy-object.  The depth of the C stack is not bounded. *)
From Coq Require Export ZArith List Bool Lia Arith.
Export ListNotations.

Inductive word := WNum (z : Z) | WPtr (a : nat) | WNull.
Inductive elt := FIXED | BIT | CHAR | BYTE | INT | FLOAT | POINTER.
Record obj := mkObj { cix : nat; etype : elt; vsize : nat; iv : nat -> word }.

(** the class table: whether a class number is that of a symbol or of a class (eus.h 838, 865), objsize (eus.h 887)
    and the object NIL *)
Record classes := mkClasses { is_leaf : nat -> bool; objsize : nat -> nat; nil_addr : nat }.

(** [cpv] is the part of the stack from cpvec on; cpx is its length *)
Record state := mkSt { heap : nat -> obj; pm : nat -> bool; next : nat; cpv : list word }.

(** [TooBig] is the longjmp to cpyjmp *)
Inductive res := Done (st : state) (w : word) | TooBig (st : state) | Undef | Hang.
Inductive ures := UDone (st : state) | UUndef | UHang.

Definition upd {A} (f : nat -> A) (i : nat) (x : A) : nat -> A := fun j => if j =? i then x else f j.
Definition set_iv (o : obj) (i : nat) (w : word) : obj := mkObj (cix o) (etype o) (vsize o) (upd (iv o) i w).
Definition put (st : state) (a i : nat) (w : word) : state :=
  mkSt (upd (heap st) a (set_iv (heap st a) i w)) (pm st) (next st) (cpv st).
Definition set_mark (st : state) (a : nat) (b : bool) : state :=
  mkSt (heap st) (upd (pm st) a b) (next st) (cpv st).

(** where c.obj.iv[1] lies: eus.h puts the size of a vector in iv[0], so that iv[1] is its first element *)
Definition fpos (e : elt) : nat := match e with FIXED => 1 | _ => 0 end.

(** leo.c 564-576: the number s of words to copy *)
Definition nwords (C : classes) (o : obj) : nat :=
  match etype o with
  | FIXED => objsize C (cix o)
  | BIT => (vsize o + 63) / 64
  | CHAR | BYTE => (vsize o + 8) / 8
  | INT | FLOAT | POINTER => vsize o
  end.

(** makevector(klass,s) and makeobject(klass), makes.c: slots NIL or zero, the rest of the cell NULL *)
Definition blank (C : classes) (o : obj) : obj :=
  mkObj (cix o) (etype o) (vsize o)
        (fun i => if i <? nwords C o then match etype o with FIXED | POINTER => WPtr (nil_addr C) | _ => WNum 0 end
                  else WNull).
Definition alloc (C : classes) (st : state) (o : obj) : state * nat :=
  (mkSt (upd (heap st) (next st) (blank C o)) (pm st) (S (next st)) (cpv st), next st).

(** "for (i=i; n>0; i++, n--) clone->v[i]=copyobj(ctx,org->v[i]);" *)
Fixpoint copy_slots (cp : state -> word -> res) (st : state) (a c i n : nat) : res :=
  match n with
  | O => Done st (WPtr c)
  | S n' => match cp st (iv (heap st a) i) with
            | Done st1 w => copy_slots cp (put st1 c i w) a c (S i) n'
            | r => r
            end
  end.
(** leo.c 605: the same for words that are not pointers *)
Fixpoint copy_raw (st : state) (a c i n : nat) : state :=
  match n with
  | O => st
  | S n' => copy_raw (put st c i (iv (heap st a) i)) a c (S i) n'
  end.

(** leo.c 549-609; [limit] is the room between cpvec and stacklimit *)
Fixpoint copyobj (fuel : nat) (C : classes) (limit : nat) (st : state) (w : word) : res :=
  match fuel with
  | O => Hang
  | S f =>
      match w with
      | WNum _ => Done st w
      | WNull => Undef
      | WPtr a =>
          let o := heap st a in
          if is_leaf C (cix o) then Done st w else
          let x := iv o (fpos (etype o)) in
          if pm st a then
            match x with
            | WNum k => match nth_error (cpv st) (Z.to_nat k) with Some v => Done st v | None => Undef end
            | _ => Undef
            end
          else
            let s := nwords C o in
            let p := alloc C (set_mark st a true) o in
            let c := snd p in
            if limit <? length (cpv st) then TooBig (set_mark (fst p) a false) else
            let st1 := put (fst p) a (fpos (etype o)) (WNum (Z.of_nat (length (cpv st)))) in
            let st2 := mkSt (heap st1) (pm st1) (next st1) (cpv st1 ++ [WPtr c; x]) in
            match etype o with
            | FIXED =>
                match copyobj f C limit st2 x with
                | Done st3 w1 =>
                    let st4 := put st3 c 1 w1 in
                    if 0 <? s then
                      match copyobj f C limit st4 (iv (heap st4 a) 0) with
                      | Done st5 w0 => copy_slots (copyobj f C limit) (put st5 c 0 w0) a c 2 (s - 2)
                      | r => r
                      end
                    else Done st4 (WPtr c)
                | r => r
                end
            | POINTER =>
                match copyobj f C limit st2 x with
                | Done st3 w1 => copy_slots (copyobj f C limit) (put st3 c 0 w1) a c 1 (s - 1)
                | r => r
                end
            | _ => Done (copy_raw (put st2 c 0 x) a c 1 (s - 1)) (WPtr c)
            end
      end
  end.

(** "for (i=i; n>0; i++, n--) copyunmark(obj->v[i]);" *)
Fixpoint unmark_slots (um : state -> word -> ures) (st : state) (a i n : nat) : ures :=
  match n with
  | O => UDone st
  | S n' => match um st (iv (heap st a) i) with
            | UDone st1 => unmark_slots um st1 a (S i) n'
            | r => r
            end
  end.

(** leo.c 611-629 *)
Fixpoint copyunmark (fuel : nat) (C : classes) (st : state) (w : word) : ures :=
  match fuel with
  | O => UHang
  | S f =>
      match w with
      | WNum _ => UDone st
      | WNull => UUndef
      | WPtr a =>
          let o := heap st a in
          if is_leaf C (cix o) then UDone st else
          if pm st a then
            match iv o (fpos (etype o)) with
            | WNum k =>
                match nth_error (cpv st) (Z.to_nat k + 1) with
                | Some x =>
                    let st1 := set_mark (put st a (fpos (etype o)) x) a false in
                    match etype o with
                    | POINTER => unmark_slots (copyunmark f C) st1 a 0 (vsize o)
                    | FIXED => unmark_slots (copyunmark f C) st1 a 0 (objsize C (cix o))
                    | _ => UDone st1
                    end
                | None => UUndef
                end
            | _ => UUndef
            end
          else UDone st
      end
  end.

(** leo.c 631-652: [CError] is the error "too big to copy" *)
Inductive cres := CVal (st : state) (w : word) | CError (st : state) | CUndef | CHang.
Definition COPYOBJ (fuel : nat) (C : classes) (limit : nat) (h : nat -> obj) (n : nat) (w : word) : cres :=
  let finish st (k : state -> cres) :=
    match copyunmark fuel C st w with
    | UDone st' => k (mkSt (heap st') (pm st') (next st') [])
    | UUndef => CUndef
    | UHang => CHang
    end in
  match copyobj fuel C limit (mkSt h (fun _ => false) n []) w with
  | Done st b => finish st (fun st' => CVal st' b)
  | TooBig st => finish st CError
  | Undef => CUndef
  | Hang => CHang
  end.
