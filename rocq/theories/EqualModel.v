(** equal (lisp/c/predicates.c 162-188), sxhash (lisp/c/specials.c 938-984) and rehash (lisp/c/intern.c 13-21).

    A word is an immediate number or a pointer.  An object has a class number, an element type, a size (vectors),
    pointer slots (ELM_FIXED and ELM_POINTER) and raw data words (the other element types).  ELM_FOREIGN strings
    are left out: for them equal compares as many words as there are bytes.  Recursion takes fuel: running out
    of it is the unbounded recursion of the C code on cyclic data ([Hang]).  The slots of a symbol are those of
    eus.h 202-208: the print name is slot 4.  The hash code of other fixed-size objects is their address shifted
    right by two; the model takes the shifted address as the abstract address. *)
From Verif Require Export ListModel.

Inductive word := WNum (z : Z) | WPtr (a : nat).
Inductive elt := FIXED | BIT | CHAR | BYTE | INT | FLOAT | POINTER.
Record obj := mkObj { o_cix : nat; o_elt : elt; o_size : nat; o_slots : list word; o_raw : list Z }.
(** the class table: symbol, string and cons classes are ranges of class numbers (eus.h 834-843); objsize is
    the number of slots of a class (eus.h 887) *)
Record classes := mkClasses { is_sym : nat -> bool; is_str : nat -> bool; is_cons : nat -> bool; objsize : nat -> nat }.
Definition store := nat -> obj.

Definition word_eqb (x y : word) : bool :=
  match x, y with WNum a, WNum b => Z.eqb a b | WPtr a, WPtr b => Nat.eqb a b | _, _ => false end.
Definition elt_eqb (x y : elt) : bool :=
  match x, y with
  | FIXED, FIXED | BIT, BIT | CHAR, CHAR | BYTE, BYTE | INT, INT | FLOAT, FLOAT | POINTER, POINTER => true
  | _, _ => false
  end.

(** predicates.c 182-186: number of data words compared *)
Definition nwords (e : elt) (size : nat) : nat :=
  match e with BIT => (size + 63) / 64 | CHAR | BYTE => (size + 7) / 8 | _ => size end.

Fixpoint raw_eqb (n : nat) (cx cy : list Z) : out bool :=
  match n with
  | O => Ret true
  | S m => match cx, cy with x :: r, y :: s => if Z.eqb x y then raw_eqb m r s else Ret false | _, _ => Undef end
  end.
(** "for (i=0; i<n; i++) if (equal(x->iv[i],y->iv[i])!=T) return(NIL); return(T);" *)
Fixpoint all2 (eq : word -> word -> out bool) (n : nat) (xs ys : list word) : out bool :=
  match n with
  | O => Ret true
  | S m => match xs, ys with
           | x :: r, y :: s => do b <- eq x y; if (b : bool) then all2 eq m r s else Ret false
           | _, _ => Undef
           end
  end.
(** predicates.c 162-188 *)
Fixpoint equal (fuel : nat) (C : classes) (h : store) (x y : word) : out bool :=
  match fuel with
  | O => Hang
  | S f =>
      if word_eqb x y then Ret true else
      match x, y with
      | WPtr a, WPtr b =>
          let ox := h a in let oy := h b in
          if negb (Nat.eqb (o_cix ox) (o_cix oy)) then Ret false else
          if is_sym C (o_cix ox) then Ret false else
          if negb (elt_eqb (o_elt ox) (o_elt oy)) then Ret false else
          match o_elt ox with
          | FIXED => all2 (equal f C h) (objsize C (o_cix ox)) (o_slots ox) (o_slots oy)
          | POINTER => if Nat.eqb (o_size ox) (o_size oy)     (* slot 0 of the loop is the size word *)
                       then all2 (equal f C h) (o_size ox) (o_slots ox) (o_slots oy) else Ret false
          | e => if Nat.eqb (o_size ox) (o_size oy) then raw_eqb (nwords e (o_size ox)) (o_raw ox) (o_raw oy) else Ret false
          end
      | _, _ => Ret false
      end
  end.

(** byte [i] of the data, little endian *)
Definition byte_at (raw : list Z) (i : nat) : Z := Z.land (Z.shiftr (nth (i / 8) raw 0%Z) (8 * Z.of_nat (i mod 8))) 255.
Definition bytes_of (o : obj) : list Z := map (byte_at (o_raw o)) (seq 0 (o_size o)).
(** intern.c 13-21 rehash; int arithmetic taken modulo 2^32, as in PkgModel *)
Definition rehash (bytes : list Z) : Z :=
  Z.land (fold_left (fun hash b => (5 * hash + b) mod 4294967296)%Z bytes (Z.of_nat (length bytes))) 536870911.

(** specials.c 938-964 sxhash; sums are modulo 2^64.  The number of words of a bit or byte vector is rounded
    down, so its last words are ignored.  [isint] words hash to their value, floats to their bits: both are functions of
    the word. *)
Definition wrap64 (z : Z) : Z := (z mod 18446744073709551616)%Z.
Fixpoint sum_hash (hash : word -> out Z) (acc : Z) (xs : list word) : out Z :=
  match xs with [] => Ret acc | x :: r => do k <- hash x; sum_hash hash (wrap64 (acc + k)) r end.
Fixpoint sxhash (fuel : nat) (C : classes) (h : store) (numhash : Z -> Z) (x : word) {struct fuel} : out Z :=
  match fuel with
  | O => Hang
  | S f =>
      match x with
      | WNum z => Ret (numhash z)
      | WPtr a =>
          let o := h a in
          if is_str C (o_cix o) then Ret (rehash (bytes_of o)) else
          if is_sym C (o_cix o) then
            match nth 4 (o_slots o) (WNum 0) with WPtr p => Ret (rehash (bytes_of (h p))) | _ => Undef end   (* pname *)
          else if is_cons C (o_cix o) then sxhash_list f C h numhash 0 x
          else match o_elt o with
               | POINTER => sum_hash (sxhash f C h numhash) 0 (firstn (o_size o) (o_slots o))
               | FIXED => Ret (Z.of_nat a)           (* (unsigned)x >> 2 *)
               | e => Ret (fold_left (fun k w => wrap64 (k + w))
                            (firstn (match e with BIT => o_size o / 64 | CHAR | BYTE => o_size o / 8 | _ => o_size o end) (o_raw o)) 0%Z)
               end
      end
  end
(** "while (islist(x)) { h += sxhash(ccar(x)); x=ccdr(x);}" *)
with sxhash_list (fuel : nat) (C : classes) (h : store) (numhash : Z -> Z) (acc : Z) (v : word) {struct fuel} : out Z :=
  match fuel with
  | O => Hang
  | S f => match v with
           | WPtr b => let c := h b in
                       if is_cons C (o_cix c) then
                         do k <- sxhash f C h numhash (nth 0 (o_slots c) (WNum 0));
                         sxhash_list f C h numhash (wrap64 (acc + k)) (nth 1 (o_slots c) (WNum 0))
                       else Ret acc
           | WNum _ => Ret acc
           end
  end.
(** specials.c 966-984 SXHASH with modulus [m] *)
Definition SXHASH (fuel : nat) (C : classes) (h : store) (numhash : Z -> Z) (m : Z) (x : word) : out Z :=
  do k <- sxhash fuel C h numhash x; Ret (Z.land k 2305843009213693951 mod m)%Z.
