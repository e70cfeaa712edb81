(** floor, ceiling, round, truncate, mod, max and min: /repo/lisp/c/arith.c lines 360-373 and 1003-1059, 1103-1153, with
    eusfloat_to_big and big_to_float of /repo/lisp/c/big.c (lines 954-1002), on a 64-bit machine.

    A finite C double or float is a mantissa times a power of two.  Simplifications: exponents have no bounds, except that a
    number of 2^128 or more is no single-precision number; infinities and NaNs are left out, and so are ratios as arguments. *)
From Verif Require Import Word BigModel.
Open Scope Z_scope.

Record flo := F { mant : Z; expo : Z }.
Inductive number := Int (o : intobj) | Flo (x : flo).

(** the number of binary digits *)
Definition bits (m : Z) : Z := if m =? 0 then 0 else Z.log2 (Z.abs m) + 1.
(** m / 2^d rounded to the nearest integer, ties to even: IEEE arithmetic's default *)
Definition half_even (m d : Z) : Z :=
  let q := m / 2 ^ d in let r := m mod 2 ^ d in
  if 2 * r <? 2 ^ d then q else if 2 ^ d <? 2 * r then q + 1 else if Z.even q then q else q + 1.
(** a number rounded to p digits: the conversion of a double to a float (p = 24) and the results of double arithmetic (p = 53) *)
Definition round_to (p : Z) (x : flo) : flo :=
  let d := bits (mant x) - p in
  if d <=? 0 then x else F (half_even (mant x) d) (expo x + d).
Definition single (x : flo) : flo := round_to 24 x.
Definition double (x : flo) : flo := round_to 53 x.
(** makeflt: eus.h line 815: the two lowest bits of the word are lost, so that 51 digits are kept *)
Definition makeflt (x : flo) : flo :=
  let d := bits (mant x) - 51 in
  if d <=? 0 then x else F (Z.quot (mant x) (2 ^ d)) (expo x + d).

(** C comparison of a floating number with an integer constant *)
Definition fle (x : flo) (n : Z) : bool :=
  if 0 <=? expo x then mant x * 2 ^ expo x <=? n else mant x <=? n * 2 ^ (- expo x).
Definition flt0 (x : flo) : bool := mant x <? 0.
Definition fneg (x : flo) : flo := F (- mant x) (expo x).
(** the C conversion of a floating number to [int]: towards zero; undefined when the result does not fit *)
Definition c_int (x : flo) : option Z :=
  let n := if 0 <=? expo x then mant x * 2 ^ expo x else Z.quot (mant x) (2 ^ (- expo x)) in
  if (- 2 ^ 31 <=? n) && (n <? 2 ^ 31) then Some n else None.

(** one entry of a vector written; [None] beyond its end *)
Fixpoint put (v : list Z) (i : nat) (x : Z) : option (list Z) :=
  match v, i with
  | [], _ => None
  | _ :: r, O => Some (x :: r)
  | a :: r, S i => match put r i x with Some r => Some (a :: r) | None => None end
  end.
(** eusfloat_to_big: big.c lines 968-1002.  The parameter is a C [float] and [i], [j], [iz] are C [int]s.  Shifts of an [int] by 32
    or more, or with a result of more than 31 bits, are undefined, and so are writes beyond the end of the bignum. *)
Definition eusfloat_to_big (x : flo) : outcome intobj :=
  let f := single x in
  let neg := flt0 f in
  let f := if neg then fneg f else f in
  if fle f (2 ^ 61) then
    match c_int f with
    | None => UB
    | Some i => Ok (makeint (if neg then - i else i))
    end
  else
    let exp := bits (mant f) + expo f in
    if 128 <? exp then UB
    else
      let iz := if bits (mant f) <=? 24 then mant f * 2 ^ (24 - bits (mant f)) else mant f / 2 ^ (bits (mant f) - 24) in
      let bsize := (exp + 62) / 63 in
      let exp := exp - 24 in
      let i := exp / 63 in
      let j := exp mod 63 in
      let b := repeat 0 (Z.to_nat bsize) in
      if (32 <=? j) || (2 ^ 31 <=? iz * 2 ^ j) then UB
      else
        match put b (Z.to_nat i) (Z.land (iz * 2 ^ j) MASK) with
        | None => UB
        | Some b =>
            let done := fun b => Ok (Big (if neg then complement_big b else b)) in
            if 31 <? j + 24 then
              if 32 <=? 63 - j then UB
              else match put b (Z.to_nat (i + 1)) (Z.land (Z.shiftr iz (63 - j)) MASK) with
                   | None => UB
                   | Some b => done b
                   end
            else done b
        end.

(** rint, floor and ceil of the C library *)
Definition c_rint (x : flo) : flo := if 0 <=? expo x then x else F (half_even (mant x) (- expo x)) 0.
Definition c_floor (x : flo) : flo := if 0 <=? expo x then x else F (mant x / 2 ^ (- expo x)) 0.
Definition c_ceil (x : flo) : flo := fneg (c_floor (fneg x)).
(** ROUND, FLOOR, CEILING, TRUNCATE: arith.c lines 1003-1059 *)
Definition ROUND (a : number) : outcome intobj := match a with Int o => Ok o | Flo x => eusfloat_to_big (c_rint x) end.
Definition FLOOR (a : number) : outcome intobj := match a with Int o => Ok o | Flo x => eusfloat_to_big (c_floor x) end.
Definition CEILING (a : number) : outcome intobj := match a with Int o => Ok o | Flo x => eusfloat_to_big (c_ceil x) end.
Definition TRUNCATE (a : number) : outcome intobj := match a with Int o => Ok o | Flo x => eusfloat_to_big x end.

(** double arithmetic *)
Definition dadd (x y : flo) : flo :=
  let k := Z.min (expo x) (expo y) in double (F (mant x * 2 ^ (expo x - k) + mant y * 2 ^ (expo y - k)) k).
Definition dmul (x y : flo) : flo := double (F (mant x * mant y) (expo x + expo y)).
Definition dltb (x y : flo) : bool :=
  let k := Z.min (expo x) (expo y) in mant x * 2 ^ (expo x - k) <? mant y * 2 ^ (expo y - k).
(** big_to_float: big.c lines 954-966 *)
Fixpoint big_to_float_loop (xv : list Z) (d e : flo) : flo :=
  match xv with
  | [] => d
  | [x] => dadd d (dmul e (double (F x 0)))
  | x :: r => big_to_float_loop r (dadd d (dmul e (double (F x 0)))) (dmul e (F 1 63))
  end.
Definition big_to_float (xv : list Z) : flo := big_to_float_loop xv (F 0 0) (F 1 0).
(** ckfltval: eus.h lines 826-830 *)
Definition ckfltval (a : number) : flo :=
  match a with
  | Flo x => x
  | Int (Imm w) => double (F (intval (Imm w)) 0)
  | Int (Big ds) => big_to_float ds
  end.

(** MAX and MIN: arith.c lines 1103-1153; [lt] is the comparison of the words, [flt] that of the doubles.  While only fixnums are seen, the
    words themselves are compared; from the first other number on, everything is a double. *)
Fixpoint ext_float (flt : flo -> flo -> bool) (fs : flo) (args : list number) : number :=
  match args with
  | [] => Flo (makeflt fs)
  | a :: r => let fm := ckfltval a in ext_float flt (if flt fs fm then fm else fs) r
  end.
Fixpoint ext_int (lt : Z -> Z -> bool) (flt : flo -> flo -> bool) (is : Z) (args : list number) : number :=
  match args with
  | [] => Int (Imm is)
  | Int (Imm w) :: r => ext_int lt flt (if lt is w then w else is) r
  | _ => ext_float flt (double (F (intval (Imm is)) 0)) args
  end.
Definition extreme (lt : Z -> Z -> bool) (flt : flo -> flo -> bool) (args : list number) : outcome number :=
  match args with
  | [] => Err
  | [a] => Ok a
  | Int (Imm w) :: r => Ok (ext_int lt flt w r)
  | a :: r => Ok (ext_float flt (ckfltval a) r)
  end.
Definition MAX (args : list number) : outcome number := extreme Z.ltb dltb args.
Definition MIN (args : list number) : outcome number := extreme (fun x y => y <? x) (fun x y => dltb y x) args.

(** MOD: arith.c lines 360-373; [None] stands for the NaN that fmod gives for a zero divisor *)
Definition c_fmod (x y : flo) : option flo :=
  if mant y =? 0 then None
  else let k := Z.min (expo x) (expo y) in Some (F (Z.rem (mant x * 2 ^ (expo x - k)) (mant y * 2 ^ (expo y - k))) k).
Definition MOD (a b : number) : outcome (option number) :=
  match a, b with
  | Int x, Int y =>
      let x := intval x in let y := intval y in
      if (y =? 0) || ((x =? - 2 ^ 63) && (y =? -1)) then UB else Ok (Some (Int (mkbigint (Z.rem x y))))
  | _, _ =>
      match c_fmod (ckfltval a) (ckfltval b) with
      | Some r => Ok (Some (Flo (makeflt r)))
      | None => Ok None
      end
  end.
