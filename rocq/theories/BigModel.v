(** Model of the integer representation and bignum routines: lisp/c/big.c, the boxing functions of
    lisp/c/eus.c, and the integer paths of lisp/c/arith.c.

    A bignum object (struct bignum, eus.h) is modelled by the contents of its digit vector, a
    [list Z] of C longs, least significant digit first: all digits but the last are in [0,2^63), the
    last one is a signed long (big.c:8-11).  Functions that update a bignum in place return the new
    digit list.  Garbage-collection protection ([vpush]/[vpop], [take_care]) is not modelled. *)
From Verif Require Import Word.

(** * Double-word primitives *)

(** big.c:28-79 [extended_mul], the WORD_SIZE==64 version, statement by statement.
    [Z.shiftr] is C's arithmetic right shift; every sum and product is wrapped to a long.
    The result is the pair stored through [hp] and [lp]. *)
Definition extended_mul (d q r : Z) : Z * Z :=
  let ld := Z.land d 4294967295 in
  let hd := Z.shiftr d 32 in
  let hd := Z.land hd 2147483647 in
  let lq := Z.land q 4294967295 in
  let hq := Z.shiftr q 32 in
  let hq := Z.land hq 2147483647 in
  let lr := r in
  let m := wrap64 (ld * lq) in
  let hm := Z.land m (- 2 ^ 63) in               (* m & 0x8000000000000000, as a long *)
  let hm := Z.shiftr hm 32 in
  let hm := Z.land hm 2147483648 in
  let m := Z.land m MASK in
  let m := wrap64 (m + lr) in
  let lz := Z.land m 4294967295 in
  let m := Z.shiftr m 32 in
  let m := Z.land m 4294967295 in
  let m := wrap64 (m + hm) in
  let m := wrap64 (m + wrap64 (lq * hd)) in
  let hm := Z.land m (- 2 ^ 63) in
  let hm := Z.shiftr hm 31 in
  let hm := Z.land hm 8589934591 in
  let m := Z.land m MASK in
  let m := wrap64 (m + wrap64 (hq * ld)) in
  let lm := Z.land m 2147483647 in
  let lz := wrap64 (lz + wrap64 (Z.shiftl lm 32)) in
  let m := Z.shiftr m 31 in
  let m := Z.land m 8589934591 in
  let m := wrap64 (m + hm) in
  let hz := wrap64 (m + wrap64 (hq * hd * 2)) in
  (hz, lz).

(** big.c:81-113 [extended_div], one turn of the loop; the state is (ans, lh, ll). *)
Definition extended_div_step (d : Z) (st : Z * Z * Z) : Z * Z * Z :=
  let '(ans, lh, ll) := st in
  let ans := wrap64 (Z.shiftl ans 1) in
  let lh := wrap64 (Z.shiftl lh 1) in
  let ll := wrap64 (Z.shiftl ll 1) in
  let lh := if ll <? 0 then wrap64 (lh + 1) else lh in
  let '(ans, lh) := if lh >=? d then (wrap64 (ans + 1), wrap64 (lh - d)) else (ans, lh) in
  let '(ans, lh) := if lh <? 0
                    then (wrap64 (ans + 1), wrap64 (wrap64 (MASK - d) + Z.land lh MASK + 1))
                    else (ans, lh) in
  (ans, lh, ll).

Fixpoint iter {A} (n : nat) (f : A -> A) (x : A) : A :=
  match n with O => x | S m => iter m f (f x) end.

(** The loop runs for i = 63 .. 1, i.e. 63 times (big.c:94).  Result: (quotient, remainder). *)
Definition extended_div (d h l : Z) : Z * Z :=
  let '(ans, lh, _) := iter 63 (extended_div_step d) (0, h, l) in (ans, lh).

(** * Digit-vector routines *)

(** big.c:423-428 [big_sign]: the most significant word. *)
Definition big_sign (x : list Z) : Z := last x 0.

(** big.c:408-415 [big_zerop] *)
Definition big_zerop (x : list Z) : bool := forallb (fun d => d =? 0) x.

(** big.c:552-574 [add_int_big], [c] a non-negative long.  [stretch_big x 1] (355-369) appends a
    digit.  The empty vector is never passed ([bigsize >= 1]); reading it would be undefined. *)
Fixpoint add_int_big (c : Z) (x : list Z) : list Z :=
  match x with
  | [] => []
  | [d] =>
      if d >=? 0 then
        let y := wrap64 (d + c) in
        if y <? 0 then [Z.land y MASK; 1] else [y]
      else [wrap64 (d + c)]
  | d :: r =>
      let y := wrap64 (d + c) in
      if y <? 0 then Z.land y MASK :: add_int_big 1 r else y :: r
  end.

(** big.c:582-599 [sub_int_big] *)
Fixpoint sub_int_big (c : Z) (x : list Z) : list Z :=
  match x with
  | [] => []
  | [d] =>
      if d <? 0 then
        let y := wrap64 (d - c) in
        if y >=? 0 then [Z.land y MASK; -2] else [y]
      else [wrap64 (d - c)]
  | d :: r =>
      let y := wrap64 (d - c) in
      if y <? 0 then Z.land y MASK :: sub_int_big 1 r else y :: r
  end.

(** big.c:494-500: the digits after the first non-zero one are complemented, the top one unmasked. *)
Fixpoint complement_rest (x : list Z) : list Z :=
  match x with
  | [] => []
  | [d] => [Z.lnot d]
  | d :: r => Z.land (Z.lnot d) MASK :: complement_rest r
  end.

(** big.c:475-501 [complement_big]; [big_minus] (507-543) is the same computation into a fresh,
    zero-initialised vector ([makebig] -> [makevector] fills an integer vector with 0,
    makes.c:417-436), so one function models both. *)
Fixpoint complement_big (x : list Z) : list Z :=
  match x with
  | [] => []
  | [d] => if d =? - 2 ^ 63 then [0; 1] else [wrap64 (- d)]
  | d :: r =>
      if negb (d =? 0) then Z.land (wrap64 (- d)) MASK :: complement_rest r
      else 0 :: complement_big r
  end.

Definition big_minus (x : list Z) : list Z := complement_big x.

(** big.c:607-618 [mul_int_big]: the while loop, [h] being the running high word. *)
Fixpoint mul_int_loop (c h : Z) (x : list Z) {struct x} : list Z * Z :=
  match x with
  | [] => ([], h)
  | d :: r =>
      let p := extended_mul c d h in
      let t := mul_int_loop c (fst p) r in
      (snd p :: fst t, snd t)
  end.

Definition mul_int_big (c : Z) (x : list Z) : list Z :=
  let '(z, h) := mul_int_loop c 0 x in
  if h >? 0 then z ++ [h] else z.

(** big.c:628-642 [div_int_big] for c <> 0: from the most significant digit downwards.
    The top digit uses C's [%] and [/] (truncating).  Result: (new digits, remainder). *)
Fixpoint div_int_big (c : Z) (x : list Z) {struct x} : list Z * Z :=
  match x with
  | [] => ([], 0)
  | [d] => ([Z.quot d c], Z.rem d c)
  | d :: r =>
      let t := div_int_big c r in
      let p := extended_div c (snd t) d in
      (fst p :: fst t, snd p)
  end.

(** big.c:648-688 [big_plus].  [bp_low]: the for loop 664-667 over the common prefix, returning the
    masked digits and the last unmasked sum [zlast]. *)
Fixpoint bp_low (x y : list Z) (c zlast : Z) : list Z * Z :=
  match x, y with
  | a :: x', b :: y' =>
      let z := wrap64 (a + b + c) in
      let t := bp_low x' y' (if z <? 0 then 1 else 0) z in
      ((if z <? 0 then Z.land z MASK else z) :: fst t, snd t)
  | _, _ => ([], zlast)
  end.

(** big.c:677-687: propagation of [c] (1 or -1) through the longer operand's remaining digits [x],
    called while the previous digit had a carry. *)
Fixpoint bp_high (c : Z) (x : list Z) : list Z :=
  match x with
  | [] => []
  | [d] =>
      let z := wrap64 (d + c) in
      if (c >=? 0) && (d >=? 0) && (z <? 0) then [Z.land z MASK; 1]
      else if (c <? 0) && (d <? 0) && (z >=? 0) then [z; -2]
      else [z]
  | d :: r =>
      let z := wrap64 (d + c) in
      if z <? 0 then Z.land z MASK :: bp_high c r else z :: r
  end.

(** replace the last element *)
Fixpoint set_last (x : list Z) (v : Z) : list Z :=
  match x with
  | [] => []
  | [_] => [v]
  | d :: r => d :: set_last r v
  end.

Definition big_plus (x0 y0 : list Z) : list Z :=
  let '(x, y) := if (length x0 <? length y0)%nat then (y0, x0) else (x0, y0) in
  let '(zs, zlast) := bp_low x y 0 0 in
  if (length x =? length y)%nat then
    let xt := last x 0 in let yt := last y 0 in
    if (xt >=? 0) && (yt >=? 0) && (zlast <? 0) then zs ++ [1]
    else if (xt <? 0) && (yt <? 0) && (zlast >=? 0) then zs ++ [-2]
    else if zlast <? 0 then set_last zs (Z.lor (last zs 0) (- 2 ^ 63))
    else zs
  else
    let c := if last y 0 >=? 0 then 1 else -1 in
    if zlast <? 0 then zs ++ bp_high c (skipn (length y) x)
    else zs ++ skipn (length y) x.

(** big.c:695-731 [big_times].  [m] is a C [int] (699), so [m=xv[i]] (711) truncates the 63-bit digit
    to 32 bits; the truncation is the parameter [tr] ([wrap32] for the code as it is).
    [bt_prop]: the while loop 719-724, adding [hi] into the digits [z] from position k+1 on; [None]
    is the error "bignum mult overflow". *)
Fixpoint bt_prop (z : list Z) (hi : Z) : option (list Z) :=
  if hi >? 0 then
    match z with
    | [] => None
    | d :: r =>
        let y := wrap64 (d + hi) in
        if y <? 0 then option_map (cons (Z.land y MASK)) (bt_prop r 1)
        else Some (y :: r)
    end
  else Some z.

(** inner loop 713-726: [z] are the result digits from position i on *)
Fixpoint bt_inner (m hi : Z) (y z : list Z) {struct y} : option (list Z) :=
  match y, z with
  | [], _ => bt_prop z hi
  | b :: y', d :: z' =>
      let p := extended_mul m b hi in
      let s := wrap64 (d + snd p) in
      let d1 := if s <? 0 then Z.land s MASK else s in
      let hi1 := if s <? 0 then wrap64 (fst p + 1) else fst p in
      option_map (cons d1) (bt_inner m hi1 y' z')
  | _ :: _, [] => None
  end.

Fixpoint bt_outer (tr : Z -> Z) (x y z : list Z) {struct x} : option (list Z) :=
  match x with
  | [] => Some z
  | a :: x' =>
      match bt_inner (tr a) 0 y z with
      | Some (d :: z') => option_map (cons d) (bt_outer tr x' y z')
      | Some [] => None
      | None => None
      end
  end.

Definition big_times_with (tr : Z -> Z) (x y : list Z) : option (list Z) :=
  bt_outer tr x y (repeat 0 (length x + length y)).

Definition big_times : list Z -> list Z -> option (list Z) := big_times_with wrap32.

(** big.c:437-467 [big_compare]: -1, 0, 1.  The comparison runs from the top digit down. *)
Fixpoint cmp_down_pos (xr yr : list Z) : Z :=          (* reversed digit lists, 463-466 *)
  match xr, yr with
  | a :: xr', b :: yr' => if a >? b then 1 else if a <? b then -1 else cmp_down_pos xr' yr'
  | _, _ => 0
  end.

Fixpoint cmp_down_neg (xr yr : list Z) : Z :=          (* 455-458 *)
  match xr, yr with
  | a :: xr', b :: yr' => if a <? b then 1 else if a >? b then -1 else cmp_down_neg xr' yr'
  | _, _ => 0
  end.

Definition big_compare (x y : list Z) : Z :=
  let xs := last x 0 in let ys := last y 0 in
  if (xs <? 0) && (ys >=? 0) then -1
  else if (xs >=? 0) && (ys <? 0) then 1
  else if xs <? 0 then
    if (length y <? length x)%nat then -1
    else if (length x <? length y)%nat then 1
    else if xs <? ys then -1
    else if xs >? ys then 1
    else cmp_down_neg (tl (rev x)) (tl (rev y))
  else
    if (length y <? length x)%nat then 1
    else if (length x <? length y)%nat then -1
    else cmp_down_pos (rev x) (rev y).

(** big.c:920-936 [normalize_big].  The loop strips from the top: zeros when the number is
    non-negative; words equal to -1 when negative and size<>1.  When anything was stripped from a
    negative number the new top word gets its sign bit set. *)
Fixpoint strip_rev (w : Z) (xr : list Z) : list Z :=
  match xr with
  | d :: r => if d =? w then strip_rev w r else xr
  | [] => []
  end.

Definition normalize_big (x : list Z) : list Z :=
  if last x 0 >=? 0 then rev (strip_rev 0 (rev x))
  else if (length x =? 1)%nat then x
  else
    let y := rev (strip_rev (-1) (rev x)) in
    if (length y =? length x)%nat then x
    else set_last y (Z.lor (last y 0) (- 2 ^ 63)).

(** * Integer objects *)

(** A Lisp integer is either an immediate word (tag bits 2 or 3) or a pointer to a bignum object. *)
Inductive intobj : Type :=
| Imm (w : Z)
| Big (ds : list Z).

(** eus.h:756 [isint] on an immediate word *)
Definition isint_word (w : Z) : bool := (Z.land w 3 =? 2) || (Z.land w 3 =? 3).

Definition isint (o : intobj) : bool := match o with Imm _ => true | Big _ => false end.

Definition MAXPOSFIXNUM : Z := 2 ^ 61 - 1.
Definition MINNEGFIXNUM : Z := - 2 ^ 61.

(** eus.h:802 [mkbigint]: [makebig1 y] when bits 61..63 of y are not all equal, else [makeint y].
    In the [makeint] branch y is in the fixnum range so the recursion of the macro stops there. *)
Definition mkbigint_big (y : Z) : bool :=
  negb (Z.land (Z.lxor y (Z.shiftr y 1)) (Z.shiftl 3 61) =? 0).

(** eus.c:1379-1386 [makeint] *)
Definition makeint (v : Z) : intobj :=
  if (v >? MAXPOSFIXNUM) || (v <? MINNEGFIXNUM) then
    if negb (Z.land v 7 =? 0) then
      (if mkbigint_big v then Big [v] else Imm (wrap64 (Z.shiftl v 2 + 2)))
    else Imm (Z.lor v 3)
  else Imm (wrap64 (Z.shiftl v 2 + 2)).

Definition mkbigint (y : Z) : intobj := if mkbigint_big y then Big [y] else makeint y.

(** eus.h:796-801 [bigintval] on a bignum *)
Definition bigintval (ds : list Z) : Z :=
  match ds with
  | [] => 0
  | [d] => d
  | d0 :: d1 :: _ => Z.lor (wrap64 (Z.shiftl d1 63)) d0
  end.

(** eus.c:1387-1401 [intval]; the NULL and pointer branches cannot arise for integer objects *)
Definition intval (o : intobj) : Z :=
  match o with
  | Imm w => if Z.land w 3 =? 3 then Z.land w (Z.lnot 3) else Z.shiftr w 2
  | Big ds => bigintval ds
  end.

(** big.c:938-952 [normalize_bignum] *)
Definition normalize_bignum (o : intobj) : intobj :=
  match o with
  | Imm w => Imm w
  | Big ds =>
      let x := normalize_big ds in
      match x with
      | [] => makeint 0
      | [y] => let msb3 := Z.land (Z.shiftr y 61) 7 in
               if (msb3 =? 0) || (msb3 =? 7) then makeint y else Big [y]
      | _ => Big x
      end
  end.

(** * arith.c on integers *)

(** Outcome of a primitive: a value, a Lisp error, or undefined behaviour of the C code. *)
Inductive outcome (A : Type) : Type := Ok (a : A) | Err | UB.
Arguments Ok {A} a. Arguments Err {A}. Arguments UB {A}.

(** arith.c:545: [((is>>1)^is) & 1<<61] *)
Definition fix_overflow (is : Z) : bool :=
  negb (Z.land (Z.lxor (Z.shiftr is 1) is) (Z.shiftl 1 61) =? 0).

(** arith.c:567-588, label bigplus after the first addition: [b] is the accumulator object.  When an
    earlier [normalize_bignum] returned an immediate, [add_int_big]/[sub_int_big]/[big_plus] would
    dereference it: undefined behaviour.  ([j=0] skips the addition, 577-578.) *)
Fixpoint plus_big (b : intobj) (args : list intobj) : outcome intobj :=
  match args with
  | [] => Ok b
  | a :: rest =>
      match a with
      | Imm _ =>
          let j := intval a in
          match b with
          | Big ds =>
              plus_big (normalize_bignum (Big (if j >? 0 then add_int_big j ds
                                               else if j <? 0 then sub_int_big (- j) ds else ds)))
                       rest
          | Imm _ => if j =? 0 then plus_big b rest else UB
          end
      | Big da =>
          match b with
          | Big ds => plus_big (normalize_bignum (Big (big_plus da ds))) rest
          | Imm _ => UB
          end
      end
  end.

(** arith.c:567-572: the entry of bigplus *)
Definition plus_enter (is : Z) (ds : list Z) (rest : list intobj) : outcome intobj :=
  plus_big (Big (if is >=? 0 then add_int_big is ds else sub_int_big (- is) ds)) rest.

(** arith.c:529-552 [PLUS], integer arguments only *)
Fixpoint plus_loop (is : Z) (args : list intobj) : outcome intobj :=
  match args with
  | [] => Ok (makeint is)
  | a :: rest =>
      match a with
      | Imm _ =>
          let is := wrap64 (is + intval a) in
          if fix_overflow is then plus_enter is [0] rest
          else plus_loop is rest
      | Big da => plus_enter is da rest
      end
  end.

Definition PLUS (args : list intobj) : outcome intobj := plus_loop 0 args.

(** arith.c:625-688 [MINUS] with two or more arguments, integers only.  IMINUS and BIGMINUS jump to
    each other; each turn consumes one argument.  The accumulator is a long ([inl]) or a digit
    vector ([inr]). *)
Definition to_acc (b : list Z) : Z + list Z :=   (* normalize_bignum, then IMINUS or BIGMINUS *)
  match normalize_bignum (Big b) with
  | Imm w => inl (intval (Imm w))
  | Big b' => inr b'
  end.

Definition minus_step (acc : Z + list Z) (a : intobj) : Z + list Z :=
  match acc, a with
  | inl is, Imm _ =>
      let is := wrap64 (is - intval a) in
      if fix_overflow is then inr [is] else inl is
  | inl is, Big da =>
      let z := big_minus da in
      to_acc (if is >? 0 then add_int_big is z
              else if is <? 0 then sub_int_big (- is) z else z)
  | inr b, Imm _ =>
      let ia := intval a in
      to_acc (if ia >? 0 then sub_int_big ia b
              else if ia <? 0 then add_int_big (- ia) b else b)
  | inr b, Big da => to_acc (big_plus b (big_minus da))
  end.

Definition acc_obj (acc : Z + list Z) : intobj :=
  match acc with inl is => makeint is | inr b => Big b end.

Definition minus_loop (acc : Z + list Z) (args : list intobj) : intobj :=
  acc_obj (fold_left minus_step args acc).

(** arith.c:602-613: one argument *)
Definition minus_one (a : intobj) : intobj :=
  match a with
  | Imm w => if w =? wrap64 (Z.shiftl MINNEGFIXNUM 2 + 2) then Big [2 ^ 61]
             else makeint (wrap64 (- intval a))
  | Big ds => normalize_bignum (Big (big_minus ds))
  end.

Definition MINUS (args : list intobj) : outcome intobj :=
  match args with
  | [] => Err
  | [a] => Ok (minus_one a)
  | Imm w :: rest => Ok (minus_loop (inl (intval (Imm w))) rest)
  | Big ds :: rest => Ok (minus_loop (inr ds) rest)
  end.

(** arith.c:375-412 [SUB1], [ADD1] on integers *)
Definition SUB1 (a : intobj) : intobj :=
  match a with
  | Imm w => if w =? wrap64 (Z.shiftl MINNEGFIXNUM 2 + 2) then Big [- 2 ^ 61 - 1]
             else Imm (wrap64 (w - 4))
  | Big ds => normalize_bignum (Big (sub_int_big 1 ds))
  end.

Definition ADD1 (a : intobj) : intobj :=
  match a with
  | Imm w => if w =? wrap64 (Z.shiftl MAXPOSFIXNUM 2 + 2) then Big [2 ^ 61]
             else Imm (wrap64 (w + 4))
  | Big ds => Big (add_int_big 1 ds)
  end.

(** arith.c:690-791 [TIMES], integer arguments.  The accumulator is [inl is] in ITIMES and [inr b] in
    BIGTIMES; the C variable [sign] survives from one turn to the next and is threaded here.
    [break] in ITIMES (721) leaves the loop with is = 0. *)
Definition big_mul_int (is : Z) (b : list Z) : list Z * Z :=   (* BIGTIMES1, 765-769 *)
  let sign := big_sign b in
  let b1 := if sign <? 0 then complement_big b else b in
  let sign1 := if is <? 0 then wrap64 (- sign) else sign in
  let is1 := if is <? 0 then wrap64 (- is) else is in
  let b2 := mul_int_big is1 b1 in
  ((if sign1 <? 0 then complement_big b2 else b2), sign1).

(** ITIMES with a fixnum argument, 718-731: [None] leaves the loop with is = 0. *)
Definition times_fix (sign is s : Z) : option (Z * (Z + list Z)) :=
  if (s =? 0) || (is =? 0) then None
  else
    let sign1 := if is <? 0 then -1 else sign in
    let is1 := if is <? 0 then wrap64 (- is) else is in
    let sign2 := if s <? 0 then wrap64 (- sign1) else sign1 in
    let s2 := if s <? 0 then wrap64 (- s) else s in
    let p := extended_mul is1 s2 0 in
    if negb (fst p =? 0) || negb (Z.land (snd p) (- 2 ^ 61) =? 0) then
      (* lo & (7L << 61); makebig2(hi, lo & MASK); normalize; complement *)
      let b := normalize_big [Z.land (snd p) MASK; fst p] in
      Some (sign2, inr (if sign2 <? 0 then complement_big b else b))
    else Some (sign2, inl (wrap64 (snd p * sign2))).

(** 775-785: bignum times bignum; [sign] is computed but never applied to the product. *)
Definition times_bigbig (b da : list Z) : option (Z * (Z + list Z)) :=
  let sign := big_sign b in
  let b1 := if sign <? 0 then complement_big b else b in
  let sign1 := if big_sign da <? 0 then wrap64 (- sign) else sign in
  let a1 := if big_sign da <? 0 then big_minus da else da in
  match big_times a1 b1 with
  | None => None
  | Some p => Some (sign1, to_acc p)
  end.

Fixpoint times_loop (sign : Z) (acc : Z + list Z) (args : list intobj) {struct args} : outcome intobj :=
  match args with
  | [] => Ok (acc_obj acc)
  | a :: rest =>
      match acc, a with
      | inl is, Imm _ =>
          match times_fix sign is (intval a) with
          | None => Ok (makeint 0)
          | Some st => times_loop (fst st) (snd st) rest
          end
      | inl is, Big da =>
          let t := big_mul_int is da in times_loop (snd t) (to_acc (fst t)) rest
      | inr b, Imm _ =>
          let t := big_mul_int (intval a) b in times_loop (snd t) (to_acc (fst t)) rest
      | inr b, Big da =>
          match times_bigbig b da with
          | None => Err
          | Some st => times_loop (fst st) (snd st) rest
          end
      end
  end.

Definition TIMES (args : list intobj) : outcome intobj :=
  match args with
  | [] => UB                                        (* argv[0] is read unconditionally, 707 *)
  | Imm w :: rest => times_loop 1 (inl (intval (Imm w))) rest
  | Big ds :: rest => times_loop 1 (inr ds) rest
  end.

(** big.c:741-771 [sub_int_big_big]: y - c*x in place.  [None]: an access outside a digit vector.
    [sub_prop] is the while loop 760-766: the rest of the product is taken from the digits above x. *)
Fixpoint sub_prop (hi : Z) (y : list Z) : option (list Z) :=
  if hi >? 0 then
    match y with
    | [] => None
    | d :: r =>
        let v := wrap64 (d - hi) in
        if v <? 0 then match sub_prop 1 r with Some r' => Some (Z.land v MASK :: r') | None => None end
        else Some (v :: r)
    end
  else Some y.

Fixpoint sub_ibb (c hi : Z) (x y : list Z) {struct x} : option (list Z) :=
  match x, y with
  | [], _ => sub_prop hi y
  | _ :: _, [] => None
  | a :: x', b :: y' =>
      let p := extended_mul c a hi in
      let v := wrap64 (b - snd p) in
      match sub_ibb c (if v <? 0 then fst p + 1 else fst p) x' y' with
      | Some r => Some ((if v <? 0 then Z.land v MASK else v) :: r)
      | None => None
      end
  end.

Definition sub_int_big_big (c : Z) (x y : list Z) : option (list Z) :=
  match sub_ibb c 0 x y with Some r => Some (normalize_big r) | None => None end.

(** Up to [p] rounds of a loop that goes on with [inl] and stops with [inr]. *)
Fixpoint rounds {A B} (p : positive) (step : A -> A + B) (s : A) : A + B :=
  match p with
  | xH => step s
  | xO p => match rounds p step s with inl s' => rounds p step s' | inr r => inr r end
  | xI p => match step s with
            | inl s' => match rounds p step s' with inl s2 => rounds p step s2 | inr r => inr r end
            | inr r => inr r
            end
  end.

(** big.c:834-836.  A y of no digits (zero) is looked at by [big_compare] through yv[-1], which is the word holding
    the vector's length and not negative: the same as [last [] 0 = 0].  [inr None]: access outside a vector. *)
Definition dbb_step (x : list Z) (st : Z * list Z) : (Z * list Z) + option Z :=
  if big_compare x (snd st) <=? 0 then
    match sub_int_big_big 1 x (snd st) with
    | Some y => inl (wrap64 (fst st + 1), y)
    | None => inr None
    end
  else inr (Some (fst st)).

(** big.c:809-837 [div_big_big(x, y)]: the quotient of y by x.  [None]: access outside a vector, division by zero, or
    no end within 2^64 rounds. *)
Definition div_big_big (x y : list Z) : option Z :=
  let xsize := length x in
  let xtop := nth (xsize - 1) x 0 in
  let q0 :=
    if (length y =? xsize)%nat then
      if xtop =? 0 then None else Some (wrap64 (Z.quot (nth (xsize - 1) y 0) xtop - 2))
    else if (length y <? xsize)%nat then None
    else if nth xsize y 0 >=? xtop then Some (MASK - 1)
    else Some (wrap64 (fst (extended_div xtop (nth xsize y 0) (nth (xsize - 1) y 0)) - 2)) in
  match q0 with
  | None => None
  | Some q =>
      let st := if q <=? 0 then Some (0, y)
                else match sub_int_big_big q x y with Some y' => Some (q, y') | None => None end in
      match st with
      | None => None
      | Some s => match rounds (2 ^ 64)%positive (dbb_step x) s with inr r => r | inl _ => None end
      end
  end.

(** arith.c:800-870 [QUOTIENT] for integer arguments, n >= 2.
    Fixnum path: [is/=intval(a)], a C division (by zero: SIGFPE, undefined). *)
Fixpoint quo_fix (is : Z) (args : list intobj) : outcome intobj :=
  match args with
  | [] => Ok (makeint is)
  | Imm w :: rest => if intval (Imm w) =? 0 then UB else quo_fix (wrap64 (Z.quot is (intval (Imm w)))) rest
  | Big _ :: rest => quo_fix 0 rest
  end.

(** bquo, 851-869: [sign] and the non-negative accumulator; a bignum divisor (858-860) ends the division whatever
    arguments follow, and its quotient is stored in an int. *)
Fixpoint quo_big (sign : Z) (rs : list Z) (args : list intobj) : outcome intobj :=
  match args with
  | [] => Ok (normalize_bignum (Big (if sign <? 0 then complement_big rs else rs)))
  | Imm w :: rest =>
      let is := intval (Imm w) in
      if is =? 0 then Err
      else
        quo_big (if is <? 0 then - sign else sign)
                (fst (div_int_big (if is <? 0 then wrap64 (- is) else is) rs)) rest
  | Big da :: _ =>
      match div_big_big da rs with
      | Some q => Ok (mkbigint (wrap32 (sign * q)))
      | None => UB
      end
  end.

Definition QUOTIENT (args : list intobj) : outcome intobj :=
  match args with
  | Imm w :: rest => match rest with [] => Err | _ => quo_fix (intval (Imm w)) rest end
  | Big ds :: rest =>
      if big_sign ds <? 0 then quo_big (-1) (complement_big ds) rest else quo_big 1 ds rest
  | [] => Err
  end.

(** arith.c:36-84 [NUMEQUAL] on two integers ([argv[1]] is x, [argv[0]] is a) *)
Definition NUMEQUAL2 (a x : intobj) : bool :=
  match x, a with
  | Imm wx, Imm wa => wx =? wa
  | Imm _, Big _ => false
  | Big dx, Imm _ => false
  | Big dx, Big da =>
      if negb (length dx =? length da)%nat then false
      else forallb (fun p => fst p =? snd p) (combine dx da)
  end.

(** arith.c:104-358, two integer arguments [left] (argv[0]) and [right] (argv[1]) *)
Definition GREATERP2 (left right : intobj) : bool :=
  match right, left with
  | Imm r, Imm l => negb (l <=? r)
  | Imm _, Big l => negb (big_sign l <? 0)
  | Big r, Imm _ => negb (big_sign r >=? 0)
  | Big r, Big l => negb (big_compare l r <=? 0)
  end.

Definition LESSP2 (left right : intobj) : bool :=
  match right, left with
  | Imm r, Imm l => negb (l >=? r)
  | Imm _, Big l => negb (big_sign l >? 0)
  | Big r, Imm _ => negb (big_sign r <? 0)
  | Big r, Big l => negb (big_compare l r >=? 0)
  end.

Definition GREQP2 (left right : intobj) : bool :=
  match right, left with
  | Imm r, Imm l => negb (l <? r)
  | Imm _, Big l => negb (big_sign l <? 0)
  | Big r, Imm _ => negb (big_sign r >? 0)
  | Big r, Big l => negb (big_compare l r <? 0)
  end.

Definition LSEQP2 (left right : intobj) : bool :=
  match right, left with
  | Imm r, Imm l => negb (l >? r)
  | Imm _, Big l => negb (big_sign l >? 0)
  | Big r, Imm _ => negb (big_sign r <? 0)
  | Big r, Big l => negb (big_compare l r >? 0)
  end.

(** arith.c:983-1001 [ABS] on integers *)
Definition ABS (a : intobj) : intobj :=
  match a with
  | Imm w => if w =? wrap64 (Z.shiftl MINNEGFIXNUM 2 + 2) then Big [2 ^ 61]
             else makeint (Z.abs (intval a))
  | Big ds => if big_sign ds <? 0 then Big (complement_big ds) else Big ds
  end.
