(** Vectors and arrays: vref, vset, bit, setbit, the bit-vector operations, arrayindex, vector-push, vector-pop and
    vector-push-extend (lisp/c/vectorarray.c), fastvref/fastvset (lisp/c/sequence.c 55-106), makevector
    (lisp/c/makes.c 417-436), make-array and fill-initial-contents (lisp/l/array.l 66-127), on a 64-bit machine.

    A vector holds its size and its data: 64-bit words for bit vectors (as numbers 0 .. 2^64-1), bytes for
    strings (the bytes of all allocated words), machine integers for integer vectors, values for general
    vectors.  Float vectors and foreign strings are left out.  [Error] is a reported error, [Undef] an access outside the
    allocated words or another use of the wrong type of word. *)
From Verif Require Export ListModel Word.
Open Scope Z_scope.

Inductive value := Int (z : Z) | Obj (n : nat).
Inductive vec :=
| VBit (size : nat) (words : list Z)
| VByte (size : nat) (bytes : list Z)
| VInt (words : list Z)
| VPtr (vals : list value).
Definition vecsize (v : vec) : nat := match v with VBit n _ | VByte n _ => n | VInt l => length l | VPtr l => length l end.

(** eus.h 791-795 with intval (eus.c 1387-1401) and bigintval: fixnums, bignums of one digit, and bignums of two
    63-bit digits whose upper digit is less than 2 (negative ones included); the digits are packed into 64 bits *)
Definition ckintval (x : value) : out Z :=
  match x with Int z => if (- 2 ^ 126 <=? z) && (z <? 2 ^ 64) then Ret (wrap64 z) else Error | Obj _ => Error end.
(** sequence.c 55-62 coerceintval without floats: bigintval keeps 64 bits *)
Definition coerceintval (x : value) : out Z := match x with Int z => Ret (wrap64 z) | Obj _ => Error end.
Definition u64 (z : Z) : Z := z mod 2 ^ 64.

Fixpoint update {A} (l : list A) (n : nat) (x : A) : list A :=
  match l, n with
  | [], _ => []
  | _ :: r, O => x :: r
  | y :: r, S m => y :: update r m x
  end.
Definition load {A} (l : list A) (n : nat) : out A := match nth_error l n with Some x => Ret x | None => Undef end.
Definition store {A} (l : list A) (n : nat) (x : A) : out (list A) := if (n <? length l)%nat then Ret (update l n x) else Undef.

(** sequence.c 64-82 fastvref: no bounds check *)
Definition fastvref (v : vec) (n : nat) : out value :=
  match v with
  | VBit _ ws => do w <- load ws (n / 64)%nat; Ret (Int (if Z.land w (u64 (Z.shiftl 1 (Z.of_nat (n mod 64)))) =? 0 then 0 else 1))
  | VByte _ bs => do b <- load bs n; Ret (Int b)
  | VInt ws => do w <- load ws n; Ret (Int w)
  | VPtr vs => load vs n
  end.
(** sequence.c 84-106 fastvset *)
Definition fastvset (v : vec) (n : nat) (x : value) : out vec :=
  match v with
  | VBit s ws => do b <- coerceintval x; do w <- load ws (n / 64)%nat;
      let m := u64 (Z.shiftl 1 (Z.of_nat (n mod 64))) in
      do ws' <- store ws (n / 64)%nat (if Z.land b 1 =? 0 then u64 (Z.land w (Z.lnot m)) else u64 (Z.lor w m));
      Ret (VBit s ws')
  | VByte s bs => do b <- coerceintval x; do bs' <- store bs n (b mod 256); Ret (VByte s bs')
  | VInt ws => do b <- coerceintval x; do ws' <- store ws n b; Ret (VInt ws')
  | VPtr vs => do vs' <- store vs n x; Ret (VPtr vs')
  end.

(** vectorarray.c 40-68 vref: [n] is an int *)
Definition vref (v : vec) (n : Z) : out value :=
  if (n <? 0) || (Z.of_nat (vecsize v) <=? n) then Error else fastvref v (Z.to_nat n).
(** vectorarray.c 90-124 vset.  In the bit case the variables x and y are of type int: the mask
    1L<<(n%64) and the shifted bit are truncated to 32 bits, then sign-extended when combined with the word. *)
Definition vset (v : vec) (n : Z) (x : value) : out vec :=
  if (n <? 0) || (Z.of_nat (vecsize v) <=? n) then Error else
  let k := Z.to_nat n in
  match v with
  | VBit s ws =>
      let m := to_int (Z.shiftl 1 (n mod 64)) in
      do b <- ckintval x;
      let y := to_int (Z.shiftl (Z.land b 1) (n mod 64)) in
      do w <- load ws (k / 64)%nat;
      do ws' <- store ws (k / 64)%nat (u64 (Z.lor (Z.land w (Z.lnot m)) y));
      Ret (VBit s ws')
  | VByte s bs => do b <- ckintval x; do bs' <- store bs k (b mod 256); Ret (VByte s bs')
  | VInt ws => do b <- coerceintval x; do ws' <- store ws k b; Ret (VInt ws')
  | VPtr vs => do vs' <- store vs k x; Ret (VPtr vs')
  end.

(** vectorarray.c 284-303 BIT and 305-327 SETBIT: the index goes into the int variable n *)
Definition BIT (v : vec) (i : value) : out value :=
  do z <- ckintval i; let n := to_int z in
  match v with
  | VBit s ws => if (n <? 0) || (Z.of_nat s <=? n) then Error else
      do w <- load ws (Z.to_nat n / 64)%nat; Ret (Int (if Z.land w (u64 (Z.shiftl 1 (n mod 64))) =? 0 then 0 else 1))
  | _ => Error
  end.
Definition SETBIT (v : vec) (i x : value) : out (vec * value) :=
  do z <- ckintval i; let n := to_int z in
  do b <- ckintval x; let b := Z.land b 1 in
  match v with
  | VBit s ws => if (n <? 0) || (Z.of_nat s <=? n) then Error else
      do w <- load ws (Z.to_nat n / 64)%nat;
      let m := u64 (Z.shiftl 1 (n mod 64)) in
      do ws' <- store ws (Z.to_nat n / 64)%nat (if b =? 0 then u64 (Z.land w (Z.lnot m)) else u64 (Z.lor w m));
      Ret (VBit s ws', Int b)
  | _ => Error
  end.

(** ** The bit-vector operations (vectorarray.c 329-457), over a memory of bit vectors so that the result may be
    one of the arguments *)
Definition bvmem := nat -> nat * list Z.                     (* size and words of each vector *)
Definition bv_put (m : bvmem) (a : nat) (ws : list Z) : bvmem := fun b => if Nat.eqb b a then (fst (m a), ws) else m b.
(** "while (i<(s+WORD_SIZE-1)/WORD_SIZE) { rbv[i]=bv1[i] & bv2[i]; i++;}" *)
Fixpoint bv_loop (op : Z -> Z -> Z) (m : bvmem) (a b r : nat) (i n : nat) : out bvmem :=
  match n with
  | O => Ret m
  | S n' => do x <- load (snd (m a)) i; do y <- load (snd (m b)) i; do ws <- store (snd (m r)) i (u64 (op x y));
            bv_loop op (bv_put m r ws) a b r (S i) n'
  end.
Inductive bitop := And | Ior | Xor | Eqv | Nand | Nor.
Definition word_op (o : bitop) : Z -> Z -> Z :=
  match o with
  | And => Z.land | Ior => Z.lor | Xor => Z.lxor
  | Eqv => fun x y => Z.lnot (Z.lxor x y) | Nand => fun x y => Z.lnot (Z.land x y) | Nor => fun x y => Z.lnot (Z.lor x y)
  end.
Definition bv_words (s : nat) : nat := ((s + 63) / 64)%nat.
(** makevector(C_BITVECTOR,s) at a fresh place [r] *)
Definition bv_make (m : bvmem) (r s : nat) : bvmem := fun b => if Nat.eqb b r then (s, repeat 0 (bv_words s)) else m b.
(** [res]: the third argument, or the place for a new vector *)
Definition BITOP (o : bitop) (m : bvmem) (a b : nat) (res : nat + nat) : out (bvmem * nat) :=
  let s := fst (m a) in
  if negb (Nat.eqb s (fst (m b))) then Error else
  match res with
  | inl r => if negb (Nat.eqb s (fst (m r))) then Error else do m' <- bv_loop (word_op o) m a b r 0 (bv_words s); Ret (m', r)
  | inr r => do m' <- bv_loop (word_op o) (bv_make m r s) a b r 0 (bv_words s); Ret (m', r)
  end.
(** vectorarray.c 440-457 *)
Definition BITNOT (m : bvmem) (a : nat) (res : nat + nat) : out (bvmem * nat) :=
  let s := fst (m a) in
  match res with
  | inl r => if negb (Nat.eqb s (fst (m r))) then Error else do m' <- bv_loop (fun x _ => Z.lnot x) m a a r 0 (bv_words s); Ret (m', r)
  | inr r => do m' <- bv_loop (fun x _ => Z.lnot x) (bv_make m r s) a a r 0 (bv_words s); Ret (m', r)
  end.

(** ** Arrays.  rank is the number of dimensions stored. *)
Record arr := mkArr { a_dims : list Z; a_fp : option Z; a_off : Z; a_ent : vec }.
(** vectorarray.c 149-164: index, i1, i2 are ints *)
Fixpoint arrayindex_loop (dims : list Z) (subs : list value) (index : Z) : out Z :=
  match dims, subs with
  | d :: ds, s :: ss =>
      do z <- ckintval s; let i1 := to_int z in let i2 := to_int d in
      if i2 <=? i1 then Error else arrayindex_loop ds ss (to_int (index * i2 + i1))
  | _, _ => Ret index
  end.
Definition arrayindex (a : arr) (subs : list value) : out Z :=
  if negb (Nat.eqb (length subs) (length (a_dims a))) then Error else
  do i <- arrayindex_loop (a_dims a) subs 0; Ret (to_int (i + a_off a)).
(** vectorarray.c 166-184 AREF and 186-196 ASET, on a vector and on an array *)
Definition AREF_vec (v : vec) (i : value) : out value := do z <- ckintval i; vref v (to_int z).
Definition ASET_vec (v : vec) (i x : value) : out vec := do z <- ckintval i; vset v (to_int z) x.
Definition AREF (a : arr) (subs : list value) : out value :=
  match subs with [] => Error | s :: _ => do _z <- ckintval s; do i <- arrayindex a subs; vref (a_ent a) i end.
Definition ASET (a : arr) (subs : list value) (x : value) : out arr :=
  match subs with
  | [] => Error
  | _ => do i <- arrayindex a subs; do e <- vset (a_ent a) i x; Ret (mkArr (a_dims a) (a_fp a) (a_off a) e)
  end.

(** ** Fill pointers *)
(** vectorarray.c 207-223 (the debugging printf is left out); the fill pointer NIL read with intval *)
Definition VECTORPOP (a : arr) : out (arr * value) :=
  if negb (Nat.eqb (length (a_dims a)) 1) then Error else
  match a_fp a with
  | None => Undef
  | Some f => let fp := to_int f in
      if fp =? 0 then Error else
      do r <- vref (a_ent a) (to_int (fp - 1 + a_off a));
      Ret (mkArr (a_dims a) (Some (fp - 1)) (a_off a) (a_ent a), r)
  end.
(** vectorarray.c 225-238 *)
Definition VECTORPUSH (x : value) (a : arr) : out (arr * value) :=
  if negb (Nat.eqb (length (a_dims a)) 1) then Error else
  match a_fp a with
  | None => Error
  | Some f => let fp := to_int f in
      do e <- vset (a_ent a) (to_int (fp + a_off a)) x;
      Ret (mkArr (a_dims a) (Some (to_int (fp + 1))) (a_off a) e, x)
  end.
(** "for (i=0; i<n; i++) new->v[i]=entity->v[i];" *)
Fixpoint copy_words {A} (n : nat) (src dst : list A) : out (list A) :=
  match n, src, dst with
  | O, _, _ => Ret dst
  | S m, x :: s, _ :: d => do r <- copy_words m s d; Ret (x :: r)
  | S _, _, _ => Undef
  end.
(** makevector of the class of [v] followed by the copy loop: makes.c 417-436 and vectorarray.c 252-258.  The byte
    case copies (vsize+8)/8 words of eight bytes *)
Definition grow (v : vec) (n : nat) : out vec :=
  match v with
  | VBit s ws => do w <- copy_words ((s + 63) / 64)%nat ws (repeat 0 ((n + 63) / 64)%nat); Ret (VBit n w)
  | VByte s bs => do b <- copy_words (8 * ((s + 8) / 8))%nat bs (repeat 0 (8 * ((n + 8) / 8))%nat); Ret (VByte n b)
  | VInt ws => do w <- copy_words (length ws) ws (repeat 0 n); Ret (VInt w)
  | VPtr vs => do w <- copy_words (length vs) vs (repeat (Obj 0) n); Ret (VPtr w)
  end.
(** vectorarray.c 240-265: the displacement is not added *)
Definition VECTOREXPUSH (x : value) (a : arr) : out (arr * value) :=
  if negb (Nat.eqb (length (a_dims a)) 1) then Error else
  match a_fp a with
  | None => Error
  | Some f => let fp := to_int f in
      do ed <- (if Z.of_nat (vecsize (a_ent a)) <=? fp
                then do e <- grow (a_ent a) (Z.to_nat (to_int (fp * 2))); Ret (e, [to_int (fp * 2)])
                else Ret (a_ent a, a_dims a));
      do e <- vset (fst ed) fp x;
      Ret (mkArr (snd ed) (Some (to_int (fp + 1))) (a_off a) e, x)
  end.

(** ** make-array with :initial-contents (array.l 66-81, 82-127); contents are nested sequences *)
Inductive contents := Leaf (x : value) | Seq (l : list contents).
Definition elt (c : contents) (i : nat) : out contents := match c with Seq l => match nth_error l i with Some x => Ret x | None => Error end | Leaf _ => Error end.
Fixpoint fill_row (v : vec) (offset : Z) (l : list contents) (increments major : Z) : out vec :=
  match l with
  | [] => Ret v
  | Leaf x :: r => do v' <- ASET_vec v (Int offset) x;
                   if increments + 1 >? major then Error else fill_row v' (offset + 1) r (increments + 1) major
  | Seq _ :: _ => Undef                                     (* a sequence stored as an element: not modelled *)
  end.
Definition product (l : list Z) : Z := fold_right Z.mul 1 l.
Fixpoint fill_contents (v : vec) (offset : Z) (dims : list Z) (c : contents) {struct dims} : out vec :=
  match dims with
  | [] => Undef
  | d :: ds =>
      match ds with
      | [] => match c with Seq l => fill_row v offset l 0 d | Leaf _ => Error end
      | _ => (fix rows (n : nat) (i : nat) (v : vec) (offset : Z) {struct n} : out vec :=
                match n with
                | O => Ret v
                | S n' => do e <- elt c i; do v' <- fill_contents v offset ds e; rows n' (S i) v' (offset + product ds)
                end) (Z.to_nat d) O v offset
      end
  end.
Definition make_array (mk : nat -> vec) (dims : list Z) (c : contents) : out arr :=
  do e <- fill_contents (mk (Z.to_nat (Z.max 1 (product dims)))) 0 dims c; Ret (mkArr dims None 0 e).
