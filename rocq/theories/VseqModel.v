(** Sequence functions on vectors, arrays of one dimension and lists of values: SUBSEQ, COPYSEQ, REVERSE, NREVERSE, pushsequence,
    makesequence, CONCATENATE, COERCE, FILL, MAP, LENGTH, ELT (lisp/c/sequence.c 110-517, 1018-1053), on a 64-bit machine.
    Lists are values here; the cells of a list are in ListModel (C16, C17).  As in VecModel there are no float vectors and no foreign
    strings.  [Undef] is an access outside the allocated words, or an allocation or copy of negative length. *)
From Verif Require Export VecModel.
Open Scope Z_scope.

Inductive kind := KList | KBit | KByte | KInt | KPtr.
Definition NIL : value := Obj 0.
Definition kind_of (v : vec) : kind := match v with VBit _ _ => KBit | VByte _ _ => KByte | VInt _ => KInt | VPtr _ => KPtr end.
(** makes.c 417-436 makevector *)
Definition makevector (k : kind) (n : Z) : out vec :=
  if n <? 0 then Undef else
  let n := Z.to_nat n in
  match k with
  | KBit => Ret (VBit n (repeat 0 (bv_words n)))
  | KByte => Ret (VByte n (repeat 0 (8 * ((n + 8) / 8))%nat))
  | KInt => Ret (VInt (repeat 0 n))
  | KPtr => Ret (VPtr (repeat NIL n))
  | KList => Error
  end.
Inductive sequ := Lst (l : list value) | Vec (v : vec) | Arr (a : arr).

(** for (i=..; n times; i++) body *)
Fixpoint loop {S} (n i : nat) (body : nat -> S -> out S) (s : S) : out S :=
  match n with O => Ret s | S n' => do s' <- body i s; loop n' (Datatypes.S i) body s' end.
(** memcpy of [n] elements from index [s] of [src] to the front of [dst] *)
Definition memcpy {A} (dst src : list A) (s n : Z) : out (list A) :=
  if (s <? 0) || (n <? 0) || (Z.of_nat (length src) <? s + n) || (Z.of_nat (length dst) <? n) then Undef
  else Ret (firstn (Z.to_nat n) (skipn (Z.to_nat s) src) ++ skipn (Z.to_nat n) dst).
(** the words of [a] from [s] into the new vector [r], except bits *)
Definition copy_part (r a : vec) (s n : Z) : out vec :=
  match r, a with
  | VByte m d, VByte _ b => do d <- memcpy d b s n; Ret (VByte m d)
  | VInt d, VInt b => do d <- memcpy d b s n; Ret (VInt d)
  | VPtr d, VPtr b => do d <- memcpy d b s n; Ret (VPtr d)
  | _, _ => Undef
  end.
(** an index that may be negative *)
Definition ref (v : vec) (i : Z) : out value := if i <? 0 then Undef else fastvref v (Z.to_nat i).
Definition set (v : vec) (i : Z) (x : value) : out vec := if i <? 0 then Undef else fastvset v (Z.to_nat i) x.

(** 117-171 SUBSEQ; [e] is the optional third argument *)
Definition subseq_vec (a : vec) (s : Z) (e : option Z) : out sequ :=
  let size := Z.of_nat (vecsize a) in
  let e := match e with Some e => Z.min e size | None => size end in
  let count := e - s in
  do r <- makevector (kind_of a) count;
  match a with
  | VBit _ _ => do r <- loop (Z.to_nat count) 0 (fun i r => do x <- ref a (s + Z.of_nat i); fastvset r i x) r; Ret (Vec r)
  | _ => do r <- copy_part r a s count; Ret (Vec r)
  end.
Definition SUBSEQ (q : sequ) (s : Z) (e : option Z) : out sequ :=
  if match e with Some e => e <? s | None => false end then Error else
  match q with
  | Lst [] => Ret (Lst [])
  | Lst l => let l := skipn (Z.to_nat s) l in
             match l with
             | [] => Error
             | _ => Ret (Lst (match e with Some e => firstn (Z.to_nat (e - s)) l | None => l end))
             end
  | Arr a => subseq_vec (a_ent a) (s + a_off a) (option_map (fun e => e + a_off a) e)
  | Vec v => subseq_vec v s e
  end.
(** 173-215 COPYSEQ: the entity of an array is a vector, so that the size of the array is forgotten *)
Definition copyseq_vec (a : vec) : out sequ :=
  let k := vecsize a in
  do r <- makevector (kind_of a) (Z.of_nat k);
  match a with
  | VBit _ _ => do r <- loop k 0 (fun i r => do x <- fastvref a i; fastvset r i x) r; Ret (Vec r)
  | _ => do r <- copy_part r a 0 (Z.of_nat k); Ret (Vec r)
  end.
Definition COPYSEQ (q : sequ) : out sequ :=
  match q with
  | Lst l => Ret (Lst l)
  | Arr a => if (1 <? length (a_dims a))%nat then Error else copyseq_vec (a_ent a)
  | Vec v => copyseq_vec v
  end.
(** the part of the entity that REVERSE, NREVERSE and COERCE take: offset and dimension *)
Definition part (q : sequ) : out (vec * Z * Z) :=
  match q with
  | Vec v => Ret (v, 0, Z.of_nat (vecsize v))
  | Arr a => match a_dims a with [d] => Ret (a_ent a, a_off a, d) | _ => Error end
  | Lst _ => Error
  end.
(** 217-247 REVERSE *)
Definition REVERSE (q : sequ) : out sequ :=
  match q with
  | Lst l => Ret (Lst (rev l))
  | _ => do (a, s, k) <- part q;
         do r <- makevector (kind_of a) k;
         do r <- loop (Z.to_nat k) 0 (fun i r => do x <- ref a (s + Z.of_nat i); set r (k - Z.of_nat i - 1) x) r;
         Ret (Vec r)
  end.
(** 249-301 NREVERSE of a vector or array: the entity afterwards.  Elements are exchanged as they are stored. *)
Definition NREVERSE (q : sequ) : out vec :=
  do (a, s, k) <- part q;
  loop (Z.to_nat (k / 2)) 0 (fun i a => do x <- ref a (s + Z.of_nat i); do y <- ref a (k - Z.of_nat i - 1);
    do a <- set a (s + Z.of_nat i) y; set a (k - Z.of_nat i - 1) x) a.
(** 303-347 pushsequence: what is pushed.  [count] is a number of elements or no limit (MAX_SEQUENCE_COUNT). *)
Definition limited (count : option Z) (len : Z) : Z := match count with Some c => Z.min len c | None => len end.
Definition push_vec (a : vec) (offset : Z) (count : option Z) : out (list value) :=
  let len := limited count (Z.of_nat (vecsize a) - offset) in
  if len <? 0 then Undef else
  loop (Z.to_nat len) 0 (fun i l => do x <- ref a (offset + Z.of_nat i); Ret (l ++ [x])) [].
Definition pushsequence (q : sequ) (offset : Z) (count : option Z) : out (list value) :=
  match q with
  | Lst [] => Ret []
  | Lst l => if (Z.of_nat (length l) <? offset) then Error else
             let l := skipn (Z.to_nat offset) l in Ret (match count with Some c => firstn (Z.to_nat c) l | None => l end)
  | Arr a => match a_dims a with [_] => push_vec (a_ent a) (offset + a_off a) count | _ => Error end
  | Vec v => push_vec v offset count
  end.
(** 349-388 makesequence: the values are popped, last one first; the bits are or-ed into a new vector *)
Definition or_bit (v : vec) (n : nat) (x : value) : out vec :=
  match v with
  | VBit s ws => do b <- coerceintval x; do w <- load ws (n / 64)%nat;
      do ws <- store ws (n / 64)%nat (u64 (Z.lor w (Z.shiftl (Z.land b 1) (Z.of_nat (n mod 64))))); Ret (VBit s ws)
  | _ => fastvset v n x
  end.
Fixpoint pop_into (stack : list value) (v : vec) : out vec :=    (* the stack, top first *)
  match stack with [] => Ret v | x :: r => do v <- or_bit v (length r) x; pop_into r v end.
Definition makesequence (k : kind) (vals : list value) : out sequ :=
  match k with
  | KList => Ret (Lst vals)
  | _ => do r <- makevector k (Z.of_nat (length vals)); do r <- pop_into (rev vals) r; Ret (Vec r)
  end.
(** 390-398 CONCATENATE: without sequences the result is NIL, whatever the kind *)
Fixpoint push_all (qs : list sequ) : out (list value) :=
  match qs with [] => Ret [] | q :: r => do l <- pushsequence q 0 None; do l' <- push_all r; Ret (l ++ l') end.
Definition CONCATENATE (k : kind) (qs : list sequ) : out sequ :=
  match qs with [] => Ret (Lst []) | _ => do l <- push_all qs; makesequence k l end.
(** 400-415 COERCE *)
Definition COERCE (q : sequ) (k : kind) : out sequ :=
  do l <- match q with
          | Arr a => match a_dims a with [d] => push_vec (a_ent a) (a_off a) (Some d) | _ => Error end
          | _ => pushsequence q 0 None
          end;
  makesequence k l.
(** 417-483 FILL *)
Definition fill_run (v : vec) (start end_ : Z) (x : value) : out vec :=
  loop (Z.to_nat (end_ - start)) 0 (fun i v => set v (start + Z.of_nat i) x) v.
Definition set_word (v : vec) (i : Z) (w : Z) : out vec :=
  match v with VBit s ws => if i <? 0 then Undef else do ws <- store ws (Z.to_nat i) w; Ret (VBit s ws) | _ => Undef end.
Definition fill_vec (v : vec) (x : value) (start end_ : Z) : out vec :=
  match v with
  | VBit _ _ =>
      let head := Z.min end_ (64 * ((start + 63) / 64)) in
      do v <- fill_run v start head x;
      let start := Z.max start head in
      let count := Z.max 0 ((end_ - start) / 64) in
      do b <- coerceintval x; let val := if b =? 0 then 0 else 2 ^ 64 - 1 in
      do v <- loop (Z.to_nat count) 0 (fun i v => set_word v (start / 64 + Z.of_nat i) val) v;
      fill_run v (start + count * 64) end_ x
  | VPtr _ => fill_run v start end_ x
  | _ => do _ <- coerceintval x; fill_run v start end_ x
  end.
Definition FILL (q : sequ) (x : value) (start end_ : Z) : out sequ :=
  match q with
  | Lst [] => Error
  | Lst l => let s := Z.to_nat start in let n := Z.to_nat (end_ - start) in
             Ret (Lst (firstn s l ++ repeat x (Nat.min n (length l - s)) ++ skipn (s + n) l))
  | Vec v => do v <- fill_vec v x start (Z.min end_ (Z.of_nat (vecsize v))); Ret (Vec v)
  | Arr a => match a_dims a with
             | [d] => do v <- fill_vec (a_ent a) x (start + a_off a) (Z.min end_ d + a_off a); Ret (Arr (mkArr (a_dims a) (a_fp a) (a_off a) v))
             | _ => Error
             end
  end.
(** 485-517 MAP.  The function may have effects on a state.  [i] is rcount. *)
Section Map.
Context {S : Type} (f : S -> list value -> out (S * value)).
(** the arguments of one call and what is left of the sequences; [None] when one has ended *)
Fixpoint collect (i : nat) (qs : list sequ) : out (option (list value * list sequ)) :=
  match qs with
  | [] => Ret (Some ([], []))
  | q :: r =>
      do o <- match q with
              | Lst (x :: l) => Ret (Some (x, Lst l))
              | Lst [] => Ret None
              | Vec v => if (i <? vecsize v)%nat then do x <- fastvref v i; Ret (Some (x, q)) else Ret None
              | Arr a => match a_dims a with
                         | [_] => if Z.of_nat i + a_off a <? Z.of_nat (vecsize (a_ent a)) then do x <- ref (a_ent a) (Z.of_nat i + a_off a); Ret (Some (x, q)) else Ret None
                         | _ => Error
                         end
              end;
      match o with
      | None => Ret None
      | Some (x, q) => do o <- collect i r; Ret (option_map (fun '(xs, qs) => (x :: xs, q :: qs)) o)
      end
  end.
Fixpoint map_loop (fuel i : nat) (s : S) (qs : list sequ) (vals : list value) : out (S * list value) :=
  match fuel with O => Hang | Datatypes.S fuel =>
  do o <- collect i qs;
  match o with
  | None => Ret (s, vals)
  | Some (xs, qs) => do (s, y) <- f s xs; map_loop fuel (Datatypes.S i) s qs (vals ++ [y])
  end end.
Definition MAP (fuel : nat) (k : option kind) (s : S) (qs : list sequ) : out (S * sequ) :=
  match qs with
  | [] => Error
  | _ => do (s, vals) <- map_loop fuel 0 s qs [];
         match k with Some k => do q <- makesequence k vals; Ret (s, q) | None => Ret (s, Lst []) end
  end.
End Map.
(** 1018-1036 LENGTH *)
Definition LENGTH (q : sequ) : out Z :=
  match q with
  | Lst l => Ret (Z.of_nat (length l))
  | Vec v => Ret (Z.of_nat (vecsize v))
  | Arr a => match a_dims a with [d] => Ret (match a_fp a with Some n => n | None => d end) | _ => Error end
  end.
(** 1038-1053 ELT: vref takes an int *)
Definition ELT (q : sequ) (i : Z) : out value :=
  match q with
  | Lst [] => Error
  | Lst l => if i <? 0 then Error else match nth_error l (Z.to_nat i) with Some x => Ret x | None => Error end
  | Vec v => vref v (to_int i)
  | Arr a => match a_dims a with [_] => vref (a_ent a) (to_int i) | _ => Error end
  end.
