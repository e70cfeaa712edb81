(** Model of the bit operations of lisp/c/arith.c:1158-1387 (64-bit configuration).

    A C shift by a negative amount or by at least the word size is undefined behaviour and gives [UB],
    as does an access outside a digit vector. *)
From Verif Require Import Word BigModel.

(** eus.h:791-795 [ckintval]: an immediate, a one-word bignum, or a two-word bignum whose top word is
    below 2; anything else is an error. *)
Definition ckintval (o : intobj) : option Z :=
  match o with
  | Imm _ => Some (intval o)
  | Big [_] => Some (intval o)
  | Big [_; d1] => if d1 <? 2 then Some (intval o) else None
  | Big _ => None
  end.

Definition shift_ok (s : Z) : bool := (0 <=? s) && (s <? 64).

(** unsigned 64-bit view of a long, and shifts on it *)
Definition u64 (z : Z) : Z := z mod 2 ^ 64.
Definition shl64 (z s : Z) : Z := u64 (Z.shiftl z s).
Definition shr64 (z s : Z) : Z := Z.shiftr z s.

(** arith.c:1351-1365 [LDB] on three arguments (the width defaults to 8) *)
Definition ldb_word (val pos width : Z) : outcome Z :=
  if shift_ok (64 - pos - width) && shift_ok (64 - width)
  then Ok (shr64 (shl64 (u64 val) (64 - pos - width)) (64 - width))
  else UB.

Definition LDB (val pos width : intobj) : outcome intobj :=
  match ckintval val, ckintval pos, ckintval width with
  | Some v, Some p, Some w =>
      match ldb_word v p w with Ok r => Ok (makeint (wrap64 r)) | Err => Err | UB => UB end
  | _, _, _ => Err
  end.

(** arith.c:1367-1387 [DPB] *)
Definition dpb_word (val target pos width : Z) : outcome Z :=
  if shift_ok (64 - (pos + width)) && shift_ok (64 - width) && shift_ok pos then
    let mask := u64 (-1) in
    let mask := shl64 mask (64 - (pos + width)) in
    let mask := shr64 mask (64 - width) in
    let val := Z.land (u64 val) mask in
    let mask := shl64 mask pos in
    Ok (Z.lor (Z.land (u64 target) (u64 (Z.lnot mask))) (shl64 val pos))
  else UB.

Definition DPB (val target pos width : intobj) : outcome intobj :=
  match ckintval val, ckintval target, ckintval pos, ckintval width with
  | Some v, Some t, Some p, Some w =>
      match dpb_word v t p w with Ok r => Ok (makeint (wrap64 r)) | Err => Err | UB => UB end
  | _, _, _, _ => Err
  end.

(** arith.c:1205-1219 [LOGIOR] *)
Definition intbits (o : intobj) : Z := match o with Imm _ => intval o | Big ds => bigintval ds end.

Definition LOGIOR (args : list intobj) : intobj :=
  mkbigint (fold_left (fun r o => Z.lor r (intbits o)) args 0).

(** the fixnum-only operations: an argument that is not an immediate integer is an error *)
Fixpoint fix_fold (f : Z -> Z -> Z) (acc : Z) (args : list intobj) : outcome Z :=
  match args with
  | [] => Ok acc
  | a :: r => if isint a then fix_fold f (f acc (intval a)) r else Err
  end.

Definition map_outcome {A B} (f : A -> B) (o : outcome A) : outcome B :=
  match o with Ok a => Ok (f a) | Err => Err | UB => UB end.

(** arith.c:1221-1230, 1232-1241 (which scans from the right), 1243-1252, 1254-1263, 1265-1274 *)
Definition LOGXOR (args : list intobj) : outcome intobj := map_outcome makeint (fix_fold Z.lxor 0 args).
Definition LOGEQV (args : list intobj) : outcome intobj :=
  map_outcome (fun r => makeint (Z.lnot r)) (fix_fold Z.lxor 0 (rev args)).
Definition LOGNAND (args : list intobj) : outcome intobj :=
  map_outcome (fun r => makeint (Z.lnot r)) (fix_fold Z.land (-1) args).
Definition LOGNOR (args : list intobj) : outcome intobj :=
  map_outcome (fun r => makeint (Z.lnot r)) (fix_fold Z.lor 0 args).
Definition LOGNOT (a : intobj) : outcome intobj :=
  if isint a then Ok (makeint (Z.lnot (intval a))) else Err.

(** arith.c:1276-1284 [LOGTEST]: on the tagged words themselves *)
Definition LOGTEST (a b : intobj) : outcome bool :=
  match a, b with
  | Imm x, Imm y => Ok (negb (Z.land (Z.land x y) (Z.lnot 3) =? 0))
  | _, _ => Err
  end.

(** arith.c:1286-1295 [LOGBITP] *)
Definition LOGBITP (index val : intobj) : outcome bool :=
  match ckintval index, ckintval val with
  | Some i, Some v =>
      if i <? 0 then Err
      else if shift_ok i then Ok (negb (Z.land (Z.shiftr v i) 1 =? 0)) else UB
  | _, _ => Err
  end.

(** arith.c:1158-1203 [LOGAND].  [and_zip]: the loops 1189, 1196, 1199 over the common digits; the rest
    of the longer [r] is kept. *)
Fixpoint and_zip (r p : list Z) : list Z :=
  match r, p with
  | a :: r', b :: p' => Z.land a b :: and_zip r' p'
  | _, _ => r
  end.

(** big.c:392-402 [extend_big] *)
Definition extend_big (b : list Z) (newsize : nat) : list Z :=
  if big_sign b <? 0 then b ++ repeat MASK (newsize - length b - 1) ++ [-1]
  else b ++ repeat 0 (newsize - length b).

(** one turn of the loop at label bigand: the bignum accumulator [r] and the argument [p] *)
Definition bigand_step (r : list Z) (p : intobj) : list Z :=
  match p with
  | Imm _ =>
      match r with
      | [] => []
      | d :: rest => Z.land d (intval p) :: (if intval p >=? 0 then map (fun _ => 0) rest else rest)
      end
  | Big pd =>
      if (length pd <=? length r)%nat then
        let z := and_zip r pd in
        if (length pd <? length r)%nat && (big_sign pd >? 0)
        then firstn (length pd) z ++ map (fun _ => 0) (skipn (length pd) z)
        else z
      else if big_sign r <? 0 then and_zip (extend_big r (length pd)) pd
      else and_zip r pd
  end.

(** arith.c:1169-1179: the fixnum loop; [k] is a C [int].  When a bignum argument turns up, the
    accumulated [k] is dropped and the tagged word of the first argument is boxed instead (1176). *)
Fixpoint logand_fix (word0 k : Z) (args : list intobj) : outcome intobj :=
  match args with
  | [] => Ok (makeint k)
  | p :: rest =>
      match p with
      | Imm _ => logand_fix word0 (wrap32 (Z.land k (intval p))) rest
      | Big pd => Ok (normalize_bignum (Big (fold_left bigand_step rest (bigand_step pd (makeint word0)))))
      end
  end.

(** With a bignum as the only argument, [argv[1]] is read past the end (1166). *)
Definition LOGAND (args : list intobj) : outcome intobj :=
  match args with
  | [] => UB
  | Big ds :: [] => UB
  | Big ds :: rest => Ok (normalize_bignum (Big (fold_left bigand_step rest ds)))
  | Imm w :: rest => logand_fix w (wrap32 (intval (Imm w))) rest
  end.

(** ** ASH, arith.c:1297-1349 *)

(** C library [ffsl]: one plus the index of the least significant set bit *)
Fixpoint ffs_pos (p : positive) : Z :=
  match p with xO q => 1 + ffs_pos q | _ => 1 end.
Definition ffsl (v : Z) : Z := match v with Zpos p => ffs_pos p | _ => 0 end.

(** 1330-1335: left shift, [av] the digits, [bv] the result from index [i+j] on; [None] is a write
    outside the vector *)
Fixpoint ash_left_loop (k : Z) (av bv : list Z) : option (list Z) :=
  match av with
  | [] => Some bv
  | x :: av' =>
      match bv with
      | b0 :: _ :: bv' =>
          match ash_left_loop k av' (Z.shiftr x (63 - k) :: bv') with
          | Some t => Some (Z.lor b0 (wrap64 (Z.shiftl x k)) :: t)
          | None => None
          end
      | _ => None
      end
  end.

Definition ash_left (count : Z) (av : list Z) : outcome (list Z) :=
  let j := count / 63 in let k := count mod 63 in
  let size := Z.of_nat (length av) + (count + 62) / 63 in
  match ash_left_loop k av (repeat 0 (Z.to_nat (size - j))) with
  | Some b => Ok (repeat 0 (Z.to_nat j) ++ b)
  | None => UB
  end.

(** 1337-1343: right shift by [c] > 0 *)
Fixpoint ash_right_loop (k : Z) (av : list Z) : list Z :=
  match av with
  | [] => []
  | [x] => [Z.shiftr x k]
  | x :: ((y :: _) as r) =>
      Z.lor (Z.shiftr x k) (Z.land (wrap64 (Z.shiftl y (63 - k))) MASK) :: ash_right_loop k r
  end.

Definition ash_right (c : Z) (av : list Z) : outcome (list Z) :=
  let j := c / 63 in let k := c mod 63 in
  let size := Z.of_nat (length av) in
  let bsize := size + Z.quot (- c + 62) 63 in
  if size - j - 1 <? 0 then UB
  else Ok (ash_right_loop k (skipn (Z.to_nat j) av) ++ repeat 0 (Z.to_nat (bsize - (size - j)))).

Definition ash_big (count : Z) (av : list Z) : outcome intobj :=
  map_outcome (fun b => normalize_bignum (Big b))
              (if count >=? 0 then ash_left count av else ash_right (- count) av).

Definition ASH (a cnt : intobj) : outcome intobj :=
  match ckintval cnt with
  | None => Err
  | Some count =>
      match a with
      | Big ds => ash_big count ds
      | Imm _ =>
          let val := intval a in
          if count <=? 0 then
            if shift_ok (- count) then Ok (makeint (Z.shiftr val (- count))) else UB
          else if val <=? 0 then
            if shift_ok count then Ok (makeint (wrap64 (Z.shiftl val count))) else UB
          else if ffsl val + count <? 62 then Ok (makeint (wrap64 (Z.shiftl val count)))
          else ash_big count [val]
      end
  end.
