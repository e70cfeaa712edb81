(** Model of the float-vector and matrix functions with a result argument (lisp/c/matrix.c): the loops of C on a memory of
    float vectors, so that the result may be one of the operands.

    The numbers are an arbitrary type with arbitrary operations: nothing is assumed of them here, so what is proved holds
    of IEEE arithmetic with its rounding (each C operation on doubles is one operation of the model, in the same order).
    A vector is an address; a matrix is the address of its entity with its dimensions.  An access outside a vector is
    [Stray], error() is [Error].  When the result argument is left out the code makes a new vector: this is the case in
    which the address of the result is no operand's.
    Simplifications: int does not overflow; the elements are floats (the branches for integer vectors and strings have
    the same loops); type checks are left out, size checks are not. *)
From Coq Require Import List Arith Bool.
Import ListNotations.

Section Mat.
Variables (F : Type) (zero one : F) (add sub mul div : F -> F -> F) (neg sqrt : F -> F).

Record state := St { ar : nat -> list F; buf : list F }.
Inductive res (A : Type) := Done (a : A) (s : state) | Error | Stray.
Arguments Done {A}. Arguments Error {A}. Arguments Stray {A}.
Definition M (A : Type) := state -> res A.
Definition ret {A} (a : A) : M A := fun s => Done a s.
Definition bind {A B} (m : M A) (k : A -> M B) : M B := fun s =>
  match m s with Done a s' => k a s' | Error => Error | Stray => Stray end.
Definition fail {A} : M A := fun _ => Error.
Local Notation "'let!' x := m 'in' k" := (bind m (fun x => k)) (at level 200, x pattern, m at level 100, k at level 200).
Local Notation "m ;; k" := (bind m (fun _ => k)) (at level 100, k at level 200, right associativity).

(** v->c.fvec.fv[i] read and written; the local array fv of MATTIMES and TRANSFORM *)
Fixpoint set_nth (l : list F) (i : nat) (x : F) : list F :=
  match l, i with [], _ => [] | _ :: r, O => x :: r | y :: r, S j => y :: set_nth r j x end.
Definition get (v i : nat) : M F := fun s => match nth_error (ar s v) i with Some x => Done x s | None => Stray end.
Definition put (v i : nat) (x : F) : M unit := fun s =>
  if i <? length (ar s v)
  then Done tt (St (fun w => if w =? v then set_nth (ar s v) i x else ar s w) (buf s)) else Stray.
Definition vecsize (v : nat) : M nat := fun s => Done (length (ar s v)) s.
Definition local (n : nat) : M unit := fun s => Done tt (St (ar s) (repeat zero n)).
Definition get_buf (i : nat) : M F := fun s => match nth_error (buf s) i with Some x => Done x s | None => Stray end.
Definition put_buf (i : nat) (x : F) : M unit := fun s =>
  if i <? length (buf s) then Done tt (St (ar s) (set_nth (buf s) i x)) else Stray.

(** for (i=from; n times; i++) body, and the same with an accumulator *)
Fixpoint for_ (n from : nat) (body : nat -> M unit) : M unit :=
  match n with O => ret tt | S k => body from ;; for_ k (S from) body end.
Fixpoint acc (n from : nat) (body : nat -> F -> M F) (x : F) : M F :=
  match n with O => ret x | S k => let! y := body from x in acc k (S from) body y end.

(** matrix.c 26 ckvsize *)
Definition ckvsize (a b : nat) : M nat :=
  let! s := vecsize a in let! t := vecsize b in if s =? t then ret s else fail.
Definition cksize (r s : nat) : M unit := let! t := vecsize r in if t =? s then ret tt else fail.

(** matrix.c 28-69 VPLUS and 92-154 VMINUS with two operands *)
Definition VPLUS (a b r : nat) : M nat :=
  let! s := ckvsize a b in cksize r s ;;
  for_ s 0 (fun i => let! x := get a i in let! y := get b i in put r i (add x y)) ;; ret r.
Definition VMINUS (a b r : nat) : M nat :=
  let! s := ckvsize a b in cksize r s ;;
  for_ s 0 (fun i => let! x := get a i in let! y := get b i in put r i (sub x y)) ;; ret r.
(** matrix.c 104-113 VMINUS with one operand: [r] is new *)
Definition VNEGATE (a r : nat) : M nat :=
  let! s := vecsize a in cksize r s ;; for_ s 0 (fun i => let! x := get a i in put r i (neg x)) ;; ret r.
(** matrix.c 440-474 SCALEVEC *)
Definition SCALEVEC (scale : F) (a r : nat) : M nat :=
  let! s := vecsize a in cksize r s ;; for_ s 0 (fun i => let! x := get a i in put r i (mul scale x)) ;; ret r.
(** matrix.c 476-512 MIDPOINT *)
Definition MIDPOINT (ratio : F) (a b r : nat) : M nat :=
  let ratio2 := sub one ratio in
  let! s := ckvsize a b in cksize r s ;;
  for_ s 0 (fun i => let! x := get a i in let! y := get b i in put r i (add (mul x ratio2) (mul y ratio))) ;; ret r.
(** matrix.c 290-311 VNORMALIZE *)
Definition VNORMALIZE (a r : nat) : M nat :=
  let! s := vecsize a in cksize r s ;;
  let! sum := acc s 0 (fun i sum => let! x := get a i in let! y := get a i in ret (add sum (mul x y))) zero in
  let sum := sqrt sum in
  for_ s 0 (fun i => let! x := get a i in put r i (div x sum)) ;; ret r.
(** matrix.c 369-391 VDIRECTION *)
Definition VDIRECTION (a b r : nat) : M nat :=
  let! s := ckvsize a b in cksize r s ;;
  let! norm := acc s 0 (fun i norm => let! y := get b i in let! x := get a i in put r i (sub y x) ;;
                        let! p := get r i in let! q := get r i in ret (add norm (mul p q))) zero in
  let norm := sqrt norm in
  for_ s 0 (fun i => let! x := get r i in put r i (div x norm)) ;; ret r.
(** matrix.c 393-417 VCROSSPRODUCT: each element of the result is stored before the next is computed *)
Definition cross (a b i j : nat) : M F :=
  let! x := get a i in let! y := get b j in let! z := get a j in let! w := get b i in ret (sub (mul x y) (mul z w)).
Definition VCROSSPRODUCT (a b r : nat) : M nat :=
  let! s := ckvsize a b in
  if s =? 3 then
    cksize r 3 ;;
    let! x := cross a b 1 2 in put r 0 x ;;
    let! y := cross a b 2 0 in put r 1 y ;;
    let! z := cross a b 0 1 in put r 2 z ;; ret r
  else fail.
(** matrix.c 70-90 VPLUSPLUS: the vector [a] and the others; [r] is new and holds a copy of [a] after the first loop.  The
    others are added from the last to the first. *)
Fixpoint addall (s r : nat) (ps : list nat) : M unit :=
  match ps with
  | [] => ret tt
  | p :: ps => cksize p s ;; for_ s 0 (fun i => let! x := get r i in let! y := get p i in put r i (add x y)) ;; addall s r ps
  end.
Definition VPLUSPLUS (a : nat) (ps : list nat) (r : nat) : M nat :=
  match ps with
  | [] => ret a
  | _ => let! s := vecsize a in for_ s 0 (fun i => let! x := get a i in put r i x) ;; addall s r (rev ps) ;; ret r
  end.

(** ** Matrices *)
Record matrix := Mx { ent : nat; rows : nat; cols : nat }.

(** matrix.c 757-807 MATTIMES.  ii = i*column1 and jj = j+k*column2 are written as products. *)
Definition MATTIMES (m1 m2 rm : matrix) : M matrix :=
  let row1 := rows m1 in let column1 := cols m1 in let row2 := rows m2 in let column2 := cols m2 in
  if negb (column1 =? row2) then fail else
  if negb ((row1 =? rows rm) && (column2 =? cols rm)) then fail else
  local (if (256 <? row1) || (256 <? column2) then (if column2 <? row1 then row1 else column2) else 256) ;;
  let fm1 := ent m1 in let fm2 := ent m2 in let fm := ent rm in
  (if negb (fm2 =? fm) then
     for_ row1 0 (fun i =>
       for_ column2 0 (fun j =>
         let! x := acc column1 0 (fun k x => let! p := get fm1 (i * column1 + k) in let! q := get fm2 (j + k * column2) in
                                             ret (add x (mul p q))) zero in
         put_buf j x) ;;
       for_ column2 0 (fun j => let! x := get_buf j in put fm (i * column2 + j) x))
   else
     for_ column2 0 (fun i =>
       for_ row1 0 (fun j =>
         let! x := acc column1 0 (fun k x => let! p := get fm1 (j * column1 + k) in let! q := get fm2 (i + k * column2) in
                                             ret (add x (mul p q))) zero in
         put_buf j x) ;;
       for_ row1 0 (fun j => let! x := get_buf j in put fm (i + j * column2) x))) ;;
  ret rm.

(** matrix.c 809-855 TRANSFORM, a matrix times a vector and a vector times a matrix *)
Definition copy_out (s2 r : nat) : M nat := for_ s2 0 (fun i => let! x := get_buf i in put r i x) ;; ret r.
Definition TRANSFORM_mv (m : matrix) (v r : nat) : M nat :=
  let s := cols m in let s2 := rows m in
  cksize v s ;; cksize r s2 ;; local (if 256 <? s2 then s2 else 256) ;;
  for_ s2 0 (fun i =>
    let! x := acc s 0 (fun j x => let! p := get (ent m) (i * s + j) in let! q := get v j in ret (add x (mul p q))) zero in
    put_buf i x) ;;
  copy_out s2 r.
Definition TRANSFORM_vm (v : nat) (m : matrix) (r : nat) : M nat :=
  let s2 := cols m in let s := rows m in
  cksize v s ;; cksize r s2 ;; local (if 256 <? s2 then s2 else 256) ;;
  for_ s2 0 (fun i =>
    let! x := acc s 0 (fun j x => let! p := get (ent m) (i + j * s2) in let! q := get v j in ret (add x (mul p q))) zero in
    put_buf i x) ;;
  copy_out s2 r.

(** matrix.c 1126-1154 TRANSPOSE; [same] is result==mat, the same matrix object *)
Definition TRANSPOSE (same : bool) (mat rm : matrix) : M matrix :=
  let column := cols mat in let row := rows mat in
  if negb ((rows rm =? column) && (cols rm =? row)) then fail else
  (if same then
     for_ row 0 (fun i => for_ (S i) 0 (fun j =>
       let! x := get (ent mat) (j * column + i) in
       let! y := get (ent mat) (column * i + j) in put (ent rm) (j * column + i) y ;;
       put (ent rm) (column * i + j) x))
   else
     for_ row 0 (fun i => for_ column 0 (fun j =>
       let! x := get (ent mat) (i * column + j) in put (ent rm) (j * row + i) x))) ;;
  ret rm.

(** matrix.c 864-895 ROTVEC: sizes are not checked.  The axis gives k1, k2, k3 (none for NIL) and the signs of the sine. *)
Inductive axis := AX | AY | AZ | ANil.
Definition rot_axis (a : axis) (sn : F) : nat * nat * option nat * F * F :=
  match a with
  | AX => (1, 2, Some 0, neg sn, sn)
  | AY => (0, 2, Some 1, sn, neg sn)
  | AZ => (0, 1, Some 2, neg sn, sn)
  | ANil => (0, 1, None, neg sn, sn)
  end.
Definition ROTVEC (vec : nat) (c sn : F) (a : axis) (r : nat) : M nat :=
  let '(k1, k2, k3, s1, s2) := rot_axis a sn in
  let! f1 := get vec k1 in let! f2 := get vec k2 in
  put r k1 (add (mul c f1) (mul s1 f2)) ;;
  put r k2 (add (mul s2 f1) (mul c f2)) ;;
  match k3 with Some k => let! x := get vec k in put r k x | None => ret tt end ;;
  ret r.

(** matrix.c 914-984 ROTMAT with a 3D axis, :x to :-z as (axis, negative).  [same] is mat!=result negated; the result's
    size and the number of rows are not checked. *)
Definition mat_axis (a : axis) (negative worldp : bool) (sn : F) : nat * nat * F * F :=
  let flip := (neg sn, sn) in let keep := (sn, neg sn) in
  let '(s1, s2) := match a with
                   | AY => if xorb worldp negative then keep else flip
                   | _ => if xorb worldp negative then flip else keep
                   end in
  match a with AX => (1, 2, s1, s2) | AY => (0, 2, s1, s2) | _ => (0, 1, s1, s2) end.
Definition ROTMAT (same : bool) (mat : matrix) (c sn : F) (a : axis) (negative worldp : bool) (rm : matrix) : M matrix :=
  let size := cols mat in let '(k1, k2, s1, s2) := mat_axis a negative worldp sn in
  (if same then ret tt else for_ (size * size) 0 (fun i => let! x := get (ent mat) i in put (ent rm) i x)) ;;
  for_ size 0 (fun i =>
    let p1 := if worldp then k1 * size + i else i * size + k1 in
    let p2 := if worldp then k2 * size + i else i * size + k2 in
    let! x := get (ent rm) p1 in let! y := get (ent rm) p2 in
    let f1 := add (mul x c) (mul y s1) in
    let! x := get (ent rm) p1 in let! y := get (ent rm) p2 in
    let f2 := add (mul x s2) (mul y c) in
    put (ent rm) p1 f1 ;; put (ent rm) p2 f2) ;;
  ret rm.

(** ** LU decomposition, matrix.c 1234-1346 *)
Variables (gt_abs : F -> F -> bool) (tiny : F -> bool).  (* fabs(x) > fabs(y); fabs(x) < EPS *)

(** The matrix as a function of row and column (a[i*s+j]) and the permutation as a function: decompose indexes all rows
    through p, and its indices stay inside. *)
Definition mat := nat -> nat -> F.
Definition setm (a : mat) (i j : nat) (x : F) : mat := fun i' j' => if (i' =? i) && (j' =? j) then x else a i' j'.
Definition setp (p : nat -> nat) (i x : nat) : nat -> nat := fun i' => if i' =? i then x else p i'.
(** 1245-1247: the row with the largest element in column [k], from [i] on *)
Fixpoint pivot (n i : nat) (a : mat) (p : nat -> nat) (k l : nat) (al : F) : nat * F :=
  match n with
  | O => (l, al)
  | S n' => if gt_abs (a (p i) k) al then pivot n' (S i) a p k i (a (p i) k) else pivot n' (S i) a p k l al
  end.
(** 1257: for (j=k+1; j<s; j++) a[p[i]*s+j] -= al*a[p[k]*s+j] *)
Fixpoint eliminate_row (n j : nat) (a : mat) (pi pk : nat) (al : F) : mat :=
  match n with
  | O => a
  | S n' => eliminate_row n' (S j) (setm a pi j (sub (a pi j) (mul al (a pk j)))) pi pk al
  end.
(** 1255-1258 *)
Fixpoint eliminate (n i : nat) (a : mat) (p : nat -> nat) (s k : nat) : mat :=
  match n with
  | O => a
  | S n' => let al := mul (a (p i) k) (a (p k) k) in
            let a1 := setm a (p i) k al in
            eliminate n' (S i) (eliminate_row (s - S k) (S k) a1 (p i) (p k) al) p s k
  end.
(** 1242-1259 for column [k] and those after it; None is the return of -1 *)
Fixpoint decompose_loop (n k : nat) (a : mat) (p : nat -> nat) (s : nat) : option (mat * (nat -> nat)) :=
  match n with
  | O => Some (a, p)
  | S n' => let '(l, al) := pivot (s - S k) (S k) a p k k (a (p k) k) in
            let p := if l =? k then p else setp (setp p k (p l)) l (p k) in
            if tiny al then None else
            let a := setm a (p k) k (div one (a (p k) k)) in
            decompose_loop n' (S k) (eliminate (s - S k) (S k) a p s k) p s
  end.
Definition decompose (a : mat) (s : nat) : option (mat * (nat -> nat)) := decompose_loop s 0 a (fun i => i) s.

(** 1288-1306 solve, 1309-1327 LU_SOLVE: [b] and [x] are vectors of the memory, which may be the same *)
Definition forward (a : mat) (p : nat -> nat) (s b x : nat) : M unit :=
  for_ s 0 (fun i => let! t := get b (p i) in
                     let! t := acc i 0 (fun j t => let! y := get x j in ret (sub t (mul (a (p i) j) y))) t in
                     put x i t).
Fixpoint backward (n : nat) (a : mat) (p : nat -> nat) (s x : nat) : M unit :=
  match n with
  | O => ret tt
  | S i => (let! t := get x i in
            let! t := acc (s - S i) (S i) (fun j t => let! y := get x j in ret (sub t (mul (a (p i) j) y))) t in
            put x i (mul t (a (p i) i))) ;; backward i a p s x
  end.
Definition LU_SOLVE (a : mat) (p : nat -> nat) (s b x : nat) : M nat :=
  cksize b s ;; cksize x s ;; forward a p s b x ;; backward s a p s x ;; ret x.
(** 1330-1346 LU_DETERMINANT *)
Fixpoint detloop (n i : nat) (a : mat) (p : nat -> nat) (val : F) : F :=
  match n with O => val | S n' => detloop n' (S i) a p (mul val (a (p i) i)) end.
Definition LU_DETERMINANT (a : mat) (p : nat -> nat) (s : nat) : F := div one (detloop s 0 a p one).
End Mat.
Arguments Done F {A} a s.
Arguments Error F {A}.
Arguments Stray F {A}.
Arguments ret F {A}.
Arguments bind F {A B}.
Arguments fail F {A}.
