(** Rotation matrices (lisp/c/matrix.c 904-1124).  The sine and cosine of the angle are arguments. *)
From Coq Require Import List Arith Bool Reals.
From Verif Require Import MatModel.
Import ListNotations.

Section Rot.
Variables (F : Type) (zero one : F) (add sub mul div : F -> F -> F) (neg sqrt : F -> F) (small : F -> bool).
Local Notation "x + y" := (add x y). Local Notation "x - y" := (sub x y). Local Notation "x * y" := (mul x y). Local Notation "x / y" := (div x y).
Local Notation "'let!' x := m 'in' k" := (bind F m (fun x => k)) (at level 200, x pattern, m at level 100, k at level 200).
Local Notation "m ;; k" := (bind F m (fun _ => k)) (at level 100, k at level 200, right associativity).

(** a matrix by its elements, row by row: rm[0], rm[1], ... *)
Definition of_list (w : nat) (l : list F) : mat F := fun i j => nth (i * w + j)%nat l zero.

(** matrix.c 1014-1037 ROTATION_MATRIX with a vector for the axis; [small] is fabs(norm)<0.00001, None is NIL *)
Definition ROTATION_MATRIX (x y z cs sn : F) : option (mat F) :=
  let vers := one - cs in
  let norm := sqrt (x * x + y * y + z * z) in
  if small norm then None else
  let x := x / norm in let y := y / norm in let z := z / norm in
  let xv := x * x * vers in let yv := y * y * vers in let zv := z * z * vers in
  let xyv := x * y * vers in let yzv := y * z * vers in let zxv := z * x * vers in
  let xs := x * sn in let ys := y * sn in let zs := z * sn in
  Some (of_list 3 [xv + cs; xyv - zs; zxv + ys;
                   xyv + zs; yv + cs; yzv - xs;
                   zxv - ys; yzv + xs; zv + cs]).
(** matrix.c 1042-1055 ROTATION_MATRIX with a keyword for the axis *)
Definition ROTATION_AXIS (a : axis) (negative : bool) (cs sn : F) : mat F :=
  let sn := if negative then neg sn else sn in
  match a with
  | AX => of_list 3 [one; zero; zero; zero; cs; neg sn; zero; sn; cs]
  | AY => of_list 3 [cs; zero; sn; zero; one; zero; neg sn; zero; cs]
  | AZ => of_list 3 [cs; neg sn; zero; sn; cs; zero; zero; zero; one]
  | ANil => of_list 2 [cs; neg sn; sn; cs]
  end.
(** matrix.c 964-969 ROTMAT with the axis NIL *)
Definition ROTMAT_2D (mat : matrix) (c sn : F) (rm : matrix) : M F matrix :=
  let! m0 := get F (ent mat) 0 in let! m1 := get F (ent mat) 1 in let! m2 := get F (ent mat) 2 in let! m3 := get F (ent mat) 3 in
  put F (ent rm) 0 (c * m0 - sn * m2) ;; put F (ent rm) 1 (c * m1 - sn * m3) ;;
  put F (ent rm) 2 (sn * m0 + c * m2) ;; put F (ent rm) 3 (sn * m1 + c * m3) ;; ret F rm.
End Rot.

(** ** The angle and the axis of a rotation, matrix.c 1060-1122, over the real numbers *)
Local Open Scope R_scope.
(** A number, or none: not-a-number.  An infinite quotient counts as none, too. *)
Definition nbind {A B} (x : option A) (k : A -> option B) : option B := match x with Some a => k a | None => None end.
Local Notation "'let?' x := m 'in' k" := (nbind m (fun x => k)) (at level 200, x pattern, m at level 100, k at level 200).
Definition ndiv (x y : R) : option R := if Req_EM_T y 0 then None else Some (x / y).
Definition nsqrt (x : R) : option R := if Rlt_dec x 0 then None else Some (sqrt x).
Definition gtabs (x y : R) : bool := if Rgt_dec (Rabs x) (Rabs y) then true else false.
Definition negative (x : R) : bool := if Rlt_dec x 0 then true else false.
(** norm=sqrt(p/q); if (!isnan(norm)) { x/=norm; y/=norm; } *)
Definition renorm (p q x y : R) : option (R * R) :=
  match nbind (ndiv p q) nsqrt with
  | Some norm => let? x := ndiv x norm in let? y := ndiv y norm in Some (x, y)
  | None => Some (x, y)
  end.
Inductive angle := Nil | NaN | Turn (sn2 cs2 kx ky kz : R).
(** [none] is th<1e-10 or vers<1e-10, [below] is th<2.6, both of th=atan2(sn2,cs2); the angle is given by sn2 and cs2.  Lines 1089-1099. *)
Definition axis1 (below : bool) (m : nat -> nat -> R) (t1 t2 t3 sn2 cs vers : R) : option (R * R * R) :=
  if below then
    let? kx := ndiv t1 sn2 in let? ky := ndiv t2 sn2 in let? kz := ndiv t3 sn2 in Some (kx, ky, kz)
  else
    let? kx := nbind (ndiv (m 0%nat 0%nat - cs) vers) nsqrt in let kx := if negative t1 then - kx else kx in
    let? ky := nbind (ndiv (m 1%nat 1%nat - cs) vers) nsqrt in let ky := if negative t2 then - ky else ky in
    let? kz := nbind (ndiv (m 2%nat 2%nat - cs) vers) nsqrt in let kz := if negative t3 then - kz else kz in
    Some (kx, ky, kz).
(** 1103-1113 *)
Definition axis2 (m : nat -> nat -> R) (vers kx ky kz : R) : option (R * R * R) :=
  let xy := m 1%nat 0%nat + m 0%nat 1%nat in let xz := m 0%nat 2%nat + m 2%nat 0%nat in let yz := m 1%nat 2%nat + m 2%nat 1%nat in
  if gtabs kx ky && gtabs kx kz then
    let? ky := ndiv xy (2 * kx * vers) in let? kz := ndiv xz (2 * kx * vers) in
    let? (ky, kz) := renorm (ky * ky + kz * kz) (1 - kx * kx) ky kz in Some (kx, ky, kz)
  else if gtabs ky kx && gtabs ky kz then
    let? kx := ndiv xy (2 * ky * vers) in let? kz := ndiv yz (2 * ky * vers) in
    let? (kx, kz) := renorm (kx * kx + kz * kz) (1 - ky * ky) kx kz in Some (kx, ky, kz)
  else
    let? kx := ndiv xz (2 * kz * vers) in let? ky := ndiv yz (2 * kz * vers) in
    let? (kx, ky) := renorm (kx * kx + ky * ky) (1 - kz * kz) kx ky in Some (kx, ky, kz).
Definition ROTANGLE (none : R -> R -> bool) (below : R -> R -> bool) (m : nat -> nat -> R) : angle :=
  let t1 := m 2%nat 1%nat - m 1%nat 2%nat in let t2 := m 0%nat 2%nat - m 2%nat 0%nat in let t3 := m 1%nat 0%nat - m 0%nat 1%nat in
  let cs2 := m 0%nat 0%nat + m 1%nat 1%nat + m 2%nat 2%nat - 1 in
  let cs := cs2 / 2 in let vers := 1 - cs in
  let sn2 := sqrt (t1 * t1 + t2 * t2 + t3 * t3) in
  if none sn2 cs2 then Nil else
  match nbind (axis1 (below sn2 cs2) m t1 t2 t3 sn2 cs vers) (fun '(kx, ky, kz) =>
        nbind (axis2 m vers kx ky kz) (fun '(kx, ky, kz) =>
        let? norm := nsqrt (kx * kx + ky * ky + kz * kz) in
        let? kx := ndiv kx norm in let? ky := ndiv ky norm in let? kz := ndiv kz norm in Some (kx, ky, kz))) with
  | Some (kx, ky, kz) => Turn sn2 cs2 kx ky kz
  | None => NaN
  end.
