(** Viewport clipping: VIEWPORTCLIP and HOMO-VIEWPORT-CLIP of /repo/lisp/geo/intersection.c (lines 122-236).

    Simplifications: floats are real numbers; a quotient with a zero denominator is [None] ([ndiv]), which stands for the NaN or
    infinity the code goes on with. *)
From Coq Require Import Reals List Bool NArith.
From Verif Require Import GeoModel.
Import ListNotations.
Local Open Scope R_scope.

(** the macro clipcode: intersection.c lines 133-134 *)
Definition clipcode (p : vec) : N :=
  ((if ltb (vx p) (- vz p) then 1 else if ltb (vz p) (vx p) then 2 else 0) +
   (if ltb (vy p) (- vz p) then 4 else if ltb (vz p) (vy p) then 8 else 0))%N.

(** the point where the line meets the plane chosen by the code: intersection.c lines 155-170 *)
Definition clip_point (p1 p2 : vec) (c : N) : option vec :=
  let x1 := vx p1 in let y1 := vy p1 in let z1 := vz p1 in
  let x2 := vx p2 in let y2 := vy p2 in let z2 := vz p2 in
  if N.testbit c 0 then
    match ndiv (z1 + x1) ((x1 - x2) - (z2 - z1)) with
    | None => None
    | Some temp => let z := temp * (z2 - z1) + z1 in Some (V (- z) (temp * (y2 - y1) + y1) z)
    end
  else if N.testbit c 1 then
    match ndiv (z1 - x1) ((x2 - x1) - (z2 - z1)) with
    | None => None
    | Some temp => let z := temp * (z2 - z1) + z1 in Some (V z (temp * (y2 - y1) + y1) z)
    end
  else if N.testbit c 2 then
    match ndiv (z1 + y1) ((y1 - y2) - (z2 - z1)) with
    | None => None
    | Some temp => let z := temp * (z2 - z1) + z1 in Some (V (temp * (x2 - x1) + x1) (- z) z)
    end
  else
    match ndiv (z1 - y1) ((y2 - y1) - (z2 - z1)) with
    | None => None
    | Some temp => let z := temp * (z2 - z1) + z1 in Some (V (temp * (x2 - x1) + x1) z z)
    end.

(** what a call gives: NIL, a pair of points, numbers that are not numbers, or nothing within the fuel *)
Inductive clipped := Hidden | Shown (p q : vec) | Undefined | Running.

(** the while loop of VPCLIP: intersection.c lines 152-175 *)
Fixpoint vpclip_loop (fuel : nat) (p1 p2 : vec) (c1 c2 : N) : clipped :=
  match fuel with
  | O => Running
  | S fuel =>
      if (c1 =? 0)%N && (c2 =? 0)%N then Shown p1 p2
      else if negb (N.land c1 c2 =? 0)%N then Hidden
      else
        let c := if negb (c1 =? 0)%N then c1 else c2 in
        match clip_point p1 p2 c with
        | None => Undefined
        | Some p =>
            if (c =? c1)%N then vpclip_loop fuel p p2 (clipcode p) c2
            else vpclip_loop fuel p1 p c1 (clipcode p)
        end
  end.
(** VPCLIP: intersection.c lines 135-183 *)
Definition VPCLIP (fuel : nat) (v1 v2 : vec) : clipped := vpclip_loop fuel v1 v2 (clipcode v1) (clipcode v2).

(** vectors of four components; a vector of three has no last one *)
Record hvec := H4 { hx : R; hy : R; hz : R; hw : R }.

(** windowcoords: intersection.c lines 185-194: the six window coordinates and the code with one bit for each negative one *)
Definition wcoords (p : hvec) : list R := [hw p + hx p; hw p - hx p; hw p + hy p; hw p - hy p; hz p; hw p - hz p].
Fixpoint wcode_loop (code c : N) (wc : list R) : N :=
  match wc with
  | [] => code
  | w :: r => wcode_loop (if ltb w 0 then code + c else code)%N (2 * c)%N r
  end.
Definition wcode (p : hvec) : N := wcode_loop 0 1 (wcoords p).

(** the for loop: intersection.c lines 217-221 *)
Fixpoint tloop (wc : list (R * R)) (t1 t2 : R) : option (R * R) :=
  match wc with
  | [] => Some (t1, t2)
  | (w1, w2) :: r =>
      if ltb w1 0 || ltb w2 0 then
        match ndiv w1 (w1 - w2) with
        | None => None
        | Some tx =>
            if ltb w1 0 then tloop r (if ltb t1 tx then tx else t1) t2
            else tloop r t1 (if ltb tx t2 then tx else t2)
        end
      else tloop r t1 t2
  end.

(** HOMO_VPCLIP: intersection.c lines 196-236, where [p1] and [p2] have been read with the last component 1.0 for vectors of
    three.  [None] is a pair of numbers that are not numbers, [Some None] is NIL. *)
Definition HOMO_VPCLIP4 (p1 p2 : hvec) : option (option (hvec * hvec)) :=
  if negb (N.land (wcode p1) (wcode p2) =? 0)%N then Some None
  else
    match tloop (combine (wcoords p1) (wcoords p2)) 0 1 with
    | None => None
    | Some (t1, t2) =>
        Some (if negb (ltb t2 t1) then
                let dx := hx p2 - hx p1 in let dy := hy p2 - hy p1 in let dz := hz p2 - hz p1 in let dw := hw p2 - hw p1 in
                let q2 := if Req_EM_T t2 1 then p2 else H4 (hx p1 + t2 * dx) (hy p1 + t2 * dy) (hz p1 + t2 * dz) (hw p1 + t2 * dw) in
                let q1 := if Req_EM_T t1 0 then p1 else H4 (hx p1 + t1 * dx) (hy p1 + t1 * dy) (hz p1 + t1 * dz) (hw p1 + t1 * dw) in
                Some (q1, q2)
              else None)
    end.
(** the vectors as given: three components and perhaps a fourth: intersection.c lines 207-211 *)
Definition homo (v : vec) (w : option R) : hvec := H4 (vx v) (vy v) (vz v) (match w with Some w => w | None => 1 end).
Definition HOMO_VPCLIP (v1 : vec) (w1 : option R) (v2 : vec) (w2 : option R) : option (option (hvec * hvec)) :=
  HOMO_VPCLIP4 (homo v1 w1) (homo v2 w2).
