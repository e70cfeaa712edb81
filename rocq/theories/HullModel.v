(** quickhull: /repo/lisp/geo/primt.l lines 46-101, and triangle: /repo/lisp/geo/geopack.l lines 85-95 (with SCA3PROD, v.* of /repo/lisp/c/matrix.c).

    Simplifications: coordinates are integers, that is, exact multiples of some unit, without rounding; delete compares points by their coordinates, not by identity (no list it is used on has two points at one place);
    the recursion has fuel, [None] when it runs out, and [None] where the code signals an error. *)
From Coq Require Import ZArith List Bool.
Import ListNotations.
Open Scope Z_scope.

Record point := Pt { px : Z; py : Z; pz : Z }.
Definition minus (a b : point) : point := Pt (px a - px b) (py a - py b) (pz a - pz b).
(** v.*, SCA3PROD: matrix.c 419-438 *)
Definition sca3 (a b c : point) : Z :=
  px a * py b * pz c + pz a * px b * py c + py a * pz b * px c - pz a * py b * px c - px a * pz b * py c - py a * px b * pz c.
(** geopack.l 85-95 *)
Definition triangle (a b c normal : point) : Z := sca3 (minus b a) (minus c b) normal.
(** primt.l 46-52; the key of nil, when there are no vertices, is an error *)
Fixpoint extream_loop (key : point -> Z) (test : Z -> Z -> bool) (vertices : list point) (ext : point) (p : Z) : point :=
  match vertices with
  | [] => ext
  | v :: vs => if test (key v) p then extream_loop key test vs v (key v) else extream_loop key test vs ext p
  end.
Definition find_extream (vertices : list point) (key : point -> Z) (test : Z -> Z -> bool) : option point :=
  match vertices with [] => None | ext :: vs => Some (extream_loop key test vs ext (key ext)) end.
(** 54-60 *)
Definition leftmost_point (vertices : list point) (p1 p2 normal : point) : option point := find_extream vertices (fun x => triangle x p1 p2 normal) Z.gtb.
Definition rightmost_point (vertices : list point) (p1 p2 normal : point) : option point := find_extream vertices (fun x => triangle x p1 p2 normal) Z.ltb.
(** 62-68 *)
Definition left_points (points : list point) (p1 p2 normal : point) : list point := filter (fun p => triangle p1 p p2 normal <? 0) points.
Definition right_points (points : list point) (p1 p2 normal : point) : list point := filter (fun p => triangle p1 p p2 normal >? 0) points.
(** (delete h l :count 1) *)
Definition same (a b : point) : bool := (px a =? px b) && (py a =? py b) && (pz a =? pz b).
Fixpoint delete1 (h : point) (l : list point) : list point := match l with [] => [] | x :: r => if same h x then r else x :: delete1 h r end.
(** 70-78 *)
Fixpoint quickhull_left (fuel : nat) (s : list point) (l r normal : point) : option (list point) :=
  match s with
  | [] => Some [l; r]
  | _ =>
      match fuel with
      | O => None
      | S n =>
          match leftmost_point s l r normal with
          | None => None
          | Some h =>
              let s1 := left_points s l h normal in let s2 := left_points s h r normal in
              match quickhull_left n s1 l h normal, quickhull_left n s2 h r normal with Some a, Some b => Some (a ++ delete1 h b) | _, _ => None end
          end
      end
  end.
(** 80-88 *)
Fixpoint quickhull_right (fuel : nat) (s : list point) (l r normal : point) : option (list point) :=
  match s with
  | [] => Some [l; r]
  | _ =>
      match fuel with
      | O => None
      | S n =>
          match rightmost_point s l r normal with
          | None => None
          | Some h =>
              let s1 := right_points s l h normal in let s2 := right_points s h r normal in
              match quickhull_right n s2 h r normal, quickhull_right n s1 l h normal with Some b, Some a => Some (delete1 h b ++ a) | _, _ => None end
          end
      end
  end.
(** 90-101 *)
Definition extream_coord (normal : point) : point -> Z := if Z.abs (px normal) >? Z.abs (py normal) then py else px.
Definition quickhull (s : list point) (normal : point) : option (list point) :=
  match find_extream s (extream_coord normal) Z.leb, find_extream s (extream_coord normal) Z.geb with
  | Some s0, Some s1 =>
      match quickhull_left (length s) (left_points s s0 s1 normal) s0 s1 normal, quickhull_right (length s) (right_points s s0 s1 normal) s0 s1 normal with
      | Some lefthull, Some righthull => Some (rev (lefthull ++ delete1 s1 (delete1 s0 righthull)))
      | _, _ => None
      end
  | _, _ => None
  end.
