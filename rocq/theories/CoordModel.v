(** Coordinate frames and their cascades (lisp/l/coordinates.l, classes coordinates and cascaded-coords), in three dimensions. *)
From Coq Require Import List Arith Bool.
Import ListNotations.

Section Coord.
Variables (F : Type) (zero one : F) (add mul : F -> F -> F) (neg : F -> F).
Local Notation "x + y" := (add x y). Local Notation "x * y" := (mul x y).

(** ** Matrices and vectors as values.  The loops that compute them are in MatModel (C85). *)
Inductive vec := V (x y z : F).
Inductive mtx := M (a b c d e f g h i : F).
Record coords := C { rot : mtx; pos : vec }.
Definition mv (m : mtx) (v : vec) : vec :=
  match m, v with M a b c d e f g h i, V x y z => V (a * x + b * y + c * z) (d * x + e * y + f * z) (g * x + h * y + i * z) end.
Definition col1 (m : mtx) := match m with M a b c d e f g h i => V a d g end.
Definition col2 (m : mtx) := match m with M a b c d e f g h i => V b e h end.
Definition col3 (m : mtx) := match m with M a b c d e f g h i => V c f i end.
Definition of_cols (u v w : vec) : mtx := match u, v, w with V a d g, V b e h, V c f i => M a b c d e f g h i end.
Definition mm (m n : mtx) : mtx := of_cols (mv m (col1 n)) (mv m (col2 n)) (mv m (col3 n)).
Definition mt (m : mtx) : mtx := match m with M a b c d e f g h i => M a d g b e h c f i end.
Definition va (u v : vec) : vec := match u, v with V a b c, V x y z => V (a + x) (b + y) (c + z) end.
Definition vn (u : vec) : vec := match u with V a b c => V (neg a) (neg b) (neg c) end.
Definition m1 : mtx := M one zero zero zero one zero zero zero one.
Definition v0 : vec := V zero zero zero.
Definition unit_coords : coords := C m1 v0.

(** coordinates.l 562-575 transform-coords: position and rotation of the result *)
Definition tc (c1 c2 : coords) : coords := C (mm (rot c1) (rot c2)) (va (pos c1) (mv (rot c1) (pos c2))).
(** coordinates.l 113-119 :inverse-transformation *)
Definition inv (c : coords) : coords := let r := mt (rot c) in C r (vn (mv r (pos c))).
(** coordinates.l 107-112 :transform-vector, :inverse-transform-vector *)
Definition transform_vector (c : coords) (v : vec) : vec := va (mv (rot c) v) (pos c).
Definition inverse_transform_vector (c : coords) (v : vec) : vec := let r := mt (rot c) in va (mv r v) (vn (mv r (pos c))).

(** ** Objects.  A coordinates object is an address at which its rotation and position are found (one address for both; they are
    shared and overwritten together here).  A cascaded-coords has such an address [loc], another one [wc] for the slot worldcoords,
    and the slots parent, descendants and changed.  Address 0 is the constant world-coords.  Matrices given as arguments have
    addresses of their own, in [args]. *)
Record node := Nd { loc : nat; parent : option nat; desc : list nat; wc : nat; changed : bool }.
Record st := St { nodes : nat -> option node; mem : nat -> coords; next : nat; args : nat -> mtx }.
Definition upd {A} (f : nat -> A) (k : nat) (v : A) : nat -> A := fun x => if x =? k then v else f x.
Definition put (s : st) (a : nat) (v : coords) : st := St (nodes s) (upd (mem s) a v) (next s) (args s).
Definition new (s : st) (v : coords) : nat * st := (next s, St (nodes s) (upd (mem s) (next s) v) (S (next s)) (args s)).
Definition setn (s : st) (n : nat) (d : node) : st := St (upd (nodes s) n (Some d)) (mem s) (next s) (args s).
Definition set_loc d a := Nd a (parent d) (desc d) (wc d) (changed d).
Definition set_parent d p := Nd (loc d) p (desc d) (wc d) (changed d).
Definition set_desc d l := Nd (loc d) (parent d) l (wc d) (changed d).
Definition set_changed d b := Nd (loc d) (parent d) (desc d) (wc d) b.
Local Notation "'let?' x := m 'in' k" := (match m with Some x => k | None => None end) (at level 200, x pattern, m at level 100, k at level 200).

(** transform-coords into an object: multiplying an object with itself in place goes wrong (C85_mtimes_refuted), somehow *)
Variable bad : coords -> coords.
Definition tcp (s : st) (a b c : nat) : st :=
  put s c (if (a =? c) && (b =? c) then bad (mem s c) else tc (mem s a) (mem s b)).

(** 370-377 :worldcoords (:update does nothing).  The fuel bounds the depth of the recursion. *)
Fixpoint worldcoords (fuel : nat) (s : st) (n : nat) : option (st * nat) :=
  match fuel with O => None | S fuel =>
  let? d := nodes s n in
  if changed d then
    let? s := match parent d with
              | Some p => let? (s, a) := worldcoords fuel s p in Some (tcp s a (loc d) (wc d))
              | None => Some (put s (wc d) (mem s (loc d)))
              end in
    let? d := nodes s n in
    Some (setn s n (set_changed d false), wc d)
  else Some (s, wc d)
  end.
(** 364-367 :changed *)
Fixpoint mark (fuel : nat) (s : st) (n : nat) : option st :=
  match fuel with O => None | S fuel =>
  let? d := nodes s n in
  if changed d then Some s
  else fold_left (fun s c => let? s := s in mark fuel s c) (desc d) (Some (setn s n (set_changed d true)))
  end.
(** 360-363 :newcoords: the rotation and position of another object become those of this one *)
Definition newcoords (fuel : nat) (s : st) (n a : nat) : option st :=
  let? d := nodes s n in mark fuel (setn s n (set_loc d a)) n.
(** 344-350 :dissoc with :disobey (357-359) *)
Definition memb (x : nat) (l : list nat) : bool := existsb (Nat.eqb x) l.
Definition dissoc (fuel : nat) (s : st) (p c : nat) : option st :=
  let? d := nodes s p in
  if memb c (desc d) then
    let? (s, w) := worldcoords fuel s c in
    let (a, s) := new s (mem s w) in
    let? d := nodes s p in
    let s := setn s p (set_desc d (remove Nat.eq_dec c (desc d))) in
    let? e := nodes s c in
    let s := match parent e with Some q => if q =? p then setn s c (set_parent e None) else s | None => s end in
    newcoords fuel s c a
  else Some s.
(** 354-356 :obey *)
Definition obey (fuel : nat) (s : st) (c p : nat) : option st :=
  let? e := nodes s c in
  let? s := match parent e with Some q => dissoc fuel s q c | None => Some s end in
  let? e := nodes s c in
  Some (setn s c (set_parent e (Some p))).
(** 334-343 :assoc; the optional argument is a coordinates object *)
Definition assoc (fuel : nat) (s : st) (p c : nat) (at_ : option nat) : option st :=
  let? d := nodes s p in
  if memb c (desc d) then Some s else
  let? (a, s) := match at_ with
                 | Some a => Some (a, s)
                 | None => let? (s, wp) := worldcoords fuel s p in
                           let? (s, w) := worldcoords fuel s c in
                           Some (new s (tc (inv (mem s wp)) (mem s w)))
                 end in
  let? s := obey fuel s c p in
  let? s := newcoords fuel s c a in
  let? d := nodes s p in
  Some (setn s p (set_desc d (c :: desc d))).

(** 351-353 :clear-assoc.  The list is followed while :dissoc deletes from it, always the cell at the front, so that what is still to be
    visited is not disturbed. *)
Definition clear_assoc (fuel : nat) (s : st) (p : nat) : option st :=
  let? d := nodes s p in fold_left (fun s c => let? s := s in dissoc fuel s p c) (desc d) (Some s).
(** 545-557 :init of cascaded-coords without :parent; with :parent, :assoc follows *)
Definition create (s : st) (n : nat) (v : coords) : st :=
  St (upd (nodes s) n (Some (Nd (next s) None [] (S (next s)) true))) (upd (upd (mem s) (next s) v) (S (next s)) v) (S (S (next s))) (args s).

(** ** Changes of the local coordinates *)
(** the argument WRT: a keyword, another cascaded-coords, or a coordinates object *)
Inductive wrt := Local | Parent | World | Frame (w : nat) | Plain (a : nat).
Definition same_node (p : option nat) (w : nat) : bool := match p with Some p => p =? w | None => false end.
(** (eq wrt self) and (eq wrt parent) mean the keywords; in :transform, :move-to and :transformation also (equal wrt world-coords) *)
Definition near_wrt (n : nat) (d : node) (w : wrt) : wrt :=
  match w with Frame x => if x =? n then Local else if same_node (parent d) x then Parent else w | _ => w end.
Definition norm_wrt (n : nat) (d : node) (w : wrt) : wrt := match w with Plain 0 => World | _ => near_wrt n d w end.
(** 385-391 :parentcoords *)
Definition parentcoords (fuel : nat) (s : st) (n : nat) : option (st * nat) :=
  let? d := nodes s n in
  match parent d with Some p => worldcoords fuel s p | None => Some (s, 0) end.
(** the world coordinates of WRT: (send wrt :worldcoords) *)
Definition wrt_coords (fuel : nat) (s : st) (w : wrt) : option (st * nat) :=
  match w with Frame x => worldcoords fuel s x | Plain a => Some (s, a) | _ => None end.
(** :inverse-transformation of an object, a new one *)
Definition inverse (s : st) (a : nat) : nat * st := new s (inv (mem s a)).

(** 421-440 :transform.  The object C is a coordinates, not a cascaded-coords. *)
Definition transform (fuel : nat) (s : st) (n c : nat) (w : wrt) : option st :=
  let? d := nodes s n in let l := loc d in
  let? s := match norm_wrt n d w with
            | Local => Some (tcp s l c l)
            | Parent => Some (tcp s c l l)
            | World => let? (s, pc) := parentcoords fuel s n in
                       let s := tcp s pc l l in let s := tcp s c l l in
                       let (i, s) := inverse s pc in Some (tcp s i l l)
            | w => let? (s, pc) := parentcoords fuel s n in
                   let s := tcp s pc l l in
                   let? (s, x) := wrt_coords fuel s w in let (i, s) := inverse s x in
                   let s := tcp s i l l in let s := tcp s c l l in
                   let? (s, x) := wrt_coords fuel s w in let s := tcp s x l l in
                   let (i, s) := inverse s pc in Some (tcp s i l l)
            end in
  newcoords fuel s n l.
(** 441-457 :move-to *)
Definition move_to (fuel : nat) (s : st) (n c : nat) (w : wrt) : option st :=
  let? d := nodes s n in
  match norm_wrt n d w with
  | Local => let (a, s) := new s (tc (mem s (loc d)) (mem s c)) in newcoords fuel s n a
  | Parent => newcoords fuel s n c
  | World => let? (s, pc) := parentcoords fuel s n in let (i, s) := inverse s pc in
             let (a, s) := new s (tc (mem s i) (mem s c)) in newcoords fuel s n a
  | w => let? (s, x) := wrt_coords fuel s w in let (a, s) := new s (tc (mem s x) (mem s c)) in
         let? (s, pc) := parentcoords fuel s n in let (i, s) := inverse s pc in
         newcoords fuel (tcp s i a a) n a
  end.
(** 533-541 :parent-orientation, 525-532 :parent-vector; a vector is a value *)
Definition parent_orientation (fuel : nat) (s : st) (n : nat) (v : vec) (w : wrt) : option (st * vec) :=
  let? d := nodes s n in
  match near_wrt n d w with
  | Local => Some (s, mv (rot (mem s (loc d))) v)
  | Parent => Some (s, v)
  | w => let? (s, v) := match w with World => Some (s, v) | w => let? (s, x) := wrt_coords fuel s w in Some (s, mv (rot (mem s x)) v) end in
         match parent d with
         | Some p => let? (s, x) := worldcoords fuel s p in Some (s, mv (mt (rot (mem s x))) v)
         | None => Some (s, v)
         end
  end.
Definition parent_vector (fuel : nat) (s : st) (n : nat) (v : vec) (w : wrt) : option (st * vec) :=
  let? d := nodes s n in
  match near_wrt n d w with
  | Local => Some (s, transform_vector (mem s (loc d)) v)
  | Parent => Some (s, v)
  | w => let? (s, v) := match w with World => Some (s, v) | w => let? (s, x) := wrt_coords fuel s w in Some (s, transform_vector (mem s x) v) end in
         match parent d with
         | Some p => let? (s, x) := worldcoords fuel s p in Some (s, inverse_transform_vector (mem s x) v)
         | None => Some (s, v)
         end
  end.
(** 226-231 :translate, :locate; the position is overwritten *)
Definition translate (fuel : nat) (s : st) (n : nat) (v : vec) (w : wrt) : option st :=
  let? (s, v) := parent_orientation fuel s n v w in
  let? d := nodes s n in let l := loc d in
  newcoords fuel (put s l (C (rot (mem s l)) (va v (pos (mem s l))))) n l.
Definition locate (fuel : nat) (s : st) (n : nat) (v : vec) (w : wrt) : option st :=
  let? (s, v) := parent_vector fuel s n v w in
  let? d := nodes s n in let l := loc d in
  newcoords fuel (put s l (C (rot (mem s l)) v)) n l.
(** 458-476 :rotate-with-matrix; the matrix is an object, overwritten when WRT is :world.  477-493 :rotate does the same with the new
    matrix of an axis, or with rotate-matrix in place (C87_matrix_partial). *)
Definition set_rot (s : st) (l : nat) (r : mtx) : st := put s l (C r (pos (mem s l))).
Definition set_arg (s : st) (g : nat) (m : mtx) : st := St (nodes s) (mem s) (next s) (upd (args s) g m).
Definition rotate_with_matrix (fuel : nat) (s : st) (n g : nat) (w : wrt) : option st :=
  let? d := nodes s n in let l := loc d in
  match near_wrt n d w with
  | Local => newcoords fuel (set_rot s l (mm (rot (mem s l)) (args s g))) n l
  | Parent => newcoords fuel (set_rot s l (mm (args s g) (rot (mem s l)))) n l
  | w => let? (s, pc) := parentcoords fuel s n in
         match w with
         | World => let s := set_arg s g (mm (args s g) (rot (mem s pc))) in
                    let s := set_arg s g (mm (mt (rot (mem s pc))) (args s g)) in
                    newcoords fuel (set_rot s l (mm (args s g) (rot (mem s l)))) n l
         | w => let? (s, x) := wrt_coords fuel s w in
                let mat := mm (mm (rot (mem s x)) (args s g)) (mt (rot (mem s x))) in
                let mat := mm mat (rot (mem s pc)) in let mat := mm (mt (rot (mem s pc))) mat in
                newcoords fuel (set_rot s l (mm mat (rot (mem s l)))) n l
         end
  end.
(** 494-509 :orient-with-matrix; with WRT :parent the code makes the matrix object itself the rotation *)
Definition orient_with_matrix (fuel : nat) (s : st) (n : nat) (mat : mtx) (w : wrt) : option st :=
  let? d := nodes s n in let l := loc d in
  match near_wrt n d w with
  | Local => newcoords fuel (set_rot s l (mm (rot (mem s l)) mat)) n l
  | Parent => newcoords fuel (set_rot s l mat) n l
  | w => let? (s, pc) := parentcoords fuel s n in
         let? (s, mat) := match w with World => Some (s, mat) | w => let? (s, x) := wrt_coords fuel s w in Some (s, mm (rot (mem s x)) mat) end in
         newcoords fuel (set_rot s l (mm (mt (rot (mem s pc))) mat)) n l
  end.
(** 400-420 :transformation: a new object *)
Definition transformation (fuel : nat) (s : st) (n m : nat) (w : wrt) : option (st * nat) :=
  let? d := nodes s n in
  let? (s, w2) := worldcoords fuel s m in
  let? (s, w1) := worldcoords fuel s n in
  let (i, s) := inverse s w1 in
  match norm_wrt n d w with
  | Local => Some (tcp s i w2 i, i)
  | Parent => let (j, s) := inverse s (loc d) in
              let s := tcp s w2 j j in let s := tcp s i j j in Some (tcp s (loc d) j j, j)
  | World => Some (tcp s w2 i i, i)
  | w => let? (s, x) := wrt_coords fuel s w in
         let s := tcp s i x i in let s := tcp s w2 i i in
         let (k, s) := inverse s x in Some (tcp s k i i, i)
  end.
(** 65-70 :replace-coords, inherited from coordinates *)
Definition replace_coords (s : st) (n a : nat) : option st :=
  let? d := nodes s n in Some (put s (loc d) (mem s a)).
End Coord.
