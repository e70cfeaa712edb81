(** Specification for C88: where a frame of a cascade is in the world. *)
From Coq Require Import List Arith Bool.
From Verif Require Import CoordModel.
Import ListNotations.

(** the recursion ends and gives [a] *)
Definition runs {A} (op : nat -> option A) (a : A) : Prop := exists f0, forall f, f0 <= f -> op f = Some a.

Section Spec.
Context {F : Type} (zero one : F) (add mul : F -> F -> F) (neg : F -> F).
Notation st := (st F). Notation coords := (coords F). Notation tc := (tc F add mul).
Definition live (s : st) (n : nat) : Prop := nodes F s n <> None.
(** the mother of a frame, and its coordinates relative to her *)
Definition par (s : st) (n : nat) : option nat := match nodes F s n with Some d => parent d | None => None end.
Definition addr (s : st) (n : nat) : nat := match nodes F s n with Some d => loc d | None => 0 end.
Definition local (s : st) (n : nat) : coords := mem F s (addr s n).
(** the place of a frame in the world: its local coordinates after those of its mother, grandmother ... *)
Inductive pose (s : st) : nat -> coords -> Prop :=
| pose_root : forall n, live s n -> par s n = None -> pose s n (local s n)
| pose_child : forall n p P, live s n -> par s n = Some p -> pose s p P -> pose s n (tc P (local s n)).
(** [n] is [m] or above it *)
Inductive above (s : st) (n : nat) : nat -> Prop :=
| above_refl : above s n n
| above_step : forall m p, par s m = Some p -> above s n p -> above s n m.
(** rotation matrices *)
Definition orth (r : mtx F) : Prop := mm F add mul (mt F r) r = m1 F zero one /\ mm F add mul r (mt F r) = m1 F zero one.
Definition rigid (s : st) : Prop := forall n, live s n -> orth (rot F (local s n)).
(** only the local coordinates of [n] change, to [T] *)
Definition moved (s s' : st) (n : nat) (T : coords) : Prop :=
  (forall m, live s' m <-> live s m) /\ (forall m, par s' m = par s m) /\ local s' n = T /\ (forall m, m <> n -> live s m -> local s' m = local s m).
(** no place changes *)
Definition at_rest (s s' : st) : Prop := (forall m, live s' m <-> live s m) /\ forall m T, pose s m T <-> pose s' m T.
(** the place of the mother; a frame without one is placed in the world *)
Definition mother (s : st) (n : nat) (P : coords) : Prop :=
  match par s n with Some p => pose s p P | None => P = unit_coords F zero one end.
(** the frame of reference meant by WRT *)
Definition reference (s : st) (n : nat) (w : wrt) (Y : coords) : Prop :=
  match w with
  | Local => pose s n Y | Parent => mother s n Y | World => Y = unit_coords F zero one
  | Frame x => pose s x Y | Plain a => Y = mem F s a
  end.
(** the change [c], made as it is seen from the frame [Y] *)
Definition seen_from (Y c W : coords) : coords := tc (tc Y (tc c (inv F add mul neg Y))) W.
(** the slot changed, and the address of the slot worldcoords *)
Definition dirty (s : st) (n : nat) : bool := match nodes F s n with Some d => changed d | None => false end.
Definition cache (s : st) (n : nat) : nat := match nodes F s n with Some d => wc d | None => 0 end.
(** a coordinates object that the operation on [n] can use: not the rotation and position of [n] itself, and not the slot worldcoords of a
    frame where that is out of date *)
Definition kept (s : st) (n a : nat) : Prop :=
  a < next F s /\ a <> addr s n /\ forall m, live s m -> dirty s m = true -> cache s m <> a.
(** an object that belongs to no frame *)
Definition free (s : st) (a : nat) : Prop := 0 < a < next F s /\ forall m, live s m -> addr s m <> a /\ cache s m <> a.
(** what can be given as WRT *)
Definition usable (s : st) (n : nat) (w : wrt) : Prop :=
  match w with Frame x => live s x | Plain a => kept s n a /\ orth (rot F (mem F s a)) | _ => True end.
(** for :transform a frame must not hang, out of date, below the one that moves *)
Definition apart (s : st) (n : nat) (w : wrt) : Prop :=
  match w with Frame x => x = n \/ dirty s x = false \/ ~ above s n x | _ => True end.
(** with these :move-to makes the object itself the rotation and position of [n] *)
Definition shares (s : st) (n : nat) (w : wrt) : Prop := match w with Parent => True | Frame x => par s n = Some x | _ => False end.
(** the frame [n], and with it what hangs on it, has been moved to [W], and nothing else *)
Definition arrived (s s' : st) (n : nat) (W : coords) : Prop := moved s s' n (local s' n) /\ pose s' n W.

(** ** What a program can do with frames *)
Variable bad : coords -> coords.
Notation assoc := (CoordModel.assoc F add mul neg bad).
Inductive step (s : st) : st -> Prop :=
| step_new v : step s (snd (new F s v))
| step_put a v : free s a -> step s (put F s a v)
| step_arg g m : step s (set_arg F s g m)
| step_create n v : ~ live s n -> orth (rot F v) -> step s (create F s n v)
| step_world n s' a : live s n -> runs (fun f => worldcoords F add mul bad f s n) (s', a) -> step s s'
| step_dissoc p c s' : live s p -> live s c -> runs (fun f => dissoc F add mul bad f s p c) s' -> step s s'
| step_clear p s' : live s p -> runs (fun f => clear_assoc F add mul bad f s p) s' -> step s s'
| step_assoc p c s' : live s p -> live s c -> ~ above s c p -> runs (fun f => assoc f s p c None) s' -> step s s'
| step_assoc_at p c a s' : live s p -> live s c -> ~ above s c p -> par s c <> Some p -> free s a -> orth (rot F (mem F s a)) ->
    runs (fun f => assoc f s p c (Some a)) s' -> step s s'
| step_transform n c w s' : live s n -> kept s n c -> orth (rot F (mem F s c)) -> usable s n w -> apart s n w ->
    runs (fun f => transform F add mul neg bad f s n c w) s' -> step s s'
| step_move_to n c w s' : live s n -> kept s n c -> (shares s n w -> free s c) -> orth (rot F (mem F s c)) -> usable s n w ->
    runs (fun f => move_to F add mul neg bad f s n c w) s' -> step s s'
| step_translate n v w s' : live s n -> usable s n w -> runs (fun f => translate F add mul bad f s n v w) s' -> step s s'
| step_locate n v w s' : live s n -> usable s n w -> runs (fun f => locate F add mul neg bad f s n v w) s' -> step s s'
| step_rotate n g w s' : live s n -> orth (args F s g) -> usable s n w -> runs (fun f => rotate_with_matrix F add mul bad f s n g w) s' -> step s s'
| step_orient n m w s' : live s n -> orth m -> usable s n w -> runs (fun f => orient_with_matrix F add mul bad f s n m w) s' -> step s s'
| step_transformation n m w s' a : live s n -> live s m -> usable s n w -> runs (fun f => transformation F add mul neg bad f s n m w) (s', a) -> step s s'.
Inductive history : st -> Prop :=
| h_start g : history (St F (fun _ => None) (fun _ => unit_coords F zero one) 1 g)
| h_step s s' : history s -> step s s' -> history s'.
End Spec.
