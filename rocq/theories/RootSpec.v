(** Specification vocabulary for C84: reachability, heaps that agree on what is reachable, lists and trees in a heap,
    collectors that keep what the roots reach and functions that compute a given function of the contents of their
    arguments.  Only the types of RootModel are used. *)
From Coq Require Import List Arith Bool.
From Verif Require SeqModel.
From Verif Require Import RootModel.
Import ListNotations.

Definition fields (c : cell) : list val := match c with Cons x d => [x; d] | Vec l => l end.
Inductive reach (h : heap) (vs : list val) : nat -> Prop :=
| reach_root a : In (Ptr a) vs -> reach h vs a
| reach_field a c b : reach h vs a -> h a = Some c -> In (Ptr b) (fields c) -> reach h vs b.

(** everything reachable from [vs] is allocated; [h'] has what [h] has at everything reachable from [vs] *)
Definition live (h : heap) (vs : list val) : Prop := forall a, reach h vs a -> h a <> None.
Definition same (h h' : heap) (vs : list val) : Prop := forall a, reach h vs a -> h' a = h a.

(** following cdrs from [v] one meets the elements [l] and then [t] *)
Inductive chain (h : heap) : val -> list val -> val -> Prop :=
| chain_end t : chain h t [] t
| chain_cons a x d l t : h a = Some (Cons x d) -> chain h d l t -> chain h (Ptr a) (x :: l) t.
Definition ends (h : heap) (t : val) : Prop := match t with Ptr a => exists l, h a = Some (Vec l) | _ => True end.

(** the content of a value: a finite tree of conses and atoms *)
Inductive tree := TNil | TAtom (n : nat) | TCell (a d : tree).
Inductive rep (h : heap) : val -> tree -> Prop :=
| rep_nil : rep h Nil TNil
| rep_atom n : rep h (Atom n) (TAtom n)
| rep_cell a x d tx td : h a = Some (Cons x d) -> rep h x tx -> rep h d td -> rep h (Ptr a) (TCell tx td).
Fixpoint tree_eqb (x y : tree) : bool :=
  match x, y with
  | TNil, TNil => true
  | TAtom n, TAtom m => Nat.eqb n m
  | TCell a d, TCell b e => tree_eqb a b && tree_eqb d e
  | _, _ => false
  end.
Fixpoint tsubst (x y z : tree) : tree :=
  if tree_eqb y z then x else match z with TCell a d => TCell (tsubst x y a) (tsubst x y d) | _ => z end.
Fixpoint depth (t : tree) : nat := match t with TCell a d => S (Nat.max (depth a) (depth d)) | _ => 0 end.
Definition tnil (t : tree) : bool := match t with TNil => true | _ => false end.

(** a collector keeps what the roots reach, and hands out addresses that are free *)
Definition keeps (env : env_t) : Prop := forall t vs h h' a,
  env t vs h = Some (h', a) -> live h vs -> same h h' vs /\ h' a = None.
(** a function called back leaves what the roots reach as it is, and the content of its value is [g] of the contents of
    its arguments *)
Definition computes (f : fun_t) (g : list tree -> tree) : Prop := forall t vs h args ts h' v l,
  f t vs h args = Some (h', v, l) -> live h vs -> incl args vs -> Forall2 (rep h) args ts ->
  same h h' vs /\ rep h' v (g ts) /\ live h' [l].
Definition oom (env : env_t) : Prop := exists t vs h, env t vs h = None.
Definition throws (f : fun_t) : Prop := exists t vs h a, f t vs h a = None.
Definition throws_opt (f : option fun_t) : Prop := match f with Some f => throws f | None => False end.

(** The state in which a primitive is called: everything the roots reach is allocated. *)
Definition sound (glob : list val) (s : state) : Prop := live (hp s) (stk s ++ arg s ++ glob ++ [last s]).

(** A primitive behaves if it never touches a cell that is not allocated and ends, having either failed for the reason
    [F], or returned with the stack as it was, with nothing changed that its caller can reach, and with a value that
    satisfies [Q] and everything below it allocated. *)
Definition behaves (glob : list val) (F : Prop) (Q : heap -> val -> Prop) (s : state) (r : res val) : Prop :=
  match r with
  | Done v s' => stk s' = stk s /\ same (hp s) (hp s') (stk s ++ glob) /\
                 live (hp s') (v :: stk s' ++ glob ++ [last s']) /\ Q (hp s') v
  | Fail => F
  | Dead | Loop => False
  end.
(** [v] is a proper list with the elements [l] *)
Definition lst (h : heap) (v : val) (l : list val) : Prop := chain h v l Nil.
(** the content of a proper list *)
Definition tlist (ts : list tree) : tree := fold_right TCell TNil ts.
(** MAPCAR: one application for each element of the first list *)
Definition tmap (g : list tree -> tree) (tss : list (list tree)) : list tree :=
  map (fun i => g (map (fun ts => nth i ts TNil) tss)) (seq 0 (length (hd [] tss))).
(** read1 as seen by the list reader: what it returns at time [t] has content [W t] *)
Definition reads (rd : fun_t) (W : nat -> tree) : Prop := forall t vs h h' v l,
  rd t vs h [] = Some (h', v, l) -> live h vs -> same h h' vs /\ rep h' v (W t) /\ live h' [l].
(** a key that returns a part of its argument and builds nothing *)
Definition accessor (f : fun_t) : Prop := forall t vs h args h' v l a,
  f t vs h args = Some (h', v, l) -> v = Ptr a -> reach h' args a.
(** :key, absent or a function of the content *)
Definition key_is (key : option fun_t) (kf : tree -> tree) : Prop :=
  match key with Some k => computes k (fun ts => kf (hd TNil ts)) | None => forall t, kf t = t end.
Definition key_accessor (key : option fun_t) : Prop := match key with Some k => accessor k | None => True end.
(** The argument block of the sequence functions (SeqModel) for elements paired with their contents: :test [g] and
    :key [kf].  The value of the element is kept beside its content, so that it is the same object that comes out. *)
Definition block (item : val * tree) (g : list tree -> tree) (kf : tree -> tree) : SeqModel.tests (val * tree) :=
  SeqModel.mkTests (V := val * tree) item (fun _ _ => false)
    (Some (fun x y => negb (tnil (g [snd x; snd y])))) None (fun e => (fst e, kf (snd e))) None None.
(** elements and their contents in a heap *)
Definition contents (h : heap) (els : list (val * tree)) : Prop := Forall (fun e => rep h (fst e) (snd e)) els.
(** the addresses of the conses of a proper list *)
Inductive cells (h : heap) : val -> list nat -> Prop :=
| cells_end : cells h Nil []
| cells_cons a x d l : h a = Some (Cons x d) -> cells h d l -> cells h (Ptr a) (a :: l).
(** the order SORT is given, on elements with their contents *)
Definition less (g : list tree -> tree) (kf : tree -> tree) (x y : val * tree) : bool :=
  negb (tnil (g [kf (snd x); kf (snd y)])).
(** a sort behaves if it never touches a cell that is not allocated and ends, having failed for the reason [F] or
    returned its argument, a list with the elements [l] in the cells [ad] it had before, and changed nothing else that
    its caller can reach *)
Definition sorts (glob : list val) (F : Prop) (v : val) (ad : list nat) (l : list val) (s : state) (r : res val) : Prop :=
  match r with
  | Done v' s' => v' = v /\ stk s' = stk s /\ lst (hp s') v l /\ cells (hp s') v ad /\
                  (forall a, reach (hp s) (stk s ++ glob) a -> ~ In a ad -> hp s' a = hp s a) /\
                  live (hp s') (v :: stk s' ++ glob ++ [last s'])
  | Fail => F
  | Dead | Loop => False
  end.
