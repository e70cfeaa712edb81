(** Packages and symbol tables: lisp/c/intern.c, lisp/c/makes.c (makesymbol, makepkg),
    lisp/c/specials.c (INTERN, EXPORT, FINDSYMBOL) and the package methods of lisp/l/packsym.l.

    Simplifications.  Symbols are created with an identity [sid] and a name; value, function and property
    cells are left out.  Packages are numbered; package 0 is the keyword package.  C ints holding counts
    and sizes are naturals, the memory manager never fails, and the buddy table is not cut at MAXBUDDY. *)
From Coq Require Export List Arith Lia Bool NArith.
Export ListNotations.

(** A name is a list of byte values. *)
Definition name := list N.
Fixpoint name_eqb (a b : name) : bool :=
  match a, b with
  | [], [] => true
  | x :: a', y :: b' => N.eqb x y && name_eqb a' b'
  | _, _ => false
  end.

Record symbol := mkSym { sid : nat; sname : name }.
Definition same_symbol (a b : symbol) : bool := Nat.eqb (sid a) (sid b).

(** a slot of a symbol vector holds the integer 0 (never used), the integer 1 (deleted) or a symbol *)
Inductive slot := Zero | One | Sym (s : symbol).
Definition table := list slot.

Definition is_symbol (s : slot) : bool := match s with Sym _ => true | _ => false end.
Definition is_zero (s : slot) : bool := match s with Zero => true | _ => false end.

Fixpoint put {A} (i : nat) (x : A) (l : list A) : list A :=
  match l, i with
  | [], _ => []
  | _ :: r, O => x :: r
  | y :: r, S j => y :: put j x r
  end.

(** outcome of an operation that may signal a Lisp error or never return *)
Inductive out (A : Type) := Ret (a : A) | Error | Hang.
Arguments Ret {A}. Arguments Error {A}. Arguments Hang {A}.
Definition bind {A B} (x : out A) (f : A -> out B) : out B :=
  match x with Ret a => f a | Error => Error | Hang => Hang end.
Notation "'do' x <- e ; f" := (bind e (fun x => f)) (at level 200, x pattern, right associativity).

(** intern.c 13-21 rehash and the same loop at 29-30: [hash = length; hash += (hash<<2) + byte], low 29 bits.
    Only the low 29 bits are kept throughout; wrapping of the C int does not touch them. *)
Definition rehash (n : name) : N :=
  fold_left (fun h c => (5 * h + c) mod 536870912)%N n (N.of_nat (length n) mod 536870912)%N.

Definition start (n : name) (size : nat) : nat := N.to_nat (rehash n mod N.of_nat size)%N.

(** intern.c 23-48 findsymbol.  [Hit]: the symbol and its index; [Miss]: the index left in *hashval.
    [None]: every slot was probed without meeting the integer 0, so the loop never ends.  (The early return
    for an empty vector cannot occur for vectors made by makepkg and extendsymvec.) *)
Inductive found := Hit (i : nat) (s : symbol) | Miss (i : nat).

Fixpoint find_loop (fuel : nat) (t : table) (n : name) (h : nat) (flag : option nat) : out found :=
  match fuel with
  | O => Hang
  | S f =>
      let next fl := find_loop f t n (if length t <=? S h then 0 else S h) fl in
      match nth h t Zero with
      | Sym s => if name_eqb (sname s) n then Ret (Hit h s) else next flag
      | Zero => Ret (Miss (match flag with Some i => i | None => h end))
      | One => next (match flag with Some i => Some i | None => Some h end)
      end
  end.

Definition findsymbol (t : table) (n : name) : out found := find_loop (length t) t n (start n (length t)) None.

(** "while (slot is [p]) next slot" *)
Fixpoint skip (p : slot -> bool) (fuel : nat) (t : table) (h : nat) : out nat :=
  match fuel with
  | O => Hang
  | S f => if p (nth h t Zero) then skip p f t (if length t <=? S h then 0 else S h) else Ret h
  end.

(** eus.c 492-496: cell sizes; memory.c 347-348: the index of the cell holding [w] words *)
Fixpoint buddy2 (i : nat) : nat * nat :=   (* (buddysize i, buddysize (i+1)) *)
  match i with O => (3, 3) | S j => let p := buddy2 j in (snd p, fst p + snd p) end.
Definition buddysize (i : nat) : nat := fst (buddy2 i).
Fixpoint cell_index (fuel req w : nat) : nat :=
  match fuel with
  | O => req
  | S f => if buddysize req <? w then cell_index f (S req) w else req
  end.

(** intern.c 50-75 extendsymvec: a vector of [n] elements takes n+2 words (header, size, elements) *)
Definition newsize (n : nat) : nat := buddysize (S (cell_index (n + 2) 1 (n + 2))) - 2.

Definition reinsert (ot : out table) (s : slot) : out table :=
  do t <- ot;
  match s with
  | Sym x => do h <- skip (fun s => negb (is_zero s)) (length t) t (start (sname x) (length t)); Ret (put h s t)
  | _ => Ret t
  end.

Definition extendsymvec (t : table) : out (table * nat) :=
  do t' <- fold_left reinsert t (@Ret table (repeat Zero (newsize (length t))));
  Ret (t', length (filter is_symbol t)).

(** packages: makes.c 201-240 *)
Record pkg := mkPkg { int : table; intcount : nat; ext : table; extcount : nat; use : list nat; used_by : list nat }.

Definition SYMBOLHASH := 60.
Definition makepkg (use used_by : list nat) : pkg :=
  mkPkg (repeat Zero SYMBOLHASH) 0 (repeat Zero SYMBOLHASH) 0 use used_by.

Record state := mkState { pkgs : list pkg; fresh : nat }.
Definition no_pkg := mkPkg [] 0 [] 0 [] [].
Definition pkg_at (st : state) (p : nat) : pkg := nth p (pkgs st) no_pkg.
Definition set_pkg (st : state) (p : nat) (x : pkg) : state := mkState (put p x (pkgs st)) (fresh st).

Definition keywordpkg := 0.

(** intern.c 87-95: conflicts in the packages using this one *)
Fixpoint conflict_check (st : state) (s : symbol) (us : list nat) : out unit :=
  match us with
  | [] => Ret tt
  | u :: r => do f <- findsymbol (int (pkg_at st u)) (sname s);
              match f with
              | Hit _ s' => if same_symbol s' s then conflict_check st s r else Error
              | Miss _ => conflict_check st s r
              end
  end.

(** intern.c 98-109: the insertion loop of export; [None]: already there *)
Fixpoint export_loop (fuel : nat) (t : table) (s : symbol) (h : nat) : out (option nat) :=
  match fuel with
  | O => Hang
  | S f => match nth h t Zero with
           | Sym s' => if same_symbol s' s then Ret None
                       else export_loop f t s (if length t <=? S h then 0 else S h)
           | _ => Ret (Some h)
           end
  end.

(** storing a symbol at [h], 101-106 and 130-144: count a slot never used before, grow beyond half full *)
Definition store (t : table) (c : nat) (h : nat) (s : symbol) : out (table * nat) :=
  let c' := if is_zero (nth h t Zero) then S c else c in
  let t' := put h (Sym s) t in
  if length t / 2 <? c' then extendsymvec t' else Ret (t', c').

(** intern.c 77-111 export *)
Definition export (st : state) (s : symbol) (p : nat) : out state :=
  let k := pkg_at st p in
  do _ <- conflict_check st s (used_by k);
  do o <- export_loop (length (ext k)) (ext k) s (start (sname s) (length (ext k)));
  match o with
  | None => Ret st
  | Some h => do r <- store (ext k) (extcount k) h s;
              Ret (set_pkg st p (mkPkg (int k) (intcount k) (fst r) (snd r) (use k) (used_by k)))
  end.

(** intern.c 121-125: external symbols of the used packages *)
Fixpoint find_inherited (st : state) (n : name) (us : list nat) : out (option symbol) :=
  match us with
  | [] => Ret None
  | u :: r => do f <- findsymbol (ext (pkg_at st u)) n;
              match f with
              | Hit _ s => Ret (Some s)
              | Miss _ => find_inherited st n r
              end
  end.

(** intern.c 113-149 intern.  The keyword package exports before the table is grown, export_all after; the
    two orders act on different fields and only the state after both is observable. *)
Definition intern (export_all : bool) (st : state) (n : name) (p : nat) : out (state * symbol) :=
  let k := pkg_at st p in
  do f <- findsymbol (int k) n;
  match f with
  | Hit _ s => Ret (st, s)
  | Miss h =>
      do i <- find_inherited st n (use k);
      match i with
      | Some s => Ret (st, s)
      | None =>
          let s := mkSym (fresh st) n in
          do h' <- skip is_symbol (length (int k)) (int k) h;
          do r <- store (int k) (intcount k) h' s;
          let st1 := set_pkg (mkState (pkgs st) (S (fresh st))) p
                       (mkPkg (fst r) (snd r) (ext k) (extcount k) (use k) (used_by k)) in
          do st2 <- (if (p =? keywordpkg) || export_all then export st1 s p else Ret st1);
          Ret (st2, s)
      end
  end.

(** specials.c 1110-1135 FINDSYMBOL: the package's own table only *)
Definition find_symbol (st : state) (n : name) (p : nat) : out (option symbol) :=
  do f <- findsymbol (int (pkg_at st p)) n;
  Ret (match f with Hit _ s => Some s | Miss _ => None end).

(** packsym.l 158-171 :find and 191-203 :find-external probe as findsymbol does and return the index.
    A full table is an error in the first (two rounds are made) and an endless loop in the second. *)
Definition lisp_find (t : table) (n : name) : out (option nat) :=
  match findsymbol t n with
  | Ret (Hit i _) => Ret (Some i)
  | Ret (Miss _) => Ret None
  | Hang => Error
  | Error => Error
  end.
Definition lisp_find_external (t : table) (n : name) : out (option nat) :=
  do f <- findsymbol t n; Ret (match f with Hit i _ => Some i | Miss _ => None end).

(** packsym.l 146-157 :enter *)
Definition enter (st : state) (s : symbol) (p : nat) : out state :=
  let k := pkg_at st p in
  if length (int k) <=? intcount k then Error else
  do h <- skip is_symbol (length (int k)) (int k) (start (sname s) (length (int k)));
  let c := if is_zero (nth h (int k) Zero) then S (intcount k) else intcount k in
  Ret (set_pkg st p (mkPkg (put h (Sym s) (int k)) c (ext k) (extcount k) (use k) (used_by k))).

(** packsym.l 175-179 :import *)
Definition import (st : state) (s : symbol) (p : nat) : out state :=
  do o <- lisp_find (int (pkg_at st p)) (sname s);
  match o with
  | Some i => match nth i (int (pkg_at st p)) Zero with
              | Sym s' => if same_symbol s' s then enter st s p else Error
              | _ => Error
              end
  | None => enter st s p
  end.

(** packsym.l 180-190 :unintern *)
Definition unintern (st : state) (s : symbol) (p : nat) : out state :=
  let k := pkg_at st p in
  do a <- lisp_find (int k) (sname s);
  let int' := match a with Some i => put i One (int k) | None => int k end in
  do b <- lisp_find_external (ext k) (sname s);
  let ext' := match b with Some i => put i One (ext k) | None => ext k end in
  Ret (set_pkg st p (mkPkg int' (intcount k) ext' (extcount k) (use k) (used_by k))).

(** packsym.l 216-218 :unexport *)
Definition unexport (st : state) (s : symbol) (p : nat) : out state :=
  let k := pkg_at st p in
  do b <- lisp_find_external (ext k) (sname s);
  let ext' := match b with Some i => put i Zero (ext k) | None => ext k end in
  Ret (set_pkg st p (mkPkg (int k) (intcount k) ext' (extcount k) (use k) (used_by k))).

Inductive op := Intern (n : name) (p : nat) | Export (s : symbol) (p : nat) | Unintern (s : symbol) (p : nat)
              | Unexport (s : symbol) (p : nat) | Import (s : symbol) (p : nat).

Definition step (ea : bool) (st : state) (o : op) : out (state * option symbol) :=
  match o with
  | Intern n p => do r <- intern ea st n p; Ret (fst r, Some (snd r))
  | Export s p => do st' <- export st s p; Ret (st', None)
  | Unintern s p => do st' <- unintern st s p; Ret (st', None)
  | Unexport s p => do st' <- unexport st s p; Ret (st', None)
  | Import s p => do st' <- import st s p; Ret (st', None)
  end.

(** A history.  An operation that signals an error leaves the state as it was, except for a conflict found
    while an interned symbol is exported: the symbol is then in the table already, and the model stops. *)
Fixpoint run (ea : bool) (st : state) (os : list op) : out (state * list (option symbol)) :=
  match os with
  | [] => Ret (st, [])
  | o :: r => match step ea st o with
              | Hang => Hang
              | Error => match o with
                         | Intern _ _ => Error
                         | _ => do x <- run ea st r; Ret (fst x, None :: snd x)
                         end
              | Ret (st', y) => do x <- run ea st' r; Ret (fst x, y :: snd x)
              end
  end.
