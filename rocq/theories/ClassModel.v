(** Property lists (lisp/c/specials.c GETPROP, putprop; lisp/l/object.l propertied-object), the class table
    (lisp/c/makes.c enterclass and helpers; lisp/c/leo.c SUBCLASSP, DERIVEDP) and method lookup with its cache
    (lisp/c/leo.c addmethod, findmethod). *)
From Coq Require Export List Arith Lia Bool NArith.
Export ListNotations.

Definition upd {A} (f : nat -> A) (i : nat) (x : A) : nat -> A := fun j => if Nat.eqb j i then x else f j.

(** * Property lists

    Indicators and values are words compared with [==].  The plist is the list of the addresses of its
    (indicator . value) cells, the cells sit in a heap.  [fresh] is the next unused address (the allocator).
    Left out: the class checks on symbol and indicator, and the other slots of the symbol. *)
Record props := mkProps { pl : list nat; cells : nat -> N * N; fresh : nat }.
Definition no_props := mkProps [] (fun _ => (0%N, 0%N)) 0.

(** the loop shared by GETPROP (specials.c 1201-1204), putprop (1240-1242) and assq (lists.c 317-325) *)
Fixpoint assq (tag : N) (h : nat -> N * N) (l : list nat) : option nat :=
  match l with
  | [] => None
  | a :: r => if N.eqb (fst (h a)) tag then Some a else assq tag h r
  end.

(** specials.c 1188-1205 GETPROP; [default] is argv[2], or NIL with two arguments *)
Definition getprop (p : props) (tag default : N) : N :=
  match assq tag (cells p) (pl p) with Some a => snd (cells p a) | None => default end.

(** specials.c 1235-1246 putprop; object.l 41-45 :put does the same through assq *)
Definition putprop (p : props) (tag val : N) : props :=
  match assq tag (cells p) (pl p) with
  | Some a => mkProps (pl p) (upd (cells p) a (tag, val)) (fresh p)
  | None => mkProps (fresh p :: pl p) (upd (cells p) (fresh p) (tag, val)) (S (fresh p))
  end.

(** sequence.c 723-771 DELETE on a list with the defaults of common.l 582 (start 0, end (length seq),
    count 1000000, test eq).  The list is followed by value: [pre] is what stays before the cursor. *)
Fixpoint delete_eq (x : nat) (count : nat) (l : list nat) : list nat :=
  match l with
  | [] => []
  | a :: r => match count with
              | O => a :: r
              | S c => if Nat.eqb a x then delete_eq x c r else a :: delete_eq x (S c) r
              end
  end.

(** object.l 48-52 :remprop, packsym.l 68 remprop *)
Definition remprop (p : props) (tag : N) : props :=
  match assq tag (cells p) (pl p) with
  | Some a => mkProps (delete_eq a (N.to_nat 1000000) (pl p)) (cells p) (fresh p)
  | None => p
  end.

Inductive pop := Put (tag val : N) | Rem (tag : N).
Definition pstep (p : props) (o : pop) := match o with Put t v => putprop p t v | Rem t => remprop p t end.
Definition prun (os : list pop) := fold_left pstep os no_props.

(** * The class table

    A class is named by its creation number (its identity).  [super c] is its super slot, [cix c] its cix slot.
    [tdef i] and [tsub i] are classtab[i].def and classtab[i].subcix; [ncls] is nextcix.  [objs] are the cix
    fields of the headers of all cells in the heap, in creation order (recixobj walks every cell of every chunk).
    Left out: the builtinclass pairs (resetcix copies cix and subcix), free cells, 16-bit width of the header
    field (MAXCLASS is 4096). *)
Definition MAXCLASS := 4096.     (* eus.h 146 *)

Record ctab := mkTab { super : nat -> option nat; cix : nat -> nat; tdef : nat -> nat; tsub : nat -> nat;
                       ncls : nat; objs : list nat }.
Definition no_classes := mkTab (fun _ => None) (fun _ => 0) (fun _ => 0) (fun _ => 0) 0 [].

Definition set_sub (t : ctab) (f : nat -> nat) := mkTab (super t) (cix t) (tdef t) f (ncls t) (objs t).

(** makes.c 302-308 bumpcix; [None] if the fuel does not suffice (the super chain is cyclic) *)
Fixpoint bumpcix (fuel : nat) (t : ctab) (m n : nat) : option ctab :=
  match fuel with
  | O => None
  | S f =>
      if tsub t m <? n then
        let t1 := set_sub t (upd (tsub t) m n) in
        match super t1 (tdef t1 m) with
        | Some s => bumpcix f t1 (cix t1 s) n
        | None => Some t1
        end
      else Some t
  end.

(** makes.c 352-358, the loop body for index i and the loop "for (i=nextcix-1; i>=newcix; i--)": [k] is the
    number of indices left, the next one is newcix+k-1 *)
Definition shift_one (t : ctab) (i : nat) : option ctab :=
  match bumpcix (S (ncls t)) t i (i + 1) with
  | None => None
  | Some t1 =>
      let d := upd (tdef t1) (i + 1) (tdef t1 i) in
      let s := upd (tsub t1) (i + 1) (tsub t1 i) in
      let c := upd (cix t1) (d i) (cix t1 (d i) + 1) in
      Some (mkTab (super t1) c d s (ncls t1) (objs t1))
  end.

Fixpoint shift_loop (k : nat) (t : ctab) (newcix : nat) : option ctab :=
  match k with
  | O => Some t
  | S j => match shift_one t (newcix + j) with Some t1 => shift_loop j t1 newcix | None => None end
  end.

(** makes.c 310-333 recixobj *)
Definition recixobj (newcix : nat) (l : list nat) : list nat :=
  map (fun c => if newcix <=? c then c + 1 else c) l.

(** makes.c 342-375 enterclass, for the class numbered [ncls t] whose super slot has just been filled
    (makeclass 377-405).  [None]: class table overflow error or cyclic super chain. *)
Definition enterclass (t0 : ctab) (sup : option nat) : option ctab :=
  let e := ncls t0 in
  let t := mkTab (upd (super t0) e sup) (cix t0) (tdef t0) (tsub t0) (ncls t0) (objs t0) in
  if MAXCLASS <=? ncls t then None else
  let finish t1 newcix :=
    mkTab (super t1) (upd (cix t1) e newcix) (upd (tdef t1) newcix e) (upd (tsub t1) newcix newcix)
          (S (ncls t1)) (objs t1) in
  match sup with
  | Some s =>
      let supercix := cix t s in
      let newcix := tsub t supercix + 1 in
      match shift_loop (ncls t - newcix) t newcix with
      | None => None
      | Some t1 =>
          match bumpcix (S (ncls t1)) t1 supercix newcix with
          | None => None
          | Some t2 =>
              let t3 := if newcix <? ncls t2
                        then mkTab (super t2) (cix t2) (tdef t2) (tsub t2) (ncls t2) (recixobj newcix (objs t2))
                        else t2 in
              Some (finish t3 newcix)
          end
      end
  | None => Some (finish t (ncls t))
  end.

(** makes.c 407-415 makeobject: the header gets the cix of the class *)
Definition makeobject (t : ctab) (c : nat) : ctab :=
  mkTab (super t) (cix t) (tdef t) (tsub t) (ncls t) (objs t ++ [cix t c]).

(** leo.c 40-50 SUBCLASSP *)
Definition subclassp (t : ctab) (a b : nat) : bool :=
  let k := cix t a in let s := cix t b in (s <=? k) && (k <=? tsub t s).
(** leo.c 52-68 DERIVEDP for an object given by its header cix *)
Definition derivedp (t : ctab) (objcix b : nat) : bool :=
  let s := cix t b in (s <=? objcix) && (objcix <=? tsub t s).
(** eus.h classof: classtab[header cix].def *)
Definition classof (t : ctab) (objcix : nat) : nat := tdef t objcix.

Inductive cop := DefClass (sup : option nat) | New (c : nat).
Definition cstep (t : ctab) (o : cop) : option ctab :=
  match o with DefClass s => enterclass t s | New c => Some (makeobject t c) end.
Fixpoint crun (t : ctab) (os : list cop) : option ctab :=
  match os with [] => Some t | o :: r => match cstep t o with Some t1 => crun t1 r | None => None end end.

(** * Methods and the method cache

    Selectors are addresses of symbols, [nilsym] is the address of NIL, [caddr c] the address of class [c].
    The address NULL with which a cache starts is [None]: no Lisp object has it; the class of an entry is
    [None] for NULL and for NIL.  A method is a number; the
    method list of a class holds (selector, method) pairs.  Left out: the :class and documentation properties
    put on the selector, forwarding (findforward), the hit counters. *)
Definition MAXMETHCACHE := 256.  (* eus.h 520 *)
Record entry := mkEntry { e_sel : option N; e_class : option nat; e_owner : nat; e_meth : nat }.
Definition null_entry := mkEntry None None 0 0.

Record world := mkWorld { w_super : nat -> option nat; w_n : nat; w_meths : nat -> list (N * nat);
                          w_cache : list (nat -> entry); w_try : bool }.
(** one thread, empty cache (makes.c 896-901) *)
Definition world0 := mkWorld (fun _ => None) 0 (fun _ => []) [fun _ => null_entry] true.

(** leo.c 114-122: replace in place or append *)
Fixpoint put_method (sel : N) (m : nat) (l : list (N * nat)) : list (N * nat) :=
  match l with
  | [] => [(sel, m)]
  | p :: r => if N.eqb (fst p) sel then (sel, m) :: r else p :: put_method sel m r
  end.

Definition class_is (e : entry) (c : nat) : bool := match e_class e with Some k => Nat.eqb k c | None => false end.
Definition sel_is (e : entry) (sel : N) : bool := match e_sel e with Some s => N.eqb s sel | None => false end.

(** leo.c 126-130: entries with this selector, in every thread, get selector NIL *)
Definition purge (nilsym sel : N) (c : nat -> entry) : nat -> entry := fun i =>
  if sel_is (c i) sel then mkEntry (Some nilsym) (e_class (c i)) (e_owner (c i)) (e_meth (c i)) else c i.

(** leo.c 90-131 addmethod *)
Definition addmethod (nilsym : N) (w : world) (c : nat) (sel : N) (m : nat) : world :=
  mkWorld (w_super w) (w_n w) (upd (w_meths w) c (put_method sel m (w_meths w c)))
          (map (purge nilsym sel) (w_cache w)) (w_try w).

Fixpoint in_class (sel : N) (l : list (N * nat)) : option nat :=
  match l with [] => None | (s, m) :: r => if N.eqb s sel then Some m else in_class sel r end.

(** leo.c 218-232: the search proper.  [None] also stands for a super chain longer than the fuel. *)
Fixpoint search (fuel : nat) (w : world) (sel : N) (c : nat) : option (nat * nat) :=
  match fuel with
  | O => None
  | S f => match in_class sel (w_meths w c) with
           | Some m => Some (c, m)
           | None => match w_super w c with Some s => search f w sel s | None => None end
           end
  end.

(** leo.c 211: h=((sel+klass)>>3) & (MAXMETHCACHE-1) *)
Definition slot_of (caddr : nat -> N) (sel : N) (c : nat) : nat :=
  N.to_nat (N.land (N.shiftr (sel + caddr c) 3) 255).

Definition cache_of (w : world) (t : nat) : nat -> entry := nth t (w_cache w) (fun _ => null_entry).
Fixpoint put {A} (i : nat) (x : A) (l : list A) : list A :=
  match l, i with [], _ => [] | _ :: r, O => x :: r | y :: r, S j => y :: put j x r end.

(** leo.c 210-217: probe the cache of thread [t] *)
Definition probe (caddr : nat -> N) (w : world) (t : nat) (sel : N) (c : nat) : option (nat * nat) :=
  if w_try w then
    let e := cache_of w t (slot_of caddr sel c) in
    if sel_is e sel && class_is e c then Some (e_owner e, e_meth e) else None
  else None.

(** leo.c 223-228: store what the search found *)
Definition store (caddr : nat -> N) (w : world) (t : nat) (sel : N) (c : nat) (r : option (nat * nat)) : world :=
  match r with
  | Some (o, m) =>
      if w_try w then
        mkWorld (w_super w) (w_n w) (w_meths w)
                (put t (upd (cache_of w t) (slot_of caddr sel c) (mkEntry (Some sel) (Some c) o m)) (w_cache w)) (w_try w)
      else w
  | None => w
  end.

(** leo.c 203-234 findmethod, run by thread [t] without interruption *)
Definition findmethod (caddr : nat -> N) (w : world) (t : nat) (sel : N) (c : nat) : world * option (nat * nat) :=
  match probe caddr w t sel c with
  | Some r => (w, Some r)
  | None => let r := search (S (w_n w)) w sel c in (store caddr w t sel c r, r)
  end.

(** makes.c 377-405 for the parts method lookup reads *)
Definition defclass (w : world) (sup : option nat) : world :=
  mkWorld (upd (w_super w) (w_n w) sup) (S (w_n w)) (upd (w_meths w) (w_n w) []) (w_cache w) (w_try w).

(** leo.c 433-444 METHCACHE with one argument: the flag is global, only the caller's cache is emptied *)
Definition methcache (nilsym : N) (w : world) (t : nat) (on : bool) : world :=
  mkWorld (w_super w) (w_n w) (w_meths w)
          (put t (fun i => let e := cache_of w t i in mkEntry (Some nilsym) None (e_owner e) (e_meth e)) (w_cache w)) on.

(** common.l 720-723 delete-method *)
Definition delete_method (nilsym : N) (w : world) (t c : nat) (sel : N) : world :=
  methcache nilsym
    (mkWorld (w_super w) (w_n w) (upd (w_meths w) c (filter (fun p => negb (N.eqb (fst p) sel)) (w_meths w c)))
             (w_cache w) (w_try w)) t true.

(** makes.c 896-901: a new thread gets an empty cache *)
Definition new_thread (w : world) : world :=
  mkWorld (w_super w) (w_n w) (w_meths w) (w_cache w ++ [fun _ => null_entry]) (w_try w).

Inductive mop :=
| MClass (sup : option nat)                  (* defclass *)
| MDef (c : nat) (sel : N) (m : nat)         (* defmethod *)
| MSend (t c : nat) (sel : N)                (* thread t sends sel to an instance of class c *)
| MDelete (t c : nat) (sel : N)              (* delete-method, run by thread t *)
| MCache (t : nat) (on : bool)               (* (sys:method-cache on), run by thread t *)
| MThread.                                   (* a new thread *)

Definition mstep (caddr : nat -> N) (nilsym : N) (w : world) (o : mop) : world :=
  match o with
  | MClass s => defclass w s
  | MDef c sel m => addmethod nilsym w c sel m
  | MSend t c sel => fst (findmethod caddr w t sel c)
  | MDelete t c sel => delete_method nilsym w t c sel
  | MCache t on => methcache nilsym w t on
  | MThread => new_thread w
  end.
Definition mrun (caddr : nat -> N) (nilsym : N) (os : list mop) : world := fold_left (mstep caddr nilsym) os world0.
