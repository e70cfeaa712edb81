(** Model of the string functions: lisp/c/charstring.c (comparison 91-176, case 65-90), lisp/l/string.l:63-133
    (true-string, string, the trimming and case functions, string=, string-equal, substringp), get_string and
    Getstring (lisp/c/makes.c:61-71).

    A string is a list of bytes (0..255).  The code that builds strings leaves a zero byte after the last character
    (makestring, lisp/c/makes.c:147-155; makevector, 417-436, used by subseq and copy-seq), and the word before the
    first character is the length, whose highest byte, the one just before the characters on a little-endian machine,
    is zero.  All other bytes around a string are unknown: reading or writing them is [Undef].

    string.l is compiled, and the compiler translates [char] and [setchar] to accesses without a bounds check
    (lisp/comp/comp.l:439-440, comp/trans.l:378-389).  Foreign strings are left out. *)
From Coq Require Export List ZArith Bool Lia.
From Verif Require Import Word.
Export ListNotations.
Open Scope Z_scope.

Definition str := list Z.

Inductive result (A : Type) : Type := Val (a : A) | Error | Undef.
Arguments Val {A} a.  Arguments Error {A}.  Arguments Undef {A}.

Definition bind {A B} (r : result A) (k : A -> result B) : result B :=
  match r with Val a => k a | Error => Error | Undef => Undef end.

Definition len (s : str) : Z := Z.of_nat (length s).

(** ** Comparison *)

(** C library strcmp on the characters and the zero after them: the sign of the first difference. *)
Fixpoint strcmp (a b : str) : Z :=
  match a, b with
  | [], [] => 0
  | [], y :: _ => if y =? 0 then 0 else -1
  | x :: _, [] => if x =? 0 then 0 else 1
  | x :: a', y :: b' =>
      if x =? y then (if x =? 0 then 0 else strcmp a' b')
      else if x <? y then -1 else 1
  end.

(** charstring.c:139-176; string= of 154-160 is replaced by string.l:118 *)
Definition STR_LT (a b : str) : bool := strcmp a b <? 0.
Definition STR_LE (a b : str) : bool := strcmp a b <=? 0.
Definition STR_GT (a b : str) : bool := strcmp a b >? 0.
Definition STR_GE (a b : str) : bool := strcmp a b >=? 0.

(** C locale islower, isupper, toupper, tolower on 0..255 *)
Definition islower (c : Z) : bool := (97 <=? c) && (c <=? 122).
Definition isupper (c : Z) : bool := (65 <=? c) && (c <=? 90).

(** charstring.c:77-89 *)
Definition char_upcase (c : Z) : Z := if islower c then c - 32 else c.
Definition char_downcase (c : Z) : Z := if isupper c then c + 32 else c.

(** A byte at an index counted from the first character *)
Definition getc (s : str) (i : Z) : result Z :=
  if i =? -1 then Val 0
  else if i <? 0 then Undef
  else if i <? len s then Val (nth (Z.to_nat i) s 0)
  else if i =? len s then Val 0
  else Undef.

(** The loops 107 and 127-132.  [f] is the identity or [char_upcase]; the rounds are counted by len. *)
Fixpoint eq_loop (f : Z -> Z) (n : nat) (a : str) (i : Z) (b : str) (j : Z) : result bool :=
  match n with
  | O => Val true
  | S n => bind (getc a i) (fun x => bind (getc b j) (fun y =>
           if f x =? f y then eq_loop f n a (i + 1) b (j + 1) else Val false))
  end.

(** charstring.c:91-132; the bounds are ints *)
Definition string_eq (f : Z -> Z) (a b : str) (start1 end1 start2 end2 : Z) : result bool :=
  let start1 := wrap32 start1 in
  let end1 := Z.min (wrap32 end1) (len a) in
  let start2 := wrap32 start2 in
  let end2 := Z.min (wrap32 end2) (len b) in
  let n := wrap32 (end1 - start1) in
  if negb (n =? wrap32 (end2 - start2)) then Val false
  else eq_loop f (Z.to_nat n) a start1 b start2.

(** string.l:118-124.  Omitted ends are 100000000. *)
Definition DEFAULT_END : Z := 100000000.
Definition or_default (e : option Z) : Z := match e with Some e => e | None => DEFAULT_END end.

Definition string_same (a b : str) (start1 : Z) (end1 : option Z) (start2 : Z) (end2 : option Z) : result bool :=
  string_eq (fun c => c) a b start1 (or_default end1) start2 (or_default end2).

Definition string_equal (a b : str) (start1 : Z) (end1 : option Z) (start2 : Z) (end2 : option Z) : result bool :=
  string_eq char_upcase a b start1 (or_default end1) start2 (or_default end2).

(** string.l:125-131: j runs from 0 to length str - length sub *)
Fixpoint substringp_loop (rounds : nat) (sub s : str) (j : Z) : result bool :=
  match rounds with
  | O => Val false
  | S n => bind (string_equal sub s 0 None j (Some (j + len sub))) (fun r =>
           if r then Val true else substringp_loop n sub s (j + 1))
  end.

Definition substringp (sub s : str) : result bool :=
  substringp_loop (Z.to_nat (len s - len sub + 1)) sub s 0.

(** ** Trimming *)

(** (position c bag): only whether there is one matters *)
Definition in_bag (bag : str) (c : Z) : bool := existsb (Z.eqb c) bag.

(** sequence.c:117-170 [subseq] on a string with both bounds *)
Definition subseq (s : str) (b e : Z) : result str :=
  if e <? b then Error
  else
    let e := Z.min e (len s) in
    if (b <? 0) || (e <? b) then Undef
    else Val (firstn (Z.to_nat (e - b)) (skipn (Z.to_nat b) s)).

(** string.l:75-81.  The loop ends at the latest at an undefined access; [fuel] rounds are enough. *)
Fixpoint left_loop (fuel : nat) (bag s : str) (n : Z) : result Z :=
  match fuel with
  | O => Undef
  | S f => bind (getc s n) (fun c => if in_bag bag c then left_loop f bag s (n + 1) else Val n)
  end.

Definition string_left_trim (bag s : str) : result str :=
  bind (left_loop (length s + 2) bag s 0) (fun n => subseq s n (len s)).

(** string.l:83-88 *)
Fixpoint right_loop (fuel : nat) (bag s : str) (leng : Z) : result Z :=
  match fuel with
  | O => Undef
  | S f => bind (getc s (leng - 1)) (fun c => if in_bag bag c then right_loop f bag s (leng - 1) else Val leng)
  end.

Definition string_right_trim (bag s : str) : result str :=
  bind (right_loop (length s + 2) bag s (len s)) (fun n => subseq s 0 n).

(** string.l:90-91 *)
Definition string_trim (bag s : str) : result str :=
  bind (string_right_trim bag s) (fun r => string_left_trim bag r).

(** ** Case conversion, on a memory of string objects *)

(** String objects by address; a symbol is given by the address of its print name. *)
Definition memory := list str.
Inductive obj : Type := Str (a : nat) | Sym (pname : nat) | Other.

Definition content (m : memory) (a : nat) : str := nth a m [].

Fixpoint set_nth {A} (n : nat) (l : list A) (x : A) : list A :=
  match l, n with
  | [], _ => []
  | _ :: r, O => x :: r
  | y :: r, S n => y :: set_nth n r x
  end.

(** trans.l:383-389 *)
Definition setc (s : str) (i v : Z) : result str :=
  if (0 <=? i) && (i <? len s) then Val (set_nth (Z.to_nat i) s (v mod 256)) else Undef.

(** string.l:93-107: the while loop of nstring-downcase and nstring-upcase.  The rounds are end - start. *)
Fixpoint case_loop (f : Z -> Z) (rounds : nat) (m : memory) (a : nat) (start : Z) : result memory :=
  match rounds with
  | O => Val m
  | S n => bind (getc (content m a) start) (fun c =>
           bind (setc (content m a) start (f c)) (fun s =>
           case_loop f n (set_nth a m s) a (start + 1)))
  end.

Definition nstring_case (f : Z -> Z) (m : memory) (o : obj) (start : Z) (end_ : option Z) : result (memory * obj) :=
  match o with
  | Str a =>
      let e := match end_ with Some e => e | None => len (content m a) end in
      bind (case_loop f (Z.to_nat (e - start)) m a start) (fun m' => Val (m', Str a))
  | _ => Error
  end.

(** string.l:64-65 [true-string]: the string itself *)
Definition true_string (o : obj) : result nat :=
  match o with Str a => Val a | Sym a => Val a | Other => Error end.

(** sequence.c:173-205 [copy-seq] on a string: a new object *)
Definition copy_seq (m : memory) (a : nat) : memory * nat := (m ++ [content m a], length m).

(** string.l:109-116 *)
Definition string_case (f : Z -> Z) (m : memory) (o : obj) (start : Z) (end_ : option Z) : result (memory * obj) :=
  bind (true_string o) (fun a =>
  let c := copy_seq m a in
  nstring_case f (fst c) (Str (snd c)) start
    (Some (match end_ with Some e => e | None => len (content (fst c) (snd c)) end))).

(** string.l:67-71 [string] on strings and symbols *)
Definition string_of (m : memory) (o : obj) : result (memory * obj) :=
  match o with
  | Str a => Val (m, Str a)
  | Sym a => let c := copy_seq m a in Val (fst c, Str (snd c))
  | Other => Error
  end.
